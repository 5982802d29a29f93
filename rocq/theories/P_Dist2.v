(** Inverse Gaussian distribution: quadrature exactness and moments. *)
From Coq Require Import Reals Lra Lia List Psatz Bool.
From Coquelicot Require Import Coquelicot.
From Verif Require Import Base Gauss Sums M_Opt M_Sabr M_Dist Spec_Opt Spec_Expect Spec_Dist P_Black P_Expect P_Gmom P_Gmom2 P_Dist.
Import ListNotations.
Open Scope R_scope.

(** *** from a monotone exhaustion of (0, infinity) to the two-sided improper integral *)
Lemma RInt_incl_le (F : R -> R) a b c d : (forall t, 0 < t -> 0 <= F t) -> (forall t, 0 < t -> continuous F t) ->
  0 < a -> a <= c -> c <= d -> d <= b -> RInt F c d <= RInt F a b.
Proof.
  intros Hp Hc Ha H1 H2 H3.
  assert (I : forall u v, 0 < u -> u <= v -> ex_RInt (V := R_CompleteNormedModule) F u v).
  { intros u v Hu Huv. apply (ex_RInt_continuous (V := R_CompleteNormedModule)). intros t. rewrite Rmin_left, Rmax_right by lra. intros Ht. apply Hc. lra. }
  assert (P : forall u v, 0 < u -> u <= v -> 0 <= RInt F u v).
  { intros u v Hu Huv. apply RInt_ge_0; [exact Huv|now apply I|]. intros t Ht. apply Hp. lra. }
  rewrite <- (RInt_Chasles (V := R_CompleteNormedModule) F a c b) by (apply I; lra).
  rewrite <- (RInt_Chasles (V := R_CompleteNormedModule) F c d b) by (apply I; lra).
  apply Rle_trans with (0 + (RInt F c d + 0)); [rewrite Rplus_0_l, Rplus_0_r; apply Rle_refl|].
  apply Rplus_le_compat; [exact (P a c Ha H1)|apply Rplus_le_compat; [apply Rle_refl|exact (P d b ltac:(lra) H3)]].
Qed.
Lemma half_line_of (F x : R -> R) (v : R) : (forall t, 0 < t -> 0 <= F t) -> (forall t, 0 < t -> continuous F t) ->
  (forall b, 0 < b -> 0 < x (- b) /\ x (- b) <= x b) ->
  (forall a M, 0 < a -> exists b0, forall b, b0 <= b -> x (- b) <= a /\ M <= x b) ->
  is_lim (fun b => RInt F (x (- b)) (x b)) p_infty v -> half_line F v.
Proof.
  intros Hp Hc Hx Hex HL. unfold half_line, is_RInt_gen. intros P [e He].
  apply is_lim_spec in HL. destruct (HL e) as [B HB].
  set (b0 := Rmax 1 (B + 1)). assert (B0 : 0 < b0) by (unfold b0; pose proof (Rmax_l 1 (B + 1)); lra).
  assert (B1 : B < b0) by (unfold b0; pose proof (Rmax_r 1 (B + 1)); lra).
  destruct (Hx b0 B0) as [X1 X2].
  apply (Filter_prod _ _ _ (fun a => 0 < a /\ a < x (- b0)) (fun b => x b0 < b)).
  - exists (mkposreal _ X1). intros y Hy Hy0. split; [exact Hy0|]. unfold ball in Hy; cbn in Hy. unfold AbsRing_ball in Hy; cbn in Hy.
    unfold abs, minus, plus, opp in Hy; cbn in Hy. rewrite Rabs_right in Hy by lra. lra.
  - exists (x b0). auto.
  - intros a b [Ha1 Ha2] Hb. cbn [fst snd].
    exists (RInt F a b). split.
    { apply (RInt_correct (V := R_CompleteNormedModule)). apply (ex_RInt_continuous (V := R_CompleteNormedModule)). intros t. rewrite Rmin_left, Rmax_right by lra. intros Ht. apply Hc. lra. }
    apply He. unfold ball; cbn. unfold AbsRing_ball; cbn. unfold abs, minus, plus, opp; cbn.
    destruct (Hex a b Ha1) as [c Hcc]. set (b1 := Rmax b0 c). destruct (Hcc b1 (Rmax_r _ _)) as [Y1 Y2].
    assert (HB1 : b0 <= b1) by apply Rmax_l. destruct (Hx b1 ltac:(lra)) as [Z1 Z2].
    pose proof (RInt_incl_le F a b (x (- b0)) (x b0) Hp Hc Ha1 ltac:(lra) X2 ltac:(lra)) as L1.
    pose proof (RInt_incl_le F (x (- b1)) (x b1) a b Hp Hc Z1 Y1 ltac:(lra) Y2) as L2.
    pose proof (HB b0 B1) as E1. pose proof (HB b1 ltac:(lra)) as E2. cbv beta in E1, E2.
    apply Rabs_def2 in E1. apply Rabs_def2 in E2. 
    change (@RInt R_CompleteNormedModule F (x (- b0)) (x b0) <= @RInt R_CompleteNormedModule F a b) in L1.
    change (@RInt R_CompleteNormedModule F a b <= @RInt R_CompleteNormedModule F (x (- b1)) (x b1)) in L2.
    change (Rabs (@RInt R_CompleteNormedModule F a b - v) < e). set (I := @RInt R_CompleteNormedModule F a b) in *.
    set (I0 := @RInt R_CompleteNormedModule F (x (- b0)) (x b0)) in *. set (I1 := @RInt R_CompleteNormedModule F (x (- b1)) (x b1)) in *.
    clearbody I I0 I1. cbn in I, I0, I1. apply Rabs_def1; lra.
Qed.

(** *** the node map *)
Definition igs (fac z : R) : R := z * sqrt (fac / 2).
Definition igr (fac z : R) : R := sqrt (1 + igs fac z ^ 2).
Definition igh (fac z : R) : R := (igs fac z + igr fac z) ^ 2.
Section IG.
Variable fac : R.
Hypothesis Hf : 0 < fac.
Lemma igs2 z : igs fac z ^ 2 = z ^ 2 * fac / 2.
Proof. unfold igs. rewrite Rpow_mult_distr, pow2_sqrt by lra. field. Qed.
Lemma igr2 z : igr fac z * igr fac z = 1 + igs fac z ^ 2.
Proof. unfold igr. apply sqrt_sqrt. pose proof (pow2_ge_0 (igs fac z)). lra. Qed.
Lemma igr_pos z : 0 < igr fac z.
Proof. unfold igr. apply sqrt_lt_R0. pose proof (pow2_ge_0 (igs fac z)). lra. Qed.
Lemma igr_gt z : Rabs (igs fac z) < igr fac z.
Proof.
  pose proof (igr2 z). pose proof (igr_pos z). apply Rabs_def1; [apply Rnot_le_lt|apply Rnot_le_lt]; intro; nra.
Qed.
Lemma ig_sum_pos z : 0 < igs fac z + igr fac z.
Proof. pose proof (igr_gt z). pose proof (Rle_abs (- igs fac z)). rewrite Rabs_Ropp in H0. lra. Qed.
Lemma igh_pos z : 0 < igh fac z.
Proof. unfold igh. apply pow_lt, ig_sum_pos. Qed.
Lemma igs_opp z : igs fac (- z) = - igs fac z. Proof. unfold igs. ring. Qed.
Lemma igr_opp z : igr fac (- z) = igr fac z. Proof. unfold igr. rewrite igs_opp. f_equal. ring. Qed.
Lemma igh_opp z : igh fac (- z) = / igh fac z.
Proof.
  unfold igh. rewrite igs_opp, igr_opp. pose proof (igr2 z). pose proof (ig_sum_pos z).
  apply (Rmult_eq_reg_r ((igs fac z + igr fac z) ^ 2)); [|apply pow_nonzero; lra]. rewrite Rinv_l by (apply pow_nonzero; lra).
  replace ((- igs fac z + igr fac z) ^ 2 * (igs fac z + igr fac z) ^ 2) with ((igr fac z * igr fac z - igs fac z ^ 2) ^ 2) by ring. rewrite H. ring.
Qed.
Lemma igh_big z : 0 <= z -> igh fac z = 1 + z ^ 2 * fac + z * sqrt (fac * (2 + z ^ 2 * fac)).
Proof.
  intros Hz. unfold igh. replace (z * sqrt (fac * (2 + z ^ 2 * fac))) with (2 * igs fac z * igr fac z).
  - replace ((igs fac z + igr fac z) ^ 2) with (igs fac z ^ 2 + igr fac z * igr fac z + 2 * igs fac z * igr fac z) by ring. rewrite igr2, igs2. field.
  - unfold igr, igs at 1. rewrite igs2. replace (fac * (2 + z ^ 2 * fac)) with (4 * (fac / 2 * (1 + z ^ 2 * fac / 2))) by field.
    assert (0 <= z ^ 2 * fac) by (apply Rmult_le_pos; [apply pow2_ge_0|lra]).
    rewrite (sqrt_mult 4), (sqrt_mult (fac / 2)) by nra. replace 4 with (2 ^ 2) by ring. rewrite sqrt_pow2 by lra. ring.
Qed.
Lemma ig_node_eq z : ig_node fac z = igh fac z.
Proof.
  unfold ig_node. cbv zeta. destruct Rlt_dec as [H|H].
  - rewrite Rabs_left by exact H. replace (z ^ 2) with ((- z) ^ 2) by ring. rewrite <- igh_big by lra. rewrite igh_opp. rewrite <- (igh_opp (- z)) || idtac.
    unfold Rdiv. rewrite Rinv_inv. ring.
  - rewrite Rabs_right by lra. symmetry. apply igh_big. lra.
Qed.
(** h + 1/h = 2 + 2 y *)
Lemma igh_sum z : igh fac z + / igh fac z = 2 + 2 * (z ^ 2 * fac).
Proof.
  rewrite <- igh_opp. unfold igh. rewrite igs_opp, igr_opp.
  replace ((igs fac z + igr fac z) ^ 2 + (- igs fac z + igr fac z) ^ 2) with (2 * igs fac z ^ 2 + 2 * (igr fac z * igr fac z)) by ring.
  rewrite igr2, igs2. field.
Qed.
(** symmetrised powers as polynomials in z^2 *)
Fixpoint peval (l : list R) (t : R) : R := match l with [] => 0 | a :: m => a + t * peval m t end.
Fixpoint padd (l m : list R) : list R := match l, m with [], _ => m | _, [] => l | a :: l', b :: m' => (a + b) :: padd l' m' end.
Definition pscal (c : R) (l : list R) : list R := map (Rmult c) l.
Lemma peval_padd l m t : peval (padd l m) t = peval l t + peval m t.
Proof. revert m. induction l as [|a l IH]; intros [|b m]; cbn; try ring. rewrite IH. ring. Qed.
Lemma peval_pscal c l t : peval (pscal c l) t = c * peval l t.
Proof. induction l as [|a l IH]; cbn; [ring|]. unfold pscal in IH. rewrite IH. ring. Qed.
Lemma padd_length l m : length (padd l m) = Nat.max (length l) (length m).
Proof. revert m. induction l as [|a l IH]; intros [|b m]; cbn; auto. Qed.
Definition igU (n : nat) (z : R) : R := (igh fac z ^ n + / igh fac z ^ n * igh fac z) / (1 + igh fac z).
Lemma igU_rec n z : igU (S (S n)) z = (2 + 2 * (z ^ 2 * fac)) * igU (S n) z - igU n z.
Proof.
  pose proof (igh_pos z). rewrite <- igh_sum. unfold igU. cbn [pow]. assert (0 < igh fac z ^ n) by (apply pow_lt; lra). field. repeat split; lra.
Qed.
Fixpoint igpoly (n : nat) : list R * list R :=
  match n with O => ([1], [1]) | S m => let '(p, q) := igpoly m in (q, padd (padd (pscal 2 q) (0 :: pscal (2 * fac) q)) (pscal (-1) p)) end.
Lemma igpoly_eval n z : peval (fst (igpoly n)) (z ^ 2) = igU n z /\ peval (snd (igpoly n)) (z ^ 2) = igU (S n) z.
Proof.
  induction n as [|n [I1 I2]].
  - pose proof (igh_pos z). cbn [igpoly fst snd peval]. unfold igU. split; cbn [pow]; field; lra.
  - cbn [igpoly]. destruct (igpoly n) as [p q]. cbn [fst snd] in *. split; [exact I2|].
    rewrite !peval_padd, !peval_pscal. cbn [peval]. rewrite peval_pscal, I1, I2, igU_rec. ring.
Qed.
Lemma igpoly_length n : (length (fst (igpoly n)) <= Nat.max 1 n)%nat /\ (length (snd (igpoly n)) <= S n)%nat.
Proof.
  induction n as [|n [I1 I2]]; [cbn; lia|]. cbn [igpoly]. destruct (igpoly n) as [p q]. cbn [fst snd] in *. split; [lia|].
  rewrite !padd_length. cbn [length]. unfold pscal. rewrite !map_length. lia.
Qed.
Definition pmean (l : list R) : R := rsum (length l) (fun k => nth k l 0 * odd_product k).
Lemma peval_sum l t : peval l t = rsum (length l) (fun k => nth k l 0 * t ^ k).
Proof.
  induction l as [|a l IH]; [reflexivity|]. cbn [length]. rewrite rsum_shift. cbn [peval nth pow]. rewrite IH, <- rsum_scal.
  rewrite Rmult_1_r. f_equal. apply rsum_ext. intros. ring.
Qed.
Lemma gauss_expect_rsum n (f : nat -> R -> R) (v : nat -> R) : (forall k, (k < n)%nat -> gauss_expect (f k) (v k)) ->
  gauss_expect (fun z => rsum n (fun k => f k z)) (rsum n v).
Proof.
  induction n as [|n IH]; intros H; [exact (gauss_expect_const 0)|].
  apply (gauss_expect_plus (fun z => rsum n (fun k => f k z)) (f n)); [apply IH; intros; apply H; lia|apply H; lia].
Qed.
Lemma pmean_expect l : gauss_expect (fun z => peval l (z ^ 2)) (pmean l).
Proof.
  apply (gauss_expect_ext (fun z => rsum (length l) (fun k => nth k l 0 * z ^ (2 * k)))).
  - intros z. rewrite peval_sum. apply rsum_ext. intros. now rewrite <- pow_mult.
  - apply (gauss_expect_rsum _ (fun k z => nth k l 0 * z ^ (2 * k))). intros. apply gauss_expect_scal, gauss_even_moment.
Qed.
Lemma rule_sum_rsum n (f : nat -> R -> R) zw : rule_sum (fun z => rsum n (fun k => f k z)) zw = rsum n (fun k => rule_sum (f k) zw).
Proof.
  induction n as [|n IH]; [cbn [rsum]; rewrite (rule_sum_ext _ (fun _ => 0 * 0)) by (intros; ring); rewrite (rule_sum_scal 0 (fun _ => 0)); ring|].
  cbn [rsum]. rewrite <- IH. apply (rule_sum_plus (fun z => rsum n (fun k => f k z)) (f n)).
Qed.
Lemma pmean_rule n l zw : hermite_rule n zw -> (length l <= n)%nat -> rule_sum (fun z => peval l (z ^ 2)) zw = pmean l * rule_sum (fun _ => 1) zw.
Proof.
  intros (_ & _ & H) Hl.
  rewrite (rule_sum_ext _ (fun z => rsum (length l) (fun k => nth k l 0 * z ^ (2 * k)))).
  2:{ intros z. rewrite peval_sum. apply rsum_ext. intros. now rewrite <- pow_mult. }
  rewrite (rule_sum_rsum (length l) (fun k z => nth k l 0 * z ^ (2 * k))). unfold pmean. rewrite <- rsum_scal_r. apply rsum_ext. intros k Hk.
  rewrite rule_sum_scal, H by lia. ring.
Qed.
Lemma sym_half g e zw : symmetric_rule zw -> (forall z, g z + g (- z) = 2 * e z) -> rule_sum g zw = rule_sum e zw.
Proof.
  intros Sy H. apply (Rmult_eq_reg_l 2); [|lra]. rewrite <- (rule_sum_scal 2 e). rewrite <- (rule_sum_ext (fun z => g z + g (- z)) _ _ H).
  rewrite (rule_sum_plus g (fun z => g (- z))), (Sy g). ring.
Qed.
Lemma ig_sym n z : 2 / (1 + igh fac z) * igh fac z ^ n + 2 / (1 + igh fac (- z)) * igh fac (- z) ^ n = 2 * peval (fst (igpoly n)) (z ^ 2).
Proof.
  rewrite (proj1 (igpoly_eval n z)), igh_opp. pose proof (igh_pos z). unfold igU. rewrite pow_inv. assert (0 < igh fac z ^ n) by (apply pow_lt; lra).
  field. repeat split; lra.
Qed.
Lemma ig_sym_inv n z : 2 / (1 + igh fac z) * / igh fac z ^ n + 2 / (1 + igh fac (- z)) * / igh fac (- z) ^ n = 2 * peval (snd (igpoly n)) (z ^ 2).
Proof.
  rewrite (proj2 (igpoly_eval n z)), igh_opp. pose proof (igh_pos z). unfold igU. rewrite pow_inv. cbn [pow]. assert (0 < igh fac z ^ n) by (apply pow_lt; lra).
  field. repeat split; lra.
Qed.
End IG.
