(** get_nodes_weights of heston_rough_mc.py: the sum of exponentials against the kernel. *)
From Coq Require Import Reals List Lra Lia Psatz ZArith.
From Coquelicot Require Import Coquelicot.
From Verif Require Import Base Sums Spec_Cev P_Gamma P_Gamma2 P_Digamma M_Fd M_Opt M_Rough P_Rough M_RoughMc Spec_RoughMc P_RoughMc.
Import ListNotations.
Open Scope R_scope.
Lemma two_pos y : 0 < Rpower 2 y. Proof. apply exp_pos. Qed.
Lemma rp_mono x y : x <= y -> Rpower 2 x <= Rpower 2 y.
Proof. intros H. unfold Rpower. apply exp_le. assert (0 < ln 2) by (rewrite <- ln_1; apply ln_increasing; lra). nra. Qed.
Section N.
Variable Gam : R -> R.
Hypothesis HG : gamma_function Gam.
Variables (al t : R) (P : R -> R).
Hypothesis (Hal : 0 < al < 1) (Ht : 0 < t) (HP : cdf_of (gamma_pdf Gam al) P).
Let Q (x : R) : R := Rpower t (- al) * P (t * x).
Lemma GP : 0 < Gam al. Proof. apply (Gam_pos Gam HG). lra. Qed.
Lemma Q_derive x : 0 < x -> is_derive Q x (Rpower x (al - 1) * exp (- x * t) / Gam al).
Proof.
  intros Hx. assert (Ptx : 0 < t * x) by now apply Rmult_lt_0_compat. pose proof GP. destruct HP as [D _].
  eapply is_derive_eq.
  - unfold Q. apply is_derive_scal_R. apply (is_derive_comp_R P (fun y => t * y) x (gamma_pdf Gam al (t * x)) t); [now apply D|]. auto_derive; [exact I|ring].
  - unfold gamma_pdf. rewrite <- Rpower_mult_distr by assumption. replace (exp (- (t * x))) with (exp (- x * t)) by (f_equal; ring).
    replace (Rpower t (- al)) with (/ (t * Rpower t (al - 1))).
    + pose proof (exp_pos ((al - 1) * ln t)). fold (Rpower t (al - 1)) in *. field. lra.
    + rewrite Rpower_Ropp. f_equal. replace al with (al - 1 + 1) at 2 by ring. rewrite Rpower_plus, Rpower_1 by exact Ht. ring.
Qed.
Lemma leg_piece j q e : legendre_error q (leg_h al j t) e -> Rpower 2 (j - 1) / Gam al * quad q (leg_h al j t) = Q (Rpower 2 (j + 1)) - Q (Rpower 2 j) - Rpower 2 (j - 1) * e / Gam al.
Proof.
  intros E. set (b := Rpower 2 (j - 1)). assert (Pb : 0 < b) by apply two_pos. pose proof GP.
  assert (I : is_RInt (leg_h al j t) (- (1)) 1 (minus (Gam al / b * Q (b * (1 + 3))) (Gam al / b * Q (b * (- (1) + 3))))).
  { apply (is_RInt_derive (V := R_CompleteNormedModule) (fun s => Gam al / b * Q (b * (s + 3)))).
    - intros s Hs. rewrite Rmin_left, Rmax_right in Hs by lra. eapply is_derive_eq.
      + apply is_derive_scal_R. apply (is_derive_comp_R Q (fun y => b * (y + 3)) s (Rpower (b * (s + 3)) (al - 1) * exp (- (b * (s + 3)) * t) / Gam al) b); [apply Q_derive; apply Rmult_lt_0_compat; lra|]. auto_derive; [exact I|ring].
      + unfold leg_h. fold b. cbv zeta. field. lra.
    - intros s Hs. rewrite Rmin_left, Rmax_right in Hs by lra. apply (ex_derive_continuous (K := R_AbsRing) (V := R_NormedModule)). unfold leg_h. fold b. cbv zeta. unfold Rpower. auto_derive. repeat (match goal with |- _ /\ _ => split end); try exact I; apply Rmult_lt_0_compat; lra. }
  unfold legendre_error in E. assert (U := is_RInt_unique _ _ _ _ E). assert (U2 := is_RInt_unique _ _ _ _ I). rewrite U in U2. unfold minus, plus, opp in U2; cbn in U2.
  replace (Rpower 2 (j + 1)) with (b * (1 + 3)). replace (Rpower 2 j) with (b * (- (1) + 3)).
  - replace (b / Gam al * quad q (leg_h al j t)) with (b / Gam al * (quad q (leg_h al j t) + e) - b * e / Gam al) by (field; lra). rewrite U2. field. lra.
  - replace j with (j - 1 + 1) by ring. rewrite Rpower_plus, Rpower_1 by lra. replace (j - 1 + 1 - 1) with (j - 1) by ring. fold b. ring.
  - replace (j + 1) with (j - 1 + 1 + 1) by ring. rewrite !Rpower_plus, Rpower_1 by lra. fold b. ring.
Qed.
Lemma Q_lim c : 0 < c -> filterlim (fun u => Q (c * u)) (at_right 0) (locally 0).
Proof.
  intros Hc. destruct HP as [_ [L _]]. apply (lim_scal_at0 (fun u => P (t * (c * u)))).
  apply (filterlim_comp _ _ _ (fun u => t * (c * u)) P (at_right 0) (at_right 0)); [|exact L].
  intros S [d Hd]. assert (Pt : 0 < t * c) by now apply Rmult_lt_0_compat. assert (Pd : 0 < d / (t * c)) by (apply Rdiv_lt_0_compat; [apply cond_pos|exact Pt]).
  exists (mkposreal _ Pd). intros y Hy Hy0. apply Hd.
  - change (Rabs (t * (c * y) - 0) < d). change (Rabs (y - 0) < d / (t * c)) in Hy. rewrite Rminus_0_r in *. rewrite Rabs_right in * by nra. apply (Rmult_lt_compat_l (t * c)) in Hy; [|exact Pt]. replace (t * c * (d / (t * c))) with (pos d) in Hy by (field; split; lra). lra.
  - rewrite <- Rmult_assoc. now apply Rmult_lt_0_compat.
Qed.
Lemma jac_piece (M : R) q e : jacobi_error (al - 1) q (jac_h M t) e -> Rpower (Rpower 2 (- M - 1)) al / Gam al * quad q (jac_h M t) = Q (Rpower 2 (- M)) - Rpower (Rpower 2 (- M - 1)) al * e / Gam al.
Proof.
  intros [F (F1 & F2 & F3)]. set (c := Rpower 2 (- M - 1)). assert (Pc : 0 < c) by apply two_pos. pose proof GP. assert (Pca : 0 < Rpower c al) by apply exp_pos.
  assert (D : forall u, 0 < u -> is_derive (fun u => Gam al / Rpower c al * Q (c * u)) u (Rpower u (al - 1) * jac_h M t (u - 1))).
  { intros u Hu. eapply is_derive_eq.
    - apply is_derive_scal_R. apply (is_derive_comp_R Q (fun y => c * y) u (Rpower (c * u) (al - 1) * exp (- (c * u) * t) / Gam al) c); [apply Q_derive; now apply Rmult_lt_0_compat|]. auto_derive; [exact I|ring].
    - unfold jac_h. fold c. replace (u - 1 + 1) with u by ring. rewrite <- Rpower_mult_distr by assumption. replace (Rpower c al) with (c * Rpower c (al - 1)); [|replace al with (al - 1 + 1) at 2 by ring; rewrite Rpower_plus, Rpower_1 by exact Pc; ring].
      assert (0 < Rpower c (al - 1)) by apply exp_pos. field. lra. }
  assert (L : filterlim (fun u => Gam al / Rpower c al * Q (c * u)) (at_right 0) (locally 0)) by (apply lim_scal_at0; now apply Q_lim).
  assert (E : F 2 = Gam al / Rpower c al * Q (c * 2)).
  { apply Rle_antisym.
    - exact (half_compare F _ _ _ 0 F1 D (fun _ _ => Rle_refl _) F2 L 2 Rlt_0_2).
    - exact (half_compare _ F _ _ 0 D F1 (fun _ _ => Rle_refl _) L F2 2 Rlt_0_2). }
  replace (Rpower 2 (- M)) with (c * 2).
  - replace (Rpower c al / Gam al * quad q (jac_h M t)) with (Rpower c al / Gam al * (quad q (jac_h M t) + e) - Rpower c al * e / Gam al) by (field; lra). rewrite <- F3, E. field. lra.
  - unfold c. replace (- M) with (- M - 1 + 1) at 2 by ring. rewrite Rpower_plus, Rpower_1 by lra. ring.
Qed.
Lemma jac_terms M q : kernel_sum (map (rm_jacobi Gam al M) q) t = Rpower (Rpower 2 (- M - 1)) al / Gam al * quad q (jac_h M t).
Proof.
  unfold kernel_sum, quad. rewrite map_map, <- lsum_map_scal. apply lsum_map_ext. intros [s w] _. unfold rm_jacobi, jac_h. cbn [fst snd]. rewrite Rpower_mult. unfold Rdiv. ring.
Qed.
Lemma leg_terms j q : kernel_sum (map (rm_legendre Gam al j) q) t = Rpower 2 (j - 1) / Gam al * quad q (leg_h al j t).
Proof.
  unfold kernel_sum, quad. rewrite map_map, <- lsum_map_scal. apply lsum_map_ext. intros [s w] _. unfold rm_legendre, leg_h. cbn [fst snd]. unfold Rdiv. ring.
Qed.
Lemma kernel_app a b : kernel_sum (a ++ b) t = kernel_sum a t + kernel_sum b t.
Proof. unfold kernel_sum. now rewrite map_app, lsum_app. Qed.
Lemma kernel_flat {A} (h : A -> list (R * R)) l : kernel_sum (flat_map h l) t = lsum (map (fun a => kernel_sum (h a) t) l).
Proof. unfold kernel_sum. now rewrite lsum_flat_map. Qed.
Theorem nodes_error M N qj qs ql (eJ : R) (es el : nat -> R) :
  jacobi_error (al - 1) qj (jac_h (INR M) t) eJ ->
  (forall i, (i < M)%nat -> legendre_error qs (leg_h al (INR i - INR M) t) (es i)) ->
  (forall j, (j <= N)%nat -> legendre_error ql (leg_h al (INR j) t) (el j)) ->
  Rpower t (- al) - kernel_sum (rm_all_nodes Gam al M N qj qs ql) t =
  Rpower t (- al) * (1 - P (t * 2 ^ S N)) +
  (Rpower (Rpower 2 (- INR M - 1)) al * eJ + rsum M (fun i => Rpower 2 (INR i - INR M - 1) * es i) + rsum (S N) (fun j => Rpower 2 (INR j - 1) * el j)) / Gam al.
Proof.
  intros HJ Hs Hl. pose proof GP. unfold rm_all_nodes. rewrite !kernel_app, !kernel_flat, jac_terms, (jac_piece _ _ _ HJ), !lsum_seq.
  rewrite (rsum_ext M _ (fun i => (Q (Rpower 2 (INR (S i) - INR M)) - Q (Rpower 2 (INR i - INR M))) - / Gam al * (Rpower 2 (INR i - INR M - 1) * es i))).
  2: { intros i Hi. rewrite leg_terms, (leg_piece _ _ _ (Hs i Hi)). rewrite S_INR. replace (INR i - INR M + 1) with (INR i + 1 - INR M) by ring. unfold Rdiv. ring. }
  rewrite (rsum_ext (S N) _ (fun j => (Q (Rpower 2 (INR (S j))) - Q (Rpower 2 (INR j))) - / Gam al * (Rpower 2 (INR j - 1) * el j))).
  2: { intros j Hj. rewrite leg_terms, (leg_piece _ _ _ (Hl j ltac:(lia))). rewrite S_INR. unfold Rdiv. ring. }
  rewrite (rsum_minus M (fun i => Q (Rpower 2 (INR (S i) - INR M)) - Q (Rpower 2 (INR i - INR M)))), (rsum_minus (S N) (fun j => Q (Rpower 2 (INR (S j))) - Q (Rpower 2 (INR j)))), !rsum_scal. rewrite (rsum_tele M (fun i => Q (Rpower 2 (INR i - INR M)))), (rsum_tele (S N) (fun i => Q (Rpower 2 (INR i)))).
  replace (INR M - INR M) with 0 by ring. replace (INR 0 - INR M) with (- INR M) by (cbn; ring). change (INR 0) with 0. rewrite (Rpower_pow (S N)) by lra. unfold Q. unfold Rdiv. ring.
Qed.
(** nodes and weights *)
Lemma nodes_pos M N qj qs ql : (forall q, In q qj \/ In q qs \/ In q ql -> - (1) < fst q < 1 /\ 0 < snd q) ->
  forall q, In q (rm_all_nodes Gam al M N qj qs ql) -> 0 < fst q < 2 ^ S N /\ 0 < snd q.
Proof.
  intros B q. pose proof GP. unfold rm_all_nodes. rewrite !in_app_iff, in_map_iff, !in_flat_map.
  assert (UB : forall y, y <= INR (S N) -> Rpower 2 y <= 2 ^ S N) by (intros y Hy; rewrite <- (Rpower_pow (S N)) by lra; now apply rp_mono).
  assert (LG : forall j q0, In q0 qj \/ In q0 qs \/ In q0 ql -> j + 1 <= INR (S N) -> let q := rm_legendre Gam al j q0 in 0 < fst q < 2 ^ S N /\ 0 < snd q).
  { intros j q0 Hq Hj. destruct (B q0 Hq) as [B1 B2]. pose proof (two_pos (j - 1)) as P2. unfold rm_legendre. cbn [fst snd]. cbv zeta. cbn [fst snd]. split; [split|].
    - apply Rmult_lt_0_compat; lra.
    - apply Rlt_le_trans with (Rpower 2 (j - 1) * 4); [apply Rmult_lt_compat_l; lra|]. replace (Rpower 2 (j - 1) * 4) with (Rpower 2 (j + 1)); [now apply UB|]. replace (j + 1) with (j - 1 + 1 + 1) by ring. rewrite !Rpower_plus, Rpower_1 by lra. ring.
    - apply Rdiv_lt_0_compat; [|assumption]. apply Rmult_lt_0_compat; [apply Rmult_lt_0_compat; [apply exp_pos|exact B2]|exact P2]. }
  intros [[q0 [<- Hq]]|[[i [Hi Hq]]|[j [Hj Hq]]]].
  - destruct (B q0 ltac:(tauto)) as [B1 B2]. pose proof (two_pos (- INR M - 1)) as P2. unfold rm_jacobi. cbn [fst snd]. split; [split|].
    + apply Rmult_lt_0_compat; lra.
    + apply Rlt_le_trans with (Rpower 2 (- INR M - 1) * 2); [apply Rmult_lt_compat_l; lra|]. replace (Rpower 2 (- INR M - 1) * 2) with (Rpower 2 (- INR M)); [apply UB; pose proof (pos_INR M); pose proof (pos_INR (S N)); lra|]. replace (- INR M) with (- INR M - 1 + 1) at 1 by ring. rewrite Rpower_plus, Rpower_1 by lra. ring.
    + apply Rdiv_lt_0_compat; [|assumption]. apply Rmult_lt_0_compat; [apply exp_pos|exact B2].
  - apply in_map_iff in Hq. destruct Hq as [q0 [<- Hq]]. apply in_seq in Hi. apply LG; [tauto|]. assert (INR (S i) <= INR M) by (apply le_INR; lia). rewrite S_INR in *. pose proof (pos_INR N). lra.
  - apply in_map_iff in Hq. destruct Hq as [q0 [<- Hq]]. apply in_seq in Hj. apply LG; [tauto|]. assert (INR j <= INR N) by (apply le_INR; lia). rewrite S_INR. lra.
Qed.
(** the tail cut off *)
Lemma P_mono x y : 0 < x -> x <= y -> P x <= P y.
Proof. destruct HP as [D _]. apply (inc_half P (gamma_pdf Gam al) D). intros z Hz. unfold gamma_pdf. pose proof GP. apply Rlt_le, Rdiv_lt_0_compat; [apply Rmult_lt_0_compat; apply exp_pos|assumption]. Qed.
Lemma P_le1 x : 0 < x -> P x <= 1.
Proof.
  intros Hx. destruct HP as [_ [_ L]]. apply (is_lim_le_loc (fun _ => P x) P p_infty (P x) 1); [exists x; intros y Hy; apply P_mono; lra|apply is_lim_const|exact L].
Qed.
Lemma tail_ge y : 0 < y -> y * gamma_pdf Gam al (2 * y) <= 1 - P y.
Proof.
  intros Hy. destruct HP as [D _]. pose proof GP. apply Rle_trans with (P (2 * y) - P y); [|pose proof (P_le1 (2 * y) ltac:(lra)); lra].
  destruct (MVT_cor2 P (gamma_pdf Gam al) y (2 * y) ltac:(lra)) as [z [E Hz]]; [intros c Hc; apply is_derive_Reals, D; lra|]. rewrite E. replace (2 * y - y) with y by ring. rewrite Rmult_comm. apply Rmult_le_compat_r; [lra|].
  unfold gamma_pdf. apply Rmult_le_compat_r; [left; now apply Rinv_0_lt_compat|]. unfold Rpower. apply Rmult_le_compat; try (left; apply exp_pos); apply exp_le; [|lra]. assert (ln z <= ln (2 * y)) by (apply ln_le; lra). nra.
Qed.
End N.
