(** Karhunen-Loeve OUSV step with given sine coefficients = exact time averages of the simulated path. *)
From Coq Require Import Reals Lra Lia List Arith.
From Coquelicot Require Import Coquelicot.
From Verif Require Import Base Gauss Sums M_Opt M_Mgf M_Heston M_Ou P_Cir P_Ou.
Open Scope R_scope.

Definition sg (n : nat) : R := if Nat.odd n then -1 else 1.
Lemma sg_S n : sg (S n) = - sg n.
Proof. unfold sg. rewrite Nat.odd_succ, <- Nat.negb_odd. destruct (Nat.odd n); simpl; ring. Qed.
Lemma npi_S n : npi (S n) = npi n + PI.
Proof. unfold npi. rewrite S_INR. ring. Qed.
Lemma npi_cs n : cos (npi n) = sg n /\ sin (npi n) = 0.
Proof.
  induction n as [|n [IC IS]].
  - unfold npi. simpl. rewrite Rmult_0_l, cos_0, sin_0. auto.
  - rewrite npi_S, sg_S, cos_plus, sin_plus, cos_PI, sin_PI, IC, IS. split; ring.
Qed.
Lemma npi_pos n : (0 < n)%nat -> 0 < npi n.
Proof. intros H. unfold npi. apply Rmult_lt_0_compat; [apply lt_0_INR; lia|apply PI_RGT_0]. Qed.

Lemma RI01 (F f : R -> R) (v : R) : (forall s, is_derive F s (f s)) -> (forall s, ex_derive f s) -> v = F 1 - F 0 -> is_RInt f 0 1 v.
Proof.
  intros HF Hc ->. apply (is_RInt_derive (V := R_CompleteNormedModule) F); intros; [apply HF|].
  apply (ex_derive_continuous (K := R_AbsRing) (V := R_NormedModule)). apply Hc.
Qed.

Section Ints.
Variables (x : R). Hypothesis Hx : 0 < x.
Variable n : nat. Hypothesis Hn : (0 < n)%nat.
Let w := npi n.
Let Hw : 0 < w := npi_pos n Hn.
Lemma int_sin : is_RInt (fun s => sin (w * s)) 0 1 ((1 - sg n) / w).
Proof.
  pose proof Hw. apply (RI01 (fun s => - cos (w * s) / w)).
  - intros s. auto_derive; [auto|]. Req. field. lra.
  - intros s. auto_derive; auto.
  - rewrite Rmult_1_r, Rmult_0_r, cos_0. destruct (npi_cs n) as [C _]. fold w in C. rewrite C. field. lra.
Qed.
Lemma int_sin2 : is_RInt (fun s => sin (w * s) ^ 2) 0 1 (/ 2).
Proof.
  pose proof Hw. apply (RI01 (fun s => s / 2 - sin (w * s) * cos (w * s) / (2 * w))).
  - intros s. auto_derive; [auto|]. Req. pose proof (sin2_cos2 (w * s)) as P. unfold Rsqr in P.
    assert (Q : sin (w * s) ^ 2 = / 2 * (1 - cos (w * s) * cos (w * s) + sin (w * s) * sin (w * s))) by (rewrite <- P; field).
    rewrite Q. field. lra.
  - intros s. auto_derive; auto.
  - rewrite Rmult_1_r, Rmult_0_r, sin_0. destruct (npi_cs n) as [C S]. fold w in C, S. rewrite C, S. field. lra.
Qed.
Lemma xw_pos : 0 < x ^ 2 + w ^ 2.
Proof. pose proof Hw. nra. Qed.
Lemma int_exp_sin : is_RInt (fun s => exp (- (x * s)) * sin (w * s)) 0 1 (w * (1 - sg n * exp (- x)) / (x ^ 2 + w ^ 2)).
Proof.
  pose proof Hw. pose proof xw_pos.
  apply (RI01 (fun s => - exp (- (x * s)) * (x * sin (w * s) + w * cos (w * s)) / (x ^ 2 + w ^ 2))).
  - intros s. auto_derive; [auto|]. Req. field. lra.
  - intros s. auto_derive; auto.
  - rewrite ?Rmult_1_r, ?Rmult_0_r, ?sin_0, ?cos_0, ?Ropp_0, ?exp_0. destruct (npi_cs n) as [C S]. fold w in C, S. rewrite C, S. field. lra.
Qed.
Lemma int_sinh_sin : is_RInt (fun s => (exp (x * s) - exp (- (x * s))) / 2 * sin (w * s)) 0 1 (- sg n * w * sinh x / (x ^ 2 + w ^ 2)).
Proof.
  pose proof Hw. pose proof xw_pos.
  apply (RI01 (fun s => (x * ((exp (x * s) + exp (- (x * s))) / 2) * sin (w * s) - w * ((exp (x * s) - exp (- (x * s))) / 2) * cos (w * s)) / (x ^ 2 + w ^ 2))).
  - intros s. auto_derive; [auto|]. Req. field. lra.
  - intros s. auto_derive; auto.
  - unfold sinh. rewrite ?Rmult_1_r, ?Rmult_0_r, ?sin_0, ?cos_0, ?Ropp_0, ?exp_0. destruct (npi_cs n) as [C S]. fold w in C, S. rewrite C, S. field. lra.
Qed.
End Ints.
Lemma int_sin_sin (n m : nat) : (0 < n < m)%nat -> is_RInt (fun s => sin (npi n * s) * sin (npi m * s)) 0 1 0.
Proof.
  intros H. pose proof (npi_pos n ltac:(lia)). pose proof (npi_pos m ltac:(lia)).
  assert (D : npi m - npi n = npi (m - n)) by (unfold npi; rewrite minus_INR by lia; ring).
  assert (A : npi m + npi n = npi (m + n)) by (unfold npi; rewrite plus_INR; ring).
  assert (0 < npi (m - n)) by (apply npi_pos; lia). assert (0 < npi (m + n)) by (apply npi_pos; lia).
  apply (RI01 (fun s => / 2 * (sin (npi (m - n) * s) / npi (m - n) - sin (npi (m + n) * s) / npi (m + n)))).
  - intros s. auto_derive; [auto|]. Req. rewrite <- D, <- A.
    replace ((npi m - npi n) * s) with (npi m * s - npi n * s) by ring. replace ((npi m + npi n) * s) with (npi m * s + npi n * s) by ring.
    rewrite cos_minus, cos_plus. field. lra.
  - intros s. auto_derive; auto.
  - rewrite ?Rmult_1_r, ?Rmult_0_r, sin_0. destruct (npi_cs (m - n)) as [_ ->]. destruct (npi_cs (m + n)) as [_ ->]. field. lra.
Qed.

Lemma RI_plus (f g : R -> R) a b u v : is_RInt f a b u -> is_RInt g a b v -> is_RInt (fun s => f s + g s) a b (u + v).
Proof. intros. apply (is_RInt_plus (V := R_NormedModule)); auto. Qed.
Lemma RI_scal (c : R) (f : R -> R) a b u : is_RInt f a b u -> is_RInt (fun s => c * f s) a b (c * u).
Proof. intros. apply (is_RInt_scal (V := R_NormedModule)); auto. Qed.
Lemma RI_ext (f g : R -> R) a b (u v : R) : is_RInt f a b u -> (forall s, f s = g s) -> u = v -> is_RInt g a b v.
Proof. intros H E <-. eapply is_RInt_ext; [|exact H]. intros; apply E. Qed.
Lemma RI_const (c : R) : is_RInt (fun _ => c) 0 1 c.
Proof. pose proof (is_RInt_const (V := R_NormedModule) 0 1 c) as H. eapply RI_ext; [exact H|reflexivity|]. unfold scal; simpl; unfold mult; simpl. ring. Qed.

(** finite sine sums *)
Section Sine.
Variable b : nat -> R.
Let S0 (ns : nat) (s : R) := rsum ns (fun i => b i * sin (npi (S i) * s)).
Lemma sine_int ns : is_RInt (S0 ns) 0 1 (rsum ns (fun i => b i * ((1 - sg (S i)) / npi (S i)))).
Proof.
  induction ns as [|ns IH]; [apply RI_const|].
  apply RI_plus; [exact IH|]. apply RI_scal. apply int_sin. lia.
Qed.
Lemma sine_orth ns m : (ns < m)%nat -> is_RInt (fun s => S0 ns s * sin (npi m * s)) 0 1 0.
Proof.
  induction ns as [|ns IH]; intros Hm.
  - eapply RI_ext; [apply (RI_const 0)| |reflexivity]. intros. unfold S0. simpl. ring.
  - eapply RI_ext; [apply RI_plus; [apply IH; lia|apply (RI_scal (b ns)), (int_sin_sin (S ns) m); lia]| |].
    + intros s. cbv beta. assert (E : S0 (S ns) s = S0 ns s + b ns * sin (npi (S ns) * s)) by reflexivity. rewrite E. ring.
    + ring.
Qed.
Lemma sine_sq ns : is_RInt (fun s => S0 ns s ^ 2) 0 1 (/ 2 * rsum ns (fun i => b i ^ 2)).
Proof.
  induction ns as [|ns IH].
  - eapply RI_ext; [apply (RI_const 0)| |]; intros; unfold S0; simpl; ring.
  - eapply RI_ext; [apply RI_plus; [apply RI_plus; [exact IH|apply (RI_scal (2 * b ns)), (sine_orth ns (S ns)); lia]|apply (RI_scal (b ns ^ 2)), (int_sin2 (S ns)); lia]| |].
    + intros s. cbv beta. assert (E : S0 (S ns) s = S0 ns s + b ns * sin (npi (S ns) * s)) by reflexivity. rewrite E. ring.
    + assert (E : rsum (S ns) (fun i => b i ^ 2) = rsum ns (fun i => b i ^ 2) + b ns ^ 2) by reflexivity. rewrite E. field.
Qed.
End Sine.

Section Main.
Variables (sig xi rho k th T z0 : R) (ns : nat) (zs : nat -> R).
Hypothesis (Hk : 0 < k) (HT : 0 < T).
Let p := mkSv sig xi rho k th.
Let x := k * T.
Let c := xi * sqrt T.
Let v0 := sig - th.
Let vt := ou_vol_step p false T v0 z0.
Let e := exp (- x).
Let H := vt - v0 * e.
Let b (i : nat) := kl_an x (S i) * zs i.
Let Sn (s : R) := rsum ns (fun i => b i * sin (npi (S i) * s)).
Let h (s : R) := v0 * exp (- (x * s)) + H / sinh x * ((exp (x * s) - exp (- (x * s))) / 2).
Let Hx : 0 < x := Rmult_lt_0_compat _ _ Hk HT.
Let he : 0 < e < 1.
Proof. pose proof Hx. split; [apply exp_pos|]. unfold e. apply exp_lt_1. lra. Qed.
Let Hsh : sinh x = (/ e - e) / 2.
Proof. unfold sinh, e. rewrite exp_Ropp, Rinv_inv. reflexivity. Qed.
Let Hch : cosh x = (/ e + e) / 2.
Proof. unfold cosh, e. rewrite exp_Ropp, Rinv_inv. reflexivity. Qed.
Let Hex : exp x = / e.
Proof. unfold e. rewrite exp_Ropp, Rinv_inv. reflexivity. Qed.
Let N3 : 0 < / e - e.
Proof. pose proof he. assert (1 < / e) by (rewrite <- Rinv_1; apply Rinv_lt_contravar; lra). lra. Qed.
Lemma kl_path_s s : kl_path p T z0 ns zs (T * s) = th + h s + c * Sn s.
Proof.
  unfold kl_path, p; cbn [v_mr v_sigma v_theta v_vov]. fold p. fold x v0 vt e.
  replace (exp (- x)) with e by reflexivity. fold H.
  replace (- k * (T * s)) with (- (x * s)) by (unfold x; ring).
  assert (E : exp (x * s) = 1 / exp (- (x * s))) by (rewrite exp_Ropp; field; apply Rgt_not_eq, exp_pos).
  unfold h. rewrite E. fold c. unfold Sn, b.
  replace (rsum ns (fun i => kl_an x (S i) * sin (npi (S i) * (T * s) / T) * zs i)) with (rsum ns (fun i => kl_an x (S i) * zs i * sin (npi (S i) * s))).
  2:{ apply rsum_ext. intros i _. replace (npi (S i) * (T * s) / T) with (npi (S i) * s) by (field; lra). ring. }
  pose proof N3 as N3'. pose proof (exp_pos (- (x * s))). field. rewrite Hsh. split; lra.
Qed.
Let I1 := (v0 + H / (1 + e)) * ((1 - e) / x).
Let I2 := v0 ^ 2 * ((1 + e) / 2 * ((1 - e) / x)) + H * (H * ((/ e - e) / 2 * ((/ e + e) / 2) - x) / (2 * x * ((/ e - e) / 2) ^ 2)
          + v0 * (e / x) * (1 / ((1 + e) / 2 * ((1 - e) / x)) - 1)).
Lemma int_h : is_RInt h 0 1 I1.
Proof.
  pose proof Hx. pose proof he. pose proof N3 as N3'. assert (NN : / e - e <> 0) by lra. pose proof Hsh as Hsh'. pose proof Hex as Hex'.
  unfold h. apply (RI01 (fun s => - v0 / x * exp (- (x * s)) + H / sinh x * ((exp (x * s) + exp (- (x * s))) / (2 * x)))).
  - intros s. auto_derive; [auto|]. Req. assert (sinh x <> 0) by (rewrite Hsh'; lra). field. split; lra || assumption.
  - intros s. auto_derive; auto.
  - rewrite ?Rmult_1_r, ?Rmult_0_r, ?Ropp_0, ?exp_0, Hex', Hsh'. fold e. unfold I1. field. repeat split; try lra. nra.
Qed.
Lemma int_h2 : is_RInt (fun s => h s ^ 2) 0 1 I2.
Proof.
  pose proof Hx. pose proof he. pose proof N3 as N3'. assert (NN : / e - e <> 0) by lra. pose proof Hsh as Hsh'. pose proof Hex as Hex'.
  unfold h. set (G := H / sinh x).
  apply (RI01 (fun s => v0 ^ 2 * (- exp (- (x * s)) ^ 2 / (2 * x)) + 2 * v0 * G * (s / 2 + exp (- (x * s)) ^ 2 / (4 * x))
     + G ^ 2 * (exp (x * s) ^ 2 / (8 * x) - s / 2 - exp (- (x * s)) ^ 2 / (8 * x)))).
  - intros s. auto_derive; [auto|]. Req.
    assert (P : exp (x * s) = / exp (- (x * s))) by (rewrite exp_Ropp, Rinv_inv; reflexivity). rewrite P.
    pose proof (exp_pos (- (x * s))). field. split; lra.
  - intros s. auto_derive; auto.
  - rewrite ?Rmult_1_r, ?Rmult_0_r, ?Ropp_0, ?exp_0, Hex'. fold e. unfold I2, G. rewrite Hsh'. field. repeat split; try lra; nra.
Qed.
Lemma int_h_sin i : is_RInt (fun s => h s * sin (npi (S i) * s)) 0 1 (npi (S i) * (v0 - sg (S i) * vt) / (x ^ 2 + npi (S i) ^ 2)).
Proof.
  pose proof Hx as Hx'. pose proof N3 as N3'. pose proof (xw_pos x (S i) ltac:(lia)) as XW.
  eapply RI_ext; [apply RI_plus; [apply (RI_scal v0), (int_exp_sin x (S i)); lia|apply (RI_scal (H / sinh x)), (int_sinh_sin x (S i)); lia]| |].
  - intros s. unfold h. cbv beta. ring.
  - fold e. unfold H. rewrite Hsh. field. repeat split; try lra. pose proof he. nra.
Qed.
Lemma int_h_S n : is_RInt (fun s => h s * rsum n (fun i => b i * sin (npi (S i) * s))) 0 1
   (rsum n (fun i => b i * (npi (S i) * (v0 - sg (S i) * vt) / (x ^ 2 + npi (S i) ^ 2)))).
Proof.
  induction n as [|n IH].
  - eapply RI_ext; [apply (RI_const 0)| |reflexivity]. intros; simpl; ring.
  - eapply RI_ext; [apply RI_plus; [exact IH|apply (RI_scal (b n)), (int_h_sin n)]| |]; [intros s; cbn [rsum]; cbv beta; rewrite Rmult_plus_distr_l; ring|reflexivity].
Qed.
Let F1 := th + I1 + c * rsum ns (fun i => b i * ((1 - sg (S i)) / npi (S i))).
Let F2 := th ^ 2 + I2 + c ^ 2 * (/ 2 * rsum ns (fun i => b i ^ 2)) + 2 * th * I1
          + 2 * th * c * rsum ns (fun i => b i * ((1 - sg (S i)) / npi (S i)))
          + 2 * c * rsum ns (fun i => b i * (npi (S i) * (v0 - sg (S i) * vt) / (x ^ 2 + npi (S i) ^ 2))).
Lemma path_int : is_RInt (fun s => kl_path p T z0 ns zs (T * s)) 0 1 F1.
Proof.
  eapply RI_ext; [apply RI_plus; [apply RI_plus; [apply (RI_const th)|apply int_h]|apply (RI_scal c), (sine_int b ns)]| |reflexivity].
  intros s. rewrite kl_path_s. reflexivity.
Qed.
Lemma path_int2 : is_RInt (fun s => kl_path p T z0 ns zs (T * s) ^ 2) 0 1 F2.
Proof.
  eapply RI_ext; [exact (RI_plus _ _ _ _ _ _ (RI_plus _ _ _ _ _ _ (RI_plus _ _ _ _ _ _ (RI_plus _ _ _ _ _ _ (RI_plus _ _ _ _ _ _ (RI_const (th ^ 2)) int_h2)
    (RI_scal (c ^ 2) _ _ _ _ (sine_sq b ns))) (RI_scal (2 * th) _ _ _ _ int_h)) (RI_scal (2 * th * c) _ _ _ _ (sine_int b ns))) (RI_scal (2 * c) _ _ _ _ (int_h_S ns)))| |reflexivity].
  intros s. rewrite kl_path_s. cbv beta. fold (Sn s). ring.
Qed.
Let Ph : exprel (- x) = (1 - e) / x.
Proof. unfold e, x. rewrite exprel_eq by (pose proof Hx; unfold x in *; lra). reflexivity. Qed.
Lemma an_sq i : kl_an x (S i) ^ 2 = kl_t2 x (S i).
Proof. unfold kl_an. apply pow2_sqrt. unfold kl_t2. pose proof (xw_pos x (S i) ltac:(lia)). apply Rmult_le_pos; [lra|]. left. now apply Rinv_0_lt_compat. Qed.

Lemma kl_zn_eq : kl_states_zn p true T sig z0 ns zs = (vt + th, F2, F1).
Proof.
  pose proof Hx as Hx'. pose proof he as he'. pose proof N3 as N3'.
  unfold kl_states_zn, kl_states, sub_theta. change (v_mr p) with k. change (v_theta p) with th. change (v_vov p) with xi.
  fold x v0 c. fold vt.
  unfold ou_cond, sub_theta. change (v_mr p) with k. change (v_theta p) with th. change (v_vov p) with xi. fold x. fold e. fold H.
  rewrite Ph.
  replace (rsum ns (fun i => if Nat.odd (S i) then kl_an x (S i) / npi (S i) * zs i else 0)) with (/ 2 * rsum ns (fun i => b i * ((1 - sg (S i)) / npi (S i)))).
  2:{ rewrite <- rsum_scal. apply rsum_ext. intros i _. unfold b, sg. pose proof (npi_pos (S i) ltac:(lia)). destruct (Nat.odd (S i)); field; lra. }
  set (P := rsum ns (fun i => if Nat.odd (S i) then kl_t2 x (S i) * kl_an x (S i) * npi (S i) * zs i else 0)).
  set (Q := rsum ns (fun i => if Nat.odd (S i) then 0 else kl_t2 x (S i) * kl_an x (S i) * npi (S i) * zs i)).
  assert (EPQ : v0 * (P + Q) + vt * (P - Q) = 2 * rsum ns (fun i => b i * (npi (S i) * (v0 - sg (S i) * vt) / (x ^ 2 + npi (S i) ^ 2)))).
  { unfold P, Q. rewrite <- rsum_plus, <- rsum_minus, <- !rsum_scal, <- rsum_plus. apply rsum_ext. intros i _. unfold b, sg, kl_t2.
    pose proof (xw_pos x (S i) ltac:(lia)). destruct (Nat.odd (S i)); field; lra. }
  assert (EZ : rsum ns (fun i => kl_t2 x (S i) * (zs i ^ 2 - 1)) = rsum ns (fun i => b i ^ 2) - rsum ns (fun i => kl_t2 x (S i))).
  { rewrite <- rsum_minus. apply rsum_ext. intros i _. unfold b. rewrite Rpow_mult_distr, an_sq. ring. }
  rewrite EZ. unfold a2sum, kl_tail. cbn [sel].
  assert (EA : xi ^ 2 / k * (cosh x / sinh x - 1 / x) = c ^ 2 * kl_f2 x).
  { unfold kl_f2, c. rewrite Rpow_mult_distr, pow2_sqrt by lra. replace (xi ^ 2 / k) with (xi ^ 2 * T / x) by (unfold x; field; lra). unfold tanh.
    assert (0 < sinh x) by (rewrite Hsh; lra). assert (0 < cosh x) by (rewrite Hch; pose proof (Rinv_0_lt_compat e ltac:(lra)); lra).
    field. repeat split; lra. }
  f_equal; [f_equal|].
  - unfold F2.
    set (SB := rsum ns (fun i => b i ^ 2)) in *. set (SX := rsum ns (fun i => kl_t2 x (S i))) in *.
    set (SO := rsum ns (fun i => b i * ((1 - sg (S i)) / npi (S i)))) in *.
    set (SC := rsum ns (fun i => b i * (npi (S i) * (v0 - sg (S i) * vt) / (x ^ 2 + npi (S i) ^ 2)))) in *.
    replace (v0 * (0 + P + (0 + Q)) + vt * (0 + P - (0 + Q))) with (2 * SC) by (rewrite <- EPQ; ring).
    replace (/ 2 * (xi ^ 2 / k) * (cosh x / sinh x - 1 / x)) with (/ 2 * (c ^ 2 * kl_f2 x)) by (rewrite <- EA; ring).
    unfold I1, I2. rewrite Hsh, Hch.
    generalize (/ e - e) (1 / ((1 + e) / 2 * ((1 - e) / x)) - 1) (H / (1 + e)). intros. unfold Rdiv. replace (0 + / 2 * SO) with (/ 2 * SO) by ring. replace (2 * c * (/ 2 * SO)) with (c * SO) by field. ring.
  - unfold F1, I1. field. lra.
Qed.
Lemma scale_int (f : R -> R) (l : R) : is_RInt (fun s => f (T * s)) 0 1 l -> is_RInt (fun t => f t / T) 0 T l.
Proof.
  intros HI.
  assert (H2 : is_RInt (fun s => f (T * s)) (/ T * 0 + 0) (/ T * T + 0) l). { replace (/ T * 0 + 0) with 0 by ring. replace (/ T * T + 0) with 1 by (field; lra). exact HI. }
  apply (is_RInt_comp_lin (V := R_NormedModule)) in H2. eapply RI_ext; [exact H2| |reflexivity].
  intros t. unfold scal; simpl; unfold mult; simpl. replace (T * (/ T * t + 0)) with t by (field; lra). unfold Rdiv. ring.
Qed.
Theorem kl_exact : let '(vT, vv, uu) := kl_states_zn p true T sig z0 ns zs in
  kl_path p T z0 ns zs 0 = sig /\ kl_path p T z0 ns zs T = vT /\ vT = ou_vol_step p true T sig z0 /\
  is_RInt (fun t => kl_path p T z0 ns zs t / T) 0 T uu /\ is_RInt (fun t => kl_path p T z0 ns zs t ^ 2 / T) 0 T vv.
Proof.
  rewrite kl_zn_eq. split; [|split; [|split; [reflexivity|split]]].
  - replace (kl_path p T z0 ns zs 0) with (kl_path p T z0 ns zs (T * 0)) by (f_equal; ring). rewrite kl_path_s. unfold h, Sn. rewrite Rmult_0_r, Ropp_0, exp_0.
    rewrite rsum_eq0. 2:{ intros i _. rewrite Rmult_0_r, sin_0. ring. } unfold v0. unfold Rdiv. ring.
  - replace (kl_path p T z0 ns zs T) with (kl_path p T z0 ns zs (T * 1)) by (f_equal; ring). rewrite kl_path_s. unfold h, Sn. rewrite Rmult_1_r, Hex. fold e.
    rewrite rsum_eq0. 2:{ intros i _. rewrite Rmult_1_r. destruct (npi_cs (S i)) as [_ ->]. ring. } rewrite Hsh. unfold H.
    pose proof N3. pose proof he. field. repeat split; try lra; nra.
  - apply scale_int, path_int.
  - apply (scale_int (fun t => kl_path p T z0 ns zs t ^ 2)), path_int2.
Qed.
End Main.
