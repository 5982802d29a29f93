(** OU moments, steps and path totals. *)
From Coq Require Import Reals Lra Lia List.
From Coquelicot Require Import Coquelicot.
From Verif Require Import Base Gauss Sums M_Opt M_Mgf M_Heston M_Ou Spec_Expect Spec_Ou P_Density P_Expect P_Gmom P_Cir.
Import ListNotations.
Open Scope R_scope.

Section Mom.
Variables (k th xi : R).
Hypothesis Hk : k <> 0.
Definition oum (t s : R) : R := th + (s - th) * exp (- (k * t)).
Definition ouw (t : R) : R := xi ^ 2 / (2 * k) * (1 - exp (- (k * t)) ^ 2).
Definition ouU (t s : R) : R := th * t + (s - th) * (1 - exp (- (k * t))) / k.
Definition ouJ (t s : R) : R := let e := exp (- (k * t)) in
  (s - th) ^ 2 * (1 - e ^ 2) / (2 * k) + xi ^ 2 / (2 * k) * (t - (1 - e ^ 2) / (2 * k)) + th ^ 2 * t + 2 * th * (s - th) * (1 - e) / k.
Ltac bw a1 a2 a3 a4 a5 :=
  split; [intros; cbv beta; rewrite ?Rmult_0_r, ?Ropp_0, ?exp_0; cbv zeta; field; auto
         | exists a1, a2, a3, a4, a5; intros t s u j Ht;
           split; [cbv beta zeta; auto_derive; [auto|Req; unfold Rminus, Rdiv; ring]|];
           split; [cbv beta zeta; auto_derive; [auto|Req; unfold Rminus, Rdiv; ring]|];
           split; [cbv beta zeta; auto_derive; [auto|Req; unfold Rminus, Rdiv; ring]|];
           split; [cbv beta zeta; auto_derive; [auto|Req; unfold Rminus, Rdiv; ring]|];
           split; [cbv beta zeta; auto_derive; [auto|Req; unfold Rminus, Rdiv; ring]|]; cbv beta zeta; field; auto ].
Lemma ou_E1 : ou_expectation k th xi (fun s u j => s) (fun t s u j => oum t s).
Proof.
  unfold oum. bw (fun t s u j : R => - k * (s - th) * exp (- (k * t))) (fun t s u j : R => exp (- (k * t))) (fun t s u j : R => 0)
   (fun t s u j : R => 0) (fun t s u j : R => 0).
Qed.
Lemma ou_E2 : ou_expectation k th xi (fun s u j => s ^ 2) (fun t s u j => oum t s ^ 2 + ouw t).
Proof.
  unfold oum, ouw. bw (fun t s u j : R => let e := exp (- (k * t)) in 2 * (th + (s - th) * e) * (- k * (s - th) * e) + xi ^ 2 * / (2 * k) * (2 * k * e ^ 2))
   (fun t s u j : R => let e := exp (- (k * t)) in 2 * (th + (s - th) * e) * e) (fun t s u j : R => 2 * exp (- (k * t)) ^ 2)
   (fun t s u j : R => 0) (fun t s u j : R => 0).
Qed.
Lemma ou_E4 : ou_expectation k th xi (fun s u j => s ^ 4) (fun t s u j => oum t s ^ 4 + 6 * oum t s ^ 2 * ouw t + 3 * ouw t ^ 2).
Proof.
  unfold oum, ouw.
  bw (fun t s u j : R => let e := exp (- (k * t)) in let m := th + (s - th) * e in let m' := - k * (s - th) * e in
        let w := xi ^ 2 * / (2 * k) * (1 - e ^ 2) in let w' := xi ^ 2 * / (2 * k) * (2 * k * e ^ 2) in
        4 * m ^ 3 * m' + 12 * m * m' * w + 6 * m ^ 2 * w' + 6 * w * w')
   (fun t s u j : R => let e := exp (- (k * t)) in let m := th + (s - th) * e in let w := xi ^ 2 * / (2 * k) * (1 - e ^ 2) in
        4 * m ^ 3 * e + 12 * m * e * w)
   (fun t s u j : R => let e := exp (- (k * t)) in let m := th + (s - th) * e in let w := xi ^ 2 * / (2 * k) * (1 - e ^ 2) in
        12 * m ^ 2 * e ^ 2 + 12 * e ^ 2 * w)
   (fun t s u j : R => 0) (fun t s u j : R => 0).
Qed.
Lemma ou_EU : ou_expectation k th xi (fun s u j => u) (fun t s u j => u + ouU t s).
Proof.
  unfold ouU. bw (fun t s u j : R => th + (s - th) * exp (- (k * t)) * (k * / k)) (fun t s u j : R => (1 - exp (- (k * t))) / k) (fun t s u j : R => 0)
   (fun t s u j : R => 1) (fun t s u j : R => 0).
Qed.
Lemma ou_EJ : ou_expectation k th xi (fun s u j => j) (fun t s u j => j + ouJ t s).
Proof.
  unfold ouJ. cbv zeta.
  bw (fun t s u j : R => let e := exp (- (k * t)) in (s - th) ^ 2 * (2 * k * e ^ 2) * / (2 * k) + xi ^ 2 * / (2 * k) * (1 - (2 * k * e ^ 2) * / (2 * k)) + th ^ 2 + 2 * th * (s - th) * (k * e) * / k)
   (fun t s u j : R => let e := exp (- (k * t)) in 2 * (s - th) * (1 - e ^ 2) / (2 * k) + 2 * th * (1 - e) / k)
   (fun t s u j : R => 2 * (1 - exp (- (k * t)) ^ 2) / (2 * k))
   (fun t s u j : R => 0) (fun t s u j : R => 1).
Qed.
End Mom.

Section Code.
Variables (v0' xi rho k th : R).
Hypothesis Hk : k <> 0.
Let p := mkSv v0' xi rho k th.
Lemma ou_avgvol_eq t s : t * ou_avgvol p true t s = ouU k th t s.
Proof.
  unfold ou_avgvol, sub_theta, p; cbn [v_theta v_mr]. unfold ouU.
  replace (t * ((s - th) * exprel (- (k * t)) + th)) with (th * t + (s - th) * (t * exprel (- (k * t)))) by ring.
  rewrite exprel_mul by exact Hk. field. exact Hk.
Qed.
Lemma ou_avgvar_eq t s : t * ou_avgvar p true t s = ouJ k th xi t s.
Proof.
  unfold ou_avgvar, sub_theta, p; cbn [v_theta v_mr v_vov]. unfold ouJ. cbv zeta.
  replace (t * _) with ((s - th) ^ 2 * ((1 + exp (- (k * t))) / 2 * (t * exprel (- (k * t)))) + / 2 * (xi ^ 2 / k) * (t - (1 + exp (- (k * t))) / 2 * (t * exprel (- (k * t))))
     + th * (th * t + 2 * (s - th) * (t * exprel (- (k * t))))) by ring.
  rewrite exprel_mul by exact Hk. field. exact Hk.
Qed.
Lemma ou_nz_avgvol t s : ou_avgvol p true t s = ou_avgvol p false t (s - th) + th.
Proof. reflexivity. Qed.
Lemma ou_nz_avgvar t s : ou_avgvar p true t s = ou_avgvar p false t (s - th) + th * (th + 2 * ou_avgvol p false t (s - th)).
Proof. unfold ou_avgvar, ou_avgvol, sub_theta, p. cbn [v_theta v_mr v_vov]. ring. Qed.
End Code.

(** nz_theta only shifts the origin *)
Lemma ou_nz_cond p T s0 sT : ou_cond p true T s0 sT =
  (let '(u, v) := ou_cond p false T (s0 - v_theta p) (sT - v_theta p) in (u + v_theta p, v + v_theta p * (v_theta p + 2 * u))).
Proof. reflexivity. Qed.
Lemma ou_nz_step p T s0 z : ou_vol_step p true T s0 z = ou_vol_step p false T (s0 - v_theta p) z + v_theta p.
Proof. reflexivity. Qed.
Lemma ou_nz_td p b z i T s0 : ou_td_step p true b z i T s0 =
  (let '(vt, va, vu) := ou_td_step p false b z i T (s0 - v_theta p) in (vt + v_theta p, va + v_theta p * (v_theta p + 2 * vu), vu + v_theta p)).
Proof. unfold ou_td_step, sub_theta. destruct b; [|reflexivity]. destruct (ou_cond _ _ _ _ _). reflexivity. Qed.
Lemma ou_nz_kl p T s0 z0 ns zs g pp q r : kl_states p true T s0 z0 ns zs g pp q r =
  (let '(vt, va, vu) := kl_states p false T (s0 - v_theta p) z0 ns zs g pp q r in (vt + v_theta p, va + v_theta p * (v_theta p + 2 * vu), vu + v_theta p)).
Proof. unfold kl_states, sub_theta. destruct (ou_cond _ _ _ _ _). f_equal. f_equal. ring. Qed.

(** ** law of the exact step *)
Section Step.
Variables (v0' xi rho k th : R).
Hypothesis (Hk : 0 < k).
Let p := mkSv v0' xi rho k th.
Lemma w_nonneg T : 0 <= T -> 0 <= (1 - exp (- k * T) ^ 2) / (2 * k).
Proof.
  intros HT. assert (exp (- k * T) <= 1). { rewrite <- exp_0. apply exp_le. nra. } pose proof (exp_pos (- k * T)).
  apply Rmult_le_pos; [nra|]. left. apply Rinv_0_lt_compat. lra.
Qed.
Lemma ou_step_form T s z : ou_vol_step p true T s z = oum k th T s + xi * sqrt ((1 - exp (- k * T) ^ 2) / (2 * k)) * z.
Proof. unfold ou_vol_step, sub_theta, oum, p; cbn. replace (- (k * T)) with (- k * T) by ring. ring. Qed.
Lemma ou_step_moments T s : 0 <= T ->
  gauss_expect (fun z => ou_vol_step p true T s z) (oum k th T s) /\
  gauss_expect (fun z => ou_vol_step p true T s z ^ 2) (oum k th T s ^ 2 + ouw k xi T) /\
  gauss_expect (fun z => ou_vol_step p true T s z ^ 4) (oum k th T s ^ 4 + 6 * oum k th T s ^ 2 * ouw k xi T + 3 * ouw k xi T ^ 2).
Proof.
  intros HT. pose proof (w_nonneg T HT) as Hw. set (W := (1 - exp (- k * T) ^ 2) / (2 * k)) in *.
  assert (EW : ouw k xi T = xi ^ 2 * W) by (unfold ouw, W; replace (- (k * T)) with (- k * T) by ring; field; lra).
  rewrite EW. set (m := oum k th T s). set (c := xi * sqrt W).
  assert (Ec : c ^ 2 = xi ^ 2 * W). { unfold c. rewrite Rpow_mult_distr. f_equal. apply pow2_sqrt. exact Hw. }
  assert (F : forall z, ou_vol_step p true T s z = m + c * z) by (intros z; apply ou_step_form).
  split; [|split].
  - apply (gauss_expect_ext (fun z => m + c * z + 0 * z ^ 2 + 0 * z ^ 3 + 0 * z ^ 4)); [intros; rewrite F; ring|].
    pose proof (gauss_poly4 m c 0 0 0) as G. replace (m + 0 + 3 * 0) with m in G by ring. exact G.
  - apply (gauss_expect_ext (fun z => m ^ 2 + 2 * m * c * z + c ^ 2 * z ^ 2 + 0 * z ^ 3 + 0 * z ^ 4)); [intros; rewrite F; ring|].
    pose proof (gauss_poly4 (m ^ 2) (2 * m * c) (c ^ 2) 0 0) as G. replace (m ^ 2 + c ^ 2 + 3 * 0) with (m ^ 2 + xi ^ 2 * W) in G by (rewrite Ec; ring). exact G.
  - apply (gauss_expect_ext (fun z => m ^ 4 + 4 * m ^ 3 * c * z + 6 * m ^ 2 * c ^ 2 * z ^ 2 + 4 * m * c ^ 3 * z ^ 3 + c ^ 4 * z ^ 4)); [intros; rewrite F; ring|].
    pose proof (gauss_poly4 (m ^ 4) (4 * m ^ 3 * c) (6 * m ^ 2 * c ^ 2) (4 * m * c ^ 3) (c ^ 4)) as G.
    replace (m ^ 4 + 6 * m ^ 2 * c ^ 2 + 3 * c ^ 4) with (m ^ 4 + 6 * m ^ 2 * (xi ^ 2 * W) + 3 * (xi ^ 2 * W) ^ 2) in G by (rewrite <- Ec; ring). exact G.
Qed.
Lemma ou_mean_compose s a b : oum k th b (oum k th a s) = oum k th (a + b) s.
Proof. unfold oum. replace (- (k * (a + b))) with (- (k * a) + - (k * b)) by ring. rewrite exp_plus. ring. Qed.
Lemma ou_var_compose a b : ouw k xi (a + b) = exp (- (k * b)) ^ 2 * ouw k xi a + ouw k xi b.
Proof. unfold ouw. replace (- (k * (a + b))) with (- (k * a) + - (k * b)) by ring. rewrite exp_plus. field. lra. Qed.

(** tower property of the conditional averages *)
Lemma ou_tower T s : 0 < T ->
  gauss_expect (fun z => fst (ou_cond p true T s (ou_vol_step p true T s z))) (ou_avgvol p true T s) /\
  gauss_expect (fun z => snd (ou_cond p true T s (ou_vol_step p true T s z))) (ou_avgvar p true T s).
Proof.
  intros HT. pose proof (w_nonneg T (Rlt_le _ _ HT)) as Hw. set (W := (1 - exp (- k * T) ^ 2) / (2 * k)) in *.
  set (c := xi * sqrt W).
  assert (Ec : c ^ 2 = xi ^ 2 * W). { unfold c. rewrite Rpow_mult_distr. f_equal. apply pow2_sqrt. exact Hw. }
  assert (HkT : 0 < k * T) by now apply Rmult_lt_0_compat.
  set (e := exp (- (k * T))).
  assert (He : 0 < e < 1). { split; [apply exp_pos|]. unfold e. apply exp_lt_1. lra. }
  assert (EW : W = (1 - e ^ 2) / (2 * k)) by (unfold W, e; replace (- (k * T)) with (- k * T) by ring; reflexivity).
  assert (Sh : sinh (k * T) = (/ e - e) / 2). { unfold sinh. unfold e. rewrite exp_Ropp, Rinv_inv. reflexivity. }
  assert (Ch : cosh (k * T) = (/ e + e) / 2). { unfold cosh. unfold e. rewrite exp_Ropp, Rinv_inv. reflexivity. }
  assert (Ph : exprel (- (k * T)) = (1 - e) / (k * T)) by (rewrite exprel_eq by lra; reflexivity).
  assert (V : forall z, ou_vol_step p true T s z - th - (s - th) * e = c * z).
  { intros z. rewrite ou_step_form. unfold oum, c. fold e. fold W. ring. }
  assert (N1 : 1 + e <> 0) by lra. assert (N2 : 1 - e <> 0) by lra.
  assert (N3 : / e - e <> 0). { assert (1 < / e) by (rewrite <- Rinv_1; apply Rinv_lt_contravar; lra). lra. }
  split.
  - apply (gauss_expect_ext (fun z => ou_avgvol p true T s + (c / (1 + e) * ((1 - e) / (k * T))) * z + 0 * z ^ 2 + 0 * z ^ 3 + 0 * z ^ 4)).
    { intros z. unfold ou_cond, ou_avgvol, sub_theta, p; cbn [v_theta v_mr v_vov fst]. fold p. fold e. rewrite V, Ph. field. lra. }
    pose proof (gauss_poly4 (ou_avgvol p true T s) (c / (1 + e) * ((1 - e) / (k * T))) 0 0 0) as G.
    replace (ou_avgvol p true T s + 0 + 3 * 0) with (ou_avgvol p true T s) in G by ring. exact G.
  - set (x0 := s - th).
    set (phi2 := (1 + e) / 2 * ((1 - e) / (k * T))).
    assert (Hp2 : 0 < phi2). { unfold phi2. apply Rmult_lt_0_compat; [lra|]. apply Rdiv_lt_0_compat; lra. }
    set (A0 := x0 ^ 2 * phi2 + / 2 * (xi ^ 2 / k) * ((/ e + e) / (/ e - e) - 1 / (k * T)) + th * (th + 2 * (x0 * ((1 - e) / (k * T))))).
    set (A1 := c * (x0 * (e / (k * T)) * (1 / phi2 - 1)) + 2 * th * (c / (1 + e) * ((1 - e) / (k * T)))).
    set (A2 := c ^ 2 * (((/ e - e) / 2 * ((/ e + e) / 2) - k * T) / (2 * (k * T) * ((/ e - e) / 2) ^ 2))).
    apply (gauss_expect_ext (fun z => A0 + A1 * z + A2 * z ^ 2 + 0 * z ^ 3 + 0 * z ^ 4)).
    { intros z. unfold ou_cond, sub_theta, p; cbn [v_theta v_mr v_vov snd]. fold p. fold e. rewrite V, Ph, Sh, Ch. fold x0 phi2.
      unfold A0, A1, A2. clearbody phi2. revert N3. generalize (/ e - e) as D. generalize (/ e + e) as C0. intros C0 D N3.
      field. repeat split; lra || exact N3. }
    pose proof (gauss_poly4 A0 A1 A2 0 0) as G.
    replace (A0 + A2 + 3 * 0) with (ou_avgvar p true T s) in G; [exact G|].
    unfold ou_avgvar, sub_theta, p; cbn [v_theta v_mr v_vov]. fold e. rewrite Ph. fold x0. fold phi2.
    unfold A0, A2. rewrite Ec, EW. unfold phi2. field. repeat split; try lra. all: assert (e * e < 1) by nra; lra.
Qed.
End Step.
