(** OUSV: path totals, variance-swap correction, conditional spot martingale. *)
From Coq Require Import Reals Lra Lia List.
From Coquelicot Require Import Coquelicot.
From Verif Require Import Base Gauss Sums M_Opt M_Mgf M_Heston M_Ou Spec_Expect Spec_Ou P_Density P_Expect P_Gmom P_Cir P_Ou.
Import ListNotations.
Open Scope R_scope.

Definition nz_step (p : svp) (step : nat -> R -> R -> R * R * R) : nat -> R -> R -> R * R * R := fun i d v =>
  let '(vt, a, u) := step i d (v - v_theta p) in (vt + v_theta p, a + v_theta p * (v_theta p + 2 * u), u + v_theta p).

Lemma ou_loop_sum m p step : forall dts i v a u, let th := v_theta p in
  let '(v2, a2, u2) := ou_loop step i dts v a u in let '(M, V) := ou_sum m p (nz_step p step) i dts (v + th) in
  let L := lsum dts in let A := a2 - a + th * (th * L + 2 * (u2 - u)) in let U := u2 - u + th * L in
  M = (intr m - divr m - v_rho p * v_vov p / 2) * L + v_rho p / v_vov p * (((v2 + th) ^ 2 - (v + th) ^ 2) / 2 - v_mr p * th * U)
      + (v_rho p / v_vov p * v_mr p - / 2) * A /\
  V = (1 - v_rho p ^ 2) * A.
Proof.
  induction dts as [|d t IH]; intros i v a u.
  - cbn [ou_loop ou_sum]. cbv zeta. change (lsum []) with 0. split; unfold Rdiv; ring.
  - cbn [ou_loop ou_sum]. unfold nz_step at 1. replace (v + v_theta p - v_theta p) with v by ring.
    destruct (step i d v) as [[v1 a1] u1]. specialize (IH (S i) v1 (a + a1 * d) (u + u1 * d)). cbv zeta in *.
    destruct (ou_loop step (S i) t v1 (a + a1 * d) (u + u1 * d)) as [[v2 a2] u2].
    destruct (ou_sum m p (nz_step p step) (S i) t (v1 + v_theta p)) as [M V]. destruct IH as (-> & ->).
    assert (LC : lsum (d :: t) = d + lsum t) by reflexivity. rewrite LC.
    unfold ou_ln_m, ou_ln_var. split; unfold Rdiv; ring.
Qed.

Lemma ou_consistent m p step dts T v0 : v0 <> 0 -> 0 < T -> lsum dts = T -> v_vov p <> 0 -> v_rho p ^ 2 < 1 ->
  let '(sc, sg) := ou_cond_spot_sigma p step dts T v0 in
  let '(M, V) := ou_sum m p (nz_step p step) 0 dts v0 in
  ln sc + (intr m - divr m) * T = M + / 2 * V /\
  v0 ^ 2 * sg ^ 2 * T = Rmax V ((1 - v_rho p ^ 2) * T / 10 ^ 64).
Proof.
  intros H0 HT HL Hv Hr. unfold ou_cond_spot_sigma. pose proof (ou_loop_sum m p step dts 0 (v0 - v_theta p) 0 0) as HS. cbv zeta in HS.
  destruct (ou_loop step 0 dts (v0 - v_theta p) 0 0) as [[v a] u].
  replace (v0 - v_theta p + v_theta p) with v0 in HS by ring.
  destruct (ou_sum m p (nz_step p step) 0 dts v0) as [M V].
  destruct HS as (EM & EV). rewrite HL in EM, EV. rewrite ln_exp. split.
  - rewrite EM, EV. field. split; lra.
  - set (A := a / T + v_theta p * (v_theta p + 2 * (u / T))).
    assert (EA : V = (1 - v_rho p ^ 2) * T * A). { rewrite EV. unfold A. field. lra. }
    replace (v0 ^ 2 * (sqrt ((1 - v_rho p ^ 2) * Rmax A (/ 10 ^ 64)) / v0) ^ 2 * T) with (sqrt ((1 - v_rho p ^ 2) * Rmax A (/ 10 ^ 64)) ^ 2 * T) by (field; exact H0).
    rewrite pow2_sqrt.
    2:{ apply Rmult_le_pos; [lra|]. eapply Rle_trans; [|apply Rmax_r]. left. apply Rinv_0_lt_compat. apply pow_lt. lra. }
    rewrite EA. replace ((1 - v_rho p ^ 2) * Rmax A (/ 10 ^ 64) * T) with ((1 - v_rho p ^ 2) * T * Rmax A (/ 10 ^ 64)) by ring.
    rewrite <- RmaxRmult by (apply Rmult_le_pos; lra). f_equal. 
Qed.

Lemma ou_second_moment m p dt v0 vt va vu : 0 <= ou_ln_var p dt va ->
  gauss_expect (fun z => (ou_ln_m m p dt v0 vt va vu + sqrt (ou_ln_var p dt va) * z) ^ 2) (ou_cond_log_return_var m p dt v0 vt va vu).
Proof.
  intros H. unfold ou_cond_log_return_var. set (M := ou_ln_m _ _ _ _ _ _ _). set (V := ou_ln_var _ _ _) in *.
  apply (gauss_expect_ext (fun z => M ^ 2 + 2 * M * sqrt V * z + V * z ^ 2 + 0 * z ^ 3 + 0 * z ^ 4)).
  { intros z. replace V with (sqrt V ^ 2) at 2 by now apply pow2_sqrt. ring. }
  pose proof (gauss_poly4 (M ^ 2) (2 * M * sqrt V) V 0 0) as G. replace (M ^ 2 + V + 3 * 0) with (M ^ 2 + V) in G by ring. exact G.
Qed.

(** ** the conditional spot, as a function of (t, sigma_t, U_t, J_t), is annihilated by the generator *)
Definition ou_spot (xi rho k th s0 t s u j : R) : R :=
  exp (/ 2 * rho / xi * ((s ^ 2 - s0 ^ 2 - xi ^ 2 * t) + (- 2 * (k * th) * u + (2 * k - rho * xi) * j))).
Lemma ou_spot_martingale xi rho k th s0 : xi <> 0 -> ou_martingale k th xi (ou_spot xi rho k th s0).
Proof.
  intros Hx. unfold ou_spot.
  set (f := fun t s u j : R => exp (/ 2 * rho / xi * ((s ^ 2 - s0 ^ 2 - xi ^ 2 * t) + (- 2 * (k * th) * u + (2 * k - rho * xi) * j)))).
  exists (fun t s u j => (/ 2 * rho / xi * (- xi ^ 2)) * f t s u j), (fun t s u j => (rho / xi * s) * f t s u j),
    (fun t s u j => (rho / xi + (rho / xi * s) ^ 2) * f t s u j), (fun t s u j => (/ 2 * rho / xi * (- 2 * (k * th))) * f t s u j),
    (fun t s u j => (/ 2 * rho / xi * (2 * k - rho * xi)) * f t s u j).
  intros t s u j. unfold f.
  Ltac fixexp := Req; match goal with |- context[exp ?a] => match goal with |- _ = _ * exp ?b => replace a with b by (unfold Rdiv; ring) end end.
  split; [auto_derive; [auto|fixexp; field; exact Hx]|].
  split; [auto_derive; [auto|fixexp; field; exact Hx]|].
  split; [auto_derive; [auto|fixexp; field; exact Hx]|].
  split; [auto_derive; [auto|fixexp; field; exact Hx]|].
  split; [auto_derive; [auto|fixexp; field; exact Hx]|].
  field. exact Hx.
Qed.
Lemma ou_spot_code p step dts T v0 : T <> 0 ->
  let '(vt, av, au) := ou_loop step 0 dts (v0 - v_theta p) 0 0 in
  fst (ou_cond_spot_sigma p step dts T v0) =
  ou_spot (v_vov p) (v_rho p) (v_mr p) (v_theta p) v0 T (vt + v_theta p) (au + v_theta p * T) (av + v_theta p * (v_theta p * T + 2 * au)).
Proof.
  intros HT. unfold ou_cond_spot_sigma. destruct (ou_loop step 0 dts (v0 - v_theta p) 0 0) as [[v a] u]. cbn [fst]. unfold ou_spot. f_equal.
  f_equal. field. exact HT.
Qed.

(** ** variance swap *)
Section Swap.
Variables (s0 xi rho k th r T : R).
Hypothesis (Hk : 0 < k) (HT : 0 < T).
Let p := mkSv s0 xi rho k th.
Let e (t : R) := exp (- (k * t)).
Let E2 (t : R) := oum k th t s0 ^ 2 + ouw k xi t.
Let E4 (t : R) := oum k th t s0 ^ 4 + 6 * oum k th t s0 ^ 2 * ouw k xi t + 3 * ouw k xi t ^ 2.
(* antiderivatives *)
Definition ouA2 (t : R) : R := ouJ k th xi t s0.
Lemma ouA2_d t : is_derive ouA2 t (E2 t).
Proof.
  unfold ouA2, ouJ, E2, oum, ouw. cbv zeta. auto_derive; [auto|]. Req. field. lra.
Qed.
(* E4 as a polynomial in e: c0 + c1 e + c2 e^2 + c3 e^3 + c4 e^4 *)
Let x0 := s0 - th. Let q := xi ^ 2 / (2 * k).
Definition ouc0 := th ^ 4 + 6 * th ^ 2 * q + 3 * q ^ 2.
Definition ouc1 := 4 * th ^ 3 * x0 + 12 * th * x0 * q.
Definition ouc2 := 6 * th ^ 2 * x0 ^ 2 - 6 * th ^ 2 * q + 6 * x0 ^ 2 * q - 6 * q ^ 2.
Definition ouc3 := 4 * th * x0 ^ 3 - 12 * th * x0 * q.
Definition ouc4 := x0 ^ 4 - 6 * x0 ^ 2 * q + 3 * q ^ 2.
Definition ouA4 (t : R) : R := ouc0 * t - ouc1 / k * e t - ouc2 / (2 * k) * e t ^ 2 - ouc3 / (3 * k) * e t ^ 3 - ouc4 / (4 * k) * e t ^ 4.
Lemma ouA4_d t : is_derive ouA4 t (E4 t).
Proof.
  assert (EE : E4 t = ouc0 + ouc1 * e t + ouc2 * e t ^ 2 + ouc3 * e t ^ 3 + ouc4 * e t ^ 4).
  { unfold E4, oum, ouw, ouc0, ouc1, ouc2, ouc3, ouc4. unfold e. fold x0 q. ring. }
  rewrite EE. unfold ouA4, e. generalize ouc0 ouc1 ouc2 ouc3 ouc4. intros c0 c1 c2 c3 c4. auto_derive; [auto|]. Req. field. lra.
Qed.
Lemma ou_swap_int : is_RInt (fun t => r ^ 2 - r * E2 t + / 4 * E4 t - rho * xi * E2 t) 0 T
  (r ^ 2 * T - (r + rho * xi) * (ouA2 T - ouA2 0) + / 4 * (ouA4 T - ouA4 0)).
Proof.
  replace (r ^ 2 * T - (r + rho * xi) * (ouA2 T - ouA2 0) + / 4 * (ouA4 T - ouA4 0))
    with ((r ^ 2 * T - (r + rho * xi) * ouA2 T + / 4 * ouA4 T) - (r ^ 2 * 0 - (r + rho * xi) * ouA2 0 + / 4 * ouA4 0)) by ring.
  apply (is_RInt_derive (V := R_CompleteNormedModule) (fun t => r ^ 2 * t - (r + rho * xi) * ouA2 t + / 4 * ouA4 t)).
  - intros t _. pose proof (ouA2_d t) as D2. pose proof (ouA4_d t) as D4.
    auto_derive; [split; [exists (E2 t); exact D2|split; [exists (E4 t); exact D4|auto]]|].
    replace (Derive (fun x => ouA2 x) t) with (E2 t) by (symmetry; exact (is_derive_unique _ _ _ D2)).
    replace (Derive (fun x => ouA4 x) t) with (E4 t) by (symmetry; exact (is_derive_unique _ _ _ D4)).
    Req. ring.
  - intros t _. apply (ex_derive_continuous (K := R_AbsRing) (V := R_NormedModule)). unfold E2, E4, oum, ouw. auto_derive. auto.
Qed.
Lemma ou_swap_value dt : T * (ou_var_swap p r T dt - ou_avgvar p true T s0) =
  dt * (r ^ 2 * T - (r + rho * xi) * (ouA2 T - ouA2 0) + / 4 * (ouA4 T - ouA4 0)).
Proof.
  unfold ou_var_swap. change (v_sigma p) with s0. change (v_mr p) with k. change (v_theta p) with th. change (v_vov p) with xi. change (v_rho p) with rho.
  pose proof (ou_avgvar_eq s0 xi rho k th (Rgt_not_eq _ _ Hk) T s0) as EA. fold p in EA.
  set (K := ou_avgvar p true T s0) in *.
  assert (EK : K = ouJ k th xi T s0 / T) by (rewrite <- EA; field; lra). rewrite EK.
  clear EA EK. clearbody K. unfold ouA2, ouA4, ouJ, ouc0, ouc1, ouc2, ouc3, ouc4, e, q, x0. cbv zeta.
  rewrite Rmult_0_r, Ropp_0, exp_0.
  set (E := exp (- (k * T))). set (ph := (E - 1) / (k * T)).
  assert (EE : E = 1 + ph * (k * T)) by (unfold ph; field; lra). rewrite EE. clearbody ph. clear EE. clearbody E.
  field. lra.
Qed.
Lemma ou_swap_correct dt I : is_RInt (fun t => r ^ 2 - r * E2 t + / 4 * E4 t - rho * xi * E2 t) 0 T I ->
  ou_var_swap p r T dt = ou_avgvar p true T s0 + dt * (I / T).
Proof.
  intros HI. pose proof (is_RInt_unique (V := R_CompleteNormedModule) _ _ _ _ HI) as U1.
  pose proof (is_RInt_unique (V := R_CompleteNormedModule) _ _ _ _ ou_swap_int) as U2. rewrite U1 in U2.
  pose proof (ou_swap_value dt) as V. rewrite <- U2 in V. apply (Rmult_eq_reg_l T); [|lra].
  replace (T * (ou_avgvar p true T s0 + dt * (I / T))) with (T * ou_avgvar p true T s0 + dt * I) by (field; lra). lra.
Qed.
End Swap.
