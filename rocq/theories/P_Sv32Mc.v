(** 3/2 model: reciprocal process, conditional spot, Euler and Milstein steps. *)
From Coq Require Import Reals Lra Lia List Arith Psatz.
From Coquelicot Require Import Coquelicot.
From Verif Require Import Base Sums Gauss Spec_Expect P_Gmom P_Expect M_Mgf M_Heston M_Sv32Mc Spec_Sv32 P_Garch2.
Import ListNotations.
Open Scope R_scope.

Lemma recip_generator (p : svp) (g g1 g2 : R -> R) : 0 < v_mr p -> 0 < v_theta p ->
  (forall x, 0 < x -> is_derive g x (g1 x)) -> (forall x, 0 < x -> is_derive g1 x (g2 x)) ->
  exists f1 f2 : R -> R, forall v, 0 < v ->
    is_derive (fun y => g (1 / y)) v (f1 v) /\ is_derive f1 v (f2 v) /\
    gen32 (v_mr p) (v_theta p) (v_vov p) v (f1 v) (f2 v) =
    gen_sqrt (c_mr (sv32_cir p)) (c_theta (sv32_cir p)) (c_xi (sv32_cir p)) (1 / v) (g1 (1 / v)) (g2 (1 / v)).
Proof.
  intros Hk Ht D1 D2. exists (fun v => g1 (1 / v) * (- (1 / v ^ 2))), (fun v => g2 (1 / v) * (1 / v ^ 4) + g1 (1 / v) * (2 / v ^ 3)).
  intros v Hv. assert (P : 0 < 1 / v) by (apply Rdiv_lt_0_compat; lra).
  assert (DI : is_derive (fun y => 1 / y) v (- (1 / v ^ 2))) by (auto_derive; [lra|]; Req; field; lra).
  split; [|split].
  - pose proof (is_derive_comp g (fun y => 1 / y) v _ _ (D1 _ P) DI) as C. unfold scal in C; cbn in C. unfold mult in C; cbn in C.
    eapply is_derive_ext; [|rewrite Rmult_comm; exact C]. reflexivity.
  - pose proof (is_derive_comp g1 (fun y => 1 / y) v _ _ (D2 _ P) DI) as C. unfold scal in C; cbn in C. unfold mult in C; cbn in C.
    assert (DJ : is_derive (fun y => - (1 / y ^ 2)) v (2 / v ^ 3)) by (auto_derive; [cbn; nra|]; Req; field; lra).
    pose proof (is_derive_mult (fun y => g1 (1 / y)) (fun y => - (1 / y ^ 2)) v _ _ C DJ Rmult_comm) as M. unfold mult, plus in M; cbn in M.
    eapply is_derive_ext; [|replace (g2 (1 / v) * (1 / v ^ 4) + g1 (1 / v) * (2 / v ^ 3)) with (- (1 / (v * (v * 1))) * g2 (1 / v) * - (1 / (v * (v * 1))) + g1 (1 / v) * (2 / (v * (v * (v * 1))))) by (field; lra); exact M]. reflexivity.
  - unfold gen32, gen_sqrt, sv32_cir. cbn [c_mr c_theta c_xi]. field. lra.
Qed.

(** ** conditional spot *)
Section Cond.
Variable p : svp.
Hypothesis Hvov : v_vov p <> 0.
Let k := v_mr p. Let th := v_theta p. Let xi := v_vov p. Let rho := v_rho p.
Definition f32 (v0 t v i : R) : R := exp (v_rho p * ((ln (v / v0) - (t * (v_mr p * v_theta p) - (v_mr p + v_vov p ^ 2 / 2) * i)) / v_vov p - v_rho p * i / 2)).
Lemma f32_dv v0 t v i : 0 < v0 -> 0 < v -> is_derive (fun y => f32 v0 t y i) v (f32 v0 t v i * (rho / xi / v)).
Proof.
  intros H0 Hv. assert (Hx : v_vov p <> 0) by exact Hvov. unfold f32, rho, xi. auto_derive; [apply Rdiv_lt_0_compat; assumption|]. Req.
  unfold Rminus, Rdiv. match goal with |- context [exp ?a] => set (E := exp a) end. match goal with |- _ = exp ?b * _ => change (exp b) with E end. clearbody E. field. repeat split; lra.
Qed.
Lemma f32_martingale v0 : 0 < v0 -> martingale32 k th xi (f32 v0) /\ loading32 xi rho (f32 v0) /\ f32 v0 0 v0 0 = 1.
Proof.
  intros H0. assert (Hx : xi <> 0) by exact Hvov. split; [|split].
  - exists (fun t v i => f32 v0 t v i * (- rho * (k * th) / xi)), (fun t v i => f32 v0 t v i * (rho / xi / v)),
      (fun t v i => f32 v0 t v i * ((rho / xi / v) ^ 2 - rho / xi / v ^ 2)), (fun t v i => f32 v0 t v i * (rho * ((k + xi ^ 2 / 2) / xi - rho / 2))).
    intros t v i Hv. split; [|split; [|split; [|split]]].
    + unfold f32, rho, xi, k, th. auto_derive; [exact I|]. Req. unfold Rminus, Rdiv. match goal with |- context [exp ?a] => set (E := exp a) end.
      match goal with |- _ = exp ?b * _ => change (exp b) with E end. clearbody E. field. exact Hx.
    + now apply f32_dv.
    + pose proof (f32_dv v0 t v i H0 Hv) as D. assert (DJ : is_derive (fun y => rho / xi / y) v (- (rho / xi / v ^ 2))) by (auto_derive; [lra|]; Req; field; lra).
      pose proof (is_derive_mult (fun y => f32 v0 t y i) (fun y => rho / xi / y) v _ _ D DJ Rmult_comm) as M. unfold mult, plus in M; cbn -[f32] in M.
      replace (f32 v0 t v i * ((rho / xi / v) ^ 2 - rho / xi / v ^ 2)) with (f32 v0 t v i * (rho / xi / v) * (rho / xi / v) + f32 v0 t v i * - (rho / xi / (v * (v * 1)))) by (field; lra). exact M.
    + unfold f32, rho, xi, k, th. auto_derive; [exact I|]. Req. unfold Rminus, Rdiv. match goal with |- context [exp ?a] => set (E := exp a) end.
      match goal with |- _ = exp ?b * _ => change (exp b) with E end. clearbody E. field. exact Hx.
    + unfold gen32. field. split; [exact Hx|lra].
  - intros t v i Hv. eexists. split; [now apply f32_dv|]. field. split; [exact Hx|lra].
  - unfold f32. replace (v0 / v0) with 1 by (field; lra). rewrite ln_1. rewrite <- exp_0 at 1. f_equal. field. exact Hx.
Qed.
End Cond.
Lemma sv32_conditional (p : svp) : v_vov p <> 0 -> v_rho p ^ 2 <= 1 -> forall v0, 0 < v0 -> exists f : R -> R -> R -> R,
  martingale32 (v_mr p) (v_theta p) (v_vov p) f /\ loading32 (v_vov p) (v_rho p) f /\ f 0 v0 0 = 1 /\
  forall step dts T vt I s sg, 0 < T -> sv32_loop step 0 dts v0 0 = (vt, I) -> sv32_cond_spot_sigma p step dts T v0 = (s, sg) ->
    (0 < vt -> s = Some (f T vt I)) /\ (vt <= 0 -> s = None) /\ (0 <= I -> v0 * sg ^ 2 * T = (1 - v_rho p ^ 2) * I).
Proof.
  intros Hx Hr v0 H0. exists (f32 p v0). destruct (f32_martingale p Hx v0 H0) as [M [L N]]. split; [exact M|]. split; [exact L|]. split; [exact N|].
  intros step dts T vt I s sg HT E1 E2. unfold sv32_cond_spot_sigma in E2. rewrite E1 in E2. injection E2 as <- <-. split; [|split].
  - intros P. destruct (Rlt_dec 0 vt) as [_|Q]; [|contradiction]. f_equal. unfold f32. f_equal. f_equal. field. split; [exact Hx|lra].
  - intros P. destruct (Rlt_dec 0 vt); [lra|reflexivity].
  - intros P. rewrite pow2_sqrt. { field. lra. } apply Rmult_le_pos; [|left; now apply Rinv_0_lt_compat]. apply Rmult_le_pos; [lra|]. apply Rmult_le_pos; [exact P|left; now apply Rinv_0_lt_compat].
Qed.

(** ** Euler / Milstein *)
Lemma sv32_euler_mean p mil dt v0 : 0 <= dt -> 0 <= v0 ->
  gauss_expect (sv32_euler_raw p mil dt v0) (v0 + v_mr p * v0 * (v_theta p - v0) * dt).
Proof.
  intros Hd Hv. set (A := v0 + v_mr p * v0 * (v_theta p - v0) * dt). set (c := 3 / 4 * v_vov p ^ 2 * v0 ^ 2 * dt). set (b := v_vov p * sqrt (v0 * dt) * v0).
  destruct mil.
  - pose proof (gauss_poly4 (A - c) b c 0 0) as G. replace (A - c + c + 3 * 0) with A in G by ring.
    eapply gauss_expect_ext; [|exact G]. intros z. cbv beta. unfold sv32_euler_raw, A, c, b. ring.
  - pose proof (gauss_poly4 A b 0 0 0) as G. replace (A + 0 + 3 * 0) with A in G by ring.
    eapply gauss_expect_ext; [|exact G]. intros z. cbv beta. unfold sv32_euler_raw, A, b. ring.
Qed.
Lemma sv32_euler_second p (mil : bool) dt v0 : 0 <= dt -> 0 <= v0 ->
  gauss_expect (fun z => sv32_euler_raw p mil dt v0 z ^ 2)
    ((v0 + v_mr p * v0 * (v_theta p - v0) * dt) ^ 2 + v_vov p ^ 2 * v0 ^ 3 * dt + (if mil then 9 / 8 * v_vov p ^ 4 * v0 ^ 4 * dt ^ 2 else 0)).
Proof.
  intros Hd Hv. set (A := v0 + v_mr p * v0 * (v_theta p - v0) * dt). set (c := 3 / 4 * v_vov p ^ 2 * v0 ^ 2 * dt). set (b := v_vov p * sqrt (v0 * dt) * v0).
  assert (Eb : b ^ 2 = v_vov p ^ 2 * v0 ^ 3 * dt). { unfold b. rewrite !Rpow_mult_distr, pow2_sqrt by (now apply Rmult_le_pos). ring. }
  destruct mil.
  - pose proof (gauss_poly4 ((A - c) ^ 2) (2 * (A - c) * b) (b ^ 2 + 2 * (A - c) * c) (2 * b * c) (c ^ 2)) as G.
    match type of G with gauss_expect _ ?x => replace x with (A ^ 2 + v_vov p ^ 2 * v0 ^ 3 * dt + 9 / 8 * v_vov p ^ 4 * v0 ^ 4 * dt ^ 2) in G end.
    2: { rewrite Eb. unfold c. field. }
    eapply gauss_expect_ext; [|exact G]. intros z. cbv beta. unfold sv32_euler_raw, A, c, b. ring.
  - pose proof (gauss_poly4 (A ^ 2) (2 * A * b) (b ^ 2) 0 0) as G.
    match type of G with gauss_expect _ ?x => replace x with (A ^ 2 + v_vov p ^ 2 * v0 ^ 3 * dt + 0) in G by (rewrite Eb; ring) end.
    eapply gauss_expect_ext; [|exact G]. intros z. cbv beta. unfold sv32_euler_raw, A, b. ring.
Qed.
Lemma sv32_euler_nonneg p mil dt v0 z : 0 <= sv32_euler p mil dt v0 z.
Proof. unfold sv32_euler. destruct (Rlt_dec _ 0); lra. Qed.
Lemma sv32_milstein_pos p dt v0 z : 0 < v0 -> 0 < dt -> 0 <= v_mr p * v_theta p -> (3 / 4 * v_vov p ^ 2 + v_mr p) * v0 * dt < 2 / 3 ->
  0 < sv32_euler_raw p true dt v0 z.
Proof.
  intros Hv Hd Hm Hc. unfold sv32_euler_raw. apply Rmult_lt_0_compat; [|exact Hv]. set (s := v_vov p * sqrt (v0 * dt)).
  assert (Es : s ^ 2 = v_vov p ^ 2 * v0 * dt). { unfold s. rewrite Rpow_mult_distr, pow2_sqrt by (apply Rlt_le; now apply Rmult_lt_0_compat). ring. }
  replace (1 + v_mr p * (v_theta p - v0) * dt + s * z + 3 / 4 * v_vov p ^ 2 * v0 * (z ^ 2 - 1) * dt)
    with (v_mr p * v_theta p * dt + (2 / 3 - (3 / 4 * v_vov p ^ 2 + v_mr p) * v0 * dt) + (1 / 3 + s * z + 3 / 4 * s ^ 2 * z ^ 2)) by (rewrite Es; field).
  assert (0 <= v_mr p * v_theta p * dt) by (apply Rmult_le_pos; lra).
  replace (1 / 3 + s * z + 3 / 4 * s ^ 2 * z ^ 2) with (3 / 4 * (s * z + 2 / 3) ^ 2) by field. pose proof (pow2_ge_0 (s * z + 2 / 3)). lra.
Qed.
Lemma sv32_milstein_floor p dt v0 : 0 < v0 -> 0 < dt -> 0 <= v_mr p * v_theta p -> (3 / 4 * v_vov p ^ 2 + v_mr p) * v0 * dt < 2 / 3 ->
  (forall z, 0 < sv32_euler p true dt v0 z) /\ gauss_expect (sv32_euler p true dt v0) (v0 + v_mr p * v0 * (v_theta p - v0) * dt).
Proof.
  intros Hv Hd Hm Hc. assert (E : forall z, sv32_euler p true dt v0 z = sv32_euler_raw p true dt v0 z).
  { intros z. pose proof (sv32_milstein_pos p dt v0 z Hv Hd Hm Hc). unfold sv32_euler. destruct (Rlt_dec _ 0); lra. }
  split; [intros z; rewrite E; now apply sv32_milstein_pos|]. eapply gauss_expect_ext; [|apply (sv32_euler_mean p true); lra]. intros z. now rewrite E.
Qed.
