(** Spread options: parity, exact exercise-strategy value, lower bound, exchange options. *)
From Coq Require Import Reals Lra Lia Psatz List Arith.
From Coquelicot Require Import Coquelicot.
From Verif Require Import Base Gauss Sums Spec_Opt Spec_Expect Spec_Multi M_Opt M_Params M_Fd M_Sabr M_Multi Spec_Multi2 P_Black P_Bsm P_Norm P_Expect P_KlLaw P_Sabr2 P_Conv P_Conv2.
Open Scope R_scope.

Lemma bsm_formula_black K F s T cp : bsm_price_formula K F s T cp 0 0 true = black (sigma_std s T) F K cp.
Proof.
  unfold bsm_price_formula, black. cbv zeta. rewrite Rmult_0_r, exp_0, !Rmult_1_r.
  replace (/ 2 * sigma_std s T) with (sigma_std s T / 2) by field. ring.
Qed.

Lemma kirk_parity o K spot T : kirk_price o K spot T 1 - kirk_price o K spot T (-1) =
  mk_df (sp_m o) T * (mk_fwd (sp_m o) spot T 0%nat - mk_fwd (sp_m o) spot T 1%nat - K).
Proof.
  unfold kirk_price. cbv zeta. rewrite !bsm_formula_black, <- Rmult_minus_distr_l, black_parity.
  f_equal. unfold Rmin, Rmax. destruct (Rle_dec K 0); lra.
Qed.

Lemma bjerk_parity o K spot T : bjerk_price o K spot T 1 - bjerk_price o K spot T (-1) =
  mk_df (sp_m o) T * (mk_fwd (sp_m o) spot T 0%nat - mk_fwd (sp_m o) spot T 1%nat - K).
Proof.
  unfold bjerk_price. cbv zeta. set (F1 := mk_fwd _ _ _ 0%nat). set (F2 := mk_fwd _ _ _ 1%nat). rewrite <- Rmult_minus_distr_l. f_equal.
  match goal with |- context [Phi (1 * ?x)] => set (e1 := x) end.
  match goal with |- context [F2 * Phi (1 * ?x)] => set (e2 := x) end.
  match goal with |- context [K * Phi (1 * ?x)] => set (e3 := x) end.
  rewrite !Rmult_1_l. replace (-1 * e1) with (- e1) by ring. replace (-1 * e2) with (- e2) by ring. replace (-1 * e3) with (- e3) by ring.
  rewrite !Phi_opp. ring.
Qed.

(** rewriting the two assets through [tilt] *)
Definition av1 (s : R) : nat -> R := fun i => match i with O => s | _ => 0 end.
Definition av2 (s rho : R) : nat -> R := fun i => match i with O => s * rho | 1%nat => s * sqrt (1 - rho ^ 2) | _ => 0 end.
Lemma asset1_tilt f s t z : 0 <= t -> asset1 f s t z = f * tilt 2 (av1 (s * sqrt t)) z.
Proof.
  intros Ht. unfold asset1, tilt, lin, nrm2. cbn [rsum av1]. do 2 f_equal.
  replace (0 + s * sqrt t * (s * sqrt t) + 0 * 0) with (s ^ 2 * (sqrt t * sqrt t)) by ring. rewrite sqrt_sqrt by exact Ht. field.
Qed.
Lemma rho_c rho : -1 < rho < 1 -> 0 < sqrt (1 - rho ^ 2) /\ sqrt (1 - rho ^ 2) * sqrt (1 - rho ^ 2) = 1 - rho ^ 2.
Proof. intros. split; [apply sqrt_lt_R0; nra|apply sqrt_sqrt; nra]. Qed.
Lemma nrm_av2 s rho : -1 < rho < 1 -> nrm2 2 (av2 s rho) = s ^ 2.
Proof.
  intros H. destruct (rho_c rho H) as [_ E]. unfold nrm2. cbn [rsum av2].
  replace (0 + s * rho * (s * rho) + s * sqrt (1 - rho ^ 2) * (s * sqrt (1 - rho ^ 2))) with (s ^ 2 * rho ^ 2 + s ^ 2 * (sqrt (1 - rho ^ 2) * sqrt (1 - rho ^ 2))) by ring.
  rewrite E. ring.
Qed.
Lemma asset2_tilt f s rho t z : -1 < rho < 1 -> 0 <= t -> asset2 f s rho t z = f * tilt 2 (av2 (s * sqrt t) rho) z.
Proof.
  intros H Ht. unfold asset2, tilt. rewrite nrm_av2 by exact H. unfold lin. cbn [rsum av2]. do 2 f_equal.
  replace ((s * sqrt t) ^ 2) with (s ^ 2 * (sqrt t * sqrt t)) by ring. rewrite sqrt_sqrt by exact Ht. field.
Qed.

Section Bjerk.
  Variables (f1 f2 s1 s2 rho t K : R).
  Hypotheses (F1 : 0 < f1) (F2 : 0 < f2) (S1 : 0 < s1) (S2 : 0 < s2) (Hr : -1 < rho < 1) (Ht : 0 < t) (HK : 0 < f2 + K).
  Let a := f2 + K.
  Let b := f2 / a.
  Let m := Rpower f2 b * exp (b * (b - 1) / 2 * (s2 ^ 2 * t)).
  Let A := av1 (s1 * sqrt t).
  Let C := av2 (s2 * sqrt t) rho.
  Let be : nat -> R := fun i => b * C i - A i.
  Let g := ln (f1 / a) - s1 ^ 2 * t / 2 + b ^ 2 * (s2 ^ 2 * t) / 2.
  Lemma bk_b : 0 < b. Proof using F2 HK. apply Rdiv_lt_0_compat; assumption. Qed.
  Lemma bk_mom : 0 < m. Proof using. unfold m, Rpower. apply Rmult_lt_0_compat; apply exp_pos. Qed.
  Lemma bk_s2t : 0 < s2 * sqrt t. Proof using S2 Ht. apply Rmult_lt_0_compat; [exact S2|apply sqrt_lt_R0, Ht]. Qed.
  Lemma bk_s1t : 0 < s1 * sqrt t. Proof using S1 Ht. apply Rmult_lt_0_compat; [exact S1|apply sqrt_lt_R0, Ht]. Qed.
  Lemma bk_sq s : (s * sqrt t) ^ 2 = s ^ 2 * t.
  Proof using Ht. replace ((s * sqrt t) ^ 2) with (s ^ 2 * (sqrt t * sqrt t)) by ring. rewrite sqrt_sqrt by lra. reflexivity. Qed.

  (** m is the mean of S2^b *)
  Lemma bk_mean : normals_expect 2 (fun z => Rpower (asset2 f2 s2 rho t z) b) m.
  Proof using F2 Hr Ht HK.
    pose proof (normals_scal 2 _ _ (Rpower f2 b * exp (- (b * (s2 ^ 2 * t) / 2))) (normals_mgf 2 (fun i => b * C i))) as H.
    assert (E : nrm2 2 (fun i => b * C i) = b ^ 2 * (s2 ^ 2 * t)).
    { rewrite <- bk_sq, <- (nrm_av2 (s2 * sqrt t) rho Hr). unfold nrm2, C. cbn [rsum]. ring. }
    rewrite E in H. replace (Rpower f2 b * exp (- (b * (s2 ^ 2 * t) / 2)) * exp (b ^ 2 * (s2 ^ 2 * t) / 2)) with m in H.
    2:{ unfold m. rewrite Rmult_assoc, <- exp_plus. do 2 f_equal. field. }
    eapply normals_ext; [|exact H]. intros z. cbv beta. rewrite asset2_tilt by (lra || exact Hr).
    unfold Rpower. rewrite ln_mult by (exact F2 || apply tilt_pos).
    unfold tilt at 1. rewrite ln_exp, nrm_av2, bk_sq by exact Hr.
    replace (lin 2 (fun i => b * C i) z) with (b * lin 2 C z) by (unfold lin; cbn [rsum]; ring). fold C.
    rewrite <- !exp_plus. f_equal. field.
  Qed.

  Lemma bk_event z : a * Rpower (asset2 f2 s2 rho t z) b / m <= asset1 f1 s1 t z <-> lin 2 be z <= g.
  Proof using F1 F2 Hr Ht HK.
    rewrite asset1_tilt, asset2_tilt by (lra || exact Hr). fold A C.
    assert (Hm := bk_mom). assert (T1 := tilt_pos 2 A z). assert (T2 := tilt_pos 2 C z).
    assert (P1 : 0 < a * Rpower (f2 * tilt 2 C z) b / m).
    { apply Rdiv_lt_0_compat; [|exact Hm]. apply Rmult_lt_0_compat; [exact HK|]. unfold Rpower. apply exp_pos. }
    assert (P2 : 0 < f1 * tilt 2 A z) by (apply Rmult_lt_0_compat; assumption).
    assert (Lm : ln m = b * ln f2 + b * (b - 1) / 2 * (s2 ^ 2 * t)).
    { unfold m. rewrite ln_mult by (unfold Rpower; apply exp_pos). unfold Rpower. rewrite !ln_exp. reflexivity. }
    assert (L1 : ln (a * Rpower (f2 * tilt 2 C z) b / m) = ln a + b * (ln f2 + (lin 2 C z - s2 ^ 2 * t / 2)) - ln m).
    { unfold Rdiv at 1. rewrite ln_mult; [|apply Rmult_lt_0_compat; [exact HK|unfold Rpower; apply exp_pos]|apply Rinv_0_lt_compat, Hm].
      rewrite ln_Rinv by exact Hm. rewrite ln_mult; [|exact HK|unfold Rpower; apply exp_pos]. unfold Rpower at 1. rewrite ln_exp.
      rewrite ln_mult by (exact F2 || apply tilt_pos). unfold tilt. rewrite ln_exp. unfold C. rewrite nrm_av2, bk_sq by exact Hr. ring. }
    assert (L2 : ln (f1 * tilt 2 A z) = ln f1 + (lin 2 A z - s1 ^ 2 * t / 2)).
    { rewrite ln_mult by assumption. unfold tilt. rewrite ln_exp. do 2 f_equal. unfold nrm2, A. cbn [rsum av1].
      rewrite <- bk_sq. field. }
    assert (Lb : lin 2 be z = b * lin 2 C z - lin 2 A z) by (unfold be, lin; cbn [rsum]; ring).
    assert (Lg : g = ln f1 - ln a - s1 ^ 2 * t / 2 + b ^ 2 * (s2 ^ 2 * t) / 2).
    { unfold g. rewrite ln_div by assumption. reflexivity. }
    assert (Q : a * Rpower (f2 * tilt 2 C z) b / m <= f1 * tilt 2 A z <-> ln (a * Rpower (f2 * tilt 2 C z) b / m) <= ln (f1 * tilt 2 A z)).
    { split; intros H. - apply ln_le; assumption. - destruct (Rle_lt_dec (a * Rpower (f2 * tilt 2 C z) b / m) (f1 * tilt 2 A z)) as [|Hlt]; [assumption|]. apply (ln_increasing _ _ P2) in Hlt. lra. }
    rewrite Q, L1, L2, Lb, Lg, Lm. split; intros; lra.
  Qed.

  Lemma bk_nrm : nrm2 2 be = s1 ^ 2 * t - 2 * b * rho * (s1 * s2 * t) + b ^ 2 * (s2 ^ 2 * t).
  Proof using Hr Ht.
    destruct (rho_c rho Hr) as [_ E]. unfold nrm2, be, C, A. cbn [rsum av1 av2].
    transitivity ((b * s2 * rho - s1) ^ 2 * (sqrt t * sqrt t) + b ^ 2 * s2 ^ 2 * (sqrt t * sqrt t) * (sqrt (1 - rho ^ 2) * sqrt (1 - rho ^ 2))); [ring|].
    rewrite E, sqrt_sqrt by lra. ring.
  Qed.
  Lemma bk_nrm_pos : 0 < nrm2 2 be.
  Proof using F2 S2 Hr Ht HK.
    apply (nrm2_pos 2 be 1); [lia|]. unfold be, C, A. cbn [av1 av2]. pose proof bk_b. pose proof bk_s2t. destruct (rho_c rho Hr) as [P _].
    apply Rgt_not_eq. rewrite Rminus_0_r. apply Rmult_lt_0_compat; [assumption|]. apply Rmult_lt_0_compat; assumption.
  Qed.
  Lemma bk_linA : lin 2 A be = b * rho * (s1 * s2 * t) - s1 ^ 2 * t.
  Proof using Ht.
    unfold lin, be, C, A. cbn [rsum av1 av2].
    transitivity ((b * rho * (s1 * s2) - s1 ^ 2) * (sqrt t * sqrt t)); [ring|]. rewrite sqrt_sqrt by lra. ring.
  Qed.
  Lemma bk_linC : lin 2 C be = b * (s2 ^ 2 * t) - rho * (s1 * s2 * t).
  Proof using Hr Ht.
    destruct (rho_c rho Hr) as [_ E]. unfold lin, be, C, A. cbn [rsum av1 av2].
    transitivity ((b * s2 ^ 2 * rho ^ 2 - rho * (s1 * s2)) * (sqrt t * sqrt t) + b * s2 ^ 2 * (sqrt t * sqrt t) * (sqrt (1 - rho ^ 2) * sqrt (1 - rho ^ 2))); [ring|].
    rewrite E, sqrt_sqrt by lra. ring.
  Qed.
  Lemma lin0 (be' : nat -> R) : lin 2 (fun _ => 0) be' = 0. Proof using. unfold lin. cbn [rsum]. ring. Qed.

  Definition bk_std := sqrt (s1 ^ 2 * t - 2 * b * rho * (s1 * s2 * t) + b ^ 2 * (s2 ^ 2 * t)).
  Definition bk_d1 := (g + s1 ^ 2 * t - b * rho * (s1 * s2 * t)) / bk_std.
  Definition bk_d2 := (g - b * (s2 ^ 2 * t) + rho * (s1 * s2 * t)) / bk_std.
  Definition bk_d3 := g / bk_std.

  (** expected gain of "exercise iff a S2^b / E[S2^b] <= S1" *)
  Lemma bk_call : normals_expect 2 (fun z => (asset1 f1 s1 t z - asset2 f2 s2 rho t z - K) * when_le (a * Rpower (asset2 f2 s2 rho t z) b / m) (asset1 f1 s1 t z))
     (f1 * Phi bk_d1 - f2 * Phi bk_d2 - K * Phi bk_d3).
  Proof using F1 F2 S2 Hr Ht HK.
    pose proof (normals_scal 2 _ _ f1 (normals_half_space 2 A be g bk_nrm_pos)) as H1.
    pose proof (normals_scal 2 _ _ (- f2) (normals_half_space 2 C be g bk_nrm_pos)) as H2.
    pose proof (normals_scal 2 _ _ (- K) (normals_half_space 2 (fun _ => 0) be g bk_nrm_pos)) as H3.
    pose proof (normals_plus 2 _ _ _ _ H1 (normals_plus 2 _ _ _ _ H2 H3)) as H.
    rewrite bk_linA, bk_linC, lin0, bk_nrm in H. fold bk_std in H.
    replace (f1 * Phi bk_d1 - f2 * Phi bk_d2 - K * Phi bk_d3) with
      (f1 * Phi ((g - (b * rho * (s1 * s2 * t) - s1 ^ 2 * t)) / bk_std) + (- f2 * Phi ((g - (b * (s2 ^ 2 * t) - rho * (s1 * s2 * t))) / bk_std) + - K * Phi ((g - 0) / bk_std))).
    2:{ unfold bk_d1, bk_d2, bk_d3.
        replace (g - (b * rho * (s1 * s2 * t) - s1 ^ 2 * t)) with (g + s1 ^ 2 * t - b * rho * (s1 * s2 * t)) by ring.
        replace (g - (b * (s2 ^ 2 * t) - rho * (s1 * s2 * t))) with (g - b * (s2 ^ 2 * t) + rho * (s1 * s2 * t)) by ring. rewrite Rminus_0_r. ring. }
    eapply normals_ext; [|exact H]. intros z. cbv beta.
    assert (E : when_le (a * Rpower (asset2 f2 s2 rho t z) b / m) (asset1 f1 s1 t z) = ind_le (lin 2 be z) g).
    { pose proof (bk_event z) as Q. unfold when_le, ind_le. destruct (Rle_dec _ (asset1 f1 s1 t z)), (Rle_dec _ g); tauto. }
    rewrite E, asset1_tilt, asset2_tilt by (lra || exact Hr). fold A C.
    replace (tilt 2 (fun _ => 0) z) with 1. 2:{ unfold tilt, lin, nrm2. cbn [rsum]. symmetry. rewrite <- exp_0 at 1. f_equal. field. }
    ring.
  Qed.

  Lemma bk_spread_mean : normals_expect 2 (fun z => asset1 f1 s1 t z - asset2 f2 s2 rho t z - K) (f1 - f2 - K).
  Proof using Hr Ht.
    pose proof (normals_plus 2 _ _ _ _ (normals_scal 2 _ _ f1 (tilt_expect 2 A)) (normals_plus 2 _ _ _ _ (normals_scal 2 _ _ (- f2) (tilt_expect 2 C)) (normals_const 2 (- K)))) as H.
    replace (f1 * 1 + (- f2 * 1 + - K)) with (f1 - f2 - K) in H by ring.
    eapply normals_ext; [|exact H]. intros z. cbv beta. rewrite asset1_tilt, asset2_tilt by (lra || exact Hr). fold A C. ring.
  Qed.

  Lemma bk_put : normals_expect 2 (fun z => (K - (asset1 f1 s1 t z - asset2 f2 s2 rho t z)) * (1 - when_le (a * Rpower (asset2 f2 s2 rho t z) b / m) (asset1 f1 s1 t z)))
     (- (f1 * Phi (- bk_d1) - f2 * Phi (- bk_d2) - K * Phi (- bk_d3))).
  Proof using F1 F2 S2 Hr Ht HK.
    pose proof (normals_plus 2 _ _ _ _ bk_call (normals_scal 2 _ _ (-1) bk_spread_mean)) as H.
    replace (- (f1 * Phi (- bk_d1) - f2 * Phi (- bk_d2) - K * Phi (- bk_d3))) with (f1 * Phi bk_d1 - f2 * Phi bk_d2 - K * Phi bk_d3 + -1 * (f1 - f2 - K)) by (rewrite !Phi_opp; ring).
    eapply normals_ext; [|exact H]. intros z. cbv beta. ring.
  Qed.
End Bjerk.


Lemma mk_df_pos m T : 0 < mk_df m T. Proof. apply exp_pos. Qed.
Lemma mk_fwd_pos m spot T i : 0 < spot i -> 0 < mk_fwd m spot T i.
Proof.
  intros H. unfold mk_fwd. destruct (k_isf m); [exact H|]. apply Rdiv_lt_0_compat; [|apply mk_df_pos].
  apply Rmult_lt_0_compat; [exact H|apply exp_pos].
Qed.

Lemma bjerk_eq o K spot T cp : let f1 := mk_fwd (sp_m o) spot T 0%nat in let f2 := mk_fwd (sp_m o) spot T 1%nat in
  bjerk_price o K spot T cp = mk_df (sp_m o) T * (cp * (f1 * Phi (cp * bk_d1 f1 f2 (sp_s1 o) (sp_s2 o) (sp_rho o) T K)
    - f2 * Phi (cp * bk_d2 f1 f2 (sp_s1 o) (sp_s2 o) (sp_rho o) T K) - K * Phi (cp * bk_d3 f1 f2 (sp_s1 o) (sp_s2 o) (sp_rho o) T K))).
Proof.
  intros f1 f2. unfold bjerk_price, bk_d1, bk_d2, bk_d3, bk_std. cbv zeta. fold f1 f2.
  set (a := f2 + K). set (b := f2 / a).
  replace (sp_s1 o ^ 2 * T - 2 * b * sp_rho o * (sp_s1 o * sp_s2 o * T) + b ^ 2 * (sp_s2 o ^ 2 * T)) with (sp_s1 o ^ 2 * T - 2 * b * sp_rho o * (sp_s1 o * sp_s2 o * T) + b ^ 2 * (sp_s2 o ^ 2 * T)) by ring.
  set (sd := sqrt _). do 2 f_equal. unfold Rdiv.
  f_equal; [f_equal|]; f_equal; f_equal; f_equal; f_equal; field.
Qed.

(** the published exercise rule: exercise when a S2^b / E[S2^b] <= S1 *)

Lemma bjerk_strategy o K spot T : valid_spread o spot T -> let f1 := mk_fwd (sp_m o) spot T 0%nat in let f2 := mk_fwd (sp_m o) spot T 1%nat in
  0 < f2 + K ->
  let X1 := asset1 f1 (sp_s1 o) T in let X2 := asset2 f2 (sp_s2 o) (sp_rho o) T in let df := mk_df (sp_m o) T in
  normals_expect 2 (fun z => Rpower (X2 z) (f2 / (f2 + K))) (Rpower f2 (f2 / (f2 + K)) * exp (f2 / (f2 + K) * (f2 / (f2 + K) - 1) / 2 * (sp_s2 o ^ 2 * T))) /\
  normals_expect 2 (fun z => df * ((X1 z - X2 z - K) * exercise f2 (sp_s2 o) T K (X1 z) (X2 z))) (bjerk_price o K spot T 1) /\
  normals_expect 2 (fun z => df * ((K - (X1 z - X2 z)) * (1 - exercise f2 (sp_s2 o) T K (X1 z) (X2 z)))) (bjerk_price o K spot T (-1)).
Proof.
  intros (S1 & S2 & Hr & Ht & P1 & P2) f1 f2 HK X1 X2 df.
  assert (F1 : 0 < f1) by (apply mk_fwd_pos, P1). assert (F2 : 0 < f2) by (apply mk_fwd_pos, P2).
  split; [apply bk_mean; assumption|]. rewrite !bjerk_eq. fold f1 f2. rewrite !Rmult_1_l.
  replace (-1 * bk_d1 f1 f2 (sp_s1 o) (sp_s2 o) (sp_rho o) T K) with (- bk_d1 f1 f2 (sp_s1 o) (sp_s2 o) (sp_rho o) T K) by ring.
  replace (-1 * bk_d2 f1 f2 (sp_s1 o) (sp_s2 o) (sp_rho o) T K) with (- bk_d2 f1 f2 (sp_s1 o) (sp_s2 o) (sp_rho o) T K) by ring.
  replace (-1 * bk_d3 f1 f2 (sp_s1 o) (sp_s2 o) (sp_rho o) T K) with (- bk_d3 f1 f2 (sp_s1 o) (sp_s2 o) (sp_rho o) T K) by ring.
  split; apply normals_scal.
  - apply bk_call; assumption.
  - match goal with |- normals_expect _ _ (-1 * ?x) => replace (-1 * x) with (- x) by ring end. apply bk_put; assumption.
Qed.

Lemma payoff_ge cp K x e : is_cp cp -> 0 <= e <= 1 -> cp * (x - K) * e <= payoff cp K x.
Proof. intros Hcp He. unfold payoff. pose proof (Rmax_l (cp * (x - K)) 0). pose proof (Rmax_r (cp * (x - K)) 0). nra. Qed.
Lemma exercise_range f2 s2 T K a b : 0 <= exercise f2 s2 T K a b <= 1.
Proof. unfold exercise, when_le. destruct Rle_dec; lra. Qed.

Lemma bjerk_lower o K spot T cp p : valid_spread o spot T -> call_or_put cp -> let f1 := mk_fwd (sp_m o) spot T 0%nat in let f2 := mk_fwd (sp_m o) spot T 1%nat in
  0 < f2 + K ->
  normals_expect 2 (fun z => mk_df (sp_m o) T * payoff cp K (asset1 f1 (sp_s1 o) T z - asset2 f2 (sp_s2 o) (sp_rho o) T z)) p ->
  bjerk_price o K spot T cp <= p.
Proof.
  intros V Hcp f1 f2 HK Hp. destruct (bjerk_strategy o K spot T V HK) as (_ & Hc & Hpu). cbv zeta in Hc, Hpu. fold f1 f2 in Hc, Hpu.
  pose proof (mk_df_pos (sp_m o) T) as D.
  destruct Hcp as [->| ->].
  - refine (normals_le 2 _ _ _ _ _ Hc Hp). intros z. cbv beta. apply Rmult_le_compat_l; [lra|].
    set (X1 := asset1 f1 (sp_s1 o) T z). set (X2 := asset2 f2 (sp_s2 o) (sp_rho o) T z).
    replace (X1 - X2 - K) with (1 * (X1 - X2 - K)) by ring. apply payoff_ge; [now left|apply exercise_range].
  - refine (normals_le 2 _ _ _ _ _ Hpu Hp). intros z. cbv beta. apply Rmult_le_compat_l; [lra|].
    set (X1 := asset1 f1 (sp_s1 o) T z). set (X2 := asset2 f2 (sp_s2 o) (sp_rho o) T z).
    replace (K - (X1 - X2)) with (-1 * (X1 - X2 - K)) by ring. apply payoff_ge; [now right|].
    pose proof (exercise_range f2 (sp_s2 o) T K X1 X2). lra.
Qed.

Lemma bjerk_exchange o spot T cp : valid_spread o spot T -> call_or_put cp ->
  normals_expect 2 (fun z => mk_df (sp_m o) T * payoff cp 0 (asset1 (mk_fwd (sp_m o) spot T 0%nat) (sp_s1 o) T z - asset2 (mk_fwd (sp_m o) spot T 1%nat) (sp_s2 o) (sp_rho o) T z))
    (bjerk_price o 0 spot T cp).
Proof.
  intros V Hcp. set (f1 := mk_fwd (sp_m o) spot T 0%nat). set (f2 := mk_fwd (sp_m o) spot T 1%nat).
  assert (F2 : 0 < f2) by (apply mk_fwd_pos; apply V).
  destruct (bjerk_strategy o 0 spot T V) as (_ & Hc & Hpu). { fold f2. lra. } cbv zeta in Hc, Hpu. fold f1 f2 in Hc, Hpu.
  assert (Ex : forall z, exercise f2 (sp_s2 o) T 0 (asset1 f1 (sp_s1 o) T z) (asset2 f2 (sp_s2 o) (sp_rho o) T z) = when_le (asset2 f2 (sp_s2 o) (sp_rho o) T z) (asset1 f1 (sp_s1 o) T z)).
  { intros z. unfold exercise. rewrite Rplus_0_r. replace (f2 / f2) with 1 by (field; lra).
    assert (P : 0 < asset2 f2 (sp_s2 o) (sp_rho o) T z) by (unfold asset2; apply Rmult_lt_0_compat; [exact F2|apply exp_pos]).
    rewrite !Rpower_1 by assumption. f_equal. replace (1 * (1 - 1) / 2 * (sp_s2 o ^ 2 * T)) with 0 by field. rewrite exp_0. field. lra. }
  destruct Hcp as [->| ->].
  - eapply normals_ext; [|exact Hc]. intros z. cbv beta. rewrite Ex. f_equal. unfold payoff, when_le. destruct Rle_dec as [L|L].
    + rewrite Rmax_left by lra. ring.
    + rewrite Rmax_right by lra. ring.
  - eapply normals_ext; [|exact Hpu]. intros z. cbv beta. rewrite Ex. f_equal. unfold payoff, when_le. destruct Rle_dec as [L|L].
    + rewrite Rmax_right by lra. ring.
    + rewrite Rmax_left by lra. ring.
Qed.

Lemma kirk_bjerk_zero o spot T cp : valid_spread o spot T -> eps <= spread_vol o * sqrt T -> kirk_price o 0 spot T cp = bjerk_price o 0 spot T cp.
Proof.
  intros (S1 & S2 & Hr & Ht & P1 & P2) He.
  unfold kirk_price, bjerk_price. cbv zeta. set (f1 := mk_fwd (sp_m o) spot T 0%nat). set (f2 := mk_fwd (sp_m o) spot T 1%nat).
  assert (F1 : 0 < f1) by (apply mk_fwd_pos, P1). assert (F2 : 0 < f2) by (apply mk_fwd_pos, P2).
  rewrite bsm_formula_black. rewrite Rmin_left, Rmax_left by lra. rewrite !Rminus_0_r, !Rplus_0_r.
  replace (sp_s1 o * f1 / f1) with (sp_s1 o) by (field; lra). replace (sp_s2 o * f2 / f2) with (sp_s2 o) by (field; lra).
  replace (f2 / f2) with 1 by (field; lra).
  replace (sp_s1 o * (sp_s1 o - 2 * sp_rho o * sp_s2 o) + sp_s2 o ^ 2) with (sp_s1 o ^ 2 - 2 * sp_rho o * sp_s1 o * sp_s2 o + sp_s2 o ^ 2) by ring.
  fold (spread_vol o). assert (Es : sigma_std (spread_vol o) T = spread_vol o * sqrt T) by (unfold sigma_std; apply Rmax_left, He).
  rewrite Es.
  set (q := sp_s1 o ^ 2 - 2 * sp_rho o * sp_s1 o * sp_s2 o + sp_s2 o ^ 2).
  assert (Q : 0 < q).
  { unfold q. replace (sp_s1 o ^ 2 - 2 * sp_rho o * sp_s1 o * sp_s2 o + sp_s2 o ^ 2) with ((sp_s1 o - sp_rho o * sp_s2 o) ^ 2 + (1 - sp_rho o ^ 2) * sp_s2 o ^ 2) by ring.
    pose proof (pow2_ge_0 (sp_s1 o - sp_rho o * sp_s2 o)). assert (0 < (1 - sp_rho o ^ 2) * sp_s2 o ^ 2) by (apply Rmult_lt_0_compat; [nra|apply pow_lt; exact S2]). lra. }
  replace (sp_s1 o ^ 2 * T - 2 * 1 * sp_rho o * (sp_s1 o * sp_s2 o * T) + 1 ^ 2 * (sp_s2 o ^ 2 * T)) with (q * T) by (unfold q; ring).
  assert (Eq : sqrt (q * T) = spread_vol o * sqrt T) by (unfold spread_vol; fold q; apply sqrt_mult; lra). rewrite Eq.
  set (v := spread_vol o * sqrt T) in *. assert (V2 : v * v = q * T) by (rewrite <- Eq; apply sqrt_sqrt; nra).
  assert (Vp : 0 < v) by (rewrite <- Eq; apply sqrt_lt_R0; nra).
  unfold black. f_equal.
  replace (ln (f1 / f2) / v + v / 2) with ((ln (f1 / f2) + / 2 * (sp_s1 o ^ 2 * T) - 1 * (sp_rho o * (sp_s1 o * sp_s2 o * T) - / 2 * 1 * (sp_s2 o ^ 2 * T))) / v).
  2:{ replace (v / 2) with (v * v / 2 / v) by (field; lra). rewrite V2. unfold q. field. lra. }
  replace (ln (f1 / f2) / v - v / 2) with ((ln (f1 / f2) - / 2 * (sp_s1 o ^ 2 * T) + sp_rho o * (sp_s1 o * sp_s2 o * T) + 1 * (/ 2 * 1 - 1) * (sp_s2 o ^ 2 * T)) / v).
  2:{ replace (v / 2) with (v * v / 2 / v) by (field; lra). rewrite V2. unfold q. field. lra. }
  ring.
Qed.

Lemma kirk_intrinsic o K spot T cp : valid_spread o spot T -> call_or_put cp ->
  mk_df (sp_m o) T * Rmax (cp * (mk_fwd (sp_m o) spot T 0%nat - mk_fwd (sp_m o) spot T 1%nat - K)) 0 < kirk_price o K spot T cp.
Proof.
  intros (S1 & S2 & Hr & Ht & P1 & P2) Hcp. unfold kirk_price. cbv zeta. set (f1 := mk_fwd (sp_m o) spot T 0%nat). set (f2 := mk_fwd (sp_m o) spot T 1%nat).
  assert (F1 : 0 < f1) by (apply mk_fwd_pos, P1). assert (F2 : 0 < f2) by (apply mk_fwd_pos, P2).
  rewrite bsm_formula_black. apply Rmult_lt_compat_l; [apply mk_df_pos|].
  pose proof (Rmin_r K 0). pose proof (Rmax_r K 0).
  replace (f1 - f2 - K) with ((f1 - Rmin K 0) - (f2 + Rmax K 0)) by (unfold Rmin, Rmax; destruct (Rle_dec K 0); lra).
  match goal with |- _ < black ?s ?F ?k cp => assert (Hs : 0 < s); [|pose proof (black_lower s F k cp Hcp Hs ltac:(lra) ltac:(lra)) as L; pose proof (black_pos s F k cp Hcp Hs ltac:(lra) ltac:(lra))] end.
  { unfold sigma_std. apply Rlt_le_trans with eps; [apply eps_pos|apply Rmax_r]. }
  exact L.
Qed.

(** max of two assets *)
Lemma max2_mean o spot T : valid_spread o spot T -> eps <= spread_vol o * sqrt T -> sp_m o = mkMkt 0 (fun _ => 0) true ->
  normals_expect 2 (fun z => Rmax (asset1 (spot 0%nat) (sp_s1 o) T z) (asset2 (spot 1%nat) (sp_s2 o) (sp_rho o) T z)) (kirk_price o 0 spot T 1 + spot 1%nat).
Proof.
  intros V He Em. rewrite kirk_bjerk_zero by assumption.
  pose proof (bjerk_exchange o spot T 1 V ltac:(now left)) as H. destruct V as (S1 & S2 & Hr & Ht & P1 & P2).
  rewrite Em in H. unfold mk_fwd, mk_df in H. cbn [k_isf k_r] in H.
  pose proof (normals_plus 2 _ _ _ _ H (normals_scal 2 _ _ (spot 1%nat) (tilt_expect 2 (av2 (sp_s2 o * sqrt T) (sp_rho o))))) as G.
  rewrite Rmult_1_r in G. eapply normals_ext; [|exact G]. intros z. cbv beta. rewrite <- asset2_tilt by (lra || exact Hr).
  replace (- 0 * T) with 0 by ring. rewrite exp_0. unfold payoff.
  set (x := asset1 _ _ _ _). set (y := asset2 _ _ _ _ _). unfold Rmax. destruct (Rle_dec x y), (Rle_dec (1 * (x - y - 0)) 0); lra.
Qed.

Lemma max2_parity bvn o cps cps' K spot T c p : valid_spread o spot T -> eps <= spread_vol o * sqrt T ->
  max2_price bvn o cps K spot T 1 = Some c -> max2_price bvn o cps' K spot T (-1) = Some p ->
  exists M, normals_expect 2 (fun z => Rmax (asset1 (mk_fwd (sp_m o) spot T 0%nat) (sp_s1 o) T z) (asset2 (mk_fwd (sp_m o) spot T 1%nat) (sp_s2 o) (sp_rho o) T z)) M /\
    c - p = mk_df (sp_m o) T * (M - K).
Proof.
  intros V He. unfold max2_price. cbv zeta. set (f0 := mk_fwd (sp_m o) spot T 0%nat). set (f1 := mk_fwd (sp_m o) spot T 1%nat).
  match goal with |- (if ?c then _ else _) = _ -> _ => destruct c; [discriminate|] end.
  destruct (Rlt_dec 1 0); [lra|]. destruct (Rlt_dec (-1) 0); [|lra].
  replace (forallb (fun c0 => if Rlt_dec 0 c0 then true else false) (-1 :: cps')) with false by (cbn; destruct (Rlt_dec 0 (-1)); [lra|reflexivity]).
  set (os := mkSpr (sp_s1 o) (sp_s2 o) (sp_rho o) (mkMkt 0 (fun _ => 0) true)).
  assert (V' : valid_spread os (mk_fwd (sp_m o) spot T) T).
  { destruct V as (S1 & S2 & Hr & Ht & P1 & P2). repeat split; cbn; try tauto; try lra; apply mk_fwd_pos; assumption. }
  pose proof (max2_mean os (mk_fwd (sp_m o) spot T) T V' He eq_refl) as HM. cbn [sp_s1 sp_s2 sp_rho os] in HM.
  set (par := kirk_price os 0 (mk_fwd (sp_m o) spot T) T 1 + f1) in *.
  intros Ec Ep. injection Ec as <-. injection Ep as <-. exists par. split; [exact HM|]. ring.
Qed.

Lemma max2_flags bvn o cps cps' K spot T cp : call_or_put cp -> max2_price bvn o cps K spot T cp = max2_price bvn o cps' K spot T cp.
Proof.
  intros [->| ->]; unfold max2_price; cbv zeta.
  - destruct (Rlt_dec 1 0); [lra|]. reflexivity.
  - cbn [forallb]. destruct (Rlt_dec 0 (-1)); [lra|]. reflexivity.
Qed.
