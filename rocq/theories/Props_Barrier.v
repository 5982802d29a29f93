(** C08, continued: the knock-out price solves the boundary value problem of the knock-out option. *)
From Coq Require Import Reals Lra.
From Coquelicot Require Import Coquelicot.
From Verif Require Import Base Gauss Spec_Opt Spec_Barrier M_Opt P_Bsm P_Barrier P_Barrier2 P_Barrier3.
Open Scope R_scope.
Definition in_domain (S : R) : Prop := 0 < S.
Definition whole_line (S : R) : Prop := True.
(** side = 1: spot above the barrier (down-and-out); side = -1: below (up-and-out) *)
Lemma bsm_bvp m K B cp side : is_fwd m = false -> 0 < sigma m -> 0 < K -> 0 < B -> call_or_put cp -> call_or_put side -> (side = cp -> cp * B <= cp * K) ->
  exists U : R -> R -> R,
    (forall S T, 0 < S -> alive side B S -> 0 < T -> eps <= sigma m * sqrt T -> bsm_price_barrier m K B S T cp (-1) = U S T) /\
    pricing_equation in_domain (fun S _ => sigma m * S) (intr m) (divr m) U /\
    (forall T, U B T = 0) /\
    (forall S, 0 < S -> alive side B S -> at_expiry U S (payoff cp K S)).
Proof.
  intros Hf Hs HK HB Hcp Hsd Hreg. exists (kof (sigma m) (intr m) (divr m) (if Req_EM_T side cp then true else false) cp K B). split; [|split; [|split]].
  - intros S T HS Ha HT He. now apply ko_code.
  - now apply kof_pde.
  - intros T. now apply kof_barrier.
  - intros S HS Ha. now apply kof_expiry.
Qed.
Theorem C08_bsm_knockout_bvp : forall m K B cp side, is_fwd m = false -> 0 < sigma m -> 0 < K -> 0 < B -> call_or_put cp -> call_or_put side ->
  (side = cp -> cp * B <= cp * K) ->
  exists U : R -> R -> R,
    (forall S T, 0 < S -> alive side B S -> 0 < T -> eps <= sigma m * sqrt T -> bsm_price_barrier m K B S T cp (-1) = U S T) /\
    pricing_equation in_domain (fun S _ => sigma m * S) (intr m) (divr m) U /\
    (forall T, U B T = 0) /\
    (forall S, 0 < S -> alive side B S -> at_expiry U S (payoff cp K S)).
Proof. exact bsm_bvp. Qed.
Print Assumptions C08_bsm_knockout_bvp.
Lemma bsm_bvp_wrong m K B cp : is_fwd m = false -> 0 < sigma m -> 0 < K -> 0 < B -> call_or_put cp ->
  exists U : R -> R -> R,
    (forall S T, 0 < S -> alive cp B S -> 0 < T -> eps <= sigma m * sqrt T -> bsm_price_barrier m K B S T cp (-1) = U S T) /\
    (forall S, 0 < S -> at_expiry U S (payoff cp K S - Rpower (B / S) (2 * (intr m - divr m) / sigma m ^ 2 - 1) * payoff cp K (B ^ 2 / S))).
Proof.
  intros Hf Hs HK HB Hcp. exists (kof (sigma m) (intr m) (divr m) true cp K B). split.
  - intros S T HS Ha HT He. rewrite (ko_code m K B S T cp cp) by assumption. destruct (Req_EM_T cp cp) as [_|N]; [reflexivity|contradiction].
  - intros S HS. now apply kof_expiry_same.
Qed.
(** down call / up put, strike on either side of the barrier: value the coded formula takes at expiry *)
Theorem C08_bsm_knockout_expiry_value : forall m K B cp, is_fwd m = false -> 0 < sigma m -> 0 < K -> 0 < B -> call_or_put cp ->
  exists U : R -> R -> R,
    (forall S T, 0 < S -> alive cp B S -> 0 < T -> eps <= sigma m * sqrt T -> bsm_price_barrier m K B S T cp (-1) = U S T) /\
    (forall S, 0 < S -> at_expiry U S (payoff cp K S - Rpower (B / S) (2 * (intr m - divr m) / sigma m ^ 2 - 1) * payoff cp K (B ^ 2 / S))).
Proof. exact bsm_bvp_wrong. Qed.
Print Assumptions C08_bsm_knockout_expiry_value.
(** a call is worth less at a higher strike, whatever the barrier; the coded down-and-out call struck below its barrier is worth more *)
Theorem C08_bsm_strike_below_barrier_refuted : forall m K1 K2 B S T, is_fwd m = false -> intr m = divr m -> 0 < K1 -> K1 < K2 -> 0 < B -> 2 * B <= S ->
  0 < sigma m -> 0 < T -> eps <= sigma m * sqrt T -> K2 <= B ^ 2 / S * exp (- (sigma m ^ 2 * T / 2)) ->
  bsm_price_barrier m K1 B S T 1 (-1) < bsm_price_barrier m K2 B S T 1 (-1).
Proof. exact wrong_side. Qed.
Print Assumptions C08_bsm_strike_below_barrier_refuted.
Lemma norm_bvp m K B cp side : is_fwd m = true \/ intr m = divr m -> 0 < sigma m -> call_or_put cp -> call_or_put side -> (side = cp -> cp * B <= cp * K) ->
  exists U : R -> R -> R,
    (forall S T, alive side B S -> 0 < T -> eps <= sigma m * sqrt T -> norm_price_barrier m K B S T cp (-1) = U S T) /\
    pricing_equation whole_line (fun _ _ => sigma m) (intr m) (intr m) U /\
    (forall T, U B T = 0) /\
    (forall S, alive side B S -> at_expiry U S (payoff cp K S)).
Proof.
  intros Hf Hs Hcp Hsd Hreg. exists (knf (sigma m) (intr m) (if Req_EM_T side cp then true else false) cp K B). split; [|split; [|split]].
  - intros S T Ha HT He. now apply knf_code.
  - now apply knf_pde.
  - intros T. now apply knf_barrier.
  - intros S Ha. now apply knf_expiry.
Qed.
(** the Bachelier knock-out, quoted on the forward or with equal rates (no drift) *)
Theorem C08_norm_knockout_bvp : forall m K B cp side, is_fwd m = true \/ intr m = divr m -> 0 < sigma m -> call_or_put cp -> call_or_put side ->
  (side = cp -> cp * B <= cp * K) ->
  exists U : R -> R -> R,
    (forall S T, alive side B S -> 0 < T -> eps <= sigma m * sqrt T -> norm_price_barrier m K B S T cp (-1) = U S T) /\
    pricing_equation whole_line (fun _ _ => sigma m) (intr m) (intr m) U /\
    (forall T, U B T = 0) /\
    (forall S, alive side B S -> at_expiry U S (payoff cp K S)).
Proof. exact norm_bvp. Qed.
Print Assumptions C08_norm_knockout_bvp.
(** with a drift no pricing equation, whatever its volatility, is solved both by the vanilla price and by the knock-out price *)
Theorem C08_norm_drift_refuted : forall m K B, is_fwd m = false -> 0 < sigma m -> intr m <> divr m -> B <> 0 ->
  ~ exists vol V U,
    (forall S T, eps <= sigma m * sqrt T -> norm_price m K S T 1 = V S T) /\
    (forall S T, alive 1 B S -> eps <= sigma m * sqrt T -> norm_price_barrier m K B S T 1 (-1) = U S T) /\
    pricing_equation (alive 1 B) vol (intr m) (divr m) V /\ pricing_equation (alive 1 B) vol (intr m) (divr m) U.
Proof. exact norm_drift_bad. Qed.
Print Assumptions C08_norm_drift_refuted.
Definition ex_b : opt := mkOpt (/ 5) (/ 20) (/ 20) false.
Lemma ex_b_std : eps <= sigma ex_b * sqrt 1.
Proof.
  unfold ex_b; cbn [sigma]. rewrite sqrt_1, Rmult_1_r. unfold eps. apply Rinv_le_contravar; [lra|]. replace 5 with (5 * 1) by ring. replace (2 ^ 52) with (2 ^ 3 * 2 ^ 49) by (rewrite <- pow_add; reflexivity).
  apply Rmult_le_compat; try lra; apply pow_R1_Rle; lra.
Qed.
(** a down-and-out call struck above its barrier; struck far below it, it gains value with the strike *)
Example C08_ex_bvp : exists U : R -> R -> R,
  (forall S T, 0 < S -> alive 1 90 S -> 0 < T -> eps <= / 5 * sqrt T -> bsm_price_barrier ex_b 100 90 S T 1 (-1) = U S T) /\
  pricing_equation in_domain (fun S _ => / 5 * S) (/ 20) (/ 20) U /\ (forall T, U 90 T = 0) /\ (forall S, 0 < S -> alive 1 90 S -> at_expiry U S (payoff 1 100 S)).
Proof. apply (C08_bsm_knockout_bvp ex_b 100 90 1 1); try reflexivity; cbn [ex_b sigma]; try lra; now left. Qed.
Example C08_ex_wrong : bsm_price_barrier ex_b 10 100 200 1 1 (-1) < bsm_price_barrier ex_b 20 100 200 1 1 (-1).
Proof.
  apply C08_bsm_strike_below_barrier_refuted; try reflexivity; cbn [ex_b sigma]; try lra; [exact ex_b_std|].
  apply Rle_trans with (50 * (1 - / 50)); [lra|]. replace (100 ^ 2 / 200) with 50 by field. apply Rmult_le_compat_l; [lra|].
  replace (- ((/ 5) ^ 2 * 1 / 2)) with (- / 50) by field. pose proof (exp_ineq1_le (- / 50)). lra.
Qed.
