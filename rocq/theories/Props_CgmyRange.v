(** C98: the truncation interval of CgmyCos. *)
From Coq Require Import Reals Lra Lia List.
From Coquelicot Require Import Coquelicot.
From Verif Require Import Base M_Opt M_Mgf M_Cos M_Params M_CgmyRange Spec_Opt Spec_Cos P_CgmyRange.
Open Scope R_scope.

(** *** C98 *)
(** exact characterization: the interval contains log-forward 0 in its interior iff Y > 0; it is reversed for
    Y < 0 and empty (division by zero) for Y = 0 *)
Theorem C98_interval : forall c1 half L Y, 0 < L ->
  let r := cgmy_range false c1 half L Y in
  (fst r < 0 < snd r <-> 0 < Y) /\ (snd r < 0 < fst r <-> Y < 0) /\ (fst r = snd r <-> Y = 0).
Proof. exact cgmy_range_sign. Qed.
Print Assumptions C98_interval.
(** for Y in (0, 1.97] the price is the discounted payoff integral of the N-term cosine series over [-L Y, L Y],
    an interval that is the same at every maturity *)
Theorem C98_price_integral : forall m c1 half L Y re im n K S T cp, 0 < L -> 0 < Y <= 197 / 100 -> 0 < K -> 0 < S -> call_or_put cp ->
  cgmy_cos_price m false false c1 half L Y re im n K S T cp =
  DF (intr m) T * RInt (fun x => payoff cp K (FWD (intr m) (divr m) (is_fwd m) S T * exp x) * cosine_series re im n (- (L * Y)) (L * Y) x) (- (L * Y)) (L * Y).
Proof. exact cgmy_integral. Qed.
Print Assumptions C98_price_integral.
(** Junike mode: the same over c1 +- half; Y within 1e-5 of 1.98: the same over [-100, 20] *)
Theorem C98_junike_integral : forall m c1 half L Y re im n K S T cp, 0 < half -> 0 < K -> 0 < S -> call_or_put cp ->
  cgmy_cos_price m true false c1 half L Y re im n K S T cp =
  DF (intr m) T * RInt (fun x => payoff cp K (FWD (intr m) (divr m) (is_fwd m) S T * exp x) * cosine_series re im n (c1 - half) (c1 + half) x) (c1 - half) (c1 + half).
Proof. exact cgmy_junike. Qed.
Print Assumptions C98_junike_integral.
Theorem C98_special_integral : forall m c1 half L Y re im n K S T cp, Rabs (Y - 198 / 100) <= 1 / 100000 -> 0 < K -> 0 < S -> call_or_put cp ->
  cgmy_cos_price m false false c1 half L Y re im n K S T cp =
  DF (intr m) T * RInt (fun x => payoff cp K (FWD (intr m) (divr m) (is_fwd m) S T * exp x) * cosine_series re im n (-100) 20 x) (-100) 20.
Proof. exact cgmy_special. Qed.
Print Assumptions C98_special_integral.
(** Le Floc'h's formula obeys put-call parity exactly in every mode, and its put is the default put for strikes
    inside the interval *)
Theorem C98_lefloch_parity : forall m junike c1 half L Y re im n K S T,
  cgmy_cos_price m junike true c1 half L Y re im n K S T 1 - cgmy_cos_price m junike true c1 half L Y re im n K S T (-1) =
  DF (intr m) T * (FWD (intr m) (divr m) (is_fwd m) S T - K).
Proof. exact cgmy_lefloch_parity. Qed.
Print Assumptions C98_lefloch_parity.
Theorem C98_lefloch_put : forall m junike c1 half L Y re im n K S T, 0 < S ->
  fst (cgmy_range junike c1 half L Y) <= ln (K / FWD (intr m) (divr m) (is_fwd m) S T) <= snd (cgmy_range junike c1 half L Y) ->
  cgmy_cos_price m junike true c1 half L Y re im n K S T (-1) = cgmy_cos_price m junike false c1 half L Y re im n K S T (-1).
Proof. exact cgmy_lefloch_put. Qed.
Print Assumptions C98_lefloch_put.
(** hence a call struck at F exp(L Y) or beyond is worth exactly 0, at every maturity and whatever C, G, M *)
Theorem C98_call_vanishes : forall m c1 half L Y re im n K S T, 0 < L -> 0 < Y <= 197 / 100 ->
  L * Y <= ln (K / FWD (intr m) (divr m) (is_fwd m) S T) -> cgmy_cos_price m false false c1 half L Y re im n K S T 1 = 0.
Proof. exact cgmy_call_zero. Qed.
Print Assumptions C98_call_vanishes.
(** which parameters the constructor accepts: nothing excludes Y <= 0 *)
Theorem C98_accepted : forall C G M Y, cgmy_accepts C G M Y = true <-> 0 < C /\ 0 < G /\ 1 < M /\ Y < 2.
Proof. exact cgmy_accepts_all. Qed.
Print Assumptions C98_accepted.
(** refuted for Y < 0: with the default formula every call is worth exactly 0, even deep in the money *)
Theorem C98_negative_Y_refuted : forall m c1 half L Y re im n K S T, 0 < L -> Y < 0 ->
  cgmy_cos_price m false false c1 half L Y re im n K S T 1 = 0.
Proof. exact cgmy_call_zero_neg. Qed.
Print Assumptions C98_negative_Y_refuted.
(** and with Le Floc'h's formula the put is 0 and the call strictly negative for F < K < F exp(-L Y) *)
Theorem C98_lefloch_refuted : forall m c1 half L Y re im n K S T, 0 < L -> Y < 0 -> 0 < S ->
  let F := FWD (intr m) (divr m) (is_fwd m) S T in
  F < K < F * exp (- (L * Y)) ->
  cgmy_cos_price m false true c1 half L Y re im n K S T (-1) = 0 /\
  cgmy_cos_price m false true c1 half L Y re im n K S T 1 < 0.
Proof. exact cgmy_lefloch_neg. Qed.
Print Assumptions C98_lefloch_refuted.
(** C = 1, G = 5, M = 10, Y = -1/2 (compound Poisson) is accepted; the one-year call on a forward of 100 struck
    at 50 (intrinsic value 50) is 0, and Le Floc'h's call struck at 110 is negative *)
Example C98_ex : forall re im, cgmy_accepts 1 5 10 (- (1 / 2)) = true /\
  cgmy_cos_price (mkOpt 1 0 0 true) false false 0 0 12 (- (1 / 2)) re im 256 50 100 1 1 = 0 /\
  cgmy_cos_price (mkOpt 1 0 0 true) false true 0 0 12 (- (1 / 2)) re im 256 110 100 1 1 < 0.
Proof.
  intros re im. split; [|split].
  - apply C98_accepted. lra.
  - apply C98_negative_Y_refuted; lra.
  - apply C98_lefloch_refuted; try lra. cbn [intr divr is_fwd FWD].
    replace (- (12 * - (1 / 2))) with 6 by lra. split; [lra|].
    pose proof (exp_ineq1 6 ltac:(lra)). lra.
Qed.
