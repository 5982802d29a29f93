(** C07: Bsm.impvol converges on every arbitrage-free array of quotes, reprices them and inverts the price.
    [ppf] is scipy's normal quantile; its only assumed property is that it inverts the normal distribution function. *)
From Coq Require Import Reals Lra List.
From Coquelicot Require Import Coquelicot.
From Verif Require Import Base Gauss Spec_Opt M_Opt P_Bsm P_Newton4 P_Newton5 P_Newton6.
Import ListNotations.
Open Scope R_scope.

(** Every array of quotes strictly inside the no-arbitrage bounds is solved: with enough iterations the loop stops by its
    own convergence test, whatever the strikes, sides and moneyness in the array. *)
Theorem C07_impvol_converges : forall ppf m quotes S T setval, (forall x, 0 < x < 1 -> Phi (ppf x) = x) -> 0 < S ->
  (forall P K cp, In (P, K, cp) quotes -> call_or_put cp /\ 0 < K /\
     DF (intr m) T * payoff cp K (FWD (intr m) (divr m) (is_fwd m) S T) < P
       < DF (intr m) T * (if Rlt_dec 0 cp then FWD (intr m) (divr m) (is_fwd m) S T else K)) ->
  exists N, forall n, (N <= n)%nat -> exists vols models, bsm_impvol ppf m quotes S T setval n = Some (vols, true, models).
Proof. exact impvol_converges'. Qed.
Print Assumptions C07_impvol_converges.

(** A run that stops by its convergence test returns one volatility per quote, [setval] stores exactly those, and each
    arbitrage-free quote is repriced: the relative error on the time value is at most exp(1e-10 + 4e-13) - 1. *)
Theorem C07_impvol_run : forall ppf m quotes S T setval n vols models, (forall x, 0 < x < 1 -> Phi (ppf x) = x) -> 0 < S -> 0 < T ->
  bsm_impvol ppf m quotes S T setval n = Some (vols, true, models) ->
  length vols = length quotes /\ models = (if setval then map (set_sigma m) vols else map (fun _ => m) vols) /\
  forall i P K cp v, nth_error quotes i = Some (P, K, cp) -> nth_error vols i = Some v ->
    call_or_put cp -> 0 < K -> bsm_price (set_sigma m 0) K S T cp <= P < DF (intr m) T * (if Rlt_dec 0 cp then FWD (intr m) (divr m) (is_fwd m) S T else K) ->
    Rabs (bsm_price (set_sigma m v) K S T cp - P)
      < (P - DF (intr m) T * payoff cp K (FWD (intr m) (divr m) (is_fwd m) S T)) * (exp (IMPVOL_TOL + 4 / 10 ^ 13) - 1).
Proof. exact impvol_run_full. Qed.
Print Assumptions C07_impvol_run.

(** impvol inverts price: a quote generated by volatility [sig] gives [sig] back, up to the tolerance times the time value
    over vega (the conditioning of the problem). *)
Theorem C07_impvol_roundtrip : forall ppf m quotes S T setval n vols models, (forall x, 0 < x < 1 -> Phi (ppf x) = x) -> 0 < S -> 0 < T ->
  bsm_impvol ppf m quotes S T setval n = Some (vols, true, models) ->
  forall i sig K cp v, call_or_put cp -> 0 < K -> eps <= sig * sqrt T ->
    nth_error quotes i = Some (bsm_price (set_sigma m sig) K S T cp, K, cp) -> nth_error vols i = Some v ->
    let w := set_sigma m (Rmax v sig) in
    Rabs (v - sig) <= (IMPVOL_TOL + 4 / 10 ^ 13) *
      ((bsm_price w K S T cp - DF (intr m) T * payoff cp K (FWD (intr m) (divr m) (is_fwd m) S T)) / bsm_vega w K S T cp).
Proof. exact impvol_roundtrip. Qed.
Print Assumptions C07_impvol_roundtrip.

(** The starting point never overshoots: it is positive and its price does not exceed the target. *)
Theorem C07_initial_guess : forall ppf lk p, 0 <= lk -> 0 < p < 1 -> (forall q, 0 < q < 1 -> Phi (ppf q) = q) ->
  0 < iv_init ppf (exp lk) p /\ P_Black.black (iv_init ppf (exp lk) p) 1 (exp lk) 1 <= p.
Proof. exact init_below_cstd. Qed.
Print Assumptions C07_initial_guess.

(** Non-vacuity: a quantile exists, and a two-quote array (a call and a put generated at different volatilities) meets
    the hypotheses, so a converged run exists whose volatilities invert it. *)
Definition ex_nm : opt := mkOpt (/ 5) (/ 20) (/ 100) false.
Definition ex_quotes : list (R * R * R) :=
  [(bsm_price (set_sigma ex_nm (/ 4)) 90 100 1 1, 90, 1); (bsm_price (set_sigma ex_nm (/ 3)) 120 100 1 (-1), 120, -1)].
Example C07_converges_example : exists ppf n vols models, (forall x, 0 < x < 1 -> Phi (ppf x) = x) /\ 
  bsm_impvol ppf ex_nm ex_quotes 100 1 true n = Some (vols, true, models) /\ length vols = 2%nat.
Proof.
  destruct quantile_exists as [ppf Hp]. exists ppf.
  destruct (C07_impvol_converges ppf ex_nm ex_quotes 100 1 true Hp ltac:(lra)) as [N HN].
  { intros P K cp [E|[E|[]]]; injection E as <- <- <-.
    - destruct (price_inside ex_nm (/ 4) 90 100 1 1 (or_introl eq_refl) ltac:(lra) ltac:(lra)) as (A & B & C & D). now repeat split.
    - destruct (price_inside ex_nm (/ 3) 120 100 1 (-1) (or_intror eq_refl) ltac:(lra) ltac:(lra)) as (A & B & C & D). now repeat split. }
  destruct (HN N (Nat.le_refl N)) as (vols & models & E). exists N, vols, models. split; [exact Hp|]. split; [exact E|].
  now destruct (C07_impvol_run ppf ex_nm ex_quotes 100 1 true N vols models Hp ltac:(lra) ltac:(lra) E) as (L & _).
Qed.
