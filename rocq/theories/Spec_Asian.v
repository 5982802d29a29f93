(** Specification of the continuously averaged lognormal price, as the limit of discretely monitored averages.
    Independent of the model. *)
From Coq Require Import Reals.
From Coquelicot Require Import Coquelicot.
From Verif Require Import Sums Spec_Expect.
Open Scope R_scope.

(** Lognormal price S_t / S_0 with drift g and volatility sig observed at t = (i+1) T/N, driven by independent standard normals
    z 0, ..., z (N-1), one per period *)
Definition gbm_obs (g sig T : R) (N : nat) (z : nat -> R) (i : nat) : R :=
  exp (rsum (S i) (fun j => (g - sig ^ 2 / 2) * (T / INR N) + sig * sqrt (T / INR N) * z j)).
(** arithmetic average of the N observations *)
Definition gbm_avg (g sig T : R) (N : nat) (z : nat -> R) : R := rsum N (gbm_obs g sig T N z) / INR N.
(** "the n-th moment of the continuous average (1/T) int_0^T S_t/S_0 dt is [m]": the n-th moments of the averages over N dates exist
    and converge to m *)
Definition asian_moment (g sig T : R) (n : nat) (m : R) : Prop :=
  exists a : nat -> R, (forall N, (1 <= N)%nat -> normals_expect N (fun z => gbm_avg g sig T N z ^ n) (a N)) /\ is_lim_seq a m.

(** Integral over all positive strikes, improper at both ends.  For a random variable X >= 0 the undiscounted call prices satisfy
    int_0^infinity E(X - K)^+ dK = E X^2 / 2, so a price curve determines a second moment. *)
Definition strikes_integral (f : R -> R) (v : R) : Prop :=
  (forall b, 0 < b -> ex_RInt f (exp (- b)) (exp b)) /\ is_lim (fun b => RInt f (exp (- b)) (exp b)) p_infty v.
Definition implied_second_moment (call : R -> R) (v : R) : Prop := strikes_integral (fun K => 2 * call K) v.
