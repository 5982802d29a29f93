(** Specification vocabulary for the closed-form pricers: plain market quantities, written
    without reference to the model files.  [r], [q] are the interest and dividend rates and
    [isf] says that the quoted underlying is already a forward. *)
From Coq Require Import Reals.
Open Scope R_scope.

(** Discount factor to maturity [T]. *)
Definition DF (r T : R) : R := exp (- (r * T)).
(** Forward price of the underlying quoted at [S]. *)
Definition FWD (r q : R) (isf : bool) (S T : R) : R := if isf then S else S * exp ((r - q) * T).
(** Payoff of a call ([cp = 1]) or put ([cp = -1]) struck at [K]. *)
Definition payoff (cp K x : R) : R := Rmax (cp * (x - K)) 0.
(** The call/put flag. *)
Definition call_or_put (cp : R) : Prop := cp = 1 \/ cp = -1.
