(** Specification vocabulary: Poisson probabilities. *)
From Coq Require Import Reals.
Open Scope R_scope.
(** P(N = n) for N Poisson with mean l *)
Definition pois (l : R) (n : nat) : R := exp (- l) * l ^ n / INR (fact n).
