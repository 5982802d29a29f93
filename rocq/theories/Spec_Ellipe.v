(** Specification vocabulary: the complete elliptic integral of the second kind, integrals from a point to infinity. *)
From Coq Require Import Reals.
From Coquelicot Require Import Coquelicot.
Open Scope R_scope.
(** E(m) = int_0^(pi/2) sqrt(1 - m sin(t)^2) dt, m <= 1 *)
Definition elliptic_E (ellipe : R -> R) : Prop := forall m, m <= 1 -> is_RInt (fun t => sqrt (1 - m * sin t ^ 2)) 0 (PI / 2) (ellipe m).
(** the integral of f over (a, infinity) exists and equals v *)
Definition int_from (a : R) (f : R -> R) (v : R) : Prop := is_RInt_gen (V := R_NormedModule) f (at_point a) (Rbar_locally p_infty) v.
From Coq Require Import List.
From Verif Require Import Sums Spec_Dist.
(** the rule (nodes, weights) integrates h against the generalised Laguerre weight v^(3/2) e^(-v) on (0, infinity) without error *)
Definition laguerre_exact (rule : list (R * R)) (h : R -> R) : Prop :=
  forall I, half_line (fun v => v * sqrt v * exp (- v) * h v) I -> lsum (map (fun vw => snd vw * h (fst vw)) rule) = I.
