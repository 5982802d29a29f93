(** Specification vocabulary: what scipy's gamma and inverse Gaussian distribution functions compute. *)
From Coq Require Import Reals.
From Coquelicot Require Import Coquelicot.
From Verif Require Import Spec_Cev Spec_Dist.
Open Scope R_scope.

(** gc a x is the distribution function at x of the gamma law of shape a *)
Definition gamma_cdf_routine (Gam : R -> R) (gc : R -> R -> R) : Prop := forall a, 0 < a -> cdf_of (gamma_pdf Gam a) (gc a).
(** spst.invgauss(mu, scale=c): c times an inverse Gaussian of mean mu and shape 1, i.e. mean mu c, shape c *)
Definition ig_routines (igc igs : R -> R -> R -> R) : Prop :=
  forall mu c, 0 < mu -> 0 < c -> cdf_of (ig_density (mu * c) c) (igc mu c) /\ forall x, 0 < x -> igs mu c x = 1 - igc mu c x.
(** 1 when x > k, 0 otherwise *)
Definition above (k x : R) : R := if Rlt_dec k x then 1 else 0.
