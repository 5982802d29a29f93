(** Specification vocabulary for the Fourier-cosine pricer. *)
From Coq Require Import Reals.
From Coquelicot Require Import Coquelicot.
From Verif Require Import Sums.
Open Scope R_scope.
(** k-th frequency of the interval [a,b] *)
Definition freq (a b : R) (k : nat) : R := INR k * PI / (b - a).
(** Re[ cf(u) exp(-i u a) ] for cf = re + i im : the cosine transform about a *)
Definition cos_transform (re im : R -> R) (a u : R) : R := re u * cos (u * a) + im u * sin (u * a).
(** N-term cosine series on [a,b] with the first term halved *)
Definition cosine_series (re im : R -> R) (n : nat) (a b x : R) : R :=
  2 / (b - a) * rsum n (fun k => (if Nat.eqb k 0 then / 2 else 1) * cos_transform re im a (freq a b k) * cos (freq a b k * (x - a))).
(** a (sub)probability density, and an upper bound for its exponential moments *)
Definition subdensity (f : R -> R) : Prop :=
  (forall x, 0 <= f x) /\ (forall c d, ex_RInt f c d) /\ (forall c d, c <= d -> RInt f c d <= 1).
Definition mgf_bounds (f : R -> R) (mgf : R -> option R) : Prop :=
  forall s M, mgf s = Some M -> 0 < M /\ (forall c d, ex_RInt (fun x => exp (s * x) * f x) c d) /\
    (forall c d, c <= d -> RInt (fun x => exp (s * x) * f x) c d <= M).
