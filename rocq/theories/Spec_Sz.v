From Coq Require Import Reals.
From Coquelicot Require Import Coquelicot.
From Verif Require Import M_Sz.
Open Scope R_scope.
(** the complex elementary functions extend the real ones *)
Definition real_ops (o : cops) : Prop :=
  (forall x, 0 <= x -> c_sqrt o (RtoC x) = RtoC (sqrt x)) /\ (forall x, c_exp o (RtoC x) = RtoC (exp x)) /\ (forall x, 0 < x -> c_log o (RtoC x) = RtoC (ln x)) /\
  (forall x, c_sinh o (RtoC x) = RtoC (sinh x)) /\ (forall x, c_cosh o (RtoC x) = RtoC (cosh x)).
(** the root finder delivers a root of f whatever the starting point if there is one *)
Definition solves_at (root : (tri -> tri) -> tri -> tri) (f : tri -> tri) : Prop := (exists x, f x = (0, 0, 0)) -> forall x0, f (root f x0) = (0, 0, 0).
