(** Specification vocabulary: expectation over the successive (Poisson, gamma) draws of a simulated square-root process.
    In step i the Poisson intensity depends on the current variance v, the gamma shape on the Poisson value, and the next
    variance is scale * gamma. *)
From Coq Require Import Reals.
From Verif Require Import Spec_Dist Spec_Cev Spec_CevMc Spec_HestonMc.
Open Scope R_scope.

Definition set_draw (w : nat -> R * R) (i : nat) (y : R * R) : nat -> R * R := fun j => if Nat.eqb j i then y else w j.
(** [n] draws number i, ..., i + n - 1 of the functional [F] of the draws, started at variance [v] *)
Fixpoint pg_expect (Gam : R -> R) (scale shape : R) (inten : R -> R) (n i : nat) (v : R) (F : (nat -> R * R) -> R) (x : R) : Prop :=
  match n with
  | O => forall w, F w = x
  | S n' => exists (inner : nat -> R -> R) (outer : nat -> R),
      (forall (k : nat) (g : R), 0 < g -> pg_expect Gam scale shape inten n' (S i) (scale * g) (fun w => F (set_draw w i (INR k, g))) (inner k g)) /\
      (forall k : nat, gam_expect Gam (shape + INR k) (inner k) (outer k)) /\
      pois_expect (inten v) outer x
  end.
