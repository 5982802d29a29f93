(** Expectation over the exact draws of a square-root path: step j draws a Poisson number K of intensity [inten j v] given the current value v,
    then a Gamma variable G with shape [shape j + K]; the next value is [scale j * G]. *)
From Coq Require Import Reals.
From Verif Require Import Spec_Dist Spec_Cev Spec_CevMc Spec_HestonMc Spec_Expect.
Open Scope R_scope.
Fixpoint pgpath_expect (Gam : R -> R) (scale shape : nat -> R) (inten : nat -> R -> R) (n i : nat) (v : R) (F : (nat -> R) -> R) (x : R) : Prop :=
  match n with
  | O => forall w, F w = x
  | S n' => exists (inner : R -> R) (outer : nat -> R),
      (forall g, 0 < g -> pgpath_expect Gam scale shape inten n' (S i) (scale i * g) (fun w => F (upd w i g)) (inner g)) /\
      (forall k : nat, gam_expect Gam (shape i + INR k) inner (outer k)) /\ pois_expect (inten i v) outer x
  end.
