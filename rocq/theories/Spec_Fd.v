(** Vocabulary for the finite-difference properties. *)
From Coq Require Import Reals Arith.
Open Scope R_scope.
(** [x] solves the n x n tridiagonal system: row i reads sub_i x_{i-1} + mid_i x_i + sup_i x_{i+1} = rhs_i, without the
    first term in the first row and without the last term in the last row. *)
Definition tridiag (n : nat) (sub mid sup rhs x : nat -> R) : Prop :=
  forall i, (i < n)%nat ->
    (if Nat.eqb i 0 then 0 else sub i * x (i - 1)%nat) + mid i * x i
    + (if Nat.eqb i (n - 1) then 0 else sup i * x (i + 1)%nat) = rhs i.
(** a strictly increasing grid g_0 < ... < g_{n-1} *)
Definition increasing_to (n : nat) (g : nat -> R) : Prop := forall a b, (a < b < n)%nat -> g a < g b.
