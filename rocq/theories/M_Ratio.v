(** OusvMcChoi2025KL.unexplained_var_ratio (ousv.py:999-1019). *)
From Coq Require Import Reals.
From Verif Require Import M_Ou.
Open Scope R_scope.

(** ousv.py:999-1019 unexplained_var_ratio; the default ns=None is the object's n_sin *)
Definition unexplained_var_ratio (x : R) (ns : option nat) (n_sin : nat) : R :=
  let n := match ns with Some n => n | None => n_sin end in a4sum x n All / a4sum x 0 All.
