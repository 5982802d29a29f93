(** Specification vocabulary: the boundary value problem of a knock-out option.  T is the time to expiry. *)
From Coq Require Import Reals.
From Coquelicot Require Import Coquelicot.
From Verif Require Import Spec_Opt.
Open Scope R_scope.
(** U_T = vol(S,T)^2/2 U_SS + (r - q) S U_S - r U at every point S of the domain, T > 0 *)
Definition pricing_equation (dom : R -> Prop) (vol : R -> R -> R) (r q : R) (U : R -> R -> R) : Prop :=
  exists U1 U2 Ut : R -> R -> R, forall S T, dom S -> 0 < T ->
    is_derive (fun s => U s T) S (U1 S T) /\ is_derive (fun s => U1 s T) S (U2 S T) /\ is_derive (fun t => U S t) T (Ut S T) /\
    Ut S T = vol S T ^ 2 / 2 * U2 S T + (r - q) * S * U1 S T - r * U S T.
(** S is on the live side of the barrier: above it for side = 1, below it for side = -1 *)
Definition alive (side B S : R) : Prop := 0 < side * (S - B).
(** value at expiry: the limit as the time to expiry goes to 0 *)
Definition at_expiry (U : R -> R -> R) (S v : R) : Prop := filterlim (fun T => U S T) (at_right 0) (locally v).
