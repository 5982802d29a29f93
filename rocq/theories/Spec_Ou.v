(** Specification vocabulary: conditional expectations of the Ornstein-Uhlenbeck volatility
      ds = k (th - s) dt + xi dZ,   dU = s dt,   dJ = s^2 dt
    characterised by the Kolmogorov backward equation:
    [f t s u j = E(g(s_t, U_t, J_t) | s_0 = s, U_0 = u, J_0 = j)]. *)
From Coq Require Import Reals.
From Coquelicot Require Import Coquelicot.
Open Scope R_scope.

Definition ou_expectation (k th xi : R) (g : R -> R -> R -> R) (f : R -> R -> R -> R -> R) : Prop :=
  (forall s u j, f 0 s u j = g s u j) /\
  exists ft fs fss fu fj : R -> R -> R -> R -> R, forall t s u j : R, 0 <= t ->
    is_derive (fun y => f y s u j) t (ft t s u j) /\
    is_derive (fun y => f t y u j) s (fs t s u j) /\
    is_derive (fun y => fs t y u j) s (fss t s u j) /\
    is_derive (fun y => f t s y j) u (fu t s u j) /\
    is_derive (fun y => f t s u y) j (fj t s u j) /\
    ft t s u j = k * (th - s) * fs t s u j + xi ^ 2 / 2 * fss t s u j + s * fu t s u j + s ^ 2 * fj t s u j.

(** [f t s u j], seen along the path (t, s_t, U_t, J_t), has no drift: the generator annihilates it *)
Definition ou_martingale (k th xi : R) (f : R -> R -> R -> R -> R) : Prop :=
  exists ft fs fss fu fj : R -> R -> R -> R -> R, forall t s u j : R,
    is_derive (fun y => f y s u j) t (ft t s u j) /\
    is_derive (fun y => f t y u j) s (fs t s u j) /\
    is_derive (fun y => fs t y u j) s (fss t s u j) /\
    is_derive (fun y => f t s y j) u (fu t s u j) /\
    is_derive (fun y => f t s u y) j (fj t s u j) /\
    ft t s u j + k * (th - s) * fs t s u j + xi ^ 2 / 2 * fss t s u j + s * fu t s u j + s ^ 2 * fj t s u j = 0.
