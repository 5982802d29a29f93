(** Specification vocabulary: conditional expectations of a square-root stochastic-volatility diffusion
      dV = k (th - V) dt + xi sqrt(V) dZ,   dX = - V/2 dt + sqrt(V) dW,   d<Z,W> = rho dt,   dJ = V dt
    (X the log of price over forward, J the integrated variance), characterised by the Kolmogorov backward
    equation: [f t x v j = E(g(X_t,V_t,J_t) | X_0 = x, V_0 = v, J_0 = j)]. *)
From Coq Require Import Reals.
From Coquelicot Require Import Coquelicot.
Open Scope R_scope.

Definition backward_equation (k th xi rho : R) (f : R -> R -> R -> R -> R) : Prop :=
  exists ft fx fxx fv fvv fxv fj : R -> R -> R -> R -> R, forall t x v j : R, 0 <= t ->
    is_derive (fun s => f s x v j) t (ft t x v j) /\
    is_derive (fun y => f t y v j) x (fx t x v j) /\
    is_derive (fun y => fx t y v j) x (fxx t x v j) /\
    is_derive (fun w => f t x w j) v (fv t x v j) /\
    is_derive (fun w => fv t x w j) v (fvv t x v j) /\
    is_derive (fun w => fx t x w j) v (fxv t x v j) /\
    is_derive (fun i => f t x v i) j (fj t x v j) /\
    ft t x v j = k * (th - v) * fv t x v j + xi ^ 2 / 2 * v * fvv t x v j
               - v / 2 * fx t x v j + v / 2 * fxx t x v j + rho * xi * v * fxv t x v j + v * fj t x v j.

(** [f] is the conditional expectation of [g] *)
Definition expectation_of (k th xi rho : R) (g : R -> R -> R -> R) (f : R -> R -> R -> R -> R) : Prop :=
  (forall x v j, f 0 x v j = g x v j) /\ backward_equation k th xi rho f.
