(** What a Douglas ADI step and its boundary conditions are, independent of how they are computed. *)
From Coq Require Import Reals Arith List.
From Coquelicot Require Import Coquelicot.
From Verif Require Import Spec_Opt.
Open Scope R_scope.
Definition grid := nat -> nat -> R.
(** central first and second differences with step h *)
Definition diff1 (h : R) (f : nat -> R) (i : nat) : R := (f (i + 1)%nat - f (i - 1)%nat) / (2 * h).
Definition diff2 (h : R) (f : nat -> R) (i : nat) : R := (f (i + 1)%nat - 2 * f i + f (i - 1)%nat) / h ^ 2.
(** uniform grid lo, lo + h, ..., hi with n cells *)
Definition node (lo hi : R) (n i : nat) : R := lo + INR i * ((hi - lo) / INR n).
Definition interior (M L i j : nat) : Prop := (0 < i < M)%nat /\ (0 < j < L)%nat.
(** The two-dimensional diffusion (x, v) with dx variance a, dv variance c and drift d, dx dv covariance g:
    generator = 1/2 a u_xx + g u_xv + 1/2 c u_vv + d u_v *)
Record sv_model := mkSvm { var_x : R -> R -> R; cov_xv : R -> R -> R; var_v : R -> R; drift_v : R -> R }.
Definition generator (m : sv_model) (u : R -> R -> R) (x v : R) : R :=
  / 2 * var_x m x v * Derive (fun y => Derive (fun z => u z v) y) x
  + cov_xv m x v * Derive (fun w => Derive (fun z => u z w) x) v
  + / 2 * var_v m v * Derive (fun w => Derive (fun z => u x z) w) v
  + drift_v m v * Derive (fun w => u x w) v.
(** its three discretised parts on the grid (X_i, v_j) with steps hx, hv *)
Section Ops.
Variables (m : sv_model) (hx hv : R) (X v : nat -> R).
Definition part_xv (u : grid) : grid := fun i j => cov_xv m (X i) (v j) * diff1 hx (fun k => diff1 hv (u k) j) i.
Definition part_x (u : grid) : grid := fun i j => / 2 * var_x m (X i) (v j) * diff2 hx (fun k => u k j) i.
Definition part_v (u : grid) : grid := fun i j => / 2 * var_v m (v j) * diff2 hv (u i) j + drift_v m (v j) * diff1 hv (u i) j.
(** Douglas step V -> Z: explicit predictor, then one implicit correction in x and one in v; every stage satisfies the
    boundary conditions [bd] *)
Definition douglas (M L : nat) (theta dt : R) (bd : grid -> Prop) (V Z : grid) : Prop :=
  exists Y,
    (forall i j, interior M L i j ->
       Y i j - theta * dt * part_x Y i j
       = V i j + dt * (part_xv V i j + part_x V i j + part_v V i j) - theta * dt * part_x V i j) /\
    (forall i j, interior M L i j -> Z i j - theta * dt * part_v Z i j = Y i j - theta * dt * part_v V i j) /\
    bd Y /\ bd Z.
End Ops.
(** option boundary conditions at the two price edges and at the largest variance *)
Definition price_edges (M L : nat) (X : nat -> R) (kk cp : R) (W : grid) : Prop :=
  (forall j, (0 < j <= L)%nat ->
     W 0%nat j = (if Rlt_dec 0 cp then 0 else kk) /\ W M j = (if Rlt_dec 0 cp then Rmax (X M - kk) 0 else 0)) /\
  (forall i, (i <= M)%nat -> W i L = W i (L - 1)%nat).
(** ... with the payoff in the zero-volatility column *)
Definition edges_payoff (M L : nat) (X : nat -> R) (kk cp : R) (W : grid) : Prop :=
  price_edges M L X kk cp W /\ forall i, (i <= M)%nat -> W i 0%nat = payoff cp kk (X i).
(** ... with a given zero-variance column *)
Definition edges_column (M L : nat) (X : nat -> R) (kk cp : R) (col : nat -> R) (W : grid) : Prop :=
  price_edges M L X kk cp W /\ forall i, (0 < i < M)%nat -> W i 0%nat = col i.
(** polynomials of degree at most 2 in each variable *)
Definition biquad (c : nat -> nat -> R) (x v : R) : R :=
  c 0%nat 0%nat + c 1%nat 0%nat * x + c 2%nat 0%nat * x ^ 2
  + (c 0%nat 1%nat + c 1%nat 1%nat * x + c 2%nat 1%nat * x ^ 2) * v
  + (c 0%nat 2%nat + c 1%nat 2%nat * x + c 2%nat 2%nat * x ^ 2) * v ^ 2.
(** the models, price variable x = S/F *)
Definition pw (x y : R) : R := if Req_EM_T y 0 then 1 else if Req_EM_T x 0 then 0 else Rpower x y.
Definition sabr_model (vov rho beta : R) : sv_model :=
  mkSvm (fun x v => v ^ 2 * pw x (2 * beta)) (fun x v => rho * vov * v ^ 2 * pw x beta) (fun v => vov ^ 2 * v ^ 2) (fun _ => 0).
Definition heston_model (vov rho mr theta : R) : sv_model :=
  mkSvm (fun x v => v * x ^ 2) (fun x v => rho * vov * v * x) (fun v => vov ^ 2 * v) (fun v => mr * (theta - v)).
Definition heston_cev_model (vov rho mr theta beta : R) : sv_model :=
  mkSvm (fun x v => v * pw x (2 * beta)) (fun x v => rho * vov * v * pw x beta) (fun v => vov ^ 2 * v) (fun v => mr * (theta - v)).
Definition heston_or_cev (vov rho mr theta : R) (cev : option R) : sv_model :=
  match cev with None => heston_model vov rho mr theta | Some b => heston_cev_model vov rho mr theta b end.
(** what must happen to the zero-variance column before a step W -> U: where zero variance is attainable the degenerate
    equation u_t = mr theta u_v is advanced by one explicit Euler step with a one-sided difference; otherwise the column is the
    payoff. Interior nodes are unchanged. *)
Definition zero_column (vov mr theta : R) (M L : nat) (X : nat -> R) (kk cp hv dt : R) (W U : grid) : Prop :=
  (forall i j, interior M L i j -> U i j = W i j) /\
  price_edges M L X kk cp U /\
  forall i, (0 < i < M)%nat ->
    (2 * mr * theta < vov ^ 2 -> U i 0%nat = W i 0%nat + dt * (mr * theta) * ((W i 1%nat - W i 0%nat) / hv)) /\
    (vov ^ 2 <= 2 * mr * theta -> U i 0%nat = payoff cp kk (X i)).
