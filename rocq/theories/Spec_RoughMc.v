(** Specification vocabulary: stochastic Volterra equations  V_t = v0 + int_0^t K(t-s) f(V_s) ds + int_0^t K(t-s) g(V_s) dB_s  on a uniform grid. *)
From Coq Require Import Reals List.
From Coquelicot Require Import Coquelicot.
From Verif Require Import Sums.
Open Scope R_scope.

(** the fractional kernel t^(-al) / Gamma(1 - al), and a finite sum of exponentials w_l exp(- x_l t) *)
Definition rough_kernel (Gam : R -> R) (al t : R) : R := Rpower t (- al) / Gam (1 - al).
Definition exp_sum (L : nat) (x w : nat -> R) (t : R) : R := rsum L (fun l => w l * exp (- x l * t)).
(** v = int_a^b K(t - s) ds, allowing a singularity at s = b *)
Definition cell_integral (K : R -> R) (t a b v : R) : Prop :=
  is_RInt_gen (V := R_NormedModule) (fun s => K (t - s)) (at_point a) (at_left b) v.
(** b is the standard deviation of the Ito integral int_a^b K(t - s) dB_s *)
Definition cell_std (K : R -> R) (t a b v : R) : Prop := 0 <= v /\ cell_integral (fun u => K u ^ 2) t a b (v ^ 2).
(** V n is the Volterra integral with the coefficients frozen at the left end of each cell [k dt, (k+1) dt]; z k is the k-th normal draw *)
Definition volterra_em (K : R -> R) (dt v0 : R) (f g V z : nat -> R) (n : nat) : Prop :=
  exists A B : nat -> R,
    (forall k, (k < n)%nat -> cell_integral K (INR n * dt) (INR k * dt) (INR (S k) * dt) (A k) /\
                              cell_std K (INR n * dt) (INR k * dt) (INR (S k) * dt) (B k)) /\
    V n = v0 + rsum n (fun k => f k * A k + g k * B k * z k).
(** the same with the kernel K on the last cell and c * exp_sum on the earlier ones; the diffusion weight of an earlier cell is the weighted sum
    of the standard deviations of the exponentials *)
Definition volterra_fast (K : R -> R) (c : R) (L : nat) (x w : nat -> R) (dt v0 : R) (f g V z : nat -> R) (n : nat) : Prop :=
  exists A B : nat -> R,
    (forall k, S k = n -> cell_integral K (INR n * dt) (INR k * dt) (INR n * dt) (A k) /\ cell_std K (INR n * dt) (INR k * dt) (INR n * dt) (B k)) /\
    (forall k, (S k < n)%nat -> cell_integral (fun u => c * exp_sum L x w u) (INR n * dt) (INR k * dt) (INR (S k) * dt) (A k) /\
       exists b : nat -> R, B k = c * rsum L (fun l => w l * b l) /\
         forall l, (l < L)%nat -> cell_std (fun u => exp (- x l * u)) (INR n * dt) (INR k * dt) (INR (S k) * dt) (b l)) /\
    V n = v0 + rsum n (fun k => f k * A k + g k * B k * z k).
(** v = int_a^b h, allowing a singularity at a (substitution s = b - y) *)
Definition mass_between (h : R -> R) (a b v : R) : Prop := cell_integral h b 0 (b - a) v.
(** density of the mixing measure: t^(-al) / Gamma(1-al) = int_0^infty exp(- y t) mixing(y) dy *)
Definition mixing (Gam : R -> R) (al y : R) : R := Rpower y (al - 1) / (Gam (1 - al) * Gam al).
(** a rule (list of node, weight) on [-1,1] and its error against the plain integral, and against the integral with weight (1 + s)^be, be > -1,
    written with u = 1 + s through an antiderivative that vanishes at u = 0 *)
Definition quad (q : list (R * R)) (h : R -> R) : R := lsum (map (fun p => snd p * h (fst p)) q).
Definition legendre_error (q : list (R * R)) (h : R -> R) (e : R) : Prop := is_RInt h (- (1)) 1 (quad q h + e).
Definition jacobi_error (be : R) (q : list (R * R)) (h : R -> R) (e : R) : Prop :=
  exists F, (forall u, 0 < u -> is_derive F u (Rpower u be * h (u - 1))) /\ filterlim F (at_right 0) (locally 0) /\ F 2 = quad q h + e.
(** x^(al-1) exp(-x t) on [0, 2^(-M)] without its singular weight, and on [2^j, 2^(j+1)], pulled back to s in [-1,1]; a sum of exponentials *)
Definition jac_h (M t s : R) : R := exp (- (Rpower 2 (- M - 1) * (s + 1)) * t).
Definition leg_h (al j t s : R) : R := let x := Rpower 2 (j - 1) * (s + 3) in Rpower x (al - 1) * exp (- x * t).
Definition kernel_sum (q : list (R * R)) (t : R) : R := lsum (map (fun p => snd p * exp (- fst p * t)) q).
(** V k may use the first [w] k draws only *)
Definition adapted (w : nat) (V : (nat -> R) -> nat -> R) : Prop :=
  forall z z' k, (forall i, (i < w * k)%nat -> z i = z' i) -> V z k = V z' k.
