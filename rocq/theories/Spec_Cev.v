(** Specification vocabulary: the gamma function, gamma and non-central chi-square laws on the half line, through their
    densities, and the CEV pricing equation. *)
From Coq Require Import Reals.
From Coquelicot Require Import Coquelicot.
Open Scope R_scope.

(** P is the distribution function, on x > 0, of the density f *)
Definition cdf_of (f P : R -> R) : Prop :=
  (forall x, 0 < x -> is_derive P x (f x)) /\ filterlim P (at_right 0) (locally 0) /\ is_lim P p_infty 1.
Definition gamma_pdf (Gam : R -> R) (a x : R) : R := Rpower x (a - 1) * exp (- x) / Gam a.
(** Gam is Euler's gamma function on a > 0: it normalises the gamma densities *)
Definition gamma_function (Gam : R -> R) : Prop := forall a, 0 < a -> 0 < Gam a /\ exists P, cdf_of (gamma_pdf Gam a) P.
(** chi-square with k degrees of freedom; non-central chi-square as the Poisson(lam/2) mixture of chi-square(k + 2 j) *)
Definition chi2_pdf (Gam : R -> R) (k x : R) : R := Rpower (x / 2) (k / 2 - 1) * exp (- (x / 2)) / (2 * Gam (k / 2)).
Definition ncx2_pdf (Gam : R -> R) (k lam x : R) : R :=
  Series (fun j => exp (- (lam / 2)) * (lam / 2) ^ j / INR (fact j) * chi2_pdf Gam (k + 2 * INR j) x).
(** the three routines (x, degrees of freedom, non-centrality) compute that law *)
Definition ncx2_routines (Gam : R -> R) (cdf sf pdf : R -> R -> R -> R) : Prop :=
  forall k lam, 0 < k -> 0 < lam ->
    cdf_of (ncx2_pdf Gam k lam) (fun x => cdf x k lam) /\
    forall x, 0 < x -> pdf x k lam = ncx2_pdf Gam k lam x /\ sf x k lam = 1 - cdf x k lam.
(** the gamma routines (x, shape) *)
Definition gamma_routines (Gam : R -> R) (cdf sf : R -> R -> R) : Prop :=
  forall a, 0 < a -> cdf_of (gamma_pdf Gam a) (fun x => cdf x a) /\ forall x, 0 < x -> sf x a = 1 - cdf x a.
(** V(S, T) solves the pricing equation of dS = (r - q) S dt + sigma S^beta dW at (S, T) (T = time to expiry) *)
Definition cev_pde (sigma beta r q : R) (V : R -> R -> R) (S T : R) : Prop :=
  exists V_T V_S V_SS, is_derive (fun t => V S t) T V_T /\
    is_derive (fun s => V s T) S (V_S S) /\ locally S (fun s => is_derive (fun s => V s T) s (V_S s)) /\ is_derive V_S S V_SS /\
    V_T = / 2 * sigma ^ 2 * Rpower S (2 * beta) * V_SS + (r - q) * S * V_S S - r * V S T.
(** G is the survival function P(X > k), k > 0, of a law on [0, infinity) with mass m0 at zero *)
Definition survival (m0 : R) (G : R -> R) : Prop :=
  (forall x y, 0 < x -> x <= y -> 0 <= G y <= G x /\ G x <= 1) /\ filterlim G (at_right 0) (locally (1 - m0)) /\ is_lim G p_infty 0.
(** by parts: E[X] = int_0^inf G, E[max(X - K, 0)] = int_K^inf G, E[max(K - X, 0)] = int_0^K (1 - G) *)
Definition mean_is (G : R -> R) (v : R) : Prop := is_RInt_gen G (at_right 0) (Rbar_locally p_infty) v.
Definition call_is (G : R -> R) (K v : R) : Prop := is_RInt_gen G (at_point K) (Rbar_locally p_infty) v.
Definition put_is (G : R -> R) (K v : R) : Prop := is_RInt_gen (fun k => 1 - G k) (at_right 0) (at_point K) v.
