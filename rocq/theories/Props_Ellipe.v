(** C74: normal SABR through complete elliptic integrals (sabr_int.py SabrNormEllipeInt, SabrNormAnalytic). [elliptic_E e] says that e is the
    complete elliptic integral of the second kind; [int_from a f v] that the integral of f over (a, infinity) is v. *)
From Coq Require Import Reals List Lra.
From Coquelicot Require Import Coquelicot.
From Verif Require Import Base Gauss Sums Spec_Opt Spec_Dist M_Opt M_Fd M_Sabr M_Ellipe Spec_Ellipe P_Bsm P_Ellipe P_Ellipe3 P_Ellipe4 P_Ellipe5.
Import ListNotations.
Open Scope R_scope.

Theorem C74_ellipe_exists : exists ellipe, elliptic_E ellipe.
Proof. exact ellipe_ex. Qed.
Print Assumptions C74_ellipe_exists.
(** the guards (fmax with 0, fmin with 1) of hh_xi never act on the range of integration: hh is the integral
    int_0^(pi/2) sqrt(V + x + sqrt(x (x + 2 V)) cos 2t) dt with V^2 = k^2 + 1 - rho^2 and x = (1 - rho^2) cosh(2 xi u) + rho k - V >= 0 *)
Theorem C74_hh : forall ellipe rho k xi u, elliptic_E ellipe -> rho ^ 2 < 1 -> 0 < xi -> nsi_u0 rho k xi <= u ->
  let V := sqrt (k ^ 2 + (1 - rho ^ 2)) in let x := (1 - rho ^ 2) * cosh (2 * xi * u) + rho * k - V in
  0 <= x /\ is_RInt (fun t => sqrt (V + x + sqrt (x * (x + 2 * V)) * cos (2 * t))) 0 (PI / 2) (hh_xi ellipe u k xi rho).
Proof.
  intros ellipe rho k xi u HE Hr Hx Hu V x. pose proof (e_x rho k xi Hr Hx u Hu) as X. pose proof (hh_int rho k xi Hr Hx ellipe HE u Hu) as I. cbv zeta in X, I.
  assert (E : (1 - rho ^ 2) * (cosh (2 * xi * u) - (sqrt (k ^ 2 + (1 - rho ^ 2)) - rho * k) / (1 - rho ^ 2)) = x) by (unfold x, V; field; lra). rewrite <- E. split; [exact X|exact I].
Qed.
Print Assumptions C74_hh.
(** u_0 is where x vanishes (the geodesic distance to the strike over 2 xi): there hh = sqrt(V) pi / 2 *)
Theorem C74_lower_limit : forall ellipe rho k xi, elliptic_E ellipe -> rho ^ 2 < 1 -> 0 < xi ->
  let u0 := nsi_u0 rho k xi in let V := sqrt (k ^ 2 + (1 - rho ^ 2)) in
  0 <= u0 /\ (1 - rho ^ 2) * cosh (2 * xi * u0) + rho * k = V /\ hh_xi ellipe u0 k xi rho = sqrt V * (PI / 2).
Proof.
  intros ellipe rho k xi HE Hr Hx u0 V. split; [now apply e_u0_nonneg|]. split; [|exact (hh_at_u0 rho k xi Hr Hx ellipe HE)].
  pose proof (e_cosh rho k xi Hr Hx) as E. fold u0 in E. rewrite E. fold V. field. lra.
Qed.
Print Assumptions C74_lower_limit.
(** hh_xi_approx is a second-order expansion of hh_xi at u_0 *)
Theorem C74_taylor : forall ellipe rho k xi, elliptic_E ellipe -> rho ^ 2 < 1 -> 0 < xi -> exists M e, 0 < M /\ 0 < e /\
  forall u, nsi_u0 rho k xi <= u -> u <= nsi_u0 rho k xi + e ->
  Rabs (hh_xi ellipe u k xi rho - hh_xi_approx u k xi rho) <= M * ((u - nsi_u0 rho k xi) ^ 2 * sqrt (u - nsi_u0 rho k xi)).
Proof. intros ellipe rho k xi HE Hr Hx. exact (hh_taylor rho k xi Hr Hx ellipe HE). Qed.
Print Assumptions C74_taylor.
(** the closed form of SabrNormAnalytic is the integral of the expanded integrand ... *)
Theorem C74_analytic_integral : forall p K F T, b_vov p <> 0 -> 0 < T -> b_rho p ^ 2 < 1 ->
  let xi := nsi_xi p T in let k := nsi_k p K F in let rho := b_rho p in exists v,
  int_from (nsi_u0 rho k xi) (fun u => hh_xi_approx u k xi rho * (npdf u * (mills (u + xi) + mills (u - xi)))) v /\
  norm_analytic_tv p K F T = v * (b_sigma p * sqrt T / PI * exp (- (/ 2) * xi ^ 2)).
Proof. exact tv_integral. Qed.
Print Assumptions C74_analytic_integral.
(** ... and quad_correction completes it to the integral of the exact integrand, whenever the Gauss-Laguerre rule is exact on the function it is applied to *)
Theorem C74_corrected : forall ellipe rule p K F T, elliptic_E ellipe -> 0 < b_vov p -> 0 < T -> b_rho p ^ 2 < 1 -> (forall vw, In vw rule -> 0 < fst vw) ->
  let xi := nsi_xi p T in let k := nsi_k p K F in let rho := b_rho p in let u0 := nsi_u0 rho k xi in
  laguerre_exact rule (fun v => let u := sqrt (u0 ^ 2 + 2 * v) in
    2 / (PI * sqrt (sqrt (k ^ 2 + (1 - rho ^ 2)))) * ((hh_xi ellipe u k xi rho - hh_xi_approx u k xi rho) * (mills (u + xi) + mills (u - xi))) / (u * (v * sqrt v))) ->
  exists W, int_from u0 (fun u => hh_xi ellipe u k xi rho * (npdf u * (mills (u + xi) + mills (u - xi)))) W /\
  norm_analytic_tv p K F T + norm_analytic_correction ellipe rule p K F T = W * (b_sigma p * sqrt T / PI * exp (- (/ 2) * xi ^ 2)).
Proof. intros. now apply tv_corrected. Qed.
Print Assumptions C74_corrected.
Theorem C74_rule_exists : forall h, exists rule, (forall vw, In vw rule -> 0 < fst vw) /\ laguerre_exact rule h.
Proof. exact laguerre_ex. Qed.
Print Assumptions C74_rule_exists.
(** SabrNormEllipeInt with an exact quadrature is the same integral cut at sqrt(u_0^2 + 73), where the normal density is e^(-36.5) times its value at u_0 *)
Theorem C74_ellipe_value : forall ellipe quad p K F T, elliptic_E ellipe -> 0 < b_vov p -> 0 < T -> b_rho p ^ 2 < 1 ->
  (forall f a b v, is_RInt f a b v -> quad f a b = v) ->
  let xi := nsi_xi p T in let k := nsi_k p K F in let rho := b_rho p in let u0 := nsi_u0 rho k xi in let b := sqrt (u0 ^ 2 + 73) in
  exists W, is_RInt (fun u => hh_xi ellipe u k xi rho * (npdf u * (mills (u + xi) + mills (u - xi)))) u0 b W /\
  norm_ellipe_tv ellipe quad p K F T = W * (b_sigma p * sqrt T / PI * exp (- (/ 2) * xi ^ 2)) /\ npdf b = exp (- (73 / 2)) * npdf u0.
Proof. exact ellipe_value. Qed.
Print Assumptions C74_ellipe_value.
(** put-call parity of both, whatever the quadrature *)
Theorem C74_parity : forall ellipe quad rule mo p K S T,
  norm_ellipe_price ellipe quad mo p K S T 1 - norm_ellipe_price ellipe quad mo p K S T (-1) = DF (intr mo) T * (FWD (intr mo) (divr mo) (is_fwd mo) S T - K) /\
  norm_analytic_price_corr ellipe rule mo p K S T 1 - norm_analytic_price_corr ellipe rule mo p K S T (-1) = DF (intr mo) T * (FWD (intr mo) (divr mo) (is_fwd mo) S T - K).
Proof. intros. split; [exact (ellipe_parity ellipe quad mo p K S T)|exact (corr_parity ellipe rule mo p K S T)]. Qed.
Print Assumptions C74_parity.
Example C74_ex : let p := mkSabr 20 (6 / 10) (- (3 / 10)) 0 in 0 < b_vov p /\ b_rho p ^ 2 < 1 /\ 0 < nsi_xi p 1 /\ nsi_k p 110 100 = 0.
Proof. cbn. unfold nsi_xi, nsi_k. cbn. rewrite sqrt_1. repeat split; lra. Qed.
