(** C76: the remainder of the gamma expansion.  C77: the Bessel index and the Poisson-conditioned moments.
    C78: the transforms of the conditional average variance. *)
From Coq Require Import Reals Lra Lia Arith.
From Coquelicot Require Import Coquelicot.
From Verif Require Import Base Sums M_Heston M_HestonMc Spec_Dist Spec_Cev Spec_CevMc Spec_HestonMc P_Gamma2.
From Verif Require P_HestonMc P_HestonMc2 P_HestonMc3 P_HestonMc4 P_HestonMc5 P_HestonMc6 P_HestonMc7 P_HestonMc8 P_HestonMc9 P_TightMc.
Open Scope R_scope.

(** ** C76 *)
(** what the code returns for the part of X1 beyond index kk, per unit of (var_0 + var_t), against the sum of the means
    and of the variances of the omitted compound Poisson terms *)
Theorem C76_x1_remainder : forall (c : cir) (dt : R), 0 < c_xi c -> 0 < c_mr c -> 0 < dt -> forall kk : nat,
  exists M V : R,
    is_series (fun i => cgf_mean (cpexp_cgf (ge_lambda c dt (S (kk + i))) (ge_gamma c dt (S (kk + i))))) M /\
    is_series (fun i => cgf_var (cpexp_cgf (ge_lambda c dt (S (kk + i))) (ge_gamma c dt (S (kk + i))))) V /\
    0 < M /\ 0 < V /\
    let '(m, vs) := x1star c dt kk in
    (1 / 10 <= c_mr c * dt / 2 -> m = M /\ vs * m ^ 2 = V) /\
    (c_mr c * dt / 2 < 1 / 10 ->
       0 <= m - M <= 8 / 9450 * (c_mr c * dt / 2) ^ 6 /\
       0 <= vs * m ^ 2 - V <= ge_vov2dt c dt * (20 / 9450 * (c_mr c * dt / 2) ^ 6)).
Proof. exact P_HestonMc2.x1star_tail. Qed.
(** the same for X2 (unit shape) and the omitted gamma terms *)
Theorem C76_x2_remainder : forall (c : cir) (dt : R), 0 < c_xi c -> 0 < c_mr c -> 0 < dt -> forall kk : nat,
  exists M V : R,
    is_series (fun i => cgf_mean (gamma_cgf 1 (ge_gamma c dt (S (kk + i))))) M /\
    is_series (fun i => cgf_var (gamma_cgf 1 (ge_gamma c dt (S (kk + i))))) V /\
    0 < M /\ 0 < V /\
    let '(m, vs) := x2star c dt kk in
    (1 / 10 <= c_mr c * dt / 2 -> m = M /\ vs * m ^ 2 = V) /\
    (c_mr c * dt / 2 < 1 / 10 ->
       0 <= m - M <= ge_vov2dt c dt * (/ 18900 * (c_mr c * dt / 2) ^ 6) /\
       0 <= V - vs * m ^ 2 <= ge_vov2dt c dt ^ 2 * ((c_mr c * dt / 2) ^ 4 / 12600)).
Proof. exact P_HestonMc2.x2star_tail. Qed.
(** the average variance drawn by the Glasserman-Kim step given the final variance and eta = n (X1, X2 and n copies of
    Z, each as kk explicit terms plus a gamma remainder), and by the Choi-Kwok step given the Poisson index n: mean and
    variance do not depend on kk and are the ones [cond_avgvar_mv] returns *)
Theorem C76_draw_gk : forall (ive : R -> R -> R) (c : cir) (dt v0 vt : R), 0 < c_xi c -> 0 < c_mr c -> 0 < c_theta c -> 0 < dt -> 0 < v0 -> 0 < vt ->
  forall kk n : nat, 0 < snd (x2star c dt kk) ->
  let '(m1, vs1) := x1star c dt kk in
  let '(m2, vs2) := x2star c dt kk in
  let total (f : (R -> R) -> R) :=
    (rsum kk (fun i => f (cpexp_cgf (draw_x1_lam c dt v0 vt i) (ge_gamma c dt (S i)))) + f (gamma_cgf (draw_x1_shape c dt v0 vt kk) (/ (vs1 * m1)))) +
    (rsum kk (fun i => f (gamma_cgf (chi_dim c / 2) (ge_gamma c dt (S i)))) + f (gamma_cgf (draw_x2_shape c dt (chi_dim c / 2) kk) (/ (vs2 * m2)))) +
    INR n * (rsum kk (fun i => f (gamma_cgf 2 (ge_gamma c dt (S i)))) + f (gamma_cgf (draw_x2_shape c dt 2 kk) (/ (vs2 * m2)))) in
  let '(m, vs) := cond_avgvar_mv ive c dt v0 vt (Some (INR n)) 0 in
  total cgf_mean = m /\ total cgf_var = vs * m ^ 2.
Proof. exact P_HestonMc9.gk_step_moments. Qed.
Theorem C76_draw_ge : forall (ive : R -> R -> R) (c : cir) (dt v0 vt : R), 0 < c_xi c -> 0 < c_mr c -> 0 < c_theta c -> 0 < dt -> 0 < v0 -> 0 < vt ->
  forall kk n : nat,
  let ssum := / 2 * chi_dim c + 2 * INR n in
  let '(mt, vst) := x123_trunc c dt kk (v0 + vt) ssum in
  let total (f : (R -> R) -> R) := rsum kk (fun i => f (cpexp_cgf ((v0 + vt) * ge_lambda c dt (S i)) (ge_gamma c dt (S i))) + f (gamma_cgf ssum (ge_gamma c dt (S i)))) in
  let '(m, vs) := cond_avgvar_mv ive c dt v0 vt (Some (INR n)) 0 in
  total cgf_mean + mt = m /\ total cgf_var + vst * mt ^ 2 = vs * m ^ 2.
Proof. exact P_HestonMc9.ge_step_moments. Qed.
(** the draws themselves: draw_x1 and draw_x2 return a fixed linear combination of their gamma variates (g i has mean and
    half variance equal to the Poisson intensity for X1, mean and variance the shape for X2; gt has mean and variance its
    shape), so the simulated mean and variance are those of the expansion, for every kk *)
Theorem C76_draw_x1 : forall (c : cir) (dt v0 vt : R) (kk : nat), 0 < c_xi c -> 0 < c_mr c -> 0 < dt -> 0 < v0 -> 0 < vt ->
  exists (a : nat -> R) (b : R), (forall g gt, draw_x1 c dt kk g gt = rsum kk (fun i => a i * g i) + b * gt) /\
    rsum kk (fun i => a i * draw_x1_lam c dt v0 vt i) + b * draw_x1_shape c dt v0 vt kk = (v0 + vt) * fst (x1star c dt 0) /\
    rsum kk (fun i => a i ^ 2 * (2 * draw_x1_lam c dt v0 vt i)) + b ^ 2 * draw_x1_shape c dt v0 vt kk = (v0 + vt) * (snd (x1star c dt 0) * fst (x1star c dt 0) ^ 2).
Proof. exact P_TightMc.draw_x1_weights. Qed.
Theorem C76_draw_x2 : forall (c : cir) (dt shape : R) (kk : nat), 0 < c_xi c -> 0 < c_mr c -> 0 < dt -> snd (x2star c dt kk) <> 0 ->
  exists (a : nat -> R) (b : R), (forall g gt, draw_x2 c dt kk g gt = rsum kk (fun i => a i * g i) + b * gt) /\
    rsum kk (fun i => a i * shape) + b * draw_x2_shape c dt shape kk = shape * fst (x2star c dt 0) /\
    rsum kk (fun i => a i ^ 2 * shape) + b ^ 2 * draw_x2_shape c dt shape kk = shape * (snd (x2star c dt 0) * fst (x2star c dt 0) ^ 2).
Proof. exact P_TightMc.draw_x2_weights. Qed.
(** the asymptotic formulas are the leading order of the exact remainders *)
Theorem C76_asymp : forall (c : cir) (dt : R), 0 < c_xi c -> 0 < c_mr c -> 0 < dt -> 1 / 10 <= c_mr c * dt / 2 ->
  (is_lim_seq (fun k => fst (x1star c dt k) / fst (x1star_asymp c dt k)) 1 /\ is_lim_seq (fun k => snd (x1star c dt k) / snd (x1star_asymp c dt k)) 1) /\
  (is_lim_seq (fun k => fst (x2star c dt k) / fst (x2star_asymp c dt k)) 1 /\ is_lim_seq (fun k => snd (x2star c dt k) / snd (x2star_asymp c dt k)) 1).
Proof. intros c dt H1 H2 H3 H4. split; [exact (P_HestonMc8.x1star_asymp_ok c dt H1 H2 H3 H4)|exact (P_HestonMc8.x2star_asymp_ok c dt H1 H2 H3 H4)]. Qed.
(** defect: for mr*dt < 0.2 the returned variance of the X2 remainder is negative for every large enough kk (the gamma
    generator then gets a negative shape), although the variance of the omitted terms is positive *)
Theorem C76_x2_negative_refuted : forall (c : cir) (dt : R), 0 < c_xi c -> 0 < c_mr c -> 0 < dt -> c_mr c * dt / 2 < 1 / 10 ->
  exists N : nat, forall kk : nat, (N <= kk)%nat -> snd (x2star c dt kk) < 0.
Proof. exact P_HestonMc8.x2_vs_neg. Qed.
Theorem C76_x2_positive : forall (c : cir) (dt : R), 0 < c_xi c -> 0 < c_mr c -> 0 < dt -> 1 / 10 <= c_mr c * dt / 2 ->
  forall kk : nat, 0 < snd (x1star c dt kk) /\ 0 < snd (x2star c dt kk).
Proof. intros c dt H1 H2 H3 H4 kk. split; [exact (P_HestonMc7.x1_vs_pos c dt H1 H2 H3 kk)|exact (P_HestonMc7.x2_vs_pos c dt H1 H2 H3 kk H4)]. Qed.
Example C76_case : 0 < 1 /\ 1 / 10 <= 1 / 2 * 1 / 2 /\ 0 < snd (x2star (mkCir 1 (1 / 2) (1 / 25)) 1 3).
Proof. split; [lra|split; [lra|]]. apply P_HestonMc7.x2_vs_pos; cbn; lra. Qed.

(** ** C77 *)
(** the gamma mixture the variance is drawn from: index n Poisson, then gamma; seen from the final variance, the index
    has the Bessel distribution that [eta] stands for *)
Theorem C77_bessel_posterior : forall Gam : R -> R, gamma_function Gam -> forall (c : cir) (dt v0 vt : R),
  0 < c_xi c -> 0 < c_mr c -> 0 < c_theta c -> 0 < dt -> 0 < v0 -> 0 < vt ->
  let joint n := let '(scale, shape, inten) := cir_pois_gamma_args c dt v0 in
                 pois inten n * (gamma_pdf Gam (shape + INR n) (vt / scale) / scale) in
  exists total : R, is_series joint total /\ 0 < total /\ forall n, joint n / total = bessel_pmf Gam (eta_nu c) (eta_zz c dt v0 vt) n.
Proof. exact P_HestonMc4.posterior. Qed.
Theorem C77_eta_moments : forall Gam : R -> R, gamma_function Gam -> forall ive : R -> R -> R,
  (forall nu z : R, -1 < nu -> 0 < z -> ive nu z = exp (- z) * bessel_I Gam nu z) -> forall (c : cir) (dt v0 vt : R),
  0 < c_xi c -> 0 < c_mr c -> 0 < c_theta c -> 0 < dt -> 0 < v0 -> 0 < vt ->
  is_series (bessel_pmf Gam (eta_nu c) (eta_zz c dt v0 vt)) 1 /\
  let '(m, vs) := eta_mv ive c dt v0 vt in
  is_series (fun n => bessel_pmf Gam (eta_nu c) (eta_zz c dt v0 vt) n * INR n) m /\
  is_series (fun n => bessel_pmf Gam (eta_nu c) (eta_zz c dt v0 vt) n * INR n ^ 2) (vs * m ^ 2 + m ^ 2).
Proof.
  intros Gam HG ive Hi c dt v0 vt H1 H2 H3 H4 H5 H6. split.
  - apply (P_HestonMc3.bpmf_sum Gam HG). exact (P_HestonMc3.nu_gt c H1 H2 H3).
  - exact (P_HestonMc3.eta_moments Gam HG ive Hi c dt v0 vt H1 H2 H3 H4 H5 H6).
Qed.
(** inversion of the uniform, exact below the cap of 16 *)
Theorem C77_draw_eta : forall Gam : R -> R, gamma_function Gam -> forall (c : cir) (dt v0 vt : R),
  0 < c_xi c -> 0 < c_mr c -> 0 < c_theta c -> 0 < dt -> 0 < v0 -> 0 < vt -> forall (ive : R -> R -> R) (gammaln : R -> R),
  (forall nu z : R, -1 < nu -> 0 < z -> ive nu z = exp (- z) * bessel_I Gam nu z) -> (forall x : R, 0 < x -> exp (gammaln x) = Gam x) ->
  forall (u : R) (j : nat), 0 < u ->
  (draw_eta ive gammaln c dt v0 vt u = j <->
   (j <= 16)%nat /\ rsum j (bessel_pmf Gam (eta_nu c) (eta_zz c dt v0 vt)) < u /\
   ((j < 16)%nat -> u <= rsum (S j) (bessel_pmf Gam (eta_nu c) (eta_zz c dt v0 vt)))).
Proof. exact P_HestonMc4.draw_eta_spec. Qed.
(** without the Poisson index, [cond_avgvar_mv] is the mixture of its Poisson-conditioned values over the Bessel law *)
Theorem C77_cond_tower : forall Gam : R -> R, gamma_function Gam -> forall ive : R -> R -> R,
  (forall nu z : R, -1 < nu -> 0 < z -> ive nu z = exp (- z) * bessel_I Gam nu z) -> forall (c : cir) (dt v0 vt : R),
  0 < c_xi c -> 0 < c_mr c -> 0 < c_theta c -> 0 < dt -> 0 < v0 -> 0 < vt -> forall kk : nat,
  let '(m, vs) := cond_avgvar_mv ive c dt v0 vt None kk in
  let mn n := fst (cond_avgvar_mv ive c dt v0 vt (Some (INR n)) kk) in
  let vn n := snd (cond_avgvar_mv ive c dt v0 vt (Some (INR n)) kk) * mn n ^ 2 in
  is_series (fun n => bessel_pmf Gam (eta_nu c) (eta_zz c dt v0 vt) n * mn n) m /\
  is_series (fun n => bessel_pmf Gam (eta_nu c) (eta_zz c dt v0 vt) n * (vn n + mn n ^ 2)) (vs * m ^ 2 + m ^ 2).
Proof. exact P_HestonMc3.cond_tower. Qed.
(** the Poisson-conditioned step: averaging its average variance, and its square plus the reported missing variance,
    over the gamma and the Poisson draw gives the first two moments of the exact average variance over the step *)
Theorem C77_poistd_moments : forall Gam : R -> R, gamma_function Gam -> forall (ive : R -> R -> R) (c : cir) (dt v0 : R),
  0 < c_xi c -> 0 < c_mr c -> 0 < c_theta c -> 0 < dt -> 0 < v0 -> 1 / 10 <= c_mr c * dt / 2 ->
  let '(_, shape, inten) := cir_pois_gamma_args c dt v0 in
  exists inner1 inner2 : nat -> R,
    (forall n, gam_expect Gam (shape + INR n) (fun g => let '(_, av, _) := poistd_step ive c dt v0 (INR n) g in av) (inner1 n)) /\
    (forall n, gam_expect Gam (shape + INR n) (fun g => let '(_, av, ev) := poistd_step ive c dt v0 (INR n) g in av ^ 2 + ev) (inner2 n)) /\
    pois_expect inten inner1 (cir_avg_mean c dt v0) /\
    pois_expect inten inner2 (cir_avg_mean c dt v0 ^ 2 + cir_avg_var c dt v0).
Proof. exact P_HestonMc9.td_moments. Qed.
(** in the small-step branch the mean is still right up to sixth order *)
Theorem C77_poistd_mean_small : forall Gam : R -> R, gamma_function Gam -> forall (ive : R -> R -> R) (c : cir) (dt v0 : R),
  0 < c_xi c -> 0 < c_mr c -> 0 < c_theta c -> 0 < dt -> 0 < v0 -> c_mr c * dt / 2 < 1 / 10 ->
  let '(_, shape, inten) := cir_pois_gamma_args c dt v0 in
  exists (inner1 : nat -> R) (m : R),
    (forall n, gam_expect Gam (shape + INR n) (fun g => let '(_, av, _) := poistd_step ive c dt v0 (INR n) g in av) (inner1 n)) /\
    pois_expect inten inner1 m /\
    0 <= m - cir_avg_mean c dt v0 <= (8 / 9450 * (v0 + cir_mean c dt v0) + / 18900 * ge_vov2dt c dt * (2 * inten + shape)) * (c_mr c * dt / 2) ^ 6.
Proof. exact P_HestonMc9.td_mean_small. Qed.
Example C77_case : exists Gam, gamma_function Gam /\ 1 / 10 <= c_mr (mkCir 1 (1 / 2) (1 / 25)) * 1 / 2.
Proof. destruct gamma_exists as [G HG]. exists G. split; [exact HG|cbn; lra]. Qed.

(** ** C78 *)
(** the transform of X2 (any shape) is the limit of the transforms of the partial gamma expansions *)
Theorem C78_x2_mgf : forall (c : cir) (dt : R), 0 < c_xi c -> 0 < c_mr c -> 0 < dt -> forall shape : R, 0 < shape ->
  x2_avgvar_mgf c 0 dt shape = 1 /\
  forall aa : R, 2 * (c_xi c ^ 2 * dt) * aa < (c_mr c * dt) ^ 2 ->
    0 < x2_avgvar_mgf c aa dt shape /\
    exists D : R, is_derive (fun x => ln (x2_avgvar_mgf c x dt shape)) aa D /\
                  is_series (fun i => Derive (gamma_cgf shape (ge_gamma c dt (S i))) aa) D.
Proof. exact P_HestonMc6.x2mgf_cgf. Qed.
(** one function K1 - the cumulant generating function of the expanded X1 part per unit of variance - such that the
    conditional transform is exp((v0+vt) K1) times the Bessel mixture of X2 transforms of shape chi/2 + 2n, and such that
    averaging over the Poisson-gamma draw of (n, vt) gives the transform of the average variance *)
Theorem C78_cond_mgf : forall (c : cir) (dt : R), 0 < c_xi c -> 0 < c_mr c -> 0 < c_theta c -> 0 < dt -> forall Gam : R -> R, gamma_function Gam ->
  exists K1 : R -> R, K1 0 = 0 /\
    (forall aa, 2 * (c_xi c ^ 2 * dt) * aa < (c_mr c * dt) ^ 2 ->
       exists D : R, is_derive K1 aa D /\ is_series (fun i => Derive (cpexp_cgf (ge_lambda c dt (S i)) (ge_gamma c dt (S i))) aa) D) /\
    (forall iv, (forall nu z : R, -1 < nu -> 0 < z -> iv nu z = bessel_I Gam nu z) ->
       forall v0 vt aa, 0 < v0 -> 0 < vt -> 2 * (c_xi c ^ 2 * dt) * aa < (c_mr c * dt) ^ 2 ->
       is_series (fun n => bessel_pmf Gam (eta_nu c) (eta_zz c dt v0 vt) n * (exp ((v0 + vt) * K1 aa) * x2_avgvar_mgf c aa dt (chi_dim c / 2 + 2 * INR n)))
                 (cond_avgvar_mgf iv c aa dt v0 vt)) /\
    (forall v0 aa, 0 < v0 -> aa <= 0 ->
       let '(scale, shape, inten) := cir_pois_gamma_args c dt v0 in
       exists inner : nat -> R,
         (forall n, gam_expect Gam (shape + INR n) (fun g => exp ((v0 + scale * g) * K1 aa) * x2_avgvar_mgf c aa dt (chi_dim c / 2 + 2 * INR n)) (inner n)) /\
         pois_expect inten inner (exp (cir_log_mgf c (aa / dt) dt v0))).
Proof. exact P_HestonMc9.cond_mgf_crown. Qed.
Theorem C78_cond_mgf_0 : forall (iv : R -> R -> R) (c : cir) (dt v0 vt : R), 0 < c_xi c -> 0 < c_mr c -> 0 < dt ->
  iv (eta_nu c) (eta_zz c dt v0 vt) <> 0 -> cond_avgvar_mgf iv c 0 dt v0 vt = 1.
Proof. exact P_HestonMc9.cond_mgf_0. Qed.
Example C78_case : exists Gam, gamma_function Gam /\ 2 * (1 ^ 2 * 1) * (- (1)) < (1 / 2 * 1) ^ 2.
Proof. destruct gamma_exists as [G HG]. exists G. split; [exact HG|lra]. Qed.
Print Assumptions C76_x1_remainder. Print Assumptions C76_x2_remainder. Print Assumptions C76_draw_gk. Print Assumptions C76_draw_ge. Print Assumptions C76_draw_x1. Print Assumptions C76_draw_x2.
Print Assumptions C76_asymp. Print Assumptions C76_x2_negative_refuted. Print Assumptions C76_x2_positive.
Print Assumptions C77_bessel_posterior. Print Assumptions C77_eta_moments. Print Assumptions C77_draw_eta. Print Assumptions C77_cond_tower.
Print Assumptions C77_poistd_moments. Print Assumptions C77_poistd_mean_small. Print Assumptions C78_x2_mgf. Print Assumptions C78_cond_mgf. Print Assumptions C78_cond_mgf_0.
