(** C82: the variance schemes of the rough Heston Monte-Carlo. *)
From Coq Require Import Reals List Lra Lia.
From Coquelicot Require Import Coquelicot.
From Verif Require Import Base Sums Spec_Cev P_Gamma2 M_Rough M_RoughMc Spec_RoughMc P_RoughMc P_RoughMc2 P_RoughMc3 P_RoughMc4 P_RoughMc5 P_RoughMc6 P_RoughMc8.
From Verif Require P_TightMc.
Import ListNotations.
Open Scope R_scope.

(** ModifiedEM: every finite path is the Volterra integral with kernel t^(-alpha)/Gamma(1-alpha), coefficients frozen on each cell, exact cell
    integrals in the drift and exact Ito standard deviations in the noise *)
Theorem C82_em : forall Gam, gamma_function Gam -> forall p dt, 0 < dt -> rh_alpha p < / 2 -> forall n Z V, em_path Gam p dt Z n = Some V ->
  length V = S n /\ (forall m, (m < n)%nat -> 0 <= nth m V 0) /\
  forall m, (m <= n)%nat -> volterra_em (rough_kernel Gam (rh_alpha p)) dt (rh_sigma p) (fun k => rh_mr p * (rh_theta p - nth k V 0)) (fun k => rh_vov p * sqrt (nth k V 0)) (fun k => nth k V 0) Z m.
Proof. exact em_path_spec. Qed.
Print Assumptions C82_em.
(** the path goes on exactly as long as the variance stays non-negative; one bad draw is enough to lose it *)
Theorem C82_em_defined : forall Gam, gamma_function Gam -> forall p dt, 0 < dt -> rh_alpha p < / 2 -> forall n Z V, em_path Gam p dt Z n = Some V ->
  (em_path Gam p dt Z (S n) <> None <-> 0 <= nth n V 0).
Proof.
  intros Gam HG p dt Hd Ha n Z V E. split.
  - intros N. destruct (Rle_dec 0 (nth n V 0)); [assumption|]. exfalso. apply N. exact (em_stops Gam HG p dt Hd Ha n Z V E ltac:(lra)).
  - intros H. destruct (em_defined Gam HG p dt Hd Ha n Z V E H) as [v ->]. discriminate.
Qed.
Print Assumptions C82_em_defined.
Theorem C82_em_positive_refuted : forall Gam p dt, gamma_function Gam -> 0 < dt -> rh_alpha p < / 2 -> 0 < rh_sigma p -> 0 < rh_vov p ->
  exists Z, em_path Gam p dt Z 2 = None.
Proof. exact em_negative. Qed.
Print Assumptions C82_em_positive_refuted.
(** for alpha >= 1/2, which includes the class default 0.62, no path survives the first step *)
Theorem C82_em_default_alpha : forall Gam p dt Z n, / 2 <= rh_alpha p -> 0 <= rh_sigma p -> em_path Gam p dt Z (S n) = None.
Proof. exact em_nan. Qed.
Print Assumptions C82_em_default_alpha.
Definition ex_rh : rhp := mkRh (1 / 25) (3 / 10) (- (7 / 10)) (1 / 2) (1 / 25) (2 / 5).
Example C82_em_ex : forall Gam, gamma_function Gam -> forall n, exists V, em_path Gam ex_rh (1 / 100) (fun _ => 0) n = Some V.
Proof. intros Gam HG n. eexists. apply em_flat; [exact HG|cbn; lra..]. Qed.
Example C82_em_default_ex : forall Gam Z, em_path Gam (mkRh (1 / 25) (3 / 10) 0 1 (1 / 25) (62 / 100)) (1 / 100) Z 1 = None.
Proof. intros. apply C82_em_default_alpha; cbn; lra. Qed.
(** its drift weights are those of the transform's predictor for the exponent 1 - alpha: the two modules read alpha differently *)
Theorem C82_alpha_convention : forall Gam al dt k j, gamma_function Gam -> al < 1 -> 0 < dt -> (j <= k)%nat ->
  1 / Gam (2 - al) * rm_term1 al dt (rm_grid dt (S k)) (rm_grid dt (S j)) = b_j_kp1 Gam (1 - al) k dt j.
Proof. exact drift_weights. Qed.
Print Assumptions C82_alpha_convention.
(** Fast: the same equation with the kernel on the newest cell and the sum of exponentials on the older ones; the noise of an old cell is the
    weighted sum of the standard deviations of the exponentials *)
Theorem C82_fast : forall Gam, gamma_function Gam -> forall p dt L x w, 0 < dt -> rh_alpha p < / 2 -> (forall l, (l < L)%nat -> 0 < x l) -> forall Z V n,
  (forall i, (i <= n)%nat -> exists H J, fast_state Gam p dt L x w Z i = Some (V i, H, J)) ->
  (forall i, (i < n)%nat -> 0 <= V i) /\
  volterra_fast (rough_kernel Gam (rh_alpha p)) (/ Gam (1 - rh_alpha p)) L x w dt (rh_sigma p) (fun k => rh_mr p * (rh_theta p - V k)) (fun k => rh_vov p * sqrt (V k)) V Z n.
Proof. exact fast_spec. Qed.
Print Assumptions C82_fast.
Example C82_fast_ex : forall Gam L x w n, exists H J, fast_state Gam ex_rh (1 / 100) L x w (fun _ => 0) n = Some (1 / 25, H, J).
Proof. intros. destruct (fast_flat Gam ex_rh (1 / 100) L x w n) as (H & J & E & _); [cbn; lra..|]. exists H, J. exact E. Qed.
(** that noise is too large: at least the standard deviation of the Ito integral of the sum of exponentials, and strictly more with two different nodes *)
Theorem C82_fast_noise_refuted : forall L x w t a b (bl : nat -> R) q, a < b -> (forall l, (l < L)%nat -> 0 <= w l) ->
  (forall l, (l < L)%nat -> cell_std (fun u => exp (- x l * u)) t a b (bl l)) -> cell_std (fun u => exp_sum L x w u) t a b q ->
  q <= rsum L (fun l => w l * bl l) /\ ((2 <= L)%nat -> 0 < w 0%nat -> 0 < w 1%nat -> x 0%nat <> x 1%nat -> q < rsum L (fun l => w l * bl l)).
Proof. exact fast_overdispersed. Qed.
Print Assumptions C82_fast_noise_refuted.
Example C82_fast_noise_ex : forall L x w t a b, a < b -> (forall l, (l < L)%nat -> 0 < x l) ->
  exists q, cell_std (fun u => exp_sum L x w u) t a b q /\ forall l, (l < L)%nat -> exists v, cell_std (fun u => exp (- x l * u)) t a b v.
Proof. intros L x w t a b Hab Hx. destruct (std_exists a b Hab t L x w) as [q Hq]. exists q. split; [exact Hq|]. intros l Hl. eexists. apply exp_cell_std; [now apply Hx|exact Hab]. Qed.
(** get_nodes_weights: exact error of the sum of exponentials at every t > 0: the tail beyond 2^(N+1) of t^(-al) = 1/Gamma(al) int x^(al-1) exp(-x t) dx
    (a gamma probability) plus the scaled errors of the three base rules *)
Theorem C82_nodes_error : forall Gam, gamma_function Gam -> forall al t P, 0 < al < 1 -> 0 < t -> cdf_of (gamma_pdf Gam al) P ->
  forall M N qj qs ql (eJ : R) (es el : nat -> R),
  jacobi_error (al - 1) qj (jac_h (INR M) t) eJ ->
  (forall i, (i < M)%nat -> legendre_error qs (leg_h al (INR i - INR M) t) (es i)) ->
  (forall j, (j <= N)%nat -> legendre_error ql (leg_h al (INR j) t) (el j)) ->
  Rpower t (- al) - kernel_sum (rm_all_nodes Gam al M N qj qs ql) t =
  Rpower t (- al) * (1 - P (t * 2 ^ S N)) +
  (Rpower (Rpower 2 (- INR M - 1)) al * eJ + rsum M (fun i => Rpower 2 (INR i - INR M - 1) * es i) + rsum (S N) (fun j => Rpower 2 (INR j - 1) * el j)) / Gam al.
Proof. exact nodes_error. Qed.
Print Assumptions C82_nodes_error.
(** nodes are positive and below the cut-off, weights positive *)
Theorem C82_nodes_range : forall Gam, gamma_function Gam -> forall al, 0 < al < 1 -> forall M N qj qs ql,
  (forall q, In q qj \/ In q qs \/ In q ql -> - (1) < fst q < 1 /\ 0 < snd q) ->
  forall q, In q (rm_all_nodes Gam al M N qj qs ql) -> 0 < fst q < 2 ^ S N /\ 0 < snd q.
Proof. intros Gam HG al Ha. exact (nodes_pos Gam HG al 0 (fun x => x) Ha). Qed.
Print Assumptions C82_nodes_range.
(** get_num_nodes (scale 1): the counts are the least integers not below the natural logarithms, the first one plus one
    and floored at one *)
Theorem C82_node_counts : forall texp dt eps : R, exists m n o l : Z,
  rm_nodes texp dt eps 1 = (IZR (Z.max m 0 + 1), IZR n, IZR o, IZR o, IZR l) /\
  P_TightMc.least_int (ln texp) m /\ P_TightMc.least_int (ln (ln (1 / eps) / dt)) n /\ P_TightMc.least_int (ln (1 / eps)) o /\ P_TightMc.least_int (ln (1 / eps / dt)) l.
Proof. exact P_TightMc.node_counts. Qed.
Print Assumptions C82_node_counts.
(** get_num_nodes uses natural logarithms for powers of two: with base rules that do not overestimate (true of Gauss rules here) the default tolerance
    1e-4 is missed at t = dt for texp = 1, n_ts = 1000, alpha = 0.4 *)
Theorem C82_tolerance_refuted : forall Gam M N qj qs ql, gamma_function Gam ->
  fst (fst (fst (rm_nodes 1 (1 / 1000) (1 / 10000) 1))) = (INR M, INR N) ->
  (exists e, 0 <= e /\ jacobi_error (2 / 5 - 1) qj (jac_h (INR M) (1 / 1000)) e) ->
  (forall i, (i < M)%nat -> exists e, 0 <= e /\ legendre_error qs (leg_h (2 / 5) (INR i - INR M) (1 / 1000)) e) ->
  (forall j, (j <= N)%nat -> exists e, 0 <= e /\ legendre_error ql (leg_h (2 / 5) (INR j) (1 / 1000)) e) ->
  1 / 10000 < Rpower (1 / 1000) (- (2 / 5)) - kernel_sum (rm_all_nodes Gam (2 / 5) M N qj qs ql) (1 / 1000).
Proof. exact tolerance_missed. Qed.
Print Assumptions C82_tolerance_refuted.
(** the one-point Gauss rules meet these conditions at every t and level *)
Example C82_tolerance_ex : forall Gam al t M j, gamma_function Gam -> 0 < al < 1 -> 0 < t ->
  (exists e, 0 <= e /\ jacobi_error (al - 1) [(2 * al / (al + 1) - 1, Rpower 2 al / al)] (jac_h M t) e) /\
  exists e, 0 <= e /\ legendre_error [(0, 2)] (leg_h al j t) e.
Proof. intros Gam al t M j HG Ha Ht. split; [exact (jacobi1_error Gam HG al t Ha Ht M)|now apply midpoint_error]. Qed.
(** MultifactorApprox: weight and rate of a factor are the mass and the mean of the mixing measure on [eta_j, eta_(j+1)] *)
Theorem C82_factors : forall Gam, gamma_function Gam -> forall al texp N, 0 < al < 1 -> 0 < texp -> (0 < N)%nat -> forall j,
  let eta := rm_eta al texp N in
  mass_between (mixing Gam al) (eta j) (eta (S j)) (rm_c Gam al texp N j) /\
  mass_between (fun y => y * mixing Gam al y) (eta j) (eta (S j)) (rm_c Gam al texp N j * rm_gam al texp N j) /\
  0 < rm_c Gam al texp N j /\ eta j < rm_gam al texp N j < eta (S j).
Proof.
  intros Gam HG al texp N Ha HT HN j eta. split; [now apply c_mass|]. split; [now apply cg_mass|]. split; [now apply c_pos|now apply gam_between].
Qed.
Print Assumptions C82_factors.
(** the scheme unrolled: exact drift integral of the exponential kernel and noise weights (1 - gamma_j dt)^(n-1-k), which stay bounded for alpha <= 1/2 *)
Theorem C82_multifactor : forall Gam p texp dt N (Z V : nat -> R) n, gamma_function Gam -> 0 < rh_alpha p < 1 -> 0 < texp -> (0 < N)%nat ->
  (forall i, (i <= n)%nat -> exists U, mf_state Gam p texp dt N Z i = Some (V i, U)) ->
  (forall i, (i < n)%nat -> 0 <= V i) /\
  exists In, is_RInt (exp_sum N (rm_gam (rh_alpha p) texp N) (rm_c Gam (rh_alpha p) texp N)) 0 (INR n * dt) In /\
  V n = rh_sigma p + rh_mr p * rh_theta p * In +
    rsum n (fun k => (- rh_mr p * V k * dt + rh_vov p * sqrt (V k) * sqrt dt * Z k) *
      rsum N (fun j => rm_c Gam (rh_alpha p) texp N j * (1 - rm_gam (rh_alpha p) texp N j * dt) ^ (n - 1 - k))).
Proof. exact mf_spec. Qed.
Print Assumptions C82_multifactor.
Theorem C82_multifactor_stable : forall al texp n j, 0 < al <= / 2 -> 0 < texp -> (0 < n)%nat -> (j < rm_n_exp n)%nat ->
  0 < rm_gam al texp (rm_n_exp n) j * rm_dt texp n < 2.
Proof. exact mf_stable. Qed.
Print Assumptions C82_multifactor_stable.
Example C82_multifactor_ex : forall Gam N n, exists U, mf_state Gam (mkRh (1 / 25) (3 / 10) 0 0 (1 / 25) (2 / 5)) 1 (1 / 100) N (fun _ => 0) n = Some (1 / 25, U).
Proof. intros. destruct (mf_flat Gam (mkRh (1 / 25) (3 / 10) 0 0 (1 / 25) (2 / 5)) 1 (1 / 100) N n) as (U & E & _); [cbn; lra|reflexivity|]. exists U. exact E. Qed.
