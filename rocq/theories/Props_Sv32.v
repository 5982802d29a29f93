(** C79, C80: simulation of the 3/2 model. *)
From Coq Require Import Reals Lra Lia List.
From Coquelicot Require Import Coquelicot.
From Verif Require Import Base Sums Gauss Spec_Expect Spec_Dist Spec_Cev P_Gamma2 M_Mgf M_Heston M_Sv32Mc Spec_HestonMc Spec_Sv32 P_Sv32Mc P_Sv32Mc2 P_Sv32Mc3 P_Sv32Mc4 P_Sv32Mc5.
Import ListNotations.
Open Scope R_scope.

Definition ex32 : svp := mkSv 1 1 (- (1 / 2)) 1 1.

(** C79 *)
Theorem C79_reciprocal_is_cir : forall p (g g1 g2 : R -> R), 0 < v_mr p -> 0 < v_theta p ->
  (forall x, 0 < x -> is_derive g x (g1 x)) -> (forall x, 0 < x -> is_derive g1 x (g2 x)) ->
  exists f1 f2 : R -> R, forall v, 0 < v ->
    is_derive (fun y => g (1 / y)) v (f1 v) /\ is_derive f1 v (f2 v) /\
    gen32 (v_mr p) (v_theta p) (v_vov p) v (f1 v) (f2 v) =
    gen_sqrt (c_mr (sv32_cir p)) (c_theta (sv32_cir p)) (c_xi (sv32_cir p)) (1 / v) (g1 (1 / v)) (g2 (1 / v)).
Proof. exact recip_generator. Qed.
Print Assumptions C79_reciprocal_is_cir.
Example C79_reciprocal_ex : c_theta (sv32_cir ex32) = 2 /\ exists f1 f2 : R -> R, forall v, 0 < v ->
    is_derive (fun y => 1 / y) v (f1 v) /\ is_derive f1 v (f2 v) /\ gen32 1 1 1 v (f1 v) (f2 v) = gen_sqrt 1 2 1 (1 / v) 1 0.
Proof.
  split; [cbn; field|]. destruct (C79_reciprocal_is_cir ex32 (fun x => x) (fun _ => 1) (fun _ => 0)) as [f1 [f2 F]]; try (cbn; lra).
  - intros x _. auto_derive; [exact I|reflexivity].
  - intros x _. apply (is_derive_const (K := R_AbsRing) (V := R_NormedModule)).
  - exists f1, f2. intros v Hv. destruct (F v Hv) as [A [B C]]. split; [exact A|]. split; [exact B|]. cbn in C. rewrite C. unfold gen_sqrt. field. lra.
Qed.
Theorem C79_conditional_spot : forall p, v_vov p <> 0 -> v_rho p ^ 2 <= 1 -> forall v0, 0 < v0 -> exists f : R -> R -> R -> R,
  martingale32 (v_mr p) (v_theta p) (v_vov p) f /\ loading32 (v_vov p) (v_rho p) f /\ f 0 v0 0 = 1 /\
  forall step dts T vt I s sg, 0 < T -> sv32_loop step 0 dts v0 0 = (vt, I) -> sv32_cond_spot_sigma p step dts T v0 = (s, sg) ->
    (0 < vt -> s = Some (f T vt I)) /\ (vt <= 0 -> s = None) /\ (0 <= I -> v0 * sg ^ 2 * T = (1 - v_rho p ^ 2) * I).
Proof. exact sv32_conditional. Qed.
Print Assumptions C79_conditional_spot.
Example C79_conditional_spot_ex : exists s sg, sv32_cond_spot_sigma ex32 (fun _ _ v => (v, v)) [1; 1] 2 1 = (Some s, sg) /\ v_vov ex32 <> 0 /\ v_rho ex32 ^ 2 <= 1 /\ 1 * sg ^ 2 * 2 = (1 - (- (1 / 2)) ^ 2) * 2.
Proof.
  destruct (C79_conditional_spot ex32 ltac:(cbn; lra) ltac:(cbn; lra) 1 ltac:(lra)) as [f (_ & _ & _ & F)].
  destruct (sv32_cond_spot_sigma ex32 (fun _ _ v => (v, v)) [1; 1] 2 1) as [s sg] eqn:E.
  assert (L : sv32_loop (fun (_ : nat) (_ v : R) => (v, v)) 0 [1; 1] 1 0 = (1, 0 + 1 * 1 + 1 * 1)) by reflexivity.
  destruct (F _ _ 2 _ _ _ _ ltac:(lra) L E) as [A [_ B]]. rewrite (A ltac:(lra)). eexists; eexists. split; [reflexivity|]. split; [cbn; lra|]. split; [cbn; lra|].
  rewrite B by lra. cbn. ring.
Qed.
Theorem C79_euler_mean : forall p mil dt v0, 0 <= dt -> 0 <= v0 ->
  gauss_expect (sv32_euler_raw p mil dt v0) (v0 + v_mr p * v0 * (v_theta p - v0) * dt).
Proof. exact sv32_euler_mean. Qed.
Print Assumptions C79_euler_mean.
Theorem C79_euler_second : forall p (mil : bool) dt v0, 0 <= dt -> 0 <= v0 ->
  gauss_expect (fun z => sv32_euler_raw p mil dt v0 z ^ 2)
    ((v0 + v_mr p * v0 * (v_theta p - v0) * dt) ^ 2 + v_vov p ^ 2 * v0 ^ 3 * dt + (if mil then 9 / 8 * v_vov p ^ 4 * v0 ^ 4 * dt ^ 2 else 0)).
Proof. exact sv32_euler_second. Qed.
Print Assumptions C79_euler_second.
Example C79_euler_ex : gauss_expect (sv32_euler_raw ex32 true (1 / 10) 2) (2 + 1 * 2 * (1 - 2) * (1 / 10)).
Proof. exact (C79_euler_mean ex32 true (1 / 10) 2 ltac:(lra) ltac:(lra)). Qed.
Theorem C79_step_nonneg : forall p mil dt v0 z, 0 <= sv32_euler p mil dt v0 z.
Proof. exact sv32_euler_nonneg. Qed.
Print Assumptions C79_step_nonneg.
Theorem C79_milstein_positive : forall p dt v0, 0 < v0 -> 0 < dt -> 0 <= v_mr p * v_theta p -> (3 / 4 * v_vov p ^ 2 + v_mr p) * v0 * dt < 2 / 3 ->
  (forall z, 0 < sv32_euler p true dt v0 z) /\ gauss_expect (sv32_euler p true dt v0) (v0 + v_mr p * v0 * (v_theta p - v0) * dt).
Proof. exact sv32_milstein_floor. Qed.
Print Assumptions C79_milstein_positive.
Example C79_milstein_ex : forall z, 0 < sv32_euler ex32 true (1 / 10) 2 z.
Proof. apply C79_milstein_positive; cbn; lra. Qed.
Theorem C79_bad_scheme : forall p scheme dt v0 z x g, (4 <= scheme)%nat <-> sv32_step p scheme dt v0 z x g = None.
Proof. exact step_scheme. Qed.
Print Assumptions C79_bad_scheme.
Theorem C79_step_average : forall p scheme dt v0 z x g vt a, sv32_step p scheme dt v0 z x g = Some (vt, a) -> a = (v0 + vt) / 2.
Proof. exact step_trap. Qed.
Print Assumptions C79_step_average.
Theorem C79_exact_schemes : forall p scheme dt v0 z x g vt a, 0 < v_vov p -> 0 < v_mr p -> 0 < v_theta p -> 0 < dt -> 0 < v0 -> 0 < x -> 0 < g ->
  (scheme = 2 \/ scheme = 3)%nat -> sv32_step p scheme dt v0 z x g = Some (vt, a) ->
  0 < vt /\ 0 < a /\ (scheme = 2%nat -> / vt = let '(scale, _, _) := cir_ncx2_args (sv32_cir p) dt (/ v0) in scale * x) /\
  (scheme = 3%nat -> / vt = let '(scale, _, _) := cir_pois_gamma_args (sv32_cir p) dt (/ v0) in scale * g).
Proof. exact step_exact. Qed.
Print Assumptions C79_exact_schemes.
Example C79_exact_ex : exists vt a, sv32_step ex32 2 1 1 0 3 1 = Some (vt, a) /\ 0 < vt.
Proof. destruct (sv32_step ex32 2 1 1 0 3 1) as [[vt a]|] eqn:E; [|discriminate E]. exists vt, a. split; [reflexivity|].
  refine (proj1 (C79_exact_schemes ex32 2 1 1 0 3 1 vt a _ _ _ _ _ _ _ _ E)); try (left; reflexivity); cbn; lra. Qed.
Theorem C79_draw_ig : forall eps mean vs, 0 <= eps < mean -> 0 < vs ->
  exists mu lam, 0 < mu /\ 0 < lam /\ (forall w, sv32_draw_ig eps mean vs w = w mu lam) /\
  pos_expect (ig_density mu lam) (fun x => x) mean /\ pos_expect (ig_density mu lam) (fun x => x ^ 2) (mean ^ 2 * (1 + vs)).
Proof. exact draw_ig_moments. Qed.
Print Assumptions C79_draw_ig.
Theorem C79_draw_ga : forall Gam eps mean vs, gamma_function Gam -> eps < mean -> 0 < vs ->
  exists shape, 0 < shape /\ gam_expect Gam shape (fun x => sv32_draw_ga eps mean vs (fun s => if Req_EM_T s shape then x else 0)) mean /\
  gam_expect Gam shape (fun x => sv32_draw_ga eps mean vs (fun s => if Req_EM_T s shape then x else 0) ^ 2) (mean ^ 2 * (1 + vs)).
Proof. exact draw_ga_moments. Qed.
Print Assumptions C79_draw_ga.
Theorem C79_draw_ln : forall eps mean vs, eps < mean -> 0 <= vs ->
  gauss_expect (sv32_draw_ln eps mean vs) mean /\ gauss_expect (fun z => sv32_draw_ln eps mean vs z ^ 2) (mean ^ 2 * (1 + vs)).
Proof. exact draw_ln_moments. Qed.
Print Assumptions C79_draw_ln.
Theorem C79_draw_small : forall eps mean vs, mean <= eps ->
  (forall w, sv32_draw_ig eps mean vs w = 0) /\ (forall g, sv32_draw_ga eps mean vs g = 0) /\ (forall z, sv32_draw_ln eps mean vs z = 0).
Proof. exact draw_small. Qed.
Print Assumptions C79_draw_small.
Example C79_draw_ex : (exists mu lam, 0 < mu /\ 0 < lam /\ pos_expect (ig_density mu lam) (fun x => x) 2) /\
  exists Gam shape, gamma_function Gam /\ gam_expect Gam shape (fun x => sv32_draw_ga 0 2 (1 / 4) (fun s => if Req_EM_T s shape then x else 0)) 2.
Proof.
  split.
  - destruct (C79_draw_ig 0 2 (1 / 4) ltac:(lra) ltac:(lra)) as (mu & lam & A & B & _ & C & _). now exists mu, lam.
  - destruct gamma_exists as [Gam HG]. destruct (C79_draw_ga Gam 0 2 (1 / 4) HG ltac:(lra) ltac:(lra)) as (s & _ & A & _). now exists Gam, s.
Qed.

(** C80 *)
Theorem C80_bessel_truncated : forall Gam n nu z, gamma_function Gam -> -1 < nu ->
  iv_complex Gam n nu z = rsum (S n) (bessel_I_term Gam nu z).
Proof. intros Gam n nu z HG Hn. exact (iv_complex_sum Gam HG n nu z Hn). Qed.
Print Assumptions C80_bessel_truncated.
Theorem C80_bessel_converges : forall Gam nu z, gamma_function Gam -> -1 < nu ->
  is_lim_seq (fun n => iv_complex Gam n nu z) (bessel_I Gam nu z) /\ (0 < z -> forall n, 0 < iv_complex Gam n nu z < bessel_I Gam nu z).
Proof. intros Gam nu z HG Hn. split; [exact (iv_complex_lim Gam HG nu z Hn)|intros Hz n; exact (iv_complex_below Gam HG n nu z Hn Hz)]. Qed.
Print Assumptions C80_bessel_converges.
Theorem C80_order_derivatives : forall Gam psi psi1 n nu z, gamma_function Gam -> digamma_of Gam psi -> trigamma_of psi psi1 -> -1 < nu -> 0 < z ->
  is_derive (fun y => iv_complex Gam n y z) nu (fst (iv_d12 Gam psi psi1 n nu z)) /\
  is_derive (fun y => fst (iv_d12 Gam psi psi1 n y z)) nu (snd (iv_d12 Gam psi psi1 n nu z)).
Proof. intros Gam psi psi1 n nu z HG Hp Hp1 Hn Hz. exact (iv_d12_derive Gam HG psi psi1 Hp Hp1 n nu z Hn Hz). Qed.
Print Assumptions C80_order_derivatives.
Theorem C80_digamma_exists : forall Gam, gamma_function Gam -> exists psi psi1, digamma_of Gam psi /\ trigamma_of psi psi1.
Proof. exact digamma_exists. Qed.
Print Assumptions C80_digamma_exists.
Example C80_derivatives_ex : exists Gam psi psi1, gamma_function Gam /\ digamma_of Gam psi /\ trigamma_of psi psi1 /\
  is_derive (fun y => iv_complex Gam 63 y 2) 3 (fst (iv_d12 Gam psi psi1 63 3 2)).
Proof.
  destruct gamma_exists as [Gam HG]. destruct (C80_digamma_exists Gam HG) as (psi & psi1 & A & B). exists Gam, psi, psi1. split; [exact HG|]. split; [exact A|]. split; [exact B|].
  apply C80_order_derivatives; (assumption || lra).
Qed.
Theorem C80_transform : forall p dt v0 vt (I : R -> R -> R) b, 0 < v_vov p -> 0 < v_mr p -> 0 < v_theta p -> 0 < dt -> 0 < v0 -> 0 < vt ->
  sv32_laplace I I p b dt v0 vt = transform32 I (v_mr p) (v_theta p) (v_vov p) dt v0 vt b.
Proof. intros p dt v0 vt I b A B C D E F. exact (laplace_is_transform p dt v0 vt A B C D E F I b). Qed.
Print Assumptions C80_transform.
Theorem C80_mean_variance : forall p dt v0 vt (F : R -> R -> R) (ivd : R -> R -> R * R) (m vs : R),
  0 < v_vov p -> 0 < v_mr p -> 0 < v_theta p -> 0 < dt -> 0 < v0 -> 0 < vt ->
  (forall y z, 0 < y -> 0 < z -> 0 < F y z /\ is_derive (fun u => F u z) y (fst (ivd y z)) /\ is_derive (fun u => fst (ivd u z)) y (snd (ivd y z))) ->
  sv32_avgvar_mv F ivd p dt v0 vt = (m, vs) ->
  exists v, laplace_mean_var (transform32 F (v_mr p) (v_theta p) (v_vov p) dt v0 vt) m v /\ (m <> 0 -> (0 <= v -> vs * m ^ 2 = v) /\ (v < 0 -> vs = / 10 ^ 64)).
Proof. intros p dt v0 vt F ivd m vs A B C D E G. exact (mv_spec p dt v0 vt A B C D E G F ivd m vs). Qed.
Print Assumptions C80_mean_variance.
Example C80_mean_variance_ex : exists Gam psi psi1 m v, gamma_function Gam /\ digamma_of Gam psi /\ trigamma_of psi psi1 /\
  fst (sv32_avgvar_mv (iv_complex Gam 63) (iv_d12 Gam psi psi1 63) ex32 1 1 2) = m /\ laplace_mean_var (transform32 (iv_complex Gam 63) 1 1 1 1 1 2) m v.
Proof.
  destruct gamma_exists as [Gam HG]. destruct (C80_digamma_exists Gam HG) as (psi & psi1 & A & B). exists Gam, psi, psi1.
  destruct (sv32_avgvar_mv (iv_complex Gam 63) (iv_d12 Gam psi psi1 63) ex32 1 1 2) as [m vs] eqn:E. exists m.
  destruct (C80_mean_variance ex32 1 1 2 (iv_complex Gam 63) (iv_d12 Gam psi psi1 63) m vs) as [v [L _]]; try (cbn; lra).
  - now apply iv_code_ok.
  - exact E.
  - exists v. split; [exact HG|]. split; [exact A|]. split; [exact B|]. split; [reflexivity|exact L].
Qed.
Theorem C80_mean_variance_given_index : forall p dt v0 vt Gam psi psi1 (eta m vs : R), 0 < v_vov p -> 0 < v_mr p -> 0 < v_theta p -> 0 < dt -> 0 < v0 -> 0 < vt ->
  gamma_function Gam -> digamma_of Gam psi -> trigamma_of psi psi1 -> 0 <= eta -> sv32_avgvar_mv_eta psi psi1 p dt v0 vt eta = (m, vs) ->
  exists v, laplace_mean_var (transform32_eta Gam (v_mr p) (v_theta p) (v_vov p) dt v0 vt eta) m v /\ (m <> 0 -> (0 <= v -> vs * m ^ 2 = v) /\ (v < 0 -> vs = / 10 ^ 64)).
Proof. intros p dt v0 vt Gam psi psi1 eta m vs A B C D E G. exact (mv_eta_spec p dt v0 vt A B C D E G Gam psi psi1 eta m vs). Qed.
Print Assumptions C80_mean_variance_given_index.
Theorem C80_index_mixture : forall p dt v0 vt Gam b, 0 < v_vov p -> 0 < v_mr p -> 0 < v_theta p -> 0 < dt -> 0 < v0 -> 0 < vt -> gamma_function Gam -> 0 <= b ->
  is_series (fun n => bessel_pmf Gam (order32 (v_mr p) (v_vov p)) (arg32 (v_mr p) (v_theta p) (v_vov p) dt v0 vt) n * transform32_eta Gam (v_mr p) (v_theta p) (v_vov p) dt v0 vt (INR n) b)
    (transform32 (bessel_I Gam) (v_mr p) (v_theta p) (v_vov p) dt v0 vt b).
Proof. intros p dt v0 vt Gam b A B C D E F. exact (mix_spec p dt v0 vt A B C D E F Gam b). Qed.
Print Assumptions C80_index_mixture.
Theorem C80_transform_given_index : forall p dt v0 vt Gam b eta, 0 < v_vov p -> 0 < v_mr p -> 0 < v_theta p -> 0 < dt -> 0 < v0 -> 0 < vt -> 0 <= b ->
  sv32_laplace_eta Gam p b dt v0 vt eta = transform32_eta Gam (v_mr p) (v_theta p) (v_vov p) dt v0 vt eta b *
  Rpower (arg32 (v_mr p) (v_theta p) (v_vov p) dt v0 vt / 2) ((dt - 1) * (order32_b (v_mr p) (v_vov p) dt b - order32 (v_mr p) (v_vov p))).
Proof. intros p dt v0 vt Gam b eta A B C D E F. exact (eta_laplace_spec p dt v0 vt A B C D E F Gam b eta). Qed.
Print Assumptions C80_transform_given_index.
Theorem C80_transform_given_index_refuted : forall p dt v0 vt Gam b eta, 0 < v_vov p -> 0 < v_mr p -> 0 < v_theta p -> 0 < dt -> 0 < v0 -> 0 < vt -> gamma_function Gam ->
  0 < b -> 0 <= eta -> dt <> 1 -> arg32 (v_mr p) (v_theta p) (v_vov p) dt v0 vt <> 2 ->
  sv32_laplace_eta Gam p b dt v0 vt eta <> transform32_eta Gam (v_mr p) (v_theta p) (v_vov p) dt v0 vt eta b.
Proof. intros p dt v0 vt Gam b eta A B C D E F. exact (eta_laplace_wrong p dt v0 vt A B C D E F Gam b eta). Qed.
Print Assumptions C80_transform_given_index_refuted.
(** the hypotheses are met: at dt = 1/2 and end variance 1 or 4 at least one of the two arguments differs from 2 *)
Example C80_refuted_ex : exists vt, 0 < vt /\ arg32 1 1 1 (1 / 2) 1 vt <> 2.
Proof.
  assert (S : 0 < sinh (1 * 1 * (1 / 2) / 2)). { unfold sinh. assert (exp (- (1 * 1 * (1 / 2) / 2)) < exp (1 * 1 * (1 / 2) / 2)) by (apply exp_increasing; lra). lra. }
  destruct (Req_dec (arg32 1 1 1 (1 / 2) 1 1) 2) as [E|E]; [|exists 1; split; [lra|exact E]]. exists 4. split; [lra|]. intros E2. unfold arg32 in *.
  replace (1 * 4) with (2 * 2) in E2 by ring. rewrite sqrt_square in E2 by lra. replace (1 * 1) with 1 in E at 3 by ring. rewrite sqrt_1 in E. set (s := sinh _) in *.
  replace (2 * (1 * 1) / (1 ^ 2 * s * 1)) with (2 / s) in E by (field; lra). replace (2 * (1 * 1) / (1 ^ 2 * s * 2)) with (2 / s / 2) in E2 by (field; lra). lra.
Qed.
