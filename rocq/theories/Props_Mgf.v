(** C18-C20, C56-C58: transforms used by the Fourier pricers. *)
From Coq Require Import Reals Lra Lia List.
From Coquelicot Require Import Coquelicot.
From Verif Require Import Base M_Params M_Opt M_Mgf P_Mgf P_Mgf2 P_MgfOde.
Open Scope R_scope.

(** *** C18: E[exp(0 X)] = 1 and, the model being a martingale, E[exp(X)] = 1 for X = log(S_T/F) *)
Theorem C18_bsm : forall m T, bsm_logp_mgf m 0 T = 1 /\ bsm_logp_mgf m 1 T = 1.
Proof. exact bsm_mgf_01. Qed.
Print Assumptions C18_bsm.
Theorem C18_vargamma : forall s n t o T, vg_new s n t = Some o -> vg_mgf o 0 T = 1 /\ vg_mgf o 1 T = 1.
Proof. exact (fun s n t o T H => conj (vg_mgf_0 o T) (vg_mgf_1 s n t o T H)). Qed.
Print Assumptions C18_vargamma.
Theorem C18_nig : forall s n t o T, nig_new s n t = Some o -> nig_mgf o 0 T = 1 /\ nig_mgf o 1 T = 1.
Proof. exact (fun s n t o T H => conj (nig_mgf_0 o T) (nig_mgf_1 s n t o T H)). Qed.
Print Assumptions C18_nig.
Theorem C18_cgmy : forall gam C G M Y o T, cgmy_new gam C G M Y = Some o -> cgmy_mgf o 0 T = 1 /\ cgmy_mgf o 1 T = 1.
Proof. exact (fun gam C G M Y o T H => conj (cgmy_mgf_0 gam C G M Y o T H) (cgmy_mgf_1 gam C G M Y o T H)). Qed.
Print Assumptions C18_cgmy.
Theorem C18_heston : forall p T, 0 < v_mr p -> v_rho p * v_vov p < v_mr p -> heston_mgf p 0 T = 1 /\ heston_mgf p 1 T = 1.
Proof. exact heston_mgf_01. Qed.
Print Assumptions C18_heston.
Theorem C18_ousv : forall p T, 0 < v_mr p -> v_rho p * v_vov p < v_mr p -> ousv_mgf p 0 T = 1 /\ ousv_mgf p 1 T = 1.
Proof. exact ousv_mgf_01. Qed.
Print Assumptions C18_ousv.
Theorem C18_sv32 : forall loggam n cap p T, 0 <= cap -> 0 <= v_mr p -> v_vov p <> 0 -> v_rho p * v_vov p <= v_mr p ->
  sv32_mgf loggam n cap p 0 T = 1 /\ sv32_mgf loggam n cap p 1 T = 1.
Proof. exact sv32_mgf_01. Qed.
Print Assumptions C18_sv32.
Theorem C18_garch : forall p T, 0 < v_mr p -> 3 / 2 * (v_rho p * v_vov p * sqrt (v_theta p)) < v_mr p ->
  exp (garch_new p 0 T) = 1 /\ exp (garch_new p 1 T) = 1.
Proof. exact garch_new_01. Qed.
Print Assumptions C18_garch.
(** the restriction rho*vov < mr is needed: otherwise the denominator beta + dd of the coded expression is 0 at u = 1 *)
Theorem C18_unit_argument_refuted : forall p, v_mr p <= v_rho p * v_vov p ->
  heston_beta p 1 + heston_dd p 1 = 0 /\ ousv_beta p 1 + ousv_dd p 1 = 0.
Proof. exact (fun p H => conj (heston_mgf_1_singular p H) (ousv_mgf_1_singular p H)). Qed.
Print Assumptions C18_unit_argument_refuted.
(** Levy models: log-price increments over disjoint periods are independent and stationary *)
Theorem C18_levy : (forall o u T1 T2, vg_mgf o u (T1 + T2) = vg_mgf o u T1 * vg_mgf o u T2) /\
  (forall o u T1 T2, nig_mgf o u (T1 + T2) = nig_mgf o u T1 * nig_mgf o u T2) /\
  (forall o u T1 T2, cgmy_mgf o u (T1 + T2) = cgmy_mgf o u T1 * cgmy_mgf o u T2).
Proof. exact (conj vg_mgf_add (conj nig_mgf_add cgmy_mgf_add)). Qed.
Print Assumptions C18_levy.
Example C18_ex : exists o, vg_new (/ 5) (/ 2) (- / 10) = Some o /\ vg_mgf o 1 3 = 1 /\
  heston_mgf (mkSv (1 / 25) (1 / 2) (- (7 / 10)) 1 (1 / 25)) 1 10 = 1.
Proof.
  destruct (vg_new (/ 5) (/ 2) (- / 10)) as [o|] eqn:E.
  - exists o. split; [reflexivity|]. split; [apply (C18_vargamma _ _ _ o 3 E)|]. apply C18_heston; simpl; lra.
  - exfalso. revert E. unfold vg_new, vg_post. destruct (Rle_dec _ _); [lra|discriminate].
Qed.

(** *** C19: assigning sigma to an existing Variance Gamma / NIG instance *)
Theorem C19_vg_stale_refuted : forall s n t o s2 T, vg_new s n t = Some o -> n <> 0 -> T <> 0 ->
  0 < 1 - t * n - / 2 * s2 ^ 2 * n ->
  (vg_mgf (sub_set_sigma o s2) 1 T = 1 <-> s2 ^ 2 = s ^ 2).
Proof. exact vg_stale. Qed.
Print Assumptions C19_vg_stale_refuted.
Theorem C19_nig_stale_refuted : forall s n t o s2 T, nig_new s n t = Some o -> n <> 0 -> T <> 0 ->
  0 < 1 - 2 * t * n - s2 ^ 2 * n ->
  (nig_mgf (sub_set_sigma o s2) 1 T = 1 <-> s2 ^ 2 = s ^ 2).
Proof. exact nig_stale. Qed.
Print Assumptions C19_nig_stale_refuted.
(** whereas a newly constructed model is always a martingale (C18): the two ways of asking for the same
    parameters disagree *)
Example C19_ex : exists o o', vg_new (/ 5) (/ 2) 0 = Some o /\ vg_new (3 / 10) (/ 2) 0 = Some o' /\
  s_sigma (sub_set_sigma o (3 / 10)) = s_sigma o' /\ s_nu (sub_set_sigma o (3 / 10)) = s_nu o' /\
  s_theta (sub_set_sigma o (3 / 10)) = s_theta o' /\ vg_mgf o' 1 1 = 1 /\ vg_mgf (sub_set_sigma o (3 / 10)) 1 1 <> 1.
Proof.
  destruct (vg_new (/ 5) (/ 2) 0) as [o|] eqn:E.
  2:{ exfalso. revert E. unfold vg_new, vg_post. destruct (Rle_dec _ _); [lra|discriminate]. }
  destruct (vg_new (3 / 10) (/ 2) 0) as [o'|] eqn:E'.
  2:{ exfalso. revert E'. unfold vg_new, vg_post. destruct (Rle_dec _ _); [lra|discriminate]. }
  exists o, o'. split; [reflexivity|]. split; [reflexivity|].
  destruct (vg_new_inv _ _ _ _ E) as (_ & A2 & A3 & _). destruct (vg_new_inv _ _ _ _ E') as (B1 & B2 & B3 & _).
  simpl. split; [now rewrite B1|]. split; [congruence|]. split; [congruence|].
  split; [apply (C18_vargamma _ _ _ o' 1 E')|].
  intros H. apply (C19_vg_stale_refuted _ _ _ o (3 / 10) 1 E) in H; lra.
Qed.

(** *** C20: the reported cumulants are the derivatives of log E[exp(u X)] at u = 0 *)
Theorem C20_vargamma : forall o T, s_nu o <> 0 -> cumulants_of (fun u => vg_mgf o u T) (vg_cum4 o T).
Proof. exact vg_cumulants. Qed.
Print Assumptions C20_vargamma.
Theorem C20_nig : forall o T, s_nu o <> 0 -> cumulants_of (fun u => nig_mgf o u T) (nig_cum4 o T).
Proof. exact nig_cumulants. Qed.
Print Assumptions C20_nig.
Theorem C20_bsm : forall m T, cumulants_of (fun u => bsm_logp_mgf m u T) (bsmcos_cum4 (sigma m) T).
Proof. exact bsm_cumulants. Qed.
Print Assumptions C20_bsm.
(** the COS pricer's own Variance Gamma cumulants agree with the generic ones *)
Theorem C20_vargamma_cos : forall s n t o T, vg_new s n t = Some o -> vgcos_cum4 o T = vg_cum4 o T.
Proof. exact vgcos_cum_eq. Qed.
Print Assumptions C20_vargamma_cos.
Example C20_ex : exists o, nig_new (/ 5) (/ 2) (- / 10) = Some o /\ snd (fst (fst (nig_cum4 o 2))) = 9 / 100 /\
  cumulants_of (fun u => nig_mgf o u 2) (nig_cum4 o 2).
Proof.
  destruct (nig_new (/ 5) (/ 2) (- / 10)) as [o|] eqn:E.
  - exists o. split; [reflexivity|]. destruct (nig_new_inv _ _ _ _ E) as (A1 & A2 & A3 & _).
    split; [unfold nig_cum4; rewrite A1, A2, A3; simpl; field|]. apply C20_nig. rewrite A2. lra.
  - exfalso. revert E. unfold nig_new, nig_post. destruct (Rle_dec _ _); [lra|discriminate].
Qed.

(** *** C56: the coded transforms are the affine transforms of the models' stochastic differential equations.
    Heston: E[(S_T/F)^u] = exp(A(T) + v0 B(T)) where A, B vanish at T = 0 and solve the Riccati system of
    dv = mr(theta - v)dt + vov sqrt(v) dZ, dlogS = -v/2 dt + sqrt(v) dW, d<W,Z> = rho dt. *)
Theorem C56_heston_affine : forall mr theta vov rho u, vov <> 0 -> 0 < u < 1 ->
  exists A B : R -> R, A 0 = 0 /\ B 0 = 0 /\
    (forall v0 T, ln (heston_mgf (mkSv v0 vov rho mr theta) u T) = A T + v0 * B T) /\
    (forall T, 0 <= T ->
      is_derive B T (/ 2 * (u ^ 2 - u) - (mr - rho * vov * u) * B T + / 2 * vov ^ 2 * B T ^ 2) /\
      is_derive A T (mr * theta * B T)).
Proof. exact heston_affine. Qed.
Print Assumptions C56_heston_affine.
(** OUSV: dsig = mr(theta - sig)dt + vov dZ, dlogS = -sig^2/2 dt + sig dW *)
Theorem C56_ousv_affine : forall mr theta vov rho u, vov <> 0 -> mr <> 0 -> 0 < u < 1 ->
  exists A B C : R -> R, A 0 = 0 /\ B 0 = 0 /\ C 0 = 0 /\
    (forall s T, ln (ousv_mgf (mkSv s vov rho mr theta) u T) = A T + s * B T + s ^ 2 * C T) /\
    (forall T, 0 <= T ->
      is_derive C T (/ 2 * (u ^ 2 - u) - 2 * (mr - rho * vov * u) * C T + 2 * vov ^ 2 * C T ^ 2) /\
      is_derive B T (2 * mr * theta * C T - (mr - rho * vov * u) * B T + 2 * vov ^ 2 * B T * C T) /\
      is_derive A T (mr * theta * B T + / 2 * vov ^ 2 * B T ^ 2 + vov ^ 2 * C T)).
Proof. exact ousv_affine. Qed.
Print Assumptions C56_ousv_affine.
Example C56_ex : exists A B : R -> R, A 0 = 0 /\ B 0 = 0 /\
    (forall v0 T, ln (heston_mgf (mkSv v0 1 (- (9 / 10)) (1 / 2) (1 / 25)) (1 / 2) T) = A T + v0 * B T) /\ is_derive B 0 (- (1 / 8)).
Proof.
  destruct (C56_heston_affine (1 / 2) (1 / 25) 1 (- (9 / 10)) (1 / 2)) as (A & B & A0 & B0 & E & D); try lra.
  exists A, B. split; [exact A0|]. split; [exact B0|]. split; [exact E|].
  destruct (D 0 (Rle_refl 0)) as [D1 _]. rewrite B0 in D1. eapply is_derive_eq; [exact D1|]. field.
Qed.

(** *** C57: both coded forms of the OUSV transform are the same function *)
Theorem C57_schobel_zhu_equals_lord_kahl : forall p u T, v_vov p <> 0 -> v_mr p <> 0 -> 0 < u < 1 -> 0 <= T ->
  sz_logmgf p u T = ln (ousv_mgf p u T).
Proof. exact sz_eq_mgf. Qed.
Print Assumptions C57_schobel_zhu_equals_lord_kahl.
Example C57_ex : sz_logmgf (mkSv (1 / 5) (1 / 2) (- (1 / 2)) 4 (1 / 5)) (1 / 3) 2 = ln (ousv_mgf (mkSv (1 / 5) (1 / 2) (- (1 / 2)) 4 (1 / 5)) (1 / 3) 2).
Proof. apply C57_schobel_zhu_equals_lord_kahl; simpl; lra. Qed.

(** *** C58: the rewritten GARCH transform does not equal the published one it replaces unless texp = 1 *)
Theorem C58_garch_difference : forall p u T, v_vov p <> 0 -> 0 < v_theta p ->
  0 < garch_gg p u ^ 2 + 2 * v_vov p ^ 2 * v_theta p * (u - u ^ 2) -> garch_dd p u + garch_gg p u <> 0 ->
  let d := garch_dd p u in let g := garch_gg p u in let e := exp (- d * T) in
  2 * d - (d - g) * (1 - e) <> 0 ->
  garch_new p u T - garch_old p u T = (T - 1) * (d * (d - g) * (1 - e)) / (2 * v_vov p ^ 2 * (2 * d - (d - g) * (1 - e))).
Proof. exact garch_diff. Qed.
Print Assumptions C58_garch_difference.
Theorem C58_garch_refuted : forall p u T, v_vov p <> 0 -> 0 < v_theta p -> 0 < u < 1 -> 0 < T -> T <> 1 ->
  garch_new p u T <> garch_old p u T.
Proof. exact garch_new_neq_old. Qed.
Print Assumptions C58_garch_refuted.
Example C58_ex : garch_new (mkSv (1 / 25) (1 / 2) (- (1 / 2)) 4 (1 / 25)) (1 / 2) (1 / 4) <>
  garch_old (mkSv (1 / 25) (1 / 2) (- (1 / 2)) 4 (1 / 25)) (1 / 2) (1 / 4).
Proof. apply C58_garch_refuted; simpl; lra. Qed.
