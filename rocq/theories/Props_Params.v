(** Property theorems for parameter handling (params.py) and the FFT cache (sv_fft.py). *)
From Coq Require Import Reals List String Bool ZArith Lia Lra.
From Verif Require Import Spec_Opt M_Opt M_Params Spec_Params P_Params M_Cache P_Cache.
Import ListNotations.
Open Scope R_scope.
Open Scope string_scope.

(** *** C14 *)
(** params_kw lists exactly the init, non-numerical fields with their current values. *)
Theorem C14_params_kw_exact : forall c o n v,
  In (n, v) (params_kw c o) <->
  exists f, In f (c_fields c) /\ f_name f = n /\ f_init f = true /\ f_num f = false /\ v = o n.
Proof. exact params_kw_spec. Qed.
Print Assumptions C14_params_kw_exact.
(** Copying between any two compatible classes reproduces every model parameter, and gives the
    numerical attributes their class defaults. *)
Theorem C14_from_model_copies : forall c c' inst o, compatible c c' -> admissible c o ->
  exists o', from_model c inst c' o = Some o' /\
    (forall n, model_name c n -> o' n = o n) /\
    (forall f, numerical_field c f -> o' (f_name f) = f_default f) /\
    (forall n v, In (n, v) (params_kw c o') <-> In (n, v) (params_kw c' o)).
Proof. exact from_model_copies. Qed.
Print Assumptions C14_from_model_copies.
(** Instance: every object constructed by the Heston analytic or Monte-Carlo class can be copied
    into either class, with equal params_kw. *)
Theorem C14_heston_roundtrip : forall c c' kw o, is_heston c -> is_heston c' -> construct c kw = Some o ->
  exists o', from_model c' false c o = Some o' /\
    (forall n v, In (n, v) (params_kw c' o') <-> In (n, v) (params_kw c o)) /\
    (forall f, numerical_field c' f -> o' (f_name f) = f_default f).
Proof. exact heston_roundtrip. Qed.
Print Assumptions C14_heston_roundtrip.
Example C14_ex : exists o, construct HestonMc (heston_kw (/ 25) (/ 2) (- / 2) 1 None) = Some o.
Proof.
  unfold construct, heston_kw; cbn -[heston_valid]. unfold heston_post, sv_post; cbn -[heston_valid].
  rewrite (proj2 (heston_valid_spec _)); [eauto|].
  exists (/ 25), (/ 2), 1, (/ 25), (- / 2). split; [repeat split; reflexivity|]. unfold heston_constraints. lra.
Qed.
Theorem C14_type_mismatch_raises : forall c c' inst o t t',
  c_type c = Some t -> c_type c' = Some t' -> t <> t' -> from_model c inst c' o = None.
Proof. exact from_model_mismatch. Qed.
Print Assumptions C14_type_mismatch_raises.
Example C14_mismatch_ex : forall o, from_model HestonCev true Heston o = None.
Proof. intro o. apply (C14_type_mismatch_raises HestonCev Heston true o "HestonCev" "Heston"); try reflexivity. discriminate. Qed.
Theorem C14_untyped_raises : forall c c' o, c_type c = None \/ c_type c' = None -> from_model c false c' o = None.
Proof. exact from_model_untyped. Qed.
Print Assumptions C14_untyped_raises.
(** BsmDisp: the copy keeps only the product sigma*beta and forgets beta and pivot ... *)
Theorem C14_bsmdisp_copy : forall o, let o' := disp_from_model o in
  disp_getattr_sigma o' = disp_getattr_sigma o /\ dp_beta o' = 1 /\ dp_pivot o' = 0 /\
  dp_sigma_disp o' = dp_sigma_disp o * dp_beta o.
Proof. exact disp_from_model_spec. Qed.
Print Assumptions C14_bsmdisp_copy.
(** ... so the round trip fails. *)
Theorem C14_bsmdisp_roundtrip_refuted : ~ (forall o, disp_from_model o = o).
Proof.
  intros H. specialize (H (mkDispObj 1 (/ 2) 100 0 0 false)). apply (f_equal dp_beta) in H. simpl in H. lra.
Qed.
Print Assumptions C14_bsmdisp_roundtrip_refuted.

(** *** C15 *)
Theorem C15_heston_accepts_iff : forall s v r k t,
  (exists o, construct Heston (heston_kw s v r k t) = Some o) <->
  heston_constraints s v k (match t with Some x => x | None => s end) r.
Proof. exact heston_construct. Qed.
Print Assumptions C15_heston_accepts_iff.
Example C15_heston_ex : exists o, construct Heston (heston_kw (/ 25) (/ 2) (- / 2) 1 None) = Some o.
Proof. apply C15_heston_accepts_iff. unfold heston_constraints. lra. Qed.
Theorem C15_heston_attributes : forall s v r k t o, construct Heston (heston_kw s v r k t) = Some o ->
  heston_attrs o s v k (match t with Some x => x | None => s end) r.
Proof. exact heston_construct_attrs. Qed.
Print Assumptions C15_heston_attributes.
Theorem C15_heston_object_valid : forall c kw o, is_heston c -> construct c kw = Some o ->
  exists s v k t r, heston_attrs o s v k t r /\ heston_constraints s v k t r.
Proof. exact heston_object_valid. Qed.
Print Assumptions C15_heston_object_valid.
Theorem C15_hestoncev_object_valid : forall kw o, construct HestonCev kw = Some o ->
  exists s v k t r b, heston_attrs o s v k t r /\ heston_constraints s v k t r /\ o "beta" = Some (VR b) /\ 0 < b.
Proof. exact hestoncev_object_valid. Qed.
Print Assumptions C15_hestoncev_object_valid.
Example C15_hestoncev_ex : exists o, construct HestonCev (heston_kw (/ 25) (/ 2) (- / 2) 1 None ++ [("beta", Some (VR (/ 2)))]) = Some o.
Proof.
  unfold construct, heston_kw; cbn -[heston_valid]. unfold hestoncev_post, heston_post, sv_post; cbn -[heston_valid].
  rewrite (proj2 (heston_valid_spec _)).
  - cbn. destruct (Rlt_dec 0 (/ 2)); [eauto|lra].
  - exists (/ 25), (/ 2), 1, (/ 25), (- / 2). split; [repeat split; reflexivity|]. unfold heston_constraints. lra.
Qed.
Theorem C15_cev_accepts_iff : forall b, cev_accepts b = true <-> 0 < b /\ b <> 1.
Proof. exact cev_accepts_iff. Qed.
Print Assumptions C15_cev_accepts_iff.
Theorem C15_vg_accepts_iff : forall s n t, (exists c, vg_post s n t = Some c) <-> 0 < 1 - t * n - / 2 * s ^ 2 * n.
Proof. exact vg_accepts_iff. Qed.
Print Assumptions C15_vg_accepts_iff.
Theorem C15_nig_accepts_iff : forall s n t, (exists c, nig_post s n t = Some c) <-> 0 < 1 - 2 * t * n - s ^ 2 * n.
Proof. exact nig_accepts_iff. Qed.
Print Assumptions C15_nig_accepts_iff.
Theorem C15_cgmy_accepts_iff : forall C G M Y, cgmy_accepts C G M Y = true <-> 0 < C /\ 0 < G /\ 1 < M /\ Y < 2.
Proof. exact cgmy_accepts_iff. Qed.
Print Assumptions C15_cgmy_accepts_iff.
Theorem C15_spread_accepts_iff : forall l, spread_accepts l = true <-> List.length l = 2%nat.
Proof. exact spread_accepts_iff. Qed.
Print Assumptions C15_spread_accepts_iff.
(** the documented nu > 0 is not enforced *)
Theorem C15_vg_nu_positive_refuted : exists s n t, n < 0 /\ exists c, vg_post s n t = Some c.
Proof. exact vg_nu_refuted. Qed.
Print Assumptions C15_vg_nu_positive_refuted.
Theorem C15_nig_nu_positive_refuted : exists s n t, n < 0 /\ exists c, nig_post s n t = Some c.
Proof. exact nig_nu_refuted. Qed.
Print Assumptions C15_nig_nu_positive_refuted.
(** the two parametrisations of VG / NIG are inverse to each other *)
Theorem C15_sv_orig_roundtrip : forall sigma theta nu, 0 < sigma -> 0 < nu -> nu * (2 * theta + sigma ^ 2) <= 1 ->
  let '(sb, rho, vov) := to_sv_param sigma theta nu in
  to_orig_param sb rho vov = (sigma, theta, nu) /\ -1 < rho < 1 /\ 0 < sb /\ 0 < vov.
Proof. exact sv_orig_roundtrip. Qed.
Print Assumptions C15_sv_orig_roundtrip.
Theorem C15_orig_sv_roundtrip : forall sb rho vov, 0 < sb -> 0 < vov -> -1 < rho < 1 -> rho * sb * vov <= 1 ->
  let '(sigma, theta, nu) := to_orig_param sb rho vov in to_sv_param sigma theta nu = (sb, rho, vov).
Proof. exact orig_sv_roundtrip. Qed.
Print Assumptions C15_orig_sv_roundtrip.
(** every NIG object with sigma, nu > 0 is convertible (its constraint is strict) *)
Theorem C15_nig_always_convertible : forall s n t c, nig_post s n t = Some c -> n * (2 * t + s ^ 2) < 1.
Proof. intros s n t c H. assert (A : exists c, nig_post s n t = Some c) by eauto. apply nig_accepts_iff in A. lra. Qed.
Print Assumptions C15_nig_always_convertible.
Example C15_sv_ex : to_orig_param (/ 5) (- / 2) 1 = (sqrt (1 - (- / 2) ^ 2) * (/ 5), - / 2 * / 5 / 1 - / 2 * (/ 5) ^ 2, 1 ^ 2)
  /\ exists c, nig_post (/ 5) (/ 2) (- / 10) = Some c.
Proof. split; [reflexivity|]. apply nig_accepts_iff. lra. Qed.

(** *** C16 *)
(** Whatever the history of constructions, attribute writes, copies and price calls: if two
    pricing calls with different parameters never share a hash, no price uses a stale interpolator. *)
Theorem C16_cache_coherent : forall H compute h,
  (forall e1 e2, In e1 (run H compute empty h) -> In e2 (run H compute empty h) ->
     params_hash H (e_params e1) = params_hash H (e_params e2) -> e_params e1 = e_params e2) ->
  forall e, In e (run H compute empty h) -> e_interp e = compute (e_params e) (e_texp e) (e_nx e) (e_xlim e).
Proof. exact cache_coherent. Qed.
Print Assumptions C16_cache_coherent.
Example C16_ex : forall H compute, exists e1 e2,
  run H compute empty [New [("sigma", 1)]; Price 0 1; Copy 0; Price 1 2] = [e1; e2] /\ e_params e1 = e_params e2.
Proof.
  intros H compute. simpl. unfold fft_interp; simpl.
  destruct (Req_EM_T 1 2); [lra|]. simpl. eexists. eexists. split; reflexivity.
Qed.
(** For any hash of frozensets, permuting the parameter values makes the next price stale. *)
Theorem C16_permuted_parameters_stale : forall H compute m1 m2 T, set_hash H ->
  same_set (map snd (bsm_params m1)) (map snd (bsm_params m2)) ->
  let h := [New (bsm_params m1); Price 0 T; SetParam 0 "sigma" (sigma m2); SetParam 0 "intr" (intr m2);
            SetParam 0 "divr" (divr m2); SetParam 0 "is_fwd" (if is_fwd m2 then 1 else 0); Price 0 T] in
  exists e1 e2, run H compute empty h = [e1; e2] /\ e_params e2 = bsm_params m2 /\ e_texp e2 = T /\
    e_interp e2 = compute (bsm_params m1) T 4096%Z 200.
Proof. exact cache_stale. Qed.
Print Assumptions C16_permuted_parameters_stale.
Theorem C16_shallow_copy_stale : forall H compute m1 m2 T, set_hash H ->
  same_set (map snd (bsm_params m1)) (map snd (bsm_params m2)) ->
  let h := [New (bsm_params m1); Price 0 T; Copy 0; SetParam 1 "sigma" (sigma m2); SetParam 1 "intr" (intr m2);
            SetParam 1 "divr" (divr m2); SetParam 1 "is_fwd" (if is_fwd m2 then 1 else 0); Price 1 T] in
  exists e1 e2, run H compute empty h = [e1; e2] /\ e_params e2 = bsm_params m2 /\ e_texp e2 = T /\
    e_interp e2 = compute (bsm_params m1) T 4096%Z 200.
Proof. exact cache_stale_copy. Qed.
Print Assumptions C16_shallow_copy_stale.
(** Hence a wrong price, even with an exact Fourier inversion. *)
Theorem C16_stale_price_refuted : forall H compute, set_hash H -> bsm_exact compute ->
  exists m1 m2 h e1 e2, 0 < sigma m1 /\ 0 < sigma m2 /\ run H compute empty h = [e1; e2] /\ e_params e2 = bsm_params m2 /\
    e_texp e2 = 1 /\ fft_price m2 (e_interp e2) 100 100 1 1 <> bsm_price m2 100 100 1 1.
Proof. exact fft_stale_price. Qed.
Print Assumptions C16_stale_price_refuted.
Example C16_hyp_met : bsm_exact exact_interp /\ set_hash (fun _ _ => 0%Z).
Proof. split; [exact exact_interp_ok|]. intros k1 k2 v1 v2 _ _. reflexivity. Qed.

(** *** C17 *)
Theorem C17_exclusive : forall sg (rho : option R) (cor cov : option shaped),
  (1 < n_given rho cor cov)%nat -> ma_post sg rho cor cov = None.
Proof. exact ma_post_exclusive. Qed.
Print Assumptions C17_exclusive.
Theorem C17_rho : forall sg n rho,
  exists m, ma_post (Some (sg, n)) rho None None = Some m /\ ma_n m = n /\ ma_sigma m = sg /\ canonical m /\
    idx n (fun i j => i <> j -> ma_cor m i j = match rho with Some r => r | None => 0 end).
Proof. exact ma_rho_canonical. Qed.
Print Assumptions C17_rho.
Theorem C17_cor : forall sg n c,
  (forall i, (i < n)%nat -> c i i = 1) -> idx n (fun i j => c i j = c j i) ->
  exists m, ma_post (Some (sg, n)) None (Some (c, (n, n))) None = Some m /\ ma_n m = n /\ ma_sigma m = sg /\
    ma_cor m = c /\ canonical m.
Proof. exact ma_cor_canonical. Qed.
Print Assumptions C17_cor.
Theorem C17_cov : forall (sg : option (vec * nat)) n c,
  (forall i, (i < n)%nat -> 0 < c i i) -> idx n (fun i j => c i j = c j i) ->
  (forall s k, sg = Some (s, k) -> k = n) ->
  exists m, ma_post sg None None (Some (c, (n, n))) = Some m /\ ma_n m = n /\ ma_cov m = c /\ canonical m /\
    (forall i, (i < n)%nat -> ma_sigma m i = sqrt (c i i)).
Proof. exact ma_cov_canonical. Qed.
Print Assumptions C17_cov.
Theorem C17_wrong_shape_raises : forall sg n rho c sh, sh <> (n, n) ->
  ma_post (Some (sg, n)) rho (Some (c, sh)) None = None /\ ma_post (Some (sg, n)) rho None (Some (c, sh)) = None.
Proof. exact ma_shape_reject. Qed.
Print Assumptions C17_wrong_shape_raises.
Theorem C17_roundtrip : forall m, (forall i, (i < ma_n m)%nat -> 0 < ma_sigma m i) -> canonical m ->
  exists m', ma_roundtrip m = Some m' /\ ma_n m' = ma_n m /\ ma_cov m' = ma_cov m /\
    (forall i, (i < ma_n m)%nat -> ma_sigma m' i = ma_sigma m i) /\
    idx (ma_n m) (fun i j => ma_cor m' i j = ma_cor m i j) /\
    (ma_n m = 2%nat -> ma_rho m' = Some (ma_cor m 0 1))%nat.
Proof. exact ma_roundtrip_ok. Qed.
Print Assumptions C17_roundtrip.
Example C17_ex : exists m m', ma_post (Some (fun _ => / 5, 3%nat)) (Some (/ 2)) None None = Some m /\
  ma_roundtrip m = Some m' /\ idx 3 (fun i j => ma_cor m' i j = ma_cor m i j).
Proof.
  destruct (C17_rho (fun _ => / 5) 3 (Some (/ 2))) as (m & E & En & Es & Hc & _).
  destruct (C17_roundtrip m) as (m' & E' & _ & _ & _ & Hi & _); [intros; rewrite Es; lra|exact Hc|].
  exists m, m'. split; [exact E|]. split; [exact E'|]. rewrite En in Hi. exact Hi.
Qed.
(** Documented: omitting all three specifications raises ValueError for n_asset > 1; it does not. *)
Theorem C17_omitted_correlation_refuted : exists sg n m, (1 < n)%nat /\ ma_post (Some (sg, n)) None None None = Some m /\
  ma_cor m 0%nat 1%nat = 0.
Proof. exact ma_omit_refuted. Qed.
Print Assumptions C17_omitted_correlation_refuted.
(** and the scalar rho attribute does not survive the round trip unless n_asset = 2 *)
Theorem C17_rho_attribute_refuted : forall sg n r, n <> 2%nat -> exists m m', ma_post (Some (sg, n)) (Some r) None None = Some m /\
  ma_rho m = Some r /\ ma_roundtrip m = Some m' /\ ma_rho m' = None.
Proof. exact ma_rho_forgotten. Qed.
Print Assumptions C17_rho_attribute_refuted.

(** *** C55 *)
(** FftABC.price and price_simpson: parity for any interpolator / quadrature, any parameters *)
Theorem C55_fft_parity : forall m sp K S T, 0 < S ->
  fft_price m sp K S T 1 - fft_price m sp K S T (-1) = DF (intr m) T * (FWD (intr m) (divr m) (is_fwd m) S T - K).
Proof. exact fft_parity. Qed.
Print Assumptions C55_fft_parity.
Theorem C55_simpson_parity : forall m sp K S T, 0 < S ->
  simpson_price m sp K S T 1 - simpson_price m sp K S T (-1) = DF (intr m) T * (FWD (intr m) (divr m) (is_fwd m) S T - K).
Proof. exact simpson_parity. Qed.
Print Assumptions C55_simpson_parity.
Example C55_ex : fft_price (mkOpt (/ 5) (/ 20) 0 false) exp 120 100 1 1 - fft_price (mkOpt (/ 5) (/ 20) 0 false) exp 120 100 1 (-1)
  = exp (- (/ 20 * 1)) * (100 * exp ((/ 20 - 0) * 1) - 120).
Proof. exact (C55_fft_parity (mkOpt (/ 5) (/ 20) 0 false) exp 120 100 1 ltac:(lra)). Qed.
