From Coq Require Import Reals Lra Lia List Psatz.
From Coquelicot Require Import Coquelicot.
From Verif Require Import Base Gauss M_Opt M_Mgf M_Heston M_Ou M_Garch Spec_Opt P_Bsm P_Cir P_Cev P_Ou P_Garch.
Open Scope R_scope.

(** price as a function of the average variance *)
Lemma uncorr_d2 r q M K S T cp : call_or_put cp -> 0 < K -> 0 < S -> 0 < M -> eps < sqrt M * sqrt T ->
  is_derive_n (fun v => bsm_price (mkOpt (sqrt v) r q false) K S T cp) 2 M
    (FWD r q false S T / S * bsm_d2_var (mkOpt (sqrt M) r q false) K S T cp).
Proof.
  intros Hcp HK HS HM He. pose proof (bsm_d2_var_derive (mkOpt (sqrt M) r q false) K S T cp Hcp HK HS (sqrt_lt_R0 M HM) He) as H.
  cbn [sigma] in H. rewrite pow2_sqrt in H by lra. exact H.
Qed.
Lemma uncorr_d3 r q M K S T cp : call_or_put cp -> 0 < K -> 0 < S -> 0 < M -> eps < sqrt M * sqrt T ->
  is_derive_n (fun v => bsm_price (mkOpt (sqrt v) r q false) K S T cp) 3 M
    (FWD r q false S T / S * bsm_d3_var (mkOpt (sqrt M) r q false) K S T cp).
Proof.
  intros Hcp HK HS HM He. pose proof (bsm_d3_var_derive (mkOpt (sqrt M) r q false) K S T cp Hcp HK HS (sqrt_lt_R0 M HM) He) as H.
  cbn [sigma] in H. rewrite pow2_sqrt in H by lra. exact H.
Qed.
Lemma F_pos r q S T : 0 < S -> 0 < FWD r q false S T.
Proof. intros HS. exact (mF_pos (mkOpt 0 r q false) S T HS). Qed.

Definition bsv (m : opt) (K S T cp v : R) : R := bsm_price (mkOpt (sqrt v) (intr m) (divr m) false) K S T cp.

Lemma garch_taylor m p K S T cp : call_or_put cp -> 0 < K -> 0 < S ->
  let M := fst (garch_avgvar_mv p T (v_sigma p)) in let V := snd (garch_avgvar_mv p T (v_sigma p)) in
  0 < M -> eps < sqrt M * sqrt T ->
  (forall n, (n < 2)%nat -> garch_uncorr_price m p n K S T cp = Some (bsv m K S T cp M)) /\
  (exists D, is_derive_n (bsv m K S T cp) 2 M D /\
    garch_uncorr_price m p 2 K S T cp = Some (bsv m K S T cp M + / 2 * V * (S / FWD (intr m) (divr m) false S T * D))) /\
  (forall n, (2 < n)%nat -> garch_uncorr_price m p n K S T cp = None).
Proof.
  intros Hcp HK HS M V HM He. unfold garch_uncorr_price. rewrite (surjective_pairing (garch_avgvar_mv p T (v_sigma p))). fold M V.
  split; [|split].
  - intros n Hn. replace (Nat.eqb n 2) with false by (symmetry; apply Nat.eqb_neq; lia). replace (Nat.ltb 2 n) with false by (symmetry; apply Nat.ltb_ge; lia). reflexivity.
  - eexists. split; [apply (uncorr_d2 (intr m) (divr m) M K S T cp); assumption|]. cbn [Nat.eqb]. f_equal. unfold bsv.
    pose proof (F_pos (intr m) (divr m) S T HS). field. lra.
  - intros n Hn. replace (Nat.eqb n 2) with false by (symmetry; apply Nat.eqb_neq; lia). replace (Nat.ltb 2 n) with true by (symmetry; apply Nat.ltb_lt; lia). reflexivity.
Qed.
Lemma heston_taylor m p K S T cp : call_or_put cp -> 0 < K -> 0 < S ->
  let c := heston_cir p in let M := cir_avg_mean c T (v_sigma p) in
  0 < M -> eps < sqrt M * sqrt T -> exists D2 D3,
  is_derive_n (bsv m K S T cp) 2 M D2 /\ is_derive_n (bsv m K S T cp) 3 M D3 /\ let g := S / FWD (intr m) (divr m) false S T in
  (forall n, (n < 2)%nat -> heston_uncorr_price m p n K S T cp = bsv m K S T cp M) /\
  heston_uncorr_price m p 2 K S T cp = bsv m K S T cp M + / 2 * cir_avg_var c T (v_sigma p) * (g * D2) /\
  (forall n, (2 < n)%nat -> heston_uncorr_price m p n K S T cp =
     bsv m K S T cp M + / 2 * cir_avg_var c T (v_sigma p) * (g * D2) + / 6 * cir_avg_c3 c T (v_sigma p) * (g * D3)).
Proof.
  intros Hcp HK HS c M HM He. eexists; eexists. split; [apply (uncorr_d2 (intr m) (divr m) M K S T cp); assumption|].
  split; [apply (uncorr_d3 (intr m) (divr m) M K S T cp); assumption|]. cbv zeta. pose proof (F_pos (intr m) (divr m) S T HS). unfold heston_uncorr_price. fold c M.
  split; [|split].
  - intros n Hn. replace (Nat.leb 2 n) with false by (symmetry; apply Nat.leb_gt; lia). replace (Nat.leb 3 n) with false by (symmetry; apply Nat.leb_gt; lia). reflexivity.
  - cbn [Nat.leb]. unfold bsv. cbv zeta. field. lra.
  - intros n Hn. replace (Nat.leb 2 n) with true by (symmetry; apply Nat.leb_le; lia). replace (Nat.leb 3 n) with true by (symmetry; apply Nat.leb_le; lia).
    unfold bsv. cbv zeta. field. lra.
Qed.
Lemma ousv_taylor m p K S T cp :
  ousv_uncorr_price m p 0 K S T cp = Some (bsv m K S T cp (ou_avgvar p true T (v_sigma p))) /\
  (forall n, (0 < n)%nat -> ousv_uncorr_price m p n K S T cp = None).
Proof.
  split; [reflexivity|]. intros n Hn. unfold ousv_uncorr_price. apply Nat.ltb_lt in Hn. rewrite Hn. reflexivity.
Qed.
(** deterministic variance: the corrections vanish *)
Lemma garch_det s0 rho k th t v : k <> 0 -> 0 < t -> snd (garch_avgvar_mv (mkSv s0 0 rho k th) t v) = 0.
Proof.
  intros Hk Ht. rewrite (gW_eq k th 0 Hk ltac:(lra) ltac:(intros E; apply Hk; lra)) by lra. unfold gW.
  replace ((0 * 0 - 2 * k) * t) with (- (k * t) + - (k * t)) by ring. rewrite exp_plus. field. repeat split; auto; lra.
Qed.
Lemma cir_det c t v : c_xi c = 0 -> c_mr c <> 0 -> 0 < t -> cir_avg_var c t v = 0.
Proof. intros H Hm Ht. destruct c as [xi k th]. cbn [c_xi c_mr] in *. subst xi. apply (Rmult_eq_reg_l (t ^ 2)); [|apply pow_nonzero; lra].
  rewrite (cir_avg_var_eq k th 0 Hm) by lra. unfold wJ. cbv zeta. unfold Rdiv. ring. Qed.
(** parity: against the forward computed from a spot, whatever is_fwd says *)
Lemma uncorr_parity_aux m s K S T : bsm_price (mkOpt s (intr m) (divr m) false) K S T 1 - bsm_price (mkOpt s (intr m) (divr m) false) K S T (-1)
  = DF (intr m) T * (FWD (intr m) (divr m) false S T - K).
Proof. exact (bsm_parity (mkOpt s (intr m) (divr m) false) K S T). Qed.
Lemma heston_uncorr_parity m p n K S T :
  heston_uncorr_price m p n K S T 1 - heston_uncorr_price m p n K S T (-1) = DF (intr m) T * (FWD (intr m) (divr m) false S T - K).
Proof.
  unfold heston_uncorr_price. cbv zeta.
  set (M := sqrt _). rewrite <- (uncorr_parity_aux m M K S T).
  change (bsm_d2_var (mkOpt M (intr m) (divr m) false) K S T 1) with (bsm_d2_var (mkOpt M (intr m) (divr m) false) K S T (-1)).
  change (bsm_d3_var (mkOpt M (intr m) (divr m) false) K S T 1) with (bsm_d3_var (mkOpt M (intr m) (divr m) false) K S T (-1)).
  destruct (Nat.leb 2 n), (Nat.leb 3 n); ring.
Qed.
Lemma garch_uncorr_parity m p n K S T c d :
  garch_uncorr_price m p n K S T 1 = Some c -> garch_uncorr_price m p n K S T (-1) = Some d ->
  c - d = DF (intr m) T * (FWD (intr m) (divr m) false S T - K).
Proof.
  unfold garch_uncorr_price. destruct (garch_avgvar_mv p T (v_sigma p)) as [M V]. rewrite <- (uncorr_parity_aux m (sqrt M) K S T).
  change (bsm_d2_var (mkOpt (sqrt M) (intr m) (divr m) false) K S T 1) with (bsm_d2_var (mkOpt (sqrt M) (intr m) (divr m) false) K S T (-1)).
  destruct (Nat.eqb n 2); [|destruct (Nat.ltb 2 n)]; intros A B; try discriminate; injection A as <-; injection B as <-; ring.
Qed.
Lemma ousv_uncorr_parity m p n K S T c d :
  ousv_uncorr_price m p n K S T 1 = Some c -> ousv_uncorr_price m p n K S T (-1) = Some d ->
  c - d = DF (intr m) T * (FWD (intr m) (divr m) false S T - K).
Proof.
  unfold ousv_uncorr_price. destruct (Nat.ltb 0 n); intros A B; try discriminate. injection A as <-. injection B as <-. apply uncorr_parity_aux.
Qed.
(** the average variance is positive, between its start and its long-run level *)
Lemma exprel_unit x : 0 < x -> 0 < exprel (- x) < 1.
Proof.
  intros Hx. unfold exprel. destruct (Req_EM_T (- x) 0) as [E|E]; [lra|].
  assert (A : exp (- x) < 1) by (rewrite <- exp_0; apply exp_increasing; lra).
  assert (B : 1 + - x < exp (- x)) by (apply exp_ineq1; lra).
  replace ((exp (- x) - 1) / - x) with ((1 - exp (- x)) / x) by (field; lra). split.
  - apply Rdiv_lt_0_compat; lra.
  - apply (Rmult_lt_reg_r x); [exact Hx|]. unfold Rdiv. rewrite Rmult_assoc, Rinv_l by lra. lra.
Qed.
Lemma garch_avg_pos s0 xi rho k th t v : 0 < k -> 0 < t -> 0 < v -> 0 < th ->
  Rmin v th <= fst (garch_avgvar_mv (mkSv s0 xi rho k th) t v) <= Rmax v th.
Proof.
  intros Hk Ht Hv Hth. unfold garch_avgvar_mv; cbn [v_vov v_mr v_theta fst].
  destruct (exprel_unit (k * t) ltac:(apply Rmult_lt_0_compat; assumption)) as [A B]. set (e := exprel _) in *. clearbody e.
  unfold Rmin, Rmax. destruct (Rle_dec v th); nra.
Qed.
