(** Proofs about M_Params.v. *)
From Coq Require Import Reals List String Bool ZArith Lia Lra.
From Verif Require Import M_Params Spec_Params.
Import ListNotations.
Open Scope R_scope.
Open Scope string_scope.

(** ** params_kw *)
Lemma params_kw_spec c o n v :
  In (n, v) (params_kw c o) <->
  exists f, In f (c_fields c) /\ f_name f = n /\ f_init f = true /\ f_num f = false /\ v = o n.
Proof.
  unfold params_kw, is_model. rewrite in_app_iff, !in_map_iff. split.
  - intros [[f [E Hf]]|[f [E Hf]]]; apply filter_In in Hf; destruct Hf as [Hf Hb];
      injection E as <- <-; exists f; destruct (f_init f), (f_num f), (f_kw f); simpl in *; try discriminate; auto.
  - intros (f & Hf & <- & Hi & Hn & ->). destruct (f_kw f) eqn:Ek; [right|left]; exists f; (split; [reflexivity|]);
      apply filter_In; rewrite Hi, Hn, Ek; auto.
Qed.

Lemma lookup_In {A} (l : list (string * A)) n v : lookup l n = Some v -> In (n, v) l.
Proof.
  induction l as [|[m w] t IH]; simpl; [discriminate|].
  destruct (String.eqb m n) eqn:E; [|auto]. intros [= ->]. apply String.eqb_eq in E. subst. auto.
Qed.
Lemma lookup_None {A} (l : list (string * A)) n : lookup l n = None <-> forall v, ~ In (n, v) l.
Proof.
  induction l as [|[m w] t IH]; simpl; [split; auto|].
  destruct (String.eqb m n) eqn:E.
  - apply String.eqb_eq in E. subst. split; [discriminate|]. intros H. exfalso. apply (H w). now left.
  - apply String.eqb_neq in E. rewrite IH. split.
    + intros H v [F|F]; [congruence|]. apply (H v F).
    + intros H v F. apply (H v). now right.
Qed.
Lemma lookup_params_kw c o n :
  lookup (params_kw c o) n =
  if existsb (fun f => String.eqb (f_name f) n && is_model f) (c_fields c) then Some (o n) else None.
Proof.
  destruct (lookup (params_kw c o) n) as [v|] eqn:E.
  - apply lookup_In, params_kw_spec in E. destruct E as (f & Hf & Hn & Hi & Hm & ->).
    replace (existsb _ _) with true; [reflexivity|]. symmetry. apply existsb_exists. exists f. split; [exact Hf|].
    unfold is_model. rewrite Hn, Hi, Hm, String.eqb_refl. reflexivity.
  - destruct (existsb _ _) eqn:Ex; [|reflexivity]. apply existsb_exists in Ex. destruct Ex as (f & Hf & Hb).
    apply andb_true_iff in Hb. destruct Hb as [Hn Hm]. apply String.eqb_eq in Hn. unfold is_model in Hm.
    apply andb_true_iff in Hm. destruct Hm as [Hi Hm].
    exfalso. eapply (proj1 (lookup_None _ _) E). apply params_kw_spec. exists f. repeat split; auto.
    destruct (f_num f); [discriminate|reflexivity].
Qed.

Lemma find_field_In fs f : NoDup (map f_name fs) -> In f fs -> find_field fs (f_name f) = Some f.
Proof.
  unfold find_field. induction fs as [|g t IH]; simpl; [easy|]. intros ND [->|Hf].
  - now rewrite String.eqb_refl.
  - inversion ND; subst. destruct (String.eqb (f_name g) (f_name f)) eqn:E; [|auto].
    apply String.eqb_eq in E. exfalso. apply H1. rewrite E. now apply in_map.
Qed.
Lemma nodup_name (c : cls) f g : NoDup (map f_name (c_fields c)) -> In f (c_fields c) -> In g (c_fields c) ->
  f_name f = f_name g -> f = g.
Proof.
  intros ND Hf Hg E. pose proof (find_field_In _ _ ND Hf) as A. pose proof (find_field_In _ _ ND Hg) as B.
  rewrite E in A. rewrite A in B. now injection B.
Qed.

Lemma from_model_copies c c' inst o : compatible c c' -> admissible c o ->
  exists o', from_model c inst c' o = Some o' /\
    (forall n, model_name c n -> o' n = o n) /\
    (forall f, numerical_field c f -> o' (f_name f) = f_default f) /\
    (forall n v, In (n, v) (params_kw c o') <-> In (n, v) (params_kw c' o)).
Proof.
  intros ([t [Et Et']] & ND & Hm & Hd) Ha.
  assert (Hex : forall n, existsb (fun f => String.eqb (f_name f) n && is_model f) (c_fields c') = true <-> model_name c' n).
  { intro n. rewrite existsb_exists. unfold model_name, is_model. split.
    - intros (f & Hf & Hb). exists f. apply andb_true_iff in Hb. destruct Hb as [E Hb]. apply String.eqb_eq in E.
      apply andb_true_iff in Hb. destruct Hb as [Hi Hn]. repeat split; auto. now destruct (f_num f).
    - intros (f & Hf & E & Hi & Hn). exists f. split; auto. now rewrite E, Hi, Hn, String.eqb_refl. }
  assert (Hkw : kw_ok (c_fields c) (params_kw c' o) = true).
  { unfold kw_ok. apply andb_true_iff. split; apply forallb_forall.
    - intros [n v] Hin. apply params_kw_spec in Hin. destruct Hin as (f & Hf & En & Hi & Hn & Ev).
      assert (Mn : model_name c n) by (apply Hm; exists f; auto).
      destruct Mn as (g & Hg & Eg & Hgi & _). apply existsb_exists. exists g. split; auto.
      now rewrite Eg, Hgi, String.eqb_refl.
    - intros g Hg. destruct (f_init g) eqn:Hgi; [|reflexivity]. rewrite lookup_params_kw.
      destruct (existsb _ _) eqn:Ex; [reflexivity|]. destruct (f_default g) eqn:Ed; [reflexivity|].
      exfalso. destruct (f_num g) eqn:Hgn.
      + apply (Hd g); [split; auto|exact Ed].
      + assert (model_name c' (f_name g)) by (apply Hm; exists g; auto). apply Hex in H. congruence. }
  set (s := init_store (c_fields c) (params_kw c' o)).
  assert (Hs : forall n, model_name c n -> s n = o n).
  { intros n (g & Hg & <- & Hgi & Hgn). unfold s, init_store. rewrite (find_field_In _ _ ND Hg), Hgi, lookup_params_kw.
    replace (existsb _ _) with true; [reflexivity|]. symmetry. apply Hex, Hm. exists g; auto. }
  assert (Hsn : forall f, numerical_field c f -> s (f_name f) = f_default f).
  { intros f [Hf Hfn]. unfold s, init_store. rewrite (find_field_In _ _ ND Hf), lookup_params_kw.
    destruct (existsb _ _) eqn:Ex; [|now destruct (f_init f)].
    apply Hex, Hm in Ex. destruct Ex as (g & Hg & Eg & _ & Hgn).
    rewrite (nodup_name c g f ND Hg Hf Eg) in Hgn. congruence. }
  destruct (Ha s Hs) as (s' & Ep & H1 & H2). exists s'. unfold from_model. rewrite Et, Et', String.eqb_refl.
  unfold construct. rewrite Hkw. fold s. split; [exact Ep|]. split; [exact H1|]. split.
  { intros f Hf. rewrite H2 by exact Hf. now apply Hsn. }
  intros n v. rewrite !params_kw_spec. split.
  - intros (f & Hf & En & Hi & Hn & ->). assert (M : model_name c n) by (exists f; auto).
    rewrite (H1 n M). apply Hm in M. destruct M as (g & ? & ? & ? & ?). exists g. auto.
  - intros (f & Hf & En & Hi & Hn & ->). assert (M : model_name c' n) by (exists f; auto).
    apply Hm in M. rewrite <- (H1 n M). destruct M as (g & ? & ? & ? & ?). exists g. auto.
Qed.

Lemma from_model_mismatch c c' inst o t t' : c_type c = Some t -> c_type c' = Some t' -> t <> t' ->
  from_model c inst c' o = None.
Proof. intros E E' H. unfold from_model. rewrite E, E'. apply String.eqb_neq in H. now rewrite H. Qed.
Lemma from_model_untyped c c' o : c_type c = None \/ c_type c' = None -> from_model c false c' o = None.
Proof. unfold from_model. intros [->| ->]; [reflexivity|destruct (c_type c); reflexivity]. Qed.

(** ** Heston classes *)
Lemma nodup_sv_mc : NoDup (map f_name (sv_fields ++ mc_num)).
Proof. simpl. repeat constructor; simpl; intuition discriminate. Qed.
Lemma nodup_sv : NoDup (map f_name sv_fields).
Proof. simpl. repeat constructor; simpl; intuition discriminate. Qed.

Definition sv_names : list string := ["sigma"; "intr"; "divr"; "is_fwd"; "vov"; "rho"; "mr"; "theta"].
Lemma model_name_find c n f : find_field (c_fields c) n = Some f -> f_init f = true -> f_num f = false -> model_name c n.
Proof.
  intros E Hi Hn. apply find_some in E. destruct E as [Hin E]. apply String.eqb_eq in E. exists f. auto.
Qed.
Lemma heston_names n : model_name Heston n <-> In n sv_names.
Proof.
  split.
  - intros (f & Hf & <- & _). simpl in Hf. intuition (subst; simpl; auto 20).
  - intros H. simpl in H. decompose [or] H; clear H; subst; try contradiction; (eapply model_name_find; reflexivity).
Qed.
Lemma hestonmc_names n : model_name HestonMc n <-> In n sv_names.
Proof.
  split.
  - intros (f & Hf & <- & _ & Hn). simpl in Hf. intuition (subst; simpl in *; auto 20; discriminate).
  - intros H. simpl in H. decompose [or] H; clear H; subst; try contradiction; (eapply model_name_find; reflexivity).
Qed.
Lemma heston_compat1 : compatible Heston HestonMc.
Proof.
  split; [exists "Heston"; auto|]. split; [exact nodup_sv|].
  split; [intro n; now rewrite heston_names, hestonmc_names|].
  intros f [Hf Hn]. simpl in Hf. intuition (subst; simpl in *; discriminate).
Qed.
Lemma heston_compat2 : compatible HestonMc Heston.
Proof.
  split; [exists "Heston"; auto|]. split; [exact nodup_sv_mc|].
  split; [intro n; now rewrite heston_names, hestonmc_names|].
  intros f [Hf Hn]. simpl in Hf. intuition (subst; simpl in *; discriminate).
Qed.
Lemma heston_compat3 : compatible Heston Heston.
Proof.
  split; [exists "Heston"; auto|]. split; [exact nodup_sv|]. split; [tauto|].
  intros f [Hf Hn]. simpl in Hf. intuition (subst; simpl in *; discriminate).
Qed.
Lemma heston_compat4 : compatible HestonMc HestonMc.
Proof.
  split; [exists "Heston"; auto|]. split; [exact nodup_sv_mc|]. split; [tauto|].
  intros f [Hf Hn]. simpl in Hf. intuition (subst; simpl in *; discriminate).
Qed.

Lemma heston_valid_spec o : heston_valid o = true <->
  exists s v k t r, heston_attrs o s v k t r /\ heston_constraints s v k t r.
Proof.
  unfold heston_valid, getR, heston_attrs, heston_constraints. split.
  - destruct (o "sigma") as [[s| |]|]; try discriminate. destruct (o "vov") as [[v| |]|]; try discriminate.
    destruct (o "mr") as [[k| |]|]; try discriminate. destruct (o "theta") as [[t| |]|]; try discriminate.
    destruct (o "rho") as [[r| |]|]; try discriminate.
    destruct (Rle_dec s 0), (Rle_dec v 0), (Rle_dec k 0), (Rle_dec t 0), (Rlt_dec (-1) r), (Rlt_dec r 1); try discriminate.
    intros _. exists s, v, k, t, r. repeat split; auto; lra.
  - intros (s & v & k & t & r & (-> & -> & -> & -> & ->) & Hc).
    destruct (Rle_dec s 0), (Rle_dec v 0), (Rle_dec k 0), (Rle_dec t 0), (Rlt_dec (-1) r), (Rlt_dec r 1); auto; lra.
Qed.

Lemma sv_post_theta o t : o "theta" = Some (VR t) -> sv_post o = Some o.
Proof. intros E. unfold sv_post. now rewrite E. Qed.

Lemma heston_post_valid o o' : heston_post o = Some o' -> heston_valid o' = true.
Proof.
  unfold heston_post. destruct (sv_post o); [|discriminate]. destruct (heston_valid s) eqn:E; [|discriminate].
  intros [= <-]. exact E.
Qed.
Lemma heston_admissible c o : c_post c = heston_post -> (forall n, model_name c n <-> In n sv_names) ->
  heston_valid o = true -> admissible c o.
Proof.
  intros Ec Hn Hv s Hs. apply heston_valid_spec in Hv. destruct Hv as (a & v & k & t & r & Ha & Hc).
  assert (Hin : forall n, In n sv_names -> s n = o n) by (intros; apply Hs, Hn; auto).
  assert (Hs' : heston_valid s = true).
  { apply heston_valid_spec. exists a, v, k, t, r. split; [|exact Hc]. unfold heston_attrs in *.
    rewrite !Hin by (simpl; auto 20). exact Ha. }
  exists s. split; [|split; auto]. rewrite Ec. unfold heston_post.
  rewrite (sv_post_theta s t) by (rewrite Hin by (simpl; auto 20); apply Ha). now rewrite Hs'.
Qed.
Lemma heston_roundtrip c c' kw o : is_heston c -> is_heston c' -> construct c kw = Some o ->
  exists o', from_model c' false c o = Some o' /\
    (forall n v, In (n, v) (params_kw c' o') <-> In (n, v) (params_kw c o)) /\
    (forall f, numerical_field c' f -> o' (f_name f) = f_default f).
Proof.
  intros Hc Hc' E.
  assert (Hv : heston_valid o = true).
  { unfold construct in E. destruct (kw_ok _ _); [|discriminate]. apply (heston_post_valid (init_store (c_fields c) kw)).
    destruct Hc as [-> | ->]; exact E. }
  assert (Ha : admissible c' o).
  { destruct Hc' as [-> | ->]; apply heston_admissible; auto using heston_names, hestonmc_names. }
  assert (Hcm : compatible c' c).
  { destruct Hc as [-> | ->], Hc' as [-> | ->]; auto using heston_compat1, heston_compat2, heston_compat3, heston_compat4. }
  destruct (from_model_copies c' c false o Hcm Ha) as (o' & E1 & _ & E2 & E3). exists o'. auto.
Qed.

Lemma heston_construct s v r k t :
  (exists o, construct Heston (heston_kw s v r k t) = Some o) <->
  heston_constraints s v k (match t with Some x => x | None => s end) r.
Proof.
  unfold construct, heston_kw. destruct t as [t|]; cbn -[heston_valid].
  - unfold heston_post, sv_post; cbn -[heston_valid]. split.
    + intros [o E]. destruct (heston_valid _) eqn:Hv in E; [|discriminate]. apply heston_valid_spec in Hv.
      destruct Hv as (s' & v' & k' & t' & r' & (E1 & E2 & E3 & E4 & E5) & Hc).
      cbn in E1, E2, E3, E4, E5. congruence.
    + intros Hc. eexists. rewrite (proj2 (heston_valid_spec _)); [reflexivity|].
      exists s, v, k, t, r. split; [repeat split; reflexivity|exact Hc].
  - unfold heston_post, sv_post; cbn -[heston_valid]. split.
    + intros [o E]. destruct (heston_valid _) eqn:Hv in E; [|discriminate]. apply heston_valid_spec in Hv.
      destruct Hv as (s' & v' & k' & t' & r' & (E1 & E2 & E3 & E4 & E5) & Hc).
      cbn in E1, E2, E3, E4, E5. congruence.
    + intros Hc. eexists. rewrite (proj2 (heston_valid_spec _)); [reflexivity|].
      exists s, v, k, s, r. split; [repeat split; reflexivity|exact Hc].
Qed.
Lemma heston_construct_attrs s v r k t o : construct Heston (heston_kw s v r k t) = Some o ->
  heston_attrs o s v k (match t with Some x => x | None => s end) r.
Proof.
  unfold construct, heston_kw. destruct t as [t|]; cbn -[heston_valid]; unfold heston_post, sv_post; cbn -[heston_valid];
  (destruct (heston_valid _); [|discriminate]); intros [= <-]; repeat split; reflexivity.
Qed.
(** an arbitrary object of any Heston class satisfies the constraints *)
Lemma heston_object_valid c kw o : is_heston c -> construct c kw = Some o ->
  exists s v k t r, heston_attrs o s v k t r /\ heston_constraints s v k t r.
Proof.
  intros Hc E. apply heston_valid_spec. unfold construct in E. destruct (kw_ok _ _); [|discriminate].
  apply (heston_post_valid (init_store (c_fields c) kw)). destruct Hc as [-> | ->]; exact E.
Qed.
Lemma hestoncev_object_valid kw o : construct HestonCev kw = Some o ->
  exists s v k t r b, heston_attrs o s v k t r /\ heston_constraints s v k t r /\ o "beta" = Some (VR b) /\ 0 < b.
Proof.
  unfold construct. destruct (kw_ok _ _); [|discriminate]. cbn [c_post HestonCev]. unfold hestoncev_post.
  destruct (heston_post _) as [o'|] eqn:E; [|discriminate].
  destruct (getR o' "beta") as [b|] eqn:Eb; [|discriminate]. destruct (Rlt_dec 0 b) as [Hb|]; [|discriminate].
  intros [= <-]. apply heston_post_valid, heston_valid_spec in E.
  destruct E as (s & v & k & t & r & H1 & H2). exists s, v, k, t, r, b. split; [|split; [|split]]; auto.
  unfold getR in Eb. destruct (o' "beta") as [[x| |]|]; congruence.
Qed.

Lemma cev_accepts_iff b : cev_accepts b = true <-> 0 < b /\ b <> 1.
Proof. unfold cev_accepts. destruct (Rlt_dec 0 b), (Req_EM_T b 1); split; try discriminate; try tauto; lra. Qed.
Lemma vg_accepts_iff s n t : (exists c, vg_post s n t = Some c) <-> 0 < 1 - t * n - / 2 * s ^ 2 * n.
Proof. unfold vg_post. destruct (Rle_dec _ _); split; try (intros [? ?]; discriminate); try lra; eauto. Qed.
Lemma nig_accepts_iff s n t : (exists c, nig_post s n t = Some c) <-> 0 < 1 - 2 * t * n - s ^ 2 * n.
Proof. unfold nig_post. destruct (Rle_dec _ _); split; try (intros [? ?]; discriminate); try lra; eauto. Qed.
Lemma cgmy_accepts_iff C G M Y : cgmy_accepts C G M Y = true <-> 0 < C /\ 0 < G /\ 1 < M /\ Y < 2.
Proof.
  unfold cgmy_accepts. destruct (Rle_dec C 0), (Rle_dec G 0), (Rle_dec M 1), (Rle_dec 2 Y); split; try discriminate;
    try lra; intros; repeat split; lra.
Qed.
Lemma spread_accepts_iff l : spread_accepts l = true <-> List.length l = 2%nat.
Proof. apply Nat.eqb_eq. Qed.

(** documented: nu > 0; not enforced *)
Lemma vg_nu_refuted : exists s n t, n < 0 /\ exists c, vg_post s n t = Some c.
Proof. exists (/ 5), (-1), 0. split; [lra|]. apply vg_accepts_iff. lra. Qed.
Lemma nig_nu_refuted : exists s n t, n < 0 /\ exists c, nig_post s n t = Some c.
Proof. exists (/ 5), (-1), 0. split; [lra|]. apply nig_accepts_iff. lra. Qed.

(** ** to_sv_param / to_orig_param *)
Lemma sv_orig_roundtrip sigma theta nu : 0 < sigma -> 0 < nu -> nu * (2 * theta + sigma ^ 2) <= 1 ->
  let '(sb, rho, vov) := to_sv_param sigma theta nu in
  to_orig_param sb rho vov = (sigma, theta, nu) /\ -1 < rho < 1 /\ 0 < sb /\ 0 < vov.
Proof.
  intros Hs Hn Hc. unfold to_sv_param, to_orig_param. cbv zeta.
  set (cond := nu * (2 * theta + sigma ^ 2)) in *. set (c := 1 - sqrt (1 - cond)).
  set (q := c ^ 2 + sigma ^ 2 * nu).
  assert (Hsn : 0 < sigma ^ 2 * nu) by (apply Rmult_lt_0_compat; [apply pow_lt|]; lra).
  assert (Hq : 0 < q) by (unfold q; pose proof (pow2_ge_0 c); lra).
  set (d := sqrt q). set (v := sqrt nu).
  assert (Hd : 0 < d) by (apply sqrt_lt_R0; lra). assert (Hv : 0 < v) by (apply sqrt_lt_R0; lra).
  assert (Hd2 : d * d = q) by (apply sqrt_sqrt; lra). assert (Hv2 : v * v = nu) by (apply sqrt_sqrt; lra).
  assert (Hr2 : 1 - (c / d) ^ 2 = sigma ^ 2 * nu / q) by (unfold q in *; rewrite <- Hd2; field_simplify_eq; [|lra]; nra).
  assert (Hcs : (1 - c) * (1 - c) = 1 - cond) by (unfold c; replace (1 - (1 - sqrt (1 - cond))) with (sqrt (1 - cond)) by ring; apply sqrt_sqrt; lra).
  split; [|split; [|split]].
  - f_equal; [f_equal|].
    + rewrite Hr2. replace (sigma ^ 2 * nu / q) with ((sigma * v / d) ^ 2).
      * rewrite sqrt_pow2; [field; lra|]. apply Rlt_le. apply Rdiv_lt_0_compat; [nra|lra].
      * rewrite <- Hd2, <- Hv2. field. lra.
    + replace (c / d * (d / v) / v) with (c / nu) by (rewrite <- Hv2; field; lra).
      replace ((d / v) ^ 2) with (q / nu) by (rewrite <- Hv2, <- Hd2; field; lra).
      apply (Rmult_eq_reg_r nu); [|lra]. replace ((c / nu - / 2 * (q / nu)) * nu) with (c - / 2 * q) by (field; lra).
      unfold q. unfold cond in Hcs. nra.
    + replace (v ^ 2) with (v * v) by ring. exact Hv2.
  - assert (Hcd : Rabs c < d).
    { unfold d. rewrite <- (sqrt_Rsqr_abs c). apply sqrt_lt_1; unfold q, Rsqr; try nra. }
    apply Rabs_def2 in Hcd. split.
    + apply (Rmult_lt_reg_r d); [lra|]. replace (c / d * d) with c by (field; lra). lra.
    + apply (Rmult_lt_reg_r d); [lra|]. replace (c / d * d) with c by (field; lra). lra.
  - apply Rdiv_lt_0_compat; lra.
  - exact Hv.
Qed.
(** the other direction: from_sv_param; valid when rho*sigma_bs*vov <= 1 *)
Lemma orig_sv_roundtrip sb rho vov : 0 < sb -> 0 < vov -> -1 < rho < 1 -> rho * sb * vov <= 1 ->
  let '(sigma, theta, nu) := to_orig_param sb rho vov in to_sv_param sigma theta nu = (sb, rho, vov).
Proof.
  intros Hs Hv Hr Hc. unfold to_orig_param, to_sv_param. cbv zeta.
  assert (Hv' : sqrt (vov ^ 2) = vov) by (apply sqrt_pow2; lra).
  assert (Hs2 : (sqrt (1 - rho ^ 2) * sb) ^ 2 = (1 - rho ^ 2) * sb ^ 2).
  { rewrite Rpow_mult_distr, pow2_sqrt; [reflexivity|nra]. }
  rewrite Hs2, Hv'.
  replace (1 - vov ^ 2 * (2 * (rho * sb / vov - / 2 * sb ^ 2) + (1 - rho ^ 2) * sb ^ 2)) with ((1 - rho * sb * vov) ^ 2)
    by (field; lra).
  rewrite sqrt_pow2 by lra.
  replace (1 - (1 - rho * sb * vov)) with (rho * sb * vov) by ring.
  replace ((rho * sb * vov) ^ 2 + (1 - rho ^ 2) * sb ^ 2 * vov ^ 2) with ((sb * vov) ^ 2) by ring.
  rewrite sqrt_pow2 by nra. assert (E1 : sb * vov / vov = sb) by (field; lra). assert (E2 : rho * sb * vov / (sb * vov) = rho) by (field; nra). rewrite E1, E2. reflexivity.
Qed.

(** ** BsmDisp *)
Lemma disp_from_model_spec o : let o' := disp_from_model o in
  disp_getattr_sigma o' = disp_getattr_sigma o /\ dp_beta o' = 1 /\ dp_pivot o' = 0 /\
  dp_sigma_disp o' = dp_sigma_disp o * dp_beta o.
Proof. cbv zeta. unfold disp_from_model, disp_init, disp_getattr_sigma; simpl. repeat split; ring. Qed.

(** ** MaParams *)
Lemma ma_post_exclusive sg (rho : option R) (cor cov : option shaped) :
  (1 < n_given rho cor cov)%nat -> ma_post sg rho cor cov = None.
Proof. intros H. unfold ma_post. apply Nat.ltb_lt in H. now rewrite H. Qed.

Lemma ma_rho_canonical sg n rho :
  exists m, ma_post (Some (sg, n)) rho None None = Some m /\ ma_n m = n /\ ma_sigma m = sg /\ canonical m /\
    idx n (fun i j => i <> j -> ma_cor m i j = match rho with Some r => r | None => 0 end).
Proof.
  unfold ma_post. replace (1 <? n_given rho None None)%nat with false by (destruct rho; reflexivity).
  eexists. split; [reflexivity|]. simpl. split; [reflexivity|]. split; [reflexivity|]. split.
  - split; [|split]; intros i; simpl.
    + intros j _ _. ring.
    + intros _. rewrite Nat.eqb_refl. ring.
    + intros j _ _. rewrite (Nat.eqb_sym i j). reflexivity.
  - intros i j _ _ Hij. simpl. destruct (Nat.eqb_spec i j); [contradiction|]. ring.
Qed.
Lemma ma_cor_canonical sg n c :
  (forall i, (i < n)%nat -> c i i = 1) -> idx n (fun i j => c i j = c j i) ->
  exists m, ma_post (Some (sg, n)) None (Some (c, (n, n))) None = Some m /\ ma_n m = n /\ ma_sigma m = sg /\
    ma_cor m = c /\ canonical m.
Proof.
  intros Hd Hs. unfold ma_post. simpl. unfold shape_ok; simpl. rewrite Nat.eqb_refl. simpl.
  eexists. split; [reflexivity|]. simpl. do 3 (split; [reflexivity|]).
  split; [|split]; simpl; auto. intros i j _ _. simpl. ring.
Qed.
Lemma ma_cov_canonical (sg : option (vec * nat)) n c :
  (forall i, (i < n)%nat -> 0 < c i i) -> idx n (fun i j => c i j = c j i) ->
  (forall s k, sg = Some (s, k) -> k = n) ->
  exists m, ma_post sg None None (Some (c, (n, n))) = Some m /\ ma_n m = n /\ ma_cov m = c /\ canonical m /\
    (forall i, (i < n)%nat -> ma_sigma m i = sqrt (c i i)).
Proof.
  intros Hp Hs Hk. unfold ma_post. simpl.
  destruct sg as [[s k]|]; [rewrite (Hk s k eq_refl)|rewrite Nat.min_id]; unfold shape_ok; simpl; rewrite Nat.eqb_refl; simpl;
  (eexists; split; [reflexivity|]; simpl; do 2 (split; [reflexivity|]); split; [|auto];
   assert (Hq : forall i, (i < n)%nat -> 0 < sqrt (c i i)) by (intros; now apply sqrt_lt_R0, Hp);
   split; [|split]; simpl;
   [ intros i j Hi Hj; simpl; specialize (Hq i Hi) as A; specialize (Hq j Hj) as B; field; lra
   | intros i Hi; rewrite sqrt_sqrt by (left; auto); field; specialize (Hp i Hi); lra
   | intros i j Hi Hj; simpl; rewrite (Hs i j Hi Hj), (Rmult_comm (sqrt (c i i))); reflexivity ]).
Qed.
Lemma ma_shape_reject sg n rho c sh : sh <> (n, n) ->
  ma_post (Some (sg, n)) rho (Some (c, sh)) None = None /\ ma_post (Some (sg, n)) rho None (Some (c, sh)) = None.
Proof.
  intros H. unfold ma_post, shape_ok. destruct rho; simpl; auto.
  destruct sh as [a b]; simpl. destruct (Nat.eqb_spec a n), (Nat.eqb_spec b n); simpl; auto; congruence.
Qed.
(** re-feeding: params_kw then constructor *)
Lemma ma_roundtrip_ok m : (forall i, (i < ma_n m)%nat -> 0 < ma_sigma m i) -> canonical m ->
  exists m', ma_roundtrip m = Some m' /\ ma_n m' = ma_n m /\ ma_cov m' = ma_cov m /\
    (forall i, (i < ma_n m)%nat -> ma_sigma m' i = ma_sigma m i) /\
    idx (ma_n m) (fun i j => ma_cor m' i j = ma_cor m i j) /\
    (ma_n m = 2%nat -> ma_rho m' = Some (ma_cor m 0 1))%nat.
Proof.
  intros Hp (Hc & Hd & Hs). unfold ma_roundtrip, ma_post. simpl. unfold shape_ok; simpl. rewrite Nat.eqb_refl. simpl.
  assert (Hsq : forall i, (i < ma_n m)%nat -> sqrt (ma_cov m i i) = ma_sigma m i).
  { intros i Hi. rewrite (Hc i i Hi Hi), Hd by exact Hi. replace (ma_sigma m i * ma_sigma m i * 1) with (ma_sigma m i ^ 2) by ring.
    apply sqrt_pow2. left; auto. }
  assert (Hcc : idx (ma_n m) (fun i j => ma_cov m i j / (sqrt (ma_cov m i i) * sqrt (ma_cov m j j)) = ma_cor m i j)).
  { intros i j Hi Hj. rewrite !Hsq, (Hc i j) by auto. field. specialize (Hp i Hi) as A; specialize (Hp j Hj) as B. lra. }
  eexists. split; [reflexivity|]. simpl. do 2 (split; [reflexivity|]). split; [exact Hsq|]. split; [exact Hcc|].
  intros E. rewrite E. simpl. f_equal. apply Hcc; lia.
Qed.
(** documented: omitting rho, cor_m and cov_m raises for n_asset > 1.  It does not. *)
Lemma ma_omit_refuted : exists sg n m, (1 < n)%nat /\ ma_post (Some (sg, n)) None None None = Some m /\
  ma_cor m 0%nat 1%nat = 0.
Proof.
  exists (fun _ => 1), 2%nat. eexists. split; [lia|]. split; [reflexivity|]. simpl. ring.
Qed.
(** and a uniform rho is forgotten by the round trip when n_asset <> 2 *)
Lemma ma_rho_forgotten sg n r : n <> 2%nat -> exists m m', ma_post (Some (sg, n)) (Some r) None None = Some m /\
  ma_rho m = Some r /\ ma_roundtrip m = Some m' /\ ma_rho m' = None.
Proof.
  intros Hn. eexists. eexists. split; [reflexivity|]. split; [reflexivity|]. split.
  - unfold ma_roundtrip, ma_post; simpl. unfold shape_ok; simpl. rewrite Nat.eqb_refl. simpl. reflexivity.
  - simpl. destruct (Nat.eqb_spec n 2); [contradiction|reflexivity].
Qed.
