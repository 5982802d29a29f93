(** Conditioning nodes of the SABR mixtures: weights, forward ratios, volatilities, prices. *)
From Coq Require Import Reals Lra List Arith Lia.
From Coquelicot Require Import Coquelicot.
From Verif Require Import Base Gauss Sums M_Opt M_Mgf M_Heston M_Fd M_Sabr M_Dist M_SabrMix Spec_Opt Spec_Dist Spec_SabrVol P_Bsm P_Sabr P_Dist P_Sabr5 P_SabrMix.
Import ListNotations.
Open Scope R_scope.

Lemma exprel_pos_sq (v : R) : 0 < exprel (v ^ 2).
Proof.
  unfold exprel. destruct (Req_EM_T _ _) as [|N]; [lra|]. assert (0 <= v ^ 2) by apply pow2_ge_0.
  apply Rdiv_lt_0_compat; [|lra]. assert (exp 0 < exp (v ^ 2)) by (apply exp_increasing; lra). rewrite exp_0 in *. lra.
Qed.
Lemma ln_fit_from_mv m v l : ln_from_mv m v l = Some (ln_fit2 m v l).
Proof. reflexivity. Qed.
Lemma ln_quad_len d zw : length (ln_quad d zw) = length zw.
Proof. unfold ln_quad. rewrite !map_length. reflexivity. Qed.
(** ** uncorrelated mixture *)
Definition uncorr_dist (v : R) : lnd := ln_fit2 (exprel (v ^ 2)) (v ^ 2 * mvsk_m2 (exprel (v ^ 2) * v ^ 2 + 1) * exprel (v ^ 2)) 1.
Lemma uncorr_nodes_eq p T zw : uncorr_nodes p T zw =
  if isclose (b_rho p) 0 then Some (map (fun xw => (1, sqrt (fst xw), snd xw)) (ln_quad (uncorr_dist (b_vov p * sqrt T)) zw)) else None.
Proof. reflexivity. Qed.
Lemma uncorr_facts p T zw l : positive_rule zw -> symmetric_rule zw -> uncorr_nodes p T zw = Some l ->
  length l = length zw /\ lsum (map snd l) = 1 /\ lsum (map (fun x => fst (fst x) * snd x) l) = 1 /\
  (forall f v w, In (f, v, w) l -> f = 1 /\ 0 < v /\ 0 < w) /\
  lsum (map (fun x => snd (fst x) ^ 2 * snd x) l) = exprel ((b_vov p * sqrt T) ^ 2).
Proof.
  intros P Sy. rewrite uncorr_nodes_eq. destruct (isclose _ 0); [|discriminate]. intros E.
  apply (f_equal (fun o => match o with Some x => x | None => [] end)) in E. cbn beta iota in E. subst l. set (v := b_vov p * sqrt T).
  set (d := uncorr_dist v). assert (Hm : 0 < ln_mu d) by apply exprel_pos_sq.
  assert (Hpos := ln_quad_pos d zw P Hm ltac:(cbn; lra)). rewrite Forall_forall in Hpos.
  assert (HM := ln_quad_mass d zw P). assert (HA := ln_quad_mean d zw P Sy).
  split; [rewrite map_length; apply ln_quad_len|]. rewrite !map_map. cbn [fst snd].
  assert (M1 : lsum (map (fun x : R * R => snd x) (ln_quad d zw)) = 1).
  { etransitivity; [|exact HM]. unfold rule_sum. apply lsum_map_ext. intros. ring. }
  split; [exact M1|]. split; [etransitivity; [|exact M1]; apply lsum_map_ext; intros; ring|]. split.
  - intros f w q Hi. apply in_map_iff in Hi. destruct Hi as ([x y] & E & Hi). injection E as <- <- <-. destruct (Hpos _ Hi) as [A B]. cbn [fst snd] in *.
    split; [reflexivity|]. split; [apply sqrt_lt_R0; exact A|exact B].
  - transitivity (ln_mu d); [|reflexivity]. etransitivity; [|exact HA]. unfold rule_sum. apply lsum_map_ext. intros [x y] Hi. cbn [fst snd]. destruct (Hpos _ Hi) as [A _]. cbn in A.
    rewrite pow2_sqrt by lra. ring.
Qed.
(** ** correlated mixture *)
Lemma all_some_map {A B} (g : A -> B) l : all_some (map (fun a => Some (g a)) l) = Some (map g l).
Proof. induction l as [|a l IH]; [reflexivity|]. cbn. rewrite IH. reflexivity. Qed.
Lemma all_some_app {A} (l1 l2 : list (option A)) : all_some (l1 ++ l2) =
  match all_some l1, all_some l2 with Some a, Some b => Some (a ++ b) | _, _ => None end.
Proof. induction l1 as [|[a|] l IH]; cbn; [destruct (all_some l2); reflexivity| |reflexivity]. rewrite IH. destruct (all_some l); [|reflexivity]. destruct (all_some l2); reflexivity. Qed.
Lemma all_some_flat {A B} (g : A -> list B) l : all_some (flat_map (fun a => map Some (g a)) l) = Some (flat_map g l).
Proof. induction l as [|a l IH]; [reflexivity|]. cbn [flat_map]. rewrite all_some_app, IH. rewrite (all_some_map (fun b => b)), map_id. reflexivity. Qed.
Definition mc_f (p : sabrp) (alpha T s av : R) : R :=
  if isclose (b_beta p) 0 then 1 + b_rho p * alpha / b_vov p * (s - 1)
  else Rmax (exp (b_rho p * alpha * ((s - 1) / b_vov p - / 2 * (b_rho p * alpha) * T * av))) (/ 10 ^ 20).
Lemma mixchoi_fwd_some p alpha T s av : supported (b_beta p) -> mixchoi_fwd p alpha T s av = Some (mc_f p alpha T s av).
Proof. unfold supported, mixchoi_fwd, mc_f. intros H. destruct (isclose _ 0); [reflexivity|]. destruct (Rlt_dec _ _); [reflexivity|]. destruct H; [discriminate|contradiction]. Qed.
Lemma mixchoi_fwd_none p alpha T s av : ~ supported (b_beta p) -> mixchoi_fwd p alpha T s av = None.
Proof. unfold supported, mixchoi_fwd. intros H. destruct (isclose _ 0); [exfalso; apply H; now left|]. destruct (Rlt_dec _ _); [exfalso; apply H; now right|reflexivity]. Qed.
Definition outer_rule (vovn : R) (zw0 : list (R * R)) : list (R * R * R) := combine (ln_quad (mkLn vovn 1 1) zw0) (map fst zw0).
Definition mixchoi_row (p : sabrp) (T fwd : R) (zw1 : list (R * R)) (o : R * R * R) : list (R * R * R) :=
  let '(s, w0, z) := o in
  map (fun xw => (mc_f p (sabr_alpha p fwd) T s (fst xw), sqrt (1 - b_rho p ^ 2) * sqrt (fst xw), w0 * snd xw)) (mixchoi_inner (sabr_vovn p T) z zw1).
Lemma mixchoi_nodes_eq p T fwd zw0 zw1 : supported (b_beta p) ->
  mixchoi_nodes p T fwd zw0 zw1 = Some (flat_map (mixchoi_row p T fwd zw1) (outer_rule (sabr_vovn p T) zw0)).
Proof.
  intros H. unfold mixchoi_nodes. cbv zeta. rewrite <- all_some_flat. f_equal. apply flat_map_ext. intros [[s w0] z]. unfold mixchoi_row. rewrite map_map.
  apply map_ext. intros [av w2]. rewrite mixchoi_fwd_some by exact H. reflexivity.
Qed.
Lemma mixchoi_inner_eq v z zw1 : exists m s, 0 < m /\ m = fst (fst (fst (cond_avgvar_mvsk v z))) /\ (0 < v -> 0 < s) /\ s = snd (fst (fst (cond_avgvar_mvsk v z))) /\ mixchoi_inner v z zw1 = ln_quad (ln_fit2 m s sln_lam) zw1 \/ ~ 0 < v.
Proof.
  destruct (Rlt_dec 0 v) as [Hv|Hv]; [|exists 0, 0; right; exact Hv].
  unfold mixchoi_inner. destruct (cond_avgvar_mvsk v z) as [[[m s] sk] k] eqn:E. destruct (cond_mv_pos v z Hv m s sk k E) as [A B].
  exists m, s. left. cbn [fst snd]. auto.
Qed.
Definition cmean (v z : R) : R := fst (fst (fst (cond_avgvar_mvsk v z))).
Lemma inner_facts v z zw1 : 0 < v -> positive_rule zw1 -> symmetric_rule zw1 ->
  0 < cmean v z /\ length (mixchoi_inner v z zw1) = length zw1 /\ lsum (map snd (mixchoi_inner v z zw1)) = 1 /\
  lsum (map (fun x => snd x * fst x) (mixchoi_inner v z zw1)) = cmean v z /\ (forall x w, In (x, w) (mixchoi_inner v z zw1) -> 0 < x /\ 0 < w).
Proof.
  intros Hv P Sy. destruct (mixchoi_inner_eq v z zw1) as (m & s & [(Hm & Em & Hs & Es & E)|N]); [|contradiction]. unfold cmean. rewrite <- Em, E.
  set (d := ln_fit2 m s sln_lam). assert (Hl : 0 <= ln_lam d <= 1) by (cbn; unfold sln_lam; lra).
  split; [exact Hm|]. split; [apply ln_quad_len|]. split; [rewrite rule_sum_one; now apply ln_quad_mass|]. split; [exact (ln_quad_mean d zw1 P Sy)|].
  intros x w Hi. pose proof (ln_quad_pos d zw1 P Hm Hl) as H. rewrite Forall_forall in H. exact (H _ Hi).
Qed.
Lemma lsum_flat {A B} (h : B -> R) (g : A -> list B) l : lsum (map h (flat_map g l)) = lsum (map (fun a => lsum (map h (g a))) l).
Proof. induction l as [|a l IH]; [reflexivity|]. cbn [flat_map map]. rewrite map_app, lsum_app, IH. reflexivity. Qed.
Lemma combine_fst {A B C} (l : list A) (l' : list B) (h : A -> C) : length l = length l' -> map (fun x => h (fst x)) (combine l l') = map h l.
Proof. revert l'. induction l as [|a l IH]; destruct l'; try discriminate; intros; [reflexivity|]. cbn. f_equal. apply IH. now injection H. Qed.
Lemma outer_facts v zw0 : positive_rule zw0 -> symmetric_rule zw0 ->
  lsum (map (fun x => snd (fst x)) (outer_rule v zw0)) = 1 /\ lsum (map (fun x => snd (fst x) * fst (fst x)) (outer_rule v zw0)) = 1 /\
  length (outer_rule v zw0) = length zw0 /\ (forall s w z, In (s, w, z) (outer_rule v zw0) -> 0 < s /\ 0 < w).
Proof.
  intros P Sy. unfold outer_rule. set (d := mkLn v 1 1). assert (L : length (ln_quad d zw0) = length (map fst zw0)) by (rewrite ln_quad_len, map_length; reflexivity).
  rewrite (combine_fst _ _ (fun x => snd x)) by exact L. rewrite (combine_fst _ _ (fun x => snd x * fst x)) by exact L.
  split; [rewrite rule_sum_one; now apply ln_quad_mass|]. split; [exact (ln_quad_mean d zw0 P Sy)|]. split; [rewrite combine_length, <- L, Nat.min_id; apply ln_quad_len|].
  intros s w z Hi. apply in_combine_l in Hi. pose proof (ln_quad_pos d zw0 P ltac:(cbn; lra) ltac:(cbn; lra)) as H. rewrite Forall_forall in H. exact (H _ Hi).
Qed.
Lemma flat_len {A B} (g : A -> list B) n l : (forall a, In a l -> length (g a) = n) -> length (flat_map g l) = (length l * n)%nat.
Proof. induction l as [|a l IH]; intros H; [reflexivity|]. cbn [flat_map]. rewrite app_length, H by now left. rewrite IH by (intros; apply H; now right). reflexivity. Qed.
Lemma vovn_pos p T : 0 < b_vov p -> 0 < sabr_vovn p T.
Proof. intros H. unfold sabr_vovn. apply Rmult_lt_0_compat; [exact H|]. apply sqrt_lt_R0. eapply Rlt_le_trans; [|apply Rmax_r]. apply Rinv_0_lt_compat, pow_lt. lra. Qed.
Lemma mixchoi_facts p T fwd zw0 zw1 : supported (b_beta p) -> 0 < b_vov p -> -1 < b_rho p < 1 ->
  positive_rule zw0 -> symmetric_rule zw0 -> positive_rule zw1 -> symmetric_rule zw1 ->
  exists l, mixchoi_nodes p T fwd zw0 zw1 = Some l /\ length l = (length zw0 * length zw1)%nat /\ lsum (map snd l) = 1 /\
    (forall f v w, In (f, v, w) l -> 0 < v /\ 0 < w /\ (isclose (b_beta p) 0 = false -> / 10 ^ 20 <= f) /\ (b_rho p = 0 -> f = 1)) /\
    (isclose (b_beta p) 0 = true -> lsum (map (fun x => fst (fst x) * snd x) l) = 1) /\
    lsum (map (fun x => snd (fst x) ^ 2 * snd x) l)
    = (1 - b_rho p ^ 2) * lsum (map (fun x => snd (fst x) * cmean (sabr_vovn p T) (snd x)) (outer_rule (sabr_vovn p T) zw0)).
Proof.
  intros Hb Hvov Hr P0 S0 P1 S1. rewrite (mixchoi_nodes_eq p T fwd zw0 zw1 Hb). set (v := sabr_vovn p T). assert (Hv : 0 < v) by now apply vovn_pos.
  set (R0 := outer_rule v zw0). destruct (outer_facts v zw0 P0 S0) as (O1 & O2 & O3 & O4). fold R0 in O1, O2, O3, O4.
  assert (Hrc : 0 < 1 - b_rho p ^ 2) by nra.
  exists (flat_map (mixchoi_row p T fwd zw1) R0). split; [reflexivity|]. split.
  { rewrite (flat_len _ (length zw1)); [now rewrite O3|]. intros [[s w0] z] _. unfold mixchoi_row. rewrite map_length. apply (inner_facts v z zw1 Hv P1 S1). }
  split.
  { rewrite lsum_flat. etransitivity; [|exact O1]. apply lsum_map_ext. intros [[s w0] z] _. unfold mixchoi_row. rewrite map_map. cbn [fst snd]. rewrite lsum_map_scal.
    destruct (inner_facts v z zw1 Hv P1 S1) as (_ & _ & E & _). fold v. rewrite E. ring. }
  split.
  { intros f x w Hi. apply in_flat_map in Hi. destruct Hi as ([[s w0] z] & Ho & Hi). unfold mixchoi_row in Hi. apply in_map_iff in Hi. destruct Hi as ([av w2] & E & Hi).
    injection E as <- <- <-. destruct (inner_facts v z zw1 Hv P1 S1) as (_ & _ & _ & _ & Hin). destruct (Hin _ _ Hi) as [A B]. destruct (O4 _ _ _ Ho) as [C D].
    split; [apply Rmult_lt_0_compat; apply sqrt_lt_R0; assumption|]. split; [now apply Rmult_lt_0_compat|]. split.
    - intros E. unfold mc_f. rewrite E. apply Rmax_r.
    - intros E. unfold mc_f. rewrite E. destruct (isclose _ 0); [unfold Rdiv; ring|]. replace (0 * sabr_alpha p fwd * _) with 0 by (unfold Rdiv; ring). rewrite exp_0.
      apply Rmax_left. simpl. lra. }
  split.
  { intros E. rewrite lsum_flat. set (c := b_rho p * sabr_alpha p fwd / b_vov p).
    rewrite (lsum_map_ext _ (fun x => (1 - c) * snd (fst x) + c * (snd (fst x) * fst (fst x)))).
    - rewrite lsum_map_plus, !lsum_map_scal, O1, O2. ring.
    - intros [[s w0] z] _. unfold mixchoi_row. rewrite map_map. cbn [fst snd]. destruct (inner_facts v z zw1 Hv P1 S1) as (_ & _ & Em & _). fold v.
      rewrite (lsum_map_ext _ (fun x => ((1 + c * (s - 1)) * w0) * snd x)); [rewrite lsum_map_scal, Em; ring|]. intros x _. unfold mc_f. rewrite E. unfold c. ring. }
  rewrite lsum_flat. rewrite <- lsum_map_scal. apply lsum_map_ext. intros [[s w0] z] _. unfold mixchoi_row. rewrite map_map. cbn [fst snd]. fold v.
  destruct (inner_facts v z zw1 Hv P1 S1) as (_ & _ & _ & Em & Hin).
  rewrite (lsum_map_ext _ (fun x => ((1 - b_rho p ^ 2) * w0) * (snd x * fst x))); [rewrite lsum_map_scal, Em; ring|].
  intros [x w] Hi. cbn [fst snd]. destruct (Hin _ _ Hi) as [A _]. rewrite Rpow_mult_distr, !pow2_sqrt by lra. ring.
Qed.
Lemma mixchoi_raises p T fwd zw0 zw1 : ~ supported (b_beta p) -> zw0 <> [] -> zw1 <> [] -> mixchoi_nodes p T fwd zw0 zw1 = None.
Proof.
  intros Hb N0 N1. unfold mixchoi_nodes. cbv zeta. destruct zw0 as [|[z0 w0] r]; [congruence|]. unfold ln_quad at 1. cbn [map combine flat_map fst snd].
  rewrite all_some_app. match goal with |- match ?A with _ => _ end = _ => assert (E : A = None) end; [|rewrite E; reflexivity].
  unfold mixchoi_inner. destruct (cond_avgvar_mvsk _ _) as [[[m s] sk] k]. destruct zw1 as [|[z1 w1] r1]; [congruence|]. unfold ln_quad. cbn [map fst snd].
  rewrite mixchoi_fwd_none by exact Hb. reflexivity.
Qed.
