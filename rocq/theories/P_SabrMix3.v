(** Prices and masses at zero of the SABR mixtures, end to end. *)
From Coq Require Import Reals Lra List Arith Lia.
From Coquelicot Require Import Coquelicot.
From Verif Require Import Base Gauss Sums M_Opt M_Mgf M_Heston M_Fd M_Sabr M_Dist M_Cev M_SabrVol M_SabrMix Spec_Opt Spec_Dist Spec_Cev P_Bsm P_Norm P_Fwd P_Cev2 P_Sabr P_Sabr4 P_Dist P_Sabr5 P_Sabr6 P_SabrMass P_SabrMix P_SabrMix2 Spec_SabrVol.
Import ListNotations.
Open Scope R_scope.

Lemma isclose_one w : w = 1 -> isclose w 1 = true.
Proof. intros ->. apply isclose_refl. Qed.
(** the price of a list of nodes whose weights add up to one *)
Lemma mix_price_some cevp mo p (l : list (R * R * R)) K S T cp : lsum (map snd l) = 1 -> let F := FWD (intr mo) (divr mo) (is_fwd mo) S T in
  sabr_mix_price cevp mo p false (fun _ => l) K S T cp
  = Some (F * lsum (map (fun x => sabr_base_price cevp (b_beta p) (set_fwd (set_sigma mo (sabr_alpha p F * snd (fst x)))) (K / F) (fst (fst x)) T cp * snd x) l)).
Proof. intros W F. unfold sabr_mix_price. cbv zeta. rewrite isclose_one by exact W. reflexivity. Qed.
Lemma nodes_parity cevp mo p (l : list (R * R * R)) K S T : let F := FWD (intr mo) (divr mo) (is_fwd mo) S T in
  F <> 0 -> lsum (map snd l) = 1 -> lsum (map (fun x => fst (fst x) * snd x) l) = 1 ->
  (forall x, In x l -> base_parity cevp (b_beta p) (set_sigma mo (sabr_alpha p F * snd (fst x))) (K / F) (fst (fst x)) T) ->
  exists c q, sabr_mix_price cevp mo p false (fun _ => l) K S T 1 = Some c /\ sabr_mix_price cevp mo p false (fun _ => l) K S T (-1) = Some q /\
  c - q = DF (intr mo) T * (F - K).
Proof.
  intros F HF W M B. pose proof (mix_price_some cevp mo p l K S T 1 W) as E1. pose proof (mix_price_some cevp mo p l K S T (-1) W) as E2. cbv zeta in E1, E2.
  match type of E1 with _ = Some ?c => match type of E2 with _ = Some ?q => set (C := c) in *; set (Q := q) in * end end. exists C, Q.
  split; [exact E1|]. split; [exact E2|]. clearbody C Q.
  pose proof (mix_parity cevp mo p false (fun _ => l) K S T C Q HF R1_neq_R0) as P. cbv beta zeta in P. fold F in P. rewrite W, M in P.
  replace (DF (intr mo) T * (F - K)) with (DF (intr mo) T * (F * (1 / 1) - K * 1)) by field. apply P; [|exact E1|exact E2].
  intros x Hx. replace (fst (fst x) / 1) with (fst (fst x)) by field. apply B, Hx.
Qed.
Definition base_ok_at (Gam : R -> R) (cdf sf pdf : R -> R -> R -> R) (p : sabrp) (F T : R) (l : list (R * R * R)) : Prop :=
  b_beta p = 1 \/ (b_beta p = 0 /\ 0 < F /\ forall f v w, In (f, v, w) l -> eps <= b_sigma p / F * v * sqrt T)
  \/ (gamma_function Gam /\ ncx2_routines Gam cdf sf pdf /\ isclose (b_beta p) 1 = false /\ isclose (b_beta p) 0 = false /\ forall f v w, In (f, v, w) l -> 0 < f).
Lemma base_ok_parity Gam cdf sf pdf mo p K F T l : 0 < K / F -> base_ok_at Gam cdf sf pdf p F T l -> forall x, In x l ->
  base_parity (cev_price cdf sf) (b_beta p) (set_sigma mo (sabr_alpha p F * snd (fst x))) (K / F) (fst (fst x)) T.
Proof.
  intros HK [E|[(E & HF & Hv)|(HG & HR & B1 & B0 & Hf)]] [[f v] w] Hx; cbn [fst snd].
  - rewrite E. apply base_parity_bsm.
  - rewrite E. apply base_parity_norm. cbn [set_sigma sigma]. unfold sabr_alpha. rewrite E, Rminus_0_r, npow_s_pos, Rpower_1 by exact HF. exact (Hv _ _ _ Hx).
  - unfold base_parity, sabr_base_price. rewrite B1, B0. rewrite (cev_parity Gam cdf sf pdf HG HR); [reflexivity| |exact HK|exact (Hf _ _ _ Hx)].
    intros E. rewrite E in B1. rewrite isclose_refl in B1. discriminate.
Qed.
(** ** uncorrelated mixture *)
Lemma uncorr_some p T zw : isclose (b_rho p) 0 = true -> exists l, uncorr_nodes p T zw = Some l.
Proof. intros H. rewrite uncorr_nodes_eq, H. eauto. Qed.
Lemma uncorr_parity Gam cdf sf pdf mo p zw K S T l : let F := FWD (intr mo) (divr mo) (is_fwd mo) S T in
  0 < F -> 0 < K -> positive_rule zw -> symmetric_rule zw -> uncorr_nodes p T zw = Some l -> base_ok_at Gam cdf sf pdf p F T l ->
  exists c q, uncorr_price (cev_price cdf sf) mo p false zw K S T 1 = Some c /\ uncorr_price (cev_price cdf sf) mo p false zw K S T (-1) = Some q /\ c - q = DF (intr mo) T * (F - K).
Proof.
  intros F HF HK P Sy E B. unfold uncorr_price. rewrite E. destruct (uncorr_facts p T zw l P Sy E) as (_ & W & M & _ & _).
  apply nodes_parity; [fold F; lra|exact W|exact M|]. fold F. apply (base_ok_parity Gam cdf sf pdf); [now apply Rdiv_lt_0_compat|exact B].
Qed.
Lemma sabr_alpha_1 p F : b_beta p = 1 -> 0 < F -> sabr_alpha p F = b_sigma p.
Proof. intros E HF. unfold sabr_alpha. rewrite E, Rminus_diag_eq by reflexivity. rewrite npow_s_pos by exact HF. rewrite Rpower_O by exact HF. field. Qed.
Lemma base_bsm cevp m : sabr_base_price cevp 1 m = bsm_price m.
Proof. unfold sabr_base_price. rewrite isclose_refl. reflexivity. Qed.
Lemma bsm_node mo s K S T cp : let F := FWD (intr mo) (divr mo) (is_fwd mo) S T in 0 < F ->
  F * bsm_price (set_fwd (set_sigma mo s)) (K / F) 1 T cp = bsm_price (set_sigma mo s) K S T cp.
Proof.
  intros F HF. unfold bsm_price. cbn [set_fwd set_sigma sigma intr divr is_fwd]. rewrite Rmult_comm, bsm_scale by exact HF.
  unfold F, FWD. destruct (is_fwd mo); [now rewrite Rmult_1_l|]. rewrite Rmult_1_l. apply bsm_formula_fwd.
Qed.
Lemma lsum_wavg_lt {A} (w h : A -> R) (c : R) l : l <> [] -> (forall a, In a l -> 0 < w a) -> lsum (map w l) = 1 -> (forall a, In a l -> c < h a) -> c < lsum (map (fun a => h a * w a) l).
Proof.
  intros N Hw W H. assert (E : 0 < lsum (map (fun a => (h a - c) * w a) l)).
  { apply lsum_pos; [exact N|]. intros a Ha. apply Rmult_lt_0_compat; [specialize (H a Ha); lra|now apply Hw]. }
  rewrite (lsum_map_ext _ (fun a => h a * w a - c * w a)) in E by (intros; ring). rewrite lsum_map_minus, lsum_map_scal, W in E. lra.
Qed.
Lemma lsum_wavg_gt {A} (w h : A -> R) (c : R) l : l <> [] -> (forall a, In a l -> 0 < w a) -> lsum (map w l) = 1 -> (forall a, In a l -> h a < c) -> lsum (map (fun a => h a * w a) l) < c.
Proof.
  intros N Hw W H. pose proof (lsum_wavg_lt w (fun a => - h a) (- c) l N Hw W) as P. rewrite (lsum_map_ext _ (fun a => -1 * (h a * w a))) in P by (intros; ring).
  rewrite lsum_map_scal in P. assert (- c < -1 * lsum (map (fun a => h a * w a) l)) by (apply P; intros a Ha; specialize (H a Ha); lra). lra.
Qed.
Lemma uncorr_bsm cevp mo p zw K S T cp l : let F := FWD (intr mo) (divr mo) (is_fwd mo) S T in
  0 < F -> b_beta p = 1 -> positive_rule zw -> symmetric_rule zw -> uncorr_nodes p T zw = Some l ->
  uncorr_price cevp mo p false zw K S T cp = Some (lsum (map (fun x => bsm_price (set_sigma mo (b_sigma p * snd (fst x))) K S T cp * snd x) l)).
Proof.
  intros F HF Hb P Sy E. unfold uncorr_price. rewrite E. destruct (uncorr_facts p T zw l P Sy E) as (_ & W & M & Hin & _).
  rewrite (mix_price_some cevp mo p l K S T cp W). f_equal. fold F. rewrite <- lsum_map_scal. apply lsum_map_ext. intros [[f v] w] Hi. cbn [fst snd].
  destruct (Hin _ _ _ Hi) as (-> & _ & _). rewrite Hb, base_bsm, sabr_alpha_1 by assumption. rewrite <- Rmult_assoc. f_equal. apply bsm_node, HF.
Qed.
Lemma uncorr_bounds cevp mo p zw K S T cp : let F := FWD (intr mo) (divr mo) (is_fwd mo) S T in
  0 < S -> 0 < K -> call_or_put cp -> isclose (b_rho p) 0 = true -> b_beta p = 1 -> positive_rule zw -> symmetric_rule zw ->
  exists c, uncorr_price cevp mo p false zw K S T cp = Some c /\ DF (intr mo) T * payoff cp K F < c < DF (intr mo) T * (if Rlt_dec 0 cp then F else K).
Proof.
  intros F HS HK Hcp Hr Hb P Sy. destruct (uncorr_some p T zw Hr) as (l & E). destruct (uncorr_facts p T zw l P Sy E) as (Ln & W & M & Hin & _).
  assert (HF : 0 < F) by (apply (mF_pos mo S T HS)).
  eexists. split; [apply (uncorr_bsm cevp mo p zw K S T cp l HF Hb P Sy E)|].
  assert (N : l <> []). { intros ->. destruct P as [P0 _]. destruct zw; [congruence|discriminate]. }
  assert (Hw : forall a, In a l -> 0 < snd a) by (intros [[f v] w] Hi; apply (Hin _ _ _ Hi)).
  split; [apply lsum_wavg_lt|apply lsum_wavg_gt]; try assumption; intros a _;
  pose proof (bsm_bounds (set_sigma mo (b_sigma p * snd (fst a))) K S T cp Hcp HK HS) as B; cbn [set_sigma intr divr is_fwd] in B; fold F in B; apply B.
Qed.
(** zero vol-of-vol: one volatility, and the Black price *)
Lemma uncorr_vov0 cevp mo p zw K S T cp : let F := FWD (intr mo) (divr mo) (is_fwd mo) S T in
  0 < S -> isclose (b_rho p) 0 = true -> b_beta p = 1 -> b_vov p = 0 -> positive_rule zw -> symmetric_rule zw ->
  uncorr_price cevp mo p false zw K S T cp = Some (bsm_price (set_sigma mo (b_sigma p)) K S T cp).
Proof.
  intros F HS Hr Hb Hv P Sy. destruct (uncorr_some p T zw Hr) as (l & E). destruct (uncorr_facts p T zw l P Sy E) as (_ & W & _ & Hin & _).
  rewrite (uncorr_bsm cevp mo p zw K S T cp l (mF_pos mo S T HS) Hb P Sy E). f_equal.
  rewrite (lsum_map_ext _ (fun x => bsm_price (set_sigma mo (b_sigma p)) K S T cp * snd x)); [rewrite lsum_map_scal, W; ring|].
  intros [[f v] w] Hi. cbn [fst snd]. f_equal. f_equal. f_equal. assert (v = 1); [|subst v; ring].
  rewrite uncorr_nodes_eq, Hr in E. apply (f_equal (fun o => match o with Some x => x | None => [] end)) in E. cbn beta iota in E. subst l.
  apply in_map_iff in Hi. destruct Hi as ([x y] & E & Hi). apply (f_equal (fun u => snd (fst u))) in E. cbn [fst snd] in E. rewrite <- E. clear E.
  rewrite Hv in Hi. unfold ln_quad in Hi. rewrite map_map in Hi. cbn [fst snd] in Hi. apply in_map_iff in Hi. destruct Hi as (q & E & _). apply (f_equal fst) in E. cbn [fst] in E. rewrite <- E. clear E.
  unfold uncorr_dist, ln_fit2. cbn [ln_sig ln_lam ln_mu]. replace (0 * sqrt T) with 0 by ring. replace (0 ^ 2) with 0 by ring.
  replace (exprel 0) with 1 by (unfold exprel; destruct (Req_EM_T 0 0); [reflexivity|congruence]).
  replace (1 + 0 * mvsk_m2 (1 * 0 + 1) * 1 / 1 ^ 2) with 1 by field. rewrite ln_1, sqrt_0. replace (/ 2 * 0 * fst q) with 0 by ring. rewrite exp_0.
  replace (1 * (1 - 1 + 1 * 1 ^ 2)) with 1 by ring. apply sqrt_1.
Qed.
(** ** correlated mixture *)
Lemma mixchoi_parity Gam cdf sf pdf mo p zw0 zw1 K S T : let F := FWD (intr mo) (divr mo) (is_fwd mo) S T in
  0 < F -> 0 < K -> 0 < b_vov p -> -1 < b_rho p < 1 -> positive_rule zw0 -> symmetric_rule zw0 -> positive_rule zw1 -> symmetric_rule zw1 ->
  isclose (b_beta p) 0 = true \/ (0 < b_beta p /\ b_rho p = 0) ->
  (forall l, mixchoi_nodes p T F zw0 zw1 = Some l -> base_ok_at Gam cdf sf pdf p F T l) ->
  exists c q, mixchoi_price (cev_price cdf sf) mo p false zw0 zw1 K S T 1 = Some c /\ mixchoi_price (cev_price cdf sf) mo p false zw0 zw1 K S T (-1) = Some q /\ c - q = DF (intr mo) T * (F - K).
Proof.
  intros F HF HK Hv Hr P0 S0 P1 S1 Hb B. assert (Sb : supported (b_beta p)) by (destruct Hb as [|[]]; [now left|now right]).
  destruct (mixchoi_facts p T F zw0 zw1 Sb Hv Hr P0 S0 P1 S1) as (l & E & _ & W & Hin & Mf & _).
  unfold mixchoi_price. change (forward mo S T) with F. rewrite E.
  apply nodes_parity; [fold F; lra|exact W| |fold F; apply (base_ok_parity Gam cdf sf pdf); [now apply Rdiv_lt_0_compat|now apply B]].
  destruct Hb as [Hb|[_ Hb]]; [now apply Mf|]. etransitivity; [|exact W]. apply lsum_map_ext. intros [[f v] w] Hi. cbn [fst snd].
  destruct (Hin _ _ _ Hi) as (_ & _ & _ & H). rewrite (H Hb). ring.
Qed.
(** ** masses at zero *)
Lemma uncorr_nodes_ok p T zw l : positive_rule zw -> symmetric_rule zw -> uncorr_nodes p T zw = Some l -> nodes_ok l.
Proof.
  intros P Sy E. destruct (uncorr_facts p T zw l P Sy E) as (Ln & W & _ & Hin & _). split; [|split].
  - intros ->. destruct P as [P0 _]. destruct zw; [congruence|discriminate].
  - intros f v w Hi. destruct (Hin _ _ _ Hi) as (-> & A & B). split; [lra|]. split; [lra|exact B].
  - etransitivity; [|exact W]. apply lsum_map_ext. intros [[f v] w] _. reflexivity.
Qed.
Lemma mixchoi_nodes_ok p T F zw0 zw1 l : 0 < b_beta p -> isclose (b_beta p) 0 = false -> 0 < b_vov p -> -1 < b_rho p < 1 ->
  positive_rule zw0 -> symmetric_rule zw0 -> positive_rule zw1 -> symmetric_rule zw1 -> mixchoi_nodes p T F zw0 zw1 = Some l -> nodes_ok l.
Proof.
  intros Hb Hc Hv Hr P0 S0 P1 S1 E. destruct (mixchoi_facts p T F zw0 zw1 (or_intror Hb) Hv Hr P0 S0 P1 S1) as (l' & E' & Ln & W & Hin & _).
  assert (l = l') by congruence. subst l'. split; [|split].
  - intros ->. destruct P0 as [N0 _], P1 as [N1 _]. destruct zw0; [congruence|]. destruct zw1; [congruence|]. cbn in Ln. discriminate.
  - intros f v w Hi. destruct (Hin _ _ _ Hi) as (A & B & C & _). specialize (C Hc). assert (0 < / 10 ^ 20) by (apply Rinv_0_lt_compat, pow_lt; lra). split; [lra|]. split; [lra|exact B].
  - etransitivity; [|exact W]. apply lsum_map_ext. intros [[f v] w] _. reflexivity.
Qed.
