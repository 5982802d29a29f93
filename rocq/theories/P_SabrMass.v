(** Masses at zero of the mixture and simulation models. *)
From Coq Require Import Reals Lra Lia List Psatz.
From Coquelicot Require Import Coquelicot.
From Verif Require Import Base Gauss Sums M_Opt M_Mgf M_Heston M_Fd M_Sabr M_Cev M_SabrVol Spec_Opt Spec_Cev P_Bsm P_Gamma P_Gamma2 P_Asian3 P_Cev P_Cev6 P_Cev7 P_SabrVol5 Spec_SabrVol.
Import ListNotations.
Open Scope R_scope.
Lemma fold_max_ge r : forall x, x <= fold_left Rmax r x /\ (forall y, In y r -> y <= fold_left Rmax r x) /\ (fold_left Rmax r x = x \/ In (fold_left Rmax r x) r).
Proof.
  induction r as [|a r IH]; intros x; cbn [fold_left]; [split; [lra|split; [intros y []|left; reflexivity]]|].
  destruct (IH (Rmax x a)) as (A & B & C). pose proof (Rmax_l x a). pose proof (Rmax_r x a). split; [lra|]. split.
  - intros y [->|Hy]; [lra|apply B, Hy].
  - destruct C as [C|C]; [|right; right; exact C]. rewrite C. destruct (Rmax_Rle x a x) as [_ _]. unfold Rmax. destruct (Rle_dec x a); [right; left; reflexivity|left; reflexivity].
Qed.
Lemma lmax_ge l y : In y l -> y <= lmax l.
Proof. destruct l as [|x r]; [intros []|]. cbn [lmax]. destruct (fold_max_ge r x) as (A & B & _). intros [->|H]; [exact A|apply B, H]. Qed.
Lemma lmax_in l : l <> [] -> In (lmax l) l.
Proof. destruct l as [|x r]; [contradiction|]. intros _. cbn [lmax]. destruct (fold_max_ge r x) as (_ & _ & [C|C]); [left; symmetry; exact C|right; exact C]. Qed.
Lemma lsum_ge_in l y : (forall x, In x l -> 0 <= x) -> In y l -> y <= lsum l.
Proof.
  induction l as [|a l IH]; intros Hn [].
  - subst. change (lsum (y :: l)) with (y + lsum l). pose proof (lsum_map_nonneg (fun x => x) l (fun x Hx => Hn x (or_intror Hx))) as P. rewrite map_id in P. lra.
  - change (lsum (a :: l)) with (a + lsum l). pose proof (Hn a (or_introl eq_refl)). specialize (IH (fun x Hx => Hn x (or_intror Hx)) H). lra.
Qed.
Lemma lse_range l : l <> [] -> 1 <= lsum (map (fun x => exp (x - lmax l)) l) <= INR (length l).
Proof.
  intros Hl. split.
  - apply lsum_ge_in.
    + intros x Hx. apply in_map_iff in Hx. destruct Hx as (u & <- & _). left. apply exp_pos.
    + apply in_map_iff. exists (lmax l). split; [|apply lmax_in, Hl]. replace (lmax l - lmax l) with 0 by ring. apply exp_0.
  - apply Rle_trans with (lsum (map (fun _ : R => 1) l)); [|rewrite lsum_map_const; lra]. apply lsum_map_le. intros x Hx. rewrite <- exp_0. apply exp_le. pose proof (lmax_ge l x Hx). lra.
Qed.
Lemma lse_eq l : l <> [] -> exp (log_sum_exp l) = lsum (map exp l).
Proof.
  intros Hl. unfold log_sum_exp. cbv zeta. pose proof (lse_range l Hl). rewrite exp_plus, exp_ln by lra. rewrite <- lsum_map_scal. apply lsum_map_ext. intros x _. rewrite <- exp_plus. f_equal. ring.
Qed.
(** ** strict monotonicity of the gamma law *)
Lemma gcdf_incr Gam a P x y : gamma_function Gam -> 0 < a -> cdf_of (gamma_pdf Gam a) P -> 0 < x -> x < y -> P x < P y.
Proof.
  intros HG Ha (D & _ & _) Hx Hxy. destruct (MVT_gen P x y (gamma_pdf Gam a)) as (c & Hc & E).
  - intros t Ht. rewrite Rmin_left, Rmax_right in Ht by lra. apply D. lra.
  - intros t Ht. rewrite Rmin_left, Rmax_right in Ht by lra. apply continuity_pt_filterlim. apply (ex_derive_continuous (K := R_AbsRing) (V := R_NormedModule)). eexists. apply D. lra.
  - assert (0 < gamma_pdf Gam a c). { unfold gamma_pdf. apply Rdiv_lt_0_compat; [apply Rmult_lt_0_compat; apply exp_pos|apply HG, Ha]. } nra.
Qed.
Lemma gcdf_range Gam a P x : gamma_function Gam -> 0 < a -> cdf_of (gamma_pdf Gam a) P -> 0 < x -> 0 < P x < 1.
Proof.
  intros HG Ha HP Hx. pose proof (fun u v => gcdf_incr Gam a P u v HG Ha HP) as I. destruct HP as (D & L0 & L1). split.
  - apply Rle_lt_trans with (P (x / 2)); [|apply I; lra]. apply (lim_le P (at_right 0) 0 (P (x / 2)) L0). assert (X2 : 0 < x / 2) by lra. exists (mkposreal _ X2). intros t Ht Tp. change (Rabs (t - 0) < x / 2) in Ht. rewrite Rminus_0_r, Rabs_right in Ht by lra. left. apply I; lra.
  - apply Rlt_le_trans with (P (x + 1)); [apply I; lra|]. apply (lim_ge P (Rbar_locally p_infty) 1 (P (x + 1)) L1). exists (x + 1). intros t Ht. left. apply I; lra.
Qed.
Lemma mass_range Gam gcdf gsf beta m S T : gamma_function Gam -> gamma_routines Gam gcdf gsf -> beta < 1 -> sigma m <> 0 -> 0 < S -> 0 < T -> 0 < cev_mass_zero gsf beta m S T < 1.
Proof.
  intros HG Hg Hb Hs HS HT. rewrite mass_as_tail by (try assumption; lra). set (a := / 2 / (1 - beta)). assert (Ha : 0 < a) by (unfold a; apply Rdiv_lt_0_compat; lra). destruct (Hg a Ha) as [HP Hsf].
  assert (X : 0 < cev_mass_zero_t0 beta m S T / T) by (apply Rdiv_lt_0_compat; [apply t0_pos; try assumption; lra|exact HT]). rewrite Hsf by exact X. pose proof (gcdf_range Gam a _ _ HG Ha HP X) as R. cbv beta in R. lra.
Qed.
Lemma nodes_wf l : nodes_ok l -> 0 < lsum (map (fun '(f, v, w) => f * w) l).
Proof.
  intros (Hl & H & _). destruct l as [|[[f v] w] l]; [contradiction|]. cbn [map]. change (lsum (f * w :: map (fun '(f, v, w) => f * w) l)) with (f * w + lsum (map (fun '(f, v, w) => f * w) l)).
  assert (0 <= lsum (map (fun '(f, v, w) => f * w) l)). { apply lsum_map_nonneg. intros [[f' v'] w'] Hi. destruct (H f' v' w' (or_intror Hi)) as (A & _ & B). nra. }
  destruct (H f v w (or_introl eq_refl)) as (A & _ & B). nra.
Qed.
Lemma rescale_ok c l : nodes_ok l -> nodes_ok (mix_rescale c l).
Proof.
  intros Hn. pose proof (nodes_wf l Hn) as Sp. destruct Hn as (Hl & H & Hw). destruct c; [|repeat split; try assumption; apply (H f v w H0)]. unfold mix_rescale. cbv zeta. set (s := lsum _) in *. split; [|split].
  - destruct l; [contradiction|discriminate].
  - intros f v w Hi. apply in_map_iff in Hi. destruct Hi as ([[f' v'] w'] & E & Hi). injection E as E1 E2 E3. subst. destruct (H f' v w Hi) as (A & B & C). split; [apply Rdiv_lt_0_compat; assumption|split; assumption].
  - rewrite map_map. rewrite <- Hw. apply lsum_map_ext. intros [[f v] w] _. reflexivity.
Qed.
(** the forward ratios average to one after the correction *)
Lemma rescale_mean l : nodes_ok l -> lsum (map (fun '(f, v, w) => f * w) (mix_rescale true l)) = 1.
Proof.
  intros Hn. pose proof (nodes_wf l Hn) as Sp. unfold mix_rescale. cbv zeta. set (s := lsum _) in *. rewrite map_map.
  rewrite (lsum_map_ext _ (fun x => / s * (let '(f, v, w) := x in f * w))). 2:{ intros [[f v] w] _. unfold Rdiv. ring. } rewrite lsum_map_scal. fold s. apply Rinv_l. lra.
Qed.
Lemma lsum_lt {A} (f g : A -> R) l : l <> [] -> (forall a, In a l -> f a < g a) -> lsum (map f l) < lsum (map g l).
Proof.
  intros Hl H. destruct l as [|a l]; [contradiction|]. cbn [map]. change (f a + lsum (map f l) < g a + lsum (map g l)). pose proof (H a (or_introl eq_refl)). pose proof (lsum_map_le f g l (fun b Hb => Rlt_le _ _ (H b (or_intror Hb)))). lra.
Qed.
Lemma lsum_abs l : Rabs (lsum l) <= lsum (map Rabs l).
Proof. induction l as [|a l IH]; [cbn; rewrite Rabs_R0; lra|]. cbn [map]. change (Rabs (a + lsum l) <= Rabs a + lsum (map Rabs l)). pose proof (Rabs_triang a (lsum l)). lra. Qed.
Section Mix.
Variables (Gam : R -> R) (gcdf gsf : R -> R -> R).
Hypothesis HG : gamma_function Gam.
Hypothesis Hg : gamma_routines Gam gcdf gsf.
Lemma alpha_pos p F : 0 < F -> b_sigma p <> 0 -> sabr_alpha p F <> 0.
Proof. intros HF Hs. rewrite alpha_eq by exact HF. unfold Rdiv. apply Rmult_integral_contrapositive_currified; [exact Hs|]. apply Rinv_neq_0_compat, Rgt_not_eq, exp_pos. Qed.
Lemma mix_range mo p c l S T : 0 < S -> 0 < T -> b_beta p < 1 -> b_sigma p <> 0 -> nodes_ok l -> 0 < mix_mass_zero gsf mo p c l S T < 1.
Proof using HG Hg.
  intros HS HT Hb Hs Hn. destruct (rescale_ok c l Hn) as (Hl & H & Hw). unfold mix_mass_zero. cbv zeta. change (forward mo S T) with (mF mo S T). pose proof (alpha_pos p _ (mF_pos mo S T HS) Hs) as Ha. set (al := sabr_alpha _ _) in *. clearbody al. set (l' := mix_rescale c l) in *. clearbody l'.
  assert (R : forall a, In a l' -> 0 < (let '(f, v, w) := a in cev_mass_zero gsf (b_beta p) (mkOpt (al * v) (intr mo) (divr mo) true) f T * w) < (let '(f, v, w) := a in w)).
  { intros [[f v] w] Hi. destruct (H f v w Hi) as (A & B & C). pose proof (mass_range Gam gcdf gsf (b_beta p) (mkOpt (al * v) (intr mo) (divr mo) true) f T HG Hg Hb) as M. cbn [sigma] in M. specialize (M ltac:(apply Rmult_integral_contrapositive_currified; assumption) A HT). nra. }
  split.
  - pose proof (lsum_lt (fun _ => 0) _ l' Hl (fun a Ha => proj1 (R a Ha))) as L. rewrite lsum_map_const, Rmult_0_r in L. exact L.
  - rewrite <- Hw. apply (lsum_lt _ (fun a => let '(f, v, w) := a in w) l' Hl). intros a Hi. apply R, Hi.
Qed.
Variable lg : R -> R.
Hypothesis Hlg : forall a, 0 < a -> lg a = ln (Gam a).
Lemma mix_log mo p c l S T : 0 < S -> 0 < T -> b_beta p <= 11 / 12 -> b_sigma p <> 0 -> nodes_ok l ->
  Rabs (exp (mix_log_mass_zero gsf lg mo p c l S T) - mix_mass_zero gsf mo p c l S T) <= / 10 ^ 7 * mix_mass_zero gsf mo p c l S T.
Proof using HG Hg Hlg.
  intros HS HT Hb Hs Hn. destruct (rescale_ok c l Hn) as (Hl & H & Hw). unfold mix_log_mass_zero, mix_mass_zero. cbv zeta. change (forward mo S T) with (mF mo S T). pose proof (alpha_pos p _ (mF_pos mo S T HS) Hs) as Ha. set (al := sabr_alpha _ _) in *. clearbody al. set (l' := mix_rescale c l) in *. clearbody l'.
  rewrite lse_eq by (destruct l'; [contradiction|discriminate]). rewrite map_map, <- lsum_map_minus, <- lsum_map_scal.
  eapply Rle_trans; [apply lsum_abs|]. rewrite map_map. apply lsum_map_le. intros [[f v] w] Hi. destruct (H f v w Hi) as (A & B & C).
  pose proof (log_mass_thm Gam gcdf gsf lg (b_beta p) (mkOpt (al * v) (intr mo) (divr mo) true) f T HG Hg Hlg Hb) as M. cbn [sigma] in M. specialize (M ltac:(apply Rmult_integral_contrapositive_currified; assumption) A HT).
  rewrite exp_plus, exp_ln by exact C. set (e := exp _) in *. set (q := cev_mass_zero _ _ _ _ _) in *. replace (w * e - q * w) with ((e - q) * w) by ring. rewrite Rabs_mult, (Rabs_right w) by lra. nra.
Qed.
Lemma mc_range mo p vs S T : 0 < S -> 0 < T -> b_beta p < 1 -> b_sigma p <> 0 -> vs <> [] -> (forall v, In v vs -> v <> 0) -> 0 < mc_mass_zero gsf mo p vs S T < 1.
Proof using HG Hg.
  intros HS HT Hb Hs Hn Hv. unfold mc_mass_zero. cbv zeta. change (forward mo S T) with (mF mo S T). pose proof (alpha_pos p _ (mF_pos mo S T HS) Hs) as Ha. set (al := sabr_alpha _ _) in *. clearbody al.
  assert (N : 0 < INR (length vs)) by (apply lt_0_INR; destruct vs; [contradiction|cbn; lia]).
  assert (R : forall v, In v vs -> 0 < cev_mass_zero gsf (b_beta p) (mkOpt (al * v) (intr mo) (divr mo) true) 1 T < 1).
  { intros v Hi. apply (mass_range Gam gcdf); try assumption; [|lra]. cbn [sigma]. apply Rmult_integral_contrapositive_currified; [exact Ha|apply Hv, Hi]. }
  pose proof (lsum_lt (fun _ => 0) _ vs Hn (fun v Hi => proj1 (R v Hi))) as L. pose proof (lsum_lt _ (fun _ => 1) vs Hn (fun v Hi => proj2 (R v Hi))) as U. rewrite lsum_map_const in L, U. split.
  - apply Rdiv_lt_0_compat; lra.
  - apply (Rmult_lt_reg_r (INR (length vs))); [exact N|]. unfold Rdiv. rewrite Rmult_assoc, Rinv_l; lra.
Qed.
Lemma mc_log mo p vs S T : 0 < S -> 0 < T -> b_beta p <= 11 / 12 -> b_sigma p <> 0 -> vs <> [] -> (forall v, In v vs -> v <> 0) ->
  Rabs (exp (mc_log_mass_zero gsf lg mo p vs S T) - mc_mass_zero gsf mo p vs S T) <= / 10 ^ 7 * mc_mass_zero gsf mo p vs S T.
Proof using HG Hg Hlg.
  intros HS HT Hb Hs Hn Hv. unfold mc_log_mass_zero, mc_mass_zero. cbv zeta. change (forward mo S T) with (mF mo S T). pose proof (alpha_pos p _ (mF_pos mo S T HS) Hs) as Ha. set (al := sabr_alpha _ _) in *. clearbody al.
  assert (N : 0 < INR (length vs)) by (apply lt_0_INR; destruct vs; [contradiction|cbn; lia]).
  set (g := map _ vs). assert (G0 : g <> []) by (unfold g; destruct vs; [contradiction|discriminate]). assert (Lg : length g = length vs) by apply map_length. rewrite Lg.
  pose proof (lse_range g G0) as Rg. rewrite exp_plus, exp_ln by (apply Rdiv_lt_0_compat; lra).
  assert (E : exp (lmax g) * (lsum (map (fun x => exp (x - lmax g)) g) / INR (length vs)) = lsum (map exp g) / INR (length vs)).
  { rewrite <- (lse_eq g G0). unfold log_sum_exp. cbv zeta. rewrite exp_plus, exp_ln by lra. unfold Rdiv. ring. }
  rewrite E. unfold g. rewrite map_map. set (A := lsum _). set (B := lsum _). replace (A / INR (length vs) - B / INR (length vs)) with ((A - B) / INR (length vs)) by (field; lra).
  unfold Rdiv. rewrite Rabs_mult, (Rabs_right (/ _)) by (apply Rle_ge; left; apply Rinv_0_lt_compat, N). rewrite <- Rmult_assoc. apply Rmult_le_compat_r; [left; apply Rinv_0_lt_compat, N|]. unfold A, B.
  rewrite <- lsum_map_minus, <- lsum_map_scal. eapply Rle_trans; [apply lsum_abs|]. rewrite map_map. apply lsum_map_le. intros v Hi.
  apply (log_mass_thm Gam gcdf); try assumption; [|lra]. cbn [sigma]. apply Rmult_integral_contrapositive_currified; [exact Ha|apply Hv, Hi].
Qed.
(** rates enter although the inputs are forwards *)
Lemma mass_rates beta v r q S T : beta < 1 -> v <> 0 -> 0 < S -> 0 < T -> r <> q -> cev_mass_zero gsf beta (mkOpt v r q true) S T <> cev_mass_zero gsf beta (mkOpt v 0 0 true) S T.
Proof using HG Hg.
  intros Hb Hv HS HT Hr. rewrite !mass_as_tail by (try assumption; lra). set (a := / 2 / (1 - beta)). assert (Ha : 0 < a) by (unfold a; apply Rdiv_lt_0_compat; lra). destruct (Hg a Ha) as [HP Hsf].
  pose proof (t0_pos beta (mkOpt v r q true) S T ltac:(lra) Hv HS) as P1. pose proof (t0_pos beta (mkOpt v 0 0 true) S T ltac:(lra) Hv HS) as P2.
  assert (D : cev_mass_zero_t0 beta (mkOpt v r q true) S T <> cev_mass_zero_t0 beta (mkOpt v 0 0 true) S T).
  { rewrite !t0_eq in * by exact HS. cbn [sigma intr divr] in *. unfold mF, FWD in *. cbn [is_fwd] in *. replace (2 * (0 - 0) * (1 - beta) * T) with 0 in * by ring. rewrite exprel_z, Rinv_1, Rmult_1_r in *. set (x := 2 * (r - q) * (1 - beta) * T) in *.
    set (c := / 2 * _) in *. assert (X : x <> 0) by (unfold x; repeat apply Rmult_integral_contrapositive_currified; lra). assert (E : exprel x <> 1).
    { rewrite exprel_nz by exact X. intros E. assert (H : exp x - 1 = x) by (apply (Rmult_eq_compat_r x) in E; unfold Rdiv in E; rewrite Rmult_assoc, Rinv_l in E by exact X; lra). pose proof (exp_ineq1 x X). lra. }
    intros Q. apply E. apply (f_equal Rinv) in Q. rewrite Rinv_mult, Rinv_inv in Q. assert (/ c <> 0) by (apply Rinv_neq_0_compat; lra). apply (Rmult_eq_reg_l (/ c)); lra. }
  set (x1 := cev_mass_zero_t0 _ _ _ _) in *. set (x2 := cev_mass_zero_t0 beta (mkOpt v 0 0 true) S T) in *. clearbody x1 x2. assert (Y1 : 0 < x1 / T) by (apply Rdiv_lt_0_compat; assumption). assert (Y2 : 0 < x2 / T) by (apply Rdiv_lt_0_compat; assumption).
  rewrite !Hsf by assumption. assert (I : 0 < / T) by (apply Rinv_0_lt_compat, HT). destruct (Rtotal_order x1 x2) as [L|[L|L]]; [|contradiction|].
  - assert (x1 / T < x2 / T) by (unfold Rdiv; nra). pose proof (gcdf_incr Gam a _ _ _ HG Ha HP Y1 H) as G. cbv beta in G. lra.
  - assert (x2 / T < x1 / T) by (unfold Rdiv; nra). pose proof (gcdf_incr Gam a _ _ _ HG Ha HP Y2 H) as G. cbv beta in G. lra.
Qed.
End Mix.
