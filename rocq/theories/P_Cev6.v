(** CEV: the property statements assembled. *)
From Coq Require Import Reals Lra Lia Psatz Arith ZArith FunctionalExtensionality.
From Coquelicot Require Import Coquelicot.
From Verif Require Import Base Gauss Sums Spec_Opt Spec_Cev M_Opt M_Heston M_Cev P_Bsm P_Gamma P_Gamma2 P_Ncx2 P_Ncx3 P_Half P_Cev P_Cev2 P_Cev3 P_Cev4 P_Cev5.
Open Scope R_scope.

Lemma cdf_unique f P Q : cdf_of f P -> cdf_of f Q -> forall x, 0 < x -> P x = Q x.
Proof.
  intros (DP & P0 & P1) (DQ & Q0 & Q1) x Hx. exact (half_unique P Q f 0 DP DQ P0 Q0 x Hx).
Qed.

Lemma rpower_one b : Rpower 1 b = 1.
Proof. unfold Rpower. now rewrite ln_1, Rmult_0_r, exp_0. Qed.
Section C.
Variable Gam : R -> R.
Hypothesis HG : gamma_function Gam.
Lemma ccall_incr beta F K s1 s2 : beta <> 1 -> 0 < F -> 0 < K -> 0 < s1 -> s1 < s2 -> ccall Gam beta F K s1 < ccall Gam beta F K s2.
Proof using HG.
  intros Hb HF HK H1 H2. apply (increasing_on (fun s => ccall Gam beta F K s) (fun s => hlf beta * (1 / s) * F * cdens Gam beta F K s)); [exact H2| |].
  - intros s Hs. eapply is_derive_eq; [apply (ccall_total Gam HG beta (fun _ => F) (fun _ => K) (fun s => s) s 0 0 1); try assumption; try apply is_derive_const_R; try apply is_derive_id_R; lra|ring].
  - intros s Hs. pose proof (hlf_pos beta Hb). pose proof (cdens_pos Gam HG beta F K s Hb HF HK ltac:(lra)).
    apply Rmult_lt_0_compat; [|assumption]. apply Rmult_lt_0_compat; [|assumption]. apply Rmult_lt_0_compat; [assumption|]. apply Rdiv_lt_0_compat; lra.
Qed.
Lemma lim_ge (f : R -> R) (Fi : (R -> Prop) -> Prop) {PF : ProperFilter Fi} (l c : R) : filterlim f Fi (locally l) -> Fi (fun x => c <= f x) -> c <= l.
Proof using.
  intros L H. apply (filterlim_le (F := Fi) (fun _ => c) f (Finite c) (Finite l)); [exact H|apply filterlim_const|exact L].
Qed.
Lemma lim_le (f : R -> R) (Fi : (R -> Prop) -> Prop) {PF : ProperFilter Fi} (l c : R) : filterlim f Fi (locally l) -> Fi (fun x => f x <= c) -> l <= c.
Proof using.
  intros L H. apply (filterlim_le (F := Fi) f (fun _ => c) (Finite l) (Finite c)); [exact H|exact L|apply filterlim_const].
Qed.
Lemma ccall_bounds beta F K s : beta <> 1 -> 0 < F -> 0 < K -> 0 < s -> Rmax (F - K) 0 <= ccall Gam beta F K s <= F.
Proof using HG.
  intros Hb HF HK Hs.
  assert (Dm : forall x y, 0 < x -> x <= y -> ccall Gam beta F y s <= ccall Gam beta F x s /\ ccall Gam beta F x s + x <= ccall Gam beta F y s + y).
  { intros x y Hx Hy. destruct Hy as [Hy| ->]; [|lra]. split.
    - apply Ropp_le_cancel. apply (nondecreasing_on (fun K => - ccall Gam beta F K s) (fun K => csurv Gam beta F K s)); [lra| |].
      + intros t Ht. eapply is_derive_eq; [apply (is_derive_opp (K := R_AbsRing) (V := R_NormedModule) (fun K => ccall Gam beta F K s)); apply (C_derive Gam HG beta F s Hb HF Hs); lra|]. unfold opp; cbn. ring.
      + intros t Ht. apply (G_range Gam HG beta F s Hb HF Hs t t); lra.
    - apply (nondecreasing_on (fun K => ccall Gam beta F K s + K) (fun K => - csurv Gam beta F K s + 1)); [lra| |].
      + intros t Ht. apply is_derive_plus_R; [apply (C_derive Gam HG beta F s Hb HF Hs); lra|apply is_derive_id_R].
      + intros t Ht. pose proof (G_range Gam HG beta F s Hb HF Hs t t). lra. }
  pose proof (C_at0 Gam HG beta F s Hb HF Hs) as C0. pose proof (C_inf Gam HG beta F s Hb HF Hs) as Ci.
  assert (Id : filterlim (fun K : R => K) (at_right 0) (locally 0)) by (intros P HP; apply filter_le_within; exact HP).
  assert (C0' : filterlim (fun k => ccall Gam beta F k s + k) (at_right 0) (locally (F + 0))) by (apply lim_plus_at0; assumption).
  split.
  - apply Rmax_lub.
    + assert (F + 0 <= ccall Gam beta F K s + K); [|lra]. apply (lim_le _ (at_right 0) (F + 0) (ccall Gam beta F K s + K) C0'). exists (mkposreal K HK). intros x Bx Hx. change (Rabs (x - 0) < K) in Bx. apply Rabs_def2 in Bx. apply Dm; lra.
    + apply (Rle_trans _ (if Rlt_dec beta 1 then 0 else F * (1 - Hn Gam (hlf beta) 0 (yv (1 - beta) F s)))).
      * destruct (Rlt_dec beta 1); [lra|]. pose proof (Hn_lt1 Gam HG (hlf beta) (yv (1 - beta) F s) (hlf_pos beta Hb) (yv_pos _ _ _ Hs)). apply Rmult_le_pos; lra.
      * apply (lim_le (fun k => ccall Gam beta F k s) (Rbar_locally p_infty) _ (ccall Gam beta F K s)); [|exists K; intros x Hx; apply Dm; lra].
        destruct (Rlt_dec beta 1); exact Ci.
  - apply (lim_ge _ (at_right 0) F (ccall Gam beta F K s) C0). exists (mkposreal K HK). intros x Bx Hx. change (Rabs (x - 0) < K) in Bx. apply Rabs_def2 in Bx. apply Dm; lra.
Qed.
End C.

Section D.
Variables (Gam : R -> R) (cdf sf pdf : R -> R -> R -> R).
Hypothesis HG : gamma_function Gam.
Hypothesis HR : ncx2_routines Gam cdf sf pdf.
Lemma price_bounds beta m K S T : beta <> 1 -> 0 < K -> 0 < S ->
  payoff 1 K (mF m S T) * mD m T <= cev_price cdf sf beta m K S T 1 <= mF m S T * mD m T /\
  payoff (-1) K (mF m S T) * mD m T <= cev_price cdf sf beta m K S T (-1) <= K * mD m T.
Proof using HG HR.
  intros Hb HK HS. destruct (price_eq Gam cdf sf pdf HG HR beta m K S T Hb HK HS) as [-> ->].
  pose proof (mF_pos m S T HS) as F0. pose proof (mD_pos m T) as D0. pose proof (ccall_bounds Gam HG beta (mF m S T) K (s_eff beta m (mF m S T) T) Hb F0 HK (s_eff_pos _ _ _ _ Hb)) as [B1 B2].
  set (c := ccall _ _ _ _ _) in *. set (F := mF m S T) in *. set (D := mD m T) in *. clearbody c F D.
  pose proof (Rmax_l (F - K) 0). pose proof (Rmax_r (F - K) 0).
  assert (P1 : payoff 1 K F <= c) by (unfold payoff; replace (1 * (F - K)) with (F - K) by ring; exact B1).
  assert (P2 : payoff (-1) K F <= c - F + K) by (unfold payoff; apply Rmax_lub; lra).
  split; split; nra.
Qed.
Lemma cdf_eq beta m K S T : beta < 1 -> 0 < K -> 0 < S -> 0 < s_of beta m T ->
  cev_cdf cdf sf beta m K S T 1 = csurv Gam beta (mF m S T) K (s_of beta m T) /\
  cev_cdf cdf sf beta m K S T (-1) = 1 - csurv Gam beta (mF m S T) K (s_of beta m T).
Proof using HG HR.
  intros Hb HK HS Hs. unfold cev_cdf. change (forward m S T) with (mF m S T). pose proof (mF_pos m S T HS) as F0.
  rewrite (vars_eq beta m (mF m S T) K T ltac:(lra) F0 HK Hs). set (F := mF m S T) in *. set (s := s_of beta m T) in *.
  destruct (Rlt_dec 0 1) as [_|]; [|lra]. destruct (Rlt_dec 0 (-1)) as [|_]; [lra|]. unfold csurv. destruct (Rlt_dec beta 1) as [_|]; [|lra].
  pose proof (hlf_pos beta ltac:(lra)) as Ha. pose proof (yv_pos (1 - beta) F s Hs) as P0. pose proof (yv_pos (1 - beta) K s Hs) as P1. rewrite (hlf_lt beta Hb).
  rewrite (r_cdf Gam cdf sf pdf HG HR (hlf beta) (yv (1 - beta) K s) (yv (1 - beta) F s)) by (try reflexivity; lra).
  rewrite (r_sf Gam cdf sf pdf HG HR (hlf beta) (yv (1 - beta) K s) (yv (1 - beta) F s)) by (try reflexivity; lra). split; reflexivity.
Qed.
Lemma mass_eq gcdf gsf beta m S T : gamma_routines Gam gcdf gsf -> beta < 1 -> 0 < S -> 0 < s_of beta m T ->
  cev_mass_zero gsf beta m S T = 1 - Hn Gam (hlf beta) 0 (yv (1 - beta) (mF m S T) (s_of beta m T)).
Proof using HG.
  intros Hg Hb HS Hs. unfold cev_mass_zero. cbv zeta. change (forward m S T) with (mF m S T). pose proof (mF_pos m S T HS) as F0. set (F := mF m S T) in *.
  replace (/ 2 / (1 - beta)) with (hlf beta) by (unfold hlf; rewrite Rabs_right by lra; field; lra).
  assert (E : ((1 - beta) * (sigma m / Rpower F (1 - beta))) ^ 2 * T * exprel (2 * (intr m - divr m) * (1 - beta) * T) = s_of beta m T / Rpower F (2 * (1 - beta))).
  { unfold s_of. rewrite rp2. assert (0 < Rpower F (1 - beta)) by apply exp_pos. field. lra. }
  rewrite E. set (s := s_of beta m T) in *. replace (/ 2 / (s / Rpower F (2 * (1 - beta)))) with (yv (1 - beta) F s).
  - destruct (Hg (hlf beta) (hlf_pos beta ltac:(lra))) as [A B]. rewrite (B _ (yv_pos (1 - beta) F s Hs)). f_equal.
    apply (cdf_unique (gamma_pdf Gam (hlf beta)) (fun x => gcdf x (hlf beta)) (Hn Gam (hlf beta) 0)); [exact A|apply (Hn_0 Gam HG); apply hlf_pos; lra|now apply yv_pos].
  - unfold yv. assert (0 < Rpower F (2 * (1 - beta))) by apply exp_pos. field. lra.
Qed.

(** the law behind the prices, beta < 1 *)
Lemma put_lt beta F s : beta <> 1 -> 0 < F -> 0 < s -> forall K, 0 < K -> put_is (fun K => csurv Gam beta F K s) K (ccall Gam beta F K s - F + K).
Proof using HG.
  intros Hb HF Hs K HK. unfold put_is. replace (ccall Gam beta F K s - F + K) with ((ccall Gam beta F K s + K) - (F + 0)) by ring.
  apply (gen_anti (Fa := at_right 0) (Fb := at_point K) (fun K => ccall Gam beta F K s + K) (fun k => 1 - csurv Gam beta F k s) (F + 0) (ccall Gam beta F K s + K)); [apply right_pos|now apply at_point_pos| | | |apply (lim_at_point (fun K => ccall Gam beta F K s + K))].
  - intros x Hx. eapply is_derive_eq; [apply is_derive_plus_R; [now apply (C_derive Gam HG)|apply is_derive_id_R]|ring].
  - intros x Hx. apply (continuous_minus (fun _ => 1) (fun k => csurv Gam beta F k s)); [apply continuous_const|now apply (G_cont Gam HG)].
  - apply lim_plus_at0; [now apply (C_at0 Gam HG)|]. intros P HP. apply filter_le_within. exact HP.
Qed.
Lemma gen_ext {Fa Fb : (R -> Prop) -> Prop} {FA : Filter Fa} {FB : Filter Fb} (f g : R -> R) l : Fa (fun a => 0 < a) -> Fb (fun b => 0 < b) ->
  (forall x, 0 < x -> f x = g x) -> is_RInt_gen f Fa Fb l -> is_RInt_gen g Fa Fb l.
Proof using.
  intros A B E. apply is_RInt_gen_ext. apply (Filter_prod _ _ _ (fun a => 0 < a) (fun b => 0 < b) A B). intros a b Ha Hb x Hx. cbn [fst snd] in Hx. apply E. pose proof (Rmin_glb_lt a b 0 Ha Hb). lra.
Qed.
Lemma law_ext m0 G G' : (forall x, 0 < x -> G x = G' x) -> survival m0 G -> survival m0 G'.
Proof using.
  intros E (A & B & C). split; [|split].
  - intros x y Hx Hy. rewrite <- !E by lra. now apply A.
  - apply (filterlim_ext_loc G); [|exact B]. exists (mkposreal 1 Rlt_0_1). intros x _ Hx. now apply E.
  - apply (is_lim_ext_loc G); [|exact C]. exists 0. exact E.
Qed.
Definition above_floor (beta : R) (m : opt) (S T : R) : Prop := eps < (sigma m / Rpower (mF m S T) (1 - beta)) ^ 2 * T.
Lemma law_thm gcdf gsf beta m S T : gamma_routines Gam gcdf gsf -> beta < 1 -> 0 < S -> above_floor beta m S T ->
  let G := fun k => cev_cdf cdf sf beta m k S T 1 in
  0 < cev_mass_zero gsf beta m S T < 1 /\ survival (cev_mass_zero gsf beta m S T) G /\ mean_is G (mF m S T) /\
  forall K, 0 < K -> cev_cdf cdf sf beta m K S T (-1) = 1 - G K /\ (exists c, call_is G K c /\ cev_price cdf sf beta m K S T 1 = mD m T * c) /\
    (exists p, put_is G K p /\ cev_price cdf sf beta m K S T (-1) = mD m T * p).
Proof using HG HR.
  intros Hg Hb HS Ho G. assert (Hb' : beta <> 1) by lra. pose proof (mF_pos m S T HS) as F0. assert (S0 : 0 < s_of beta m T) by (apply (s_of_pos beta m T (mF m S T)); [lra|left; exact Ho]).
  assert (Ec : forall k, 0 < k -> csurv Gam beta (mF m S T) k (s_of beta m T) = G k) by (intros k Hk; symmetry; now apply cdf_eq).
  rewrite (mass_eq gcdf gsf beta m S T Hg Hb HS S0). destruct (law_lt Gam HG beta (mF m S T) (s_of beta m T) Hb' F0 S0 Hb) as (L1 & L2 & L3).
  set (y0 := yv (1 - beta) (mF m S T) (s_of beta m T)) in *. assert (Y0 : 0 < y0) by now apply yv_pos.
  assert (Es : s_eff beta m (mF m S T) T = s_of beta m T) by (apply s_eff_of; left; exact Ho).
  split; [|split; [|split]].
  - pose proof (Hn_lt1 Gam HG (hlf beta) y0 (hlf_pos beta Hb') Y0).
    assert (0 < Hn Gam (hlf beta) 0 y0); [|lra]. destruct (Hn_0 Gam HG (hlf beta) (hlf_pos beta Hb')) as (D & Z & _).
    apply (Rle_lt_trans _ (Hn Gam (hlf beta) 0 (y0 / 2))); [apply (Hn_ge0 Gam HG); try lra; now apply hlf_pos|].
    apply (increasing_on (Hn Gam (hlf beta) 0) (gamma_pdf Gam (hlf beta))); [lra|intros t Ht; apply D; lra|].
    intros t Ht. unfold gamma_pdf. apply Rdiv_lt_0_compat; [apply Rmult_lt_0_compat; apply exp_pos|apply HG; now apply hlf_pos].
  - exact (law_ext _ _ _ Ec L1).
  - exact (gen_ext _ _ _ right_pos inf_pos Ec L2).
  - intros K HK. destruct (cdf_eq beta m K S T Hb HK HS S0) as [E1 E2]. split; [unfold G; rewrite E1; exact E2|].
    destruct (price_eq Gam cdf sf pdf HG HR beta m K S T Hb' HK HS) as [P1 P2]. rewrite Es in P1, P2. split; eexists; (split; [|eassumption]).
    + exact (gen_ext _ _ _ (at_point_pos K HK) inf_pos Ec (L3 K HK)).
    + apply (gen_ext (fun k => 1 - csurv Gam beta (mF m S T) k (s_of beta m T))); [apply right_pos|now apply at_point_pos|intros x Hx; now rewrite Ec|]. now apply put_lt.
Qed.
(** beta > 1: the forward is a strict local martingale *)
Lemma gt_thm beta m S T : 1 < beta -> 0 < S -> above_floor beta m S T ->
  exists G mu, (forall K, 0 < K -> is_derive (fun K => cev_price cdf sf beta m K S T 1) K (- mD m T * G K)) /\
  survival 0 G /\ mean_is G mu /\ 0 < mu < mF m S T /\
  forall K, 0 < K -> (exists p, put_is G K p /\ cev_price cdf sf beta m K S T (-1) = mD m T * p) /\
     (exists c, call_is G K c /\ cev_price cdf sf beta m K S T 1 = mD m T * (c + (mF m S T - mu))).
Proof using HG HR.
  intros Hb HS Ho. assert (Hb' : beta <> 1) by lra. pose proof (mF_pos m S T HS) as F0. assert (S0 : 0 < s_of beta m T) by (apply (s_of_pos beta m T (mF m S T)); [lra|left; exact Ho]).
  destruct (law_gt Gam HG beta (mF m S T) (s_of beta m T) Hb' F0 S0 Hb) as (L1 & L2 & L3 & L4).
  set (y0 := yv (1 - beta) (mF m S T) (s_of beta m T)) in *. assert (Y0 : 0 < y0) by now apply yv_pos. pose proof (hlf_pos beta Hb') as Ha.
  assert (Es : s_eff beta m (mF m S T) T = s_of beta m T) by (apply s_eff_of; left; exact Ho).
  exists (fun K => csurv Gam beta (mF m S T) K (s_of beta m T)), (mF m S T * Hn Gam (hlf beta) 0 y0). split; [|split; [exact L1|split; [exact L2|split]]].
  - intros K HK. eapply is_derive_eq; [eapply (strike_thm Gam cdf sf pdf HG HR beta 1); try eassumption; left; reflexivity|]. field.
  - pose proof (Hn_lt1 Gam HG (hlf beta) y0 Ha Y0).
    assert (0 < Hn Gam (hlf beta) 0 y0); [|split; [apply Rmult_lt_0_compat; assumption|nra]]. destruct (Hn_0 Gam HG (hlf beta) Ha) as (D & Z & _).
    apply (Rle_lt_trans _ (Hn Gam (hlf beta) 0 (y0 / 2))); [apply (Hn_ge0 Gam HG); lra|].
    apply (increasing_on (Hn Gam (hlf beta) 0) (gamma_pdf Gam (hlf beta))); [lra|intros t Ht; apply D; lra|].
    intros t Ht. unfold gamma_pdf. apply Rdiv_lt_0_compat; [apply Rmult_lt_0_compat; apply exp_pos|apply HG; exact Ha].
  - intros K HK. destruct (price_eq Gam cdf sf pdf HG HR beta m K S T Hb' HK HS) as [P1 P2]. rewrite Es in P1, P2. split; eexists; split.
    + now apply L3.
    + exact P2.
    + now apply L4.
    + rewrite P1. ring.
Qed.
(** the reported distribution for beta > 1 calls the chi-square routine with negative degrees of freedom *)
Lemma cdf_gt_refuted beta m K S T v : 1 < beta -> exists cdf' sf' pdf', ncx2_routines Gam cdf' sf' pdf' /\ cev_cdf cdf' sf' beta m K S T 1 = v.
Proof using HR.
  intros Hb. exists (fun x k lam => if Rlt_dec 0 k then cdf x k lam else v), sf, pdf. split.
  - intros k lam Hk Hl. destruct (Rlt_dec 0 k) as [_|]; [|contradiction]. now apply HR.
  - unfold cev_cdf, cev_variables. destruct (Rlt_dec 0 1) as [_|]; [|lra]. destruct (Rlt_dec 0 (1 / (1 - beta))) as [L|_]; [|reflexivity].
    exfalso. assert (1 / (1 - beta) < 0); [|lra]. unfold Rdiv. rewrite Rmult_1_l. apply Rinv_lt_0_compat. lra.
Qed.
(** volatility *)
Lemma sigma_mono beta m K S T cp s1 s2 : call_or_put cp -> beta <> 1 -> 0 < K -> 0 < S -> 0 <= T -> 0 <= s1 <= s2 ->
  cev_price cdf sf beta (set_sigma m s1) K S T cp <= cev_price cdf sf beta (set_sigma m s2) K S T cp /\
  (s1 < s2 -> above_floor beta (set_sigma m s2) S T -> cev_price cdf sf beta (set_sigma m s1) K S T cp < cev_price cdf sf beta (set_sigma m s2) K S T cp).
Proof using HG HR.
  intros Hc Hb HK HS HT [H1 H2]. rewrite !(price_cp Gam cdf sf pdf HG HR) by assumption. change (mF (set_sigma m s1) S T) with (mF m S T). change (mF (set_sigma m s2) S T) with (mF m S T).
  change (mD (set_sigma m s1) T) with (mD m T). change (mD (set_sigma m s2) T) with (mD m T). pose proof (mD_pos m T) as D0. pose proof (mF_pos m S T HS) as F0. set (F := mF m S T) in *.
  assert (E1 : 0 < s_eff beta (set_sigma m s1) F T) by now apply s_eff_pos.
  assert (B : 0 < Rpower F (1 - beta)) by apply exp_pos.
  assert (A : (s1 / Rpower F (1 - beta)) ^ 2 * T <= (s2 / Rpower F (1 - beta)) ^ 2 * T).
  { apply Rmult_le_compat_r; [exact HT|]. apply pow_incr. split; [apply Rmult_le_pos; [lra|left; now apply Rinv_0_lt_compat]|]. apply Rmult_le_compat_r; [left; now apply Rinv_0_lt_compat|exact H2]. }
  set (c := Rpower F (2 * (1 - beta)) * ((1 - beta) ^ 2 * exprel (2 * (intr m - divr m) * (1 - beta) * T))).
  assert (Cp : 0 < c) by (unfold c; apply Rmult_lt_0_compat; [apply exp_pos|]; apply Rmult_lt_0_compat; [nra|apply exprel_gt0]).
  assert (Q : forall sg, s_eff beta (set_sigma m sg) F T = c * Rmax ((sg / Rpower F (1 - beta)) ^ 2 * T) eps) by (intros sg; unfold s_eff, c; cbn [set_sigma sigma intr divr]; ring).
  assert (M : s_eff beta (set_sigma m s1) F T <= s_eff beta (set_sigma m s2) F T).
  { rewrite !Q. apply Rmult_le_compat_l; [lra|]. apply Rmax_lub; [|apply Rmax_r]. eapply Rle_trans; [exact A|apply Rmax_l]. }
  split.
  - apply Rmult_le_compat_l; [lra|]. destruct M as [M| ->]; [|lra]. pose proof (ccall_incr Gam HG beta F K _ _ Hb F0 HK E1 M). lra.
  - intros Hlt Ho. unfold above_floor in Ho. change (mF (set_sigma m s2) S T) with F in Ho. cbn [set_sigma sigma] in Ho.
    assert (M' : s_eff beta (set_sigma m s1) F T < s_eff beta (set_sigma m s2) F T).
    { rewrite !Q. apply Rmult_lt_compat_l; [exact Cp|]. rewrite (Rmax_left ((s2 / _) ^ 2 * T)) by lra. apply Rmax_lub_lt; [|exact Ho].
      assert (T <> 0) by (intros ->; rewrite Rmult_0_r in Ho; pose proof eps_pos; lra). apply Rmult_lt_compat_r; [lra|].
      assert (0 <= s1 / Rpower F (1 - beta)) by (apply Rmult_le_pos; [lra|left; now apply Rinv_0_lt_compat]).
      assert (s1 / Rpower F (1 - beta) < s2 / Rpower F (1 - beta)) by (apply Rmult_lt_compat_r; [now apply Rinv_0_lt_compat|exact Hlt]). nra. }
    apply Rmult_lt_compat_l; [exact D0|]. pose proof (ccall_incr Gam HG beta F K _ _ Hb F0 HK E1 M'). lra.
Qed.
(** price_std *)
Lemma std_eq beta sig k : beta <> 1 -> 0 < sig -> 0 < k ->
  cev_price_std cdf sf pdf sig k beta 1 0 = ccall Gam beta 1 k ((1 - beta) ^ 2 * sig ^ 2) /\
  cev_price_std cdf sf pdf sig k beta (-1) 0 = 1 - ccall Gam beta 1 k ((1 - beta) ^ 2 * sig ^ 2) /\
  (forall sign, cev_price_std cdf sf pdf sig k beta sign (-1) = 2 * hlf beta / sig * cdens Gam beta 1 k ((1 - beta) ^ 2 * sig ^ 2)) /\
  (forall sign, cev_price_std cdf sf pdf sig k beta sign 1 = cev_price_std cdf sf pdf sig k beta sign 0 / cev_price_std cdf sf pdf sig k beta sign (-1)).
Proof using HG HR.
  intros Hb Hsg Hk. set (s := (1 - beta) ^ 2 * sig ^ 2). assert (Hs : 0 < s) by (unfold s; apply Rmult_lt_0_compat; nra).
  assert (Z0 : 1 / s = 2 * yv (1 - beta) 1 s). { unfold yv. rewrite rpower_one. field. lra. }
  assert (ZK : Rpower k (2 * (1 - beta)) * (2 * yv (1 - beta) 1 s) = 2 * yv (1 - beta) k s). { unfold yv. rewrite rpower_one. field. lra. }
  pose proof (hlf_pos beta Hb) as Ha. pose proof (yv_pos (1 - beta) 1 s Hs) as P0. pose proof (yv_pos (1 - beta) k s Hs) as P1.
  unfold cev_price_std. cbv zeta. fold s. rewrite Z0, ZK. cbn [Z.eqb Pos.eqb].
  destruct (Rlt_dec 0 1) as [_|]; [|lra]. destruct (Rlt_dec 0 (-1)) as [|_]; [lra|]. unfold ccall, cdens, coreL. cbv zeta.
  destruct (Rlt_dec beta 1) as [L|L].
  - rewrite (hlf_lt beta L). rewrite (r_sf Gam cdf sf pdf HG HR (hlf beta + 1) (yv (1 - beta) 1 s) (yv (1 - beta) k s)) by (try reflexivity; try ring; lra).
    rewrite (r_cdf Gam cdf sf pdf HG HR (hlf beta) (yv (1 - beta) k s) (yv (1 - beta) 1 s)) by (try reflexivity; try ring; lra).
    rewrite (r_cdf Gam cdf sf pdf HG HR (hlf beta + 1) (yv (1 - beta) 1 s) (yv (1 - beta) k s)) by (try reflexivity; try ring; lra).
    rewrite (r_pdf Gam cdf sf pdf HG HR (hlf beta + 1) (yv (1 - beta) 1 s) (yv (1 - beta) k s)) by (try reflexivity; try ring; lra).
    pose proof (np_pos Gam HG (hlf beta + 1) (yv (1 - beta) 1 s) (yv (1 - beta) k s) ltac:(lra) ltac:(lra) P1) as NP. set (p := np Gam (hlf beta + 1) (yv (1 - beta) 1 s) (yv (1 - beta) k s)) in *. clearbody p.
    split; [ring|]. split; [ring|]. split; intros sign; [unfold hlf; rewrite Rabs_right by lra; field; lra|]. destruct (Rlt_dec 0 sign); field; repeat split; lra.
  - rewrite (hlf_gt beta ltac:(lra)). rewrite (r_sf Gam cdf sf pdf HG HR (hlf beta) (yv (1 - beta) k s) (yv (1 - beta) 1 s)) by (try reflexivity; try ring; lra).
    rewrite (r_cdf Gam cdf sf pdf HG HR (hlf beta + 1) (yv (1 - beta) 1 s) (yv (1 - beta) k s)) by (try reflexivity; try ring; lra).
    rewrite (r_cdf Gam cdf sf pdf HG HR (hlf beta) (yv (1 - beta) k s) (yv (1 - beta) 1 s)) by (try reflexivity; try ring; lra).
    rewrite (r_pdf Gam cdf sf pdf HG HR (hlf beta + 1) (yv (1 - beta) k s) (yv (1 - beta) 1 s)) by (try reflexivity; try ring; lra).
    pose proof (np_pos Gam HG (hlf beta + 1) (yv (1 - beta) k s) (yv (1 - beta) 1 s) ltac:(lra) ltac:(lra) P0) as NP. set (p := np Gam (hlf beta + 1) (yv (1 - beta) k s) (yv (1 - beta) 1 s)) in *. clearbody p.
    split; [ring|]. split; [ring|]. split; intros sign; [unfold hlf; rewrite Rabs_left by lra; field; lra|]. destruct (Rlt_dec 0 sign); field; repeat split; lra.
Qed.
Lemma std_price beta m K S T : beta <> 1 -> 0 < K -> 0 < S -> 0 < sigma m -> 0 < T -> intr m = divr m -> above_floor beta m S T ->
  cev_price cdf sf beta m K S T 1 = mD m T * (mF m S T * cev_price_std cdf sf pdf (sigma m / Rpower (mF m S T) (1 - beta) * sqrt T) (K / mF m S T) beta 1 0).
Proof using HG HR.
  intros Hb HK HS Hsg HT Hr Ho. pose proof (mF_pos m S T HS) as F0. destruct (price_eq Gam cdf sf pdf HG HR beta m K S T Hb HK HS) as [-> _]. f_equal.
  rewrite s_eff_of by (left; exact Ho). set (F := mF m S T) in *. assert (B : 0 < Rpower F (1 - beta)) by apply exp_pos.
  assert (Sg : 0 < sigma m / Rpower F (1 - beta) * sqrt T) by (apply Rmult_lt_0_compat; [now apply Rdiv_lt_0_compat|now apply sqrt_lt_R0]).
  destruct (std_eq beta _ (K / F) Hb Sg ltac:(now apply Rdiv_lt_0_compat)) as [-> _].
  assert (S0 : 0 < s_of beta m T) by (apply (s_of_pos beta m T F); [exact Hb|left; exact Ho]).
  assert (Y : forall x, 0 < x -> yv (1 - beta) (x / F) ((1 - beta) ^ 2 * (sigma m / Rpower F (1 - beta) * sqrt T) ^ 2) = yv (1 - beta) x (s_of beta m T)).
  { intros x Hx. unfold yv, s_of. rewrite Hr, Rpow_mult_distr, pow2_sqrt by lra. replace (2 * (divr m - divr m) * (1 - beta) * T) with 0 by ring. unfold exprel. destruct (Req_EM_T 0 0); [|lra].
    unfold Rdiv at 1 2. rewrite Rpower_mult_distr_inv by assumption. rewrite (rp2 F). assert (0 < T) by lra. field. repeat split; lra. }
  unfold ccall, coreL. cbv zeta. assert (Y1 := Y F F0). replace (F / F) with 1 in Y1 by (field; lra). rewrite Y1, (Y K HK).
  destruct (Rlt_dec beta 1); field; lra.
Qed.
Lemma std_vega beta sig k sign : beta <> 1 -> 0 < sig -> 0 < k ->
  is_derive (fun sg => cev_price_std cdf sf pdf sg k beta 1 0) sig (cev_price_std cdf sf pdf sig k beta sign (-1)) /\ 0 < cev_price_std cdf sf pdf sig k beta sign (-1).
Proof using HG HR.
  intros Hb Hsg Hk. destruct (std_eq beta sig k Hb Hsg Hk) as (_ & _ & -> & _). assert (Hs : 0 < (1 - beta) ^ 2 * sig ^ 2) by (apply Rmult_lt_0_compat; nra).
  pose proof (hlf_pos beta Hb) as Ha. split.
  - apply (is_derive_ext_loc (fun sg => ccall Gam beta 1 k ((1 - beta) ^ 2 * sg ^ 2))).
    + assert (L : locally sig (fun u => 0 < u)) by (apply (locally_gt (fun u => u) 0 sig); [apply continuous_id|exact Hsg]). revert L. apply filter_imp. intros u Hu. symmetry. now apply std_eq.
    + eapply is_derive_eq; [apply (ccall_total Gam HG beta (fun _ => 1) (fun _ => k) (fun sg => (1 - beta) ^ 2 * sg ^ 2) sig 0 0 ((1 - beta) ^ 2 * (2 * sig))); try assumption; try lra; try apply is_derive_const_R|].
      * apply is_derive_scal_R. auto_derive; [exact I|ring].
      * field. split; [lra|intros E; apply Hb; lra].
  - apply Rmult_lt_0_compat; [apply Rdiv_lt_0_compat; lra|]. apply (cdens_pos Gam HG); try assumption; lra.
Qed.
End D.
