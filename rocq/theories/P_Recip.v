From Coq Require Import Reals Lra Lia List Psatz.
From Coquelicot Require Import Coquelicot.
From Verif Require Import Base Gauss Sums M_Opt M_Multi M_Recip Spec_Opt Spec_Expect Spec_Dist Spec_Cev Spec_Recip P_Bsm P_Expect P_Gmom P_Half P_Gamma P_Gamma2 P_Cev5 P_Cev6 P_Dist2 P_Dist3 P_Black.
Open Scope R_scope.

(** ** integrals of functions that vanish on one side of a point *)
Lemma gen_zero {Fa Fb : (R -> Prop) -> Prop} {FA : Filter Fa} {FB : Filter Fb} (u : R -> R) (y : R) :
  filter_prod Fa Fb (fun ab => forall x, Rmin (fst ab) (snd ab) < x < Rmax (fst ab) (snd ab) -> u x = 0) -> is_RInt_gen (V := R_NormedModule) u Fa Fb 0.
Proof.
  intros H Q HQ. assert (Q0 : Q 0) by (apply locally_singleton; exact HQ).
  change (filter_prod Fa Fb (fun ab => exists y, is_RInt u (fst ab) (snd ab) y /\ Q y)).
  revert H. apply filter_imp. intros [a b] H. exists 0. split; [|exact Q0]. cbn [fst snd] in *.
  apply (is_RInt_ext (fun _ => 0)). { intros x Hx. symmetry. apply H. exact Hx. }
  pose proof (is_RInt_const (V := R_NormedModule) a b 0) as Z. assert (E : scal (b - a) (0 : R_NormedModule) = (0 : R)) by (unfold scal; cbn; unfold mult; cbn; ring). rewrite E in Z. exact Z.
Qed.
Lemma half_above (G g u : R -> R) (y l : R) : 0 < y -> (forall x, 0 < x -> is_derive G x (g x)) -> (forall x, 0 < x -> continuous g x) ->
  is_lim G p_infty l -> (forall x, y < x -> u x = g x) -> (forall x, 0 < x -> x < y -> u x = 0) -> half_line u (l - G y).
Proof.
  intros Hy HD HC HL HA HB. unfold half_line. replace (l - G y) with (plus (0 : R_NormedModule) (l - G y)) by (unfold plus; cbn; ring).
  apply (is_RInt_gen_Chasles (V := R_NormedModule) (Fa := at_right 0) (Fc := Rbar_locally p_infty) u y).
  - apply (gen_zero u y). apply (Filter_prod _ _ _ (fun a => 0 < a /\ a < y) (fun b => b = y)).
    + exists (mkposreal y Hy). intros x Hx Hx0. split; [exact Hx0|]. unfold ball in Hx; cbn in Hx. unfold AbsRing_ball, abs, minus, plus, opp in Hx; cbn in Hx. rewrite Rabs_right in Hx by lra. lra.
    + reflexivity.
    + intros a b [A1 A2] -> x Hx. cbn [fst snd] in Hx. rewrite Rmin_left, Rmax_right in Hx by lra. apply HB; lra.
  - apply (is_RInt_gen_ext (V := R_NormedModule) g).
    + apply (Filter_prod _ _ _ (fun a => a = y) (fun b => y < b)); [reflexivity|exists y; auto|].
      intros a b -> B x Hx. cbn [fst snd] in Hx. rewrite Rmin_left in Hx by lra. symmetry. apply HA. lra.
    + apply (gen_anti (Fa := at_point y) (Fb := Rbar_locally p_infty) G g (G y) l); [now apply at_point_pos|apply inf_pos|exact HD|exact HC|apply lim_at_point|exact HL].
Qed.
Lemma half_below (G g u : R -> R) (y l : R) : 0 < y -> (forall x, 0 < x -> is_derive G x (g x)) -> (forall x, 0 < x -> continuous g x) ->
  filterlim G (at_right 0) (locally l) -> (forall x, 0 < x -> x < y -> u x = g x) -> (forall x, y < x -> u x = 0) -> half_line u (G y - l).
Proof.
  intros Hy HD HC HL HA HB. unfold half_line. replace (G y - l) with (plus (G y - l) (0 : R_NormedModule)) by (unfold plus; cbn; ring).
  apply (is_RInt_gen_Chasles (V := R_NormedModule) (Fa := at_right 0) (Fc := Rbar_locally p_infty) u y).
  - apply (is_RInt_gen_ext (V := R_NormedModule) g).
    + apply (Filter_prod _ _ _ (fun a => 0 < a /\ a < y) (fun b => b = y)).
      * exists (mkposreal y Hy). intros x Hx Hx0. split; [exact Hx0|]. unfold ball in Hx; cbn in Hx. unfold AbsRing_ball, abs, minus, plus, opp in Hx; cbn in Hx. rewrite Rabs_right in Hx by lra. lra.
      * reflexivity.
      * intros a b [A1 A2] -> x Hx. cbn [fst snd] in Hx. rewrite Rmin_left, Rmax_right in Hx by lra. symmetry. apply HA; lra.
    + apply (gen_anti (Fa := at_right 0) (Fb := at_point y) G g l (G y)); [apply right_pos|now apply at_point_pos|exact HD|exact HC|exact HL|apply lim_at_point].
  - apply (gen_zero u y). apply (Filter_prod _ _ _ (fun a => a = y) (fun b => y < b)); [reflexivity|exists y; auto|].
    intros a b -> B x Hx. cbn [fst snd] in Hx. rewrite Rmin_left in Hx by lra. apply HB. lra.
Qed.

Lemma expm1_pos x : 0 < x -> 0 < expm1 x.
Proof. intros H. unfold expm1. pose proof (exp_ineq1 x ltac:(lra)). lra. Qed.

(** ** inverse gamma *)
Section IG.
Variable Gam : R -> R.
Variable gc : R -> R -> R.
Hypothesis (HG : gamma_function Gam) (HR : gamma_cdf_routine Gam gc).
Lemma gpdf_cont a x : 0 < x -> continuous (gamma_pdf Gam a) x.
Proof using.
  intros Hx. apply ex_derive_continuous_R. unfold gamma_pdf.
  exists (((a - 1) * Rpower x (a - 1 - 1) * exp (- x) - Rpower x (a - 1) * exp (- x)) / Gam a).
  pose proof (is_derive_Rpower (a - 1) x Hx) as D.
  assert (E : is_derive (fun y => exp (- y)) x (- exp (- x))) by (auto_derive; [trivial|Req; ring]).
  pose proof (is_derive_mult_R _ _ _ _ _ D E) as M. cbv beta in M.
  pose proof (is_derive_scal_R _ (/ Gam a) _ _ M) as N.
  eapply is_derive_ext; [|eapply is_derive_eq; [exact N|]].
  - intros y. cbv beta. unfold Rdiv. Req. ring.
  - unfold Rdiv. ring.
Qed.
Lemma gpdf_shift a x : 1 < a -> 0 < x -> gamma_pdf Gam a x / x = gamma_pdf Gam (a - 1) x / (a - 1).
Proof using HG.
  intros Ha Hx. unfold gamma_pdf. assert (E : Gam a = (a - 1) * Gam (a - 1)) by (rewrite <- (Gam_succ Gam HG (a - 1)) by lra; f_equal; ring). rewrite E.
  rewrite <- (Rpower_succ (a - 1) x) by lra. pose proof (Gam_pos Gam HG (a - 1) ltac:(lra)). field. repeat split; lra.
Qed.

Variables (al be : R).
Hypothesis (Ha : 2 < al) (Hb : 0 < be).
Let F := be / (al - 1).
Let dens := gamma_pdf Gam al.
Lemma gc_mass a : 0 < a -> half_line (gamma_pdf Gam a) 1.
Proof using HR.
  intros H. destruct (HR a H) as (D & L0 & L1). replace 1 with (1 - 0) by ring. apply (half_line_anti (gc a)); [exact D|intros; now apply gpdf_cont|exact L0|exact L1].
Qed.
Lemma ig_m1 : pos_expect dens (fun g => be / g) F.
Proof using HG HR Ha.
  unfold pos_expect. pose proof (half_line_scal _ _ F (gc_mass (al - 1) ltac:(lra))) as H. rewrite Rmult_1_r in H.
  eapply half_line_ext; [|exact H]. intros x Hx. cbv beta. unfold F, dens.
  replace (be / x * gamma_pdf Gam al x) with (be * (gamma_pdf Gam al x / x)) by (field; lra). rewrite gpdf_shift by lra. field. lra.
Qed.
Lemma ig_m2 : pos_expect dens (fun g => (be / g) ^ 2) (F ^ 2 * ((al - 1) / (al - 2))).
Proof using HG HR Ha.
  unfold pos_expect. pose proof (half_line_scal _ _ (F ^ 2 * ((al - 1) / (al - 2))) (gc_mass (al - 2) ltac:(lra))) as H. rewrite Rmult_1_r in H.
  eapply half_line_ext; [|exact H]. intros x Hx. cbv beta. unfold F, dens.
  replace ((be / x) ^ 2 * gamma_pdf Gam al x) with (be ^ 2 / x * (gamma_pdf Gam al x / x)) by (field; lra). rewrite gpdf_shift by lra.
  replace (be ^ 2 / x * (gamma_pdf Gam (al - 1) x / (al - 1))) with (be ^ 2 / (al - 1) * (gamma_pdf Gam (al - 1) x / x)) by (field; lra).
  rewrite gpdf_shift by lra. replace (al - 1 - 1) with (al - 2) by ring. field. lra.
Qed.
Lemma igA_derive K x : 0 < x -> is_derive (fun g => F * gc (al - 1) g - K * gc al g) x ((be / x - K) * dens x).
Proof using HG HR Ha.
  intros Hx. destruct (HR al ltac:(lra)) as (D & _). destruct (HR (al - 1) ltac:(lra)) as (D1 & _).
  pose proof (is_derive_minus_R _ _ _ _ _ (is_derive_scal_R _ F _ _ (D1 x Hx)) (is_derive_scal_R _ K _ _ (D x Hx))) as H.
  eapply is_derive_eq; [exact H|]. unfold dens, F.
  replace ((be / x - K) * gamma_pdf Gam al x) with (be * (gamma_pdf Gam al x / x) - K * gamma_pdf Gam al x) by (field; lra). rewrite gpdf_shift by lra. field. lra.
Qed.
Lemma igA_cont K x : 0 < x -> continuous (fun x => (be / x - K) * dens x) x.
Proof using.
  intros Hx. apply (continuous_mult (K := R_AbsRing) (fun x => be / x - K) dens).
  - apply ex_derive_continuous_R. auto_derive. lra.
  - now apply gpdf_cont.
Qed.
Lemma igA_0 K : filterlim (fun g => F * gc (al - 1) g - K * gc al g) (at_right 0) (locally 0).
Proof using HR Ha.
  destruct (HR al ltac:(lra)) as (_ & L & _). destruct (HR (al - 1) ltac:(lra)) as (_ & L1 & _).
  replace 0 with (0 + 0) at 2 by ring. apply (filterlim_ext (fun g => F * gc (al - 1) g + (- K) * gc al g)); [intros; ring|].
  apply lim_plus_at0; apply lim_scal_at0; assumption.
Qed.
Lemma igA_inf K : is_lim (fun g => F * gc (al - 1) g - K * gc al g) p_infty (F - K).
Proof using HR Ha.
  destruct (HR al ltac:(lra)) as (_ & _ & L). destruct (HR (al - 1) ltac:(lra)) as (_ & _ & L1).
  replace (F - K) with (F * 1 - K * 1) by ring. apply is_lim_minus'; [exact (is_lim_scal_l _ F _ _ L1)|exact (is_lim_scal_l _ K _ _ L)].
Qed.
Lemma kink_lt K x : 0 < K -> 0 < x -> x < be / K -> K < be / x.
Proof using Hb.
  intros HK Hx H. apply (Rmult_lt_reg_r x); [exact Hx|]. replace (be / x * x) with be by (field; lra). apply (Rmult_lt_compat_l K) in H; [|exact HK]. replace (K * (be / K)) with be in H by (field; lra). exact H.
Qed.
Lemma kink_gt K x : 0 < K -> be / K < x -> be / x < K.
Proof using Hb.
  intros HK H. assert (0 < be / K) by (apply Rdiv_lt_0_compat; assumption). apply (Rmult_lt_reg_r x); [lra|]. replace (be / x * x) with be by (field; lra). apply (Rmult_lt_compat_l K) in H; [|exact HK]. replace (K * (be / K)) with be in H by (field; lra). exact H.
Qed.
Lemma ig_call K : 0 < K -> pos_expect dens (fun g => payoff 1 K (be / g)) (F * gc (al - 1) (be / K) - K * gc al (be / K)).
Proof using HG HR Ha Hb.
  intros HK. unfold pos_expect. assert (HY : 0 < be / K) by (apply Rdiv_lt_0_compat; assumption).
  rewrite <- (Rminus_0_r (F * gc (al - 1) (be / K) - K * gc al (be / K))).
  apply (half_below (fun g => F * gc (al - 1) g - K * gc al g) (fun x => (be / x - K) * dens x)); [exact HY|intros; now apply igA_derive|intros; now apply igA_cont|apply igA_0| |].
  - intros x Hx Hy. unfold payoff. rewrite Rmax_left; [ring|]. pose proof (kink_lt K x HK Hx Hy). lra.
  - intros x Hy. unfold payoff. rewrite Rmax_right; [ring|]. pose proof (kink_gt K x HK Hy). lra.
Qed.
Lemma ig_put K : 0 < K -> pos_expect dens (fun g => payoff (-1) K (be / g)) (K * (1 - gc al (be / K)) - F * (1 - gc (al - 1) (be / K))).
Proof using HG HR Ha Hb.
  intros HK. unfold pos_expect. assert (HY : 0 < be / K) by (apply Rdiv_lt_0_compat; assumption).
  replace (K * (1 - gc al (be / K)) - F * (1 - gc (al - 1) (be / K))) with ((K - F) - (- (F * gc (al - 1) (be / K) - K * gc al (be / K)))) by ring.
  apply (half_above (fun g => - (F * gc (al - 1) g - K * gc al g)) (fun x => - ((be / x - K) * dens x))); [exact HY| | | | |].
  - intros x Hx. apply (is_derive_opp (V := R_NormedModule)). now apply igA_derive.
  - intros x Hx. apply (continuous_opp (V := R_NormedModule)). now apply igA_cont.
  - replace (K - F) with (- (F - K)) by ring. exact (is_lim_opp _ _ _ (igA_inf K)).
  - intros x Hy. unfold payoff. rewrite Rmax_left; [ring|]. pose proof (kink_gt K x HK Hy). lra.
  - intros x Hx Hy. unfold payoff. rewrite Rmax_right; [ring|]. pose proof (kink_lt K x HK Hx Hy). lra.
Qed.
Lemma ig_above K : 0 < K -> pos_expect dens (fun g => above K (be / g)) (gc al (be / K)).
Proof using HR Ha Hb.
  intros HK. unfold pos_expect. assert (HY : 0 < be / K) by (apply Rdiv_lt_0_compat; assumption). rewrite <- (Rminus_0_r (gc al (be / K))).
  destruct (HR al ltac:(lra)) as (D & L & _).
  apply (half_below (gc al) dens); [exact HY|exact D|intros; now apply gpdf_cont|exact L| |].
  - intros x Hx Hy. unfold above. destruct (Rlt_dec K (be / x)); [ring|]. pose proof (kink_lt K x HK Hx Hy). lra.
  - intros x Hy. unfold above. destruct (Rlt_dec K (be / x)); [|ring]. pose proof (kink_gt K x HK Hy). lra.
Qed.
End IG.

Lemma forward_FWD m S T : forward m S T = FWD (intr m) (divr m) (is_fwd m) S T.
Proof.
  unfold forward, FWD. destruct (is_fwd m); [reflexivity|].
  replace (exp (- T * divr m) / exp (- T * intr m)) with (exp ((intr m - divr m) * T)); [reflexivity|].
  unfold Rdiv. rewrite <- exp_Ropp, <- exp_plus. f_equal. ring.
Qed.
Lemma ab_facts m S T : 0 < S -> 0 < sigma m ^ 2 * T -> let '(al, be) := invgam_alpha_beta m S T in
  2 < al /\ 0 < be /\ be / (al - 1) = FWD (intr m) (divr m) (is_fwd m) S T /\ (al - 1) / (al - 2) = exp (sigma m ^ 2 * T).
Proof.
  intros HS Hv. unfold invgam_alpha_beta. rewrite forward_FWD. pose proof (expm1_pos _ Hv) as E. set (F := FWD _ _ _ _ _).
  assert (HF : 0 < F) by exact (mF_pos m S T HS). assert (0 < 1 / expm1 (sigma m ^ 2 * T)) by (apply Rdiv_lt_0_compat; lra).
  assert (EE : exp (sigma m ^ 2 * T) = expm1 (sigma m ^ 2 * T) + 1) by (unfold expm1; ring).
  repeat split; [lra|apply Rmult_lt_0_compat; lra|field; lra|]. rewrite EE. set (e := expm1 _) in *. field. split; [|lra].
  replace (1 + 2 * e - 2 * e) with 1 by ring. lra.
Qed.
Lemma invgam_price_eq gc m K S T cp : call_or_put cp -> 0 < K -> 0 < S -> 0 < sigma m ^ 2 * T -> let '(al, be) := invgam_alpha_beta m S T in
  let F := FWD (intr m) (divr m) false S T in
  invgam_price gc m K S T cp = DF (intr m) T * (if Rlt_dec 0 cp then F * gc (al - 1) (be / K) - K * gc al (be / K)
     else K * (1 - gc al (be / K)) - F * (1 - gc (al - 1) (be / K))).
Proof.
  intros Hcp HK HS Hv. pose proof (ab_facts m S T HS Hv) as A. unfold invgam_price. destruct (invgam_alpha_beta m S T) as [al be]. destruct A as (A & B & C & D).
  cbv zeta. unfold invgam_formula. cbv zeta iota. replace (1 / (K / be)) with (be / K) by (field; lra).
  assert (E : exp (- T * divr m) / exp (- T * intr m) = exp ((intr m - divr m) * T)) by (unfold Rdiv; rewrite <- exp_Ropp, <- exp_plus; f_equal; ring).
  rewrite E. change (S * exp ((intr m - divr m) * T)) with (FWD (intr m) (divr m) false S T).
  unfold DF. replace (exp (- T * intr m)) with (exp (- (intr m * T))) by (f_equal; ring). destruct (Rlt_dec 0 cp); field; lra.
Qed.
Lemma invgam_law Gam gc m K S T : gamma_function Gam -> gamma_cdf_routine Gam gc -> 0 < K -> 0 < S -> 0 < sigma m ^ 2 * T ->
  let '(al, be) := invgam_alpha_beta m S T in let X := fun g => be / g in let dens := gamma_pdf Gam al in let F := FWD (intr m) (divr m) (is_fwd m) S T in
  half_line dens 1 /\ pos_expect dens X F /\ pos_expect dens (fun g => X g ^ 2) (F ^ 2 * exp (sigma m ^ 2 * T)) /\
  pos_expect dens (fun g => above K (X g)) (invgam_cdf gc m K S T 1) /\ invgam_cdf gc m K S T (-1) = 1 - invgam_cdf gc m K S T 1 /\
  (is_fwd m = false -> forall cp, call_or_put cp -> exists c, pos_expect dens (fun g => payoff cp K (X g)) c /\ invgam_price gc m K S T cp = DF (intr m) T * c).
Proof.
  intros HG HR HK HS Hv. pose proof (ab_facts m S T HS Hv) as A. pose proof (invgam_price_eq gc m K S T) as P. unfold invgam_cdf.
  destruct (invgam_alpha_beta m S T) as [al be]. destruct A as (A & B & C & D). cbv zeta.
  replace (1 / (K / be)) with (be / K) by (field; lra). destruct (Rlt_dec 0 1); [|lra]. destruct (Rlt_dec 0 (-1)); [lra|].
  split; [apply (gc_mass Gam gc HR); lra|]. split; [rewrite <- C; apply (ig_m1 Gam gc HG HR); lra|]. split; [rewrite <- C, <- D; apply (ig_m2 Gam gc HG HR); lra|].
  split; [apply (ig_above Gam gc HR); lra|]. split; [reflexivity|]. intros Hf cp Hcp. cbv zeta in P. rewrite <- Hf, <- C in P.
  destruct Hcp as [->| ->].
  - eexists. split; [apply (ig_call Gam gc HG HR); assumption|]. rewrite (P 1 (or_introl eq_refl) HK HS Hv). destruct (Rlt_dec 0 1); [reflexivity|lra].
  - eexists. split; [apply (ig_put Gam gc HG HR); assumption|]. rewrite (P (-1) (or_intror eq_refl) HK HS Hv). destruct (Rlt_dec 0 (-1)); [lra|reflexivity].
Qed.
Lemma invgam_par gc m K S T : 0 < K -> 0 < S -> 0 < sigma m ^ 2 * T ->
  invgam_price gc m K S T 1 - invgam_price gc m K S T (-1) = DF (intr m) T * (FWD (intr m) (divr m) false S T - K).
Proof.
  intros HK HS Hv. pose proof (invgam_price_eq gc m K S T) as P. destruct (invgam_alpha_beta m S T) as [al be]. cbv zeta in P.
  rewrite (P 1 (or_introl eq_refl) HK HS Hv), (P (-1) (or_intror eq_refl) HK HS Hv). destruct (Rlt_dec 0 1); [|lra]. destruct (Rlt_dec 0 (-1)); [lra|]. ring.
Qed.
