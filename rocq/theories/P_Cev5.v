(** CEV: the law implied by the prices (continued). *)
From Coq Require Import Reals Lra Lia Psatz Arith ZArith FunctionalExtensionality.
From Coquelicot Require Import Coquelicot.
From Verif Require Import Base Gauss Sums Spec_Opt Spec_Cev M_Opt M_Heston M_Cev P_Bsm P_Gamma P_Gamma2 P_Ncx2 P_Ncx3 P_Half P_Cev P_Cev2 P_Cev4.
Open Scope R_scope.

Lemma gen_anti {Fa Fb : (R -> Prop) -> Prop} {FA : Filter Fa} {FB : Filter Fb} (f g : R -> R) (la lb : R) : Fa (fun a => 0 < a) -> Fb (fun b => 0 < b) ->
  (forall x, 0 < x -> is_derive f x (g x)) -> (forall x, 0 < x -> continuous g x) -> filterlim f Fa (locally la) -> filterlim f Fb (locally lb) -> is_RInt_gen g Fa Fb (lb - la).
Proof.
  intros A B D C La Lb. assert (P : forall a b x, 0 < a -> 0 < b -> Rmin a b <= x -> 0 < x) by (intros a b x Ha Hb Hx; pose proof (Rmin_glb_lt a b 0 Ha Hb); lra).
  intros Q HQ.
  assert (L : filter_prod Fa Fb (fun ab => Q (f (snd ab) - f (fst ab)))).
  { assert (X : filterlim (fun ab : R * R => f (snd ab) - f (fst ab)) (filter_prod Fa Fb) (locally (lb - la))).
    { apply (filterlim_comp_2 (F := filter_prod Fa Fb) (fun ab : R * R => f (snd ab)) (fun ab : R * R => opp (f (fst ab))) plus (G := locally lb) (H := locally (opp la))); [| |exact (filterlim_plus (lb : R_NormedModule) (opp la))].
      - apply (filterlim_comp _ _ _ (@snd R R) f _ Fb); [apply filterlim_snd|exact Lb].
      - apply (filterlim_comp _ _ _ (fun ab : R * R => f (fst ab)) opp _ (locally la)); [|exact (filterlim_opp (la : R_NormedModule))]. apply (filterlim_comp _ _ _ (@fst R R) f _ Fa); [apply filterlim_fst|exact La]. }
    exact (X Q HQ). }
  assert (L2 : filter_prod Fa Fb (fun ab => 0 < fst ab /\ 0 < snd ab)) by (apply (Filter_prod _ _ _ (fun a => 0 < a) (fun b => 0 < b)); auto).
  change (filter_prod Fa Fb (fun ab => exists y, is_RInt g (fst ab) (snd ab) y /\ Q y)).
  generalize (filter_and _ _ L L2). apply filter_imp. intros [a b] (HX & Ha & Hb). cbn [fst snd] in *. exists (f b - f a). split; [|exact HX].
  apply (is_RInt_derive f g); intros x Hx; [apply D|apply C]; apply (P a b x Ha Hb); apply Hx.
Qed.
Lemma at_point_pos K : 0 < K -> at_point K (fun a => 0 < a). Proof. intros H. exact H. Qed.
Lemma inf_pos : Rbar_locally p_infty (fun b => 0 < b). Proof. exists 0. auto. Qed.
Lemma right_pos : at_right 0 (fun a => 0 < a). Proof. exists (mkposreal 1 Rlt_0_1). intros y _ Hy. exact Hy. Qed.
Lemma lim_at_point (f : R -> R) K : filterlim f (at_point K) (locally (f K)).
Proof. intros P HP. unfold filtermap, at_point. now apply locally_singleton. Qed.

Lemma lim_val (f : R -> R) (Fi : (R -> Prop) -> Prop) (u v : R) : u = v -> filterlim f Fi (locally u) -> filterlim f Fi (locally v).
Proof. now intros ->. Qed.

Section C.
Variable Gam : R -> R.
Hypothesis HG : gamma_function Gam.
Variables (beta F s : R).
Hypothesis Hb : beta <> 1.
Hypothesis HF : 0 < F.
Hypothesis Hs : 0 < s.
Let a := hlf beta. Let y0 := yv (1 - beta) F s.
Let C := fun K => ccall Gam beta F K s. Let G := fun K => csurv Gam beta F K s.
Lemma a0 : 0 < a. Proof using Hb. now apply hlf_pos. Qed.
Lemma y00 : 0 < y0. Proof using Hs. now apply yv_pos. Qed.
Lemma C_derive K : 0 < K -> is_derive C K (- G K).
Proof using HG Hb HF Hs.
  intros HK. eapply is_derive_eq; [apply (ccall_total Gam HG beta (fun _ => F) (fun K => K) (fun _ => s) K 0 1 0); try assumption; try apply is_derive_const_R; apply is_derive_id_R|]. unfold G. unfold Rdiv. ring.
Qed.
Lemma G_cont K : 0 < K -> continuous G K.
Proof using HG Hb HF Hs.
  intros HK. apply (ex_derive_continuous (K := R_AbsRing) (V := R_NormedModule)). pose proof a0. pose proof y00. pose proof (yv_pos (1 - beta) K s Hs).
  pose proof (yv_derive (1 - beta) (fun F => F) (fun _ => s) K 1 0 HK Hs (is_derive_id_R K) (is_derive_const_R s K)) as D0.
  unfold G, csurv. destruct (Rlt_dec beta 1); eexists.
  - apply (Hn_total Gam HG (hlf beta) (fun K => yv (1 - beta) K s) (fun _ => yv (1 - beta) F s) K); [assumption|assumption|assumption|exact D0|apply is_derive_const_R].
  - apply (Hn_total Gam HG (hlf beta + 1) (fun _ => yv (1 - beta) F s) (fun K => yv (1 - beta) K s) K); [fold a; lra|assumption|assumption|apply is_derive_const_R|exact D0].
Qed.
Lemma G_range K1 K2 : 0 < K1 -> K1 <= K2 -> 0 <= G K2 <= G K1 /\ G K1 <= 1.
Proof using HG Hb HF Hs.
  intros H1 H2. pose proof a0. pose proof y00 as Y0. pose proof (yv_pos (1 - beta) K1 s Hs) as Y1. pose proof (yv_pos (1 - beta) K2 s Hs) as Y2. unfold G, csurv. fold a. fold y0. destruct (Rlt_dec beta 1) as [L|L].
  - split; [split|]; [apply (Hn_ge0 Gam HG); lra|apply (Hn_anti_l Gam HG); [assumption|lra| |assumption]; apply yv_mono; lra|apply (Hn_le1 Gam HG); lra].
  - split; [split|]; [apply (Hn_ge0 Gam HG); lra|apply (Hn_mono_y Gam HG); [lra|lra|assumption|]; apply yv_anti; lra|apply (Hn_le1 Gam HG); lra].
Qed.
Lemma G_at0 : filterlim G (at_right 0) (locally (if Rlt_dec beta 1 then Hn Gam a 0 y0 else 1)).
Proof using HG Hb HF Hs.
  pose proof a0. pose proof y00 as Y0. unfold G, csurv. fold a. fold y0. destruct (Rlt_dec beta 1) as [L|L].
  - apply (filterlim_comp _ _ _ (fun K => yv (1 - beta) K s) (fun l => Hn Gam a l y0) _ (at_right 0)); [apply yv_lim_0r; lra|now apply (Hn_l0 Gam HG)].
  - apply (filterlim_comp _ _ _ (fun K => yv (1 - beta) K s) (fun y => Hn Gam (a + 1) y0 y) _ (Rbar_locally p_infty)); [apply yv_lim_0r'; lra|]. apply (Hn_lim1 Gam HG); lra.
Qed.
Lemma G_inf : is_lim G p_infty 0.
Proof using HG Hb HF Hs.
  pose proof a0. pose proof y00 as Y0. unfold is_lim, G, csurv. fold a. fold y0. destruct (Rlt_dec beta 1) as [L|L].
  - apply (filterlim_comp _ _ _ (fun K => yv (1 - beta) K s) (fun l => Hn Gam a l y0) _ (Rbar_locally p_infty)); [apply yv_lim_inf; lra|]. now apply (Hn_linf0 Gam HG).
  - apply (filterlim_comp _ _ _ (fun K => yv (1 - beta) K s) (fun y => Hn Gam (a + 1) y0 y) _ (at_right 0)); [apply yv_lim_inf'; lra|]. apply (Hn_lim0 Gam HG); lra.
Qed.
Lemma C_at0 : filterlim C (at_right 0) (locally F).
Proof using HG Hb HF Hs.
  pose proof a0 as A0. pose proof y00 as Y0. unfold C, ccall, coreL. fold a. fold y0.
  assert (Id : filterlim (fun K : R => K) (at_right 0) (locally 0)) by (intros P HP; apply filter_le_within; exact HP).
  assert (KG : forall g : R -> R, (forall K, 0 < K -> 0 <= g K <= 1) -> filterlim (fun K => K * g K) (at_right 0) (locally 0)).
  { intros g Hg. apply (lim_0_le (at_right 0) _ (fun K => K)); [|exact Id]. exists (mkposreal 1 Rlt_0_1). intros K _ HK. specialize (Hg K HK). nra. }
  destruct (Rlt_dec beta 1) as [L|L].
  - apply (lim_val _ _ (F * (1 + - 0) + - 0)); [ring|]. apply (filterlim_ext (fun K => F * (1 + - Hn Gam (a + 1) y0 (yv (1 - beta) K s)) + - (K * Hn Gam a (yv (1 - beta) K s) y0))); [intros; ring|].
    apply lim_plus_at0.
    + apply lim_mult_R; [typeclasses eauto|apply filterlim_const|]. apply lim_plus_at0; [apply filterlim_const|].
      apply (filterlim_comp _ _ _ (fun K => Hn Gam (a + 1) y0 (yv (1 - beta) K s)) Ropp _ (locally 0)); [|exact (filterlim_opp (0 : R_NormedModule))].
      apply (filterlim_comp _ _ _ (fun K => yv (1 - beta) K s) (fun y => Hn Gam (a + 1) y0 y) _ (at_right 0)); [apply yv_lim_0r; lra|apply (Hn_lim0 Gam HG); lra].
    + apply (filterlim_comp _ _ _ (fun K => K * Hn Gam a (yv (1 - beta) K s) y0) Ropp _ (locally 0)); [|exact (filterlim_opp (0 : R_NormedModule))].
      apply KG. intros K HK. pose proof (yv_pos (1 - beta) K s Hs). split; [apply (Hn_ge0 Gam HG)|apply (Hn_le1 Gam HG)]; lra.
  - apply (lim_val _ _ (F * (1 + - 0) + - 0)); [ring|]. apply (filterlim_ext (fun K => F * (1 + - Hn Gam a (yv (1 - beta) K s) y0) + - (K * Hn Gam (a + 1) y0 (yv (1 - beta) K s)))); [intros; ring|].
    apply lim_plus_at0.
    + apply lim_mult_R; [typeclasses eauto|apply filterlim_const|]. apply lim_plus_at0; [apply filterlim_const|].
      apply (filterlim_comp _ _ _ (fun K => Hn Gam a (yv (1 - beta) K s) y0) Ropp _ (locally 0)); [|exact (filterlim_opp (0 : R_NormedModule))].
      apply (filterlim_comp _ _ _ (fun K => yv (1 - beta) K s) (fun l => Hn Gam a l y0) _ (Rbar_locally p_infty)); [apply yv_lim_0r'; lra|now apply (Hn_linf0 Gam HG)].
    + apply (filterlim_comp _ _ _ (fun K => K * Hn Gam (a + 1) y0 (yv (1 - beta) K s)) Ropp _ (locally 0)); [|exact (filterlim_opp (0 : R_NormedModule))].
      apply KG. intros K HK. pose proof (yv_pos (1 - beta) K s Hs). split; [apply (Hn_ge0 Gam HG)|apply (Hn_le1 Gam HG)]; lra.
Qed.
Lemma C_inf : is_lim C p_infty (if Rlt_dec beta 1 then 0 else F * (1 - Hn Gam a 0 y0)).
Proof using HG Hb HF Hs.
  pose proof a0 as A0. pose proof y00 as Y0. unfold C, ccall, coreL. fold a. fold y0.
  assert (LP : forall (f g : R -> R) (u v : R), is_lim f p_infty u -> is_lim g p_infty v -> is_lim (fun K => f K - g K) p_infty (u - v)).
  { intros f g u v A B. apply (is_lim_minus f g p_infty u v (u - v) A B). reflexivity. }
  assert (LS : forall (f : R -> R) (c u : R), is_lim f p_infty u -> is_lim (fun K => c * f K) p_infty (c * u)) by (intros f c u A; exact (is_lim_scal_l f c p_infty u A)).
  destruct (Rlt_dec beta 1) as [L|L].
  - replace (Finite 0) with (Finite (F * (1 - 1) - Rpower (2 * s) a * 0)) by (f_equal; ring).
    apply (LP (fun K => F * (1 - Hn Gam (a + 1) y0 (yv (1 - beta) K s))) (fun K => K * Hn Gam a (yv (1 - beta) K s) y0)).
    + apply LS. apply LP; [apply is_lim_const|]. unfold is_lim. apply (filterlim_comp _ _ _ (fun K => yv (1 - beta) K s) (fun y => Hn Gam (a + 1) y0 y) _ (Rbar_locally p_infty)); [apply yv_lim_inf; lra|]. apply (Hn_lim1 Gam HG); lra.
    + apply (is_lim_ext_loc (fun K => Rpower (2 * s) a * (Rpower (yv (1 - beta) K s) a * Hn Gam a (yv (1 - beta) K s) y0))).
      * exists 0. intros K HK. rewrite <- Rmult_assoc. f_equal. rewrite Rpower_mult_distr by (try lra; now apply yv_pos). replace (2 * s * yv (1 - beta) K s) with (Rpower K (2 * (1 - beta))) by (unfold yv; field; lra).
        rewrite Rpower_mult. replace (2 * (1 - beta) * a) with 1; [now apply Rpower_1|]. unfold a, hlf. rewrite Rabs_right by lra. field. lra.
      * apply LS. unfold is_lim. apply (filterlim_comp _ _ _ (fun K => yv (1 - beta) K s) (fun l => Rpower l a * Hn Gam a l y0) _ (Rbar_locally p_infty)); [apply yv_lim_inf; lra|]. apply (Hn_linf Gam HG); lra.
  - replace (Finite (F * (1 - Hn Gam a 0 y0))) with (Finite (F * (1 - Hn Gam a 0 y0) - / Rpower (2 * s) a * 0)) by (f_equal; ring).
    apply (is_lim_ext (fun K => F * (1 - Hn Gam a (yv (1 - beta) K s) y0) - K * Hn Gam (a + 1) y0 (yv (1 - beta) K s))); [intros; ring|].
    apply (LP (fun K => F * (1 - Hn Gam a (yv (1 - beta) K s) y0)) (fun K => K * Hn Gam (a + 1) y0 (yv (1 - beta) K s))).
    + apply LS. apply LP; [apply is_lim_const|]. unfold is_lim. apply (filterlim_comp _ _ _ (fun K => yv (1 - beta) K s) (fun l => Hn Gam a l y0) _ (at_right 0)); [apply yv_lim_inf'; lra|]. now apply (Hn_l0 Gam HG).
    + apply (is_lim_ext_loc (fun K => / Rpower (2 * s) a * (Hn Gam (a + 1) y0 (yv (1 - beta) K s) / Rpower (yv (1 - beta) K s) a))).
      * exists 0. intros K HK. pose proof (yv_pos (1 - beta) K s Hs) as YP. assert (E : Rpower (2 * s) a * Rpower (yv (1 - beta) K s) a = / K).
        { rewrite Rpower_mult_distr by lra. replace (2 * s * yv (1 - beta) K s) with (Rpower K (2 * (1 - beta))) by (unfold yv; field; lra).
          rewrite Rpower_mult. replace (2 * (1 - beta) * a) with (- (1)); [rewrite Rpower_Ropp; now rewrite Rpower_1|]. unfold a, hlf. rewrite Rabs_left by lra. field. lra. }
        assert (0 < Rpower (2 * s) a) by apply exp_pos. assert (0 < Rpower (yv (1 - beta) K s) a) by apply exp_pos. replace K with (/ (Rpower (2 * s) a * Rpower (yv (1 - beta) K s) a)) at 3 by (rewrite E; apply Rinv_inv). field. split; lra.
      * apply LS. unfold is_lim. apply (filterlim_comp _ _ _ (fun K => yv (1 - beta) K s) (fun y => Hn Gam (a + 1) y0 y / Rpower y a) _ (at_right 0)); [apply yv_lim_inf'; lra|]. apply (Hn_y0 Gam HG); lra.
Qed.
Lemma law_lt : beta < 1 -> survival (1 - Hn Gam a 0 y0) G /\ mean_is G F /\ forall K, 0 < K -> call_is G K (C K).
Proof using HG Hb HF Hs.
  intros L. pose proof G_at0 as G0. pose proof C_inf as Ci. pose proof C_at0 as C0. destruct (Rlt_dec beta 1) as [_|]; [|contradiction].
  assert (D : forall x, 0 < x -> is_derive (fun K => - C K) x (G x)). { intros x Hx. eapply is_derive_eq; [apply (is_derive_opp (K := R_AbsRing) (V := R_NormedModule) C); now apply C_derive|]. unfold opp; cbn. ring. }
  assert (Li : filterlim (fun K => - C K) (Rbar_locally p_infty) (locally (- 0))) by (apply (filterlim_comp _ _ _ C Ropp _ (locally 0)); [exact Ci|exact (filterlim_opp (0 : R_NormedModule))]).
  split; [|split].
  - split; [exact G_range|]. split; [|exact G_inf]. replace (1 - (1 - Hn Gam a 0 y0)) with (Hn Gam a 0 y0) by ring. exact G0.
  - unfold mean_is. replace F with (- 0 - - F) by ring. apply (gen_anti (Fa := at_right 0) (Fb := Rbar_locally p_infty) (fun K => - C K) G (- F) (- 0)); [apply right_pos|apply inf_pos|exact D|exact G_cont| |exact Li].
    apply (filterlim_comp _ _ _ C Ropp _ (locally F)); [exact C0|exact (filterlim_opp (F : R_NormedModule))].
  - intros K HK. unfold call_is. replace (C K) with (- 0 - - C K) by ring. apply (gen_anti (Fa := at_point K) (Fb := Rbar_locally p_infty) (fun K => - C K) G (- C K) (- 0)); [now apply at_point_pos|apply inf_pos|exact D|exact G_cont| |exact Li].
    apply (lim_at_point (fun K => - C K)).
Qed.
Lemma law_gt : 1 < beta -> survival 0 G /\ mean_is G (F * Hn Gam a 0 y0) /\ (forall K, 0 < K -> put_is G K (C K - F + K)) /\ forall K, 0 < K -> call_is G K (C K - F * (1 - Hn Gam a 0 y0)).
Proof using HG Hb HF Hs.
  intros L. pose proof G_at0 as G0. pose proof C_inf as Ci. pose proof C_at0 as C0. destruct (Rlt_dec beta 1) as [|_]; [lra|].
  assert (D : forall x, 0 < x -> is_derive (fun K => - C K) x (G x)). { intros x Hx. eapply is_derive_eq; [apply (is_derive_opp (K := R_AbsRing) (V := R_NormedModule) C); now apply C_derive|]. unfold opp; cbn. ring. }
  set (B := F * (1 - Hn Gam a 0 y0)) in *.
  assert (Li : filterlim (fun K => - C K) (Rbar_locally p_infty) (locally (- B))) by (apply (filterlim_comp _ _ _ C Ropp _ (locally B)); [exact Ci|exact (filterlim_opp (B : R_NormedModule))]).
  split; [|split; [|split]].
  - split; [exact G_range|]. split; [|exact G_inf]. rewrite Rminus_0_r. exact G0.
  - unfold mean_is. replace (F * Hn Gam a 0 y0) with (- B - - F) by (unfold B; ring). apply (gen_anti (Fa := at_right 0) (Fb := Rbar_locally p_infty) (fun K => - C K) G (- F) (- B)); [apply right_pos|apply inf_pos|exact D|exact G_cont| |exact Li].
    apply (filterlim_comp _ _ _ C Ropp _ (locally F)); [exact C0|exact (filterlim_opp (F : R_NormedModule))].
  - intros K HK. unfold put_is. replace (C K - F + K) with ((C K + K) - (F + 0)) by ring.
    apply (gen_anti (Fa := at_right 0) (Fb := at_point K) (fun K => C K + K) (fun k => 1 - G k) (F + 0) (C K + K)); [apply right_pos|now apply at_point_pos| | | |apply (lim_at_point (fun K => C K + K))].
    + intros x Hx. eapply is_derive_eq; [apply is_derive_plus_R; [now apply C_derive|apply is_derive_id_R]|ring].
    + intros x Hx. apply (continuous_minus (fun _ => 1) G); [apply continuous_const|now apply G_cont].
    + apply lim_plus_at0; [exact C0|]. intros P HP. apply filter_le_within. exact HP.
  - intros K HK. unfold call_is. replace (C K - B) with (- B - - C K) by ring. apply (gen_anti (Fa := at_point K) (Fb := Rbar_locally p_infty) (fun K => - C K) G (- C K) (- B)); [now apply at_point_pos|apply inf_pos|exact D|exact G_cont| |exact Li].
    apply (lim_at_point (fun K => - C K)).
Qed.
End C.
