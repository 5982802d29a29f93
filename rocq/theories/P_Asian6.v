(** Second moment implied by lognormal call prices with Ju's correction *)
From Coq Require Import Reals Lra Lia Psatz List Arith.
From Coquelicot Require Import Coquelicot.
From Verif Require Import Base Gauss Sums P_Black P_Gmom Spec_Asian.
Open Scope R_scope.

Section Ju.
Variables (m sv z1 z2 z3 : R).
Hypothesis Hs : 0 < sv.
Definition ju_w (K : R) := (m - ln K) / sv.
Definition ju_u1 := exp (m + sv ^ 2 / 2).
Definition ju_u2 := exp (2 * m + 2 * sv ^ 2).
Definition ju_base (K : R) : R := ju_u1 * Phi (ju_w K + sv) - K * Phi (ju_w K).
Definition ju_dens (w : R) : R := npdf w / sv.
Definition ju_D (K : R) : R := K * (z1 * (npdf (ju_w K) / sv) + z2 * (npdf (ju_w K) / sv * ju_w K / sv) + z3 * (npdf (ju_w K) / sv * (ju_w K ^ 2 - 1) / sv ^ 2)).
Definition ju_G (K : R) : R :=
  ju_u1 * K * Phi (ju_w K + sv) - K ^ 2 / 2 * Phi (ju_w K) - ju_u2 / 2 * Phi (ju_w K + 2 * sv)
  + (K * K * npdf (ju_w K) * ((z2 - 2 * z3) / sv + z3 / sv ^ 2 * ju_w K) - (z1 - 2 * z2 + 4 * z3) * ju_u2 * Phi (ju_w K + 2 * sv)).
Lemma npdf_w1 K : 0 < K -> ju_u1 * npdf (ju_w K + sv) = K * npdf (ju_w K).
Proof using Hs.
  intros HK. unfold ju_u1, npdf. rewrite <- (exp_ln K HK) at 3. unfold Rdiv. rewrite <- !Rmult_assoc, <- !exp_plus. f_equal. f_equal.
  unfold ju_w. field. lra.
Qed.
Lemma npdf_w2 K : 0 < K -> ju_u2 * npdf (ju_w K + 2 * sv) = K * K * npdf (ju_w K).
Proof using Hs.
  intros HK. unfold ju_u2, npdf. replace (K * K) with (exp (ln K + ln K)) by (rewrite exp_plus, exp_ln by exact HK; reflexivity).
  unfold Rdiv. rewrite <- !Rmult_assoc, <- !exp_plus. f_equal. f_equal. unfold ju_w. field. lra.
Qed.
Lemma ju_w_derive K : 0 < K -> is_derive ju_w K (- / (sv * K)).
Proof using Hs. intros HK. unfold ju_w. auto_derive; [exact HK|]. Req. field. split; lra. Qed.
Lemma ju_wc K c : 0 < K -> is_derive (fun y => ju_w y + c) K (- / (sv * K)).
Proof using Hs.
  intros HK. eapply is_derive_eq; [apply (is_derive_plus ju_w (fun _ => c)); [apply ju_w_derive, HK|apply (is_derive_const (V := R_NormedModule) c)]|].
  unfold plus, zero; cbn. Req. ring.
Qed.
Lemma ju_G_derive K : 0 < K -> is_derive ju_G K (ju_base K + ju_D K).
Proof using Hs.
  intros HK. unfold ju_G.
  pose proof (is_derive_Phi_comp _ _ _ (ju_wc K sv HK)) as D1. pose proof (is_derive_Phi_comp _ _ _ (ju_wc K (2 * sv) HK)) as D2.
  pose proof (is_derive_Phi_comp _ _ _ (ju_w_derive K HK)) as D0.
  pose proof (is_derive_comp npdf ju_w K _ _ (is_derive_npdf (ju_w K)) (ju_w_derive K HK)) as Dn.
  pose proof (ju_w_derive K HK) as Dw.
  unfold ju_base, ju_D. pose proof (npdf_w1 K HK) as E1. pose proof (npdf_w2 K HK) as E2.
  assert (ju_w K = (m - ln K) / sv) as Ew by reflexivity.
  set (w := ju_w) in *. set (u1 := ju_u1) in *. set (u2 := ju_u2) in *. clearbody w u1 u2.
  set (f1 := fun y => Phi (w y + sv)) in *. set (f2 := fun y => Phi (w y + 2 * sv)) in *. set (f0 := fun y => Phi (w y)) in *. set (fn := fun y => npdf (w y)) in *.
  change (is_derive (fun K => u1 * K * f1 K - K ^ 2 / 2 * f0 K - u2 / 2 * f2 K + (K * K * fn K * ((z2 - 2 * z3) / sv + z3 / sv ^ 2 * w K) - (z1 - 2 * z2 + 4 * z3) * u2 * f2 K)) K
    (u1 * f1 K - K * f0 K + K * (z1 * (fn K / sv) + z2 * (fn K / sv * w K / sv) + z3 * (fn K / sv * (w K ^ 2 - 1) / sv ^ 2)))).
  assert (fn K = npdf (w K)) as Hfn by reflexivity.
  assert (u1 * npdf (w K + sv) = K * fn K) as E1' by exact E1. assert (u2 * npdf (w K + 2 * sv) = K * K * fn K) as E2' by exact E2.
  assert (ex_derive f1 K) as X1 by (eexists; exact D1). assert (ex_derive f2 K) as X2 by (eexists; exact D2). assert (ex_derive f0 K) as X0 by (eexists; exact D0).
  assert (ex_derive fn K) as Xn by (eexists; exact Dn). assert (ex_derive w K) as Xw by (eexists; exact Dw).
  assert (Derive f1 K = - / (sv * K) * npdf (w K + sv)) as D1' by exact (is_derive_unique _ _ _ D1).
  assert (Derive f2 K = - / (sv * K) * npdf (w K + 2 * sv)) as D2' by exact (is_derive_unique _ _ _ D2).
  assert (Derive f0 K = - / (sv * K) * npdf (w K)) as D0' by exact (is_derive_unique _ _ _ D0).
  assert (Derive fn K = - / (sv * K) * (- w K * npdf (w K))) as Dn' by exact (is_derive_unique _ _ _ Dn).
  apply is_derive_unique in Dw. clear D1 D2 D0 Dn.
  rewrite <- Hfn in D0', Dn'. clear Hfn E1 E2. clearbody f1 f2 f0 fn.
  auto_derive; [repeat split; assumption|].
  change (Derive (fun x : R => f1 x) K) with (Derive f1 K). change (Derive (fun x : R => f2 x) K) with (Derive f2 K).
  change (Derive (fun x : R => f0 x) K) with (Derive f0 K). change (Derive (fun x : R => fn x) K) with (Derive fn K). change (Derive (fun x : R => w x) K) with (Derive w K).
  rewrite D1', D2', D0', Dn', Dw. Req.
  set (n1 := npdf (w K + sv)) in *. set (n2 := npdf (w K + 2 * sv)) in *. clearbody n1 n2.
  transitivity (u1 * f1 K - K * f0 K + (- / (sv * K)) * (u1 * n1 * K - K ^ 2 / 2 * fn K - u2 * n2 / 2 - (z1 - 2 * z2 + 4 * z3) * (u2 * n2))
     + ((2 * K * fn K + K * K * ((- / (sv * K)) * (- w K * fn K))) * ((z2 - 2 * z3) / sv + z3 / sv ^ 2 * w K) + K * K * fn K * (z3 / sv ^ 2 * (- / (sv * K))))).
  - field. split; lra.
  - rewrite E1', E2'. field. split; lra.
Qed.

Lemma lin_npdf_p (a b : R) : is_lim (fun x => (a + b * x) * npdf x) p_infty 0.
Proof.
  apply (is_lim_ext (fun x => a * (x ^ 0 * npdf x) + b * (x ^ 1 * npdf x))); [intros; cbn [pow]; ring|].
  replace (Finite 0) with (Finite (a * 0 + b * 0)) by (f_equal; ring).
  apply (is_lim_plus _ _ _ (Finite (a * 0)) (Finite (b * 0))); [| |reflexivity]; apply (is_lim_scal_l _ _ _ (Finite 0)); apply pow_npdf_lim; lia.
Qed.
Lemma lin_npdf_m (a b : R) : is_lim (fun x => (a + b * x) * npdf x) m_infty 0.
Proof.
  apply (is_lim_ext (fun x => (fun y => (a + - b * y) * npdf y) (- x))); [intros; cbv beta; rewrite npdf_even; ring|].
  apply (is_lim_comp (fun y => (a + - b * y) * npdf y) Ropp m_infty (Finite 0) p_infty).
  - apply lin_npdf_p.
  - apply (is_lim_opp (fun x => x) m_infty m_infty). apply is_lim_id.
  - exists 0. intros; discriminate.
Qed.
Lemma wp_lim c : is_lim (fun b => ju_w (exp b) + c) p_infty m_infty.
Proof using Hs.
  apply is_lim_spec. intros M. exists (m - (M - c) * sv). intros b Hb. unfold ju_w. rewrite ln_exp.
  apply (Rmult_lt_reg_r sv); [exact Hs|]. replace (((m - b) / sv + c) * sv) with (m - b + c * sv) by (field; lra). lra.
Qed.
Lemma wm_lim c : is_lim (fun b => ju_w (exp (- b)) + c) p_infty p_infty.
Proof using Hs.
  apply is_lim_spec. intros M. exists ((M - c) * sv - m). intros b Hb. unfold ju_w. rewrite ln_exp.
  apply (Rmult_lt_reg_r sv); [exact Hs|]. replace (((m - - b) / sv + c) * sv) with (m + b + c * sv) by (field; lra). lra.
Qed.
Lemma comp_p (f : R -> R) (l : R) c : is_lim f m_infty l -> is_lim (fun b => f (ju_w (exp b) + c)) p_infty l.
Proof using Hs.
  intros H. apply (is_lim_comp f (fun b => ju_w (exp b) + c) p_infty l m_infty); [exact H|apply wp_lim|]. exists 0. intros; discriminate.
Qed.
Lemma comp_m (f : R -> R) (l : R) c : is_lim f p_infty l -> is_lim (fun b => f (ju_w (exp (- b)) + c)) p_infty l.
Proof using Hs.
  intros H. apply (is_lim_comp f (fun b => ju_w (exp (- b)) + c) p_infty l p_infty); [exact H|apply wm_lim|]. exists 0. intros; discriminate.
Qed.
Lemma mills_step (w a x y : R) : 0 < a -> 0 < x -> 0 < y -> y * npdf (w + a) = x * npdf w -> x * Phi w <= y * Phi (w + a).
Proof.
  intros Ha Hx Hy E. pose proof (Mills_incr w (w + a) ltac:(lra)) as H. pose proof (npdf_pos w). pose proof (npdf_pos (w + a)).
  apply (Rmult_lt_compat_r (x * npdf w)) in H; [|apply Rmult_lt_0_compat; assumption].
  replace (Phi w / npdf w * (x * npdf w)) with (x * Phi w) in H by (field; lra). rewrite <- E in H.
  replace (Phi (w + a) / npdf (w + a) * (y * npdf (w + a))) with (y * Phi (w + a)) in H by (field; lra). lra.
Qed.
Lemma u1_pos : 0 < ju_u1. Proof. apply exp_pos. Qed.
Lemma u2_pos : 0 < ju_u2. Proof. apply exp_pos. Qed.
Lemma b1 K : 0 < K -> 0 <= ju_u1 * K * Phi (ju_w K + sv) <= ju_u2 * Phi (ju_w K + 2 * sv).
Proof using Hs.
  intros HK. pose proof u1_pos. pose proof u2_pos. pose proof (Phi_pos (ju_w K + sv)). split.
  - apply Rmult_le_pos; [apply Rmult_le_pos|]; lra.
  - replace (ju_w K + 2 * sv) with (ju_w K + sv + sv) by ring. apply mills_step; [exact Hs|apply Rmult_lt_0_compat; assumption|assumption|].
    replace (ju_w K + sv + sv) with (ju_w K + 2 * sv) by ring. rewrite npdf_w2 by exact HK.
    replace (ju_u1 * K * npdf (ju_w K + sv)) with (K * (ju_u1 * npdf (ju_w K + sv))) by ring. rewrite npdf_w1 by exact HK. ring.
Qed.
Lemma b2 K : 0 < K -> 0 <= K ^ 2 / 2 * Phi (ju_w K) <= ju_u2 * Phi (ju_w K + 2 * sv).
Proof using Hs.
  intros HK. pose proof (b1 K HK) as [_ H]. pose proof (Phi_pos (ju_w K)). pose proof u1_pos.
  assert (K * Phi (ju_w K) <= ju_u1 * Phi (ju_w K + sv)) as HH1 by (apply mills_step; [exact Hs|exact HK|assumption|apply npdf_w1, HK]).
  assert (0 < K * Phi (ju_w K)) by (apply Rmult_lt_0_compat; assumption). split; [nra|].
  assert (K * (K * Phi (ju_w K)) <= K * (ju_u1 * Phi (ju_w K + sv))) by (apply Rmult_le_compat_l; lra). nra.
Qed.
Lemma term4 K : 0 < K -> K * K * npdf (ju_w K) * ((z2 - 2 * z3) / sv + z3 / sv ^ 2 * ju_w K) =
  (fun x => (ju_u2 * ((z2 - 2 * z3) / sv - 2 * z3 / sv) + ju_u2 * (z3 / sv ^ 2) * x) * npdf x) (ju_w K + 2 * sv).
Proof using Hs. intros HK. cbv beta. rewrite <- npdf_w2 by exact HK. field. lra. Qed.
Definition ju_c := z1 - 2 * z2 + 4 * z3.
Lemma G_p : is_lim (fun b => ju_G (exp b)) p_infty 0.
Proof using Hs.
  assert (is_lim (fun b => ju_u2 * Phi (ju_w (exp b) + 2 * sv)) p_infty 0) as L0.
  { replace (Finite 0) with (Rbar_mult ju_u2 0) by (cbn; f_equal; ring). apply is_lim_scal_l. apply comp_p, Phi_lim_m. }
  apply (is_lim_ext (fun b => (ju_u1 * exp b * Phi (ju_w (exp b) + sv) - exp b ^ 2 / 2 * Phi (ju_w (exp b))) +
     ((fun x => (ju_u2 * ((z2 - 2 * z3) / sv - 2 * z3 / sv) + ju_u2 * (z3 / sv ^ 2) * x) * npdf x) (ju_w (exp b) + 2 * sv)
      + (- / 2 - ju_c) * (ju_u2 * Phi (ju_w (exp b) + 2 * sv))))).
  { intros b. rewrite <- term4 by apply exp_pos. unfold ju_G, ju_c. field. lra. }
  replace (Finite 0) with (Finite ((0 - 0) + (0 + (- / 2 - ju_c) * 0))) by (f_equal; ring).
  apply (is_lim_plus _ _ _ (Finite (0 - 0)) (Finite (0 + (- / 2 - ju_c) * 0))); [| |reflexivity].
  - apply (is_lim_minus _ _ _ (Finite 0) (Finite 0)); [| |reflexivity].
    + apply (is_lim_le_le_loc (fun _ => 0) (fun b => ju_u2 * Phi (ju_w (exp b) + 2 * sv))); [|apply is_lim_const|exact L0].
      exists 0. intros b _. apply b1, exp_pos.
    + apply (is_lim_le_le_loc (fun _ => 0) (fun b => ju_u2 * Phi (ju_w (exp b) + 2 * sv))); [|apply is_lim_const|exact L0].
      exists 0. intros b _. apply b2, exp_pos.
  - apply (is_lim_plus _ _ _ (Finite 0) (Finite ((- / 2 - ju_c) * 0))); [| |reflexivity].
    + apply (comp_p (fun x => (ju_u2 * ((z2 - 2 * z3) / sv - 2 * z3 / sv) + ju_u2 * (z3 / sv ^ 2) * x) * npdf x) 0). apply lin_npdf_m.
    + apply (is_lim_scal_l _ _ _ (Finite 0)). exact L0.
Qed.
Lemma exp_m : is_lim (fun b => exp (- b)) p_infty 0.
Proof.
  apply (is_lim_comp exp Ropp p_infty 0 m_infty); [apply is_lim_exp_m| |exists 0; intros; discriminate].
  apply (is_lim_opp (fun x => x) p_infty p_infty). apply is_lim_id.
Qed.
Lemma G_m : is_lim (fun b => ju_G (exp (- b))) p_infty ((- / 2 - ju_c) * ju_u2).
Proof using Hs.
  apply (is_lim_ext (fun b => (ju_u1 * exp (- b) * Phi (ju_w (exp (- b)) + sv) - exp (- b) ^ 2 / 2 * Phi (ju_w (exp (- b)))) +
     ((fun x => (ju_u2 * ((z2 - 2 * z3) / sv - 2 * z3 / sv) + ju_u2 * (z3 / sv ^ 2) * x) * npdf x) (ju_w (exp (- b)) + 2 * sv)
      + (- / 2 - ju_c) * (ju_u2 * Phi (ju_w (exp (- b)) + 2 * sv))))).
  { intros b. rewrite <- term4 by apply exp_pos. unfold ju_G, ju_c. field. lra. }
  replace (Finite ((- / 2 - ju_c) * ju_u2)) with (Finite ((0 - 0) + (0 + (- / 2 - ju_c) * (ju_u2 * 1)))) by (f_equal; ring).
  apply (is_lim_plus _ _ _ (Finite (0 - 0)) (Finite (0 + (- / 2 - ju_c) * (ju_u2 * 1)))); [| |reflexivity].
  - pose proof u1_pos as Hu. apply (is_lim_minus _ _ _ (Finite 0) (Finite 0)); [| |reflexivity].
    + apply (is_lim_le_le_loc (fun _ => 0) (fun b => ju_u1 * exp (- b))); [|apply is_lim_const|].
      * exists 0. intros b _. pose proof (Phi_bounds (ju_w (exp (- b)) + sv)). pose proof (exp_pos (- b)).
        assert (0 < ju_u1 * exp (- b)) by (apply Rmult_lt_0_compat; assumption). split; nra.
      * replace (Finite 0) with (Rbar_mult ju_u1 0) by (cbn; f_equal; ring). apply is_lim_scal_l, exp_m.
    + apply (is_lim_le_le_loc (fun _ => 0) (fun b => exp (- b))); [|apply is_lim_const|apply exp_m].
      exists 0. intros b Hb. pose proof (Phi_bounds (ju_w (exp (- b)))). pose proof (exp_pos (- b)).
      assert (exp (- b) <= 1) by (rewrite <- exp_0; apply exp_le; lra). assert (0 < exp (- b) ^ 2) by (apply pow_lt; assumption).
      assert (exp (- b) ^ 2 <= exp (- b)) by nra. split; nra.
  - apply (is_lim_plus _ _ _ (Finite 0) (Finite ((- / 2 - ju_c) * (ju_u2 * 1)))); [| |reflexivity].
    + apply (comp_m (fun x => (ju_u2 * ((z2 - 2 * z3) / sv - 2 * z3 / sv) + ju_u2 * (z3 / sv ^ 2) * x) * npdf x) 0). apply lin_npdf_p.
    + apply (is_lim_scal_l _ _ _ (Finite (ju_u2 * 1))). apply (is_lim_scal_l _ _ _ (Finite 1)). apply comp_m, Phi_lim_p.
Qed.
Lemma ju_call_cont K : 0 < K -> continuous (fun K => ju_base K + ju_D K) K.
Proof using Hs.
  intros HK. apply (ex_derive_continuous (K := R_AbsRing) (V := R_NormedModule)).
  assert (forall c, ex_derive (fun y => Phi (ju_w y + c)) K) as XP by (intros c; eexists; apply is_derive_Phi_comp, ju_wc, HK).
  assert (ex_derive (fun y => Phi (ju_w y)) K) as X0 by (eexists; apply is_derive_Phi_comp, ju_w_derive, HK).
  assert (ex_derive (fun y => npdf (ju_w y)) K) as Xn by (eexists; apply (is_derive_comp npdf ju_w); [apply is_derive_npdf|apply ju_w_derive, HK]).
  assert (ex_derive ju_w K) as Xw by (eexists; apply ju_w_derive, HK).
  specialize (XP sv). unfold ju_base, ju_D. set (f1 := fun y => Phi (ju_w y + sv)) in *. set (f0 := fun y => Phi (ju_w y)) in *. set (fn := fun y => npdf (ju_w y)) in *.
  change (ex_derive (fun K => ju_u1 * f1 K - K * f0 K + K * (z1 * (fn K / sv) + z2 * (fn K / sv * ju_w K / sv) + z3 * (fn K / sv * (ju_w K ^ 2 - 1) / sv ^ 2))) K).
  assert (ex_derive f1 K) as Y1 by exact XP. assert (ex_derive f0 K) as Y0 by exact X0. assert (ex_derive fn K) as Yn by exact Xn.
  clear XP X0 Xn. clearbody f1 f0 fn. set (u1 := ju_u1). set (w := ju_w) in *. clearbody u1 w. auto_derive. repeat split; assumption.
Qed.
Lemma ju_second : implied_second_moment (fun K => ju_base K + ju_D K) (ju_u2 * (1 + 2 * ju_c)).
Proof using Hs.
  assert (forall b, 0 < b -> is_RInt (fun K => 2 * (ju_base K + ju_D K)) (exp (- b)) (exp b) (2 * (ju_G (exp b) - ju_G (exp (- b))))) as HI.
  { intros b Hb. apply (is_RInt_scal (V := R_NormedModule)). apply (is_RInt_derive ju_G (fun K => ju_base K + ju_D K)).
    - intros x Hx. apply ju_G_derive. pose proof (exp_pos (- b)). pose proof (exp_pos b). unfold Rmin in Hx. destruct (Rle_dec (exp (- b)) (exp b)); lra.
    - intros x Hx. apply ju_call_cont. pose proof (exp_pos (- b)). pose proof (exp_pos b). unfold Rmin in Hx. destruct (Rle_dec (exp (- b)) (exp b)); lra. }
  split.
  - intros b Hb. eexists. apply HI, Hb.
  - apply (is_lim_ext_loc (fun b => 2 * (ju_G (exp b) - ju_G (exp (- b))))).
    + exists 0. intros b Hb. symmetry. apply is_RInt_unique. apply HI, Hb.
    + replace (Finite (ju_u2 * (1 + 2 * ju_c))) with (Finite (2 * (0 - (- / 2 - ju_c) * ju_u2))) by (f_equal; field).
      apply (is_lim_scal_l _ _ _ (Finite (0 - (- / 2 - ju_c) * ju_u2))). apply (is_lim_minus _ _ _ (Finite 0) (Finite ((- / 2 - ju_c) * ju_u2))); [apply G_p|apply G_m|reflexivity].
Qed.
End Ju.
