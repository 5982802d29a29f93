(** The law of one CEV Monte Carlo step (shifted Poisson sampling): P(step > K) equals the reported CEV distribution function. *)
From Coq Require Import Reals Lra Lia Psatz Arith.
From Coquelicot Require Import Coquelicot.
From Verif Require Import Base Sums Spec_Cev Spec_Dist Spec_CevMc P_Gamma P_Gamma2 P_Half P_Ncx2 P_Ncx3 P_Cev5 P_Cev6 P_Cev7 P_Recip.
Open Scope R_scope.

Lemma pois_pos l n : 0 <= l -> 0 <= pois l n.
Proof. intros H. unfold pois. apply Rmult_le_pos; [apply Rmult_le_pos; [left; apply exp_pos|now apply pow_le]|left; apply Rinv_0_lt_compat, fact_pos]. Qed.
Lemma pois_S_0 n : pois 0 (S n) = 0.
Proof. unfold pois. rewrite pow_i by lia. unfold Rdiv. ring. Qed.
Lemma pois_0 l : pois l 0 = exp (- l).
Proof. unfold pois. cbn [pow fact INR]. field. Qed.
Lemma pois_derive_S n (l : R) : is_derive (fun l => pois l (S n)) l (pois l n - pois l (S n)).
Proof.
  unfold pois. pose proof (fact_pos n). rewrite fact_simpl, mult_INR. assert (0 < INR (S n)) by (apply lt_0_INR; lia).
  assert (A : is_derive (fun l : R => exp (- l)) l (- exp (- l))) by (auto_derive; [trivial|Req; ring]).
  assert (B : is_derive (fun l : R => l ^ S n) l (INR (S n) * l ^ n)) by (auto_derive; [trivial|change (match n with O => 1 | S _ => INR n + 1 end) with (INR (S n)); cbn [pred]; Req; ring]).
  pose proof (is_derive_mult_R _ _ _ _ _ A B) as M. cbv beta in M. pose proof (is_derive_scal_R _ (/ (INR (S n) * INR (fact n))) _ _ M) as N.
  eapply is_derive_ext; [|eapply is_derive_eq; [exact N|]]; [intros t; Req; unfold Rdiv; ring|]. cbv beta. cbn [pow]. field. split; lra.
Qed.
Lemma pois_derive_0 (l : R) : is_derive (fun l => pois l 0) l (- pois l 0).
Proof.
  apply (is_derive_ext (fun l => exp (- l))); [intros t; symmetry; apply pois_0|]. rewrite pois_0. auto_derive; [trivial|Req; ring].
Qed.
(** P(Poisson(l) >= j) *)
Fixpoint ptail (j : nat) (l : R) : R := match j with O => 1 | S i => ptail i l - pois l i end.
Lemma ptail_derive j (l : R) : is_derive (ptail (S j)) l (pois l j).
Proof.
  induction j.
  - eapply is_derive_eq; [apply (is_derive_minus_R (fun _ => 1) (fun l => pois l 0) l 0 (- pois l 0)); [apply is_derive_const_R|apply pois_derive_0]|ring].
  - eapply is_derive_eq; [apply (is_derive_minus_R (ptail (S j)) (fun l => pois l (S j)) l (pois l j) (pois l j - pois l (S j))); [exact IHj|apply pois_derive_S]|ring].
Qed.
Lemma ptail_0 j : ptail (S j) 0 = 0.
Proof. induction j; [cbn [ptail]; rewrite pois_0, Ropp_0, exp_0; ring|]. change (ptail (S j) 0 - pois 0 (S j) = 0). rewrite IHj, pois_S_0. ring. Qed.
Lemma ptail_pos j l : 0 <= l -> 0 <= ptail j l.
Proof.
  intros H. destruct j; [cbn; lra|]. rewrite <- (ptail_0 j). destruct H as [H| <-]; [|lra].
  apply (nondecreasing_on (ptail (S j)) (fun l => pois l j)); [lra|intros; apply ptail_derive|intros; apply pois_pos; lra].
Qed.
Lemma ptail_le1 j l : 0 <= l -> ptail j l <= 1.
Proof. intros H. induction j; [cbn; lra|]. cbn [ptail]. pose proof (pois_pos l j H). lra. Qed.
Lemma ptail_sum j l : ptail j l = 1 - rsum j (pois l).
Proof. induction j; cbn [ptail rsum]; [ring|rewrite IHj; ring]. Qed.
Lemma ptail_ex j (l : R) : ex_derive (ptail j) l.
Proof. destruct j; [eexists; apply is_derive_const_R|eexists; apply ptail_derive]. Qed.
Lemma pois_series1 l : is_series (pois l) 1.
Proof.
  pose proof (exp_series l) as H. apply (is_series_scal_l (exp (- l))) in H. unfold mult in H; cbn in H. rewrite <- exp_plus, Rplus_opp_l, exp_0 in H.
  eapply is_series_ext; [|exact H]. intros n. unfold pois. cbn. unfold Rdiv. ring.
Qed.
Lemma rsum_sum_n f n : rsum (S n) f = sum_n f n.
Proof. induction n; [rewrite sum_O; cbn; ring|]. rewrite sum_Sn, <- IHn. reflexivity. Qed.
Lemma ptail_lim l : is_lim_seq (fun n => ptail n l) 0.
Proof.
  apply is_lim_seq_incr_1. apply (is_lim_seq_ext (fun n => 1 - sum_n (pois l) n)); [intros n; rewrite ptail_sum, rsum_sum_n; reflexivity|].
  replace 0 with (1 - 1) by ring. apply is_lim_seq_minus'; [apply is_lim_seq_const|exact (pois_series1 l)].
Qed.
Lemma pois_lim n : is_lim (fun l => pois l n) p_infty 0.
Proof.
  apply (is_lim_ext_loc (fun l => / INR (fact n) * (Rpower l (INR n) * exp (- (1) * l)))).
  { exists 0. intros l Hl. unfold pois. rewrite Rpower_pow by exact Hl. replace (- (1) * l) with (- l) by ring. unfold Rdiv. ring. }
  evar_last. { apply is_lim_scal_l. apply powexp_lim_p; [lra|apply pos_INR]. } cbn. f_equal. ring.
Qed.
Lemma ptail_inf j : is_lim (ptail j) p_infty 1.
Proof.
  induction j; [exact (is_lim_const 1 p_infty)|]. replace 1 with (1 - 0) by ring. apply (is_lim_minus' (ptail j) (fun l => pois l j) p_infty 1 0 IHj (pois_lim j)).
Qed.

Section N.
Variable Gam : R -> R.
Hypothesis HG : gamma_function Gam.
Local Notation np := (np Gam). Local Notation Hn := (Hn Gam).
Lemma Gam_1 : Gam 1 = 1.
Proof using HG.
  pose proof (Gam_pos Gam HG 1 ltac:(lra)) as G. destruct (HG 1 ltac:(lra)) as [_ [P (P1 & P2 & P3)]].
  assert (E : forall x, 0 < x -> P x = (1 - exp (- x)) / Gam 1).
  { apply (half_unique P (fun x => (1 - exp (- x)) / Gam 1) (gamma_pdf Gam 1) 0); [exact P1| |exact P2|].
    - intros x Hx. unfold gamma_pdf. replace (1 - 1) with 0 by ring. rewrite Rpower_O by exact Hx. auto_derive; [trivial|Req; unfold Rdiv; ring].
    - replace 0 with ((1 - exp (- 0)) / Gam 1) at 2 by (rewrite Ropp_0, exp_0; field; lra). apply (at_right_cont (fun x => (1 - exp (- x)) / Gam 1)). apply (ex_derive_continuous (K := R_AbsRing) (V := R_NormedModule) (fun x => (1 - exp (- x)) / Gam 1) 0). auto_derive. trivial. }
  assert (L : is_lim P p_infty (1 / Gam 1)).
  { apply (is_lim_ext_loc (fun x => / Gam 1 * (1 - exp (- x)))). { exists 0. intros x Hx. rewrite E by exact Hx. unfold Rdiv. ring. }
    evar_last. { apply is_lim_scal_l. apply is_lim_minus'; [apply is_lim_const|]. apply (is_lim_ext (fun x => pois x 0)); [intros; apply pois_0|apply pois_lim]. } cbn. f_equal. unfold Rdiv. ring. }
  pose proof (is_lim_unique _ _ _ L) as U1. pose proof (is_lim_unique _ _ _ P3) as U2. rewrite U1 in U2. injection U2 as U2. apply (f_equal (fun v => v * Gam 1)) in U2. field_simplify in U2; lra.
Qed.
Lemma Gam_nat n : Gam (INR n + 1) = INR (fact n).
Proof using HG. rewrite (Gam_fact Gam n HG), Gam_1. ring. Qed.
Lemma gpdf_pois n y : 0 < y -> gamma_pdf Gam (INR n + 1) y = pois y n.
Proof using HG. intros Hy. unfold gamma_pdf, pois. replace (INR n + 1 - 1) with (INR n) by ring. rewrite Rpower_pow, Gam_nat by exact Hy. unfold Rdiv. ring. Qed.
(** the derivative comparison behind Hn_mixture *)
Lemma np_mixture a l N x : 0 < a -> 0 <= l -> 0 < x -> rsum N (fun j => pois l j * np (a + INR j) 0 x) <= np a l x.
Proof using HG.
  intros Ha Hl Hx. unfold P_Ncx2.np at 2. pose proof (ps_ex (bsc Gam a) (l * x) (bsc_cv Gam HG a Ha)) as E.
  rewrite (rsum_ext N _ (fun j => exp (- l) * exp (- x) * Rpower x (a - 1) * (bsc Gam a j * (l * x) ^ j))).
  2:{ intros j _. rewrite (np_0 Gam HG) by (try exact Hx; pose proof (pos_INR j); lra). unfold pois, gamma_pdf, bsc. replace (a + INR j - 1) with (a - 1 + INR j) by ring. rewrite Rpower_plus, Rpower_pow, Rpow_mult_distr by exact Hx.
      pose proof (Gam_pos Gam HG (a + INR j) ltac:(pose proof (pos_INR j); lra)). pose proof (fact_pos j). field. split; lra. }
  rewrite rsum_scal. rewrite !Rmult_assoc. apply Rmult_le_compat_l; [left; apply exp_pos|]. apply Rmult_le_compat_l; [left; apply exp_pos|]. apply Rmult_le_compat_l; [left; apply exp_pos|].
  assert (Hp : forall k, 0 <= bsc Gam a k * (l * x) ^ k) by (intros k; apply Rmult_le_pos; [left; now apply (bsc_pos Gam HG)|apply pow_le; nra]).
  unfold P_Ncx2.Bs, PSeries. destruct N; [apply Series_nonneg; assumption|]. rewrite (Series_incr_n _ (S N)) by (try lia; exact E). cbn [pred].
  assert (0 <= Series (fun k => bsc Gam a (S N + k) * (l * x) ^ (S N + k))) by (apply Series_nonneg; [now apply (ex_series_incr_n (fun k => bsc Gam a k * (l * x) ^ k) (S N))|intros; apply Hp]).
  assert (Q : forall n, rsum (S n) (fun j => bsc Gam a j * (l * x) ^ j) = sum_f_R0 (fun k => bsc Gam a k * (l * x) ^ k) n). { induction n; [cbn; ring|]. change (rsum (S (S n)) (fun j => bsc Gam a j * (l * x) ^ j)) with (rsum (S n) (fun j => bsc Gam a j * (l * x) ^ j) + bsc Gam a (S n) * (l * x) ^ (S n)). rewrite IHn. reflexivity. }
  rewrite Q. lra.
Qed.
Lemma rsum_lim (N : nat) (f : nat -> R -> R) (l : nat -> R) : (forall j, (j < N)%nat -> is_lim (f j) p_infty (l j)) -> is_lim (fun x => rsum N (fun j => f j x)) p_infty (rsum N l).
Proof using.
  induction N; intros H; [exact (is_lim_const 0 p_infty)|]. cbn [rsum]. apply is_lim_plus'; [apply IHN; intros; apply H; lia|apply H; lia].
Qed.
Lemma lim_scal_inf (f : R -> R) (c l : R) : is_lim f p_infty l -> is_lim (fun x => c * f x) p_infty (c * l).
Proof using. intros H. apply (is_lim_scal_l f c p_infty l) in H. exact H. Qed.
(** Hn a l y is within the Poisson tail of its truncated mixture *)
Lemma Hn_mix_lo a l N y : 0 < a -> 0 <= l -> 0 < y -> rsum N (fun j => pois l j * Hn (a + INR j) 0 y) <= Hn a l y.
Proof using HG.
  intros Ha Hl Hy. pose proof (Hn_mixture Gam HG a l N y Ha Hl Hy) as H. rewrite <- rsum_scal in H.
  erewrite rsum_ext; [exact H|]. intros j _. unfold pois, Rdiv. ring.
Qed.
Lemma Hn_mix_up a l N y : 0 < a -> 0 <= l -> 0 < y -> Hn a l y <= rsum N (fun j => pois l j * Hn (a + INR j) 0 y) + ptail N l.
Proof using HG.
  intros Ha Hl Hy. set (A := fun y => rsum N (fun j => pois l j * Hn (a + INR j) 0 y)).
  assert (Hj : forall j, 0 < a + INR j) by (intros j; pose proof (pos_INR j); lra).
  assert (DA : forall x, 0 < x -> is_derive A x (rsum N (fun j => pois l j * np (a + INR j) 0 x))).
  { intros x Hx. apply (rsum_derive N (fun j x => pois l j * Hn (a + INR j) 0 x)). intros k _. apply is_derive_scal_R. apply (Hn_dy Gam HG); [apply Hj|exact Hx]. }
  assert (M : forall x z, 0 < x -> x <= z -> Hn a l x - A x <= Hn a l z - A z).
  { apply (inc_half (fun x => Hn a l x - A x) (fun x => np a l x - rsum N (fun j => pois l j * np (a + INR j) 0 x))).
    - intros x Hx. apply is_derive_minus_R; [now apply (Hn_dy Gam HG)|now apply DA].
    - intros x Hx. pose proof (np_mixture a l N x Ha Hl Hx). lra. }
  assert (L : is_lim (fun z => 1 - A z) p_infty (1 - rsum N (fun j => pois l j * 1))).
  { apply is_lim_minus'; [apply is_lim_const|]. apply rsum_lim. intros j _. apply lim_scal_inf. destruct (Hn_0 Gam HG (a + INR j) (Hj j)) as (_ & _ & X). exact X. }
  assert (B : Hn a l y - A y <= 1 - rsum N (fun j => pois l j * 1)).
  { apply (is_lim_le_loc (fun _ => Hn a l y - A y) (fun z => 1 - A z) p_infty (Hn a l y - A y) (1 - rsum N (fun j => pois l j * 1))).
    - exists y. intros z Hz. pose proof (M y z Hy ltac:(lra)). pose proof (Hn_le1 Gam HG a l z Ha Hl ltac:(lra)). lra.
    - apply is_lim_const.
    - exact L. }
  rewrite ptail_sum. rewrite (rsum_ext N _ (pois l)) in B by (intros; ring). unfold A in B. lra.
Qed.
Lemma Hn_series a l y : 0 < a -> 0 <= l -> 0 < y -> is_series (fun j => pois l j * Hn (a + INR j) 0 y) (Hn a l y).
Proof using HG.
  intros Ha Hl Hy. 
  assert (L : is_lim_seq (fun n => rsum (S n) (fun j => pois l j * Hn (a + INR j) 0 y)) (Hn a l y)).
  { apply (is_lim_seq_le_le (fun n => Hn a l y - ptail (S n) l) _ (fun _ => Hn a l y)).
    - intros n. split; [pose proof (Hn_mix_up a l (S n) y Ha Hl Hy); lra|now apply Hn_mix_lo].
    - replace (Hn a l y) with (Hn a l y - 0) at 1 by ring. apply is_lim_seq_minus'; [apply is_lim_seq_const|]. apply (is_lim_seq_incr_1 (fun n => ptail n l)), ptail_lim.
    - apply is_lim_seq_const. }
  apply (is_lim_seq_ext _ (sum_n (fun j => pois l j * Hn (a + INR j) 0 y))) in L; [exact L|]. intros n. apply rsum_sum_n.
Qed.
Lemma Hn1_0 y : 0 < y -> Hn 1 0 y = 1 - exp (- y).
Proof using HG.
  intros Hy. revert y Hy. apply (half_unique (Hn 1 0) (fun x => 1 - exp (- x)) (gamma_pdf Gam 1) 0).
  - apply (Hn_0 Gam HG 1 ltac:(lra)).
  - intros x Hx. unfold gamma_pdf. replace (1 - 1) with 0 by ring. rewrite Rpower_O, Gam_1 by exact Hx. auto_derive; [trivial|Req; field].
  - apply (Hn_0 Gam HG 1 ltac:(lra)).
  - replace 0 with (1 - exp (- 0)) at 2 by (rewrite Ropp_0, exp_0; ring). apply (at_right_cont (fun x => 1 - exp (- x))). apply (ex_derive_continuous (K := R_AbsRing) (V := R_NormedModule) (fun x => 1 - exp (- x)) 0). auto_derive. trivial.
Qed.
(** ** Poisson duality: the survival of the second gamma draw as a Poisson(y) mixture *)
Section Dual.
Variable y : R.
Hypothesis Hy : 0 < y.
Let A (N : nat) (l : R) : R := rsum N (fun j => pois y j * ptail j l).
Lemma A_derive N (l : R) : is_derive (A (S N)) l (rsum N (fun j => pois y (S j) * pois l j)).
Proof using.
  unfold A. induction N.
  - cbn [rsum ptail]. apply (is_derive_ext (fun _ => pois y 0)); [intros t; Req; ring|]. apply is_derive_const_R.
  - apply (is_derive_ext (fun l => rsum (S N) (fun j => pois y j * ptail j l) + pois y (S N) * ptail (S N) l)); [reflexivity|].
    cbn [rsum]. apply is_derive_plus_R; [exact IHN|]. apply is_derive_scal_R. apply ptail_derive.
Qed.
Lemma dual_cmp N l0 l : 0 <= l0 -> l0 <= l -> A N l - A N l0 <= Hn 1 l0 y - Hn 1 l y.
Proof using HG Hy.
  intros H0 Hl. assert (E : Hn 1 l0 y - Hn 1 l y = RInt (fun s => np 2 s y) l0 l).
  { pose proof (Hn_int Gam HG 1 y l0 l ltac:(lra) Hy H0 Hl) as E. replace (1 + 1) with 2 in E by ring. lra. }
  rewrite E. assert (NP : 0 <= RInt (fun s => np 2 s y) l0 l).
  { apply RInt_ge_0; [exact Hl|apply (np_int Gam HG); lra|]. intros s Hs. left. apply (np_pos Gam HG); lra. }
  destruct N; [unfold A; cbn [rsum]; lra|].
  assert (I : is_RInt (fun s => rsum N (fun j => pois y (S j) * pois s j)) l0 l (A (S N) l - A (S N) l0)).
  { apply (is_RInt_derive (A (S N)) (fun s => rsum N (fun j => pois y (S j) * pois s j))); [intros; apply A_derive|]. intros s _.
    clear. induction N; [apply continuous_const|]. cbn [rsum]. apply (continuous_plus (V := R_NormedModule) (fun s => rsum N (fun j => pois y (S j) * pois s j)) (fun s => pois y (S N) * pois s N)); [exact IHN|].
    apply (ex_derive_continuous (K := R_AbsRing) (V := R_NormedModule) (fun s => pois y (S N) * pois s N)). destruct N; eexists; apply is_derive_scal_R; [apply pois_derive_0|apply pois_derive_S]. }
  apply (is_RInt_unique (V := R_CompleteNormedModule)) in I. rewrite <- I. apply RInt_le; [exact Hl| |apply (np_int Gam HG); lra|].
  - apply (ex_RInt_continuous (V := R_CompleteNormedModule)). intros s _.
    clear. induction N; [apply continuous_const|]. cbn [rsum]. apply (continuous_plus (V := R_NormedModule) (fun s => rsum N (fun j => pois y (S j) * pois s j)) (fun s => pois y (S N) * pois s N)); [exact IHN|].
    apply (ex_derive_continuous (K := R_AbsRing) (V := R_NormedModule) (fun s => pois y (S N) * pois s N)). destruct N; eexists; apply is_derive_scal_R; [apply pois_derive_0|apply pois_derive_S].
  - intros s Hs. eapply Rle_trans; [|apply (np_mixture 2 s N y); lra]. right. apply rsum_ext. intros j _.
    rewrite (np_0 Gam HG) by (pose proof (pos_INR j); lra). replace (2 + INR j) with (INR (S j) + 1) by (rewrite S_INR; ring). rewrite gpdf_pois by exact Hy. ring.
Qed.
Lemma A_0 N : A (S N) 0 = exp (- y).
Proof using.
  unfold A. induction N; [cbn [rsum ptail]; rewrite pois_0; ring|].
  change (rsum (S N) (fun j => pois y j * ptail j 0) + pois y (S N) * ptail (S N) 0 = exp (- y)). rewrite IHN, ptail_0. ring.
Qed.
Lemma dual_lo N l : 0 <= l -> A N l <= 1 - Hn 1 l y.
Proof using HG Hy.
  intros Hl. destruct N; [unfold A; cbn [rsum]; pose proof (Hn_le1 Gam HG 1 l y ltac:(lra) Hl Hy); lra|].
  pose proof (dual_cmp (S N) 0 l ltac:(lra) Hl) as H. rewrite A_0, Hn1_0 in H by exact Hy. lra.
Qed.
Lemma Hn_nonneg a l x : 0 < a -> 0 <= l -> 0 < x -> 0 <= Hn a l x.
Proof using HG. intros Ha Hl Hx. pose proof (Hn_mix_lo a l 0 x Ha Hl Hx) as H. exact H. Qed.
Lemma dual_up N l : 0 <= l -> 1 - Hn 1 l y <= A N l + ptail N y.
Proof using HG Hy.
  intros Hl.
  assert (L : is_lim (fun z => 1 - A N z) p_infty (1 - rsum N (fun j => pois y j * 1))).
  { apply is_lim_minus'; [apply is_lim_const|]. unfold A. apply rsum_lim. intros j _. apply lim_scal_inf. apply ptail_inf. }
  assert (B : 1 - Hn 1 l y - A N l <= 1 - rsum N (fun j => pois y j * 1)).
  { apply (is_lim_le_loc (fun _ => 1 - Hn 1 l y - A N l) (fun z => 1 - A N z) p_infty (1 - Hn 1 l y - A N l) (1 - rsum N (fun j => pois y j * 1))).
    - exists l. intros z Hz. pose proof (dual_cmp N l z Hl ltac:(lra)). pose proof (Hn_nonneg 1 z y ltac:(lra) ltac:(lra) Hy). lra.
    - apply is_lim_const.
    - exact L. }
  rewrite ptail_sum. rewrite (rsum_ext N _ (pois y)) in B by (intros; ring). lra.
Qed.
End Dual.
End N.
