(** At-the-money limits of SabrChoiWu2021P and SabrChoiWu2021H. *)
From Coq Require Import Reals Lra Lia List Psatz.
From Coquelicot Require Import Coquelicot.
From Verif Require Import Base Gauss Sums M_Opt M_Mgf M_Heston M_Fd M_Sabr M_Cev M_SabrVol Spec_Opt P_Bsm P_Norm P_Sabr3 P_Sabr4 P_Small P_SabrVol P_SabrVol2.
Open Scope R_scope.
Lemma small_comp n f (z : R -> R) M : small n f -> near (fun y => Rabs (z y) <= M * Rabs y) -> near (fun y => z y <> 0) -> small n (fun y => f (z y)).
Proof.
  intros F B N. apply near_small. intros e He. assert (HM : 0 < Rabs M + 1) by (pose proof (Rabs_pos M); lra). set (K := Rabs M + 1) in *.
  destruct (F (e / K ^ n)) as (d & D & H); [apply Rdiv_lt_0_compat; [exact He|apply pow_lt, HM]|].
  apply (near_impl _ _ (near_and _ _ (near_and _ _ B N) (ex_intro _ (d / K) (conj (Rdiv_lt_0_compat _ _ D HM) (fun y Hy _ => Hy))))).
  intros y Ny [[A C] Hy]. assert (Z : Rabs (z y) <= K * Rabs y). { eapply Rle_trans; [exact A|]. apply Rmult_le_compat_r; [apply Rabs_pos|]. unfold K. pose proof (Rle_abs M). lra. }
  assert (Zd : Rabs (z y) < d). { eapply Rle_lt_trans; [exact Z|]. apply (Rmult_lt_compat_l K) in Hy; [|exact HM]. replace (K * (d / K)) with d in Hy by (field; lra). exact Hy. }
  eapply Rle_trans; [apply H; [exact Zd|exact C]|]. replace (e * Rabs y ^ n) with (e / K ^ n * (K * Rabs y) ^ n) by (rewrite Rpow_mult_distr; field; apply pow_nonzero; lra).
  apply Rmult_le_compat_l; [left; apply Rdiv_lt_0_compat; [exact He|apply pow_lt, HM]|]. apply pow_incr. split; [apply Rabs_pos|exact Z].
Qed.
Lemma near_of_lim (f : R -> R) (l : R) (P : R -> Prop) : is_lim f 0 l -> locally l P -> near (fun y => P (f y)).
Proof.
  intros L [e H]. apply near_lim0 in L. destruct (L (e / 2)) as (d & D & K); [destruct e; cbn; lra|]. exists d. split; [exact D|]. intros y Hy Ny. apply H. specialize (K y Hy Ny).
  rewrite pow_O, Rmult_1_r in K. change (Rabs (f y - l) < e). destruct e as [e He]; cbn in *. lra.
Qed.
Lemma is_lim_mult' (f g : R -> R) (x : Rbar) (a b : R) : is_lim f x a -> is_lim g x b -> is_lim (fun y => f y * g y) x (a * b).
Proof. intros F G. exact (is_lim_mult f g x a b F G I). Qed.
Lemma is_lim_add' (f g : R -> R) (x : Rbar) (a b : R) : is_lim f x a -> is_lim g x b -> is_lim (fun y => f y + g y) x (a + b).
Proof. intros F G. exact (is_lim_plus f g x a b _ F G eq_refl). Qed.
Section ATM.
Variables (rho vov alpha bc : R).
Hypothesis Hr : -1 < rho < 1.
Hypothesis Hv : 0 < vov.
Hypothesis Ha : 0 < alpha.
Definition zy (y : R) : R := vov / alpha * (y * EE bc y).
Lemma va_pos : 0 < vov / alpha. Proof. apply Rdiv_lt_0_compat; assumption. Qed.
Lemma zy_bd : near (fun y => Rabs (zy y) <= vov / alpha * 2 * Rabs y).
Proof.
  apply (near_impl _ _ (small_near _ _ (sm_EE0 bc) 1 ltac:(lra))). intros y _ A. rewrite pow_O in A. apply Rabs_le_between in A. pose proof (EE_pos bc y) as E. pose proof va_pos.
  unfold zy. rewrite !Rabs_mult, (Rabs_pos_eq (vov / alpha)), (Rabs_pos_eq (EE bc y)) by lra. pose proof (Rabs_pos y). assert (Rabs y * EE bc y <= Rabs y * 2) by (apply Rmult_le_compat_l; lra).
  replace (vov / alpha * 2 * Rabs y) with (vov / alpha * (Rabs y * 2)) by ring. apply Rmult_le_compat_l; lra.
Qed.
Lemma zy_nz : near (fun y => zy y <> 0).
Proof. apply near_all. intros y Ny. pose proof (EE_pos bc y). pose proof va_pos. unfold zy. apply Rmult_integral_contrapositive_currified; [lra|]; apply Rmult_integral_contrapositive_currified; lra. Qed.
Lemma comp_zy n f : small n f -> small n (fun y => f (zy y)).
Proof. intros F. apply (small_comp n f zy _ F zy_bd zy_nz). Qed.
Lemma zy_over_y : is_lim (fun y => zy y / y) 0 (vov / alpha).
Proof.
  apply near_lim0. apply (small_ext 0 (fun y => vov / alpha * (EE bc y - 1))); [apply near_all; intros y Ny; unfold zy; field; lra|]. apply small_scal, sm_EE0.
Qed.
Lemma comp_lim n f (c : R) : small n (fun z => f z - c * z ^ n) -> is_lim (fun y => f (zy y) / y ^ n) 0 (c * (vov / alpha) ^ n).
Proof.
  intros F. apply near_lim0.
  assert (A : is_lim (fun y => f (zy y) / (zy y) ^ n * (zy y / y) ^ n) 0 (c * (vov / alpha) ^ n)).
  { apply is_lim_mult'.
    - apply near_lim0. apply (comp_zy 0 (fun z => f z / z ^ n - c)). apply near_lim0. apply small_lim, F.
    - apply (is_lim_comp_continuous (fun y => zy y / y) (fun x => x ^ n) 0 (vov / alpha) zy_over_y). apply (ex_derive_continuous (K := R_AbsRing) (V := R_NormedModule)). auto_derive. exact I. }
  apply near_lim0 in A. refine (small_ext 0 _ _ _ A). apply (near_impl _ _ zy_nz). intros y Ny Nz. replace ((zy y / y) ^ n) with (zy y ^ n / y ^ n) by (unfold Rdiv; rewrite Rpow_mult_distr, pow_inv; reflexivity). f_equal. field. split; apply pow_nonzero; assumption.
Qed.
Lemma vv_0 : vv 0 rho = 1. Proof. unfold vv. replace (1 + 0 * (0 + 2 * rho)) with 1 by ring. apply sqrt_1. Qed.
Lemma vv_d z : is_derive (fun u => vv u rho) z ((z + rho) / vv z rho).
Proof.
  unfold vv. pose proof (vv2_pos rho Hr z) as P. pose proof (sqrt_lt_R0 _ P). auto_derive; [exact P|]. Req. field. lra.
Qed.
Lemma vv_lim : is_lim (fun y => vv (zy y) rho) 0 1.
Proof.
  apply near_lim0. apply (comp_zy 0 (fun z => vv z rho - 1)). apply small0_cont; [rewrite vv_0; ring|].
  apply (ex_derive_continuous (K := R_AbsRing) (V := R_NormedModule)). apply (ex_derive_minus (K := R_AbsRing) (V := R_NormedModule)); [eexists; apply vv_d|apply ex_derive_const].
Qed.
(** t1 *)
Lemma t1_small : small 1 (fun z => (p_t1 rho z - p_t2 rho) - p_t2 rho * z ^ 1).
Proof.
  pose proof (rc_pos rho Hr). apply (small1_derive (fun z => p_t1 rho z - p_t2 rho - p_t2 rho * z ^ 1)); [unfold p_t1, p_t2; rewrite vv_0; field; lra|].
  unfold p_t1, p_t2. apply (is_derive_eq _ _ (((0 + rho) / vv 0 rho + 1) / sqrt (1 - rho ^ 2) - 0 - (1 + rho) / sqrt (1 - rho ^ 2))).
  - apply is_derive_minus_R; [apply is_derive_minus_R; [|apply is_derive_const_R]|].
    + apply (is_derive_ext (fun z => / sqrt (1 - rho ^ 2) * (vv z rho + (rho + z)))); [intros z; Req; field; lra|].
      apply (is_derive_eq _ _ (/ sqrt (1 - rho ^ 2) * ((0 + rho) / vv 0 rho + 1))); [|rewrite vv_0; field; lra].
      apply is_derive_scal_R, is_derive_plus_R; [apply vv_d|]. auto_derive; [exact I|]. Req. ring.
    + set (c := (1 + rho) / sqrt (1 - rho ^ 2)). apply (is_derive_ext (fun z => c * z)); [intros z; Req; ring|]. auto_derive; [exact I|]. Req. ring.
  - rewrite vv_0. field. lra.
Qed.
Lemma t1_over_y : is_lim (fun y => (p_t1 rho (zy y) - p_t2 rho) / y ^ 1) 0 (p_t2 rho * (vov / alpha)).
Proof. pose proof (comp_lim 1 (fun z => p_t1 rho z - p_t2 rho) (p_t2 rho) t1_small) as H. rewrite pow_1 in H. exact H. Qed.
Lemma p_t2_pos : 0 < p_t2 rho. Proof. unfold p_t2. apply Rdiv_lt_0_compat; [lra|apply (rc_pos rho Hr)]. Qed.
Lemma t1_lim : is_lim (fun y => p_t1 rho (zy y)) 0 (p_t2 rho).
Proof.
  apply near_lim0. pose proof (lim_small 1 _ _ t1_over_y) as H.
  apply (small_ext 0 (fun y => (p_t1 rho (zy y) - p_t2 rho - p_t2 rho * (vov / alpha) * y ^ 1) + p_t2 rho * (vov / alpha) * y ^ 1)); [apply near_all; intros; ring|].
  apply small_plus; [apply (small_le 0 1); [lia|exact H]|apply sm_p; lia].
Qed.
Lemma t1_ne : near (fun y => p_t1 rho (zy y) <> p_t2 rho).
Proof.
  pose proof p_t2_pos. pose proof va_pos.
  assert (P : 0 < p_t2 rho * (vov / alpha)) by (apply Rmult_lt_0_compat; assumption).
  apply (near_impl _ _ (near_of_lim _ _ (fun u => 0 < u) t1_over_y (locally_gt (fun u => u) _ _ (continuous_id _) P))). intros y Ny A E. rewrite E in A. unfold Rdiv in A. replace ((p_t2 rho - p_t2 rho) * / y ^ 1) with 0 in A by ring. lra.
Qed.
Hypothesis Hbc : 0 < bc.
Let rc := sqrt (1 - rho ^ 2).
Let eta0 := vov * rc / (bc * alpha).
Definition etay (y : R) : R := vov / (bc * alpha) * exp (bc * y) * (rc / vv (zy y) rho).
Lemma eta0_pos : 0 < eta0. Proof. unfold eta0. apply Rdiv_lt_0_compat; apply Rmult_lt_0_compat; try assumption. apply (rc_pos rho Hr). Qed.
Lemma etay_lim : is_lim etay 0 eta0.
Proof.
  unfold etay. replace (Finite eta0) with (Finite (vov / (bc * alpha) * 1 * (rc * / 1))) by (f_equal; unfold eta0; field; lra).
  apply is_lim_mult'; [apply is_lim_mult'; [apply is_lim_const|]|].
  - apply near_lim0, sm_exp0.
  - unfold Rdiv. apply is_lim_mult'; [apply is_lim_const|]. apply (is_lim_inv _ _ 1 vv_lim). intros E. injection E. lra.
Qed.
Hypothesis Hreg : / 10 ^ 6 < eta0 * eta0 - 1 \/ (eta0 * eta0 - 1 < - / 10 ^ 6 /\ eta0 <> rc /\ / 10 ^ 6 < eta0).
Lemma sq_cont x : continuous (fun u => u * u - 1) x.
Proof. apply (ex_derive_continuous (K := R_AbsRing) (V := R_NormedModule)). auto_derive. exact I. Qed.
Lemma gg_ok_near : near (fun y => gg_ok rho (etay y)).
Proof.
  pose proof eta0_pos as E0. pose proof (near_of_lim _ _ (fun u => 0 < u) etay_lim (locally_gt (fun u => u) _ _ (continuous_id _) E0)) as N0. destruct Hreg as [H|(H & Ne & H')].
  - apply (near_impl _ _ (near_and _ _ N0 (near_of_lim _ _ (fun u => / 10 ^ 6 < u * u - 1) etay_lim (locally_gt (fun u => u * u - 1) _ _ (sq_cont _) H)))).
    intros y _ [A B]. split; [exact A|]. left. exact B.
  - assert (Lne : locally eta0 (fun u => u <> rc)).
    { destruct (Rlt_dec eta0 rc) as [L|L]; [apply (filter_imp (fun u => u < rc)); [intros; lra|apply (locally_lt (fun u => u)); [apply continuous_id|exact L]]|].
      apply (filter_imp (fun u => rc < u)); [intros; lra|apply (locally_gt (fun u => u)); [apply continuous_id|lra]]. }
    apply (near_impl _ _ (near_and _ _ (near_and _ _ N0 (near_of_lim _ _ _ etay_lim Lne)) (near_and _ _ (near_of_lim _ _ (fun u => u * u - 1 < - / 10 ^ 6) etay_lim (locally_lt (fun u => u * u - 1) _ _ (sq_cont _) H))
       (near_of_lim _ _ (fun u => / 10 ^ 6 < u) etay_lim (locally_gt (fun u => u) _ _ (continuous_id _) H'))))).
    intros y _ [[A B] [C D]]. split; [exact A|]. right. left. repeat split; assumption.
Qed.
Lemma between_abs a b x : Rmin a b <= x <= Rmax a b -> Rabs (x - a) <= Rabs (b - a).
Proof. unfold Rmin, Rmax. destruct (Rle_dec a b); intros; [rewrite !Rabs_pos_eq by lra|rewrite !Rabs_left1 by lra]; lra. Qed.
Lemma gg_lim : is_lim (fun y => (p_gg rho rc (etay y) (p_t2 rho) (gskip (etay y)) - p_gg rho rc (etay y) (p_t1 rho (zy y)) false) / y ^ 2) 0 (rc ^ 2 / (4 * eta0) * (vov / alpha) ^ 2).
Proof.
  pose proof eta0_pos as E0. pose proof p_t2_pos as T0.
  assert (QC : continuity_2d_pt (gQ rho) eta0 (p_t2 rho)).
  { apply (continuity_2d_pt_ext (fun x y => ((x + rc) + (2 * rho) * y) + (x - rc) * (y * y))). { intros x y. unfold gQ, rc. ring. }
    repeat first [apply continuity_2d_pt_mult|apply continuity_2d_pt_plus|apply continuity_2d_pt_minus|apply continuity_2d_pt_id1|apply continuity_2d_pt_id2|apply continuity_2d_pt_const]. }
  assert (Q0 : 0 < gQ rho eta0 (p_t2 rho)). { unfold p_t2. rewrite (gQ_t2 rho Hr). apply Rmult_lt_0_compat; [exact E0|]. pose proof (pow2_ge_0 ((1 + rho) / sqrt (1 - rho ^ 2))). lra. }
  destruct (QC (mkposreal _ Q0)) as (dq & HQ). cbn in HQ.
  set (W := fun y => (p_gg rho rc (etay y) (p_t2 rho) (gskip (etay y)) - p_gg rho rc (etay y) (p_t1 rho (zy y)) false) / (p_t1 rho (zy y) - p_t2 rho) ^ 2).
  assert (WL : is_lim W 0 (gJ rho eta0 (p_t2 rho) / 2)).
  { apply near_lim0. apply near_small. intros e He. destruct (gJ_cont rho Hr eta0 ltac:(lra) (mkposreal e He)) as (dj & HJ). cbn in HJ.
    set (d := mkposreal (Rmin dq dj) (Rmin_stable_in_posreal dq dj)).
    assert (De : near (fun y => Rabs (etay y - eta0) < d)) by (apply (near_of_lim etay eta0 (fun u => Rabs (u - eta0) < d) etay_lim); exists d; intros u Hu; exact Hu).
    assert (Dt : near (fun y => Rabs (p_t1 rho (zy y) - p_t2 rho) < d)) by (apply (near_of_lim (fun y => p_t1 rho (zy y)) (p_t2 rho) (fun u => Rabs (u - p_t2 rho) < d) t1_lim); exists d; intros u Hu; exact Hu).
    apply (near_impl _ _ (near_and _ _ (near_and _ _ De Dt) (near_and _ _ gg_ok_near t1_ne))). intros y _ [[A B] [C D]]. rewrite pow_O, Rmult_1_r.
    assert (dle : d <= dq /\ d <= dj) by (split; [apply Rmin_l|apply Rmin_r]).
    destruct (gg_mv rho Hr (etay y) (p_t1 rho (zy y)) C) as (xi & Hxi & E); [|exact D|].
    - intros t Ht Z. apply between_abs in Ht. change ((1 + rho) / sqrt (1 - rho ^ 2)) with (p_t2 rho) in Ht. specialize (HQ (etay y) t ltac:(lra) ltac:(lra)). rewrite Z, Rminus_0_l, Rabs_Ropp, Rabs_pos_eq in HQ by lra. lra.
    - change ((1 + rho) / sqrt (1 - rho ^ 2)) with (p_t2 rho) in *. unfold W, rc. rewrite E. apply between_abs in Hxi.
      replace (gJ rho (etay y) xi / 2 * (p_t1 rho (zy y) - p_t2 rho) ^ 2 / (p_t1 rho (zy y) - p_t2 rho) ^ 2) with (gJ rho (etay y) xi / 2) by (field; lra).
      assert (HB : Rabs (xi - p_t2 rho) < dj) by lra. specialize (HJ (etay y) xi ltac:(lra) HB). change ((1 + rho) / sqrt (1 - rho ^ 2)) with (p_t2 rho) in HJ.
      replace (gJ rho (etay y) xi / 2 - gJ rho eta0 (p_t2 rho) / 2) with ((gJ rho (etay y) xi - gJ rho eta0 (p_t2 rho)) / 2) by field. change (1 - rho * (rho * 1)) with (1 - rho ^ 2) in HJ. change ((1 + rho) / sqrt (1 - rho ^ 2)) with (p_t2 rho) in HJ. unfold Rdiv. rewrite Rabs_mult, (Rabs_pos_eq (/ 2)) by lra. lra. }
  assert (L : is_lim (fun y => W y * ((p_t1 rho (zy y) - p_t2 rho) / y ^ 1) ^ 2) 0 (gJ rho eta0 (p_t2 rho) / 2 * (p_t2 rho * (vov / alpha)) ^ 2)).
  { apply is_lim_mult'; [exact WL|]. apply (is_lim_comp_continuous _ (fun x => x ^ 2) 0 _ t1_over_y). apply (ex_derive_continuous (K := R_AbsRing) (V := R_NormedModule)). auto_derive. exact I. }
  replace (rc ^ 2 / (4 * eta0) * (vov / alpha) ^ 2) with (gJ rho eta0 (p_t2 rho) / 2 * (p_t2 rho * (vov / alpha)) ^ 2).
  2:{ transitivity (gJ rho eta0 (p_t2 rho) * p_t2 rho ^ 2 / 2 * (vov / alpha) ^ 2); [field; lra|]. unfold p_t2 at 1 2. rewrite (gJ_t2 rho Hr eta0) by lra. reflexivity. }
  apply near_lim0. apply near_lim0 in L. refine (small_ext 0 _ _ _ L). apply (near_impl _ _ t1_ne). intros y Ny N. f_equal. unfold W. field. split; lra.
Qed.
End ATM.
