(** Small-volatility branch of SabrABC.cond_avgvar_mvsk and the Hermite branch of cond_avgvar_mfn against the exact values. *)
From Coq Require Import Reals Lra Lia Arith List Psatz.
From Coquelicot Require Import Coquelicot.
From Verif Require Import Base Gauss Sums Spec_Expect Spec_Sabr M_Sabr P_Sabr P_Sabr2 P_Herm P_Jet P_Jet2.
Open Scope R_scope.

Lemma pol_zero n a w : (forall i, (i < n)%nat -> a i = 0) -> pol n a w = 0.
Proof.
  intros H. unfold pol. induction n as [|n IH]; [reflexivity|]. cbn [rsum]. rewrite IH by (intros; apply H; lia). rewrite H by lia. ring.
Qed.
Lemma jets_lin n a b : jets (S (S n)) (fun v => a + b * v ^ 2) (nthf (a :: b :: nil)).
Proof.
  exists 0, 1. split; [lra|]. intros v _. rewrite !pol_S.
  rewrite pol_zero; [|intros i _; unfold nthf; destruct i; reflexivity]. unfold nthf. cbn [nth].
  replace (a + b * v ^ 2 - (a + v ^ 2 * (b + v ^ 2 * 0))) with 0 by ring. rewrite Rabs_R0. lra.
Qed.
Lemma jets_zero n f a : (forall i, (i < n)%nat -> a i = 0) -> jets n f a ->
  exists C d, 0 <= C /\ 0 < d <= 1 /\ forall v, 0 < v <= d -> Rabs (f v) <= C * v ^ (2 * n).
Proof.
  intros H J. destruct (jets_C0 _ _ _ J) as (C & d & HC0 & Hd & HC). exists C, d. split; [exact HC0|]. split; [exact Hd|].
  intros v Hv. specialize (HC v Hv). rewrite pol_zero in HC by exact H. rewrite Rminus_0_r, <- pow_mult in HC. exact HC.
Qed.
Lemma jets_lower n f a : 0 < a 0%nat -> jets (S n) f a -> exists d, 0 < d <= 1 /\ forall v, 0 < v <= d -> a 0%nat / 2 <= f v.
Proof.
  intros H J. assert (J1 : jets 1 f a) by (clear H; induction n; [exact J|apply IHn, jets_shorten, J]).
  destruct (jets_C0 _ _ _ J1) as (C & d & HC0 & Hd & HC). set (m := a 0%nat / (2 * (C + 1))).
  assert (Hm : 0 < m) by (apply Rdiv_lt_0_compat; lra).
  exists (Rmin d m). pose proof (Rmin_l d m). pose proof (Rmin_r d m). split; [split; [apply Rmin_glb_lt; lra|lra]|].
  intros v Hv. specialize (HC v ltac:(lra)). unfold pol in HC. cbn [rsum pow] in HC. rewrite !Rmult_1_r, Rplus_0_l in HC.
  assert (v * v <= m) by nra.
  assert (C * (v * v) <= a 0%nat / 2).
  { apply Rle_trans with (C * m); [apply Rmult_le_compat_l; assumption|].
    apply Rle_trans with ((C + 1) * m); [apply Rmult_le_compat_r; lra|]. unfold m. right. field. lra. }
  apply Rabs_le_between in HC. lra.
Qed.
(** ratio of expansions *)
Lemma jets_ratio n f g a b k : (forall i, (i < n)%nat -> a i = 0) -> jets n f a -> 0 < b 0%nat -> jets (S k) g b ->
  exists C d, 0 <= C /\ 0 < d <= 1 /\ forall v, 0 < v <= d -> 0 < g v /\ Rabs (f v / g v) <= C * v ^ (2 * n).
Proof.
  intros H J Hb K. destruct (jets_zero n f a H J) as (C & d & HC0 & Hd & HC). destruct (jets_lower k g b Hb K) as (e & He & HE).
  exists (C / (b 0%nat / 2)), (Rmin d e). pose proof (Rmin_l d e). pose proof (Rmin_r d e).
  assert (Hi : 0 < / (b 0%nat / 2)) by (apply Rinv_0_lt_compat; lra).
  split; [apply Rmult_le_pos; lra|]. split; [split; [apply Rmin_glb_lt; lra|lra]|].
  intros v Hv. specialize (HC v ltac:(lra)). specialize (HE v ltac:(lra)). split; [lra|].
  unfold Rdiv. rewrite Rabs_mult. rewrite (Rabs_pos_eq (/ g v)) by (left; apply Rinv_0_lt_compat; lra).
  replace (C * / (b 0%nat * / 2) * v ^ (2 * n)) with (C * v ^ (2 * n) * / (b 0%nat / 2)) by (unfold Rdiv; ring).
  apply Rmult_le_compat; [apply Rabs_pos|left; apply Rinv_0_lt_compat; lra|exact HC|]. apply Rinv_le_contravar; lra.
Qed.

Lemma jets_lower' n f a : jets (S n) f a -> 0 < a 0%nat -> exists d, 0 < d <= 1 /\ forall v, 0 < v <= d -> a 0%nat / 2 <= f v.
Proof. intros J H. exact (jets_lower n f a H J). Qed.
Lemma jets_ratio' n f g a b k : (forall i, (i < n)%nat -> a i = 0) -> jets n f a -> jets (S k) g b -> 0 < b 0%nat ->
  exists C d, 0 <= C /\ 0 < d <= 1 /\ forall v, 0 < v <= d -> 0 < g v /\ Rabs (f v / g v) <= C * v ^ (2 * n).
Proof. intros H J K Hb. exact (jets_ratio n f g a b k H J Hb K). Qed.

Section S.
Variable z : R.
Let mu2 v := q2 z v - q1 z v ^ 2.
Let mu3 v := q3 z v - 3 * q1 z v * q2 z v + 2 * q1 z v ^ 3.
Let mu4 v := q4 z v - 4 * q1 z v * q3 z v + 6 * q1 z v ^ 2 * q2 z v - 3 * q1 z v ^ 4.
Definition vs_c : R := (6 - z ^ 2) / 45.
Definition sk_c : R := - (4 / 875) * (51 * z ^ 2 - 716).
Definition ku_c : R := - (8 / 175) * (9 * z ^ 2 - 158).
Ltac each := let i := fresh "i" in let H := fresh "H" in intros i H;
  do 8 (try (destruct i as [|i]; [clear H; unfold cv, nthf, vs_c, sk_c, ku_c; cbn [rsum Nat.sub Nat.mul Nat.add nth]; field|])); lia.
Lemma vs_num : jets 3 (fun v => mu2 v - q1 z v ^ 2 * ((/ 3 + vs_c * v ^ 2) * v ^ 2)) (fun _ => 0).
Proof.
  pose proof (jets_mult 5 _ _ _ _ (jq11 z) (jets_mult 5 _ _ _ _ (jets_lin 3 (/ 3) vs_c) (jets_lin 3 0 1))) as B.
  pose proof (jets_minus 5 _ _ _ _ (jmu2 z) B) as D.
  eapply jets_ext; [| |exact (jets_shorten 3 _ _ (jets_shorten 4 _ _ D))]; [intros v _; unfold mu2; cbv beta; ring|each].
Qed.
Lemma jA : jets 2 (fun v => mu2 v / v ^ 2) (nthf (/ 3 :: (16 / 45 + 4 / 45 * z ^ 2) :: nil)).
Proof.
  pose proof (jets_shift' 4 _ _ (jmu2 z) eq_refl) as A.
  eapply jets_ext; [| |exact (jets_shorten 2 _ _ (jets_shorten 3 _ _ A))]; [intros v _; reflexivity|each].
Qed.
Lemma jB : jets 2 (fun v => mu3 v / v ^ 4) (nthf (2 / 5 :: (748 / 945 + 47 / 315 * z ^ 2) :: nil)).
Proof.
  pose proof (jets_shift' 3 _ _ (jets_shift' 4 _ _ (jmu3 z) eq_refl) eq_refl) as A.
  eapply jets_ext; [| |exact (jets_shorten 2 _ _ A)]; [intros v Hv; unfold mu3; cbv beta; field; lra|each].
Qed.
Lemma jD : jets 2 (fun v => (mu4 v - 3 * mu2 v ^ 2) / v ^ 6) (nthf (92 / 105 :: (4208 / 1575 + 664 / 1575 * z ^ 2) :: nil)).
Proof.
  pose proof (jets_minus 5 _ _ _ _ (jmu4 z) (jets_scal 5 3 _ _ (jets_mult 5 _ _ _ _ (jmu2 z) (jmu2 z)))) as N.
  assert (N' : jets 5 (fun v => mu4 v - 3 * mu2 v ^ 2) (nthf (0 :: 0 :: 0 :: 92 / 105 :: (4208 / 1575 + 664 / 1575 * z ^ 2) :: nil))).
  { eapply jets_ext; [| |exact N]; [intros v Hv; unfold mu4, mu2; cbv beta; ring|each]. }
  pose proof (jets_shift' 2 _ _ (jets_shift' 3 _ _ (jets_shift' 4 _ _ N' eq_refl) eq_refl) eq_refl) as A.
  eapply jets_ext; [| |exact A]; [intros v Hv; cbv beta; field; lra|each].
Qed.
Lemma sk_num : jets 2 (fun v => (mu3 v / v ^ 4) ^ 2 - (108 / 25 + sk_c * v ^ 2) * (mu2 v / v ^ 2) ^ 3) (fun _ => 0).
Proof.
  pose proof (jets_mult 2 _ _ _ _ jB jB) as B2. pose proof (jets_mult 2 _ _ _ _ jA (jets_mult 2 _ _ _ _ jA jA)) as A3.
  pose proof (jets_minus 2 _ _ _ _ B2 (jets_mult 2 _ _ _ _ (jets_lin 0 (108 / 25) sk_c) A3)) as D.
  eapply jets_ext; [| |exact D]; [intros v Hv; cbv beta; ring|each].
Qed.
Lemma ku_num : jets 2 (fun v => (mu4 v - 3 * mu2 v ^ 2) / v ^ 6 - (276 / 35 + ku_c * v ^ 2) * (mu2 v / v ^ 2) ^ 2) (fun _ => 0).
Proof.
  pose proof (jets_mult 2 _ _ _ _ jA jA) as A2.
  pose proof (jets_minus 2 _ _ _ _ jD (jets_mult 2 _ _ _ _ (jets_lin 0 (276 / 35) ku_c) A2)) as D.
  eapply jets_ext; [| |exact D]; [intros v Hv; cbv beta; ring|each].
Qed.
Lemma raw_stats v : 0 < v -> 0 < mu2 v -> q1 z v <> 0 ->
  let r k := cond_raw k v z in
  var_of_raw (r 1%nat) (r 2%nat) / r 1%nat ^ 2 = mu2 v / q1 z v ^ 2 /\
  skew_of_raw (r 1%nat) (r 2%nat) (r 3%nat) = mu3 v / sqrt (mu2 v) ^ 3 /\
  exkurt_of_raw (r 1%nat) (r 2%nat) (r 3%nat) (r 4%nat) = mu4 v / mu2 v ^ 2 - 3.
Proof.
  intros Hv Hm Hq r. set (e := exp (v * z)). assert (He : 0 < e) by apply exp_pos.
  assert (E1 : r 1%nat = q1 z v * e) by reflexivity. assert (E2 : r 2%nat = q2 z v * e ^ 2) by reflexivity.
  assert (E3 : r 3%nat = q3 z v * e ^ 3) by reflexivity. assert (E4 : r 4%nat = q4 z v * e ^ 4) by reflexivity.
  rewrite E1, E2, E3, E4. clearbody e.
  assert (EV : var_of_raw (q1 z v * e) (q2 z v * e ^ 2) = e ^ 2 * mu2 v) by (unfold var_of_raw, mu2; ring).
  unfold skew_of_raw, exkurt_of_raw. rewrite EV.
  assert (ES : sqrt (e ^ 2 * mu2 v) = e * sqrt (mu2 v)).
  { rewrite sqrt_mult by (try apply pow2_ge_0; lra). rewrite sqrt_pow2 by lra. reflexivity. }
  rewrite ES. pose proof (sqrt_lt_R0 _ Hm) as Hs. set (s := sqrt (mu2 v)) in *. clearbody s.
  split; [|split].
  - field. split; [exact Hq|lra].
  - unfold mu3. field. lra.
  - assert (mu2 v <> 0) by lra. unfold mu4. set (x := mu2 v) in *. clearbody x. field. lra.
Qed.
Lemma small_stats : exists C d, 0 <= C /\ 0 < d <= / 20 /\ forall v, 0 < v <= d ->
  let r k := cond_raw k v z in
  Rabs (var_of_raw (r 1%nat) (r 2%nat) / r 1%nat ^ 2 - (v ^ 2 / 3 + vs_c * v ^ 4)) <= C * v ^ 6 /\
  0 < skew_of_raw (r 1%nat) (r 2%nat) (r 3%nat) /\
  0 <= 108 / 25 + sk_c * v ^ 2 /\
  Rabs (skew_of_raw (r 1%nat) (r 2%nat) (r 3%nat) ^ 2 - v ^ 2 * (108 / 25 + sk_c * v ^ 2)) <= C * v ^ 6 /\
  Rabs (exkurt_of_raw (r 1%nat) (r 2%nat) (r 3%nat) (r 4%nat) - v ^ 2 * (276 / 35 + ku_c * v ^ 2)) <= C * v ^ 6.
Proof.
  destruct (jets_ratio' 3 _ _ _ _ 4 (fun _ _ => eq_refl) vs_num (jq11 z) ltac:(unfold nthf; cbn [nth]; lra)) as (C1 & d1 & HC1 & Hd1 & H1).
  pose proof (jets_mult 2 _ _ _ _ jA (jets_mult 2 _ _ _ _ jA jA)) as A3.
  destruct (jets_ratio' 2 _ _ _ _ 1 (fun _ _ => eq_refl) sk_num A3 ltac:(unfold cv, nthf; cbn [rsum Nat.sub nth]; lra)) as (C2 & d2 & HC2 & Hd2 & H2).
  pose proof (jets_mult 2 _ _ _ _ jA jA) as A2.
  destruct (jets_ratio' 2 _ _ _ _ 1 (fun _ _ => eq_refl) ku_num A2 ltac:(unfold cv, nthf; cbn [rsum Nat.sub nth]; lra)) as (C3 & d3 & HC3 & Hd3 & H3).
  destruct (jets_lower' 1 _ _ jA ltac:(unfold nthf; cbn [nth]; lra)) as (d4 & Hd4 & H4).
  destruct (jets_lower' 1 _ _ jB ltac:(unfold nthf; cbn [nth]; lra)) as (d5 & Hd5 & H5).
  destruct (jets_lower' 0 _ _ (jets_shorten 1 _ _ (jets_lin 0 (108 / 25) sk_c)) ltac:(unfold nthf; cbn [nth]; lra)) as (d6 & Hd6 & H6).
  destruct (jets_lower' 4 _ _ (jq1 z) ltac:(unfold nthf; cbn [nth]; lra)) as (d7 & Hd7 & H7).
  unfold nthf in H4, H5, H6, H7. cbn [nth] in H4, H5, H6, H7.
  set (d := Rmin (Rmin (Rmin d1 d2) (Rmin d3 d4)) (Rmin (Rmin d5 d6) (Rmin d7 (/ 20)))).
  assert (Hd : 0 < d /\ d <= d1 /\ d <= d2 /\ d <= d3 /\ d <= d4 /\ d <= d5 /\ d <= d6 /\ d <= d7 /\ d <= / 20).
  { unfold d. clear - Hd1 Hd2 Hd3 Hd4 Hd5 Hd6 Hd7. unfold Rmin. repeat destruct (Rle_dec _ _); lra. }
  exists (C1 + C2 + C3), d. split; [lra|]. split; [lra|]. intros v Hv r.
  specialize (H1 v ltac:(lra)). specialize (H2 v ltac:(lra)). specialize (H3 v ltac:(lra)). specialize (H4 v ltac:(lra)).
  specialize (H5 v ltac:(lra)). specialize (H6 v ltac:(lra)). specialize (H7 v ltac:(lra)). clear Hd.
  assert (Hv2 : 0 < v ^ 2) by (apply pow_lt; lra). assert (Hv6 : 0 < v ^ 6) by (apply pow_lt; lra). assert (Hv4 : 0 < v ^ 4) by (apply pow_lt; lra).
  assert (Hm2 : 0 < mu2 v). { replace (mu2 v) with (mu2 v / v ^ 2 * v ^ 2) by (field; lra). apply Rmult_lt_0_compat; lra. }
  assert (Hm3 : 0 < mu3 v). { replace (mu3 v) with (mu3 v / v ^ 4 * v ^ 4) by (field; lra). apply Rmult_lt_0_compat; lra. }
  destruct (raw_stats v ltac:(lra) Hm2 ltac:(lra)) as (E1 & E2 & E3). unfold r in *; cbv beta in *. rewrite E1, E2, E3. clear E1 E2 E3.
  assert (Hs := sqrt_lt_R0 _ Hm2).
  split; [|split; [|split; [lra|split]]].
  - destruct H1 as [_ H1]. cbn [Nat.mul Nat.add] in H1.
    replace (mu2 v / q1 z v ^ 2 - (v ^ 2 / 3 + vs_c * v ^ 4)) with ((mu2 v - q1 z v ^ 2 * ((/ 3 + vs_c * v ^ 2) * v ^ 2)) / q1 z v ^ 2) by (field; lra).
    eapply Rle_trans; [exact H1|]. apply Rmult_le_compat_r; lra.
  - apply Rdiv_lt_0_compat; [exact Hm3|apply pow_lt, Hs].
  - destruct H2 as [_ H2]. cbn [Nat.mul Nat.add] in H2.
    replace ((mu3 v / sqrt (mu2 v) ^ 3) ^ 2) with (mu3 v ^ 2 / mu2 v ^ 3).
    2:{ rewrite <- (sqrt_sqrt (mu2 v)) at 1 by lra. field. lra. }
    replace (mu3 v ^ 2 / mu2 v ^ 3 - v ^ 2 * (108 / 25 + sk_c * v ^ 2))
      with (v ^ 2 * (((mu3 v / v ^ 4) ^ 2 - (108 / 25 + sk_c * v ^ 2) * (mu2 v / v ^ 2) ^ 3) / (mu2 v / v ^ 2 * (mu2 v / v ^ 2 * (mu2 v / v ^ 2))))) by (field; lra).
    rewrite Rabs_mult, (Rabs_pos_eq (v ^ 2)) by lra.
    eapply Rle_trans; [apply Rmult_le_compat_l; [lra|exact H2]|]. replace (v ^ 2 * (C2 * v ^ 4)) with (C2 * v ^ 6) by ring. apply Rmult_le_compat_r; lra.
  - destruct H3 as [_ H3]. cbn [Nat.mul Nat.add] in H3.
    replace (mu4 v / mu2 v ^ 2 - 3 - v ^ 2 * (276 / 35 + ku_c * v ^ 2))
      with (v ^ 2 * (((mu4 v - 3 * mu2 v ^ 2) / v ^ 6 - (276 / 35 + ku_c * v ^ 2) * (mu2 v / v ^ 2) ^ 2) / (mu2 v / v ^ 2 * (mu2 v / v ^ 2)))) by (field; lra).
    rewrite Rabs_mult, (Rabs_pos_eq (v ^ 2)) by lra.
    eapply Rle_trans; [apply Rmult_le_compat_l; [lra|exact H3]|]. replace (v ^ 2 * (C3 * v ^ 4)) with (C3 * v ^ 6) by ring. apply Rmult_le_compat_r; lra.
Qed.
End S.

Lemma Gn_ratio a k t z : 0 < a -> 0 < t -> (k <= 4)%nat -> Gn a k t (z * (a * sqrt t)) / (t ^ k * Gn a 0 t (z * (a * sqrt t))) = cond_raw k (a * sqrt t) z.
Proof.
  intros Ha Ht Hk. assert (Hv : 0 < a * sqrt t) by (apply Rmult_lt_0_compat; [exact Ha|apply sqrt_lt_R0, Ht]).
  unfold Gn. replace (z * (a * sqrt t) / (a * sqrt t)) with z by (field; pose proof (sqrt_lt_R0 t Ht); lra).
  replace (cond_raw 0 (a * sqrt t) z) with 1 by (unfold cond_raw, cond_mnc; reflexivity). rewrite pow_O.
  assert (HL : lndens (a ^ 2 * t) (z * (a * sqrt t)) <> 0).
  { apply Rgt_not_eq. unfold lndens. apply Rdiv_lt_0_compat; [apply exp_pos|]. apply sqrt_lt_R0. pose proof PI_RGT_0.
    apply Rmult_lt_0_compat; [lra|]. apply Rmult_lt_0_compat; [apply pow_lt, Ha|exact Ht]. }
  field. split; [exact HL|]. apply pow_nonzero. lra.
Qed.
Lemma code_small v z m s sk k : 0 < v <= / 20 -> cond_avgvar_mvsk v z = (m, s, sk, k) ->
  s = v ^ 2 / 3 - vs_c z * v ^ 4 /\ sk = sqrt (v ^ 2 * (108 / 25 + sk_c z * v ^ 2)) /\ k = v ^ 2 * (276 / 35 + ku_c z * v ^ 2).
Proof.
  intros Hv E. unfold cond_avgvar_mvsk in E. destruct (cond_mnc _ _ _) as [[[c1 c2] c3] c4]. cbv zeta in E.
  destruct (Rlt_dec (v ^ 2) (/ 100)) as [_|N]; [|exfalso; apply N; nra].
  injection E as _ <- <- <-. unfold vs_c, sk_c, ku_c. split; [field|split]; [f_equal; field|field].
Qed.
Lemma cond_small_vov a : 0 < a -> exists G, weighted_densities a 4 G /\
  forall z, exists C d, 0 < d /\ forall t, 0 < t -> a * sqrt t <= d ->
  let v := a * sqrt t in
  let r k := G k t (z * v) / (t ^ k * G 0%nat t (z * v)) in
  forall m s sk k, cond_avgvar_mvsk v z = (m, s, sk, k) ->
  0 <= sk /\ 0 < skew_of_raw (r 1%nat) (r 2%nat) (r 3%nat) /\
  Rabs (sk ^ 2 - skew_of_raw (r 1%nat) (r 2%nat) (r 3%nat) ^ 2) <= C * v ^ 6 /\
  Rabs (k - exkurt_of_raw (r 1%nat) (r 2%nat) (r 3%nat) (r 4%nat)) <= C * v ^ 6 /\
  Rabs (s - (var_of_raw (r 1%nat) (r 2%nat) / r 1%nat ^ 2 - 2 * (6 - z ^ 2) / 45 * v ^ 4)) <= C * v ^ 6.
Proof.
  intros Ha. exists (Gn a). split; [exact (cond_fokker_planck a Ha)|]. intros z.
  destruct (small_stats z) as (C & d & HC & Hd & H). exists C, d. split; [lra|]. intros t Ht Hv v r m s sk k E.
  assert (Hv0 : 0 < v) by (apply Rmult_lt_0_compat; [exact Ha|apply sqrt_lt_R0, Ht]).
  specialize (H v (conj Hv0 Hv)). cbv zeta in H.
  assert (Er : forall j, (j <= 4)%nat -> r j = cond_raw j v z) by (intros j Hj; unfold r, v; apply Gn_ratio; assumption).
  rewrite !Er by lia. destruct H as (H1 & H2 & H3 & H4 & H5).
  assert (Hv1 : 0 < v <= / 20) by (split; [exact Hv0|apply Rle_trans with d; [exact Hv|apply Hd]]).
  destruct (code_small v z m s sk k Hv1 E) as (Es & Esk & Ek).
  split; [rewrite Esk; apply sqrt_pos|]. split; [exact H2|]. split; [|split].
  - rewrite Esk, pow2_sqrt by (apply Rmult_le_pos; [apply pow2_ge_0|exact H3]). rewrite Rabs_minus_sym. exact H4.
  - rewrite Ek, Rabs_minus_sym. exact H5.
  - rewrite Es, Rabs_minus_sym. unfold vs_c in *.
    match goal with |- Rabs ?e <= _ => match type of H1 with Rabs ?f <= _ => replace e with f by (cbv zeta; generalize (cond_raw 1 v z) (cond_raw 2 v z); intros; lra) end end. exact H1.
Qed.
(** so the scaled variance is wrong at order v^4 *)
Lemma cond_small_vov_refuted : exists G, weighted_densities 1 4 G /\
  ~ exists C d, 0 < d /\ forall t, 0 < t -> sqrt t <= d ->
    let v := sqrt t in
    let r k := G k t (0 * v) / (t ^ k * G 0%nat t (0 * v)) in
    forall m s sk k, cond_avgvar_mvsk v 0 = (m, s, sk, k) -> Rabs (s - var_of_raw (r 1%nat) (r 2%nat) / r 1%nat ^ 2) <= C * v ^ 6.
Proof.
  destruct (cond_small_vov 1 ltac:(lra)) as (G & HG & H). exists G. split; [exact HG|]. intros (C' & d' & Hd' & H').
  destruct (H 0) as (C & d & Hd & HH). clear H.
  set (B := Rmax (C + C') 1). pose proof (Rmax_r (C + C') 1) as HB1. pose proof (Rmax_l (C + C') 1) as HB2. fold B in HB1, HB2.
  set (v := Rmin (Rmin d d') (/ (4 * B))).
  assert (Hi : 0 < / (4 * B)) by (apply Rinv_0_lt_compat; lra).
  assert (Hv : 0 < v /\ v <= d /\ v <= d' /\ v <= / (4 * B)).
  { unfold v. clear - Hi Hd Hd'. unfold Rmin. repeat destruct (Rle_dec _ _); lra. }
  assert (Es : sqrt (v ^ 2) = v) by (apply sqrt_pow2; lra).
  specialize (HH (v ^ 2) ltac:(apply pow_lt; lra)). specialize (H' (v ^ 2) ltac:(apply pow_lt; lra)). rewrite Es in HH, H'. rewrite Rmult_1_l in HH.
  specialize (HH ltac:(lra)). specialize (H' ltac:(lra)). cbv zeta in HH, H'.
  destruct (cond_avgvar_mvsk v 0) as [[[m s] sk] k]. specialize (HH m s sk k eq_refl). specialize (H' m s sk k eq_refl).
  destruct HH as (_ & _ & _ & _ & HH).
  set (tv := var_of_raw _ _ / _) in *.
  replace (2 * (6 - 0 ^ 2) / 45 * v ^ 4) with (4 / 15 * v ^ 4) in HH by field.
  assert (Hle : 4 / 15 * v ^ 4 <= (C + C') * v ^ 6).
  { pose proof (Rabs_triang (s - (tv - 4 / 15 * v ^ 4)) (- (s - tv))) as T. rewrite Rabs_Ropp in T.
    replace (s - (tv - 4 / 15 * v ^ 4) + - (s - tv)) with (4 / 15 * v ^ 4) in T by ring.
    rewrite (Rabs_pos_eq (4 / 15 * v ^ 4)) in T by (pose proof (pow_lt v 4 (proj1 Hv)); lra). lra. }
  assert (Hv4 : 0 < v ^ 4) by (apply pow_lt; lra).
  assert (Hb : (C + C') * v ^ 6 <= B * v ^ 2 * v ^ 4).
  { replace (B * v ^ 2 * v ^ 4) with (B * v ^ 6) by ring. apply Rmult_le_compat_r; [apply pow_le; lra|exact HB2]. }
  assert (Hs : B * v ^ 2 <= 1 / 16).
  { assert (v ^ 2 <= / (4 * B) * / (4 * B)) by nra. apply Rle_trans with (B * (/ (4 * B) * / (4 * B))); [apply Rmult_le_compat_l; lra|].
    replace (B * (/ (4 * B) * / (4 * B))) with (/ (16 * B)) by (field; lra).
    apply Rle_trans with (/ 16); [apply Rinv_le_contravar; lra|lra]. }
  assert (B * v ^ 2 * v ^ 4 <= 1 / 16 * v ^ 4) by (apply Rmult_le_compat_r; lra). lra.
Qed.
(** Hermite branch of the conditional mean *)
Lemma mfn_herm_error v z : 0 < v <= / 100 ->
  exists h mean, (forall s, 0 <= s <= 1 ->
      gauss_expect (fun y => exp (2 * v * (s * (z + v / 2) + sqrt (s * (1 - s)) * y) - v ^ 2 * s)) (h s)) /\
    is_RInt h 0 1 (mean * exp (v * z)) /\
    let b := Rabs z + / 100 in
    Rabs (cond_avgvar_mfn z v - mean) <= v ^ 8 / 362880 * (b ^ 8 + 28 * b ^ 6 + 210 * b ^ 4 + 420 * b ^ 2 + 105) * exp (Rabs z / 100 + v ^ 2 / 2).
Proof.
  intros Hv. destruct (cond_bridge v z ltac:(lra)) as (h & H1 & H2). exists h, (mfn_exact z v). split; [exact H1|]. split; [exact H2|].
  intros b. pose proof (mfn_taylor z 4 v (/ 100) ltac:(lra)) as H. unfold cond_avgvar_mfn.
  destruct (Rlt_dec (/ 100) (Rabs v)) as [N|_]; [rewrite Rabs_pos_eq in N; lra|].
  assert (Eh : hsum z 4 v * exp (v ^ 2 / 2) = mfn_herm z v).
  { unfold hsum, mfn_herm. cbn [rsum Nat.mul Nat.add]. fcs. rewrite he0, he2, he4, he6. unfold herme2, herme4, herme6. field. }
  rewrite Eh in H. rewrite Rabs_minus_sym. eapply Rle_trans; [exact H|]. right. fold b. change (2 * 4 + 1)%nat with 9%nat. change (2 * 4)%nat with 8%nat. fcs.
  replace (Ha 8 b) with (b ^ 8 + 28 * b ^ 6 + 210 * b ^ 4 + 420 * b ^ 2 + 105).
  2:{ cbn [Ha]. rewrite !INR_IZR_INZ. cbn [Z.of_nat Pos.of_succ_nat Pos.succ]. ring. }
  rewrite exp_plus. replace (Rabs z / 100) with (Rabs z * / 100) by reflexivity. unfold Rdiv. ring.
Qed.
