(** Size of the remainder of the gamma expansion: agreement with the asymptotic formulas. *)
From Coq Require Import Reals Lra Lia Arith Psatz.
From Coquelicot Require Import Coquelicot.
From Verif Require Import Base Sums M_Heston P_Cir P_KlSum P_Kl M_Ou M_HestonMc Spec_Dist Spec_Cev Spec_CevMc Spec_HestonMc P_HestonMc P_HestonMc2 P_HestonMc7.
Open Scope R_scope.

Definition b1 (i : nat) : R := / INR (S i) - / INR (S (S i)).
Definition b3 (i : nat) : R := / INR (S i) ^ 3 - / INR (S (S i)) ^ 3.
Lemma inv_lim (p : nat) : is_lim_seq (fun n => / INR (S n) ^ S p) 0.
Proof.
  assert (H : is_lim_seq (fun n => / INR (S n)) 0).
  { replace (Finite 0) with (Rbar_inv p_infty) by reflexivity. apply is_lim_seq_inv; [|discriminate]. apply -> is_lim_seq_incr_1. apply is_lim_seq_INR. }
  pose proof (is_lim_seq_continuous (fun x => x ^ S p) (fun n => / INR (S n)) 0) as L. cbv beta in L.
  rewrite pow_i in L by lia. eapply is_lim_seq_ext; [|apply L; [|exact H]].
  - intros n. cbv beta. now rewrite pow_inv.
  - apply derivable_continuous_pt, derivable_pt_pow.
Qed.
Lemma tele_tail (u : nat -> R) k : is_lim_seq u 0 -> is_series (fun i => u (k + i)%nat - u (S (k + i))) (u k).
Proof.
  intros H. assert (L : is_lim_seq (sum_n (fun i => u (k + i)%nat - u (S (k + i)))) (u k)); [|exact L].
  apply (is_lim_seq_ext (fun n => u k - u (S (k + n)))).
  - intros n. induction n as [|n IH].
    + rewrite sum_O. now rewrite Nat.add_0_r.
    + rewrite sum_Sn, <- IH. unfold plus; cbn -[INR]. rewrite <- plus_n_Sm. ring.
  - replace (u k) with (u k - 0) at 1 by ring. apply is_lim_seq_minus'; [apply is_lim_seq_const|].
    apply (is_lim_seq_ext (fun n => u (n + S k)%nat)); [intros n; f_equal; lia|]. now apply is_lim_seq_incr_n.
Qed.
Lemma b1_tail k : is_series (fun i => b1 (k + i)) (/ INR (S k)).
Proof.
  unfold b1. apply (tele_tail (fun n => / INR (S n)) k). eapply is_lim_seq_ext; [|apply (inv_lim 0)]. intros n. cbv beta. now rewrite pow_1.
Qed.
Lemma b3_tail k : is_series (fun i => b3 (k + i)) (/ INR (S k) ^ 3).
Proof. unfold b3. exact (tele_tail (fun n => / INR (S n) ^ 3) k (inv_lim 2)). Qed.
Lemma b1_eq i : b1 i = / (INR (S i) * (INR (S i) + 1)).
Proof. unfold b1. rewrite (S_INR (S i)). pose proof (lt_0_INR (S i) ltac:(lia)). field. lra. Qed.
Lemma b3_eq i : b3 i = (3 * INR (S i) ^ 2 + 3 * INR (S i) + 1) / (INR (S i) ^ 3 * (INR (S i) + 1) ^ 3).
Proof. unfold b3. rewrite (S_INR (S i)). pose proof (lt_0_INR (S i) ltac:(lia)). field. lra. Qed.
Lemma b1_pos i : 0 < b1 i. Proof. rewrite b1_eq. pose proof (lt_0_INR (S i) ltac:(lia)). apply Rinv_0_lt_compat, Rmult_lt_0_compat; lra. Qed.
Lemma b3_pos i : 0 < b3 i.
Proof. rewrite b3_eq. pose proof (lt_0_INR (S i) ltac:(lia)). apply Rdiv_lt_0_compat; [nra|]. apply Rmult_lt_0_compat; apply pow_lt; lra. Qed.

Lemma lim_at0 (g : R -> R) (f : nat -> R) : ex_derive g 0 -> (forall n, f n = g (/ INR (S n))) -> is_lim_seq f (g 0).
Proof.
  intros Hg E. eapply is_lim_seq_ext; [intros n; symmetry; apply E|]. apply (is_lim_seq_continuous g (fun n => / INR (S n)) 0).
  - apply continuity_pt_filterlim. now apply (ex_derive_continuous (K := R_AbsRing) (V := R_NormedModule) g).
  - eapply is_lim_seq_ext; [|apply (inv_lim 0)]. intros n. cbv beta. now rewrite pow_1.
Qed.

Section A.
Variables (c : cir) (dt : R).
Hypothesis (Hxi : 0 < c_xi c) (Hmr : 0 < c_mr c) (Hdt : 0 < dt).
Let a := c_mr c * dt / 2.
Let w2 := ge_vov2dt c dt.
Let Hw : 0 < w2. Proof. exact (w2_pos c dt Hxi Hdt). Qed.
Let A2 := (c_mr c * dt) ^ 2.
Let HA : 0 <= A2. Proof. apply pow2_ge_0. Qed.
Let np i : 0 < INR (S i). Proof. apply lt_0_INR; lia. Qed.
Let dp t : 0 < A2 * t ^ 2 + 4 * PI ^ 2.
Proof. pose proof PI_RGT_0. pose proof (pow2_ge_0 t). pose proof HA. pose proof (Rmult_le_pos _ _ H1 H0). pose proof (pow_lt PI 2 H). lra. Qed.

Let sub i : (c_mr c * dt) ^ 2 + (INR (S i) * 2 * PI) ^ 2 = INR (S i) ^ 2 * (A2 * (/ INR (S i)) ^ 2 + 4 * PI ^ 2).
Proof. unfold A2. pose proof (np i). field. lra. Qed.

Lemma as_x1M : is_lim_seq (fun k => INR (S k) * x1M c dt k) (2 / PI ^ 2).
Proof.
  pose proof PI_RGT_0.
  assert (L : is_lim_seq (fun n => ge_lambda c dt (S n) / ge_gamma c dt (S n) / b1 n) ((fun t => 32 * PI ^ 2 * (1 + t) / (A2 * t ^ 2 + 4 * PI ^ 2) ^ 2) 0)).
  { apply (lim_at0 (fun t => 32 * PI ^ 2 * (1 + t) / (A2 * t ^ 2 + 4 * PI ^ 2) ^ 2)).
    - auto_derive. pose proof (dp 0). assert (0 < (A2 * 0 ^ 2 + 4 * PI ^ 2) ^ 2) by now apply pow_lt. cbn in *. lra.
    - intros n. rewrite b1_eq. unfold ge_lambda, ge_gamma. fold w2. rewrite sub. pose proof (np n). pose proof (dp (/ INR (S n))). pose proof Hw. field. repeat split; try lra.
      replace (A2 + 4 * PI ^ 2 * INR (S n) ^ 2) with (INR (S n) ^ 2 * (A2 * (/ INR (S n)) ^ 2 + 4 * PI ^ 2)) by (field; lra). pose proof (pow_lt _ 2 H0). nra. }
  cbv beta in L. replace (32 * PI ^ 2 * (1 + 0) / (A2 * 0 ^ 2 + 4 * PI ^ 2) ^ 2) with (2 / PI ^ 2) in L by (field; lra).
  pose proof (tail_ratio _ b1 (x1M c dt) (fun k => / INR (S k)) _ (x1M_series c dt Hxi Hmr Hdt) b1_tail b1_pos L) as T.
  eapply is_lim_seq_ext; [|exact T]. intros n. cbv beta. pose proof (np n). field. lra.
Qed.
Lemma as_x2M : is_lim_seq (fun k => INR (S k) * x2M c dt k) (w2 / (2 * PI ^ 2)).
Proof.
  pose proof PI_RGT_0.
  assert (L : is_lim_seq (fun n => 1 / ge_gamma c dt (S n) / b1 n) ((fun t => 2 * w2 * (1 + t) / (A2 * t ^ 2 + 4 * PI ^ 2)) 0)).
  { apply (lim_at0 (fun t => 2 * w2 * (1 + t) / (A2 * t ^ 2 + 4 * PI ^ 2))).
    - auto_derive. pose proof (dp 0). cbn in *. lra.
    - intros n. rewrite b1_eq. unfold ge_gamma. fold w2. rewrite sub. pose proof (np n). pose proof (dp (/ INR (S n))). pose proof Hw. field. repeat split; try lra.
      replace (A2 + 4 * PI ^ 2 * INR (S n) ^ 2) with (INR (S n) ^ 2 * (A2 * (/ INR (S n)) ^ 2 + 4 * PI ^ 2)) by (field; lra). pose proof (pow_lt _ 2 H0). nra. }
  cbv beta in L. replace (2 * w2 * (1 + 0) / (A2 * 0 ^ 2 + 4 * PI ^ 2)) with (w2 / (2 * PI ^ 2)) in L by (field; lra).
  pose proof (tail_ratio _ b1 (x2M c dt) (fun k => / INR (S k)) _ (x2M_series c dt Hxi Hmr Hdt) b1_tail b1_pos L) as T.
  eapply is_lim_seq_ext; [|exact T]. intros n. cbv beta. pose proof (np n). field. lra.
Qed.
Lemma as_x1V : is_lim_seq (fun k => INR (S k) ^ 3 * x1V c dt k) (w2 * 2 / (3 * PI ^ 4)).
Proof.
  pose proof PI_RGT_0.
  assert (L : is_lim_seq (fun n => 2 * ge_lambda c dt (S n) / ge_gamma c dt (S n) ^ 2 / b3 n) ((fun t => 128 * PI ^ 2 * w2 * (1 + t) ^ 3 / ((A2 * t ^ 2 + 4 * PI ^ 2) ^ 3 * (3 + 3 * t + t ^ 2))) 0)).
  { apply (lim_at0 (fun t => 128 * PI ^ 2 * w2 * (1 + t) ^ 3 / ((A2 * t ^ 2 + 4 * PI ^ 2) ^ 3 * (3 + 3 * t + t ^ 2)))).
    - auto_derive. pose proof (dp 0). assert (0 < (A2 * 0 ^ 2 + 4 * PI ^ 2) ^ 3) by now apply pow_lt. cbn in *. nra.
    - intros n. rewrite b3_eq. unfold ge_lambda, ge_gamma. fold w2. rewrite sub. pose proof (np n). pose proof (dp (/ INR (S n))). pose proof Hw. field. repeat split; try nra.
      replace (A2 + 4 * PI ^ 2 * INR (S n) ^ 2) with (INR (S n) ^ 2 * (A2 * (/ INR (S n)) ^ 2 + 4 * PI ^ 2)) by (field; lra). pose proof (pow_lt _ 2 H0). nra. }
  cbv beta in L. replace (128 * PI ^ 2 * w2 * (1 + 0) ^ 3 / ((A2 * 0 ^ 2 + 4 * PI ^ 2) ^ 3 * (3 + 3 * 0 + 0 ^ 2))) with (w2 * 2 / (3 * PI ^ 4)) in L by (field; lra).
  pose proof (tail_ratio _ b3 (x1V c dt) (fun k => / INR (S k) ^ 3) _ (x1V_series c dt Hxi Hmr Hdt) b3_tail b3_pos L) as T.
  eapply is_lim_seq_ext; [|exact T]. intros n. cbv beta. pose proof (np n). field. lra.
Qed.
Lemma as_x2V : is_lim_seq (fun k => INR (S k) ^ 3 * x2V c dt k) (w2 ^ 2 / (12 * PI ^ 4)).
Proof.
  pose proof PI_RGT_0.
  assert (L : is_lim_seq (fun n => 1 / ge_gamma c dt (S n) ^ 2 / b3 n) ((fun t => 4 * w2 ^ 2 * (1 + t) ^ 3 / ((A2 * t ^ 2 + 4 * PI ^ 2) ^ 2 * (3 + 3 * t + t ^ 2))) 0)).
  { apply (lim_at0 (fun t => 4 * w2 ^ 2 * (1 + t) ^ 3 / ((A2 * t ^ 2 + 4 * PI ^ 2) ^ 2 * (3 + 3 * t + t ^ 2)))).
    - auto_derive. pose proof (dp 0). assert (0 < (A2 * 0 ^ 2 + 4 * PI ^ 2) ^ 2) by now apply pow_lt. cbn in *. nra.
    - intros n. rewrite b3_eq. unfold ge_gamma. fold w2. rewrite sub. pose proof (np n). pose proof (dp (/ INR (S n))). pose proof Hw. field. repeat split; try nra.
      replace (A2 + 4 * PI ^ 2 * INR (S n) ^ 2) with (INR (S n) ^ 2 * (A2 * (/ INR (S n)) ^ 2 + 4 * PI ^ 2)) by (field; lra). pose proof (pow_lt _ 2 H0). nra. }
  cbv beta in L. replace (4 * w2 ^ 2 * (1 + 0) ^ 3 / ((A2 * 0 ^ 2 + 4 * PI ^ 2) ^ 2 * (3 + 3 * 0 + 0 ^ 2))) with (w2 ^ 2 / (12 * PI ^ 4)) in L by (field; lra).
  pose proof (tail_ratio _ b3 (x2V c dt) (fun k => / INR (S k) ^ 3) _ (x2V_series c dt Hxi Hmr Hdt) b3_tail b3_pos L) as T.
  eapply is_lim_seq_ext; [|exact T]. intros n. cbv beta. pose proof (np n). field. lra.
Qed.
Lemma k_ratio : is_lim_seq (fun k => INR k / INR (S k)) 1.
Proof.
  replace 1 with (1 - 0) by ring. apply (is_lim_seq_ext (fun k => 1 - / INR (S k) ^ 1)); [|apply is_lim_seq_minus'; [apply is_lim_seq_const|apply (inv_lim 0)]].
  intros n. pose proof (np n). rewrite pow_1. replace (INR n) with (INR (S n) - 1) by (rewrite S_INR; ring). field. lra.
Qed.
Hypothesis Hb : 1 / 10 <= a.
Let e1 : x1_mean0 a - cx1m a = 0. Proof. pose proof (x1m_err c dt Hmr Hdt) as B. fold a in B. destruct (Rlt_dec a (1 / 10)); lra. Qed.
Let e2 : x1_vf0 a - cx1v a = 0. Proof. pose proof (x1v_err c dt Hmr Hdt) as B. fold a in B. destruct (Rlt_dec a (1 / 10)); lra. Qed.
Let e3 : x2_mf0 a - cx2m a = 0. Proof. pose proof (x2m_err c dt Hmr Hdt) as B. fold a in B. destruct (Rlt_dec a (1 / 10)); lra. Qed.
Let e4 : x2_vf0 a - cx2v a = 0. Proof. pose proof (x2v_err c dt Hmr Hdt) as B. fold a in B. destruct (Rlt_dec a (1 / 10)); lra. Qed.
Let f1 k : fst (x1star c dt k) = x1M c dt k. Proof. rewrite x1star_fst. fold a. rewrite e1. ring. Qed.
Let f2 k : snd (x1star c dt k) = x1V c dt k / x1M c dt k ^ 2.
Proof. pose proof (x1star_var c dt Hxi Hmr Hdt k) as E. fold a w2 in E. rewrite e2, f1 in E. pose proof (x1M_pos c dt Hxi Hmr Hdt k). replace (x1V c dt k) with (snd (x1star c dt k) * x1M c dt k ^ 2) by (rewrite E; ring). field. lra. Qed.
Let f3 k : fst (x2star c dt k) = x2M c dt k. Proof. rewrite (x2star_fst c dt Hxi Hdt). fold a. rewrite e3. ring. Qed.
Let f4 k : snd (x2star c dt k) = x2V c dt k / x2M c dt k ^ 2.
Proof. pose proof (x2star_var c dt Hxi Hmr Hdt k) as E. fold a w2 in E. rewrite e4, f3 in E. pose proof (x2M_pos c dt Hxi Hmr Hdt k). replace (x2V c dt k) with (snd (x2star c dt k) * x2M c dt k ^ 2) by (rewrite E; ring). field. lra. Qed.

Let quot (M V : nat -> R) (m v : R) : (forall k, 0 < M k) -> 0 < m -> 0 < v -> is_lim_seq (fun k => INR (S k) * M k) m -> is_lim_seq (fun k => INR (S k) ^ 3 * V k) v ->
  is_lim_seq (fun k => M k / (m / INR k)) 1 /\ is_lim_seq (fun k => V k / M k ^ 2 / (v / m ^ 2 / INR k)) 1.
Proof.
  intros PM Pm Pv HM HV. pose proof k_ratio as K. split.
  - apply (is_lim_seq_ext_loc (fun k => (INR (S k) * M k) * (INR k / INR (S k)) / m)).
    + exists 1%nat. intros n Hn. pose proof (lt_0_INR n ltac:(lia)). pose proof (np n). field. lra.
    + replace 1 with (m * 1 / m) at 1 by (field; lra). apply is_lim_seq_div'; [now apply is_lim_seq_mult'|apply is_lim_seq_const|lra].
  - apply (is_lim_seq_ext_loc (fun k => (INR (S k) ^ 3 * V k) / (INR (S k) * M k * (INR (S k) * M k)) * (INR k / INR (S k)) / (v / m ^ 2))).
    + exists 1%nat. intros n Hn. pose proof (lt_0_INR n ltac:(lia)). pose proof (np n). pose proof (PM n). field. repeat split; lra.
    + assert (0 < v / m ^ 2) by (apply Rdiv_lt_0_compat; [lra|now apply pow_lt]).
      replace 1 with (v / (m * m) * 1 / (v / m ^ 2)) at 1 by (field; lra). apply is_lim_seq_div'; [|apply is_lim_seq_const|lra].
      apply is_lim_seq_mult'; [|exact K]. apply is_lim_seq_div'; [exact HV|now apply is_lim_seq_mult'|nra].
Qed.
Lemma x1star_asymp_ok : is_lim_seq (fun k => fst (x1star c dt k) / fst (x1star_asymp c dt k)) 1 /\ is_lim_seq (fun k => snd (x1star c dt k) / snd (x1star_asymp c dt k)) 1.
Proof.
  pose proof PI_RGT_0. pose proof Hw. assert (0 < PI ^ 2) by now apply pow_lt. assert (0 < PI ^ 4) by now apply pow_lt.
  destruct (quot (x1M c dt) (x1V c dt) (2 / PI ^ 2) (w2 * 2 / (3 * PI ^ 4))) as [Q1 Q2].
  - exact (x1M_pos c dt Hxi Hmr Hdt). - apply Rdiv_lt_0_compat; lra. - apply Rdiv_lt_0_compat; lra. - exact as_x1M. - exact as_x1V.
  - split; [eapply is_lim_seq_ext_loc; [|exact Q1]|eapply is_lim_seq_ext_loc; [|exact Q2]]; exists 1%nat; intros n Hn; cbn [x1star_asymp fst snd]; pose proof (lt_0_INR n ltac:(lia)).
    + rewrite f1. unfold x1star_asymp. cbn [fst snd]. field. repeat split; lra.
    + rewrite f2. unfold x1star_asymp. cbn [fst snd]. fold w2. pose proof (x1M_pos c dt Hxi Hmr Hdt n). field. repeat split; lra.
Qed.
Lemma x2star_asymp_ok : is_lim_seq (fun k => fst (x2star c dt k) / fst (x2star_asymp c dt k)) 1 /\ is_lim_seq (fun k => snd (x2star c dt k) / snd (x2star_asymp c dt k)) 1.
Proof.
  pose proof PI_RGT_0. pose proof Hw. assert (0 < PI ^ 2) by now apply pow_lt. assert (0 < PI ^ 4) by now apply pow_lt.
  destruct (quot (x2M c dt) (x2V c dt) (w2 / (2 * PI ^ 2)) (w2 ^ 2 / (12 * PI ^ 4))) as [Q1 Q2].
  - exact (x2M_pos c dt Hxi Hmr Hdt). - apply Rdiv_lt_0_compat; lra. - apply Rdiv_lt_0_compat; [now apply pow_lt|lra]. - exact as_x2M. - exact as_x2V.
  - split; [eapply is_lim_seq_ext_loc; [|exact Q1]|eapply is_lim_seq_ext_loc; [|exact Q2]]; exists 1%nat; intros n Hn; cbn [x1star_asymp fst snd]; pose proof (lt_0_INR n ltac:(lia)).
    + rewrite f3. unfold x2star_asymp. cbn [fst snd]. fold w2. field. repeat split; lra.
    + rewrite f4. unfold x2star_asymp. cbn [fst snd]. pose proof (x2M_pos c dt Hxi Hmr Hdt n). field. repeat split; lra.
Qed.
End A.

(** below mr*dt/2 = 0.1 the tail variance eventually comes out negative *)
Section N.
Variables (c : cir) (dt : R).
Hypothesis (Hxi : 0 < c_xi c) (Hmr : 0 < c_mr c) (Hdt : 0 < dt).
Lemma x2_vs_neg : c_mr c * dt / 2 < 1 / 10 -> exists N, forall kk, (N <= kk)%nat -> snd (x2star c dt kk) < 0.
Proof.
  intros Hs. set (a := c_mr c * dt / 2) in *. assert (Ha : 0 < a) by (unfold a; apply Rmult_lt_0_compat; [now apply Rmult_lt_0_compat|lra]).
  pose proof (w2_pos c dt Hxi Hdt) as Hw. set (w2 := ge_vov2dt c dt) in *.
  pose proof (tay_x2v_strict a Ha) as T.
  assert (E0 : x2_vf0 a - cx2v a < 0).
  { rewrite (branch_x2v a Ha). destruct (Rlt_dec a (1 / 10)); lra. }
  assert (L : is_lim_seq (x2V c dt) 0).
  { pose proof (as_x2V c dt Hxi Hmr Hdt) as L. fold w2 in L. pose proof (is_lim_seq_mult' _ _ _ _ L (inv_lim 2)) as M. rewrite Rmult_0_r in M.
    eapply is_lim_seq_ext; [|exact M]. intros n. cbv beta. pose proof (lt_0_INR (S n) ltac:(lia)). field. lra. }
  apply is_lim_seq_spec in L. assert (PE : 0 < - (w2 ^ 2 * (x2_vf0 a - cx2v a))). { pose proof (pow_lt w2 2 Hw). nra. }
  destruct (L (mkposreal _ PE)) as [N HN]. exists N. intros kk Hk. specialize (HN kk Hk). cbn [pos] in HN. apply Rabs_def2 in HN.
  pose proof (x2star_var c dt Hxi Hmr Hdt kk) as E. fold a w2 in E. assert (P : 0 < fst (x2star c dt kk) ^ 2) by (apply pow_lt; now apply x2star_fst_pos).
  apply Rnot_le_lt. intros C. pose proof (Rmult_le_pos _ _ C (Rlt_le _ _ P)) as Q. rewrite E in Q. lra.
Qed.
End N.
