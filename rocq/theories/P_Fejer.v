(** Fejer summation at the origin: cosine series with non-negative coefficients. *)
From Coq Require Import Reals Lra Lia Arith ZArith.
From Coquelicot Require Import Coquelicot.
From Verif Require Import Base Sums M_Ou P_Kl.
Open Scope R_scope.

Definition dir (n : nat) (s : R) : R := 1 + 2 * rsum n (fun j => cos (npi (S j) * s)).
Definition fej (N : nat) (s : R) : R := rsum N (fun n => dir n s).
Lemma dir_sin n s : sin (PI * s / 2) * dir n s = sin (npi n * s + PI * s / 2).
Proof.
  induction n as [|n IH].
  - unfold dir, npi. simpl. replace (0 * PI * s + PI * s / 2) with (PI * s / 2) by ring. ring.
  - assert (E : dir (S n) s = dir n s + 2 * cos (npi (S n) * s)) by (unfold dir; cbn [rsum]; ring). rewrite E.
    rewrite Rmult_plus_distr_l, IH, npi_S.
    replace ((npi n + PI) * s) with ((npi n * s + PI * s / 2) + PI * s / 2) by field.
    set (A := npi n * s + PI * s / 2). set (B := PI * s / 2).
    replace (A + B + B) with (A + 2 * B) by ring.
    rewrite cos_plus, sin_plus, (sin_plus A (2 * B)), cos_2a, sin_2a || rewrite cos_plus, (sin_plus A (2 * B)), cos_2a, sin_2a.
    pose proof (sin2_cos2 B) as P. unfold Rsqr in P.
    replace (sin A) with (sin A * (sin B * sin B + cos B * cos B)) at 1 by (rewrite P; ring). ring.
Qed.
Lemma fej_sin N s : sin (PI * s / 2) ^ 2 * fej N s = sin (npi N * s / 2) ^ 2.
Proof.
  induction N as [|N IH].
  - unfold fej, npi. simpl rsum. replace (INR 0 * PI * s / 2) with 0 by (simpl; field). rewrite sin_0. ring.
  - assert (E : fej (S N) s = fej N s + dir N s) by reflexivity. rewrite E, Rmult_plus_distr_l, IH.
    replace (sin (PI * s / 2) ^ 2 * dir N s) with (sin (PI * s / 2) * (sin (PI * s / 2) * dir N s)) by ring. rewrite dir_sin, npi_S.
    set (B := PI * s / 2). set (A := npi N * s / 2).
    replace (npi N * s + B) with (2 * A + B) by (unfold A; field). replace ((npi N + PI) * s / 2) with (A + B) by (unfold A, B; field).
    rewrite !sin_plus, sin_2a, cos_2a. pose proof (sin2_cos2 A) as P. pose proof (sin2_cos2 B) as Q. unfold Rsqr in P, Q.
    replace (sin A ^ 2) with (sin A ^ 2 * (sin B * sin B + cos B * cos B)) by (rewrite Q; ring). ring.
Qed.
Lemma sin_lower s : 0 <= s <= 1 -> s / 4 <= sin (PI * s / 2).
Proof.
  intros Hs. pose proof PI_RGT_0 as HP. pose proof PI_4 as HP4. pose proof PI2_3_2 as HP2. unfold PI2 in HP2.
  destruct (Rle_lt_dec s (2 / 3)) as [H|H].
  - assert (M : forall a, 0 <= a <= PI / 3 -> a / 2 <= sin a).
    { intros a Ha. destruct (Rle_lt_or_eq_dec 0 a) as [H0|<-]; [lra| |rewrite sin_0; lra].
      destruct (MVT_cor2 sin cos 0 a H0) as (c & Hc & Hc2). { intros; apply derivable_pt_lim_sin. }
      rewrite sin_0 in Hc. assert (1 / 2 <= cos c). { rewrite <- cos_PI3. apply cos_decr_1; lra. } nra. }
    specialize (M (PI * s / 2)). nra.
  - assert (1 / 2 <= sin (PI * s / 2)). { rewrite <- sin_PI6. apply sin_incr_1; nra. } lra.
Qed.
Lemma fej_nonneg N s : 0 <= s <= 1 -> 0 <= fej N s.
Proof.
  intros Hs. destruct (Rle_lt_or_eq_dec 0 s) as [H0|<-]; [lra| |].
  - pose proof (sin_lower s Hs) as H. pose proof (fej_sin N s) as E. set (q := sin (PI * s / 2)) in *.
    assert (0 < q ^ 2) by nra. pose proof (pow2_ge_0 (sin (npi N * s / 2))). nra.
  - unfold fej. apply rsum_nonneg. intros n _. unfold dir. assert (0 <= rsum n (fun j => cos (npi (S j) * 0))); [|lra].
    apply rsum_nonneg. intros j _. rewrite Rmult_0_r, cos_0. lra.
Qed.
Lemma fej_tail N s d : 0 <= s <= 1 -> 0 < d -> s * fej N s <= d * fej N s + 16 / d.
Proof.
  intros Hs Hd. pose proof (fej_nonneg N s Hs) as F. assert (H16 : 0 < 16 / d) by (apply Rdiv_lt_0_compat; lra).
  destruct (Rle_lt_dec s d) as [H|H]; [nra|].
  pose proof (sin_lower s Hs) as HS. pose proof (fej_sin N s) as E. set (q := sin (PI * s / 2)) in *.
  assert (sin (npi N * s / 2) ^ 2 <= 1). { pose proof (SIN_bound (npi N * s / 2)). nra. }
  assert (Q : s ^ 2 / 16 <= q ^ 2) by nra.
  assert (B : s ^ 2 / 16 * fej N s <= 1) by nra.
  assert (s * fej N s <= 16 / s). { apply (Rmult_le_reg_l s); [lra|]. replace (s * (16 / s)) with 16 by (field; lra). nra. }
  assert (16 / s <= 16 / d). { apply Rmult_le_compat_l; [lra|]. apply Rinv_le_contravar; lra. }
  nra.
Qed.

Section Fejer.
Variables (f : R -> R) (c : nat -> R) (L : R).
Hypothesis HL : forall s, 0 <= s <= 1 -> Rabs (f s - f 0) <= L * s.
Hypothesis Hc : forall n, is_RInt (fun s => f s * cos (npi n * s)) 0 1 (c n).
Hypothesis Hpos : forall n, 0 <= c (S n).
Let S0 (n : nat) := c 0%nat + 2 * rsum n (fun j => c (S j)).
Let M (N : nat) := rsum N S0.
Lemma dir_int n : is_RInt (fun s => f s * dir n s) 0 1 (S0 n).
Proof.
  induction n as [|n IH].
  - eapply RI_ext; [apply (Hc 0)| |unfold S0; simpl; ring]. intros s. unfold dir, npi. simpl. rewrite !Rmult_0_l, cos_0. ring.
  - eapply RI_ext; [apply RI_plus; [exact IH|apply (RI_scal 2), (Hc (S n))]| |].
    + intros s. unfold dir. cbn [rsum]. ring.
    + unfold S0. cbn [rsum]. ring.
Qed.
Lemma fej_int N : is_RInt (fun s => f s * fej N s) 0 1 (M N).
Proof.
  induction N as [|N IH].
  - eapply RI_ext; [apply (RI_const 0)| |reflexivity]. intros; unfold fej; simpl; ring.
  - eapply RI_ext; [apply RI_plus; [exact IH|apply (dir_int N)]| |reflexivity]. intros s. unfold fej. cbn [rsum]. ring.
Qed.
End Fejer.
Lemma one_coef n : is_RInt (fun s => 1 * cos (npi n * s)) 0 1 (if Nat.eqb n 0 then 1 else 0).
Proof.
  destruct n as [|n]; cbn [Nat.eqb].
  - eapply RI_ext; [apply (RI_const 1)| |reflexivity]. intros s. unfold npi. simpl. rewrite !Rmult_0_l, cos_0. ring.
  - pose proof (npi_pos (S n) ltac:(lia)). apply (RI01 (fun s => sin (npi (S n) * s) / npi (S n))).
    + intros s. auto_derive; [auto|]. Req. field. lra.
    + intros s. auto_derive; auto.
    + rewrite Rmult_1_r, Rmult_0_r, sin_0. destruct (npi_cs (S n)) as [_ ->]. field. lra.
Qed.
Lemma fej_mass N : is_RInt (fej N) 0 1 (INR N).
Proof.
  eapply RI_ext; [apply (fej_int (fun _ => 1) _ one_coef N)| |].
  - intros; cbv beta; ring.
  - rewrite <- (Rmult_1_r (INR N)), <- rsum_const. apply rsum_ext. intros k _. cbn [Nat.eqb]. rewrite rsum_0. ring.
Qed.
Lemma INR_unb (A : R) : exists n, A < INR n.
Proof. destruct (archimed A) as [H _]. exists (Z.to_nat (up A)). rewrite INR_IZR_INZ. eapply Rlt_le_trans; [exact H|]. apply IZR_le. lia. Qed.
Section Fejer2.
Variables (f : R -> R) (c : nat -> R) (L : R).
Hypothesis HL : forall s, 0 <= s <= 1 -> Rabs (f s - f 0) <= L * s.
Hypothesis Hc : forall n, is_RInt (fun s => f s * cos (npi n * s)) 0 1 (c n).
Hypothesis Hpos : forall n, 0 <= c (S n).
Let S0 (n : nat) := c 0%nat + 2 * rsum n (fun j => c (S j)).
Let M (N : nat) := rsum N S0.
Lemma L_nonneg : 0 <= L.
Proof. specialize (HL 1 ltac:(lra)). pose proof (Rabs_pos (f 1 - f 0)). lra. Qed.
Lemma fej_bound N d : 0 < d -> Rabs (M N - INR N * f 0) <= L * (d * INR N + 16 / d).
Proof.
  intros Hd. pose proof L_nonneg as HL0.
  assert (I1 : is_RInt (fun s => (f s - f 0) * fej N s) 0 1 (M N - INR N * f 0)).
  { eapply RI_ext; [apply RI_plus; [apply (fej_int f c Hc N)|apply (RI_scal (- f 0)), (fej_mass N)]| |].
    - intros s. cbv beta. ring.
    - unfold M, S0. ring. }
  assert (I2 : is_RInt (fun s => L * (d * fej N s + 16 / d)) 0 1 (L * (d * INR N + 16 / d))).
  { apply (RI_scal L), RI_plus; [apply (RI_scal d), fej_mass|apply RI_const]. }
  assert (B : forall s, 0 < s < 1 -> Rabs ((f s - f 0) * fej N s) <= L * (d * fej N s + 16 / d)).
  { intros s Hs. rewrite Rabs_mult, (Rabs_pos_eq (fej N s)) by (apply fej_nonneg; lra).
    pose proof (HL s ltac:(lra)) as H1. pose proof (fej_nonneg N s ltac:(lra)) as H2. pose proof (fej_tail N s d ltac:(lra) Hd) as H3.
    apply Rle_trans with (L * (s * fej N s)); [nra|]. apply Rmult_le_compat_l; lra. }
  apply Rabs_le. split.
  - apply Ropp_le_cancel. rewrite Ropp_involutive.
    apply (is_RInt_le (fun s => - ((f s - f 0) * fej N s)) (fun s => L * (d * fej N s + 16 / d)) 0 1); [lra| |exact I2|].
    + apply (is_RInt_opp (V := R_NormedModule)). exact I1.
    + intros s Hs. specialize (B s Hs). apply Rabs_le_between in B. lra.
  - apply (is_RInt_le (fun s => ((f s - f 0) * fej N s)) (fun s => L * (d * fej N s + 16 / d)) 0 1); [lra|exact I1|exact I2|].
    intros s Hs. specialize (B s Hs). apply Rabs_le_between in B. lra.
Qed.
Lemma mean_lim (eps : R) : 0 < eps -> exists N0, forall N, (N0 <= N)%nat -> (0 < N)%nat -> Rabs (M N / INR N - f 0) < eps.
Proof.
  intros He. pose proof L_nonneg as HL0.
  set (d := eps / (2 * (L + 1))). assert (Hd : 0 < d) by (apply Rdiv_lt_0_compat; lra).
  destruct (INR_unb (2 * (L * (16 / d)) / eps)) as [N0 HN0].
  exists N0. intros N HN HNp. assert (HNr : 0 < INR N) by (apply lt_0_INR; lia).
  assert (HN1 : 2 * (L * (16 / d)) / eps < INR N) by (eapply Rlt_le_trans; [exact HN0|apply le_INR; lia]).
  assert (HN2 : L * (16 / d) < eps / 2 * INR N). { apply (Rmult_lt_compat_r (eps / 2)) in HN1; [|lra]. replace (2 * (L * (16 / d)) / eps * (eps / 2)) with (L * (16 / d)) in HN1 by (field; lra). lra. }
  replace (M N / INR N - f 0) with ((M N - INR N * f 0) / INR N) by (field; lra).
  unfold Rdiv at 1. rewrite Rabs_mult, (Rabs_pos_eq (/ INR N)) by (left; apply Rinv_0_lt_compat; lra).
  apply (Rmult_lt_reg_r (INR N)); [lra|]. rewrite Rmult_assoc, Rinv_l, Rmult_1_r by lra.
  eapply Rle_lt_trans; [apply (fej_bound N d Hd)|].
  assert (L * d <= eps / 2). { unfold d. apply (Rmult_le_reg_r (2 * (L + 1))); [lra|]. replace (L * (eps / (2 * (L + 1))) * (2 * (L + 1))) with (L * eps) by (field; lra). nra. }
  nra.
Qed.
Lemma S0_incr n m : (n <= m)%nat -> S0 n <= S0 m.
Proof.
  intros H. induction H; [lra|]. eapply Rle_trans; [exact IHle|]. unfold S0. cbn [rsum]. specialize (Hpos m). lra.
Qed.
Lemma S0_le n : S0 n <= f 0.
Proof.
  apply Rnot_lt_le. intros H. set (g := (S0 n - f 0) / 2). assert (Hg : 0 < g) by (unfold g; lra).
  destruct (mean_lim g Hg) as [N0 HN0].
  (* for N >= n: M N >= INR N * S0 n - INR n * (S0 n - S0 0) *)
  assert (HM : forall N, (n <= N)%nat -> INR N * S0 n - INR n * (S0 n - S0 0%nat) <= M N).
  { intros N HN. replace N with (n + (N - n))%nat by lia. unfold M. rewrite rsum_split.
    assert (A1 : INR n * S0 0%nat <= rsum n S0). { rewrite <- rsum_const. apply rsum_le. intros k _. apply S0_incr. lia. }
    assert (A2 : INR (N - n) * S0 n <= rsum (N - n) (fun k => S0 (n + k)%nat)). { rewrite <- rsum_const. apply rsum_le. intros k _. apply S0_incr. lia. }
    rewrite plus_INR. lra. }
  destruct (INR_unb (INR n * (S0 n - S0 0%nat) / g)) as [N1 HN1].
  set (N := (S (N0 + N1 + n))%nat).
  assert (HNr : INR N1 < INR N) by (apply lt_INR; unfold N; lia). pose proof (pos_INR N1).
  specialize (HN0 N ltac:(unfold N; lia) ltac:(unfold N; lia)). specialize (HM N ltac:(unfold N; lia)).
  apply Rabs_def2 in HN0. destruct HN0 as [U _].
  assert (HU : M N < INR N * (f 0 + g)). { apply (Rmult_lt_compat_r (INR N)) in U; [|lra]. replace ((M N / INR N - f 0) * INR N) with (M N - INR N * f 0) in U by (field; lra). lra. }
  assert (HV : INR n * (S0 n - S0 0%nat) < INR N * g).
  { apply (Rmult_lt_compat_r g) in HN1; [|lra]. replace (INR n * (S0 n - S0 0%nat) / g * g) with (INR n * (S0 n - S0 0%nat)) in HN1 by (field; lra). nra. }
  assert (S0 n = f 0 + 2 * g) by (unfold g; field). nra.
Qed.
Lemma fejer : is_series (fun n => 2 * c (S n)) (f 0 - c 0%nat).
Proof.
  apply (proj1 (is_lim_seq_spec (sum_n (fun n => 2 * c (S n))) (Finite (f 0 - c 0%nat)))). intros eps. destruct (mean_lim eps (cond_pos eps)) as [N0 HN0].
  exists (S N0). intros N HN. rewrite sum_n_Reals.
  assert (ES : sum_f_R0 (fun n => 2 * c (S n)) N = S0 (S N) - c 0%nat).
  { unfold S0. replace (2 * rsum (S N) (fun j => c (S j))) with (rsum (S N) (fun j => 2 * c (S j))) by apply rsum_scal.
    assert (SR : forall (a : nat -> R) K, sum_f_R0 a K = rsum (S K) a).
    { intros a K. induction K as [|K IH]; [simpl; ring|]. rewrite tech5, IH. reflexivity. }
    rewrite SR. ring. }
  rewrite ES. replace (S0 (S N) - c 0%nat - (f 0 - c 0%nat)) with (S0 (S N) - f 0) by ring.
  pose proof (S0_le (S N)) as U. specialize (HN0 (S N) ltac:(lia) ltac:(lia)). apply Rabs_def2 in HN0.
  assert (HNr : 0 < INR (S N)) by (apply lt_0_INR; lia).
  assert (M (S N) / INR (S N) <= S0 (S N)).
  { apply (Rmult_le_reg_r (INR (S N))); [lra|]. unfold Rdiv. rewrite Rmult_assoc, Rinv_l, Rmult_1_r by lra.
    rewrite Rmult_comm, <- rsum_const. unfold M. apply rsum_le. intros k Hk. apply S0_incr. lia. }
  apply Rabs_def1; lra.
Qed.
End Fejer2.
