(** Expansions in even powers: f(v) = sum_(i<n) a_i v^(2i) + O(v^(2n)) as v decreases to 0. *)
From Coq Require Import Reals Lra Lia Arith List Psatz.
From Coquelicot Require Import Coquelicot.
From Verif Require Import Base Gauss Sums P_Asian5 M_Sabr P_Herm.
Open Scope R_scope.
Definition pol (n : nat) (a : nat -> R) (w : R) : R := rsum n (fun i => a i * w ^ i).
Definition jets (n : nat) (f : R -> R) (a : nat -> R) : Prop :=
  exists C d, 0 < d <= 1 /\ forall v, 0 < v <= d -> Rabs (f v - pol n a (v ^ 2)) <= C * (v ^ 2) ^ n.
Definition nthf (l : list R) (i : nat) : R := nth i l 0.
Definition cv (a b : nat -> R) (k : nat) : R := rsum (S k) (fun i => a i * b (k - i)%nat).

Lemma pol_S n a w : pol (S n) a w = a 0%nat + w * pol n (fun i => a (S i)) w.
Proof.
  unfold pol. induction n as [|n IH]; [cbn [rsum]; cbn [pow]; ring|].
  cbn [rsum] in IH |- *. rewrite IH. cbn [pow]. ring.
Qed.
Lemma pol_plus n a b w : pol n (fun i => a i + b i) w = pol n a w + pol n b w.
Proof. unfold pol. induction n as [|n IH]; cbn [rsum]; [ring|rewrite IH; ring]. Qed.
Lemma pol_scal n k a w : pol n (fun i => k * a i) w = k * pol n a w.
Proof. unfold pol. induction n as [|n IH]; cbn [rsum]; [ring|rewrite IH; ring]. Qed.
Lemma pol_ext n a b w : (forall i, (i < n)%nat -> a i = b i) -> pol n a w = pol n b w.
Proof. intros H. unfold pol. apply rsum_ext. intros k Hk. rewrite H by exact Hk. reflexivity. Qed.
Lemma pol_bound n a : exists B, 0 <= B /\ forall w, 0 <= w <= 1 -> Rabs (pol n a w) <= B.
Proof.
  induction n as [|n (B & HB0 & HB)].
  - exists 0. split; [lra|]. intros w _. unfold pol. cbn [rsum]. rewrite Rabs_R0. lra.
  - exists (B + Rabs (a n)). split; [pose proof (Rabs_pos (a n)); lra|]. intros w Hw. unfold pol. cbn [rsum].
    eapply Rle_trans; [apply Rabs_triang|]. apply Rplus_le_compat; [apply HB, Hw|]. rewrite Rabs_mult.
    rewrite <- (Rmult_1_r (Rabs (a n))) at 2. apply Rmult_le_compat_l; [apply Rabs_pos|].
    rewrite Rabs_pos_eq by (apply pow_le; lra). rewrite <- (pow1 n). apply pow_incr. lra.
Qed.
Lemma cv_S a b k : cv a b (S k) = a 0%nat * b (S k) + cv (fun i => a (S i)) b k.
Proof.
  unfold cv.
  assert (G : forall n, rsum (S n) (fun i => a i * b (S k - i)%nat) = a 0%nat * b (S k) + rsum n (fun i => a (S i) * b (k - i)%nat)).
  { induction n as [|n IH]; [cbn [rsum]; rewrite Nat.sub_0_r; ring|]. cbn [rsum] in IH |- *. rewrite IH.
    replace (S k - S n)%nat with (k - n)%nat by lia. ring. }
  apply (G (S k)).
Qed.
Lemma pol_mult n : forall a b, exists C, 0 <= C /\ forall w, 0 <= w <= 1 -> Rabs (pol n a w * pol n b w - pol n (cv a b) w) <= C * w ^ n.
Proof.
  induction n as [|n IH]; intros a b.
  - exists 0. split; [lra|]. intros w _. unfold pol. cbn [rsum]. rewrite Rmult_0_l, Rminus_0_r, Rabs_R0. lra.
  - destruct (IH (fun i => a (S i)) b) as (C & HC0 & HC). destruct (pol_bound n (fun i => a (S i))) as (B & HB0 & HB).
    exists (B * Rabs (b n) + C). split; [pose proof (Rmult_le_pos _ _ HB0 (Rabs_pos (b n))); lra|]. intros w Hw. specialize (HC w Hw). specialize (HB w Hw).
    rewrite (pol_S n a), (pol_S n (cv a b)).
    rewrite (pol_ext n (fun i => cv a b (S i)) (fun i => a 0%nat * b (S i) + cv (fun i => a (S i)) b i)) by (intros; apply cv_S).
    rewrite pol_plus, pol_scal.
    assert (EB : pol (S n) b w = pol n b w + b n * w ^ n) by reflexivity.
    pose proof (pol_S n b w) as EB2.
    assert (E0 : cv a b 0 = a 0%nat * b 0%nat) by (unfold cv; cbn [rsum]; rewrite Nat.sub_0_r; ring). rewrite E0.
    set (A := pol n (fun i => a (S i)) w) in *. set (Bs := pol n (fun i => b (S i)) w) in *. set (P := pol n b w) in *.
    set (Q := pol n (cv (fun i => a (S i)) b) w) in *. rewrite EB2.
    replace ((a 0%nat + w * A) * (b 0%nat + w * Bs) - (a 0%nat * b 0%nat + w * (a 0%nat * Bs + Q)))
      with (w * (A * (b n * w ^ n)) + w * (A * P - Q)).
    2:{ transitivity (w * (A * (b n * w ^ n + P)) - w * Q); [ring|]. replace (b n * w ^ n + P) with (b 0%nat + w * Bs) by lra. ring. }
    assert (Hwn : 0 <= w ^ n) by (apply pow_le; lra).
    eapply Rle_trans; [apply Rabs_triang|]. rewrite !Rabs_mult. rewrite (Rabs_pos_eq w) by lra. rewrite (Rabs_pos_eq (w ^ n)) by exact Hwn.
    cbn [pow]. rewrite Rmult_plus_distr_r. apply Rplus_le_compat.
    + replace (B * Rabs (b n) * (w * w ^ n)) with (w * (B * (Rabs (b n) * w ^ n))) by ring.
      apply Rmult_le_compat_l; [lra|]. apply Rmult_le_compat_r; [|exact HB]. apply Rmult_le_pos; [apply Rabs_pos|exact Hwn].
    + replace (C * (w * w ^ n)) with (w * (C * w ^ n)) by ring. apply Rmult_le_compat_l; [lra|exact HC].
Qed.

Lemma sq01 v d : d <= 1 -> 0 < v <= d -> 0 < v ^ 2 <= 1.
Proof. intros. nra. Qed.
Lemma jets_ext n f g a b : (forall v, 0 < v -> f v = g v) -> (forall i, (i < n)%nat -> a i = b i) -> jets n f a -> jets n g b.
Proof.
  intros H E (C & d & Hd & HC). exists C, d. split; [exact Hd|]. intros v Hv. rewrite <- H by lra.
  rewrite <- (pol_ext n a b) by exact E. apply HC, Hv.
Qed.
Lemma jets_C0 n f a : jets n f a -> exists C d, 0 <= C /\ 0 < d <= 1 /\ forall v, 0 < v <= d -> Rabs (f v - pol n a (v ^ 2)) <= C * (v ^ 2) ^ n.
Proof.
  intros (C & d & Hd & HC). exists (Rmax C 0), d. split; [apply Rmax_r|]. split; [exact Hd|]. intros v Hv.
  eapply Rle_trans; [apply HC, Hv|]. apply Rmult_le_compat_r; [apply pow_le, pow2_ge_0|apply Rmax_l].
Qed.
Lemma jets_plus n f g a b : jets n f a -> jets n g b -> jets n (fun v => f v + g v) (fun i => a i + b i).
Proof.
  intros (C & d & Hd & HC) (D & e & He & HD). exists (C + D), (Rmin d e).
  pose proof (Rmin_l d e). pose proof (Rmin_r d e). split; [split; [apply Rmin_glb_lt; lra|lra]|]. intros v Hv.
  rewrite pol_plus. specialize (HC v ltac:(lra)). specialize (HD v ltac:(lra)).
  replace (f v + g v - (pol n a (v ^ 2) + pol n b (v ^ 2))) with ((f v - pol n a (v ^ 2)) + (g v - pol n b (v ^ 2))) by ring.
  eapply Rle_trans; [apply Rabs_triang|]. lra.
Qed.
Lemma jets_scal n k f a : jets n f a -> jets n (fun v => k * f v) (fun i => k * a i).
Proof.
  intros (C & d & Hd & HC). exists (Rabs k * C), d. split; [exact Hd|]. intros v Hv. rewrite pol_scal.
  rewrite <- Rmult_minus_distr_l, Rabs_mult, Rmult_assoc. apply Rmult_le_compat_l; [apply Rabs_pos|apply HC, Hv].
Qed.
Lemma jets_minus n f g a b : jets n f a -> jets n g b -> jets n (fun v => f v - g v) (fun i => a i - b i).
Proof.
  intros H1 H2. eapply jets_ext; [| |exact (jets_plus n _ _ _ _ H1 (jets_scal n (-1) _ _ H2))]; intros; cbv beta; ring.
Qed.
Lemma jets_const n k : jets (S n) (fun _ => k) (nthf (k :: nil)).
Proof.
  exists 0, 1. split; [lra|]. intros v _. rewrite pol_S.
  assert (E : pol n (fun i => nthf (k :: nil) (S i)) (v ^ 2) = 0).
  { unfold pol. assert (forall m, rsum m (fun i => nthf (k :: nil) (S i) * (v ^ 2) ^ i) = 0) as H; [|apply H].
    induction m as [|m IH]; [reflexivity|]. cbn [rsum]. rewrite IH. unfold nthf. destruct m; cbn [nth]; ring. }
  rewrite E. unfold nthf. cbn [nth]. replace (k - (k + v ^ 2 * 0)) with 0 by ring. rewrite Rabs_R0. lra.
Qed.
Lemma jets_mult n f g a b : jets n f a -> jets n g b -> jets n (fun v => f v * g v) (cv a b).
Proof.
  intros H1 H2. destruct (jets_C0 _ _ _ H1) as (C & d & HC0 & Hd & HC). destruct (jets_C0 _ _ _ H2) as (D & e & HD0 & He & HD).
  destruct (pol_mult n a b) as (G & HG0 & HG). destruct (pol_bound n a) as (A & HA0 & HA). destruct (pol_bound n b) as (B & HB0 & HB).
  exists (C * (B + D) + A * D + G), (Rmin d e).
  pose proof (Rmin_l d e). pose proof (Rmin_r d e). split; [split; [apply Rmin_glb_lt; lra|lra]|]. intros v Hv.
  specialize (HC v ltac:(lra)). specialize (HD v ltac:(lra)).
  assert (Hw : 0 < v ^ 2 <= 1) by (apply (sq01 v (Rmin d e)); lra). set (w := v ^ 2) in *.
  specialize (HG w ltac:(lra)). specialize (HA w ltac:(lra)). specialize (HB w ltac:(lra)).
  assert (Hn : 0 <= w ^ n <= 1). { split; [apply pow_le; lra|]. rewrite <- (pow1 n). apply pow_incr. lra. }
  set (P := pol n a w) in *. set (Q := pol n b w) in *. set (X := f v - P) in *. set (Y := g v - Q) in *.
  replace (f v * g v - pol n (cv a b) w) with (X * (Q + Y) + P * Y + (P * Q - pol n (cv a b) w)) by (unfold X, Y; ring).
  assert (HQY : Rabs (Q + Y) <= B + D).
  { eapply Rle_trans; [apply Rabs_triang|]. assert (D * w ^ n <= D * 1) by (apply Rmult_le_compat_l; lra). lra. }
  eapply Rle_trans; [apply Rabs_triang|]. rewrite !Rmult_plus_distr_r. apply Rplus_le_compat; [|exact HG].
  eapply Rle_trans; [apply Rabs_triang|]. apply Rplus_le_compat; rewrite Rabs_mult.
  - replace (C * B * w ^ n + C * D * w ^ n) with ((C * w ^ n) * (B + D)) by ring.
    replace (C * (B + D) * w ^ n) with ((C * w ^ n) * (B + D)) by ring.
    apply Rmult_le_compat; try apply Rabs_pos; assumption.
  - rewrite (Rmult_assoc A). apply Rmult_le_compat; try apply Rabs_pos; assumption.
Qed.
Lemma jets_shift n f a : a 0%nat = 0 -> jets (S n) f a -> jets n (fun v => f v / v ^ 2) (fun i => a (S i)).
Proof.
  intros H0 (C & d & Hd & HC). exists C, d. split; [exact Hd|]. intros v Hv. specialize (HC v Hv). rewrite pol_S, H0 in HC.
  assert (Hw : 0 < v ^ 2) by (apply pow_lt; lra).
  replace (f v / v ^ 2 - pol n (fun i => a (S i)) (v ^ 2)) with (/ v ^ 2 * (f v - (0 + v ^ 2 * pol n (fun i => a (S i)) (v ^ 2)))) by (field; lra).
  rewrite Rabs_mult, (Rabs_pos_eq (/ v ^ 2)) by (left; apply Rinv_0_lt_compat, Hw).
  apply (Rmult_le_reg_l (v ^ 2)); [exact Hw|]. rewrite <- Rmult_assoc, Rinv_r, Rmult_1_l by lra. cbn [pow] in *. lra.
Qed.
Lemma jets_shorten n f a : jets (S n) f a -> jets n f a.
Proof.
  intros H. destruct (jets_C0 _ _ _ H) as (C & d & HC0 & Hd & HC). exists (C + Rabs (a n)), d. split; [exact Hd|]. intros v Hv. specialize (HC v Hv).
  unfold pol in HC. cbn [rsum] in HC. fold (pol n a (v ^ 2)) in HC.
  assert (Hw : 0 < v ^ 2 <= 1) by (apply (sq01 v d); lra). set (w := v ^ 2) in *.
  assert (Hn : 0 <= w ^ n <= 1). { split; [apply pow_le; lra|]. rewrite <- (pow1 n). apply pow_incr. lra. }
  replace (f v - pol n a w) with ((f v - (pol n a w + a n * w ^ n)) + a n * w ^ n) by ring.
  eapply Rle_trans; [apply Rabs_triang|]. rewrite Rabs_mult, (Rabs_pos_eq (w ^ n)) by lra. cbn [pow] in HC.
  assert (C * (w * w ^ n) <= C * (1 * w ^ n)) by (apply Rmult_le_compat_l; [exact HC0|apply Rmult_le_compat_r; lra]). lra.
Qed.
Lemma jets_scale_arg n f a k : 0 < k -> jets n f a -> jets n (fun v => f (k * v)) (fun i => (k ^ 2) ^ i * a i).
Proof.
  intros Hk (C & d & Hd & HC). exists (C * (k ^ 2) ^ n), (Rmin 1 (d / k)).
  assert (Hdk : 0 < d / k) by (apply Rdiv_lt_0_compat; lra).
  split; [split; [apply Rmin_glb_lt; lra|apply Rmin_l]|]. intros v Hv.
  pose proof (Rmin_r 1 (d / k)). assert (Hkv : 0 < k * v <= d).
  { split; [nra|]. apply (Rmult_le_reg_l (/ k)); [apply Rinv_0_lt_compat, Hk|]. rewrite <- Rmult_assoc, Rinv_l, Rmult_1_l by lra. unfold Rdiv in *. lra. }
  specialize (HC _ Hkv). replace ((k * v) ^ 2) with (k ^ 2 * v ^ 2) in HC by ring. rewrite Rpow_mult_distr in HC. rewrite Rmult_assoc.
  replace (pol n (fun i => (k ^ 2) ^ i * a i) (v ^ 2)) with (pol n a (k ^ 2 * v ^ 2)); [exact HC|].
  unfold pol. apply rsum_ext. intros i _. rewrite Rpow_mult_distr. ring.
Qed.
(** exponential of a multiple of v^2 *)
Lemma jets_exp n c : jets n (fun v => exp (c * v ^ 2)) (fun i => c ^ i / INR (fact i)).
Proof.
  exists (Rabs c ^ n * exp (Rabs c)), 1. split; [lra|]. intros v Hv. assert (Hw : 0 < v ^ 2 <= 1) by (apply (sq01 v 1); lra).
  set (w := v ^ 2) in *.
  replace (pol n (fun i => c ^ i / INR (fact i)) w) with (epoly n (c * w)).
  2:{ unfold pol. induction n as [|n IH]; [reflexivity|]. cbn [epoly rsum]. rewrite IH. rewrite Rpow_mult_distr. field. apply INR_fact_neq_0. }
  eapply Rle_trans; [apply exp_rem|]. rewrite Rabs_mult, (Rabs_pos_eq w) by lra. rewrite Rpow_mult_distr.
  replace (Rabs c ^ n * exp (Rabs c) * w ^ n) with (Rabs c ^ n * w ^ n * exp (Rabs c)) by ring.
  apply Rmult_le_compat_l; [apply Rmult_le_pos; apply pow_le; [apply Rabs_pos|lra]|]. apply exp_le.
  rewrite <- (Rmult_1_r (Rabs c)) at 2. apply Rmult_le_compat_l; [apply Rabs_pos|lra].
Qed.
Lemma epoly_even n x : (epoly (2 * n) x + epoly (2 * n) (- x)) / 2 = rsum n (fun i => (x ^ 2) ^ i / INR (fact (2 * i))).
Proof.
  induction n as [|n IH]; [cbn [epoly rsum Nat.mul Nat.add]; field|]. replace (2 * S n)%nat with (S (S (2 * n))) by lia.
  cbn [epoly rsum]. rewrite <- IH. replace ((- x) ^ S (2 * n)) with (- x ^ S (2 * n)).
  2:{ replace (- x) with (-1 * x) by ring. rewrite Rpow_mult_distr. cbn [pow]. rewrite m1_even. ring. }
  replace ((- x) ^ (2 * n)) with (x ^ (2 * n)) by (replace (- x) with (-1 * x) by ring; rewrite Rpow_mult_distr, m1_even; ring).
  rewrite <- (pow_mult x 2 n). field. split; apply INR_fact_neq_0.
Qed.
Lemma jets_cosh n z : jets n (fun v => cosh_z v z) (fun i => (z ^ 2) ^ i / INR (fact (2 * i))).
Proof.
  exists (Rabs z ^ (2 * n) * exp (Rabs z)), 1. split; [lra|]. intros v Hv. unfold cosh_z. cbv zeta.
  replace (1 / exp (v * z)) with (exp (- (v * z))) by (rewrite exp_Ropp; field; apply Rgt_not_eq, exp_pos).
  replace (pol n (fun i => (z ^ 2) ^ i / INR (fact (2 * i))) (v ^ 2)) with (rsum n (fun i => ((v * z) ^ 2) ^ i / INR (fact (2 * i)))).
  2:{ unfold pol. apply rsum_ext. intros i _. rewrite !Rpow_mult_distr. field. apply INR_fact_neq_0. }
  rewrite <- epoly_even.
  pose proof (exp_rem (2 * n) (v * z)) as H1. pose proof (exp_rem (2 * n) (- (v * z))) as H2. rewrite Rabs_Ropp in H2.
  replace ((exp (v * z) + exp (- (v * z))) / 2 - (epoly (2 * n) (v * z) + epoly (2 * n) (- (v * z))) / 2)
    with (/ 2 * ((exp (v * z) - epoly (2 * n) (v * z)) + (exp (- (v * z)) - epoly (2 * n) (- (v * z))))) by field.
  rewrite Rabs_mult, (Rabs_pos_eq (/ 2)) by lra.
  assert (Hb : Rabs (v * z) ^ (2 * n) * exp (Rabs (v * z)) <= Rabs z ^ (2 * n) * exp (Rabs z) * (v ^ 2) ^ n).
  { rewrite Rabs_mult, (Rabs_pos_eq v) by lra. rewrite Rpow_mult_distr. rewrite <- (pow_mult v 2 n).
    replace (Rabs z ^ (2 * n) * exp (Rabs z) * v ^ (2 * n)) with (v ^ (2 * n) * Rabs z ^ (2 * n) * exp (Rabs z)) by ring.
    apply Rmult_le_compat_l; [apply Rmult_le_pos; apply pow_le; [lra|apply Rabs_pos]|]. apply exp_le.
    rewrite <- (Rmult_1_l (Rabs z)) at 2. apply Rmult_le_compat_r; [apply Rabs_pos|lra]. }
  pose proof (Rabs_triang (exp (v * z) - epoly (2 * n) (v * z)) (exp (- (v * z)) - epoly (2 * n) (- (v * z)))). lra.
Qed.
Lemma jets_mfn n z : jets n (mfn_exact z) (cv (fun i => He (2 * i) z / INR (fact (2 * i + 1))) (fun i => (/ 2) ^ i / INR (fact i))).
Proof.
  assert (H1 : jets n (fun v => hsum z n v) (fun i => He (2 * i) z / INR (fact (2 * i + 1)))).
  { exists 0, 1. split; [lra|]. intros v _. unfold hsum, pol.
    match goal with |- Rabs (?a - ?b) <= _ => replace b with a; [replace (a - a) with 0 by ring; rewrite Rabs_R0; lra|] end.
    apply rsum_ext. intros i _. rewrite <- (pow_mult v 2 i). field. apply INR_fact_neq_0. }
  pose proof (jets_mult n _ _ _ _ H1 (jets_exp n (/ 2))) as (C & d & Hd & HC).
  set (K := / INR (fact (2 * n + 1)) * Ha (2 * n) (Rabs z + 1) * exp (Rabs z * 1) * exp (1 / 2)).
  exists (C + K), d. split; [exact Hd|]. intros v Hv. specialize (HC v Hv). cbv beta in HC.
  pose proof (mfn_taylor z n v 1 ltac:(lra)) as HT.
  replace (/ 2 * v ^ 2) with (v ^ 2 / 2) in HC by field.
  match goal with |- Rabs (?m - ?p) <= _ => match type of HC with Rabs (?h - _) <= _ => replace (m - p) with ((h - p) + (m - h)) by ring end end.
  eapply Rle_trans; [apply Rabs_triang|]. rewrite Rmult_plus_distr_r. apply Rplus_le_compat; [exact HC|].
  eapply Rle_trans; [exact HT|]. unfold K. rewrite (pow_mult v 2 n).
  assert (HH : 0 <= Ha (2 * n) (Rabs z + 1)).
  { eapply Rle_trans; [apply Rabs_pos|]. apply (He_bound (2 * n) 0). rewrite Rabs_R0. pose proof (Rabs_pos z). lra. }
  replace (/ INR (fact (2 * n + 1)) * Ha (2 * n) (Rabs z + 1) * exp (Rabs z * 1) * exp (1 / 2) * (v ^ 2) ^ n)
    with ((v ^ 2) ^ n / INR (fact (2 * n + 1)) * Ha (2 * n) (Rabs z + 1) * exp (Rabs z * 1) * exp (1 / 2)) by (field; apply INR_fact_neq_0).
  apply Rmult_le_compat_l.
  - apply Rmult_le_pos; [|left; apply exp_pos]. apply Rmult_le_pos; [|exact HH]. apply Rmult_le_pos; [apply pow_le, pow2_ge_0|].
    left. apply Rinv_0_lt_compat, INR_fact_lt_0.
  - apply exp_le. assert (v ^ 2 <= 1) by (apply (sq01 v d); lra). lra.
Qed.
Lemma jets_shift' n f a : jets (S n) f a -> a 0%nat = 0 -> jets n (fun v => f v / v ^ 2) (fun i => a (S i)).
Proof. intros H H0. apply jets_shift; assumption. Qed.
