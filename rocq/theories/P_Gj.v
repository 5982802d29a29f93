(** Taylor bounds on a whole interval: f(t) = sum_(i<n) a_i t^i + O(t^n) uniformly for 0 < t <= M. *)
From Coq Require Import Reals Lra Lia Arith List Psatz.
From Coquelicot Require Import Coquelicot.
From Verif Require Import Base Sums P_Asian5 P_Herm P_Jet.
Open Scope R_scope.
Section Tayl.
Variable M : R.
Hypothesis HM : 0 < M.
Definition tayl (n : nat) (f : R -> R) (a : nat -> R) : Prop :=
  exists C, 0 <= C /\ forall t, 0 < t <= M -> Rabs (f t - pol n a t) <= C * t ^ n.
Lemma polM_bound n a : exists B, 0 <= B /\ forall w, 0 <= w <= M -> Rabs (pol n a w) <= B.
Proof using HM.
  induction n as [|n (B & HB0 & HB)].
  - exists 0. split; [lra|]. intros w _. unfold pol. cbn [rsum]. rewrite Rabs_R0. lra.
  - exists (B + Rabs (a n) * M ^ n). assert (0 <= M ^ n) by (apply pow_le; lra). split; [pose proof (Rmult_le_pos _ _ (Rabs_pos (a n)) H); lra|]. intros w Hw. unfold pol. cbn [rsum].
    eapply Rle_trans; [apply Rabs_triang|]. apply Rplus_le_compat; [apply HB, Hw|]. rewrite Rabs_mult.
    apply Rmult_le_compat_l; [apply Rabs_pos|].
    rewrite Rabs_pos_eq by (apply pow_le; lra). apply pow_incr. lra.
Qed.
Lemma polM_mult n : forall a b, exists C, 0 <= C /\ forall w, 0 <= w <= M -> Rabs (pol n a w * pol n b w - pol n (cv a b) w) <= C * w ^ n.
Proof using HM.
  induction n as [|n IH]; intros a b.
  - exists 0. split; [lra|]. intros w _. unfold pol. cbn [rsum]. rewrite Rmult_0_l, Rminus_0_r, Rabs_R0. lra.
  - destruct (IH (fun i => a (S i)) b) as (C & HC0 & HC). destruct (polM_bound n (fun i => a (S i))) as (B & HB0 & HB).
    exists (B * Rabs (b n) + C). split; [pose proof (Rmult_le_pos _ _ HB0 (Rabs_pos (b n))); lra|]. intros w Hw. specialize (HC w Hw). specialize (HB w Hw).
    rewrite (pol_S n a), (pol_S n (cv a b)).
    rewrite (pol_ext n (fun i => cv a b (S i)) (fun i => a 0%nat * b (S i) + cv (fun i => a (S i)) b i)) by (intros; apply cv_S).
    rewrite pol_plus, pol_scal.
    assert (EB : pol (S n) b w = pol n b w + b n * w ^ n) by reflexivity.
    pose proof (pol_S n b w) as EB2.
    assert (E0 : cv a b 0 = a 0%nat * b 0%nat) by (unfold cv; cbn [rsum]; rewrite Nat.sub_0_r; ring). rewrite E0.
    set (A := pol n (fun i => a (S i)) w) in *. set (Bs := pol n (fun i => b (S i)) w) in *. set (P := pol n b w) in *.
    set (Q := pol n (cv (fun i => a (S i)) b) w) in *. rewrite EB2.
    replace ((a 0%nat + w * A) * (b 0%nat + w * Bs) - (a 0%nat * b 0%nat + w * (a 0%nat * Bs + Q)))
      with (w * (A * (b n * w ^ n)) + w * (A * P - Q)).
    2:{ transitivity (w * (A * (b n * w ^ n + P)) - w * Q); [ring|]. replace (b n * w ^ n + P) with (b 0%nat + w * Bs) by lra. ring. }
    assert (Hwn : 0 <= w ^ n) by (apply pow_le; lra).
    eapply Rle_trans; [apply Rabs_triang|]. rewrite !Rabs_mult. rewrite (Rabs_pos_eq w) by lra. rewrite (Rabs_pos_eq (w ^ n)) by exact Hwn.
    cbn [pow]. rewrite Rmult_plus_distr_r. apply Rplus_le_compat.
    + replace (B * Rabs (b n) * (w * w ^ n)) with (w * (B * (Rabs (b n) * w ^ n))) by ring.
      apply Rmult_le_compat_l; [lra|]. apply Rmult_le_compat_r; [|exact HB]. apply Rmult_le_pos; [apply Rabs_pos|exact Hwn].
    + replace (C * (w * w ^ n)) with (w * (C * w ^ n)) by ring. apply Rmult_le_compat_l; [lra|exact HC].
Qed.

Lemma tayl_ext n f g a b : (forall t, 0 < t <= M -> f t = g t) -> (forall i, (i < n)%nat -> a i = b i) -> tayl n f a -> tayl n g b.
Proof using.
  intros H E (C & HC0 & HC). exists C. split; [exact HC0|]. intros t Ht. rewrite <- H by exact Ht. rewrite <- (pol_ext n a b) by exact E. apply HC, Ht.
Qed.
Lemma tayl_plus n f g a b : tayl n f a -> tayl n g b -> tayl n (fun t => f t + g t) (fun i => a i + b i).
Proof using.
  intros (C & HC0 & HC) (D & HD0 & HD). exists (C + D). split; [lra|]. intros t Ht. rewrite pol_plus. specialize (HC t Ht). specialize (HD t Ht).
  replace (f t + g t - (pol n a t + pol n b t)) with ((f t - pol n a t) + (g t - pol n b t)) by ring.
  eapply Rle_trans; [apply Rabs_triang|]. lra.
Qed.
Lemma tayl_scal n k f a : tayl n f a -> tayl n (fun t => k * f t) (fun i => k * a i).
Proof using.
  intros (C & HC0 & HC). exists (Rabs k * C). split; [apply Rmult_le_pos; [apply Rabs_pos|exact HC0]|]. intros t Ht. rewrite pol_scal.
  rewrite <- Rmult_minus_distr_l, Rabs_mult, Rmult_assoc. apply Rmult_le_compat_l; [apply Rabs_pos|apply HC, Ht].
Qed.
Lemma tayl_minus n f g a b : tayl n f a -> tayl n g b -> tayl n (fun t => f t - g t) (fun i => a i - b i).
Proof using.
  intros H1 H2. eapply tayl_ext; [| |exact (tayl_plus n _ _ _ _ H1 (tayl_scal n (-1) _ _ H2))]; intros; cbv beta; ring.
Qed.
Lemma tayl_pol n a : tayl n (pol n a) a.
Proof using. exists 0. split; [lra|]. intros t _. unfold Rminus. rewrite Rplus_opp_r, Rabs_R0. lra. Qed.
Lemma tayl_mult n f g a b : tayl n f a -> tayl n g b -> tayl n (fun t => f t * g t) (cv a b).
Proof using HM.
  intros (C & HC0 & HC) (D & HD0 & HD).
  destruct (polM_mult n a b) as (G & HG0 & HG). destruct (polM_bound n a) as (A & HA0 & HA). destruct (polM_bound n b) as (B & HB0 & HB).
  assert (HMn : 0 <= M ^ n) by (apply pow_le; lra).
  pose proof (Rmult_le_pos _ _ HD0 HMn) as HDM.
  exists (C * (B + D * M ^ n) + A * D + G). split. { pose proof (Rmult_le_pos C (B + D * M ^ n) HC0 ltac:(lra)). pose proof (Rmult_le_pos A D HA0 HD0). lra. }
  intros w Hw. specialize (HC w Hw). specialize (HD w Hw).
  specialize (HG w ltac:(lra)). specialize (HA w ltac:(lra)). specialize (HB w ltac:(lra)).
  assert (Hn : 0 <= w ^ n <= M ^ n). { split; [apply pow_le; lra|]. apply pow_incr. lra. }
  set (P := pol n a w) in *. set (Q := pol n b w) in *. set (X := f w - P) in *. set (Y := g w - Q) in *.
  replace (f w * g w - pol n (cv a b) w) with (X * (Q + Y) + P * Y + (P * Q - pol n (cv a b) w)) by (unfold X, Y; ring).
  assert (HQY : Rabs (Q + Y) <= B + D * M ^ n).
  { eapply Rle_trans; [apply Rabs_triang|]. assert (D * w ^ n <= D * M ^ n) by (apply Rmult_le_compat_l; lra). lra. }
  set (E := B + D * M ^ n) in *.
  eapply Rle_trans; [apply Rabs_triang|]. rewrite !Rmult_plus_distr_r. apply Rplus_le_compat; [|exact HG].
  eapply Rle_trans; [apply Rabs_triang|]. apply Rplus_le_compat; rewrite Rabs_mult.
  - replace (C * E * w ^ n) with ((C * w ^ n) * E) by ring. apply Rmult_le_compat; try apply Rabs_pos; assumption.
  - rewrite (Rmult_assoc A). apply Rmult_le_compat; try apply Rabs_pos; assumption.
Qed.
Lemma tayl_exp n c : tayl n (fun t => exp (c * t)) (fun i => c ^ i / INR (fact i)).
Proof using HM.
  exists (Rabs c ^ n * exp (Rabs c * M)). split. { apply Rmult_le_pos; [apply pow_le, Rabs_pos|left; apply exp_pos]. } intros w Hw.
  replace (pol n (fun i => c ^ i / INR (fact i)) w) with (epoly n (c * w)).
  2:{ unfold pol. clear. induction n as [|n IH]; [reflexivity|]. cbn [epoly rsum]. rewrite IH. rewrite Rpow_mult_distr. field. apply INR_fact_neq_0. }
  eapply Rle_trans; [apply exp_rem|]. rewrite Rabs_mult, (Rabs_pos_eq w) by lra. rewrite Rpow_mult_distr.
  replace (Rabs c ^ n * exp (Rabs c * M) * w ^ n) with (Rabs c ^ n * w ^ n * exp (Rabs c * M)) by ring.
  apply Rmult_le_compat_l; [apply Rmult_le_pos; apply pow_le; [apply Rabs_pos|lra]|]. apply exp_le.
  apply Rmult_le_compat_l; [apply Rabs_pos|lra].
Qed.
Lemma tayl_rsum n k (f : nat -> R -> R) (a : nat -> nat -> R) : (forall i, (i < k)%nat -> tayl n (f i) (a i)) ->
  tayl n (fun t => rsum k (fun i => f i t)) (fun j => rsum k (fun i => a i j)).
Proof using.
  intros H. induction k as [|k IH].
  - exists 0. split; [lra|]. intros t _. cbn [rsum]. replace (pol n (fun _ => 0) t) with 0; [rewrite Rminus_0_r, Rabs_R0; lra|].
    unfold pol. rewrite (rsum_ext n _ (fun _ => 0)) by (intros; ring). now rewrite rsum_0.
  - cbn [rsum]. apply (tayl_plus n (fun t => rsum k (fun i => f i t)) (f k)); [apply IH; intros; apply H; lia|apply H; lia].
Qed.
End Tayl.
