(** Smaller facts added after mutation testing. *)
From Coq Require Import Reals Lra Lia List.
From Verif Require Import Base Sums M_Mgf M_Heston Spec_Misc.
Open Scope R_scope.

Lemma rising_S a k : rising a (S k) = rising a k * (a + INR k). Proof. reflexivity. Qed.
Lemma hyp_term_S a b x k : (forall j, (j <= k)%nat -> b + INR j <> 0) ->
  hyp_term a b x (S k) = hyp_term a b x k * ((a + INR k) / (b + INR k) / (INR k + 1) * x).
Proof.
  intros Hb. assert (Hr : forall m, (m <= S k)%nat -> rising b m <> 0).
  { induction m; intros Hm; [simpl; lra|]. rewrite rising_S. apply Rmult_integral_contrapositive_currified; [apply IHm; lia|apply Hb; lia]. }
  unfold hyp_term. rewrite !rising_S, fact_simpl, mult_INR, S_INR. simpl pow.
  pose proof (INR_fact_neq_0 k). pose proof (pos_INR k). field.
  assert (b + INR k <> 0) by (apply Hb; lia). assert (rising b k <> 0) by (apply Hr; lia). repeat split; try assumption; lra.
Qed.
Lemma hyp_loop_sum a b x : forall n k ret, (1 <= k)%nat -> (forall j, (j < k + n)%nat -> b + INR j <> 0) ->
  hyp_loop a b x (INR k) (hyp_term a b x k) ret n = ret + rsum n (fun j => hyp_term a b x (k + 1 + j)).
Proof.
  induction n as [|n IH]; intros k ret Hk Hb; cbn [hyp_loop]; [simpl; ring|].
  rewrite <- hyp_term_S by (intros j Hj; apply Hb; lia). rewrite <- (S_INR k).
  rewrite IH by (try lia; intros j Hj; apply Hb; lia).
  replace (rsum (S n) (fun j => hyp_term a b x (k + 1 + j))) with (hyp_term a b x (S k) + rsum n (fun j => hyp_term a b x (S k + 1 + j))); [ring|].
  clear. replace (hyp_term a b x (S k)) with (hyp_term a b x (k + 1 + 0)) by (f_equal; lia).
  induction n; cbn [rsum] in *; [ring|].
  rewrite <- Rplus_assoc, IHn. cbn [rsum]. replace (S k + 1 + n)%nat with (k + 1 + S n)%nat by lia. ring.
Qed.
Lemma hyp1f1_series n a b x : (forall j, (j <= n)%nat -> b + INR j <> 0) ->
  hyp1f1 n a b x = rsum (n + 2) (hyp_term a b x).
Proof.
  intros Hb. assert (Hb0 : b <> 0) by (specialize (Hb 0%nat ltac:(lia)); simpl in Hb; lra).
  unfold hyp1f1. assert (E1 : a / b * x = hyp_term a b x 1) by (unfold hyp_term; simpl; field; exact Hb0).
  rewrite E1. change 1 with (INR 1) at 1.
  rewrite hyp_loop_sum by (try lia; intros j Hj; apply Hb; lia).
  clear E1. assert (E0 : hyp_term a b x 0 = 1) by (unfold hyp_term; simpl; field). rewrite <- E0 at 1. clear.
  induction n; cbn [rsum Nat.add]; [ring|]. cbn [Nat.add] in IHn. rewrite <- Rplus_assoc, IHn.
  replace (n + 2)%nat with (S (S n)) by lia. cbn [rsum]. ring.
Qed.
Lemma dfm_matched mean vs : 0 < mean -> 0 < vs ->
  (let '(mu, lam) := dfm_ig mean vs in ig_mean_var mu lam) = (mean, mean ^ 2 * vs) /\
  (let '(factor, shape) := dfm_ga mean vs in gamma_mean_var factor shape) = (mean, mean ^ 2 * vs).
Proof.
  intros Hm Hv. unfold dfm_ig, dfm_ga, ig_mean_var, gamma_mean_var. split; apply (f_equal2 pair); try reflexivity; field; lra.
Qed.
