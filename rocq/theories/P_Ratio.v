(** The unexplained variance ratio: share of the tail of the series, decreasing from 1 to 0 like 1/ns^3. *)
From Coq Require Import Reals Lra Lia Arith.
From Coquelicot Require Import Coquelicot.
From Verif Require Import Base Sums M_Ou P_Kl P_KlSum P_KlLaw M_Ratio.
Open Scope R_scope.

Lemma a4_pos x n : 0 < x -> 0 < a4sum x n All.
Proof. intros Hx. apply (tail_pos x n kl_t4 All); [discriminate|intros; apply t4_pos; lra|apply a4sum_tail; exact Hx]. Qed.
Lemma a4_split x n : a4sum x n All = a4sum x 0 All - rsum n (fun i => kl_t4 x (S i)).
Proof. unfold a4sum, kl_tail. cbn [sel rsum]. ring. Qed.
Lemma a4_series x : 0 < x -> is_series (fun i => kl_t4 x (S i)) (a4sum x 0 All).
Proof. intros Hx. pose proof (a4sum_tail x 0 All Hx) as H. unfold is_tail in H. cbn [sel] in H. exact H. Qed.
Lemma ratio_share x n k (Hx : 0 < x) : exists total, is_series (fun i => 4 / (x ^ 2 + (INR (S i) * PI) ^ 2) ^ 2) total /\ 0 < total /\
  unexplained_var_ratio x (Some n) k = 1 - rsum n (fun i => 4 / (x ^ 2 + (INR (S i) * PI) ^ 2) ^ 2) / total.
Proof.
  exists (a4sum x 0 All). pose proof (a4_pos x 0 Hx) as P. split; [|split; [exact P|]].
  - eapply series_ext'; [|exact (a4_series x Hx)]. intros i. unfold kl_t4, npi. reflexivity.
  - unfold unexplained_var_ratio. rewrite (a4_split x n). change (rsum n (fun i => 4 / (x ^ 2 + (INR (S i) * PI) ^ 2) ^ 2)) with (rsum n (fun i => kl_t4 x (S i))). field. lra.
Qed.
Lemma ratio_range x n k : 0 < x -> 0 < unexplained_var_ratio x (Some n) k <= 1.
Proof.
  intros Hx. pose proof (a4_pos x 0 Hx) as P. unfold unexplained_var_ratio. split; [apply Rdiv_lt_0_compat; [apply a4_pos, Hx|exact P]|].
  apply (Rmult_le_reg_r (a4sum x 0 All)); [exact P|]. unfold Rdiv. rewrite Rmult_assoc, Rinv_l, Rmult_1_r, Rmult_1_l by lra.
  rewrite (a4_split x n). assert (0 <= rsum n (fun i => kl_t4 x (S i))); [|lra].
  clear. induction n as [|n IH]; [cbn [rsum]; lra|]. cbn [rsum]. enough (0 <= kl_t4 x (S n)) by lra. unfold kl_t4.
  apply Rmult_le_pos; [lra|]. apply Rlt_le, Rinv_0_lt_compat. apply pow_lt. pose proof (pow2_ge_0 x). assert (0 < npi (S n)) by (apply npi_pos; lia). nra.
Qed.
Lemma ratio_0 x k : 0 < x -> unexplained_var_ratio x (Some 0%nat) k = 1.
Proof. intros Hx. pose proof (a4_pos x 0 Hx). unfold unexplained_var_ratio. field. lra. Qed.
Lemma ratio_step x n k : 0 < x -> unexplained_var_ratio x (Some (S n)) k < unexplained_var_ratio x (Some n) k.
Proof.
  intros Hx. pose proof (a4_pos x 0 Hx) as P. unfold unexplained_var_ratio, Rdiv. apply Rmult_lt_compat_r; [apply Rinv_0_lt_compat, P|].
  rewrite (a4_split x (S n)), (a4_split x n). cbn [rsum]. pose proof (t4_pos x Hx (S n)). lra.
Qed.
Lemma ratio_decr x n m k : 0 < x -> (n < m)%nat -> unexplained_var_ratio x (Some m) k < unexplained_var_ratio x (Some n) k.
Proof. intros Hx H. induction H as [|m H IH]; [apply ratio_step, Hx|]. eapply Rlt_trans; [apply ratio_step, Hx|exact IH]. Qed.
Lemma ratio_lim x k : 0 < x -> is_lim_seq (fun n => unexplained_var_ratio x (Some n) k) 0.
Proof.
  intros Hx. pose proof (a4_pos x 0 Hx) as P. pose proof (proj1 (series_rsum _ _) (a4_series x Hx)) as L.
  apply (is_lim_seq_ext (fun n => (a4sum x 0 All - rsum n (fun i => kl_t4 x (S i))) * / a4sum x 0 All)).
  - intros n. unfold unexplained_var_ratio. rewrite (a4_split x n). reflexivity.
  - replace (Finite 0) with (Rbar_mult (Finite (a4sum x 0 All - a4sum x 0 All)) (Finite (/ a4sum x 0 All))) by (cbn; f_equal; ring).
    apply is_lim_seq_mult'; [|apply is_lim_seq_const]. apply is_lim_seq_minus'; [apply is_lim_seq_const|exact L].
Qed.
(** rate *)
Lemma inv_cube_step n : (0 < n)%nat -> / INR (S n) ^ 4 <= / 3 * (/ INR n ^ 3 - / INR (S n) ^ 3).
Proof.
  intros Hn. rewrite S_INR. assert (N : 1 <= INR n) by (change 1 with (INR 1); apply le_INR; lia). set (u := INR n) in *.
  replace (/ 3 * (/ u ^ 3 - / (u + 1) ^ 3)) with ((3 * u ^ 2 + 3 * u + 1) * (u + 1) / (3 * u ^ 3 * (u + 1) ^ 4)) by (field; lra).
  assert (Q : 0 < 3 * u ^ 3 * (u + 1) ^ 4) by (repeat apply Rmult_lt_0_compat; try lra; apply pow_lt; lra).
  apply (Rmult_le_reg_r (3 * u ^ 3 * (u + 1) ^ 4)); [exact Q|].
  replace (/ (u + 1) ^ 4 * (3 * u ^ 3 * (u + 1) ^ 4)) with (3 * u ^ 3) by (field; lra).
  replace ((3 * u ^ 2 + 3 * u + 1) * (u + 1) / (3 * u ^ 3 * (u + 1) ^ 4) * (3 * u ^ 3 * (u + 1) ^ 4)) with ((3 * u ^ 2 + 3 * u + 1) * (u + 1)) by (field; lra). nra.
Qed.
Lemma t4_le x n : (0 < n)%nat -> kl_t4 x n <= 4 / PI ^ 4 * / INR n ^ 4.
Proof.
  intros Hn. pose proof PI_RGT_0 as HP. assert (N : 0 < INR n) by (apply lt_0_INR, Hn). unfold kl_t4, npi.
  replace (4 / PI ^ 4 * / INR n ^ 4) with (4 / ((INR n * PI) ^ 2) ^ 2) by (field; lra).
  apply Rmult_le_compat_l; [lra|]. apply Rinv_le_contravar; [apply pow_lt, pow_lt; nra|]. pose proof (pow2_ge_0 x). assert (0 < (INR n * PI) ^ 2) by (apply pow_lt; nra).
  apply pow_incr. lra.
Qed.
Lemma part_le x n m : (0 < n)%nat -> rsum m (fun i => kl_t4 x (S (n + i))) <= 4 / (3 * PI ^ 4) * (/ INR n ^ 3 - / INR (n + m) ^ 3).
Proof.
  intros Hn. pose proof PI_RGT_0 as HP. assert (P4 : 0 < PI ^ 4) by (apply pow_lt, HP). induction m as [|m IH].
  - cbn [rsum]. rewrite Nat.add_0_r. lra.
  - cbn [rsum]. pose proof (t4_le x (S (n + m)) ltac:(lia)) as A. pose proof (inv_cube_step (n + m) ltac:(lia)) as B.
    replace (n + S m)%nat with (S (n + m)) by lia.
    assert (C : 4 / PI ^ 4 * / INR (S (n + m)) ^ 4 <= 4 / PI ^ 4 * (/ 3 * (/ INR (n + m) ^ 3 - / INR (S (n + m)) ^ 3))).
    { apply Rmult_le_compat_l; [|exact B]. apply Rlt_le, Rdiv_lt_0_compat; lra. }
    replace (4 / (3 * PI ^ 4) * (/ INR n ^ 3 - / INR (S (n + m)) ^ 3)) with
      (4 / (3 * PI ^ 4) * (/ INR n ^ 3 - / INR (n + m) ^ 3) + 4 / PI ^ 4 * (/ 3 * (/ INR (n + m) ^ 3 - / INR (S (n + m)) ^ 3))); [lra|].
    assert (INR n <> 0) by (apply not_0_INR; lia). assert (INR (n + m) <> 0) by (apply not_0_INR; lia). assert (INR (S (n + m)) <> 0) by (apply not_0_INR; lia). field. repeat split; try assumption. lra.
Qed.
Lemma a4_rate x n : 0 < x -> (0 < n)%nat -> a4sum x n All <= 4 / (3 * PI ^ 4 * INR n ^ 3).
Proof.
  intros Hx Hn. pose proof (a4sum_tail x n All Hx) as H. unfold is_tail in H. cbn [sel] in H. apply series_rsum in H.
  assert (N : 0 < INR n) by (apply lt_0_INR, Hn). pose proof PI_RGT_0 as HP. assert (P4 : 0 < PI ^ 4) by (apply pow_lt, HP). assert (N3 : 0 < INR n ^ 3) by (apply pow_lt, N).
  apply (is_lim_seq_le (fun m => rsum m (fun i => kl_t4 x (S (n + i)))) (fun _ => 4 / (3 * PI ^ 4 * INR n ^ 3)) (a4sum x n All) (4 / (3 * PI ^ 4 * INR n ^ 3))); [|exact H|apply is_lim_seq_const].
  intros m. eapply Rle_trans; [apply part_le, Hn|]. replace (4 / (3 * PI ^ 4 * INR n ^ 3)) with (4 / (3 * PI ^ 4) * / INR n ^ 3) by (field; split; lra).
  assert (K : 0 < 4 / (3 * PI ^ 4)) by (apply Rdiv_lt_0_compat; lra). apply Rmult_le_compat_l; [lra|].
  enough (0 < / INR (n + m) ^ 3) by lra. apply Rinv_0_lt_compat, pow_lt, lt_0_INR. lia.
Qed.
Lemma ratio_rate x n k : 0 < x -> (0 < n)%nat -> unexplained_var_ratio x (Some n) k <= (x ^ 2 + PI ^ 2) ^ 2 / (3 * PI ^ 4 * INR n ^ 3).
Proof.
  intros Hx Hn. pose proof (a4_rate x n Hx Hn) as A. pose proof (a4_pos x 1 Hx) as T. rewrite a4_split in T. cbn [rsum] in T.
  assert (B : kl_t4 x 1 <= a4sum x 0 All) by lra. pose proof (t4_pos x Hx 1) as P1. unfold unexplained_var_ratio.
  assert (N3 : 0 < INR n ^ 3) by (apply pow_lt, lt_0_INR, Hn). pose proof PI_RGT_0 as HP. assert (P4 : 0 < PI ^ 4) by (apply pow_lt, HP).
  apply Rle_trans with (4 / (3 * PI ^ 4 * INR n ^ 3) * / kl_t4 x 1).
  - unfold Rdiv at 1. apply Rmult_le_compat; [left; apply a4_pos, Hx|left; apply Rinv_0_lt_compat, a4_pos, Hx|exact A|]. apply Rinv_le_contravar; assumption.
  - right. unfold kl_t4, npi. cbn [INR]. rewrite Rmult_1_l. assert (0 < x ^ 2 + PI ^ 2) by (pose proof (pow2_ge_0 x); pose proof (pow_lt PI 2 HP); lra). assert (INR n <> 0) by (apply not_0_INR; lia). field. repeat split; try lra; assumption.
Qed.
