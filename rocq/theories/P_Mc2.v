(** Small consequences used by Props_Mc.v. *)
From Coq Require Import Reals Lra Lia List.
From Coquelicot Require Import Coquelicot.
From Verif Require Import Base Gauss Sums M_Opt M_Mgf M_Mc Spec_Opt Spec_Expect P_Density P_Expect P_Gmom P_Mc.
Import ListNotations.
Open Scope R_scope.

Lemma tobs_nth d T : 0 < d -> 0 < T ->
  let l := tobs (Some d) T in
  (1 <= length l)%nat /\ (forall i, (i < length l)%nat -> nth i l 0 = INR (S i) * (T / INR (length l))) /\ T / INR (length l) <= d
  /\ INR (length l - 1) * d < T.
Proof.
  intros Hd HT l. destruct (tobs_split d T Hd HT) as (n & h & H1 & H2 & H3 & H4 & E). subst l.
  assert (Pn : 0 < INR n) by (apply lt_0_INR; lia).
  assert (Eh : T / INR n = h) by (rewrite <- H3; field; lra).
  rewrite E, map_length, seq_length. split; [exact H1|]. rewrite Eh. split; [|split; [lra|exact H4]].
  intros i Hi. rewrite (nth_indep _ 0 (INR 0 * h)) by (rewrite map_length, seq_length; exact Hi).
  rewrite (map_nth (fun i => INR i * h)), seq_nth by exact Hi. reflexivity.
Qed.

Lemma rv_normal_pairs n z i : (i < n / 2)%nat ->
  nth (2 * i) (rv_normal true n z) 0 = z i /\ nth (2 * i + 1) (rv_normal true n z) 0 = - z i.
Proof.
  intros H. unfold rv_normal. destruct (interleave_nth Ropp (draws z (n / 2)) i 0) as [A B]; [now rewrite draws_length|].
  rewrite A, B, draws_nth by exact H. split; reflexivity.
Qed.
Lemma rv_uniform_pairs n u i : (i < n / 2)%nat ->
  nth (2 * i) (rv_uniform true n u) 0 = u i /\ nth (2 * i + 1) (rv_uniform true n u) 0 = 1 - u i.
Proof.
  intros H. unfold rv_uniform. destruct (interleave_nth (fun x => 1 - x) (draws u (n / 2)) i 0) as [A B]; [now rewrite draws_length|].
  rewrite A, B, draws_nth by exact H. split; reflexivity.
Qed.
Lemma bm_incr_entries n g tobs : Nat.Even n -> (0 < n)%nat ->
  exists rows, bm_incr true n g tobs false = Some rows /\ length rows = length tobs /\
    forall k i, (k < length tobs)%nat -> (i < n / 2)%nat ->
      length (nth k rows []) = n /\
      nth i (nth k rows []) 0 = g i k * sqrt (nth k (diff_from 0 tobs) 0) /\
      nth (n / 2 + i) (nth k rows []) 0 = - (g i k * sqrt (nth k (diff_from 0 tobs) 0)).
Proof.
  intros He Hn. eexists. split; [now apply bm_incr_even|]. split; [rewrite bm_rows_len; apply diff_from_length|].
  intros k i Hk Hi. rewrite bm_rows_nth by (now rewrite diff_from_length). rewrite Nat.add_0_l. split.
  - rewrite bm_row_length. now apply half_even.
  - now apply bm_row_nth.
Qed.

Lemma path_step_mean spot sigma dt : 0 <= dt -> gauss_expect (path_step spot sigma dt) (spot * exp (/ 2 * sigma ^ 2 * dt)).
Proof.
  intros H. unfold path_step. apply (gauss_expect_scal (fun x => exp (sigma * sqrt dt * x))).
  pose proof (gauss_mgf (sigma * sqrt dt)) as G.
  replace (sigma * sqrt dt * (sigma * sqrt dt) / 2) with (/ 2 * sigma ^ 2 * dt) in G; [exact G|].
  rewrite <- (sqrt_sqrt dt H) at 1. field.
Qed.

Lemma hmc_second_moment m p dt v0 vt avg : 0 <= hmc_ln_var p dt avg ->
  gauss_expect (fun z => (hmc_ln_m m p dt v0 vt avg + sqrt (hmc_ln_var p dt avg) * z) ^ 2) (hmc_cond_log_return_var m p dt v0 vt avg).
Proof.
  intros H. unfold hmc_cond_log_return_var. set (a := hmc_ln_m m p dt v0 vt avg). set (V := hmc_ln_var p dt avg) in *.
  apply (gauss_expect_ext (fun z => a ^ 2 + 2 * a * sqrt V * z + V * z ^ 2 + 0 * z ^ 3 + 0 * z ^ 4)).
  { intros z. pose proof (sqrt_sqrt V H). rewrite <- H0 at 2. ring. }
  pose proof (gauss_poly4 (a ^ 2) (2 * a * sqrt V) V 0 0) as G. replace (a ^ 2 + V + 3 * 0) with (a ^ 2 + V) in G by ring. exact G.
Qed.

Lemma var_opt_parity r vars K T : vars <> [] ->
  price_var_opt r vars K T 1 - price_var_opt r vars K T (-1) = (lmean vars - K) * exp (- r * T).
Proof.
  intros Hn. unfold price_var_opt.
  assert (S1 : rsign 1 = 1) by (unfold rsign; destruct (Rlt_dec 0 1); lra).
  assert (S2 : rsign (-1) = -1) by (unfold rsign; destruct (Rlt_dec 0 (-1)); [lra|]; destruct (Rlt_dec (-1) 0); lra).
  rewrite S1, S2. rewrite <- Rmult_minus_distr_r. f_equal. unfold lmean. rewrite !map_length.
  assert (P : INR (length vars) <> 0) by (apply not_0_INR; destruct vars; cbn; [easy|lia]).
  apply (Rmult_eq_reg_r (INR (length vars))); [|exact P].
  replace ((lsum (map (fun v => Rmax (1 * (v - K)) 0) vars) / INR (length vars) - lsum (map (fun v => Rmax (-1 * (v - K)) 0) vars) / INR (length vars)) * INR (length vars))
    with (lsum (map (fun v => Rmax (1 * (v - K)) 0) vars) - lsum (map (fun v => Rmax (-1 * (v - K)) 0) vars)) by (field; exact P).
  replace ((lsum vars / INR (length vars) - K) * INR (length vars)) with (lsum vars - INR (length vars) * K) by (field; exact P).
  clear Hn P. induction vars as [|v t IH]; [cbn; ring|].
  assert (LC : forall x l, lsum (x :: l) = x + lsum l) by reflexivity.
  cbn [map length]. rewrite !LC, S_INR.
  assert (E : Rmax (1 * (v - K)) 0 - Rmax (-1 * (v - K)) 0 = v - K) by (unfold Rmax; destruct Rle_dec, Rle_dec; lra).
  lra.
Qed.
Lemma var_opt_nonneg r vars K T cp : 0 <= price_var_opt r vars K T cp.
Proof.
  unfold price_var_opt. apply Rmult_le_pos; [|left; apply exp_pos]. unfold lmean. rewrite map_length.
  assert (0 <= lsum (map (fun v => Rmax (rsign cp * (v - K)) 0) vars)) by (apply lsum_map_nonneg; intros; apply Rmax_r).
  destruct vars; [cbn; unfold Rdiv; rewrite Rmult_0_l; lra|]. apply Rmult_le_pos; [exact H|]. left. apply Rinv_0_lt_compat, lt_0_INR. cbn. lia.
Qed.
