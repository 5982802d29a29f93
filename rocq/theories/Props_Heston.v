(** C27, C28: Heston Monte-Carlo steps. *)
From Coq Require Import Reals Lra Lia List Permutation.
From Coquelicot Require Import Coquelicot.
From Verif Require Import Base Gauss Sums M_Opt M_Mgf M_Mc M_Heston Spec_Expect P_Expect P_Gmom P_Qe P_Cir P_Cir2 P_Gk.
Import ListNotations.
Open Scope R_scope.

(** *** C27: QE variance draw, Z standard normal *)
Theorem C27_nonneg : forall m s2, 0 < m -> 0 < s2 -> forall z, 0 <= qe_var m s2 z.
Proof. exact qe_nonneg. Qed.
Print Assumptions C27_nonneg.
Theorem C27_mean : forall m s2, 0 < m -> 0 < s2 -> gauss_expect (qe_var m s2) m.
Proof. exact qe_mean. Qed.
Print Assumptions C27_mean.
Theorem C27_variance : forall m s2, 0 < m -> 0 < s2 -> gauss_expect (fun z => qe_var m s2 z ^ 2) (m ^ 2 + s2).
Proof. exact qe_second. Qed.
Print Assumptions C27_variance.
(** with the martingale correction the conditional spot has expectation exactly 1; the condition is finiteness
    of the exponential moment (automatic for rho <= 0 in the second example) *)
Theorem C27_martingale : forall (p : svp) dt v0, v_vov p <> 0 -> dt <> 0 -> 0 < v0 ->
  let m := cir_mean (heston_cir p) dt v0 in let s2 := cir_var (heston_cir p) dt v0 in
  0 < m -> 0 < s2 ->
  (if Rle_dec (s2 / m ^ 2) psi_c then 2 * qe_aa p dt * (m / (1 + qe_b2 (s2 / m ^ 2))) < 1 else qe_aa p dt < 2 / (s2 / m ^ 2 + 1) / m) ->
  gauss_expect (fun z => fst (hmc_cond_spot_sigma p (qe_step p (fun _ => z)) (dt :: nil) dt v0)) 1.
Proof. exact qe_martingale. Qed.
Print Assumptions C27_martingale.
(** both hypotheses 0 < m, 0 < s2 hold for every CIR step *)
Theorem C27_positive_moments : forall c t v, 0 < c_mr c -> 0 <= c_theta c -> c_xi c <> 0 -> 0 < t -> 0 < v ->
  0 < cir_mean c t v /\ 0 < cir_var c t v.
Proof. exact (fun c t v A B C D E => conj (cir_mean_pos c t v B (Rlt_le _ _ A) (Rlt_le _ _ D) E) (cir_var_pos c t v A B C D E)). Qed.
Print Assumptions C27_positive_moments.
(** with rho <= 0 and 0 <= mr, vov > 0, dt >= 0 the exponent is never positive, so the correction always exists *)
Lemma qe_aa_neg p dt : v_rho p <= 0 -> 0 < v_vov p -> 0 <= v_mr p -> 0 <= dt -> qe_aa p dt <= 0.
Proof.
  intros Hr Hv Hm Hd. unfold qe_aa, qe_k.
  replace (dt / 4 * v_rho p * (2 * v_mr p / v_vov p - v_rho p) - v_rho p / v_vov p + 2 * v_rho p / v_vov p)
    with (v_rho p * (dt / 4 * (2 * (v_mr p / v_vov p) - v_rho p) + / v_vov p)) by (field; lra).
  assert (0 <= v_mr p / v_vov p). { apply Rmult_le_pos; [lra|]. left. now apply Rinv_0_lt_compat. }
  assert (0 < / v_vov p) by now apply Rinv_0_lt_compat.
  assert (0 <= dt / 4 * (2 * (v_mr p / v_vov p) - v_rho p)) by (apply Rmult_le_pos; lra).
  apply Rmult_le_0_r; [exact Hr|lra].
Qed.
Lemma qe_martingale_neg (p : svp) dt v0 : v_rho p <= 0 -> 0 < v_vov p -> 0 < v_mr p -> 0 <= v_theta p -> 0 < dt -> 0 < v0 ->
  gauss_expect (fun z => fst (hmc_cond_spot_sigma p (qe_step p (fun _ => z)) (dt :: nil) dt v0)) 1.
Proof.
  intros Hr Hv Hm Ht Hd H0. destruct (C27_positive_moments (heston_cir p) dt v0) as [A B]; cbn; try lra.
  apply qe_martingale; try lra. unfold qe_admissible.
  pose proof (qe_aa_neg p dt Hr Hv (Rlt_le _ _ Hm) (Rlt_le _ _ Hd)) as Ha.
  set (m := cir_mean _ _ _) in *. set (s2 := cir_var _ _ _) in *.
  assert (0 < s2 / m ^ 2) by (apply Rdiv_lt_0_compat; [exact B|apply pow_lt; exact A]).
  destruct (Rle_dec _ _) as [H1|H1].
  - destruct (qe_b2_facts m s2 A B H1) as [Hb _].
    assert (0 < m / (1 + qe_b2 (s2 / m ^ 2))) by (apply Rdiv_lt_0_compat; lra).
    assert (2 * qe_aa p dt * (m / (1 + qe_b2 (s2 / m ^ 2))) <= 0); [|lra]. apply Rmult_le_0_r; lra.
  - assert (0 < 2 / (s2 / m ^ 2 + 1) / m); [|lra]. apply Rdiv_lt_0_compat; [|exact A]. apply Rdiv_lt_0_compat; lra.
Qed.
Theorem C27_martingale_neg_corr : forall (p : svp) dt v0, v_rho p <= 0 -> 0 < v_vov p -> 0 < v_mr p -> 0 <= v_theta p -> 0 < dt -> 0 < v0 ->
  gauss_expect (fun z => fst (hmc_cond_spot_sigma p (qe_step p (fun _ => z)) (dt :: nil) dt v0)) 1.
Proof. exact qe_martingale_neg. Qed.
Print Assumptions C27_martingale_neg_corr.
Example C27_ex : gauss_expect (qe_var (/ 25) (/ 100)) (/ 25).
Proof. apply C27_mean; lra. Qed.
Example C27_ex2 : gauss_expect (fun z => fst (hmc_cond_spot_sigma (mkSv (/ 25) 1 (- / 2) (/ 2) (/ 25)) (qe_step (mkSv (/ 25) 1 (- / 2) (/ 2) (/ 25)) (fun _ => z)) (/ 4 :: nil) (/ 4) (/ 25))) 1.
Proof. apply C27_martingale_neg_corr; cbn; lra. Qed.

(** *** C28: every path receives exactly eta of the draws, all draws are used, none twice, and no slice runs short *)
Theorem C28_eta_draws : forall eta avg zz, length avg = length eta -> length zz = list_sum eta ->
  exists out asg, gk_loop eta avg zz = Some (out, []) /\ length out = length eta /\ length asg = length eta /\
   Permutation (concat asg) zz /\
   forall p, (p < length eta)%nat -> length (nth p asg []) = nth p eta 0%nat /\ nth p out 0 = nth p avg 0 + lsum (nth p asg []).
Proof. exact gk_loop_correct. Qed.
Print Assumptions C28_eta_draws.
Theorem C28_total : forall eta avg zz, length avg = length eta -> length zz = list_sum eta ->
  exists out, gk_loop eta avg zz = Some (out, []) /\ lsum out = lsum avg + lsum zz.
Proof. exact gk_loop_sum. Qed.
Print Assumptions C28_total.
Example C28_ex : gk_loop [2; 0; 1]%nat [10; 20; 30] [1; 2; 3] = Some ([10 + 1 + 3; 20; 30 + 2], [])
  /\ gk_loop [2; 0; 1]%nat [10; 20; 30] [1; 2] = None.
Proof. split; reflexivity. Qed.
