(** Multi-date, multi-asset Monte-Carlo paths (BsmNdMc, NormNdMc). *)
From Coq Require Import Reals Lra Lia Psatz List Arith FunctionalExtensionality.
From Coquelicot Require Import Coquelicot.
From Verif Require Import Base Gauss Sums Spec_Opt Spec_Expect Spec_Multi M_Opt M_Params M_Fd M_Sabr M_Multi Spec_Multi2 P_Black P_Bsm P_Norm P_Expect P_KlLaw P_Sabr2 P_Conv P_Conv2 P_Multi P_Multi2 P_Multi3.
Import ListNotations.
Open Scope R_scope.

Lemma rsum_block n k (f : nat -> R) : rsum (k * n) f = rsum k (fun s => rsum n (fun j => f (s * n + j)%nat)).
Proof.
  induction k as [|k IH]; [reflexivity|]. cbn [rsum]. rewrite <- IH. replace (S k * n)%nat with (k * n + n)%nat by lia. apply rsum_split.
Qed.
Lemma dm n s j : (j < n)%nat -> ((s * n + j) / n = s /\ (s * n + j) mod n = j)%nat.
Proof.
  intros H. split.
  - rewrite Nat.div_add_l by lia. rewrite Nat.div_small by exact H. lia.
  - rewrite Nat.add_comm, Nat.mod_add by lia. apply Nat.mod_small, H.
Qed.
Lemma nd_dt_sum tobs k : rsum (S k) (nd_dt tobs) = tobs k.
Proof. induction k as [|k IH]; [cbn [rsum]; unfold nd_dt; ring|]. cbn [rsum] in *. rewrite IH. unfold nd_dt. ring. Qed.
Lemma lin_prod n a b : normals_expect n (fun z => lin n a z * lin n b z) (lin n a b).
Proof.
  pose proof (qf_cov n a (fun _ => 0) b (fun _ => 0) 0 0 0) as H.
  cbv beta in H. replace (0 * 0 + rsum n (fun i => a i * b i + 2 * (0 * 0)) + 0) with (lin n a b) in H.
  2:{ unfold lin. rewrite (rsum_ext n (fun i => a i * b i + 2 * (0 * 0)) (fun i => a i * b i)) by (intros; ring). ring. }
  eapply normals_ext; [|exact H]. intros z. cbv beta. unfold qf, lin.
  rewrite (rsum_ext n (fun i => a i * z i + 0 * (z i ^ 2 - 1)) (fun i => a i * z i)) by (intros; ring).
  rewrite (rsum_ext n (fun i => b i * z i + 0 * (z i ^ 2 - 1)) (fun i => b i * z i)) by (intros; ring). ring.
Qed.
Lemma lin_mean n a : normals_expect n (fun z => lin n a z) 0.
Proof.
  pose proof (qf_mean n a (fun _ => 0) 0) as H. eapply normals_ext; [|exact H]. intros z. cbv beta. unfold qf, lin.
  rewrite (rsum_ext n (fun i => a i * z i + 0 * (z i ^ 2 - 1)) (fun i => a i * z i)) by (intros; ring). ring.
Qed.

Section Nd.
  Variables (o : bsk) (chol : mat) (tobs : nat -> R).
  Hypotheses (Hok : ok_basket o chol) (Hdt : forall s, 0 <= nd_dt tobs s).
  Let n := bn o.
  (** loading of the Brownian motion of asset i at date k *)
  Definition nl (k i : nat) : nat -> R := fun m => if Nat.leb (m / n) k then sqrt (nd_dt tobs (m / n)) * chol i (m mod n) else 0.
  Lemma nl_lin k l i z : (k <= l)%nat -> lin (S l * n) (nl k i) z = rsum (S k) (fun s => nd_incr n chol tobs z s i).
  Proof using.
    intros Hk. unfold lin. rewrite rsum_block.
    replace (S l) with (S k + (l - k))%nat by lia. rewrite rsum_split.
    rewrite (rsum_ext (l - k) _ (fun _ => 0)).
    2:{ intros s Hs. apply rsum_eq0. intros j Hj. unfold nl. destruct (dm n (S k + s) j Hj) as [-> ->].
        destruct (Nat.leb_spec (S k + s) k); [lia|ring]. }
    rewrite rsum_0, Rplus_0_r. apply rsum_ext. intros s Hs. unfold nd_incr. apply rsum_ext. intros j Hj. unfold nl. destruct (dm n s j Hj) as [-> ->].
    destruct (Nat.leb_spec s k); [ring|lia].
  Qed.
  Lemma nl_dot k l i j : (k <= l)%nat -> (i < n)%nat -> (j < n)%nat -> lin (S l * n) (nl k i) (nl l j) = ma_cov (bk_ma o) i j * tobs k.
  Proof using Hok Hdt.
    intros Hk Hi Hj. rewrite (nl_lin k l i (nl l j) Hk). rewrite <- (nd_dt_sum tobs k), <- rsum_scal. apply rsum_ext. intros s Hs.
    unfold nd_incr. rewrite <- (proj1 Hok i j Hi Hj), Rmult_comm, <- rsum_scal. apply rsum_ext. intros p Hp. unfold nl. destruct (dm n s p Hp) as [-> ->].
    destruct (Nat.leb_spec s l); [|lia]. transitivity (sqrt (nd_dt tobs s) * sqrt (nd_dt tobs s) * (chol i p * chol j p)); [ring|].
    rewrite sqrt_sqrt by apply Hdt. reflexivity.
  Qed.
  Lemma nl_nrm_le k l i : (k <= l)%nat -> (i < n)%nat -> nrm2 (S l * n) (nl k i) = ma_cov (bk_ma o) i i * tobs k.
  Proof using Hok Hdt.
    intros Hk Hi. change (nrm2 (S l * n) (nl k i)) with (lin (S l * n) (nl k i) (nl k i)). rewrite (nl_lin k l i (nl k i) Hk).
    rewrite <- (nl_lin k k i (nl k i) (le_n k)). apply nl_dot; [apply le_n|exact Hi|exact Hi].
  Qed.
  Lemma bsm_path_tilt k l i z : (k <= l)%nat -> (i < n)%nat ->
    bsm_nd_path o chol tobs k z i = exp ((k_r (bk_m o) - k_q (bk_m o) i) * tobs k) * tilt (S l * n) (nl k i) z.
  Proof using Hok Hdt.
    intros Hk Hi. unfold bsm_nd_path, tilt. rewrite <- exp_plus. f_equal. fold n. rewrite rsum_plus, rsum_scal, nd_dt_sum, (nl_lin k l i z Hk), (nl_nrm_le k l i Hk Hi), (proj2 Hok i Hi). field.
  Qed.
  Lemma norm_path_lin k l i z : (k <= l)%nat -> norm_nd_path o chol tobs k z i = lin (S l * n) (nl k i) z.
  Proof using. intros Hk. unfold norm_nd_path. fold n. now rewrite (nl_lin k l i z Hk). Qed.

  Lemma bsm_nd_moments k l i j : (k <= l)%nat -> (i < n)%nat -> (j < n)%nat ->
    normals_expect (S l * n) (fun z => bsm_nd_path o chol tobs k z i) (exp ((k_r (bk_m o) - k_q (bk_m o) i) * tobs k)) /\
    normals_expect (S l * n) (fun z => bsm_nd_path o chol tobs k z i * bsm_nd_path o chol tobs l z j)
      (exp ((k_r (bk_m o) - k_q (bk_m o) i) * tobs k) * exp ((k_r (bk_m o) - k_q (bk_m o) j) * tobs l) * exp (ma_cov (bk_ma o) i j * tobs k)).
  Proof using Hok Hdt.
    intros Hk Hi Hj. split.
    - pose proof (normals_scal _ _ _ (exp ((k_r (bk_m o) - k_q (bk_m o) i) * tobs k)) (tilt_expect (S l * n) (nl k i))) as H. rewrite Rmult_1_r in H.
      eapply normals_ext; [|exact H]. intros z. cbv beta. now rewrite (bsm_path_tilt k l).
    - pose proof (normals_scal _ _ _ (exp ((k_r (bk_m o) - k_q (bk_m o) i) * tobs k) * exp ((k_r (bk_m o) - k_q (bk_m o) j) * tobs l)) (tilt2 (S l * n) (nl k i) (nl l j))) as H.
      rewrite nl_dot in H by assumption. eapply normals_ext; [|exact H]. intros z. cbv beta. rewrite (bsm_path_tilt k l i z) by assumption. rewrite (bsm_path_tilt l l j z) by (assumption || apply le_n). ring.
  Qed.
  Lemma norm_nd_moments k l i j : (k <= l)%nat -> (i < n)%nat -> (j < n)%nat ->
    normals_expect (S l * n) (fun z => norm_nd_path o chol tobs k z i) 0 /\
    normals_expect (S l * n) (fun z => norm_nd_path o chol tobs k z i * norm_nd_path o chol tobs l z j) (ma_cov (bk_ma o) i j * tobs k).
  Proof using Hok Hdt.
    intros Hk Hi Hj. split.
    - eapply normals_ext; [|apply (lin_mean (S l * n) (nl k i))]. intros z. cbv beta. now rewrite (norm_path_lin k l).
    - rewrite <- (nl_dot k l i j) by assumption. eapply normals_ext; [|apply (lin_prod (S l * n) (nl k i) (nl l j))].
      intros z. cbv beta. rewrite (norm_path_lin k l) by assumption. rewrite (norm_path_lin l l) by apply le_n. reflexivity.
  Qed.

  Lemma local_incr k z z' : (forall i, (i < S k * n)%nat -> z i = z' i) -> forall i, rsum (S k) (fun s => nd_incr n chol tobs z s i) = rsum (S k) (fun s => nd_incr n chol tobs z' s i).
  Proof using.
    intros E i. apply rsum_ext. intros s Hs. unfold nd_incr. apply rsum_ext. intros j Hj. rewrite E; [reflexivity|]. nia.
  Qed.
  Lemma local_bsm_path k z z' : (forall i, (i < S k * n)%nat -> z i = z' i) -> bsm_nd_path o chol tobs k z = bsm_nd_path o chol tobs k z'.
  Proof using.
    intros E. apply functional_extensionality. intros i. unfold bsm_nd_path. f_equal. fold n. rewrite !rsum_plus, (local_incr k z z' E i). reflexivity.
  Qed.
  Lemma local_norm_path k z z' : (forall i, (i < S k * n)%nat -> z i = z' i) -> norm_nd_path o chol tobs k z = norm_nd_path o chol tobs k z'.
  Proof using. intros E. apply functional_extensionality. intros i. unfold norm_nd_path. fold n. apply (local_incr k z z' E i). Qed.

  (** the price of any payoff is unbiased for its discounted expectation *)
  Lemma bsm_nd_unbiased k m anti spot pay p : (0 < m)%nat ->
    normals_expect (S k * n) (fun z => pay (fun i => bsm_nd_path o chol tobs k z i * spot i)) p ->
    normals_expect (m * (S k * n)) (fun Z => bsm_nd_price o chol tobs k (mc_draws anti (draws (S k * n) m Z)) spot pay) (exp (- k_r (bk_m o) * tobs k) * p).
  Proof using.
    intros Hm H. unfold bsm_nd_price. apply normals_scal.
    apply (mean_expect (S k * n) m anti (fun z => pay (fun i => bsm_nd_path o chol tobs k z i * spot i)) p); [|exact Hm|exact H].
    intros z z' E. now rewrite (local_bsm_path k z z' E).
  Qed.
  Lemma norm_nd_unbiased k m anti spot pay p : (0 < m)%nat ->
    normals_expect (S k * n) (fun z => pay (fun i => spot i + norm_nd_path o chol tobs k z i)) p ->
    normals_expect (m * (S k * n)) (fun Z => norm_nd_price o chol tobs k (mc_draws anti (draws (S k * n) m Z)) spot pay) (exp (- k_r (bk_m o) * tobs k) * p).
  Proof using.
    intros Hm H. unfold norm_nd_price. apply normals_scal.
    apply (mean_expect (S k * n) m anti (fun z => pay (fun i => spot i + norm_nd_path o chol tobs k z i)) p); [|exact Hm|exact H].
    intros z z' E. now rewrite (local_norm_path k z z' E).
  Qed.
  Lemma bsm_nd_forward k m anti spot i : (0 < m)%nat -> (i < n)%nat ->
    normals_expect (m * (S k * n)) (fun Z => bsm_nd_price o chol tobs k (mc_draws anti (draws (S k * n) m Z)) spot (fun x => x i)) (spot i * exp (- k_q (bk_m o) i * tobs k)).
  Proof using Hok Hdt.
    intros Hm Hi. pose proof (proj1 (bsm_nd_moments k k i i (le_n k) Hi Hi)) as H.
    pose proof (normals_scal _ _ _ (spot i) H) as H'.
    replace (spot i * exp (- k_q (bk_m o) i * tobs k)) with (exp (- k_r (bk_m o) * tobs k) * (spot i * exp ((k_r (bk_m o) - k_q (bk_m o) i) * tobs k))).
    2:{ transitivity (spot i * (exp (- k_r (bk_m o) * tobs k) * exp ((k_r (bk_m o) - k_q (bk_m o) i) * tobs k))); [ring|]. rewrite <- exp_plus. do 2 f_equal. ring. }
    apply bsm_nd_unbiased; [exact Hm|]. eapply normals_ext; [|exact H']. intros z. cbv beta. ring.
  Qed.
  Lemma norm_nd_forward k m anti spot i : (0 < m)%nat -> (i < n)%nat ->
    normals_expect (m * (S k * n)) (fun Z => norm_nd_price o chol tobs k (mc_draws anti (draws (S k * n) m Z)) spot (fun x => x i)) (spot i * exp (- k_r (bk_m o) * tobs k)).
  Proof using Hok Hdt.
    intros Hm Hi. rewrite (Rmult_comm (spot i)). apply norm_nd_unbiased; [exact Hm|].
    pose proof (normals_plus _ _ _ _ _ (normals_const (S k * n) (spot i)) (proj1 (norm_nd_moments k k i i (le_n k) Hi Hi))) as H. rewrite Rplus_0_r in H. exact H.
  Qed.
  Lemma bsm_nd_vanilla k m anti spot i K cp : (0 < m)%nat -> (i < n)%nat -> call_or_put cp -> 0 < K -> 0 < spot i -> 0 < ma_sigma (bk_ma o) i -> 0 < tobs k ->
    eps <= ma_sigma (bk_ma o) i * sqrt (tobs k) ->
    normals_expect (m * (S k * n)) (fun Z => bsm_nd_price o chol tobs k (mc_draws anti (draws (S k * n) m Z)) spot (fun x => payoff cp K (x i)))
      (bsm_price (mkOpt (ma_sigma (bk_ma o) i) (k_r (bk_m o)) (k_q (bk_m o) i) false) K (spot i) (tobs k) cp).
  Proof using Hok Hdt.
    intros Hm Hi Hcp HK HS Hs HT He.
    rewrite bsm_price_eq. cbn [sigma]. unfold mF, mD. cbn [intr divr is_fwd].
    unfold sigma_std. rewrite Rmax_left by exact He.
    replace (DF (k_r (bk_m o)) (tobs k)) with (exp (- k_r (bk_m o) * tobs k)) by (unfold DF; f_equal; ring).
    apply bsm_nd_unbiased; [exact Hm|].
    assert (EN : nrm2 (S k * n) (nl k i) = ma_sigma (bk_ma o) i ^ 2 * tobs k) by (rewrite (nl_nrm_le k k i (le_n k) Hi), (proj2 Hok i Hi); reflexivity).
    assert (Es : ma_sigma (bk_ma o) i * sqrt (tobs k) = sqrt (nrm2 (S k * n) (nl k i))) by (rewrite EN, sqrt_mult, sqrt_pow2 by (try apply pow2_ge_0; lra); reflexivity).
    rewrite Es. eapply normals_ext; [|apply normals_black; [exact Hcp| |exact HK|]].
    - intros z. cbv beta. f_equal. rewrite (bsm_path_tilt k k i z (le_n k) Hi). unfold FWD. ring.
    - unfold FWD. apply Rmult_lt_0_compat; [exact HS|apply exp_pos].
    - rewrite EN. apply Rmult_lt_0_compat; [apply pow_lt; exact Hs|exact HT].
  Qed.
End Nd.
