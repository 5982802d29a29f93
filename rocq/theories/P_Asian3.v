(** Closed forms for the first four moments *)
From Coq Require Import Reals Lra Lia Psatz List Arith.
From Coquelicot Require Import Coquelicot.
From Verif Require Import Base Gauss Sums Spec_Expect M_Opt M_Heston M_Asian Spec_Asian P_Asian P_Asian2 P_Qe P_Cir.
Import ListNotations.
Open Scope R_scope.

Lemma exprel_nz (x : R) : x <> 0 -> exprel x = (exp x - 1) / x.
Proof. intros H. unfold exprel. destruct (Req_EM_T x 0); [contradiction|reflexivity]. Qed.
Lemma exprel_z : exprel 0 = 1.
Proof. unfold exprel. destruct (Req_EM_T 0 0); [reflexivity|lra]. Qed.
Section Closed.
Variables (m : opt) (T : R).
Hypotheses (Hs : 0 < sigma m) (HT : 0 < T).
Let s := sigma m.
Let g := intr m - divr m.
Let p := mnc_p m.
Lemma p_eq : g = p * s ^ 2 / 2.
Proof using Hs. unfold p, mnc_p, g, s. field. lra. Qed.
Lemma nores_p n : (forall k, (k < 2 * n - 1)%nat -> p + INR k <> 0) -> nores g s 0 n.
Proof using Hs.
  intros H i j Hij. unfold my. rewrite !Nat.add_0_l. rewrite p_eq.
  specialize (H (i + j - 1)%nat ltac:(lia)). rewrite minus_INR in H by lia. rewrite plus_INR in H. change (INR 1) with 1 in H.
  assert (INR i < INR j) as Hl by (apply lt_INR; lia).
  intros E. assert ((INR j - INR i) * (p + (INR i + INR j - 1)) = 0) as Z.
  { replace ((p * s ^ 2 / 2 - s ^ 2 / 2) / s ^ 2) with ((p - 1) / 2) in E by (field; unfold s in *; lra).
    apply (f_equal (fun x => x - ((p - 1) / 2 + INR i) ^ 2)) in E. rewrite Rminus_eq_0 in E.
    transitivity (((p - 1) / 2 + INR j) ^ 2 - ((p - 1) / 2 + INR i) ^ 2); [field|symmetry; exact E]. }
  apply Rmult_integral in Z. destruct Z as [Z|Z]; [lra|]. apply H. lra.
Qed.
Lemma mnc_moment n : (forall k, (k < 2 * n - 1)%nat -> p + INR k <> 0) -> asian_moment g s T n (asian_mnc m T n).
Proof using Hs HT. intros H. rewrite mnc_eq by assumption. apply asian_closed; [assumption|assumption|]. apply nores_p, H. Qed.

Let c1 := fst (fst (fst (asian_mnc4 m T))).
Let c2 := snd (fst (fst (asian_mnc4 m T))).
Let c3 := snd (fst (asian_mnc4 m T)).
Let c4 := snd (asian_mnc4 m T).
Lemma exp_mS k : exp (mS g s k * T) = exp (g * T) ^ k * exp (s ^ 2 * T * (INR k * (INR k - 1) / 2)).
Proof. rewrite <- P_Expect.exp_n, <- exp_plus. f_equal. unfold mS. field. Qed.
Lemma my_diff i j : my g s 0 j - my g s 0 i = (INR j - INR i) * (p + (INR i + INR j - 1)).
Proof using Hs. unfold my. rewrite !Nat.add_0_l, p_eq. field. unfold s; lra. Qed.
Lemma p_nz : p <> 0 -> g <> 0.
Proof using Hs. intros H0 E. rewrite p_eq in E. unfold s in E. assert (0 < sigma m ^ 2) by (apply pow_lt; exact Hs). apply H0. nra. Qed.
Lemma s2_eq : s ^ 2 = (s ^ 2 * T) / T. Proof using HT. field. lra. Qed.
Lemma expB k (x : R) : x = INR k -> exp (s ^ 2 * T * x) = exp (s ^ 2 * T) ^ k.
Proof. intros ->. rewrite <- P_Expect.exp_n. f_equal. ring. Qed.
Lemma v_pos : 0 < s ^ 2 * T. Proof using Hs HT. apply Rmult_lt_0_compat; [apply pow_lt; exact Hs|exact HT]. Qed.
Ltac start := rewrite mnc_eq by assumption; cbn [fst snd]; unfold mM; cbn [rsum dd Nat.eqb]; rewrite !my_diff, !exp_mS; rewrite ?Nat.add_0_l; cbn [INR]; fold s g.
Lemma mnc1 : p <> 0 -> asian_mnc m T 1 = c1.
Proof using Hs HT.
  intros H0. unfold c1, asian_mnc4. start. pose proof (p_nz H0) as Hg.
  rewrite exprel_nz by (apply Rmult_integral_contrapositive; split; lra).
  rewrite (expB 0), (expB 0) by (cbn [INR]; field).
  change (fact 1) with 1%nat. cbn [INR pow].
  generalize (exp (g * T)). intros A. rewrite p_eq. field. unfold s in *. repeat split; try lra.
Qed.
Lemma mnc2 : p <> 0 -> p + 1 <> 0 -> p + 2 <> 0 -> asian_mnc m T 2 = c2.
Proof using Hs HT.
  intros H0 H1 H2. unfold c2, asian_mnc4. start. fold p.
  rewrite (expB 0 (0 * (0 - 1) / 2)), (expB 0 (1 * (1 - 1) / 2)), (expB 1 ((1 + 1) * (1 + 1 - 1) / 2)) by (cbn [INR]; field).
  change (fact 2) with 2%nat. cbn [INR]. pose proof v_pos as Hv. 
  generalize (exp (g * T)) (exp (s ^ 2 * T)). intros A B. rewrite s2_eq. revert Hv. generalize (s ^ 2 * T). intros v Hv. 
  field. repeat split; lra.
Qed.
Lemma mnc3 : p <> 0 -> p + 1 <> 0 -> p + 2 <> 0 -> p + 3 <> 0 -> p + 4 <> 0 -> asian_mnc m T 3 = c3.
Proof using Hs HT.
  intros H0 H1 H2 H3 H4. unfold c3, asian_mnc4. start. fold p.
  rewrite (expB 0 (0 * (0 - 1) / 2)), (expB 0 (1 * (1 - 1) / 2)), (expB 1 ((1 + 1) * (1 + 1 - 1) / 2)), (expB 3 ((1 + 1 + 1) * (1 + 1 + 1 - 1) / 2)) by (cbn [INR]; field).
  change (fact 3) with 6%nat. cbn [INR]. pose proof v_pos as Hv. 
  generalize (exp (g * T)) (exp (s ^ 2 * T)). intros A B. rewrite s2_eq. revert Hv. generalize (s ^ 2 * T). intros v Hv. 
  field. repeat split; lra.
Qed.
Lemma mnc4 : p <> 0 -> p + 1 <> 0 -> p + 2 <> 0 -> p + 3 <> 0 -> p + 4 <> 0 -> p + 5 <> 0 -> p + 6 <> 0 -> asian_mnc m T 4 = c4.
Proof using Hs HT.
  intros H0 H1 H2 H3 H4 H5 H6. unfold c4, asian_mnc4. start. fold p.
  rewrite (expB 0 (0 * (0 - 1) / 2)), (expB 0 (1 * (1 - 1) / 2)), (expB 1 ((1 + 1) * (1 + 1 - 1) / 2)), (expB 3 ((1 + 1 + 1) * (1 + 1 + 1 - 1) / 2)),
    (expB 6 ((1 + 1 + 1 + 1) * (1 + 1 + 1 + 1 - 1) / 2)) by (cbn [INR]; field).
  change (fact 4) with (4 * 6)%nat. rewrite mult_INR. cbn [INR]. pose proof v_pos as Hv. 
  generalize (exp (g * T)) (exp (s ^ 2 * T)). intros A B. rewrite s2_eq. revert Hv. generalize (s ^ 2 * T). intros v Hv. 
  field. repeat split; lra.
Qed.
End Closed.
