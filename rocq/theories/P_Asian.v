(** Divided differences of a constant, and the solution of the moment equations *)
From Coq Require Import Reals Lra Lia Psatz List Arith FunctionalExtensionality.
From Coquelicot Require Import Coquelicot.
From Verif Require Import Base Sums M_Opt M_Asian.
Import ListNotations.
Open Scope R_scope.

(** product over i < n, i <> j of 1/(x j - x i) *)
Fixpoint dd (x : nat -> R) (n j : nat) : R :=
  match n with O => 1 | S m => dd x m j * (if Nat.eqb m j then 1 else / (x j - x m)) end.
Lemma dd_ext x y n j : (forall i, (i <= n)%nat -> x i = y i) -> (j <= n)%nat -> dd x n j = dd y n j.
Proof.
  intros H Hj. assert (forall k, (k <= n)%nat -> dd x k j = dd y k j) as A; [|apply A; lia].
  induction k as [|k IH]; intros Hk; [reflexivity|]. simpl. rewrite IH by lia. rewrite (H j), (H k) by lia. reflexivity.
Qed.
(** shifting out the first factor *)
Lemma dd_first x n j : dd x (S n) (S j) = / (x (S j) - x 0%nat) * dd (fun i => x (S i)) n j.
Proof.
  induction n as [|n IH]; [simpl; ring|].
  change (dd x (S (S n)) (S j)) with (dd x (S n) (S j) * (if Nat.eqb (S n) (S j) then 1 else / (x (S j) - x (S n)))).
  rewrite IH. simpl. ring.
Qed.
Lemma dd_first0 x n : dd x (S n) 0 = fold_right Rmult 1 (map (fun i => / (x 0%nat - x (S i))) (seq 0 n)).
Proof.
  assert (forall n, dd x (S n) 0 = fold_right Rmult 1 (rev (map (fun i => / (x 0%nat - x (S i))) (seq 0 n)))) as A.
  { clear n. induction n as [|n IH]; [simpl; ring|].
    change (dd x (S (S n)) 0) with (dd x (S n) 0 * / (x 0%nat - x (S n))). rewrite IH.
    rewrite seq_S, map_app, rev_app_distr. simpl. ring. }
  rewrite A. clear A.
  assert (forall l : list R, fold_right Rmult 1 (rev l) = fold_right Rmult 1 l) as B; [|apply B].
  induction l as [|a l IHl]; [reflexivity|]. simpl. rewrite <- IHl.
  generalize (rev l). intros m. induction m as [|b m IHm]; simpl; [ring|]. rewrite IHm. ring.
Qed.

(** sum of the divided-difference coefficients of n+2 distinct points vanishes *)
Lemma dd_sum n : forall x : nat -> R, (forall i j, (i < j <= S n)%nat -> x i <> x j) -> rsum (S (S n)) (dd x (S (S n))) = 0.
Proof.
  induction n as [|n IH]; intros x Hx.
  - simpl. pose proof (Hx 0%nat 1%nat ltac:(lia)). field. lra.
  - (* (x_{n+2} - x_0) * sum over all = sum without 0 - sum without n+2 *)
    assert (x 0%nat <> x (S (S n))) as H0 by (apply Hx; lia).
    apply (Rmult_eq_reg_l (x (S (S n)) - x 0%nat)); [|lra]. rewrite Rmult_0_r, <- rsum_scal.
    transitivity (rsum (S (S n)) (dd (fun i => x (S i)) (S (S n))) - rsum (S (S n)) (dd x (S (S n)))).
    2:{ rewrite (IH (fun i => x (S i))), (IH x); [ring| |]; intros i j Hij; apply Hx; lia. }
    change (rsum (S (S (S n))) (fun k => (x (S (S n)) - x 0%nat) * dd x (S (S (S n))) k))
      with (rsum (S (S n)) (fun k => (x (S (S n)) - x 0%nat) * dd x (S (S (S n))) k) + (x (S (S n)) - x 0%nat) * dd x (S (S (S n))) (S (S n))).
    rewrite rsum_shift.
    rewrite (rsum_shift (S n) (dd x (S (S n)))).
    change (rsum (S (S n)) (dd (fun i => x (S i)) (S (S n)))) with (rsum (S n) (dd (fun i => x (S i)) (S (S n))) + dd (fun i => x (S i)) (S (S n)) (S n)).
    assert (forall k, (k < S n)%nat -> (x (S (S n)) - x 0%nat) * dd x (S (S (S n))) (S k) = dd (fun i => x (S i)) (S (S n)) k - dd x (S (S n)) (S k)) as E.
    { intros k Hk. rewrite dd_first.
      change (dd x (S (S n)) (S k)) with (dd x (S (S n)) (S k)). rewrite (dd_first x (S n) k).
      change (dd (fun i => x (S i)) (S (S n)) k) with (dd (fun i => x (S i)) (S n) k * (if Nat.eqb (S n) k then 1 else / (x (S k) - x (S (S n))))).
      replace (Nat.eqb (S n) k) with false by (symmetry; apply Nat.eqb_neq; lia).
      generalize (dd (fun i => x (S i)) (S n) k). intros d.
      pose proof (Hx 0%nat (S k) ltac:(lia)). pose proof (Hx (S k) (S (S n)) ltac:(lia)). field. split; lra. }
    rewrite (rsum_ext (S n) _ _ E), rsum_minus.
    assert ((x (S (S n)) - x 0%nat) * dd x (S (S (S n))) 0 = - dd x (S (S n)) 0) as E0.
    { change (dd x (S (S (S n))) 0) with (dd x (S (S n)) 0 * / (x 0%nat - x (S (S n)))).
      generalize (dd x (S (S n)) 0). intros d. field. lra. }
    rewrite E0.
    rewrite (dd_first x (S (S n)) (S n)). generalize (dd (fun i => x (S i)) (S (S n)) (S n)). intros d.
    field. lra.
Qed.

Section Moments.
Variables (g sig : R).
Hypothesis Hs : 0 < sig.
Let beta := (g - sig ^ 2 / 2) / sig ^ 2.
Definition my (k i : nat) : R := (beta + INR (k + i)) ^ 2.
Definition mS (k : nat) : R := INR k * g + INR k * (INR k - 1) / 2 * sig ^ 2.
(** E[A_t^m S_t^k] *)
Definition mM (m k : nat) (t : R) : R :=
  INR (fact m) * (2 / sig ^ 2) ^ m * rsum (S m) (fun j => dd (my k) (S m) j * exp (mS (k + j) * t)).
Lemma mS_eq k j : mS (k + j) - mS k = sig ^ 2 / 2 * (my k j - my k 0).
Proof using Hs. unfold mS, my, beta. rewrite Nat.add_0_r, plus_INR. field. lra. Qed.
Lemma mM_0 k t : mM 0 k t = exp (mS k * t).
Proof. unfold mM. cbn [rsum dd fact INR pow Nat.eqb]. rewrite Nat.add_0_r. ring. Qed.
Definition nores (k m : nat) : Prop := forall i j, (i < j <= m)%nat -> my k i <> my k j.
Lemma mM_init m k : nores k (S m) -> mM (S m) k 0 = 0.
Proof.
  intros H. unfold mM. rewrite (rsum_ext (S (S m)) _ (dd (my k) (S (S m)))).
  - rewrite dd_sum by exact H. ring.
  - intros j _. rewrite Rmult_0_r, exp_0. ring.
Qed.
Lemma mM_derive m k t : nores k (S m) -> is_derive (mM (S m) k) t (mS k * mM (S m) k t + INR (S m) * mM m (S k) t).
Proof.
  intros H. unfold mM.
  eapply is_derive_eq.
  - apply (is_derive_scal (fun t => rsum (S (S m)) (fun j => dd (my k) (S (S m)) j * exp (mS (k + j) * t)))).
    apply rsum_derive with (d := fun j => dd (my k) (S (S m)) j * (mS (k + j) * exp (mS (k + j) * t))).
    intros j _. generalize (dd (my k) (S (S m)) j) (mS (k + j)). intros d q. auto_derive; [trivial|]. Req. ring.
  - set (F := INR (fact (S m))). assert (F = INR (S m) * INR (fact m)) as EF by (unfold F; rewrite <- mult_INR; f_equal).
    set (c := 2 / sig ^ 2). assert (c * (sig ^ 2 / 2) = 1) as Ec by (unfold c; field; lra).
    Req. 
    transitivity (mS k * (F * c ^ S m * rsum (S (S m)) (fun j => dd (my k) (S (S m)) j * exp (mS (k + j) * t)))
       + F * c ^ S m * rsum (S (S m)) (fun j => dd (my k) (S (S m)) j * ((mS (k + j) - mS k) * exp (mS (k + j) * t)))).
    { rewrite (rsum_ext (S (S m)) (fun j => dd (my k) (S (S m)) j * ((mS (k + j) - mS k) * exp (mS (k + j) * t)))
        (fun j => dd (my k) (S (S m)) j * (mS (k + j) * exp (mS (k + j) * t)) - mS k * (dd (my k) (S (S m)) j * exp (mS (k + j) * t)))) by (intros; ring).
      rewrite rsum_minus, rsum_scal. ring. }
    f_equal. rewrite rsum_shift. rewrite Nat.add_0_r.
    rewrite (rsum_ext (S m) (fun j => dd (my k) (S (S m)) (S j) * ((mS (k + S j) - mS k) * exp (mS (k + S j) * t)))
       (fun j => sig ^ 2 / 2 * (dd (my (S k)) (S m) j * exp (mS (S k + j) * t)))).
    + rewrite rsum_scal. generalize (rsum (S m) (fun j => dd (my (S k)) (S m) j * exp (mS (S k + j) * t))). intros r.
      rewrite EF. change (c ^ S m) with (c * c ^ m).
      replace (INR (S m) * INR (fact m) * (c * c ^ m) * (dd (my k) (S (S m)) 0 * ((mS k - mS k) * exp (mS k * t)) + sig ^ 2 / 2 * r))
        with (INR (S m) * (INR (fact m) * c ^ m * r) * (c * (sig ^ 2 / 2))) by ring.
      rewrite Ec. ring.
    + intros j Hj. rewrite mS_eq, dd_first.
      replace (dd (fun i => my k (S i)) (S m) j) with (dd (my (S k)) (S m) j).
      2:{ apply dd_ext; [|lia]. intros i _. unfold my. do 3 f_equal. lia. }
      replace (S k + j)%nat with (k + S j)%nat by lia.
      pose proof (H 0%nat (S j) ltac:(lia)). field. lra.
Qed.
(** the model's routine is T^-n E[A_T^n] *)
Lemma fold_dd x n j : fold_right Rmult 1 (map (fun i => if Nat.eqb i j then 1 else / (x j - x i)) (seq 0 n)) = dd x n j.
Proof.
  assert (forall l : list R, fold_right Rmult 1 (rev l) = fold_right Rmult 1 l) as B.
  { induction l as [|a l IHl]; [reflexivity|]. simpl. rewrite <- IHl.
    generalize (rev l). intros m. induction m as [|b m IHm]; simpl; [ring|]. rewrite IHm. ring. }
  rewrite <- B. clear B. induction n as [|n IH]; [reflexivity|].
  rewrite seq_S, map_app, rev_app_distr. simpl. rewrite IH. ring.
Qed.
End Moments.

Lemma mnc_eq (m : opt) T n : 0 < sigma m -> 0 < T -> asian_mnc m T n = mM (intr m - divr m) (sigma m) n 0 T / T ^ n.
Proof.
  intros Hs HT. unfold asian_mnc, mM. set (s := sigma m) in *. set (g := intr m - divr m).
  replace (n + 1)%nat with (S n) by lia.
  rewrite (rsum_ext (S n) _ (fun j => 2 ^ n * (dd (my g s 0) (S n) j * exp (mS g s (0 + j) * T)))).
  - rewrite rsum_scal. generalize (rsum (S n) (fun j => dd (my g s 0) (S n) j * exp (mS g s (0 + j) * T))). intros r.
    rewrite pow_mult. unfold Rdiv. rewrite !Rpow_mult_distr, pow1, !pow_inv. ring.
  - intros j Hj. unfold mnc_d. replace (n + 1)%nat with (S n) by lia.
    assert ((g - s ^ 2 / 2) / s / s = (g - s ^ 2 / 2) / s ^ 2) as E by (field; lra).
    rewrite E.
    rewrite (fold_dd (fun i => ((g - s ^ 2 / 2) / s ^ 2 + INR i) ^ 2) (S n) j).
    rewrite (dd_ext _ (my g s 0) (S n) j) by (try lia; intros; reflexivity).
    rewrite Rmult_assoc. do 3 f_equal. f_equal.
    unfold mS. rewrite Nat.add_0_l. field. lra.
Qed.
