(** Proofs about the finite-difference engine: tridiagonal solver and interpolation (model in M_Fd.v). *)
From Coq Require Import Reals Lra Psatz List Arith Lia.
From Verif Require Import Spec_Fd M_Opt M_Mgf M_Fd.
Open Scope R_scope.

Section Thomas.
Variables (n : nat) (sub mid sup rhs : nat -> R).
Notation cp := (th_cp sub mid sup).
Notation dp := (th_dp sub mid sup rhs).
Notation den := (th_den sub mid sup).

Lemma th_cp_den i : cp i = sup i / den i.
Proof. destruct i; reflexivity. Qed.
Lemma th_den_S k : den (S k) = mid (S k) - sub (S k) * cp k.
Proof. reflexivity. Qed.
Lemma th_dp_den k : dp (S k) = (rhs (S k) - sub (S k) * dp k) / den (S k).
Proof. reflexivity. Qed.

Lemma thomas_last : (0 < n)%nat -> thomas n sub mid sup rhs (n - 1) = dp (n - 1)%nat.
Proof. intros H. unfold thomas. replace (n - 1 - (n - 1))%nat with 0%nat by lia. reflexivity. Qed.
Lemma thomas_prev i : (i + 1 < n)%nat ->
  thomas n sub mid sup rhs i = dp i - cp i * thomas n sub mid sup rhs (i + 1).
Proof.
  intros H. unfold thomas. replace (n - 1 - i)%nat with (S (n - 1 - (i + 1))) by lia.
  cbn [th_back]. replace (n - 1 - S (n - 1 - (i + 1)))%nat with i by lia. reflexivity.
Qed.

Lemma thomas_solves : (forall i, (i < n)%nat -> den i <> 0) ->
  tridiag n sub mid sup rhs (thomas n sub mid sup rhs).
Proof.
  intros Hd i Hi. set (x := thomas n sub mid sup rhs) in *.
  assert (Hrow : (if Nat.eqb i 0 then 0 else sub i * x (i - 1)%nat) + mid i * x i
                 = den i * x i + (rhs i - den i * dp i)).
  { destruct i as [|k].
    - cbn [Nat.eqb]. cbn [th_den th_dp]. field. exact (Hd 0%nat Hi).
    - cbn [Nat.eqb]. replace (S k - 1)%nat with k by lia.
      assert (Ex : x k = dp k - cp k * x (S k)).
      { unfold x. rewrite (thomas_prev k) by lia. replace (k + 1)%nat with (S k) by lia. reflexivity. }
      rewrite Ex, th_dp_den, th_den_S. field. exact (Hd (S k) Hi). }
  rewrite Hrow.
  destruct (Nat.eqb_spec i (n - 1)) as [E|E].
  - assert (Ex : x i = dp i) by (unfold x; rewrite E; apply thomas_last; lia). rewrite Ex. ring.
  - assert (Ex : x i = dp i - cp i * x (i + 1)%nat) by (apply thomas_prev; lia).
    rewrite Ex, th_cp_den. field. exact (Hd i Hi).
Qed.

Lemma tridiag_forward x : (forall i, (i < n)%nat -> den i <> 0) -> tridiag n sub mid sup rhs x ->
  forall i, (i < n)%nat -> x i = dp i - (if Nat.eqb i (n - 1) then 0 else cp i * x (i + 1)%nat).
Proof.
  intros Hd Hx. induction i as [|k IH]; intros Hi.
  - specialize (Hx 0%nat Hi). change (Nat.eqb 0 0) with true in Hx; cbv iota in Hx. pose proof (Hd 0%nat Hi) as H0. cbn [th_den] in H0.
    apply (Rmult_eq_reg_l (mid 0%nat)); [|exact H0].
    cbn [th_dp]. rewrite th_cp_den. cbn [th_den].
    revert Hx. destruct (Nat.eqb 0 (n - 1)); intros Hx.
    + rewrite Rminus_0_r. unfold Rdiv. rewrite <- Rmult_assoc, Rinv_r_simpl_m by exact H0. lra.
    + transitivity (rhs 0%nat - sup 0%nat * x (0 + 1)%nat); [lra|]. field. exact H0.
  - pose proof (Hx (S k) Hi) as Hr. change (Nat.eqb (S k) 0) with false in Hr; cbv iota in Hr. replace (S k - 1)%nat with k in Hr by lia.
    specialize (IH ltac:(lia)). destruct (Nat.eqb_spec k (n - 1)) as [E|_]; [lia|].
    replace (k + 1)%nat with (S k) in IH by lia. rewrite IH in Hr.
    pose proof (Hd (S k) Hi) as H0. apply (Rmult_eq_reg_l (den (S k))); [|exact H0].
    rewrite th_dp_den, (th_cp_den (S k)).
    revert Hr. destruct (Nat.eqb (S k) (n - 1)); intros Hr.
    + transitivity (rhs (S k) - sub (S k) * dp k); [rewrite th_den_S; lra|]. field. exact H0.
    + transitivity (rhs (S k) - sub (S k) * dp k - sup (S k) * x (S k + 1)%nat); [rewrite th_den_S; lra|].
      field. exact H0.
Qed.

Lemma thomas_unique x : (forall i, (i < n)%nat -> den i <> 0) -> tridiag n sub mid sup rhs x ->
  forall i, (i < n)%nat -> x i = thomas n sub mid sup rhs i.
Proof.
  intros Hd Hx.
  assert (H : forall k i, (i + k = n - 1)%nat -> (i < n)%nat -> x i = thomas n sub mid sup rhs i).
  { induction k as [|k IH]; intros i E Hi.
    - rewrite (tridiag_forward x Hd Hx i Hi). replace i with (n - 1)%nat by lia.
      rewrite Nat.eqb_refl, thomas_last by lia. ring.
    - rewrite (tridiag_forward x Hd Hx i Hi). destruct (Nat.eqb_spec i (n - 1)) as [E'|_]; [lia|].
      rewrite (thomas_prev i) by lia. rewrite (IH (i + 1)%nat) by lia. reflexivity. }
  intros i Hi. apply (H (n - 1 - i)%nat); lia.
Qed.

(** strict diagonal dominance: every number divided by is non-zero *)
Lemma th_dominant : (0 < n)%nat ->
  (forall i, (i < n)%nat ->
     (if Nat.eqb i 0 then 0 else Rabs (sub i)) + (if Nat.eqb i (n - 1) then 0 else Rabs (sup i)) < Rabs (mid i)) ->
  forall i, (i < n)%nat -> den i <> 0 /\ (i <> (n - 1)%nat -> Rabs (cp i) < 1).
Proof.
  intros Hn Hdom. induction i as [|k IH]; intros Hi.
  - specialize (Hdom 0%nat Hi). change (Nat.eqb 0 0) with true in Hdom; cbv iota in Hdom.
    assert (H0 : mid 0%nat <> 0).
    { intros E. rewrite E, Rabs_R0 in Hdom. destruct (Nat.eqb 0 (n - 1)); [lra|]. pose proof (Rabs_pos (sup 0%nat)); lra. }
    split; [exact H0|]. intros Hne. destruct (Nat.eqb_spec 0 (n - 1)) as [E|_]; [lia|].
    cbn [th_cp]. unfold Rdiv. rewrite Rabs_mult, Rabs_inv.
    pose proof (Rabs_pos_lt _ H0). apply (Rmult_lt_reg_r (Rabs (mid 0%nat))); [assumption|].
    rewrite Rmult_assoc, Rinv_l by lra. lra.
  - destruct (IH ltac:(lia)) as [Hk Hc]. specialize (Hc ltac:(lia)).
    specialize (Hdom (S k) Hi). change (Nat.eqb (S k) 0) with false in Hdom; cbv iota in Hdom.
    assert (Hden : (if Nat.eqb (S k) (n - 1) then 0 else Rabs (sup (S k))) < Rabs (den (S k))).
    { rewrite th_den_S. pose proof (Rabs_triang_inv (mid (S k)) (sub (S k) * cp k)) as Ht.
      rewrite Rabs_mult in Ht. pose proof (Rabs_pos (sub (S k))). pose proof (Rabs_pos (cp k)).
      assert (Rabs (sub (S k)) * Rabs (cp k) <= Rabs (sub (S k))) by nra. lra. }
    assert (H0 : den (S k) <> 0).
    { intros E. rewrite E, Rabs_R0 in Hden. destruct (Nat.eqb (S k) (n - 1)); [lra|]. pose proof (Rabs_pos (sup (S k))); lra. }
    split; [exact H0|]. intros Hne. destruct (Nat.eqb_spec (S k) (n - 1)) as [E|_]; [lia|].
    rewrite th_cp_den. unfold Rdiv. rewrite Rabs_mult, Rabs_inv.
    pose proof (Rabs_pos_lt _ H0). apply (Rmult_lt_reg_r (Rabs (den (S k)))); [assumption|].
    rewrite Rmult_assoc, Rinv_l by lra. lra.
Qed.
End Thomas.

(** ** The sweeps' matrices *)
Definition pivots_ok (n : nat) (sub mid sup : nat -> R) : Prop := forall i, (i < n)%nat -> th_den sub mid sup i <> 0.

(** no drift: unconditionally dominant *)
Lemma tri_pivots n adt a b : (0 < n)%nat -> 0 <= adt ->
  (forall k, (k < n)%nat -> 0 <= a (S k) /\ 2 * adt * (Rabs (b (S k)) - a (S k)) < 1) ->
  pivots_ok n (tri_sub adt a b) (tri_mid adt a) (tri_sup adt a b).
Proof.
  intros Hn Ha H i Hi.
  refine (proj1 (th_dominant n (tri_sub adt a b) (tri_mid adt a) (tri_sup adt a b) Hn _ i Hi)).
  intros k Hk. destruct (H k Hk) as [H1 H2]. unfold tri_sub, tri_mid, tri_sup.
  rewrite (Rabs_pos_eq (1 + adt * 2 * a (S k))) by nra.
  set (A := a (S k)) in *. set (B := b (S k)) in *.
  replace (- adt * (A - B)) with (adt * (B - A)) by ring.
  rewrite !Rabs_mult, Rabs_Ropp, (Rabs_pos_eq adt Ha).
  assert (Hs : adt * Rabs (B - A) + adt * Rabs (A + B) < 1 + adt * 2 * A).
  { destruct (Rle_dec (Rabs B) A) as [Hle|Hgt].
    - assert (- A <= B <= A) by (unfold Rabs in Hle; destruct (Rcase_abs B); lra).
      rewrite (Rabs_left1 (B - A)), (Rabs_pos_eq (A + B)) by lra. nra.
    - unfold Rabs in Hgt, H2. destruct (Rcase_abs B).
      + rewrite (Rabs_left1 (B - A)), (Rabs_left1 (A + B)) by lra. nra.
      + rewrite (Rabs_pos_eq (B - A)), (Rabs_pos_eq (A + B)) by lra. nra. }
  pose proof (Rabs_pos (B - A)). pose proof (Rabs_pos (A + B)).
  pose proof (Rmult_le_pos _ _ Ha H0). pose proof (Rmult_le_pos _ _ Ha H3).
  destruct (Nat.eqb k 0), (Nat.eqb k (n - 1)); lra.
Qed.

Lemma v_pivots L adt c d : (2 <= L)%nat -> 0 <= adt ->
  (forall j, (1 <= j < L)%nat -> 0 <= c j /\ 2 * adt * (Rabs (d j) - c j) < 1) ->
  pivots_ok (L - 1) (tri_sub adt c d) (v_mid L adt c d) (tri_sup adt c d).
Proof.
  intros HL Ha H i Hi.
  refine (proj1 (th_dominant (L - 1) (tri_sub adt c d) (v_mid L adt c d) (tri_sup adt c d) ltac:(lia) _ i Hi)).
  intros k Hk. destruct (H (S k) ltac:(lia)) as [H1 H2]. unfold v_mid.
  replace (L - 1 - 1)%nat with (L - 2)%nat by lia.
  unfold tri_sub, tri_mid, tri_sup.
  set (A := c (S k)) in *. set (B := d (S k)) in *.
  destruct (Nat.eqb k (L - 2)).
  - replace (1 + adt * 2 * A + - adt * (A + B)) with (1 + adt * (A - B)) by ring.
    replace (- adt * (A - B)) with (- (adt * (A - B))) by ring. rewrite Rabs_Ropp.
    assert (Hp : - / 2 < adt * (A - B)).
    { pose proof (Rle_abs B). nra. }
    rewrite (Rabs_pos_eq (1 + adt * (A - B))) by lra.
    assert (Rabs (adt * (A - B)) < 1 + adt * (A - B)) by (apply Rabs_def1; lra).
    destruct (Nat.eqb k 0); lra.
  - rewrite (Rabs_pos_eq (1 + adt * 2 * A)) by nra.
    replace (- adt * (A - B)) with (adt * (B - A)) by ring.
    rewrite !Rabs_mult, Rabs_Ropp, (Rabs_pos_eq adt Ha).
    assert (Hs : adt * Rabs (B - A) + adt * Rabs (A + B) < 1 + adt * 2 * A).
    { destruct (Rle_dec (Rabs B) A) as [Hle|Hgt].
      - assert (- A <= B <= A) by (unfold Rabs in Hle; destruct (Rcase_abs B); lra).
        rewrite (Rabs_left1 (B - A)), (Rabs_pos_eq (A + B)) by lra. nra.
      - unfold Rabs in Hgt, H2. destruct (Rcase_abs B).
        + rewrite (Rabs_left1 (B - A)), (Rabs_left1 (A + B)) by lra. nra.
        + rewrite (Rabs_pos_eq (B - A)), (Rabs_pos_eq (A + B)) by lra. nra. }
    pose proof (Rabs_pos (B - A)) as P1. pose proof (Rabs_pos (A + B)) as P2.
    pose proof (Rmult_le_pos _ _ Ha P1). pose proof (Rmult_le_pos _ _ Ha P2).
    destruct (Nat.eqb k 0); lra.
Qed.
