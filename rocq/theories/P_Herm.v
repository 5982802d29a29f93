(** Hermite expansion of the conditional mean function of sabr.py, and even-power jets. *)
From Coq Require Import Reals Lra Lia Arith List Psatz.
From Coquelicot Require Import Coquelicot.
From Verif Require Import Base Gauss Sums P_Asian5 M_Sabr P_Sabr.
Open Scope R_scope.

Fixpoint He (n : nat) (y : R) : R :=
  match n with O => 1 | S k => match k with O => y | S j => y * He k y - INR k * He j y end end.
(** the same with all signs positive: a bound of |He n| *)
Fixpoint Ha (n : nat) (y : R) : R :=
  match n with O => 1 | S k => match k with O => y | S j => y * Ha k y + INR k * Ha j y end end.
Lemma He_SS n y : He (S (S n)) y = y * He (S n) y - INR (S n) * He n y.
Proof. reflexivity. Qed.
Lemma Ha_SS n y : Ha (S (S n)) y = y * Ha (S n) y + INR (S n) * Ha n y.
Proof. reflexivity. Qed.
Lemma He_bound n y a : Rabs y <= a -> Rabs (He n y) <= Ha n a.
Proof.
  intros H. assert (G : Rabs (He n y) <= Ha n a /\ Rabs (He (S n) y) <= Ha (S n) a); [|apply G].
  induction n as [|n [IH1 IH2]].
  - split; [cbn; rewrite Rabs_R1; lra|exact H].
  - split; [exact IH2|]. rewrite He_SS, Ha_SS. eapply Rle_trans; [apply Rabs_triang|]. rewrite Rabs_Ropp, !Rabs_mult.
    apply Rplus_le_compat.
    + apply Rmult_le_compat; try apply Rabs_pos; assumption.
    + rewrite (Rabs_pos_eq (INR (S n))) by apply pos_INR. apply Rmult_le_compat_l; [apply pos_INR|exact IH1].
Qed.
Lemma He_derive n y : is_derive (He (S n)) y (INR (S n) * He n y).
Proof.
  assert (G : is_derive (He (S n)) y (INR (S n) * He n y) /\ is_derive (He (S (S n))) y (INR (S (S n)) * He (S n) y)); [|apply G].
  induction n as [|n [IH1 IH2]].
  - split.
    + change (is_derive (fun y : R => y) y (1 * 1)). auto_derive; [exact I|Req; ring].
    + change (is_derive (fun y : R => y * y - INR 1 * 1) y (INR 2 * y)). auto_derive; [exact I|]. Req. simpl INR. ring.
  - split; [exact IH2|].
    apply (is_derive_ext (fun y => y * He (S (S n)) y - INR (S (S n)) * He (S n) y)); [intros; reflexivity|].
    assert (E1 : ex_derive (He (S (S n))) y) by (eexists; exact IH2). assert (E2 : ex_derive (He (S n)) y) by (eexists; exact IH1).
    pose proof (is_derive_unique _ _ _ IH2) as D2. pose proof (is_derive_unique _ _ _ IH1) as D1.

    set (f2 := He (S (S n))) in *. set (f1 := He (S n)) in *. assert (F2 : f2 y = y * f1 y - INR (S n) * He n y) by reflexivity.
    clearbody f2 f1. auto_derive; [split; [exact E1|split; [exact E2|exact I]]|].
    change (Derive (fun x => f2 x) y) with (Derive f2 y). change (Derive (fun x => f1 x) y) with (Derive f1 y).
    rewrite D1, D2. rewrite F2, !S_INR. Req. destruct n; cbn -[He INR]; try ring. simpl INR. ring.
Qed.
Lemma Hen_derive n y : is_derive (fun y => He n y * npdf y) y (- He (S n) y * npdf y).
Proof.
  destruct n as [|n].
  - apply (is_derive_ext npdf); [intros; cbn; Req; ring|]. eapply is_derive_eq; [apply is_derive_npdf|]. cbn. ring.
  - eapply is_derive_eq; [apply (is_derive_mult_R (He (S n)) npdf); [apply He_derive|apply is_derive_npdf]|].
    cbv beta. rewrite He_SS. ring.
Qed.

(** towers of derivatives *)
Lemma tower (f : nat -> R -> R) : (forall k v, is_derive (f k) v (f (S k) v)) ->
  forall k v, Derive_n (f 0%nat) k v = f k v /\ ex_derive_n (f 0%nat) k v.
Proof.
  intros H. assert (E : forall k v, Derive_n (f 0%nat) k v = f k v).
  { induction k as [|k IH]; intros v; [reflexivity|]. cbn [Derive_n]. rewrite (Derive_ext _ (f k)) by exact IH.
    apply is_derive_unique, H. }
  intros k v. split; [apply E|]. destruct k; [exact I|]. cbn [ex_derive_n].
  apply (ex_derive_ext (f k)); [intros; symmetry; apply E|]. eexists. apply H.
Qed.
Section T.
Variable z : R.
Definition ft (k : nat) (v : R) : R :=
  match k with O => Phi (z + v) - Phi (z - v) | S j => (-1) ^ j * (He j (z + v) * npdf (z + v)) + He j (z - v) * npdf (z - v) end.
Lemma ft_derive k v : is_derive (ft k) v (ft (S k) v).
Proof.
  assert (Dp : is_derive (fun v : R => z + v) v 1) by (auto_derive; [exact I|Req; ring]).
  assert (Dm : is_derive (fun v : R => z - v) v (-1)) by (auto_derive; [exact I|Req; ring]).
  destruct k as [|j]; cbn [ft].
  - eapply is_derive_eq; [apply is_derive_minus_R; [apply (is_derive_comp Phi (fun v => z + v) v); [apply is_derive_Phi|exact Dp]|
      apply (is_derive_comp Phi (fun v => z - v) v); [apply is_derive_Phi|exact Dm]]|].
    unfold scal; cbn. unfold mult; cbn. ring.
  - eapply is_derive_eq; [apply (is_derive_plus (fun v => (-1) ^ j * (He j (z + v) * npdf (z + v))) (fun v => He j (z - v) * npdf (z - v)));
      [apply is_derive_scal_R, (is_derive_comp (fun y => He j y * npdf y) (fun v => z + v) v); [apply Hen_derive|exact Dp]|
       apply (is_derive_comp (fun y => He j y * npdf y) (fun v => z - v) v); [apply Hen_derive|exact Dm]]|].
    unfold plus, scal; cbn [AbelianGroup.plus ModuleSpace.scal]. cbn -[He pow]. unfold mult; cbn -[He pow]. cbn [pow]. ring.
Qed.
Lemma ft_0 j : ft (S j) 0 = (1 + (-1) ^ j) * (He j z * npdf z).
Proof. cbn [ft]. rewrite Rplus_0_r, Rminus_0_r. ring. Qed.
Lemma m1_even n : (-1) ^ (2 * n) = 1.
Proof. rewrite pow_mult. replace ((-1) ^ 2) with 1 by ring. apply pow1. Qed.
Definition hsum (n : nat) (v : R) : R := rsum n (fun i => He (2 * i) z * v ^ (2 * i) / INR (fact (2 * i + 1))).
Lemma taylor_sum n v : sum_f_R0 (fun m => (v - 0) ^ m / INR (fact m) * ft m 0) (2 * n) = 2 * v * npdf z * hsum n v.
Proof.
  induction n as [|n IH].
  - cbn -[ft]. unfold hsum. cbn [rsum]. cbn [ft]. rewrite Rplus_0_r, Rminus_0_r. field.
  - replace (2 * S n)%nat with (S (S (2 * n))) by lia. rewrite !tech5, IH. unfold hsum. cbn [rsum].
    rewrite ft_0, m1_even. rewrite (ft_0 (S (2 * n))). cbn [pow]. rewrite m1_even.
    replace (S (2 * n)) with (2 * n + 1)%nat by lia. rewrite Rminus_0_r.
    replace (v ^ (2 * n + 1)) with (v ^ (2 * n) * v) by (rewrite pow_add; ring).
    field. split; apply INR_fact_neq_0.
Qed.
Lemma phi_taylor n v : 0 < v -> exists xi, 0 < xi < v /\
  Phi (z + v) - Phi (z - v) = 2 * v * npdf z * hsum n v + v ^ (2 * n + 1) / INR (fact (2 * n + 1)) * ft (2 * n + 1) xi.
Proof.
  intros Hv. pose proof (tower ft ft_derive) as Ht.
  destruct (Taylor_Lagrange (ft 0%nat) (2 * n) 0 v Hv) as (xi & Hxi & E).
  { intros t _ k _. apply Ht. }
  exists xi. split; [exact Hxi|]. rewrite (proj1 (Ht _ _)) in E. rewrite <- taylor_sum.
  change (Phi (z + v) - Phi (z - v)) with (ft 0%nat v). rewrite E. replace (S (2 * n)) with (2 * n + 1)%nat by lia.
  rewrite Rminus_0_r. f_equal. apply sum_eq. intros i _. rewrite ?Rminus_0_r. rewrite (proj1 (Ht _ _)). reflexivity.
Qed.
Lemma npdf_shift_le h d : Rabs h <= d -> npdf (z + h) <= npdf z * exp (Rabs z * d).
Proof.
  intros Hh. unfold npdf. pose proof sqrt_2PI_pos as Hs.
  replace (exp (- (z * z) / 2) / sqrt (2 * PI) * exp (Rabs z * d)) with (exp (- (z * z) / 2 + Rabs z * d) / sqrt (2 * PI)) by (rewrite exp_plus; field; lra).
  apply Rmult_le_compat_r; [left; apply Rinv_0_lt_compat, Hs|]. apply exp_le.
  pose proof (Rabs_mult z h) as E. pose proof (Rle_abs (- (z * h))) as H1. rewrite Rabs_Ropp, E in H1.
  pose proof (Rmult_le_compat_l (Rabs z) (Rabs h) d (Rabs_pos z) Hh). nra.
Qed.
(** the expansion with n terms, and its error *)
Lemma mfn_taylor n v d : 0 < v <= d ->
  Rabs (mfn_exact z v - hsum n v * exp (v ^ 2 / 2))
  <= v ^ (2 * n) / INR (fact (2 * n + 1)) * Ha (2 * n) (Rabs z + d) * exp (Rabs z * d) * exp (v ^ 2 / 2).
Proof.
  intros Hv. destruct (phi_taylor n v (proj1 Hv)) as (xi & Hxi & E).
  assert (Hn : 0 < npdf z) by apply npdf_pos.
  assert (EM : mfn_exact z v = (Phi (z + v) - Phi (z - v)) * exp (v ^ 2 / 2) / (2 * v * npdf z)).
  { apply (Rmult_eq_reg_l (npdf z)); [|lra]. rewrite npdf_mfn.
    replace (v - z) with (- (z - v)) by ring. replace (- v - z) with (- (z + v)) by ring. rewrite !Phi_opp. field. lra. }
  rewrite EM, E.
  replace ((2 * v * npdf z * hsum n v + v ^ (2 * n + 1) / INR (fact (2 * n + 1)) * ft (2 * n + 1) xi) * exp (v ^ 2 / 2) / (2 * v * npdf z) - hsum n v * exp (v ^ 2 / 2))
    with (v ^ (2 * n) / INR (fact (2 * n + 1)) * (ft (2 * n + 1) xi / (2 * npdf z)) * exp (v ^ 2 / 2)).
  2:{ rewrite pow_add. field. pose proof (INR_fact_neq_0 (2 * n + 1)). repeat split; first [assumption|lra]. }
  rewrite !Rabs_mult. rewrite (Rabs_pos_eq (exp _)) by (left; apply exp_pos).
  apply Rmult_le_compat_r; [left; apply exp_pos|].
  assert (Hc : 0 <= v ^ (2 * n) / INR (fact (2 * n + 1))).
  { apply Rmult_le_pos; [apply pow_le; lra|]. left. apply Rinv_0_lt_compat, INR_fact_lt_0. }
  rewrite (Rabs_pos_eq (v ^ (2 * n) / _)) by exact Hc. rewrite (Rmult_assoc (v ^ (2 * n) / _)). apply Rmult_le_compat_l; [exact Hc|].
  unfold Rdiv. rewrite Rabs_mult. rewrite (Rabs_pos_eq (/ (2 * npdf z))) by (left; apply Rinv_0_lt_compat; lra).
  replace (2 * n + 1)%nat with (S (2 * n)) by lia. cbn [ft]. rewrite m1_even, Rmult_1_l.
  assert (Hb : forall h, Rabs h <= d -> Rabs (He (2 * n) (z + h) * npdf (z + h)) <= Ha (2 * n) (Rabs z + d) * (npdf z * exp (Rabs z * d))).
  { intros h Hh. rewrite Rabs_mult. apply Rmult_le_compat; try apply Rabs_pos.
    - apply He_bound. eapply Rle_trans; [apply Rabs_triang|]. lra.
    - rewrite Rabs_pos_eq by (left; apply npdf_pos). apply npdf_shift_le, Hh. }
  apply (Rmult_le_reg_r (2 * npdf z)); [lra|]. rewrite Rmult_assoc, Rinv_l, Rmult_1_r by lra.
  eapply Rle_trans; [apply Rabs_triang|]. replace (z - xi) with (z + - xi) by ring.
  pose proof (Hb xi ltac:(rewrite Rabs_pos_eq; lra)). pose proof (Hb (- xi) ltac:(rewrite Rabs_Ropp, Rabs_pos_eq; lra)). lra.
Qed.
End T.
