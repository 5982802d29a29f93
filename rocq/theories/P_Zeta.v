(** Even zeta values from the Fejer lemma: sums of 1/(n pi)^4, ^6, ^8. *)
From Coq Require Import Reals Lra Lia Arith.
From Coquelicot Require Import Coquelicot.
From Verif Require Import Base Sums M_Ou P_Kl P_Fejer P_KlSum.
Open Scope R_scope.

Section Poly.
Variable d : nat -> R -> R.
Hypothesis Hd : forall k s, is_derive (d k) s (d (S k) s).
Hypothesis H9 : forall s, d 9 s = 0.
Hypothesis E1 : d 1 1 = 0 /\ d 3 1 = 0 /\ d 5 1 = 0 /\ d 7 1 = 0.
Variables (c0 b1 b3 b5 b7 : R).
Hypothesis E0 : d 1 0 = b1 /\ d 3 0 = b3 /\ d 5 0 = b5 /\ d 7 0 = b7.
Hypothesis HI0 : is_RInt (d 0) 0 1 c0.
Let cw (w : R) : R := - b1 / w ^ 2 + b3 / w ^ 4 - b5 / w ^ 6 + b7 / w ^ 8.
Hypothesis Hp : forall n, 0 <= cw (npi (S n)).
Lemma poly_series : is_series (fun i => 2 * cw (npi (S i))) (d 0 0 - c0).
Proof.
  pose proof Hd as Hd'. pose proof H9 as H9'. pose proof E1 as E1'. pose proof E0 as E0'. pose proof HI0 as HI0'. pose proof Hp as Hp'.
  apply (series_ext' (fun i => 2 * (if Nat.eqb (S i) 0 then c0 else cw (npi (S i))))). { intros i. reflexivity. }
  apply (fejer_C1 (d 0) (d 1) (fun n => if Nat.eqb n 0 then c0 else cw (npi n))).
  - intros s. apply Hd.
  - intros s. exists (d 2 s). apply Hd.
  - intros [|n]; cbn [Nat.eqb].
    + eapply is_RInt_ext; [|exact HI0]. intros s _. unfold npi. simpl. Req. rewrite !Rmult_0_l, cos_0. ring.
    + pose proof (npi_pos (S n) ltac:(lia)) as Hw. destruct (npi_cs (S n)) as [_ SS]. set (w := npi (S n)) in *.
      apply (RI01 (fun s => d 0 s * sin (w * s) / w + d 1 s * cos (w * s) / w ^ 2 - d 2 s * sin (w * s) / w ^ 3 - d 3 s * cos (w * s) / w ^ 4
        + d 4 s * sin (w * s) / w ^ 5 + d 5 s * cos (w * s) / w ^ 6 - d 6 s * sin (w * s) / w ^ 7 - d 7 s * cos (w * s) / w ^ 8 + d 8 s * sin (w * s) / w ^ 9)).
      * intros s. auto_derive. { repeat (apply conj); try exact I; eexists; apply Hd. }
        rewrite !(fun k => is_derive_unique (fun x => d k x) s _ (Hd k s)). rewrite H9. Req. field. lra.
      * intros s. auto_derive. repeat (apply conj); try exact I. eexists; apply Hd.
      * rewrite Rmult_1_r, Rmult_0_r, sin_0, cos_0, SS. destruct E1 as (A1 & A3 & A5 & A7). destruct E0 as (B1 & B3 & B5 & B7).
        rewrite A1, A3, A5, A7, B1, B3, B5, B7. unfold cw. field. lra.
  - intros n. cbn [Nat.eqb]. apply Hp.
  - reflexivity.
Qed.
End Poly.
(* derivatives of a u^8 + b u^6 + c u^4 + e u^2, u = 1 - s *)
Definition pd (a b c e : R) (k : nat) (s : R) : R :=
  let u := 1 - s in
  match k with
  | 0 => a * u ^ 8 + b * u ^ 6 + c * u ^ 4 + e * u ^ 2
  | 1 => - (8 * a * u ^ 7 + 6 * b * u ^ 5 + 4 * c * u ^ 3 + 2 * e * u)
  | 2 => 56 * a * u ^ 6 + 30 * b * u ^ 4 + 12 * c * u ^ 2 + 2 * e
  | 3 => - (336 * a * u ^ 5 + 120 * b * u ^ 3 + 24 * c * u)
  | 4 => 1680 * a * u ^ 4 + 360 * b * u ^ 2 + 24 * c
  | 5 => - (6720 * a * u ^ 3 + 720 * b * u)
  | 6 => 20160 * a * u ^ 2 + 720 * b
  | 7 => - (40320 * a * u)
  | 8 => 40320 * a
  | _ => 0
  end.
Lemma pd_derive a b c e k s : is_derive (pd a b c e k) s (pd a b c e (S k) s).
Proof. do 9 (destruct k as [|k]; [unfold pd; auto_derive; [auto|]; Req; ring|]). unfold pd. apply is_derive_const_R. Qed.
Lemma pd_int a b c e : is_RInt (pd a b c e 0) 0 1 (a / 9 + b / 7 + c / 5 + e / 3).
Proof.
  apply (RI01 (fun s => - (a * (1 - s) ^ 9 / 9 + b * (1 - s) ^ 7 / 7 + c * (1 - s) ^ 5 / 5 + e * (1 - s) ^ 3 / 3))).
  - intros s. unfold pd. auto_derive; [auto|]. Req. field.
  - intros s. exists (pd a b c e 1 s). apply pd_derive.
  - field.
Qed.
Lemma pd_series (a b c e : R) :
  let cw w := (8 * a + 6 * b + 4 * c + 2 * e) / w ^ 2 - (336 * a + 120 * b + 24 * c) / w ^ 4 + (6720 * a + 720 * b) / w ^ 6 - 40320 * a / w ^ 8 in
  (forall n, 0 <= cw (npi (S n))) ->
  is_series (fun i => 2 * cw (npi (S i))) (a + b + c + e - (a / 9 + b / 7 + c / 5 + e / 3)).
Proof.
  intros cw Hp.
  assert (EQ : forall n, cw (npi (S n)) = - - (8 * a + 6 * b + 4 * c + 2 * e) / npi (S n) ^ 2 + - (336 * a + 120 * b + 24 * c) / npi (S n) ^ 4
     - - (6720 * a + 720 * b) / npi (S n) ^ 6 + - (40320 * a) / npi (S n) ^ 8).
  { intros n. unfold cw. field. apply Rgt_not_eq, npi_pos. lia. }
  replace (a + b + c + e - (a / 9 + b / 7 + c / 5 + e / 3)) with (pd a b c e 0 0 - (a / 9 + b / 7 + c / 5 + e / 3)) by (unfold pd; field).
  eapply series_ext; [apply (poly_series (pd a b c e) (pd_derive a b c e)) with (c0 := a / 9 + b / 7 + c / 5 + e / 3)
    (b1 := - (8 * a + 6 * b + 4 * c + 2 * e)) (b3 := - (336 * a + 120 * b + 24 * c)) (b5 := - (6720 * a + 720 * b)) (b7 := - (40320 * a))|].
  - reflexivity.
  - unfold pd. repeat split; ring.
  - unfold pd. repeat split; ring.
  - apply pd_int.
  - intros n. rewrite <- EQ. apply Hp.
  - intros n. cbv beta. rewrite <- EQ. reflexivity.
Qed.
Lemma zeta2 : is_series (fun i => / npi (S i) ^ 2) (1 / 6).
Proof.
  apply (series_ext' (fun i => / 2 * (2 / npi (S i) ^ 2))). { intros i. field. apply Rgt_not_eq, npi_pos. lia. }
  replace (1 / 6) with (/ 2 * (1 / 3)) by field. apply series_scal. apply series_basel.
Qed.
Lemma npw_nonneg n k : 0 < / npi (S n) ^ k.
Proof. apply Rinv_0_lt_compat, pow_lt, npi_pos. lia. Qed.
Lemma zeta4 : is_series (fun i => / npi (S i) ^ 4) (1 / 90).
Proof.
  replace (1 / 90) with (/ 48 * (0 + 0 + - (1) + 2 - (0 / 9 + 0 / 7 + - (1) / 5 + 2 / 3))) by field.
  eapply series_ext; [apply series_scal, (pd_series 0 0 (- (1)) 2)|].
  - intros n. pose proof (npw_nonneg n 4) as P. unfold Rdiv. nra.
  - intros n. cbv beta. field. apply Rgt_not_eq, npi_pos. lia.
Qed.
Lemma zeta6 : is_series (fun i => / npi (S i) ^ 6) (1 / 945).
Proof.
  replace (1 / 945) with (/ 1440 * (0 + 1 + - (5) + 7 - (0 / 9 + 1 / 7 + - (5) / 5 + 7 / 3))) by field.
  eapply series_ext; [apply series_scal, (pd_series 0 1 (- (5)) 7)|].
  - intros n. pose proof (npw_nonneg n 6) as P. unfold Rdiv. nra.
  - intros n. cbv beta. field. apply Rgt_not_eq, npi_pos. lia.
Qed.
Lemma zeta8 : is_series (fun i => / npi (S i) ^ 8) (1 / 9450).
Proof.
  replace (1 / 9450) with (/ 80640 * (- (1) + 28 / 3 + - (98 / 3) + 124 / 3 - (- (1) / 9 + 28 / 3 / 7 + - (98 / 3) / 5 + 124 / 3 / 3))) by field.
  eapply series_ext; [apply series_scal, (pd_series (- (1)) (28 / 3) (- (98 / 3)) (124 / 3))|].
  - intros n. pose proof (npw_nonneg n 8) as P. unfold Rdiv.
    replace (8 * - (1) + 6 * (28 * / 3) + 4 * - (98 * / 3) + 2 * (124 * / 3)) with 0 by field.
    replace (336 * - (1) + 120 * (28 * / 3) + 24 * - (98 * / 3)) with 0 by field. replace (6720 * - (1) + 720 * (28 * / 3)) with 0 by field. nra.
  - intros n. cbv beta. field. apply Rgt_not_eq, npi_pos. lia.
Qed.
