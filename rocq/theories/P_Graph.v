(** Sums over the assets of products of covariances (generated by a script; every proof is a permutation of the summation indices). *)
From Coq Require Import Reals Lra Lia Arith List Psatz.
From Verif Require Import Base Sums.
Open Scope R_scope.

Section Graph.
Variables (n : nat) (f : nat -> R) (c : nat -> nat -> R).
Hypothesis csym : forall i j, (i < n)%nat -> (j < n)%nat -> c i j = c j i.
Definition L4 (g : nat -> nat -> nat -> nat -> R) : R :=
  rsum n (fun i => f i * rsum n (fun j => f j * rsum n (fun k => f k * rsum n (fun l => f l * g i j k l)))).
Definition gm : R := rsum n f.
Definition gav (j : nat) : R := rsum n (fun i => f i * c i j).
Definition gA : R := rsum n (fun j => gav j * f j).
Definition gB : R := rsum n (fun j => rsum n (fun i => f i * c i j ^ 2) * f j).
Definition gC : R := rsum n (fun j => rsum n (fun i => f i * c i j ^ 3) * f j).
Definition gD : R := rsum n (fun j => f j * gav j ^ 2).
Definition gE : R := rsum n (fun j => f j * gav j ^ 3).
Definition gG : R := rsum n (fun j => rsum n (fun i => gav i * f i * c i j) * (gav j * f j)).
Definition gH : R := rsum n (fun j => rsum n (fun i => f i * c i j ^ 2) * (gav j * f j)).
Definition gI : R := rsum n (fun i => rsum n (fun j => rsum n (fun k => f i * f j * f k * (c i j * c j k * c k i)))).
Lemma L4_ext g h : (forall i j k l, (i < n)%nat -> (j < n)%nat -> (k < n)%nat -> (l < n)%nat -> g i j k l = h i j k l) -> L4 g = L4 h.
Proof using. intros H. unfold L4. apply rsum_ext; intros i Hi; f_equal; apply rsum_ext; intros j Hj; f_equal; apply rsum_ext; intros k Hk; f_equal; apply rsum_ext; intros l Hl; f_equal. now apply H. Qed.
Lemma L4_plus g h : L4 (fun i j k l => g i j k l + h i j k l) = L4 g + L4 h.
Proof using.
  unfold L4. rewrite <- rsum_plus. apply rsum_ext; intros i _. rewrite <- Rmult_plus_distr_l. f_equal. rewrite <- rsum_plus. apply rsum_ext; intros j _. rewrite <- Rmult_plus_distr_l. f_equal.
  rewrite <- rsum_plus. apply rsum_ext; intros k _. rewrite <- Rmult_plus_distr_l. f_equal. rewrite <- rsum_plus. apply rsum_ext; intros l _. ring.
Qed.
Lemma L4_scal a g : L4 (fun i j k l => a * g i j k l) = a * L4 g.
Proof using.
  unfold L4. rewrite <- rsum_scal. apply rsum_ext; intros i _. transitivity (f i * (a * rsum n (fun j => f j * rsum n (fun k => f k * rsum n (fun l => f l * g i j k l))))); [|ring]. f_equal.
  rewrite <- rsum_scal. apply rsum_ext; intros j _. transitivity (f j * (a * rsum n (fun k => f k * rsum n (fun l => f l * g i j k l)))); [|ring]. f_equal.
  rewrite <- rsum_scal. apply rsum_ext; intros k _. transitivity (f k * (a * rsum n (fun l => f l * g i j k l))); [|ring]. f_equal. rewrite <- rsum_scal. apply rsum_ext; intros l _. ring.
Qed.
Lemma sw (h : nat -> nat -> R) : rsum n (fun i => f i * rsum n (fun j => f j * h i j)) = rsum n (fun i => f i * rsum n (fun j => f j * h j i)).
Proof using.
  transitivity (rsum n (fun i => rsum n (fun j => f i * (f j * h i j)))); [apply rsum_ext; intros; now rewrite rsum_scal|]. rewrite rsum_swap.
  apply rsum_ext; intros i _. rewrite <- rsum_scal. apply rsum_ext; intros j _. ring.
Qed.
Lemma s12 g : L4 g = L4 (fun i j k l => g j i k l).
Proof using. exact (sw (fun i j => rsum n (fun k => f k * rsum n (fun l => f l * g i j k l)))). Qed.
Lemma s23 g : L4 g = L4 (fun i j k l => g i k j l).
Proof using. unfold L4. apply rsum_ext; intros i _. f_equal. exact (sw (fun j k => rsum n (fun l => f l * g i j k l))). Qed.
Lemma s34 g : L4 g = L4 (fun i j k l => g i j l k).
Proof using. unfold L4. apply rsum_ext; intros i _. f_equal. apply rsum_ext; intros j _. f_equal. exact (sw (fun k l => g i j k l)). Qed.
(** summing out unused indices *)
Lemma d1 a : rsum n (fun l => f l * a) = gm * a.
Proof using. unfold gm. rewrite <- rsum_scal_r. reflexivity. Qed.
Lemma q1 : L4 (fun _ _ _ _ => 1) = gm ^ 4.
Proof using.
  unfold L4. rewrite (rsum_ext n _ (fun i => f i * gm ^ 3)); [rewrite d1; ring|]. intros i _. f_equal. rewrite (rsum_ext n _ (fun i => f i * gm ^ 2)); [rewrite d1; ring|]. intros j _. f_equal.
  rewrite (rsum_ext n _ (fun i => f i * gm)); [rewrite d1; ring|]. intros k _. f_equal. rewrite d1. ring.
Qed.
Lemma q2 (h : nat -> nat -> R) : L4 (fun i j _ _ => h i j) = rsum n (fun j => rsum n (fun i => f i * h i j) * f j) * gm ^ 2.
Proof using.
  rewrite s12. unfold L4. rewrite <- rsum_scal_r. apply rsum_ext; intros j _. rewrite (rsum_ext n _ (fun i => gm ^ 2 * (f i * h i j))); [rewrite rsum_scal; ring|].
  intros i _. rewrite (rsum_ext n _ (fun k => f k * (gm * h i j))) by (intros; f_equal; apply d1). rewrite d1. ring.
Qed.
Lemma q3 (h : nat -> nat -> nat -> R) : L4 (fun i j k _ => h i j k) = rsum n (fun j => f j * rsum n (fun i => f i * rsum n (fun k => f k * h i j k))) * gm.
Proof using.
  rewrite s12. unfold L4. rewrite <- rsum_scal_r. apply rsum_ext; intros j _. rewrite Rmult_assoc. f_equal. rewrite <- rsum_scal_r. apply rsum_ext; intros i _. rewrite Rmult_assoc. f_equal.
  rewrite <- rsum_scal_r. apply rsum_ext; intros k _. rewrite d1. ring.
Qed.
Lemma gav' j : (j < n)%nat -> rsum n (fun k => f k * c j k) = gav j.
Proof using csym. intros H. unfold gav. apply rsum_ext. intros i Hi. rewrite csym by assumption. reflexivity. Qed.
Lemma v_c1 : L4 (fun i j k l => c i j) = gA * gm ^ 2.
Proof using. rewrite q2. reflexivity. Qed.
Lemma v_c2 : L4 (fun i j k l => c i j * c i j) = gB * gm ^ 2.
Proof using. rewrite q2. f_equal. apply rsum_ext; intros j _. f_equal. apply rsum_ext; intros i _. ring. Qed.
Lemma v_c3 : L4 (fun i j k l => c i j * c i j * c i j) = gC * gm ^ 2.
Proof using. rewrite q2. f_equal. apply rsum_ext; intros j _. f_equal. apply rsum_ext; intros i _. ring. Qed.
Lemma v_cD : L4 (fun i j k l => c i j * c j k) = gD * gm.
Proof using csym.
  rewrite q3. f_equal. apply rsum_ext; intros j Hj. f_equal. rewrite (rsum_ext n _ (fun i => (f i * c i j) * gav j)).
  - rewrite rsum_scal_r. fold (gav j). ring.
  - intros i _. rewrite <- (gav' j Hj). rewrite (rsum_ext n _ (fun k => c i j * (f k * c j k))) by (intros; ring). rewrite rsum_scal. ring.
Qed.
Lemma v_cH : L4 (fun i j k l => c i j * c i j * c j k) = gH * gm.
Proof using csym.
  rewrite q3. f_equal. apply rsum_ext; intros j Hj. rewrite (rsum_ext n _ (fun i => (f i * c i j ^ 2) * gav j)).
  - rewrite rsum_scal_r. ring.
  - intros i _. rewrite <- (gav' j Hj). rewrite (rsum_ext n _ (fun k => c i j ^ 2 * (f k * c j k))) by (intros; ring). rewrite rsum_scal. ring.
Qed.
Lemma v_cI : L4 (fun i j k l => c i j * c j k * c i k) = gI * gm.
Proof using csym.
  rewrite s12, q3. f_equal. apply rsum_ext; intros i Hi. rewrite <- rsum_scal. apply rsum_ext; intros j Hj. rewrite <- rsum_scal, <- rsum_scal. apply rsum_ext; intros k Hk.
  rewrite (csym k i) by assumption. ring.
Qed.
Lemma v_cA2 : L4 (fun i j k l => c i j * c k l) = gA ^ 2.
Proof using csym.
  rewrite s12. unfold L4. assert (E : rsum n (fun k => f k * rsum n (fun l => f l * c k l)) = gA).
  { apply rsum_ext; intros k Hk. rewrite gav' by exact Hk. ring. }
  transitivity (rsum n (fun j => gav j * f j * gA)); [|rewrite rsum_scal_r; fold gA; ring]. apply rsum_ext; intros j _. unfold gav. rewrite (Rmult_comm _ (f j)), Rmult_assoc. f_equal. rewrite <- rsum_scal_r.
  apply rsum_ext; intros i _. rewrite Rmult_assoc. f_equal. rewrite <- E, <- rsum_scal. apply rsum_ext; intros k _. rewrite (rsum_ext n _ (fun l => c i j * (f l * c k l))) by (intros; ring). rewrite rsum_scal. ring.
Qed.
Lemma v_cAB : L4 (fun i j k l => c i j * c i j * c k l) = gA * gB.
Proof using csym.
  rewrite s12. unfold L4. assert (E : rsum n (fun k => f k * rsum n (fun l => f l * c k l)) = gA).
  { apply rsum_ext; intros k Hk. rewrite gav' by exact Hk. ring. }
  transitivity (rsum n (fun j => rsum n (fun i => f i * c i j ^ 2) * f j * gA)); [|rewrite rsum_scal_r; fold gB; ring]. apply rsum_ext; intros j _. rewrite (Rmult_comm _ (f j)), Rmult_assoc. f_equal. rewrite <- rsum_scal_r.
  apply rsum_ext; intros i _. rewrite Rmult_assoc. f_equal. rewrite <- E, <- rsum_scal. apply rsum_ext; intros k _. rewrite (rsum_ext n _ (fun l => c i j ^ 2 * (f l * c k l))) by (intros; ring). rewrite rsum_scal. ring.
Qed.
Lemma v_cE : L4 (fun i j k l => c i j * c i k * c i l) = gE.
Proof using csym.
  unfold L4. apply rsum_ext; intros i Hi. f_equal. rewrite (rsum_ext n _ (fun j => (f j * c i j) * gav i ^ 2)); [rewrite rsum_scal_r, gav' by exact Hi; ring|].
  intros j _. rewrite (rsum_ext n _ (fun k => (f k * c i k) * (c i j * gav i))); [rewrite rsum_scal_r, gav' by exact Hi; ring|].
  intros k _. rewrite (rsum_ext n _ (fun l => (f l * c i l) * (c i j * c i k))) by (intros; ring). rewrite rsum_scal_r, gav' by exact Hi. ring.
Qed.
Lemma v_cG : L4 (fun i j k l => c i j * c i k * c j l) = gG.
Proof using csym.
  rewrite s12. unfold L4. apply rsum_ext; intros j Hj. rewrite <- (rsum_scal_r n (gav j * f j)), <- rsum_scal. apply rsum_ext; intros i Hi.
  rewrite (rsum_ext n _ (fun k => (f k * c i k) * (c i j * gav j))).
  - rewrite rsum_scal_r, gav' by exact Hi. ring.
  - intros k _. rewrite (rsum_ext n _ (fun l => (f l * c j l) * (c i j * c i k))) by (intros; ring). rewrite rsum_scal_r, gav' by exact Hj. ring.
Qed.
Lemma w0 : L4 (fun i j k l => c i j) = gA * gm ^ 2.
Proof using csym. rewrite <- v_c1. apply L4_ext. intros i j k l Hi Hj Hk Hl. ring. Qed.
Lemma w1 : L4 (fun i j k l => c i k) = gA * gm ^ 2.
Proof using csym. rewrite s23. rewrite <- v_c1. apply L4_ext. intros i j k l Hi Hj Hk Hl. ring. Qed.
Lemma w2 : L4 (fun i j k l => c i l) = gA * gm ^ 2.
Proof using csym. rewrite s34. rewrite s23. rewrite <- v_c1. apply L4_ext. intros i j k l Hi Hj Hk Hl. ring. Qed.
Lemma w3 : L4 (fun i j k l => c j k) = gA * gm ^ 2.
Proof using csym. rewrite s12. rewrite s23. rewrite <- v_c1. apply L4_ext. intros i j k l Hi Hj Hk Hl. ring. Qed.
Lemma w4 : L4 (fun i j k l => c j l) = gA * gm ^ 2.
Proof using csym. rewrite s12. rewrite s34. rewrite s23. rewrite <- v_c1. apply L4_ext. intros i j k l Hi Hj Hk Hl. ring. Qed.
Lemma w5 : L4 (fun i j k l => c k l) = gA * gm ^ 2.
Proof using csym. rewrite s23. rewrite s12. rewrite s34. rewrite s23. rewrite <- v_c1. apply L4_ext. intros i j k l Hi Hj Hk Hl. ring. Qed.
Lemma w6 : L4 (fun i j k l => c i j * c i j) = gB * gm ^ 2.
Proof using csym. rewrite <- v_c2. apply L4_ext. intros i j k l Hi Hj Hk Hl. ring. Qed.
Lemma w7 : L4 (fun i j k l => c i j * c i k) = gD * gm.
Proof using csym. rewrite s12. rewrite <- v_cD. apply L4_ext. intros i j k l Hi Hj Hk Hl. rewrite (csym j i) by assumption. ring. Qed.
Lemma w8 : L4 (fun i j k l => c i j * c i l) = gD * gm.
Proof using csym. rewrite s12. rewrite s34. rewrite <- v_cD. apply L4_ext. intros i j k l Hi Hj Hk Hl. rewrite (csym j i) by assumption. ring. Qed.
Lemma w9 : L4 (fun i j k l => c i j * c j k) = gD * gm.
Proof using csym. rewrite <- v_cD. apply L4_ext. intros i j k l Hi Hj Hk Hl. ring. Qed.
Lemma w10 : L4 (fun i j k l => c i j * c j l) = gD * gm.
Proof using csym. rewrite s34. rewrite <- v_cD. apply L4_ext. intros i j k l Hi Hj Hk Hl. ring. Qed.
Lemma w11 : L4 (fun i j k l => c i j * c k l) = gA ^ 2.
Proof using csym. rewrite <- v_cA2. apply L4_ext. intros i j k l Hi Hj Hk Hl. ring. Qed.
Lemma w12 : L4 (fun i j k l => c i k * c i k) = gB * gm ^ 2.
Proof using csym. rewrite s23. rewrite <- v_c2. apply L4_ext. intros i j k l Hi Hj Hk Hl. ring. Qed.
Lemma w13 : L4 (fun i j k l => c i k * c i l) = gD * gm.
Proof using csym. rewrite s23. rewrite s12. rewrite s34. rewrite <- v_cD. apply L4_ext. intros i j k l Hi Hj Hk Hl. rewrite (csym j i) by assumption. ring. Qed.
Lemma w14 : L4 (fun i j k l => c i k * c j k) = gD * gm.
Proof using csym. rewrite s23. rewrite <- v_cD. apply L4_ext. intros i j k l Hi Hj Hk Hl. rewrite (csym k j) by assumption. ring. Qed.
Lemma w15 : L4 (fun i j k l => c i k * c j l) = gA ^ 2.
Proof using csym. rewrite s23. rewrite <- v_cA2. apply L4_ext. intros i j k l Hi Hj Hk Hl. ring. Qed.
Lemma w16 : L4 (fun i j k l => c i k * c k l) = gD * gm.
Proof using csym. rewrite s23. rewrite s34. rewrite <- v_cD. apply L4_ext. intros i j k l Hi Hj Hk Hl. ring. Qed.
Lemma w17 : L4 (fun i j k l => c i l * c i l) = gB * gm ^ 2.
Proof using csym. rewrite s34. rewrite s23. rewrite <- v_c2. apply L4_ext. intros i j k l Hi Hj Hk Hl. ring. Qed.
Lemma w18 : L4 (fun i j k l => c i l * c j k) = gA ^ 2.
Proof using csym. rewrite s12. rewrite s23. rewrite <- v_cA2. apply L4_ext. intros i j k l Hi Hj Hk Hl. ring. Qed.
Lemma w19 : L4 (fun i j k l => c i l * c j l) = gD * gm.
Proof using csym. rewrite s34. rewrite s23. rewrite <- v_cD. apply L4_ext. intros i j k l Hi Hj Hk Hl. rewrite (csym k j) by assumption. ring. Qed.
Lemma w20 : L4 (fun i j k l => c i l * c k l) = gD * gm.
Proof using csym. rewrite s23. rewrite s34. rewrite s23. rewrite <- v_cD. apply L4_ext. intros i j k l Hi Hj Hk Hl. rewrite (csym k j) by assumption. ring. Qed.
Lemma w21 : L4 (fun i j k l => c j k * c j k) = gB * gm ^ 2.
Proof using csym. rewrite s12. rewrite s23. rewrite <- v_c2. apply L4_ext. intros i j k l Hi Hj Hk Hl. ring. Qed.
Lemma w22 : L4 (fun i j k l => c j k * c j l) = gD * gm.
Proof using csym. rewrite s12. rewrite s23. rewrite s12. rewrite s34. rewrite <- v_cD. apply L4_ext. intros i j k l Hi Hj Hk Hl. rewrite (csym j i) by assumption. ring. Qed.
Lemma w23 : L4 (fun i j k l => c j k * c k l) = gD * gm.
Proof using csym. rewrite s12. rewrite s23. rewrite s34. rewrite <- v_cD. apply L4_ext. intros i j k l Hi Hj Hk Hl. ring. Qed.
Lemma w24 : L4 (fun i j k l => c j l * c j l) = gB * gm ^ 2.
Proof using csym. rewrite s12. rewrite s34. rewrite s23. rewrite <- v_c2. apply L4_ext. intros i j k l Hi Hj Hk Hl. ring. Qed.
Lemma w25 : L4 (fun i j k l => c j l * c k l) = gD * gm.
Proof using csym. rewrite s12. rewrite s23. rewrite s34. rewrite s23. rewrite <- v_cD. apply L4_ext. intros i j k l Hi Hj Hk Hl. rewrite (csym k j) by assumption. ring. Qed.
Lemma w26 : L4 (fun i j k l => c k l * c k l) = gB * gm ^ 2.
Proof using csym. rewrite s23. rewrite s12. rewrite s34. rewrite s23. rewrite <- v_c2. apply L4_ext. intros i j k l Hi Hj Hk Hl. ring. Qed.
Lemma w27 : L4 (fun i j k l => c i j * c i j * c i j) = gC * gm ^ 2.
Proof using csym. rewrite <- v_c3. apply L4_ext. intros i j k l Hi Hj Hk Hl. ring. Qed.
Lemma w28 : L4 (fun i j k l => c i j * c i j * c i k) = gH * gm.
Proof using csym. rewrite s12. rewrite <- v_cH. apply L4_ext. intros i j k l Hi Hj Hk Hl. rewrite (csym j i) by assumption. ring. Qed.
Lemma w29 : L4 (fun i j k l => c i j * c i j * c i l) = gH * gm.
Proof using csym. rewrite s12. rewrite s34. rewrite <- v_cH. apply L4_ext. intros i j k l Hi Hj Hk Hl. rewrite (csym j i) by assumption. ring. Qed.
Lemma w30 : L4 (fun i j k l => c i j * c i j * c j k) = gH * gm.
Proof using csym. rewrite <- v_cH. apply L4_ext. intros i j k l Hi Hj Hk Hl. ring. Qed.
Lemma w31 : L4 (fun i j k l => c i j * c i j * c j l) = gH * gm.
Proof using csym. rewrite s34. rewrite <- v_cH. apply L4_ext. intros i j k l Hi Hj Hk Hl. ring. Qed.
Lemma w32 : L4 (fun i j k l => c i j * c i j * c k l) = gA * gB.
Proof using csym. rewrite <- v_cAB. apply L4_ext. intros i j k l Hi Hj Hk Hl. ring. Qed.
Lemma w33 : L4 (fun i j k l => c i j * c i k * c i k) = gH * gm.
Proof using csym. rewrite s23. rewrite s12. rewrite <- v_cH. apply L4_ext. intros i j k l Hi Hj Hk Hl. rewrite (csym j i) by assumption. ring. Qed.
Lemma w34 : L4 (fun i j k l => c i j * c i k * c i l) = gE.
Proof using csym. rewrite <- v_cE. apply L4_ext. intros i j k l Hi Hj Hk Hl. ring. Qed.
Lemma w35 : L4 (fun i j k l => c i j * c i k * c j k) = gI * gm.
Proof using csym. rewrite <- v_cI. apply L4_ext. intros i j k l Hi Hj Hk Hl. ring. Qed.
Lemma w36 : L4 (fun i j k l => c i j * c i k * c j l) = gG.
Proof using csym. rewrite <- v_cG. apply L4_ext. intros i j k l Hi Hj Hk Hl. ring. Qed.
Lemma w37 : L4 (fun i j k l => c i j * c i k * c k l) = gG.
Proof using csym. rewrite s23. rewrite <- v_cG. apply L4_ext. intros i j k l Hi Hj Hk Hl. ring. Qed.
Lemma w38 : L4 (fun i j k l => c i j * c i l * c i l) = gH * gm.
Proof using csym. rewrite s34. rewrite s23. rewrite s12. rewrite <- v_cH. apply L4_ext. intros i j k l Hi Hj Hk Hl. rewrite (csym j i) by assumption. ring. Qed.
Lemma w39 : L4 (fun i j k l => c i j * c i l * c j k) = gG.
Proof using csym. rewrite s12. rewrite <- v_cG. apply L4_ext. intros i j k l Hi Hj Hk Hl. rewrite (csym j i) by assumption. ring. Qed.
Lemma w40 : L4 (fun i j k l => c i j * c i l * c j l) = gI * gm.
Proof using csym. rewrite s34. rewrite <- v_cI. apply L4_ext. intros i j k l Hi Hj Hk Hl. ring. Qed.
Lemma w41 : L4 (fun i j k l => c i j * c i l * c k l) = gG.
Proof using csym. rewrite s34. rewrite s23. rewrite <- v_cG. apply L4_ext. intros i j k l Hi Hj Hk Hl. rewrite (csym l j) by assumption. ring. Qed.
Lemma w42 : L4 (fun i j k l => c i j * c j k * c j k) = gH * gm.
Proof using csym. rewrite s12. rewrite s23. rewrite s12. rewrite <- v_cH. apply L4_ext. intros i j k l Hi Hj Hk Hl. rewrite (csym j i) by assumption. rewrite (csym k j) by assumption. ring. Qed.
Lemma w43 : L4 (fun i j k l => c i j * c j k * c j l) = gE.
Proof using csym. rewrite s12. rewrite <- v_cE. apply L4_ext. intros i j k l Hi Hj Hk Hl. rewrite (csym j i) by assumption. ring. Qed.
Lemma w44 : L4 (fun i j k l => c i j * c j k * c k l) = gG.
Proof using csym. rewrite s12. rewrite s23. rewrite <- v_cG. apply L4_ext. intros i j k l Hi Hj Hk Hl. rewrite (csym k i) by assumption. ring. Qed.
Lemma w45 : L4 (fun i j k l => c i j * c j l * c j l) = gH * gm.
Proof using csym. rewrite s12. rewrite s34. rewrite s23. rewrite s12. rewrite <- v_cH. apply L4_ext. intros i j k l Hi Hj Hk Hl. rewrite (csym j i) by assumption. rewrite (csym k j) by assumption. ring. Qed.
Lemma w46 : L4 (fun i j k l => c i j * c j l * c k l) = gG.
Proof using csym. rewrite s12. rewrite s34. rewrite s23. rewrite <- v_cG. apply L4_ext. intros i j k l Hi Hj Hk Hl. rewrite (csym k i) by assumption. rewrite (csym l j) by assumption. ring. Qed.
Lemma w47 : L4 (fun i j k l => c i j * c k l * c k l) = gA * gB.
Proof using csym. rewrite s23. rewrite s12. rewrite s34. rewrite s23. rewrite <- v_cAB. apply L4_ext. intros i j k l Hi Hj Hk Hl. ring. Qed.
Lemma w48 : L4 (fun i j k l => c i k * c i k * c i k) = gC * gm ^ 2.
Proof using csym. rewrite s23. rewrite <- v_c3. apply L4_ext. intros i j k l Hi Hj Hk Hl. ring. Qed.
Lemma w49 : L4 (fun i j k l => c i k * c i k * c i l) = gH * gm.
Proof using csym. rewrite s23. rewrite s12. rewrite s34. rewrite <- v_cH. apply L4_ext. intros i j k l Hi Hj Hk Hl. rewrite (csym j i) by assumption. ring. Qed.
Lemma w50 : L4 (fun i j k l => c i k * c i k * c j k) = gH * gm.
Proof using csym. rewrite s23. rewrite <- v_cH. apply L4_ext. intros i j k l Hi Hj Hk Hl. rewrite (csym k j) by assumption. ring. Qed.
Lemma w51 : L4 (fun i j k l => c i k * c i k * c j l) = gA * gB.
Proof using csym. rewrite s23. rewrite <- v_cAB. apply L4_ext. intros i j k l Hi Hj Hk Hl. ring. Qed.
Lemma w52 : L4 (fun i j k l => c i k * c i k * c k l) = gH * gm.
Proof using csym. rewrite s23. rewrite s34. rewrite <- v_cH. apply L4_ext. intros i j k l Hi Hj Hk Hl. ring. Qed.
Lemma w53 : L4 (fun i j k l => c i k * c i l * c i l) = gH * gm.
Proof using csym. rewrite s23. rewrite s34. rewrite s23. rewrite s12. rewrite <- v_cH. apply L4_ext. intros i j k l Hi Hj Hk Hl. rewrite (csym j i) by assumption. ring. Qed.
Lemma w54 : L4 (fun i j k l => c i k * c i l * c j k) = gG.
Proof using csym. rewrite s23. rewrite s12. rewrite <- v_cG. apply L4_ext. intros i j k l Hi Hj Hk Hl. rewrite (csym j i) by assumption. rewrite (csym k i) by assumption. ring. Qed.
Lemma w55 : L4 (fun i j k l => c i k * c i l * c j l) = gG.
Proof using csym. rewrite s23. rewrite s34. rewrite s23. rewrite <- v_cG. apply L4_ext. intros i j k l Hi Hj Hk Hl. rewrite (csym l j) by assumption. ring. Qed.
Lemma w56 : L4 (fun i j k l => c i k * c i l * c k l) = gI * gm.
Proof using csym. rewrite s23. rewrite s34. rewrite <- v_cI. apply L4_ext. intros i j k l Hi Hj Hk Hl. ring. Qed.
Lemma w57 : L4 (fun i j k l => c i k * c j k * c j k) = gH * gm.
Proof using csym. rewrite s12. rewrite s23. rewrite <- v_cH. apply L4_ext. intros i j k l Hi Hj Hk Hl. rewrite (csym k j) by assumption. ring. Qed.
Lemma w58 : L4 (fun i j k l => c i k * c j k * c j l) = gG.
Proof using csym. rewrite s12. rewrite s23. rewrite s12. rewrite <- v_cG. apply L4_ext. intros i j k l Hi Hj Hk Hl. rewrite (csym j i) by assumption. rewrite (csym k i) by assumption. ring. Qed.
Lemma w59 : L4 (fun i j k l => c i k * c j k * c k l) = gE.
Proof using csym. rewrite s23. rewrite s12. rewrite <- v_cE. apply L4_ext. intros i j k l Hi Hj Hk Hl. rewrite (csym j i) by assumption. rewrite (csym k i) by assumption. ring. Qed.
Lemma w60 : L4 (fun i j k l => c i k * c j l * c j l) = gA * gB.
Proof using csym. rewrite s12. rewrite s34. rewrite s23. rewrite <- v_cAB. apply L4_ext. intros i j k l Hi Hj Hk Hl. ring. Qed.
Lemma w61 : L4 (fun i j k l => c i k * c j l * c k l) = gG.
Proof using csym. rewrite s23. rewrite s12. rewrite s34. rewrite s23. rewrite <- v_cG. apply L4_ext. intros i j k l Hi Hj Hk Hl. rewrite (csym k i) by assumption. rewrite (csym l j) by assumption. ring. Qed.
Lemma w62 : L4 (fun i j k l => c i k * c k l * c k l) = gH * gm.
Proof using csym. rewrite s23. rewrite s12. rewrite s34. rewrite s23. rewrite s12. rewrite <- v_cH. apply L4_ext. intros i j k l Hi Hj Hk Hl. rewrite (csym j i) by assumption. rewrite (csym k j) by assumption. ring. Qed.
Lemma w63 : L4 (fun i j k l => c i l * c i l * c i l) = gC * gm ^ 2.
Proof using csym. rewrite s34. rewrite s23. rewrite <- v_c3. apply L4_ext. intros i j k l Hi Hj Hk Hl. ring. Qed.
Lemma w64 : L4 (fun i j k l => c i l * c i l * c j k) = gA * gB.
Proof using csym. rewrite s34. rewrite s23. rewrite <- v_cAB. apply L4_ext. intros i j k l Hi Hj Hk Hl. ring. Qed.
Lemma w65 : L4 (fun i j k l => c i l * c i l * c j l) = gH * gm.
Proof using csym. rewrite s34. rewrite s23. rewrite <- v_cH. apply L4_ext. intros i j k l Hi Hj Hk Hl. rewrite (csym k j) by assumption. ring. Qed.
Lemma w66 : L4 (fun i j k l => c i l * c i l * c k l) = gH * gm.
Proof using csym. rewrite s23. rewrite s34. rewrite s23. rewrite <- v_cH. apply L4_ext. intros i j k l Hi Hj Hk Hl. rewrite (csym k j) by assumption. ring. Qed.
Lemma w67 : L4 (fun i j k l => c i l * c j k * c j k) = gA * gB.
Proof using csym. rewrite s12. rewrite s23. rewrite <- v_cAB. apply L4_ext. intros i j k l Hi Hj Hk Hl. ring. Qed.
Lemma w68 : L4 (fun i j k l => c i l * c j k * c j l) = gG.
Proof using csym. rewrite s12. rewrite s23. rewrite s34. rewrite s23. rewrite <- v_cG. apply L4_ext. intros i j k l Hi Hj Hk Hl. rewrite (csym l j) by assumption. ring. Qed.
Lemma w69 : L4 (fun i j k l => c i l * c j k * c k l) = gG.
Proof using csym. rewrite s12. rewrite s23. rewrite s12. rewrite s34. rewrite s23. rewrite <- v_cG. apply L4_ext. intros i j k l Hi Hj Hk Hl. rewrite (csym k i) by assumption. rewrite (csym l j) by assumption. ring. Qed.
Lemma w70 : L4 (fun i j k l => c i l * c j l * c j l) = gH * gm.
Proof using csym. rewrite s12. rewrite s34. rewrite s23. rewrite <- v_cH. apply L4_ext. intros i j k l Hi Hj Hk Hl. rewrite (csym k j) by assumption. ring. Qed.
Lemma w71 : L4 (fun i j k l => c i l * c j l * c k l) = gE.
Proof using csym. rewrite s34. rewrite s23. rewrite s12. rewrite <- v_cE. apply L4_ext. intros i j k l Hi Hj Hk Hl. rewrite (csym j i) by assumption. rewrite (csym k i) by assumption. rewrite (csym l i) by assumption. ring. Qed.
Lemma w72 : L4 (fun i j k l => c i l * c k l * c k l) = gH * gm.
Proof using csym. rewrite s23. rewrite s12. rewrite s34. rewrite s23. rewrite <- v_cH. apply L4_ext. intros i j k l Hi Hj Hk Hl. rewrite (csym k j) by assumption. ring. Qed.
Lemma w73 : L4 (fun i j k l => c j k * c j k * c j k) = gC * gm ^ 2.
Proof using csym. rewrite s12. rewrite s23. rewrite <- v_c3. apply L4_ext. intros i j k l Hi Hj Hk Hl. ring. Qed.
Lemma w74 : L4 (fun i j k l => c j k * c j k * c j l) = gH * gm.
Proof using csym. rewrite s12. rewrite s23. rewrite s12. rewrite s34. rewrite <- v_cH. apply L4_ext. intros i j k l Hi Hj Hk Hl. rewrite (csym j i) by assumption. ring. Qed.
Lemma w75 : L4 (fun i j k l => c j k * c j k * c k l) = gH * gm.
Proof using csym. rewrite s12. rewrite s23. rewrite s34. rewrite <- v_cH. apply L4_ext. intros i j k l Hi Hj Hk Hl. ring. Qed.
Lemma w76 : L4 (fun i j k l => c j k * c j l * c j l) = gH * gm.
Proof using csym. rewrite s12. rewrite s23. rewrite s34. rewrite s23. rewrite s12. rewrite <- v_cH. apply L4_ext. intros i j k l Hi Hj Hk Hl. rewrite (csym j i) by assumption. ring. Qed.
Lemma w77 : L4 (fun i j k l => c j k * c j l * c k l) = gI * gm.
Proof using csym. rewrite s12. rewrite s23. rewrite s34. rewrite <- v_cI. apply L4_ext. intros i j k l Hi Hj Hk Hl. ring. Qed.
Lemma w78 : L4 (fun i j k l => c j k * c k l * c k l) = gH * gm.
Proof using csym. rewrite s12. rewrite s23. rewrite s12. rewrite s34. rewrite s23. rewrite s12. rewrite <- v_cH. apply L4_ext. intros i j k l Hi Hj Hk Hl. rewrite (csym j i) by assumption. rewrite (csym k j) by assumption. ring. Qed.
Lemma w79 : L4 (fun i j k l => c j l * c j l * c j l) = gC * gm ^ 2.
Proof using csym. rewrite s12. rewrite s34. rewrite s23. rewrite <- v_c3. apply L4_ext. intros i j k l Hi Hj Hk Hl. ring. Qed.
Lemma w80 : L4 (fun i j k l => c j l * c j l * c k l) = gH * gm.
Proof using csym. rewrite s12. rewrite s23. rewrite s34. rewrite s23. rewrite <- v_cH. apply L4_ext. intros i j k l Hi Hj Hk Hl. rewrite (csym k j) by assumption. ring. Qed.
Lemma w81 : L4 (fun i j k l => c j l * c k l * c k l) = gH * gm.
Proof using csym. rewrite s12. rewrite s23. rewrite s12. rewrite s34. rewrite s23. rewrite <- v_cH. apply L4_ext. intros i j k l Hi Hj Hk Hl. rewrite (csym k j) by assumption. ring. Qed.
Lemma w82 : L4 (fun i j k l => c k l * c k l * c k l) = gC * gm ^ 2.
Proof using csym. rewrite s23. rewrite s12. rewrite s34. rewrite s23. rewrite <- v_c3. apply L4_ext. intros i j k l Hi Hj Hk Hl. ring. Qed.
Lemma p2_1 : L4 (fun i j k l => (c i j) ^ 1) = gA * gm ^ 2.
Proof using csym.
  rewrite (L4_ext _ (fun i j k l => 1 * (c i j))) by (intros; ring).
  repeat rewrite L4_plus. repeat rewrite L4_scal.
  rewrite w0. ring.
Qed.
Lemma p2_2 : L4 (fun i j k l => (c i j) ^ 2) = gB * gm ^ 2.
Proof using csym.
  rewrite (L4_ext _ (fun i j k l => 1 * (c i j * c i j))) by (intros; ring).
  repeat rewrite L4_plus. repeat rewrite L4_scal.
  rewrite w6. ring.
Qed.
Lemma p2_3 : L4 (fun i j k l => (c i j) ^ 3) = gC * gm ^ 2.
Proof using csym.
  rewrite (L4_ext _ (fun i j k l => 1 * (c i j * c i j * c i j))) by (intros; ring).
  repeat rewrite L4_plus. repeat rewrite L4_scal.
  rewrite w27. ring.
Qed.
Lemma p3_1 : L4 (fun i j k l => (c i j + c i k + c j k) ^ 1) = 3 * gA * gm ^ 2.
Proof using csym.
  rewrite (L4_ext _ (fun i j k l => 1 * (c i j) + 1 * (c i k) + 1 * (c j k))) by (intros; ring).
  repeat rewrite L4_plus. repeat rewrite L4_scal.
  rewrite w0, w1, w3. ring.
Qed.
Lemma p3_2 : L4 (fun i j k l => (c i j + c i k + c j k) ^ 2) = (3 * gB * gm + 6 * gD) * gm.
Proof using csym.
  rewrite (L4_ext _ (fun i j k l => 1 * (c i j * c i j) + 2 * (c i j * c i k) + 2 * (c i j * c j k) + 1 * (c i k * c i k) + 2 * (c i k * c j k) + 1 * (c j k * c j k))) by (intros; ring).
  repeat rewrite L4_plus. repeat rewrite L4_scal.
  rewrite w6, w7, w9, w12, w14, w21. ring.
Qed.
Lemma p3_3 : L4 (fun i j k l => (c i j + c i k + c j k) ^ 3) = (3 * gC * gm + 18 * gH + 6 * gI) * gm.
Proof using csym.
  rewrite (L4_ext _ (fun i j k l => 1 * (c i j * c i j * c i j) + 3 * (c i j * c i j * c i k) + 3 * (c i j * c i j * c j k) + 3 * (c i j * c i k * c i k) + 6 * (c i j * c i k * c j k) + 3 * (c i j * c j k * c j k) + 1 * (c i k * c i k * c i k) + 3 * (c i k * c i k * c j k) + 3 * (c i k * c j k * c j k) + 1 * (c j k * c j k * c j k))) by (intros; ring).
  repeat rewrite L4_plus. repeat rewrite L4_scal.
  rewrite w27, w28, w30, w33, w35, w42, w48, w50, w57, w73. ring.
Qed.
Lemma p4_1 : L4 (fun i j k l => (c i j + c i k + c i l + c j k + c j l + c k l) ^ 1) = 6 * gA * gm ^ 2.
Proof using csym.
  rewrite (L4_ext _ (fun i j k l => 1 * (c i j) + 1 * (c i k) + 1 * (c i l) + 1 * (c j k) + 1 * (c j l) + 1 * (c k l))) by (intros; ring).
  repeat rewrite L4_plus. repeat rewrite L4_scal.
  rewrite w0, w1, w2, w3, w4, w5. ring.
Qed.
Lemma p4_2 : L4 (fun i j k l => (c i j + c i k + c i l + c j k + c j l + c k l) ^ 2) = 6 * gB * gm ^ 2 + 24 * gD * gm + 6 * gA ^ 2.
Proof using csym.
  rewrite (L4_ext _ (fun i j k l => 1 * (c i j * c i j) + 2 * (c i j * c i k) + 2 * (c i j * c i l) + 2 * (c i j * c j k) + 2 * (c i j * c j l) + 2 * (c i j * c k l) + 1 * (c i k * c i k) + 2 * (c i k * c i l) + 2 * (c i k * c j k) + 2 * (c i k * c j l) + 2 * (c i k * c k l) + 1 * (c i l * c i l) + 2 * (c i l * c j k) + 2 * (c i l * c j l) + 2 * (c i l * c k l) + 1 * (c j k * c j k) + 2 * (c j k * c j l) + 2 * (c j k * c k l) + 1 * (c j l * c j l) + 2 * (c j l * c k l) + 1 * (c k l * c k l))) by (intros; ring).
  repeat rewrite L4_plus. repeat rewrite L4_scal.
  rewrite w6, w7, w8, w9, w10, w11, w12, w13, w14, w15, w16, w17, w18, w19, w20, w21, w22, w23, w24, w25, w26. ring.
Qed.
Lemma p4_3 : L4 (fun i j k l => (c i j + c i k + c i l + c j k + c j l + c k l) ^ 3) = 6 * gC * gm ^ 2 + 72 * gH * gm + 18 * gA * gB + 24 * gI * gm + 24 * gE + 72 * gG.
Proof using csym.
  rewrite (L4_ext _ (fun i j k l => 1 * (c i j * c i j * c i j) + 3 * (c i j * c i j * c i k) + 3 * (c i j * c i j * c i l) + 3 * (c i j * c i j * c j k) + 3 * (c i j * c i j * c j l) + 3 * (c i j * c i j * c k l) + 3 * (c i j * c i k * c i k) + 6 * (c i j * c i k * c i l) + 6 * (c i j * c i k * c j k) + 6 * (c i j * c i k * c j l) + 6 * (c i j * c i k * c k l) + 3 * (c i j * c i l * c i l) + 6 * (c i j * c i l * c j k) + 6 * (c i j * c i l * c j l) + 6 * (c i j * c i l * c k l) + 3 * (c i j * c j k * c j k) + 6 * (c i j * c j k * c j l) + 6 * (c i j * c j k * c k l) + 3 * (c i j * c j l * c j l) + 6 * (c i j * c j l * c k l) + 3 * (c i j * c k l * c k l) + 1 * (c i k * c i k * c i k) + 3 * (c i k * c i k * c i l) + 3 * (c i k * c i k * c j k) + 3 * (c i k * c i k * c j l) + 3 * (c i k * c i k * c k l) + 3 * (c i k * c i l * c i l) + 6 * (c i k * c i l * c j k) + 6 * (c i k * c i l * c j l) + 6 * (c i k * c i l * c k l) + 3 * (c i k * c j k * c j k) + 6 * (c i k * c j k * c j l) + 6 * (c i k * c j k * c k l) + 3 * (c i k * c j l * c j l) + 6 * (c i k * c j l * c k l) + 3 * (c i k * c k l * c k l) + 1 * (c i l * c i l * c i l) + 3 * (c i l * c i l * c j k) + 3 * (c i l * c i l * c j l) + 3 * (c i l * c i l * c k l) + 3 * (c i l * c j k * c j k) + 6 * (c i l * c j k * c j l) + 6 * (c i l * c j k * c k l) + 3 * (c i l * c j l * c j l) + 6 * (c i l * c j l * c k l) + 3 * (c i l * c k l * c k l) + 1 * (c j k * c j k * c j k) + 3 * (c j k * c j k * c j l) + 3 * (c j k * c j k * c k l) + 3 * (c j k * c j l * c j l) + 6 * (c j k * c j l * c k l) + 3 * (c j k * c k l * c k l) + 1 * (c j l * c j l * c j l) + 3 * (c j l * c j l * c k l) + 3 * (c j l * c k l * c k l) + 1 * (c k l * c k l * c k l))) by (intros; ring).
  repeat rewrite L4_plus. repeat rewrite L4_scal.
  rewrite w27, w28, w29, w30, w31, w32, w33, w34, w35, w36, w37, w38, w39, w40, w41, w42, w43, w44, w45, w46, w47, w48, w49, w50, w51, w52, w53, w54, w55, w56, w57, w58, w59, w60, w61, w62, w63, w64, w65, w66, w67, w68, w69, w70, w71, w72, w73, w74, w75, w76, w77, w78, w79, w80, w81, w82. ring.
Qed.
End Graph.
