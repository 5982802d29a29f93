(** Moments from a transform: the aliasing formula. *)
From Coq Require Import Reals Lra Lia List Psatz Bool Arith ZArith.
From Coquelicot Require Import Coquelicot.
From Verif Require Import Base Gauss Sums M_Opt M_Moment Spec_Moment.
Import ListNotations.
Open Scope R_scope.

(** *** discrete orthogonality *)
Lemma sin_half_sum x n : 2 * sin (x / 2) * lsum (map (fun k => cos (INR k * x)) (seq 1 n)) = sin ((INR n + / 2) * x) - sin (x / 2).
Proof.
  induction n as [|n IH]. { cbn. replace ((0 + / 2) * x) with (x / 2) by field. ring. }
  rewrite seq_S, map_app, lsum_app. cbn [map lsum fold_right Nat.add]. rewrite Rmult_plus_distr_l, IH.
  assert (E : 2 * sin (x / 2) * cos (INR (S n) * x) = sin ((INR (S n) + / 2) * x) - sin ((INR n + / 2) * x)).
  { rewrite S_INR. replace ((INR n + 1 + / 2) * x) with ((INR n + 1) * x + x / 2) by field. replace ((INR n + / 2) * x) with ((INR n + 1) * x - x / 2) by field. rewrite sin_plus, sin_minus. ring. }
  change (lsum [cos (INR (S n) * x)]) with (cos (INR (S n) * x) + 0). rewrite Rplus_0_r, E. ring.
Qed.
Lemma cos_Zpi (m : Z) : cos (IZR m * PI) ^ 2 = 1 /\ sin (IZR m * PI) = 0.
Proof.
  assert (S : sin (IZR m * PI) = 0) by (apply sin_eq_0_1; exists m; reflexivity). split; [|exact S].
  pose proof (sin2_cos2 (IZR m * PI)) as H. rewrite S in H. unfold Rsqr in H. cbn. lra.
Qed.
Lemma disc_orth (N : nat) (m : Z) : (1 <= N)%nat ->
  let T := 1 + cos (IZR m * PI) + 2 * lsum (map (fun k => cos (IZR m * (PI * INR k / INR N))) (seq 1 (N - 1))) in
  ((exists q, m = (2 * Z.of_nat N * q)%Z) -> T = 2 * INR N) /\ ((~ exists q, m = (2 * Z.of_nat N * q)%Z) -> T = 0).
Proof.
  intros HN T. assert (HNR : 0 < INR N) by (apply lt_0_INR; lia). pose proof PI_RGT_0 as HP. split.
  - intros [q Hq]. unfold T. assert (Em : IZR m = 2 * INR N * IZR q) by (rewrite Hq, !mult_IZR, <- INR_IZR_INZ; ring).
    assert (C1 : forall j : Z, cos (IZR (2 * j) * PI) = 1). { intros j. rewrite mult_IZR. replace (2 * IZR j * PI) with (2 * (IZR j * PI)) by ring. rewrite cos_2a_sin. rewrite (proj2 (cos_Zpi j)). ring. }
    replace (IZR m * PI) with (IZR (2 * (Z.of_nat N * q)) * PI) by (rewrite Em, !mult_IZR, <- INR_IZR_INZ; ring). rewrite C1.
    rewrite (lsum_map_ext _ (fun _ => 1)).
    + rewrite lsum_map_const, seq_length, minus_INR by lia. cbn. lra.
    + intros k _. replace (IZR m * (PI * INR k / INR N)) with (IZR (2 * (Z.of_nat k * q)) * PI); [apply C1|]. rewrite Em, !mult_IZR, <- INR_IZR_INZ. field. lra.
  - intros Hn. set (x := IZR m * PI / INR N). assert (Sx : sin (x / 2) <> 0).
    { intros H0. apply sin_eq_0_0 in H0. destruct H0 as [q Hq]. apply Hn. exists q. apply eq_IZR. rewrite !mult_IZR, <- INR_IZR_INZ.
      unfold x in Hq. apply (Rmult_eq_reg_r PI); [|lra]. replace (2 * INR N * IZR q * PI) with (2 * INR N * (IZR q * PI)) by ring. rewrite <- Hq. field. lra. }
    unfold T; clear T. rewrite (lsum_map_ext _ (fun k => cos (INR k * x))) by (intros k _; f_equal; unfold x; field; lra).
    apply (Rmult_eq_reg_l (sin (x / 2))); [|exact Sx]. rewrite Rmult_0_r.
    pose proof (sin_half_sum x (N - 1)) as H. rewrite minus_INR in H by lia. cbn [INR] in H.
    replace ((INR N - 1 + / 2) * x) with (IZR m * PI - x / 2) in H by (unfold x; field; lra). rewrite sin_minus, (proj2 (cos_Zpi m)) in H.
    set (L := lsum _) in *. replace (sin (x / 2) * (1 + cos (IZR m * PI) + 2 * L)) with (sin (x / 2) + cos (IZR m * PI) * sin (x / 2) + 2 * sin (x / 2) * L) by ring. rewrite H. ring.
Qed.
(** *** series *)
Lemma series_lsum {A} (f : A -> nat -> R) (l : list A) : (forall a, In a l -> ex_series (f a)) ->
  ex_series (fun j => lsum (map (fun a => f a j) l)) /\ lsum (map (fun a => Series (f a)) l) = Series (fun j => lsum (map (fun a => f a j) l)).
Proof.
  induction l as [|a l IH]; intros H.
  - cbn. assert (Z : is_series (fun _ : nat => 0) 0). { apply is_series_Reals. intros eps He. exists O. intros n _. rewrite (sum_eq _ (fun _ => 0 * 0)) by (intros; ring). rewrite sum_cte. unfold R_dist. rewrite Rabs_minus_sym. replace (0 - 0 * 0 * INR (S n)) with 0 by ring. rewrite Rabs_R0. exact He. }
    split; [now exists 0|symmetry; now apply is_series_unique].
  - destruct (IH ltac:(intros; apply H; now right)) as [E1 E2]. assert (Ea : ex_series (f a)) by (apply H; now left). split.
    + apply (ex_series_ext (fun j => f a j + lsum (map (fun a0 => f a0 j) l))); [reflexivity|]. apply (ex_series_plus (f a)); assumption.
    + change (Series (f a) + lsum (map (fun a0 => Series (f a0)) l) = Series (fun j => f a j + lsum (map (fun a0 => f a0 j) l))). rewrite Series_plus by assumption. now rewrite E2.
Qed.

Lemma sparse_series (b : nat -> R) (n P : nat) (L : R) : (1 <= P)%nat -> (forall j, (~ exists i, j = n + P * i)%nat -> b j = 0) -> is_series b L -> is_series (fun i => b (n + P * i)%nat) L.
Proof.
  intros HP Hb HL.
  assert (E : forall I, sum_n (fun i => b (n + P * i)%nat) I = sum_n b (n + P * I)).
  { assert (Z : forall m d, (forall j, (m < j <= m + d)%nat -> b j = 0) -> sum_n b (m + d) = sum_n b m).
    { intros m d. induction d; intros H; [f_equal; lia|]. replace (m + S d)%nat with (S (m + d)) by lia. rewrite sum_Sn, IHd by (intros; apply H; lia). rewrite (H (S (m + d))) by lia. apply (plus_zero_r (G := R_AbelianGroup)). }
    induction I as [|I IH].
    - rewrite sum_O. replace (n + P * 0)%nat with n by lia. destruct n as [|n']. { now rewrite sum_O. }
      rewrite sum_Sn. pose proof (Z 0%nat n') as Z0. cbn [Nat.add] in Z0. rewrite Z0, sum_O.
      + rewrite (Hb 0%nat). { symmetry. apply (plus_zero_l (G := R_AbelianGroup)). } intros [i Hi]. lia.
      + intros j Hj. apply Hb. intros [i Hi]. lia.
    - rewrite sum_Sn, IH. replace (n + P * S I)%nat with (S (n + P * I + (P - 1))) by lia. rewrite sum_Sn. rewrite (Z (n + P * I)%nat (P - 1)%nat); [reflexivity|].
      intros j Hj. apply Hb. intros [i Hi]. subst j. assert (I < i)%nat by nia. assert (S I <= i)%nat by lia. nia. }
  unfold is_series in *. apply (filterlim_ext (fun I => sum_n b (n + P * I))); [intros; symmetry; apply E|].
  apply (filterlim_comp _ _ _ (fun I => n + P * I)%nat (sum_n b) eventually eventually (locally L)); [|exact HL].
  intros Q [M HM]. exists M. intros I HI. apply HM. nia.
Qed.
Section Raw.
Variables (mgf : R * R -> R * R) (a : nat -> R) (n l : nat) (alpha : R).
Hypotheses (Hn : (1 <= n)%nat) (Hl : (1 <= l)%nat) (Ha : alpha <> 0).
Let rho := alpha * mm_radius n l.
Let N := (n * l)%nat.
Hypothesis HM : real_series_on a rho mgf.
Let c j := a j * rho ^ j.
Lemma N_pos : (1 <= N)%nat. Proof. unfold N. nia. Qed.
Lemma rho_nz : rho <> 0. Proof. unfold rho, mm_radius. apply Rmult_integral_contrapositive_currified; [exact Ha|]. apply Rgt_not_eq. unfold Rpower. apply exp_pos. Qed.
Lemma ex_c (f : nat -> R) : (forall j, Rabs (f j) <= 1) -> ex_series (fun j => c j * f j).
Proof.
  intros Hf. apply (ex_series_Rabs (fun j => c j * f j)). apply (ex_series_le (V := R_CompleteNormedModule) (fun j => Rabs (c j * f j)) (fun j => Rabs (a j * rho ^ j))); [|exact (proj1 HM)].
  intros j. change (Rabs (Rabs (c j * f j)) <= Rabs (a j * rho ^ j)). rewrite Rabs_Rabsolu, Rabs_mult. fold (c j). pose proof (Rabs_pos (c j)). specialize (Hf j). pose proof (Rabs_pos (f j)). nra.
Qed.
Lemma cos_le1 x : Rabs (cos x) <= 1. Proof. apply Rabs_le. pose proof (COS_bound x). lra. Qed.
Lemma sin_le1 x : Rabs (sin x) <= 1. Proof. apply Rabs_le. pose proof (SIN_bound x). lra. Qed.
Lemma mgf_rot t s : cre (cmul (mgf (cpolar rho t)) (cpolar 1 s)) = Series (fun j => c j * cos (INR j * t + s)).
Proof.
  unfold cpolar. rewrite (proj2 HM t). unfold cre, cmul. cbn [fst snd]. rewrite !Rmult_1_l.
  rewrite <- (Series_scal_r (cos s)), <- (Series_scal_r (sin s)). fold (c 0).
  rewrite <- Series_minus.
  - apply Series_ext. intros j. rewrite cos_plus. fold (c j). ring.
  - apply (ex_series_ext (fun j => c j * (cos (INR j * t) * cos s))). { intros ?; Req; unfold c; ring. } apply ex_c. intros j. rewrite Rabs_mult. pose proof (cos_le1 (INR j * t)). pose proof (cos_le1 s). pose proof (Rabs_pos (cos (INR j * t))). pose proof (Rabs_pos (cos s)). nra.
  - apply (ex_series_ext (fun j => c j * (sin (INR j * t) * sin s))). { intros ?; Req; unfold c; ring. } apply ex_c. intros j. rewrite Rabs_mult. pose proof (sin_le1 (INR j * t)). pose proof (sin_le1 s). pose proof (Rabs_pos (sin (INR j * t))). pose proof (Rabs_pos (sin s)). nra.
Qed.
Lemma neg1_pow k : (-1) ^ k = cos (INR k * PI).
Proof.
  induction k. { cbn. rewrite Rmult_0_l, cos_0. reflexivity. } rewrite S_INR. replace ((INR k + 1) * PI) with (INR k * PI + PI) by ring. rewrite neg_cos, <- IHk. cbn. ring.
Qed.
Lemma mm_raw_series : mm_raw mgf n l alpha = INR (fact n) * Series (fun i => a (n + 2 * n * l * i)%nat * rho ^ (2 * n * l * i)).
Proof.
  unfold mm_raw. cbv zeta. fold rho. pose proof N_pos as HN. assert (HNR : 0 < INR N) by (apply lt_0_INR; lia). assert (Hl' : 0 < INR l) by (apply lt_0_INR; lia). assert (Hn' : 0 < INR n) by (apply lt_0_INR; lia).
  assert (EN : INR N = INR n * INR l) by (unfold N; apply mult_INR).
  assert (E0 : cre (mgf (rho, 0)) = Series (fun j => c j * 1)).
  { pose proof (proj2 HM 0) as H. rewrite cos_0, sin_0, Rmult_1_r, Rmult_0_r in H. rewrite H. unfold cre. cbn [fst]. apply Series_ext. intros j. rewrite Rmult_0_r, cos_0. reflexivity. }
  assert (E1 : cre (mgf (- rho, 0)) = Series (fun j => c j * cos (INR j * PI))).
  { pose proof (proj2 HM PI) as H. rewrite cos_PI, sin_PI, Rmult_0_r in H. replace (- rho) with (rho * -1) by ring. rewrite H. reflexivity. }
  rewrite E0, E1. rewrite (lsum_map_ext _ (fun k => Series (fun j => c j * cos (IZR (Z.of_nat j - Z.of_nat n) * (PI * INR k / INR N))))).
  2:{ intros k _. rewrite mgf_rot. apply Series_ext. intros j. f_equal. f_equal. rewrite minus_IZR, <- !INR_IZR_INZ. unfold N. rewrite mult_INR. field. lra. }
  destruct (series_lsum (fun k j => c j * cos (IZR (Z.of_nat j - Z.of_nat n) * (PI * INR k / INR N))) (seq 1 (n * l - 1))) as [X1 X2].
  { intros k _. apply ex_c. intros; apply cos_le1. }
  rewrite X2. rewrite <- (Series_scal_l ((-1) ^ n)), <- (Series_scal_l 2).
  assert (A0 : ex_series (fun j => c j * 1)) by (apply ex_c; intros; rewrite Rabs_R1; lra).
  assert (A1 : ex_series (fun j => (-1) ^ n * (c j * cos (INR j * PI)))). { apply (ex_series_scal_l (K := R_AbsRing) (V := R_NormedModule) ((-1) ^ n) (fun j => c j * cos (INR j * PI))). apply ex_c. intros; apply cos_le1. }
  assert (A2 : ex_series (fun j => 2 * lsum (map (fun k => c j * cos (IZR (Z.of_nat j - Z.of_nat n) * (PI * INR k / INR N))) (seq 1 (n * l - 1))))).
  { apply (ex_series_scal_l (K := R_AbsRing) (V := R_NormedModule) 2 (fun j => lsum (map (fun k => c j * cos (IZR (Z.of_nat j - Z.of_nat n) * (PI * INR k / INR N))) (seq 1 (n * l - 1))))). exact X1. }
  assert (A01 : ex_series (fun j => c j * 1 + (-1) ^ n * (c j * cos (INR j * PI)))) by (apply (ex_series_plus (V := R_NormedModule) (fun j => c j * 1)); assumption).
  rewrite <- (Series_plus _ _ A0 A1), <- (Series_plus _ _ A01 A2).
  set (T := fun j => 1 + cos (IZR (Z.of_nat j - Z.of_nat n) * PI) + 2 * lsum (map (fun k => cos (IZR (Z.of_nat j - Z.of_nat n) * (PI * INR k / INR N))) (seq 1 (N - 1)))).
  assert (ET : forall j, c j * 1 + (-1) ^ n * (c j * cos (INR j * PI)) + 2 * lsum (map (fun k => c j * cos (IZR (Z.of_nat j - Z.of_nat n) * (PI * INR k / INR N))) (seq 1 (n * l - 1))) = c j * T j).
  { intros j. unfold T. rewrite lsum_map_scal. fold N. rewrite neg1_pow. rewrite minus_IZR, <- !INR_IZR_INZ. replace ((INR j - INR n) * PI) with (INR j * PI - INR n * PI) by ring. rewrite cos_minus.
    replace (sin (INR n * PI)) with 0. 2:{ symmetry. rewrite INR_IZR_INZ. apply cos_Zpi. } ring. }
  rewrite (Series_ext _ _ ET).
  assert (TB : ex_series (fun j => c j * T j)). { apply (ex_series_ext _ _ ET). apply (ex_series_plus (V := R_NormedModule) (fun j => c j * 1 + (-1) ^ n * (c j * cos (INR j * PI)))); assumption. }
  assert (SP : is_series (fun i => c (n + 2 * N * i)%nat * T (n + 2 * N * i)%nat) (Series (fun j => c j * T j))).
  { apply (sparse_series (fun j => c j * T j) n (2 * N)); [lia| |apply Series_correct; exact TB]. intros j Hj. unfold T.
    rewrite (proj2 (disc_orth N (Z.of_nat j - Z.of_nat n) HN)); [ring|]. intros [q Hq]. apply Hj. exists (Z.to_nat q). assert (0 <= q)%Z by nia. lia. }
  apply is_series_unique in SP. rewrite <- SP.
  rewrite (Series_ext _ (fun i => 2 * INR N * rho ^ n * (a (n + 2 * n * l * i)%nat * rho ^ (2 * n * l * i)))).
  2:{ intros i. unfold T. rewrite (proj1 (disc_orth N _ HN)). 2:{ exists (Z.of_nat i). lia. } unfold c. replace (n + 2 * N * i)%nat with (n + 2 * n * l * i)%nat by (unfold N; lia). rewrite pow_add. ring. }
  rewrite Series_scal_l, EN. field. repeat split; try lra. apply pow_nonzero, rho_nz.
Qed.
Lemma rho_pow i : rho ^ (2 * n * l * i) = alpha ^ (2 * n * l * i) * / (10 ^ (11 * i)).
Proof.
  unfold rho. rewrite Rpow_mult_distr. f_equal. unfold mm_radius. rewrite <- Rpower_pow by (unfold Rpower; apply exp_pos). rewrite Rpower_mult.
  assert (0 < INR l) by (apply lt_0_INR; lia). assert (0 < INR n) by (apply lt_0_INR; lia).
  replace (- 11 / (2 * INR n * INR l) * INR (2 * n * l * i)) with (- INR (11 * i)). { rewrite Rpower_Ropp, Rpower_pow by lra. reflexivity. }
  rewrite !mult_INR. cbn [INR]. field. lra.
Qed.
End Raw.
(** error bound *)
Lemma geom_tail (f : nat -> R) (B x : R) : 0 <= B -> 0 <= x < 1 -> (forall i, (1 <= i)%nat -> Rabs (f i) <= B * x ^ i) -> Rabs (Series f - f 0%nat) <= B * x / (1 - x).
Proof.
  intros HB Hx Hf. assert (EG : ex_series (fun i => Rabs B * x ^ i)) by (apply (ex_series_scal_l (K := R_AbsRing) (V := R_NormedModule) (Rabs B) (fun i => x ^ i)); apply ex_series_geom; rewrite Rabs_pos_eq; lra).
  assert (E1 : ex_series (fun i => Rabs (f (S i)))).
  { apply (ex_series_le (V := R_CompleteNormedModule) (fun i => Rabs (f (S i))) (fun i => B * x * x ^ i)).
    - intros i. change (Rabs (Rabs (f (S i))) <= B * x * x ^ i). rewrite Rabs_Rabsolu. eapply Rle_trans; [apply Hf; lia|]. right. cbn. ring.
    - apply (ex_series_scal_l (K := R_AbsRing) (V := R_NormedModule) (B * x) (fun i => x ^ i)). apply ex_series_geom. rewrite Rabs_pos_eq; lra. }
  assert (E2 : ex_series f). { apply ex_series_incr_1. apply (ex_series_Rabs (fun i => f (S i))). exact E1. }
  rewrite (Series_incr_1 f E2). replace (f 0%nat + Series (fun k => f (S k)) - f 0%nat) with (Series (fun k => f (S k))) by ring.
  eapply Rle_trans; [apply Series_Rabs; exact E1|]. replace (B * x / (1 - x)) with (Series (fun i => B * x * x ^ i)).
  - apply Series_le; [|apply (ex_series_scal_l (K := R_AbsRing) (V := R_NormedModule) (B * x) (fun i => x ^ i)); apply ex_series_geom; rewrite Rabs_pos_eq; lra].
    intros i. split; [apply Rabs_pos|]. eapply Rle_trans; [apply Hf; lia|]. right. cbn. ring.
  - rewrite Series_scal_l, Series_geom by (rewrite Rabs_pos_eq; lra). unfold Rdiv. ring.
Qed.
Lemma mm_raw_error mgf a n l alpha B : (1 <= n)%nat -> (1 <= l)%nat -> alpha <> 0 -> real_series_on a (alpha * mm_radius n l) mgf -> 0 <= B ->
  (forall i, (1 <= i)%nat -> Rabs (a (n + 2 * n * l * i)%nat * alpha ^ (2 * n * l * i)) <= B) ->
  Rabs (mm_raw mgf n l alpha - INR (fact n) * a n) <= INR (fact n) * B * (/ 10 ^ 11 / (1 - / 10 ^ 11)).
Proof.
  intros Hn Hl Ha HM HB HA. rewrite (mm_raw_series mgf a n l alpha Hn Hl Ha HM). set (f := fun i => _ * _). 
  assert (X : 0 < / 10 ^ 11 < 1). { split; [apply Rinv_0_lt_compat, pow_lt; lra|]. rewrite <- Rinv_1 at 1. apply Rinv_lt_contravar; [rewrite Rmult_1_l; apply pow_lt; lra|]. rewrite <- (pow1 11) at 1. lra. }
  assert (F0 : f 0%nat = a n). { unfold f. rewrite !Nat.mul_0_r, Nat.add_0_r. cbn [pow]. ring. }
  pose proof (geom_tail f B (/ 10 ^ 11) HB ltac:(lra)) as G. rewrite <- F0. rewrite <- Rmult_minus_distr_l, Rabs_mult, (Rabs_pos_eq (INR (fact n))) by apply pos_INR.
  replace (INR (fact n) * B * (/ 10 ^ 11 / (1 - / 10 ^ 11))) with (INR (fact n) * (B * / 10 ^ 11 / (1 - / 10 ^ 11))) by (unfold Rdiv; ring).
  apply Rmult_le_compat_l; [apply pos_INR|]. apply G. intros i Hi. unfold f. rewrite (rho_pow n l alpha Hn Hl). rewrite <- Rmult_assoc, Rabs_mult.
  replace (/ 10 ^ (11 * i)) with ((/ 10 ^ 11) ^ i) by (rewrite pow_mult, pow_inv; reflexivity). rewrite (Rabs_pos_eq ((/ 10 ^ 11) ^ i)) by (apply pow_le; lra).
  apply Rmult_le_compat_r; [apply pow_le; lra|]. apply HA. exact Hi.
Qed.
(** the recurrence of _run and the replacements *)
Lemma mm_tail_spec mgf l m : forall i a b k, (k < m)%nat -> exists al, nth k (mm_tail mgf l i m a b) 0 = mm_raw mgf (i + k) l al.
Proof.
  induction m; intros i a b k Hk; [lia|]. cbn [mm_tail]. destruct k; [rewrite Nat.add_0_r; eexists; reflexivity|]. cbn [nth]. destruct (IHm (S i) b (mm_raw mgf i l (INR (i - 1) * a / b)) k ltac:(lia)) as [al E]. exists al. rewrite E. f_equal. lia.
Qed.
Lemma mm_tail_length mgf l m : forall i a b, length (mm_tail mgf l i m a b) = m.
Proof. induction m; intros; cbn; [reflexivity|]. now rewrite IHm. Qed.
Lemma mm_run_spec mgf l n m1 m2 k : (2 <= n)%nat -> (k < n)%nat -> exists al, nth k (mm_run mgf l n m1 m2) 0 = mm_raw mgf (S k) l al.
Proof.
  intros Hn Hk. unfold mm_run. cbv zeta. destruct k as [|[|k]]; [eexists; reflexivity|eexists; reflexivity|]. cbn [nth]. destruct (mm_tail_spec mgf l (n - 2) 3 (mm_raw mgf 1 l (2 * m1 / m2)) (mm_raw mgf 2 l (2 * m1 / m2)) k ltac:(lia)) as [al E]. exists al. rewrite E. f_equal.
Qed.
Lemma mm_run_length mgf l n m1 m2 : (2 <= n)%nat -> length (mm_run mgf l n m1 m2) = n.
Proof. intros. unfold mm_run. cbn. rewrite mm_tail_length. lia. Qed.
Lemma mm_replace_nth out i v k : (i < length out)%nat -> nth k (mm_replace out i v) 0 = if Nat.eqb k i then v else nth k out 0.
Proof.
  intros Hi. unfold mm_replace. destruct (Nat.eqb k i) eqn:E.
  - apply Nat.eqb_eq in E. subst k. rewrite app_nth2; rewrite firstn_length_le by lia; [|lia]. rewrite Nat.sub_diag. reflexivity.
  - apply Nat.eqb_neq in E. destruct (Nat.lt_ge_cases k i).
    + rewrite app_nth1 by (rewrite firstn_length_le; lia). rewrite <- (firstn_skipn i out) at 2. rewrite app_nth1 by (rewrite firstn_length_le; lia). reflexivity.
    + rewrite app_nth2; rewrite firstn_length_le by lia; [|lia]. rewrite <- (firstn_skipn (S i) out) at 2. rewrite app_nth2; rewrite firstn_length_le by lia; [|lia].
      replace (k - i)%nat with (S (k - S i)) by lia. reflexivity.
Qed.
Lemma mm_replace_length out i v : (i < length out)%nat -> length (mm_replace out i v) = length out.
Proof. intros. unfold mm_replace. rewrite app_length, firstn_length_le by lia. cbn [length]. rewrite skipn_length. lia. Qed.
Lemma mm_moments_spec mgf l mean var n0 : let n := Nat.max n0 2 in let out := mm_moments mgf l mean var n0 in
  length out = n /\
  (forall m, mean = Some m -> nth 0 out 0 = m) /\
  (forall v, var = Some v -> nth 1 out 0 = v + nth 0 out 0 ^ 2) /\
  forall k, (k < n)%nat -> (k = 0%nat -> mean = None) -> (k = 1%nat -> var = None) -> exists al, nth k out 0 = mm_raw mgf (S k) l al.
Proof.
  intros n out. unfold out, mm_moments. cbv zeta. fold n. assert (Hn : (2 <= n)%nat) by (unfold n; lia).
  set (m1 := match mean with Some m => m | None => mm_raw mgf 1 2 1 end). set (m2 := match var with Some v => v + m1 ^ 2 | None => mm_raw mgf 2 1 (1 / m1) end).
  pose proof (mm_run_length mgf l n m1 m2 Hn) as L. pose proof (fun k => mm_run_spec mgf l n m1 m2 k Hn) as S. set (o := mm_run mgf l n m1 m2) in *. clearbody o.
  destruct mean as [mm|], var as [v|]; cbn [nth].
  - rewrite !mm_replace_length by (rewrite ?mm_replace_length; lia). rewrite L. split; [reflexivity|]. rewrite !mm_replace_nth by (rewrite ?mm_replace_length; lia). cbn [Nat.eqb].
    split; [congruence|]. split; [congruence|]. intros k Hk H0 H1. assert (k <> 0%nat) by (intros E; specialize (H0 E); discriminate). assert (k <> 1%nat) by (intros E; specialize (H1 E); discriminate).
    rewrite !mm_replace_nth by (rewrite ?mm_replace_length; lia). rewrite (proj2 (Nat.eqb_neq k 1)), (proj2 (Nat.eqb_neq k 0)) by assumption. apply S. exact Hk.
  - rewrite !mm_replace_length by (rewrite ?mm_replace_length; lia). rewrite L. split; [reflexivity|]. rewrite !mm_replace_nth by (rewrite ?mm_replace_length; lia). cbn [Nat.eqb].
    split; [congruence|]. split; [congruence|]. intros k Hk H0 H1. assert (k <> 0%nat) by (intros E; specialize (H0 E); discriminate).
    rewrite !mm_replace_nth by (rewrite ?mm_replace_length; lia). rewrite (proj2 (Nat.eqb_neq k 0)) by assumption. apply S. exact Hk.
  - rewrite !mm_replace_length by (rewrite ?mm_replace_length; lia). rewrite L. split; [reflexivity|]. rewrite !mm_replace_nth by (rewrite ?mm_replace_length; lia). cbn [Nat.eqb].
    split; [congruence|]. split; [congruence|]. intros k Hk H0 H1. assert (k <> 1%nat) by (intros E; specialize (H1 E); discriminate).
    rewrite !mm_replace_nth by (rewrite ?mm_replace_length; lia). rewrite (proj2 (Nat.eqb_neq k 1)) by assumption. apply S. exact Hk.
  - split; [exact L|]. split; [congruence|]. split; [congruence|]. intros k Hk _ _. apply S. exact Hk.
Qed.
Lemma mm_cumulants_spec clog mgf l mean var n0 : let n := Nat.max n0 2 in let out := mm_cumulants clog mgf l mean var n0 in
  length out = n /\
  (forall m, mean = Some m -> nth 0 out 0 = m) /\
  (forall v, var = Some v -> nth 1 out 0 = v) /\
  forall k, (k < n)%nat -> (k = 0%nat -> mean = None) -> (k = 1%nat -> var = None) -> exists al, nth k out 0 = mm_raw (fun u => clog (mgf u)) (S k) l al.
Proof.
  intros n out. unfold out, mm_cumulants. cbv zeta. fold n. assert (Hn : (2 <= n)%nat) by (unfold n; lia). set (cgf := fun u => clog (mgf u)).
  set (m1 := match mean with Some m => m | None => mm_raw cgf 1 2 1 end). set (m2 := match var with Some v => v | None => mm_raw cgf 2 1 (1 / m1) end).
  pose proof (mm_run_length cgf l n m1 m2 Hn) as L. pose proof (fun k => mm_run_spec cgf l n m1 m2 k Hn) as S. set (o := mm_run cgf l n m1 m2) in *. clearbody o.
  destruct mean as [mm|], var as [v|]; cbn [nth].
  - rewrite !mm_replace_length by (rewrite ?mm_replace_length; lia). rewrite L. split; [reflexivity|]. rewrite !mm_replace_nth by (rewrite ?mm_replace_length; lia). cbn [Nat.eqb].
    split; [congruence|]. split; [congruence|]. intros k Hk H0 H1. assert (k <> 0%nat) by (intros E; specialize (H0 E); discriminate). assert (k <> 1%nat) by (intros E; specialize (H1 E); discriminate).
    rewrite !mm_replace_nth by (rewrite ?mm_replace_length; lia). rewrite (proj2 (Nat.eqb_neq k 1)), (proj2 (Nat.eqb_neq k 0)) by assumption. apply S. exact Hk.
  - rewrite !mm_replace_length by (rewrite ?mm_replace_length; lia). rewrite L. split; [reflexivity|]. rewrite !mm_replace_nth by (rewrite ?mm_replace_length; lia). cbn [Nat.eqb].
    split; [congruence|]. split; [congruence|]. intros k Hk H0 H1. assert (k <> 0%nat) by (intros E; specialize (H0 E); discriminate).
    rewrite !mm_replace_nth by (rewrite ?mm_replace_length; lia). rewrite (proj2 (Nat.eqb_neq k 0)) by assumption. apply S. exact Hk.
  - rewrite !mm_replace_length by (rewrite ?mm_replace_length; lia). rewrite L. split; [reflexivity|]. rewrite !mm_replace_nth by (rewrite ?mm_replace_length; lia). cbn [Nat.eqb].
    split; [congruence|]. split; [congruence|]. intros k Hk H0 H1. assert (k <> 1%nat) by (intros E; specialize (H1 E); discriminate).
    rewrite !mm_replace_nth by (rewrite ?mm_replace_length; lia). rewrite (proj2 (Nat.eqb_neq k 1)) by assumption. apply S. exact Hk.
  - split; [exact L|]. split; [congruence|]. split; [congruence|]. intros k Hk _ _. apply S. exact Hk.
Qed.
(** *** Gram-Charlier *)
Lemma c2m_list_length kappa n : length (c2m_list kappa n) = S n.
Proof. induction n as [|[|n] IH]; [reflexivity|reflexivity|]. change (c2m_list kappa (S (S n))) with (c2m_list kappa (S n) ++ [lsum (map (fun k => Binomial.C (S n) k * kappa (S (S n) - k)%nat * nth k (c2m_list kappa (S n)) 0) (seq 0 (S n)))]). rewrite app_length, IH. cbn [length]. lia. Qed.
Lemma c2m_prefix kappa m k : (k <= m)%nat -> nth k (c2m_list kappa m) 0 = nth k (c2m_list kappa k) 0.
Proof.
  induction m as [|[|m] IH]; intros H.
  - replace k with 0%nat by lia. reflexivity.
  - destruct k as [|[|k]]; [reflexivity|reflexivity|lia].
  - destruct (Nat.eq_dec k (S (S m))) as [->|N]; [reflexivity|]. rewrite <- (IH ltac:(lia)). change (c2m_list kappa (S (S m))) with (c2m_list kappa (S m) ++ [lsum (map (fun k => Binomial.C (S m) k * kappa (S (S m) - k)%nat * nth k (c2m_list kappa (S m)) 0) (seq 0 (S m)))]).
    rewrite app_nth1; [reflexivity|]. rewrite c2m_list_length. lia.
Qed.
Lemma c2m_rec kappa n : kappa 1%nat = 0 -> c2m kappa (S (S n)) = lsum (map (fun k => Binomial.C (S n) k * kappa (S (S n) - k)%nat * c2m kappa k) (seq 0 (S n))).
Proof.
  intros K1. unfold c2m at 1. change (c2m_list kappa (S (S n))) with (c2m_list kappa (S n) ++ [lsum (map (fun k => Binomial.C (S n) k * kappa (S (S n) - k)%nat * nth k (c2m_list kappa (S n)) 0) (seq 0 (S n)))]).
  rewrite app_nth2 by (rewrite c2m_list_length; lia). rewrite c2m_list_length, Nat.sub_diag. cbn [nth]. apply lsum_map_ext. intros k Hk. apply in_seq in Hk. f_equal.
  rewrite c2m_prefix by lia. unfold c2m. destruct k as [|[|k]]; [reflexivity|cbn; now rewrite K1|reflexivity].
Qed.
Lemma lsum_seq_sum_f f n : lsum (map f (seq 0 (S n))) = sum_f_R0 f n.
Proof. induction n; [cbn; ring|]. rewrite seq_S, map_app, lsum_app, IHn. cbn. ring. Qed.
Lemma sum_f_rev f n : sum_f_R0 f n = sum_f_R0 (fun k => f (n - k)%nat) n.
Proof.
  revert f. induction n; intros f; [reflexivity|]. rewrite decomp_sum by lia. cbn [pred]. rewrite (IHn (fun k => f (S k))). rewrite tech5. rewrite Nat.sub_diag, Rplus_comm. f_equal. apply sum_eq. intros k Hk. f_equal. lia.
Qed.
Lemma PS_mult_comm' a b n : PS_mult a b n = PS_mult b a n.
Proof. unfold PS_mult. rewrite sum_f_rev. apply sum_eq. intros k Hk. replace (n - (n - k))%nat with k by lia. ring. Qed.
Lemma c2m_ode kappa n : kappa 1%nat = 0 ->
  PS_derive (fun j => c2m kappa j / INR (fact j)) n = PS_mult (PS_derive (fun j => if Nat.eqb j 0 then 0 else kappa j / INR (fact j))) (fun j => c2m kappa j / INR (fact j)) n.
Proof.
  intros K1. rewrite PS_mult_comm'. unfold PS_derive, PS_mult. destruct n.
  - cbn [sum_f_R0 Nat.eqb Nat.sub c2m fact]. rewrite K1. cbn. field.
  - rewrite c2m_rec by exact K1. set (m := S n).
    assert (F : forall j, INR (fact j) <> 0) by (intros; apply INR_fact_neq_0).
    rewrite (sum_eq _ (fun k => c2m kappa k / INR (fact k) * (kappa (S (m - k)) / INR (fact (m - k))))).
    2:{ intros k Hk. cbn [Nat.eqb]. rewrite (fact_simpl (m - k)), mult_INR. field. repeat split; try apply F. apply not_0_INR. lia. }
    rewrite <- lsum_seq_sum_f. rewrite (seq_S m), map_app, lsum_app. cbn [map Nat.add]. rewrite Nat.sub_diag, K1.
    match goal with |- _ = ?x + lsum [?y] => replace (lsum [y]) with 0 by (change (lsum [y]) with (y + 0); unfold Rdiv; ring) end. rewrite Rplus_0_r.
    rewrite (fact_simpl m), mult_INR.
    transitivity (/ INR (fact m) * lsum (map (fun k => Binomial.C m k * kappa (S m - k)%nat * c2m kappa k) (seq 0 m))). { field. split; [apply F|apply not_0_INR; lia]. }
    rewrite <- lsum_map_scal. apply lsum_map_ext. intros k Hk. apply in_seq in Hk. unfold Binomial.C. replace (S m - k)%nat with (S (m - k)) by lia. field. repeat split; apply F.
Qed.
(** the coefficients as a formal power series *)
Definition gc_seq (cumul : nat -> R) (sigma : R) (n : nat) : R := match n with O => 1 | S k => gc_coef cumul sigma k end.
Definition gc_exponent (cumul : nat -> R) (sigma : R) (n : nat) : R := if Nat.leb n 2 then 0 else cumul n / (sigma ^ n * INR (fact n)).
Lemma gc_ode cumul sigma n : sigma <> 0 -> PS_derive (gc_seq cumul sigma) n = PS_mult (PS_derive (gc_exponent cumul sigma)) (gc_seq cumul sigma) n.
Proof.
  intros Hs. pose proof (c2m_ode (gc_std cumul sigma) n eq_refl) as H.
  assert (E : forall j, c2m (gc_std cumul sigma) j / INR (fact j) = gc_seq cumul sigma j). { intros [|j]; [cbn; field|]. unfold gc_seq, gc_coef, Rdiv. ring. }
  assert (E2 : forall j, (if Nat.eqb j 0 then 0 else gc_std cumul sigma j / INR (fact j)) = gc_exponent cumul sigma j).
  { intros j. unfold gc_exponent, gc_std. destruct j as [|[|[|j]]]; cbn [Nat.eqb Nat.leb]; try (unfold Rdiv; ring). rewrite pow_inv. pose proof (INR_fact_neq_0 (S (S (S j)))). pose proof (pow_nonzero sigma (S (S (S j))) Hs). field. split; assumption. }
  unfold PS_derive in *. rewrite <- E. rewrite H. unfold PS_mult. apply sum_eq. intros k _. rewrite E, E2. reflexivity.
Qed.
Lemma c2m_values kappa : kappa 1%nat = 0 -> kappa 2%nat = 0 ->
  c2m kappa 2 = 0 /\ c2m kappa 3 = kappa 3%nat /\ c2m kappa 4 = kappa 4%nat /\ c2m kappa 5 = kappa 5%nat /\ c2m kappa 6 = kappa 6%nat + 10 * kappa 3%nat ^ 2.
Proof.
  intros K1 K2. pose proof (fun n => c2m_rec kappa n K1) as H. assert (C0 : c2m kappa 0 = 1) by reflexivity. assert (C1 : c2m kappa 1 = 0) by exact K1.
  assert (C2 : c2m kappa 2 = 0). { rewrite H. cbn [seq map Nat.sub]. rewrite C0, K2. unfold Binomial.C. cbn. field. }
  assert (C3 : c2m kappa 3 = kappa 3%nat). { rewrite H. cbn [seq map Nat.sub]. rewrite C0, C1, K2. unfold Binomial.C. generalize (kappa 3%nat). intros. cbn. field. }
  assert (C4 : c2m kappa 4 = kappa 4%nat). { rewrite H. cbn [seq map Nat.sub]. rewrite C0, C1, C2, K2. unfold Binomial.C. generalize (kappa 3%nat) (kappa 4%nat). intros. cbn. field. }
  assert (C5 : c2m kappa 5 = kappa 5%nat). { rewrite H. cbn [seq map Nat.sub]. rewrite C0, C1, C2, C3, K2. unfold Binomial.C. generalize (kappa 3%nat) (kappa 4%nat) (kappa 5%nat). intros. cbn. field. }
  repeat split; try assumption. rewrite H. cbn [seq map Nat.sub]. rewrite C0, C1, C2, C3, C4, K2. unfold Binomial.C. generalize (kappa 3%nat) (kappa 4%nat) (kappa 5%nat) (kappa 6%nat). intros. cbn. field.
Qed.
Lemma gc_values cumul sigma : sigma <> 0 ->
  gc_coef cumul sigma 0 = 0 /\ gc_coef cumul sigma 1 = 0 /\ gc_coef cumul sigma 2 = cumul 3%nat / (6 * sigma ^ 3) /\ gc_coef cumul sigma 3 = cumul 4%nat / (24 * sigma ^ 4) /\
  gc_coef cumul sigma 4 = cumul 5%nat / (120 * sigma ^ 5) /\ gc_coef cumul sigma 5 = (cumul 6%nat + 10 * cumul 3%nat ^ 2) / (720 * sigma ^ 6).
Proof.
  intros Hs. destruct (c2m_values (gc_std cumul sigma) eq_refl eq_refl) as (C2 & C3 & C4 & C5 & C6). unfold gc_coef. rewrite C2, C3, C4, C5, C6.
  change (c2m (gc_std cumul sigma) 1) with 0. unfold gc_std. cbn [Nat.leb]. repeat split.
  - ring.
  - ring.
  - cbn. field. exact Hs.
  - cbn. field. exact Hs.
  - cbn. field. exact Hs.
  - replace (INR (fact 6)) with 720 by (cbn; ring). field. exact Hs.
Qed.
(** averages *)
Lemma powrel_avg (x a : R) : -1 < x -> x * M_Sabr.powrel x a = RInt (fun t => Rpower t (a - 1)) 1 (1 + x).
Proof.
  intros Hx. unfold M_Sabr.powrel. destruct (Req_EM_T x 0) as [->|N]. { rewrite Rplus_0_r, RInt_point, Rmult_0_l. reflexivity. }
  symmetry. apply is_RInt_unique. assert (PT : forall t, Rmin 1 (1 + x) <= t -> 0 < t). { intros t. unfold Rmin. destruct (Rle_dec 1 (1 + x)); lra. }
  assert (C : forall t, 0 < t -> continuous (fun t => Rpower t (a - 1)) t). { intros t Ht. apply (ex_derive_continuous (V := R_NormedModule)). unfold Rpower. auto_derive. exact Ht. }
  destruct (Req_EM_T a 0) as [->|Na].
  - replace (x * (ln (1 + x) / x)) with (ln (1 + x) - ln 1) by (rewrite ln_1; field; exact N).
    apply (is_RInt_derive ln (fun t => Rpower t (0 - 1))). 2:{ intros t Ht. apply C, PT, Ht. }
    intros t Ht. specialize (PT t (proj1 Ht)). auto_derive; [exact PT|]. Req. replace (0 - 1) with (- (1)) by ring. rewrite Rpower_Ropp, Rpower_1 by exact PT. field. lra.
  - replace (x * ((exp (a * ln (1 + x)) - 1) / (a * x))) with (exp (a * ln (1 + x)) / a - exp (a * ln 1) / a) by (rewrite ln_1, Rmult_0_r, exp_0; field; split; assumption).
    apply (is_RInt_derive (fun t => exp (a * ln t) / a) (fun t => Rpower t (a - 1))). 2:{ intros t Ht. apply C, PT, Ht. }
    intros t Ht. specialize (PT t (proj1 Ht)). auto_derive; [exact PT|]. Req. unfold Rpower. replace ((a - 1) * ln t) with (a * ln t - ln t) by ring. unfold Rminus. rewrite exp_plus, exp_Ropp, exp_ln by exact PT. field. split; lra.
Qed.
(** a polynomial example *)
Definition lin_coef (j : nat) : R := match j with O => 1 | S O => / 2 | _ => 0 end.
Lemma series_two (f : nat -> R) : (forall j, (2 <= j)%nat -> f j = 0) -> is_series f (f 0%nat + f 1%nat).
Proof.
  intros H. apply is_series_Reals. intros e He. exists 1%nat. intros n Hn. assert (E : sum_f_R0 f n = f 0%nat + f 1%nat).
  { clear e He. induction n as [|[|n] IH]; [lia|reflexivity|]. rewrite tech5, (IH ltac:(lia)). rewrite (H (S (S n))) by lia. ring. }
  rewrite E. unfold R_dist. rewrite Rminus_diag_eq by reflexivity. rewrite Rabs_R0. exact He.
Qed.
Lemma lin_series rho : real_series_on lin_coef rho (fun z => (1 + fst z / 2, snd z / 2)).
Proof.
  split.
  - exists (Rabs (lin_coef 0 * rho ^ 0) + Rabs (lin_coef 1 * rho ^ 1)). apply (series_two (fun j => Rabs (lin_coef j * rho ^ j))). intros [|[|j]] Hj; try lia. cbn [lin_coef]. rewrite Rmult_0_l. apply Rabs_R0.
  - intros t. rewrite (is_series_unique _ _ (series_two (fun j => lin_coef j * rho ^ j * cos (INR j * t)) ltac:(intros [|[|j]] Hj; try lia; cbn [lin_coef]; ring))).
    rewrite (is_series_unique _ _ (series_two (fun j => lin_coef j * rho ^ j * sin (INR j * t)) ltac:(intros [|[|j]] Hj; try lia; cbn [lin_coef]; ring))).
    cbn [lin_coef fst snd]. change (INR 0) with 0. change (INR 1) with 1. rewrite Rmult_0_l, cos_0, sin_0, (Rmult_1_l t). cbn [pow]. f_equal; field.
Qed.
