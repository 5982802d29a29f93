(** Ju's correction: the moments implied by the corrected prices agree with the basket's to third order in the covariances. *)
From Coq Require Import Reals Lra Lia Arith List Psatz.
From Coquelicot Require Import Coquelicot.
From Verif Require Import Base Gauss Sums M_Params M_Multi Spec_Multi P_Jet P_Jet2 P_Gj P_Graph P_Ju.
Open Scope R_scope.

Definition z12 (A B C D E G H I m : R) : R :=
  let a1 := - A / (2 * m ^ 2) in
  let a2 := 2 * a1 ^ 2 - B / (2 * m ^ 2) in
  let a3 := 6 * a1 * a2 - 4 * a1 ^ 3 - C / (2 * m ^ 2) in
  let b1 := 2 * D / (4 * m ^ 3) in
  let b2 := a1 ^ 2 - a2 / 2 in
  let c1 := - a1 * b1 in
  let c2 := (9 * (8 * G + 2 * A * B) + 4 * (6 * E)) / (144 * m ^ 4) in
  let c3 := (4 * (6 * H) + 8 * I) / (48 * m ^ 3) in
  let c4 := a1 * a2 - 2 * a1 ^ 3 / 3 - a3 / 6 in
  let e2 := / 2 * (10 * a1 ^ 2 + a2 - 6 * b1 + 2 * b2) in
  let f2 := - (128 * a1 ^ 3 / 3 - a3 / 6 + 2 * a1 * b1 - a1 * b2 + 50 * c1 - 11 * c2 + 3 * c3 - c4) in
  let e3 := 2 * a1 ^ 2 - b1 in
  let f3 := - ((88 * a1 ^ 3 + 3 * a1 * (5 * b1 - 2 * b2) + 3 * (35 * c1 - 6 * c2 + c3)) / 3) in
  let f4 := - (20) * a1 ^ 3 / 3 + a1 * (- (4) * b1 + b2) - 10 * c1 + c2 in
  e2 - e3.
Definition z13 (A B C D E G H I m : R) : R :=
  let a1 := - A / (2 * m ^ 2) in
  let a2 := 2 * a1 ^ 2 - B / (2 * m ^ 2) in
  let a3 := 6 * a1 * a2 - 4 * a1 ^ 3 - C / (2 * m ^ 2) in
  let b1 := 2 * D / (4 * m ^ 3) in
  let b2 := a1 ^ 2 - a2 / 2 in
  let c1 := - a1 * b1 in
  let c2 := (9 * (8 * G + 2 * A * B) + 4 * (6 * E)) / (144 * m ^ 4) in
  let c3 := (4 * (6 * H) + 8 * I) / (48 * m ^ 3) in
  let c4 := a1 * a2 - 2 * a1 ^ 3 / 3 - a3 / 6 in
  let e2 := / 2 * (10 * a1 ^ 2 + a2 - 6 * b1 + 2 * b2) in
  let f2 := - (128 * a1 ^ 3 / 3 - a3 / 6 + 2 * a1 * b1 - a1 * b2 + 50 * c1 - 11 * c2 + 3 * c3 - c4) in
  let e3 := 2 * a1 ^ 2 - b1 in
  let f3 := - ((88 * a1 ^ 3 + 3 * a1 * (5 * b1 - 2 * b2) + 3 * (35 * c1 - 6 * c2 + c3)) / 3) in
  let f4 := - (20) * a1 ^ 3 / 3 + a1 * (- (4) * b1 + b2) - 10 * c1 + c2 in
  f2 - f3 + f4.
Definition z22 (A B C D E G H I m : R) : R :=
  let a1 := - A / (2 * m ^ 2) in
  let a2 := 2 * a1 ^ 2 - B / (2 * m ^ 2) in
  let a3 := 6 * a1 * a2 - 4 * a1 ^ 3 - C / (2 * m ^ 2) in
  let b1 := 2 * D / (4 * m ^ 3) in
  let b2 := a1 ^ 2 - a2 / 2 in
  let c1 := - a1 * b1 in
  let c2 := (9 * (8 * G + 2 * A * B) + 4 * (6 * E)) / (144 * m ^ 4) in
  let c3 := (4 * (6 * H) + 8 * I) / (48 * m ^ 3) in
  let c4 := a1 * a2 - 2 * a1 ^ 3 / 3 - a3 / 6 in
  let e2 := / 2 * (10 * a1 ^ 2 + a2 - 6 * b1 + 2 * b2) in
  let f2 := - (128 * a1 ^ 3 / 3 - a3 / 6 + 2 * a1 * b1 - a1 * b2 + 50 * c1 - 11 * c2 + 3 * c3 - c4) in
  let e3 := 2 * a1 ^ 2 - b1 in
  let f3 := - ((88 * a1 ^ 3 + 3 * a1 * (5 * b1 - 2 * b2) + 3 * (35 * c1 - 6 * c2 + c3)) / 3) in
  let f4 := - (20) * a1 ^ 3 / 3 + a1 * (- (4) * b1 + b2) - 10 * c1 + c2 in
  e3.
Definition z23 (A B C D E G H I m : R) : R :=
  let a1 := - A / (2 * m ^ 2) in
  let a2 := 2 * a1 ^ 2 - B / (2 * m ^ 2) in
  let a3 := 6 * a1 * a2 - 4 * a1 ^ 3 - C / (2 * m ^ 2) in
  let b1 := 2 * D / (4 * m ^ 3) in
  let b2 := a1 ^ 2 - a2 / 2 in
  let c1 := - a1 * b1 in
  let c2 := (9 * (8 * G + 2 * A * B) + 4 * (6 * E)) / (144 * m ^ 4) in
  let c3 := (4 * (6 * H) + 8 * I) / (48 * m ^ 3) in
  let c4 := a1 * a2 - 2 * a1 ^ 3 / 3 - a3 / 6 in
  let e2 := / 2 * (10 * a1 ^ 2 + a2 - 6 * b1 + 2 * b2) in
  let f2 := - (128 * a1 ^ 3 / 3 - a3 / 6 + 2 * a1 * b1 - a1 * b2 + 50 * c1 - 11 * c2 + 3 * c3 - c4) in
  let e3 := 2 * a1 ^ 2 - b1 in
  let f3 := - ((88 * a1 ^ 3 + 3 * a1 * (5 * b1 - 2 * b2) + 3 * (35 * c1 - 6 * c2 + c3)) / 3) in
  let f4 := - (20) * a1 ^ 3 / 3 + a1 * (- (4) * b1 + b2) - 10 * c1 + c2 in
  f3 - f4.
Definition z33 (A B C D E G H I m : R) : R :=
  let a1 := - A / (2 * m ^ 2) in
  let a2 := 2 * a1 ^ 2 - B / (2 * m ^ 2) in
  let a3 := 6 * a1 * a2 - 4 * a1 ^ 3 - C / (2 * m ^ 2) in
  let b1 := 2 * D / (4 * m ^ 3) in
  let b2 := a1 ^ 2 - a2 / 2 in
  let c1 := - a1 * b1 in
  let c2 := (9 * (8 * G + 2 * A * B) + 4 * (6 * E)) / (144 * m ^ 4) in
  let c3 := (4 * (6 * H) + 8 * I) / (48 * m ^ 3) in
  let c4 := a1 * a2 - 2 * a1 ^ 3 / 3 - a3 / 6 in
  let e2 := / 2 * (10 * a1 ^ 2 + a2 - 6 * b1 + 2 * b2) in
  let f2 := - (128 * a1 ^ 3 / 3 - a3 / 6 + 2 * a1 * b1 - a1 * b2 + 50 * c1 - 11 * c2 + 3 * c3 - c4) in
  let e3 := 2 * a1 ^ 2 - b1 in
  let f3 := - ((88 * a1 ^ 3 + 3 * a1 * (5 * b1 - 2 * b2) + 3 * (35 * c1 - 6 * c2 + c3)) / 3) in
  let f4 := - (20) * a1 ^ 3 / 3 + a1 * (- (4) * b1 + b2) - 10 * c1 + c2 in
  f4.

Section Ju2.
Variables (o : bsk) (fwd : vec).
Let n := bn o.
Let f := mv_v o fwd.
Let c := ma_cov (bk_ma o).
Let m := mv_m1 o fwd.
Hypothesis csym : forall i j, (i < n)%nat -> (j < n)%nat -> c i j = c j i.
Hypothesis fpos : forall i, (i < n)%nat -> 0 <= f i.
Hypothesis mpos : 0 < m.
Let A := gA n f c. Let B := gB n f c. Let C := gC n f c. Let D := gD n f c. Let E := gE n f c. Let G := gG n f c. Let H := gH n f c. Let I := gI n f c.
Lemma gm_eq : gm n f = m.
Proof using. reflexivity. Qed.
Notation zz z := (z A B C D E G H I m).
Lemma ju_corr_form K T s : ju_corr o fwd K T s m =
  K * ((T ^ 2 * zz z12 + T ^ 3 * zz z13) * pden m s K + (T ^ 2 * zz z22 + T ^ 3 * zz z23) * (pden m s K * d2f m s K / s) +
       T ^ 3 * zz z33 * (pden m s K * (d2f m s K ^ 2 - 1) / s ^ 2)).
Proof using fpos mpos.
  assert (S0 : forall j, rsum n (fun i => f i * (c i j * T)) = T * gav n f c j).
  { intros j. unfold gav. rewrite <- rsum_scal. apply rsum_ext. intros; ring. }
  assert (S1 : rsum n (fun j => rsum n (fun i => f i * (c i j * T)) * f j) = T * A).
  { unfold A, gA. rewrite <- rsum_scal. apply rsum_ext. intros j _. rewrite S0. ring. }
  assert (S2 : rsum n (fun j => rsum n (fun i => f i * (c i j * T) ^ 2) * f j) = T ^ 2 * B).
  { unfold B, gB. rewrite <- rsum_scal. apply rsum_ext. intros j _. rewrite (rsum_ext n _ (fun i => T ^ 2 * (f i * c i j ^ 2))) by (intros; ring). rewrite rsum_scal. ring. }
  assert (S3 : rsum n (fun j => rsum n (fun i => f i * (c i j * T) ^ 3) * f j) = T ^ 3 * C).
  { unfold C, gC. rewrite <- rsum_scal. apply rsum_ext. intros j _. rewrite (rsum_ext n _ (fun i => T ^ 3 * (f i * c i j ^ 3))) by (intros; ring). rewrite rsum_scal. ring. }
  assert (S4 : rsum n (fun j => f j * rsum n (fun i => f i * (c i j * T)) ^ 2) = T ^ 2 * D).
  { unfold D, gD. rewrite <- rsum_scal. apply rsum_ext. intros j _. rewrite S0. ring. }
  assert (S5 : rsum n (fun j => f j * rsum n (fun i => f i * (c i j * T)) ^ 3) = T ^ 3 * E).
  { unfold E, gE. rewrite <- rsum_scal. apply rsum_ext. intros j _. rewrite S0. ring. }
  assert (S6 : rsum n (fun j => rsum n (fun i => rsum n (fun i0 => f i0 * (c i0 i * T)) * f i * (c i j * T)) * (rsum n (fun i => f i * (c i j * T)) * f j)) = T ^ 3 * G).
  { unfold G, gG. rewrite <- rsum_scal. apply rsum_ext. intros j _. rewrite S0. rewrite (rsum_ext n _ (fun i => T ^ 2 * (gav n f c i * f i * c i j))) by (intros; rewrite S0; ring). rewrite rsum_scal. ring. }
  assert (S7 : rsum n (fun j => rsum n (fun i => f i * (c i j * T) ^ 2) * (rsum n (fun i => f i * (c i j * T)) * f j)) = T ^ 3 * H).
  { unfold H, gH. rewrite <- rsum_scal. apply rsum_ext. intros j _. rewrite S0. rewrite (rsum_ext n _ (fun i => T ^ 2 * (f i * c i j ^ 2))) by (intros; ring). rewrite rsum_scal. ring. }
  assert (S8 : rsum n (fun i => rsum n (fun j => rsum n (fun k => sqrt (f i) * (c i j * T) * sqrt (f j) * (sqrt (f j) * (c j k * T) * sqrt (f k)) * (sqrt (f k) * (c k i * T) * sqrt (f i))))) = T ^ 3 * I).
  { unfold I, gI. rewrite <- rsum_scal. apply rsum_ext. intros i Hi. rewrite <- rsum_scal. apply rsum_ext. intros j Hj. rewrite <- rsum_scal. apply rsum_ext. intros k Hk.
    rewrite <- (sqrt_sqrt (f i)) at 3 by auto. rewrite <- (sqrt_sqrt (f j)) at 3 by auto. rewrite <- (sqrt_sqrt (f k)) at 3 by auto. ring. }
  unfold ju_corr. cbv zeta. fold n. change (mv_v o fwd) with f. change (ma_cov (bk_ma o)) with c. fold n.
  rewrite S1, S2, S3, S4, S5, S6, S7, S8. unfold pden, d2f. replace (/ 2 * s) with (s / 2) by field.
  set (p := npdf _ / s). set (p1 := p * _ / s). set (p2 := p * _ / s ^ 2). f_equal.
  assert (M0 : m <> 0) by lra. clearbody A B C D E G H I p p1 p2 m. clear - M0.
  unfold z12, z13, z22, z23, z33. cbv zeta. field. exact M0.
Qed.
(** expansions of the basket moments *)
Variable M : R.
Hypothesis HM : 0 < M.
Lemma tayl_L4 (e : nat -> nat -> nat -> nat -> R) p : tayl M p (fun T => L4 n f (fun i j k l => exp (e i j k l * T))) (fun q => L4 n f (fun i j k l => e i j k l ^ q) / INR (fact q)).
Proof using HM.
  eapply tayl_ext; [reflexivity| |].
  2:{ unfold L4. apply (tayl_rsum M p n (fun i T => f i * rsum n (fun j => f j * rsum n (fun k => f k * rsum n (fun l => f l * exp (e i j k l * T)))))). intros i _. apply tayl_scal.
      apply (tayl_rsum M p n (fun j T => f j * rsum n (fun k => f k * rsum n (fun l => f l * exp (e i j k l * T))))). intros j _. apply tayl_scal.
      apply (tayl_rsum M p n (fun k T => f k * rsum n (fun l => f l * exp (e i j k l * T)))). intros k _. apply tayl_scal.
      apply (tayl_rsum M p n (fun l T => f l * exp (e i j k l * T))). intros l _. apply tayl_scal. apply (tayl_exp M HM p (e i j k l)). }
  intros q _. cbv beta. unfold Rdiv. rewrite Rmult_comm, <- L4_scal. unfold L4.
  apply rsum_ext; intros i _; f_equal; apply rsum_ext; intros j _; f_equal; apply rsum_ext; intros k _; f_equal; apply rsum_ext; intros l _; f_equal. ring.
Qed.
Lemma m2_L4 T : mv_m2 o fwd T / m ^ 2 = / m ^ 4 * L4 n f (fun i j k l => exp (c i j * T)).
Proof using mpos.
  rewrite (q2 n f (fun i j => exp (c i j * T))). change (gm n f) with m. unfold mv_m2, msum, mv_M2, mv_P. fold n c. rewrite rsum_swap.
  rewrite (rsum_ext n _ (fun j => rsum n (fun i => f i * exp (c i j * T)) * f j)).
  - field. lra.
  - intros j _. rewrite <- rsum_scal_r. apply rsum_ext. intros i _. unfold f. ring.
Qed.
Lemma m3_L4 T : mv_m3 o fwd T / m ^ 3 = / m ^ 4 * L4 n f (fun i j k l => exp ((c i j + c i k + c j k) * T)).
Proof using mpos csym.
  rewrite (q3 n f (fun i j k => exp ((c i j + c i k + c j k) * T))). change (gm n f) with m. unfold mv_m3, msum, matmul, mv_M2, mv_P. fold n c.
  rewrite (rsum_ext n _ (fun i => f i * rsum n (fun j => f j * rsum n (fun k => f k * exp ((c j i + c j k + c i k) * T))))).
  - field. lra.
  - intros i Hi. rewrite <- rsum_scal. apply rsum_ext. intros j Hj. rewrite <- !rsum_scal. apply rsum_ext. intros k Hk. unfold f. rewrite !Rmult_plus_distr_r, !exp_plus.
    rewrite (csym i j), (csym k j) by assumption. ring.
Qed.
Lemma m4_L4 T : mv_m4 o fwd T / m ^ 4 = / m ^ 4 * L4 n f (fun i j k l => exp ((c i j + c i k + c i l + c j k + c j l + c k l) * T)).
Proof using mpos csym.
  unfold Rdiv. rewrite Rmult_comm. f_equal. unfold mv_m4, msum, mv_H, matmul, mv_M2, mv_N, mv_P, L4. fold n c.
  apply rsum_ext. intros i Hi. rewrite <- rsum_scal. apply rsum_ext. intros j Hj. rewrite <- !rsum_scal. apply rsum_ext. intros k Hk. rewrite <- !rsum_scal. apply rsum_ext. intros l Hl. unfold f.
  assert (E1 : ((i * n + j) / n = i)%nat). { rewrite Nat.div_add_l by lia. rewrite Nat.div_small by exact Hj. lia. }
  assert (E2 : ((i * n + j) mod n = j)%nat). { rewrite Nat.add_comm, Nat.mod_add by lia. apply Nat.mod_small, Hj. }
  rewrite E1, E2. rewrite !Rmult_plus_distr_r, !exp_plus. rewrite (csym l k) by assumption. ring.
Qed.
Ltac coefs := let i := fresh "i" in let Hi := fresh "Hi" in intros i Hi; destruct i as [|[|[|[|i]]]]; [| | | |lia]; cbv beta; fcs; unfold Rdiv at 1.
Lemma r2_t : tayl M 4 (fun T => mv_m2 o fwd T / m ^ 2) (nthf (1 :: A / m ^ 2 :: B / (2 * m ^ 2) :: C / (6 * m ^ 2) :: nil)).
Proof using HM mpos csym.
  eapply tayl_ext; [intros T _; symmetry; apply m2_L4| |apply tayl_scal, tayl_L4].
  coefs; unfold nthf; cbn [nth]; [change (L4 n f (fun i j k l => c i j ^ 0)) with (L4 n f (fun _ _ _ _ => 1)); rewrite q1|rewrite p2_1 by exact csym|rewrite p2_2 by exact csym|rewrite p2_3 by exact csym];
    change (gm n f) with m; try fold A; try fold B; try fold C; field; lra.
Qed.
Lemma r3_t : tayl M 4 (fun T => mv_m3 o fwd T / m ^ 3) (nthf (1 :: 3 * A / m ^ 2 :: (3 * B * m + 6 * D) / (2 * m ^ 3) :: (3 * C * m + 18 * H + 6 * I) / (6 * m ^ 3) :: nil)).
Proof using HM mpos csym.
  eapply tayl_ext; [intros T _; symmetry; apply m3_L4| |apply tayl_scal, tayl_L4].
  coefs; unfold nthf; cbn [nth]; [change (L4 n f (fun i j k l => (c i j + c i k + c j k) ^ 0)) with (L4 n f (fun _ _ _ _ => 1)); rewrite q1|rewrite p3_1 by exact csym|rewrite p3_2 by exact csym|rewrite p3_3 by exact csym];
    change (gm n f) with m; try fold A; try fold B; try fold C; try fold D; try fold H; try fold I; field; lra.
Qed.
Lemma r4_t : tayl M 4 (fun T => mv_m4 o fwd T / m ^ 4) (nthf (1 :: 6 * A / m ^ 2 :: (6 * B * m ^ 2 + 24 * D * m + 6 * A ^ 2) / (2 * m ^ 4) ::
   (6 * C * m ^ 2 + 72 * H * m + 18 * A * B + 24 * I * m + 24 * E + 72 * G) / (6 * m ^ 4) :: nil)).
Proof using HM mpos csym.
  eapply tayl_ext; [intros T _; symmetry; apply m4_L4| |apply tayl_scal, tayl_L4].
  coefs; unfold nthf; cbn [nth]; [change (L4 n f (fun i j k l => (c i j + c i k + c i l + c j k + c j l + c k l) ^ 0)) with (L4 n f (fun _ _ _ _ => 1)); rewrite q1|rewrite p4_1 by exact csym|rewrite p4_2 by exact csym|rewrite p4_3 by exact csym];
    change (gm n f) with m; try fold A; try fold B; try fold C; try fold D; try fold H; try fold I; try fold E; try fold G; field; lra.
Qed.
Definition Wk (k T : R) : R := 1 + k * (k - 1) * ((T ^ 2 * zz z12 + T ^ 3 * zz z13) - k * (T ^ 2 * zz z22 + T ^ 3 * zz z23) + k ^ 2 * (T ^ 3 * zz z33)).
Lemma W_t k : tayl M 4 (Wk k) (nthf (1 :: 0 :: k * (k - 1) * (zz z12 - k * zz z22) :: k * (k - 1) * (zz z13 - k * zz z23 + k ^ 2 * zz z33) :: nil)).
Proof using.
  eapply tayl_ext; [|reflexivity|apply tayl_pol]. intros T _. unfold pol, nthf, Wk. cbn [rsum nth]. ring.
Qed.
Lemma tayl_zero g h a b : tayl M 4 g a -> tayl M 4 h b -> (forall i, (i < 4)%nat -> a i = b i) -> forall u, exists K, 0 <= K /\ forall T, 0 < T <= M -> Rabs (u * g T - u * h T) <= K * T ^ 4.
Proof using.
  intros H1 H2 Hab u. destruct (tayl_scal M 4 u _ _ (tayl_minus M 4 _ _ _ _ H1 H2)) as (K & K0 & HK). exists K. split; [exact K0|]. intros T HT. specialize (HK T HT).
  rewrite (pol_ext 4 _ (fun _ => 0)) in HK by (intros i Hi; rewrite (Hab i Hi); ring). unfold pol in HK. cbn [rsum] in HK. rewrite !Rmult_0_l, !Rplus_0_r, Rminus_0_r in HK.
  rewrite <- Rmult_minus_distr_l. exact HK.
Qed.
Lemma ju_2 : exists K, 0 <= K /\ forall T, 0 < T <= M -> Rabs (m ^ 2 * ((mv_m2 o fwd T / m ^ 2) ^ 1 * Wk 2 T) - mv_m2 o fwd T) <= K * T ^ 4.
Proof using HM mpos csym.
  pose proof r2_t as R2. pose proof (tayl_mult M HM 4 _ _ _ _ R2 (W_t 2)) as R. destruct (tayl_zero _ _ _ _ R R2) with (u := m ^ 2) as (K & K0 & HK).
  - intros i Hi. assert (M0 : m <> 0) by lra. clearbody A B C D E G H I m. clear - Hi M0. destruct i as [|[|[|[|i]]]]; [| | | |lia]; unfold cv, nthf; cbn [rsum nth Nat.sub]; unfold z12, z13, z22, z23, z33; cbv zeta; field; exact M0.
  - exists K. split; [exact K0|]. intros T HT. specialize (HK T HT). rewrite pow_1. replace (m ^ 2 * (mv_m2 o fwd T / m ^ 2)) with (mv_m2 o fwd T) in HK by (field; lra). exact HK.
Qed.
Lemma ju_3 : exists K, 0 <= K /\ forall T, 0 < T <= M -> Rabs (m ^ 3 * ((mv_m2 o fwd T / m ^ 2) ^ 3 * Wk 3 T) - mv_m3 o fwd T) <= K * T ^ 4.
Proof using HM mpos csym.
  pose proof r2_t as R2. pose proof (tayl_mult M HM 4 _ _ _ _ (tayl_mult M HM 4 _ _ _ _ R2 (tayl_mult M HM 4 _ _ _ _ R2 R2)) (W_t 3)) as R. destruct (tayl_zero _ _ _ _ R r3_t) with (u := m ^ 3) as (K & K0 & HK).
  - intros i Hi. assert (M0 : m <> 0) by lra. clearbody A B C D E G H I m. clear - Hi M0. destruct i as [|[|[|[|i]]]]; [| | | |lia]; unfold cv, nthf; cbn [rsum nth Nat.sub]; unfold z12, z13, z22, z23, z33; cbv zeta; field; exact M0.
  - exists K. split; [exact K0|]. intros T HT. specialize (HK T HT). replace (m ^ 3 * (mv_m3 o fwd T / m ^ 3)) with (mv_m3 o fwd T) in HK by (field; lra).
    replace ((mv_m2 o fwd T / m ^ 2) ^ 3) with (mv_m2 o fwd T / m ^ 2 * (mv_m2 o fwd T / m ^ 2 * (mv_m2 o fwd T / m ^ 2))) by (field; lra). exact HK.
Qed.
Lemma ju_4 : exists K, 0 <= K /\ forall T, 0 < T <= M -> Rabs (m ^ 4 * ((mv_m2 o fwd T / m ^ 2) ^ 6 * Wk 4 T) - mv_m4 o fwd T) <= K * T ^ 4.
Proof using HM mpos csym.
  pose proof r2_t as R2. pose proof (tayl_mult M HM 4 _ _ _ _ R2 (tayl_mult M HM 4 _ _ _ _ R2 R2)) as R3.
  assert (R3' : tayl M 4 (fun T => mv_m2 o fwd T / m ^ 2 * (mv_m2 o fwd T / m ^ 2 * (mv_m2 o fwd T / m ^ 2))) (nthf (1 :: 3 * A / m ^ 2 :: 3 * B / (2 * m ^ 2) + 3 * A ^ 2 / m ^ 4 :: C / (2 * m ^ 2) + 3 * A * B / m ^ 4 + A ^ 3 / m ^ 6 :: nil))).
  { eapply tayl_ext; [reflexivity| |exact R3]. intros i Hi. assert (M0 : m <> 0) by lra. clearbody A B C D E G H I m. clear - Hi M0. destruct i as [|[|[|[|i]]]]; [| | | |lia]; unfold cv, nthf; cbn [rsum nth Nat.sub]; field; exact M0. }
  pose proof (tayl_mult M HM 4 _ _ _ _ (tayl_mult M HM 4 _ _ _ _ R3' R3') (W_t 4)) as R. destruct (tayl_zero _ _ _ _ R r4_t) with (u := m ^ 4) as (K & K0 & HK).
  - intros i Hi. assert (M0 : m <> 0) by lra. clearbody A B C D E G H I m. clear - Hi M0. destruct i as [|[|[|[|i]]]]; [| | | |lia]; unfold cv, nthf; cbn [rsum nth Nat.sub]; unfold z12, z13, z22, z23, z33; cbv zeta; field; exact M0.
  - exists K. split; [exact K0|]. intros T HT. specialize (HK T HT). replace (m ^ 4 * (mv_m4 o fwd T / m ^ 4)) with (mv_m4 o fwd T) in HK by (field; lra).
    set (r := mv_m2 o fwd T / m ^ 2) in *. replace (r ^ 6) with (r * (r * r) * (r * (r * r))) by ring. exact HK.
Qed.
End Ju2.
