(** Choi (2018): Householder matrix, factor matrix, parity and the single-factor lower bound. *)
From Coq Require Import Reals Lra Lia Psatz List Arith Bool.
From Coquelicot Require Import Coquelicot.
From Verif Require Import Base Gauss Sums Spec_Opt Spec_Expect Spec_Multi M_Opt M_Params M_Fd M_Sabr M_Multi Spec_Multi2 P_Black P_Bsm P_Norm P_Expect P_KlLaw P_Sabr2 P_Conv P_Conv2 P_Multi P_Multi2 P_Multi3 P_Multi5.
Import ListNotations.
Open Scope R_scope.

Lemma kd_sym i j : kd i j = kd j i.
Proof. unfold kd. destruct (Nat.eq_dec i j), (Nat.eq_dec j i); congruence. Qed.
Lemma kd_e0 i : kd i 0%nat = if Nat.eqb i 0 then 1 else 0.
Proof. unfold kd. destruct (Nat.eq_dec i 0), (Nat.eqb_spec i 0); congruence. Qed.
Definition e0 (i : nat) : R := if Nat.eqb i 0 then 1 else 0.
Lemma rsum_e0 n f : (0 < n)%nat -> rsum n (fun i => e0 i * f i) = f 0%nat.
Proof.
  intros Hn. destruct n as [|n]; [lia|]. rewrite rsum_shift. cbn [e0 Nat.eqb]. rewrite (rsum_ext n _ (fun _ => 0)) by (intros; unfold e0; cbn; ring). rewrite rsum_0. unfold e0. cbn. ring.
Qed.
Section House.
  Variables (n : nat) (v : vec).
  Hypotheses (Hn : (0 < n)%nat) (Hv : 0 < rsum n (fun i => v i * v i)).
  Let N := norm2 n v.
  Let u := fun i => v i / N.
  Let a := fun i => u i - e0 i.
  Lemma N_pos : 0 < N. Proof using Hv. apply sqrt_lt_R0, Hv. Qed.
  Lemma N_sq : N * N = rsum n (fun i => v i * v i). Proof using Hv. apply sqrt_sqrt. lra. Qed.
  Lemma u_unit : rsum n (fun i => u i * u i) = 1.
  Proof using Hv.
    pose proof N_pos. rewrite (rsum_ext n _ (fun i => / (N * N) * (v i * v i))) by (intros; unfold u; field; lra).
    rewrite rsum_scal, <- N_sq. field. lra.
  Qed.
  Lemma a_sq : rsum n (fun i => a i * a i) = - (2) * a 0%nat.
  Proof using Hv Hn.
    rewrite (rsum_ext n _ (fun i => u i * u i + (e0 i * (- (2) * u i) + e0 i * 1))) by (intros i _; unfold a, e0; destruct (Nat.eqb i 0); ring).
    rewrite !rsum_plus, u_unit, !rsum_e0 by exact Hn. unfold a, e0. cbn. ring.
  Qed.
  Lemma house_eq : Rabs (a 0%nat) < eps * 100 /\ householder n v = kd \/
    eps * 100 <= Rabs (a 0%nat) /\ householder n v = fun i j => kd i j + a i * a j / a 0%nat.
  Proof using. unfold householder. cbv zeta. fold N. change (v 0%nat / N - (if Nat.eqb 0 0 then 1 else 0)) with (a 0%nat). destruct Rlt_dec as [H|H]; [left|right]; (split; [lra|reflexivity]). Qed.
  Lemma house_sym i j : householder n v i j = householder n v j i.
  Proof using. destruct house_eq as [[_ ->]|[_ ->]]; rewrite (kd_sym i j); unfold Rdiv; ring. Qed.
  Lemma house_orth i j : (i < n)%nat -> (j < n)%nat -> rsum n (fun k => householder n v k i * householder n v k j) = kd i j.
  Proof using Hv Hn.
    intros Hi Hj. destruct house_eq as [[_ ->]|[Hb ->]].
    - rewrite (rsum_ext n _ (fun k => kd i k * kd k j)) by (intros k _; now rewrite (kd_sym k i)). now rewrite rsum_kd.
    - assert (Ha : a 0%nat <> 0). { intros E. rewrite E, Rabs_R0 in Hb. pose proof eps_pos. lra. }
      rewrite (rsum_ext n _ (fun k => kd i k * kd k j + (kd i k * (a k * (a j / a 0%nat)) + (kd j k * (a k * (a i / a 0%nat)) + a i * a j / (a 0%nat * a 0%nat) * (a k * a k))))).
      2:{ intros k _. rewrite (kd_sym k i).
          rewrite (kd_sym j k). field. exact Ha. }
      rewrite !rsum_plus, rsum_scal, a_sq, !rsum_kd by assumption. field. exact Ha.
  Qed.
  Lemma house_col i : eps * 100 <= Rabs (u 0%nat - 1) -> householder n v i 0%nat = u i.
  Proof using.
    intros Hb. change (u 0%nat - 1) with (a 0%nat) in Hb. destruct house_eq as [[Hc _]|[_ ->]]; [lra|].
    assert (Ha : a 0%nat <> 0). { intros E. rewrite E, Rabs_R0 in Hb. pose proof eps_pos. lra. }
    replace (a i * a 0%nat / a 0%nat) with (a i) by (field; exact Ha). rewrite kd_e0. unfold a, e0. destruct (Nat.eqb i 0); ring.
  Qed.
  Lemma house_near : Rabs (u 0%nat - 1) < eps * 100 -> rsum n (fun i => (householder n v i 0%nat - u i) ^ 2) <= 200 * eps.
  Proof using Hv Hn.
    intros Hb. change (u 0%nat - 1) with (a 0%nat) in Hb. destruct house_eq as [[Hc ->]|[Hc _]]; [|lra].
    rewrite (rsum_ext n _ (fun i => a i * a i)) by (intros i _; rewrite kd_e0; unfold a, e0; destruct (Nat.eqb i 0); ring).
    rewrite a_sq. pose proof (Rle_abs (- a 0%nat)) as H. rewrite Rabs_Ropp in H. lra.
  Qed.
End House.

(** first factor: v1 = chol q1 with |q1| = 1, and v1 has the sign of the weights *)
Section V1.
  Variables (o : bsk) (chol : mat) (solve : vec -> vec) (fwd : vec).
  Let n := bn o.
  Let cov := ma_cov (bk_ma o).
  Let u := unit_w o fwd.
  Hypotheses (HF : factor_of n chol cov)
    (Hsolve : forall b i, (i < n)%nat -> rsum n (fun j => chol i j * solve b j) = b i)
    (Hsig : forall i, (i < n)%nat -> 0 < ma_sigma (bk_ma o) i)
    (Hq : 0 < rsum n (fun i => rsum n (fun j => cov i j * u j) * u i)).
  Lemma norm2_unit q : 0 < rsum n (fun i => q i * q i) -> rsum n (fun i => q i / norm2 n q * (q i / norm2 n q)) = 1.
  Proof using. intros H. apply (u_unit n q H). Qed.
  Lemma raw_q : let q := fun j => rsum n (fun i => chol i j * u i) in
    rsum n (fun j => q j * q j) = rsum n (fun i => rsum n (fun j => cov i j * u j) * u i) /\
    forall i, (i < n)%nat -> rsum n (fun k => chol i k * q k) = rsum n (fun j => cov i j * u j).
  Proof using HF.
    intros q. assert (H2 : forall i, (i < n)%nat -> rsum n (fun k => chol i k * q k) = rsum n (fun j => cov i j * u j)).
    { intros i Hi. unfold q. rewrite (rsum_ext n _ (fun k => rsum n (fun j => chol i k * chol j k * u j))).
      2:{ intros k _. rewrite <- rsum_scal. apply rsum_ext. intros. ring. }
      rewrite rsum_swap. apply rsum_ext. intros j Hj. rewrite rsum_scal_r. f_equal. apply HF; assumption. }
    split; [|exact H2].
    transitivity (rsum n (fun i => u i * rsum n (fun k => chol i k * q k))).
    - unfold q at 1. rewrite (rsum_ext n _ (fun j => rsum n (fun i => u i * (chol i j * q j)))).
      2:{ intros j _. rewrite <- rsum_scal_r. apply rsum_ext. intros. ring. }
      rewrite rsum_swap. apply rsum_ext. intros i _. rewrite rsum_scal. reflexivity.
    - apply rsum_ext. intros i Hi. rewrite H2 by exact Hi. ring.
  Qed.
  Lemma sq_nn (q : vec) : 0 <= rsum n (fun i => q i * q i). Proof using. apply rsum_nonneg. intros. nra. Qed.
  Lemma v1_q1_spec : let v1 := fst (v1_q1 o chol solve fwd) in let q1 := snd (v1_q1 o chol solve fwd) in
    rsum n (fun i => q1 i * q1 i) = 1 /\ (forall i, (i < n)%nat -> v1 i = rsum n (fun k => chol i k * q1 k)).
  Proof using HF Hsolve Hsig Hq.
    cbv zeta. unfold v1_q1. fold n. destruct (existsb (v1_low o fwd) (seq 0 n)) eqn:E; cbn [fst snd].
    - set (w := fun i => if v1_low o fwd i then sgn (unit_w o fwd i) * (/ 100 * ma_sigma (bk_ma o) i) else v1_raw o fwd i).
      set (q := solve w).
      assert (Hp : 0 < rsum n (fun i => q i * q i)).
      { destruct (sq_nn q) as [H|H]; [exact H|exfalso].
        assert (Z : forall k, (k < n)%nat -> q k = 0) by (apply (nrm2_0 n q); symmetry; exact H).
        assert (Uz : forall i, (i < n)%nat -> u i = 0).
        { intros i Hi. pose proof (Hsolve w i Hi) as Hw. fold q in Hw. rewrite (rsum_ext n _ (fun _ => 0)) in Hw by (intros k Hk; rewrite Z by exact Hk; ring). rewrite rsum_0 in Hw.
          unfold w in Hw. pose proof (Hsig i Hi). fold u in Hw. symmetry in Hw. destruct (v1_low o fwd i) eqn:L.
          - apply Rmult_integral in Hw. destruct Hw as [Hw|Hw]; [|lra]. unfold sgn in Hw. destruct (Rlt_dec 0 (u i)); [lra|]. destruct (Rlt_dec (u i) 0); [lra|]. lra.
          - unfold v1_low in L. fold u in L. rewrite Hw, Rmult_0_r in L. destruct Rlt_dec as [|C]; [discriminate|]. lra. }
        rewrite (rsum_ext n _ (fun _ => 0)) in Hq by (intros i Hi; rewrite (Uz i Hi); ring). rewrite rsum_0 in Hq. lra. }
      split; [apply norm2_unit, Hp|]. intros i Hi. rewrite (rsum_ext n _ (fun k => chol i k * q k * / norm2 n q)) by (intros; unfold Rdiv; ring).
      rewrite rsum_scal_r. pose proof (Hsolve w i Hi) as Hw. fold q in Hw. rewrite Hw. reflexivity.
    - set (q := fun j => rsum n (fun i => chol i j * u i)).
      assert (R : rsum n (fun j => q j * q j) = rsum n (fun i => rsum n (fun j => cov i j * u j) * u i) /\
        forall i, (i < n)%nat -> rsum n (fun k => chol i k * q k) = rsum n (fun j => cov i j * u j)) by exact raw_q.
      destruct R as [R1 R2]. change (fun j => rsum n (fun i => chol i j * unit_w o fwd i)) with q.
      split; [apply (norm2_unit q); rewrite R1; exact Hq|]. intros i Hi. change (v1_raw o fwd i = rsum n (fun k => chol i k * (q k / norm2 n q))). unfold v1_raw. fold n cov u. cbv zeta.
      rewrite (rsum_ext n (fun k => chol i k * (q k / norm2 n q)) (fun k => chol i k * q k * / norm2 n q)) by (intros; unfold Rdiv; ring).
      rewrite rsum_scal_r, R2 by exact Hi. unfold norm2. rewrite R1. reflexivity.
  Qed.
  Lemma v1_sign i : (i < n)%nat -> 0 <= u i * fst (v1_q1 o chol solve fwd) i.
  Proof using Hsig.
    intros Hi. assert (Hraw : v1_low o fwd i = false -> 0 <= u i * v1_raw o fwd i).
    { unfold v1_low. fold u. pose proof (Hsig i Hi). destruct Rlt_dec as [|L]; [discriminate|]. intros _. unfold sgn in L.
      destruct (Rlt_dec 0 (u i)); [nra|]. destruct (Rlt_dec (u i) 0); [nra|]. replace (u i) with 0 by lra. lra. }
    unfold v1_q1. fold n. destruct (existsb (v1_low o fwd) (seq 0 n)) eqn:E; cbn [fst snd].
    - set (q1n := norm2 n _). assert (Hq1 : 0 <= q1n) by apply sqrt_pos.
      assert (Hi1 : 0 <= / q1n). { destruct Hq1 as [H|H]; [left; apply Rinv_0_lt_compat, H|rewrite <- H, Rinv_0; lra]. }
      unfold Rdiv. rewrite <- Rmult_assoc. apply Rmult_le_pos; [|exact Hi1].
      destruct (v1_low o fwd i) eqn:L; [|apply Hraw; reflexivity]. fold u. pose proof (Hsig i Hi). unfold sgn.
      destruct (Rlt_dec 0 (u i)); [nra|]. destruct (Rlt_dec (u i) 0); [nra|]. lra.
    - apply Hraw. destruct (v1_low o fwd i) eqn:L; [|reflexivity]. exfalso.
      assert (existsb (v1_low o fwd) (seq 0 n) = true); [|congruence]. apply existsb_exists. exists i. split; [apply in_seq; lia|exact L].
  Qed.
End V1.

(** V V^T = covariance *)
Lemma v_matrix_cov o chol solve svd fwd : let n := bn o in let q1 := snd (v1_q1 o chol solve fwd) in let v1 := fst (v1_q1 o chol solve fwd) in
  (0 < n)%nat -> factor_of n chol (ma_cov (bk_ma o)) ->
  rsum n (fun i => q1 i * q1 i) = 1 -> (forall i, (i < n)%nat -> v1 i = rsum n (fun k => chol i k * q1 k)) ->
  eps * 100 <= Rabs (q1 0%nat - 1) ->
  (forall A i j, (i < n)%nat -> (j < n)%nat -> rsum (n - 1) (fun k => svd A i k * svd A j k) = rsum (n - 1) (fun k => A i k * A j k)) ->
  forall i j, (i < n)%nat -> (j < n)%nat -> rsum n (fun k => v_matrix o chol solve svd fwd i k * v_matrix o chol solve svd fwd j k) = ma_cov (bk_ma o) i j.
Proof.
  cbv zeta. set (n := bn o). intros Hn HF Hu Hv Hb Hsvd i j Hi Hj. unfold v_matrix.
  destruct (v1_q1 o chol solve fwd) as [v1 q1] eqn:E. cbn [fst snd] in *.
  destruct n as [|m] eqn:En; [lia|]. rewrite rsum_shift. replace (S m - 1)%nat with m in Hsvd by lia. rewrite Hsvd by assumption.
  unfold chol_r. fold n. rewrite En. set (H := householder (S m) q1).
  assert (N1 : norm2 (S m) q1 = 1) by (unfold norm2; rewrite Hu; apply sqrt_1).
  assert (C0 : forall k, H k 0%nat = q1 k).
  { intros k. unfold H. rewrite (house_col (S m) q1); rewrite N1; [field|]. replace (q1 0%nat / 1) with (q1 0%nat) by field. exact Hb. }
  rewrite (Hv i Hi), (Hv j Hj).
  rewrite (rsum_ext (S m) (fun k => chol i k * q1 k) (fun k => chol i k * H k 0%nat)) by (intros; now rewrite C0).
  rewrite (rsum_ext (S m) (fun k => chol j k * q1 k) (fun k => chol j k * H k 0%nat)) by (intros; now rewrite C0).
  rewrite <- (rsum_shift m (fun c => rsum (S m) (fun k => chol i k * H k c) * rsum (S m) (fun k => chol j k * H k c))).
  rewrite (rsum_ext (S m) _ (fun c => rsum (S m) (fun k => rsum (S m) (fun l => chol i k * chol j l * (H k c * H l c))))).
  2:{ intros c _. rewrite rsum_mul. apply rsum_ext. intros. apply rsum_ext. intros. ring. }
  rewrite rsum_swap. rewrite <- (HF i j Hi Hj). apply rsum_ext. intros k Hk. rewrite rsum_swap.
  rewrite (rsum_ext (S m) _ (fun l => kd k l * (chol i k * chol j l))).
  2:{ intros l Hl. rewrite rsum_scal. rewrite (rsum_ext (S m) _ (fun c => H c k * H c l)) by (intros c _; unfold H; rewrite (house_sym (S m) q1 k c), (house_sym (S m) q1 l c); reflexivity).
      unfold H. rewrite (house_orth (S m) q1 Hn ltac:(rewrite Hu; lra) k l Hk Hl). ring. }
  now rewrite rsum_kd by exact Hk.
Qed.

(** put-call parity of the price whatever the nodes *)
Lemma choi_parity o v1 rows K spot T : choi_price o v1 rows K spot T 1 - choi_price o v1 rows K spot T (-1) =
  mk_df (bk_m o) T * (basket_fwd o spot T - K * lsum (map (fun row => snd (fst row)) rows)).
Proof.
  unfold choi_price. cbv zeta. set (fwd := mk_fwd (bk_m o) spot T).
  destruct (Req_EM_T 1 1) as [_|C]; [|congruence]. destruct (Req_EM_T (-1) 1) as [C|_]; [lra|].
  rewrite <- Rmult_minus_distr_l. f_equal.
  set (S1 := lsum (map (choi_terms o v1 fwd K 1) rows)). set (S2 := lsum (map (choi_terms o v1 fwd K (-1)) rows)).
  assert (E : S1 - S2 = rsum (bn o) (fun k => choi_ftilde rows k * mv_v o fwd k) - K * lsum (map (fun row => snd (fst row)) rows)).
  { unfold S1, S2, choi_ftilde. clear. induction rows as [|[[f w] d] rows IH].
    - unfold lsum. cbn [map fold_right]. rewrite (rsum_ext (bn o) _ (fun _ => 0)) by (intros; ring). rewrite rsum_0. ring.
    - cbn [map fst snd]. change (lsum (?x :: ?l)) with (x + lsum l). 
      repeat match goal with |- context [lsum (?x :: ?l)] => change (lsum (x :: l)) with (x + lsum l) end.
      rewrite (rsum_ext (bn o) _ (fun k => w * (f k * mv_v o fwd k) + lsum (map (fun row => let '(f0, w0, d0) := row in w0 * f0 k) rows) * mv_v o fwd k)).
      2:{ intros k _. change (lsum ((w * f k) :: map (fun row => let '(f0, w0, d0) := row in w0 * f0 k) rows)) with (w * f k + lsum (map (fun row => let '(f0, w0, d0) := row in w0 * f0 k) rows)). ring. }
      rewrite rsum_plus, rsum_scal. unfold choi_terms at 1 3.
      destruct (Req_EM_T 1 1) as [_|C]; [|congruence]. destruct (Req_EM_T (-1) 1) as [C|_]; [lra|].
      rewrite (rsum_ext (bn o) (fun k => f k * mv_v o fwd k * (1 - choi_nd1 d (v1 k))) (fun k => f k * mv_v o fwd k - f k * mv_v o fwd k * choi_nd1 d (v1 k))) by (intros; ring).
      rewrite rsum_minus, Rmult_1_l. replace (-1 * d) with (- d) by ring. pose proof (Phi_sym d) as P.
      replace (Phi (- d)) with (1 - Phi d) by lra. lra. }
  rewrite (rsum_ext (bn o) (fun k => (choi_delta o v1 rows k - bk_w o k) * (fwd k * (choi_ftilde rows k - 1)))
            (fun k => choi_delta o v1 rows k * (fwd k * (choi_ftilde rows k - 1)) - (choi_ftilde rows k * mv_v o fwd k - mv_v o fwd k))) by (intros; unfold mv_v; ring).
  rewrite !rsum_minus. change (rsum (bn o) (fun k => mv_v o fwd k)) with (basket_fwd o spot T). change (rsum (bn o) (mv_v o fwd)) with (basket_fwd o spot T). lra.
Qed.

(** n_quad = 0: the price is that of the exercise rule q1.Z >= -d, hence a lower bound *)
Section LowerBound.
  Variables (o : bsk) (chol : mat) (q1 : vec) (spot : vec) (T K d : R).
  Let n := bn o.
  Let fwd := mk_fwd (bk_m o) spot T.
  Let v1 := fun i => rsum n (fun k => chol i k * q1 k) * sqrt T.
  Let B := ln_basket n fwd (bk_w o) chol (ma_cov (bk_ma o)) T.
  Let df := mk_df (bk_m o) T.
  Let row := ((fun _ : nat => 1), 1, d).
  Hypotheses (HF : factor_of n chol (ma_cov (bk_ma o))) (HT : 0 <= T) (Hu : rsum n (fun i => q1 i * q1 i) = 1).
  Definition exer (z : nat -> R) : R := when_le (- d) (rsum n (fun i => q1 i * z i)).
  Lemma choi0_call : normals_expect n (fun z => df * ((B z - K) * exer z)) (choi_price o v1 [row] K spot T 1).
  Proof using HF HT Hu.
    unfold choi_price. cbv zeta. fold fwd df. destruct (Req_EM_T 1 1) as [_|C]; [|congruence].
    rewrite (rsum_ext (bn o) _ (fun _ => 0)).
    2:{ intros k _. unfold choi_ftilde, row, lsum. cbn [map fold_right]. ring. }
    rewrite rsum_0, Rminus_0_r. apply normals_scal. unfold lsum, row. cbn [map fold_right]. unfold choi_terms. destruct (Req_EM_T 1 1) as [_|C]; [|congruence].
    assert (Hb : nrm2 n (vneg q1) = 1) by (rewrite nrm2_neg; exact Hu).
    assert (EX : forall z, exer z = ind_le (lin n (vneg q1) z) d).
    { intros z. unfold exer, when_le, ind_le. rewrite lin_neg. change (rsum n (fun i => q1 i * z i)) with (lin n q1 z). destruct (Rle_dec (- d) (lin n q1 z)), (Rle_dec (- lin n q1 z) d); try reflexivity; lra. }
    assert (H1 : normals_expect n (fun z => B z * exer z) (rsum n (fun k => 1 * mv_v o fwd k * choi_nd1 d (v1 k)))).
    { eapply normals_ext; [|apply (normals_rsum n n (fun i z => mv_v o fwd i * (tilt n (ld chol T i) z * ind_le (lin n (vneg q1) z) d)))].
      - intros z. cbv beta. rewrite EX. unfold B. rewrite (B_eq n chol (ma_cov (bk_ma o)) T HF HT fwd (bk_w o) z), <- rsum_scal_r. apply rsum_ext. intros i _. unfold mv_v. ring.
      - intros i Hi. rewrite Rmult_1_l. apply normals_scal. pose proof (normals_half_space n (ld chol T i) (vneg q1) d ltac:(lra)) as H. rewrite Hb, sqrt_1 in H.
        unfold choi_nd1. replace (d + v1 i) with ((d - lin n (ld chol T i) (vneg q1)) / 1); [exact H|]. rewrite lin_neg_r. unfold v1, lin, ld.
        rewrite (rsum_ext n (fun j => sqrt T * chol i j * q1 j) (fun j => chol i j * q1 j * sqrt T)) by (intros; ring). rewrite rsum_scal_r. field. }
    pose proof (half_plain n (vneg q1) d ltac:(lra)) as H2. rewrite Hb, sqrt_1 in H2. replace (d / 1) with (1 * d) in H2 by field.
    pose proof (normals_minus _ _ _ _ _ H1 (normals_scal _ _ _ K H2)) as H.
    match goal with |- normals_expect _ _ ?v => match type of H with normals_expect _ _ ?w => replace v with w by (fold n; ring) end end.
    eapply normals_ext; [|exact H]. intros z. cbv beta. rewrite <- EX. ring.
  Qed.
  Lemma choi0_put : normals_expect n (fun z => df * ((K - B z) * (1 - exer z))) (choi_price o v1 [row] K spot T (-1)).
  Proof using HF HT Hu.
    pose proof (choi_parity o v1 [row] K spot T) as P. unfold row, lsum in P. cbn [map fold_right fst snd] in P. fold row in P. fold df in P.
    replace (choi_price o v1 [row] K spot T (-1)) with (choi_price o v1 [row] K spot T 1 - df * (basket_fwd o spot T - K)) by lra.
    pose proof (basket_m1 n chol (ma_cov (bk_ma o)) T HF HT fwd (bk_w o)) as M.
    pose proof (normals_minus _ _ _ _ _ choi0_call (normals_scal _ _ _ df (normals_minus _ _ _ _ _ M (normals_const n K)))) as H.
    eapply normals_ext; [|exact H]. intros z. cbv beta. fold B. ring.
  Qed.
  Lemma choi0_lower cp p : call_or_put cp -> normals_expect n (fun z => df * payoff cp K (B z)) p -> choi_price o v1 [row] K spot T cp <= p.
  Proof using HF HT Hu.
    intros Hcp Hp. pose proof (mk_df_pos (bk_m o) T) as D. fold df in D.
    assert (HE : forall z, 0 <= exer z <= 1) by (intros z; unfold exer, when_le; destruct Rle_dec; lra).
    destruct Hcp as [->| ->].
    - refine (normals_le n _ _ _ _ _ choi0_call Hp). intros z. cbv beta. apply Rmult_le_compat_l; [lra|]. rewrite <- (Rmult_1_l (B z - K)). apply payoff_ge; [now left|apply HE].
    - refine (normals_le n _ _ _ _ _ choi0_put Hp). intros z. cbv beta. apply Rmult_le_compat_l; [lra|]. replace (K - B z) with (-1 * (B z - K)) by ring. apply payoff_ge; [now right|]. pose proof (HE z). lra.
  Qed.
End LowerBound.
