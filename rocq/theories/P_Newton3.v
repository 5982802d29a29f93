(** The Taylor branch of price_std: its relative error is below 3e-13. *)
From Coq Require Import Reals Lra Lia Psatz ZArith.
From Coquelicot Require Import Coquelicot.
From Verif Require Import Base Gauss P_Black M_Opt P_Bsm P_Impvol P_Newton P_Newton2.
Open Scope R_scope.

(** repeated integration of a bound *)
Lemma integ_bound (F dF : R -> R) (U c : R) k : 0 <= U -> (forall u, is_derive F u (dF u)) -> F 0 = 0 ->
  (forall u, 0 <= u <= U -> 0 <= dF u <= c * u ^ k) -> forall u, 0 <= u <= U -> 0 <= F u <= c / INR (S k) * u ^ S k.
Proof.
  intros HU Hd H0 Hb u Hu. assert (Hk : 0 < INR (S k)) by (apply lt_0_INR; lia). split.
  - rewrite <- H0. apply (nondecreasing_on F dF); [lra|intros; apply Hd|]. intros z Hz. apply Hb. lra.
  - pose proof (nondecreasing_on (fun u => c / INR (S k) * u ^ S k - F u) (fun u => c * u ^ k - dF u) 0 u ltac:(lra)) as H. cbv beta in H.
    rewrite H0, pow_i, Rmult_0_r in H by lia. enough (0 - 0 <= c / INR (S k) * u ^ S k - F u) by lra. apply H.
    + intros z Hz. apply (is_derive_minus_R (fun u => c / INR (S k) * u ^ S k) F); [|apply Hd].
      eapply is_derive_eq; [apply (is_derive_scal_R (fun u => u ^ S k) (c / INR (S k)) z (INR (S k) * z ^ k))|].
      * eapply is_derive_eq; [apply (is_derive_pow (fun u => u) (S k) z 1); apply idd|]. cbn [pred]. Req. ring.
      * cbn [pred]. field. lra.
    + intros z Hz. specialize (Hb z ltac:(lra)). lra.
Qed.
Lemma shiftp n (d u : R) : is_derive (fun u => gn n (d + u)) u (gn (S n) (d + u)).
Proof.
  eapply is_derive_eq; [apply (is_derive_comp (gn n) (fun u => d + u) u (gn (S n) (d + u)) 1); [apply gn_derive|auto_derive; [exact I|Req; ring]]|].
  transitivity (1 * gn (S n) (d + u)); [reflexivity|ring].
Qed.
Lemma shiftm n (d u : R) : is_derive (fun u => gn n (d - u)) u (- gn (S n) (d - u)).
Proof.
  eapply is_derive_eq; [apply (is_derive_comp (gn n) (fun u => d - u) u (gn (S n) (d - u)) (-1)); [apply gn_derive|auto_derive; [exact I|Req; ring]]|].
  transitivity (-1 * gn (S n) (d - u)); [reflexivity|ring].
Qed.
Lemma taylor_g d U : 0 <= U -> 0 <= gn 0 (d + U) - gn 0 (d - U) - (2 * U * gn 1 d + U ^ 3 / 3 * gn 3 d) <= gn 5 (d + U) / 60 * U ^ 5.
Proof.
  intros HU.
  pose (F0 := fun u => gn 0 (d + u) - gn 0 (d - u) - (2 * u * gn 1 d + u ^ 3 / 3 * gn 3 d)).
  pose (F1 := fun u => gn 1 (d + u) + gn 1 (d - u) - (2 * gn 1 d + u ^ 2 * gn 3 d)).
  pose (F2 := fun u => gn 2 (d + u) - gn 2 (d - u) - 2 * u * gn 3 d).
  pose (F3 := fun u => gn 3 (d + u) + gn 3 (d - u) - 2 * gn 3 d).
  pose (F4 := fun u => gn 4 (d + u) - gn 4 (d - u)).
  pose (F5 := fun u => gn 5 (d + u) + gn 5 (d - u)).
  assert (Z : d + 0 = d /\ d - 0 = d) by (split; ring). destruct Z as [Zp Zm].
  assert (D0 : forall u, is_derive F0 u (F1 u)).
  { intros u. unfold F0, F1. replace (gn 1 (d + u) + gn 1 (d - u) - (2 * gn 1 d + u ^ 2 * gn 3 d)) with (gn 1 (d + u) - (- gn 1 (d - u)) - (2 * gn 1 d + u ^ 2 * gn 3 d)) by ring.
    apply (is_derive_minus_R (fun u => gn 0 (d + u) - gn 0 (d - u)) (fun u => 2 * u * gn 1 d + u ^ 3 / 3 * gn 3 d)).
    - apply (is_derive_minus_R (fun u => gn 0 (d + u)) (fun u => gn 0 (d - u))); [apply shiftp|apply shiftm].
    - generalize (gn 1 d) (gn 3 d). intros a b. auto_derive; [exact I|Req; field]. }
  assert (D1 : forall u, is_derive F1 u (F2 u)).
  { intros u. unfold F1, F2. replace (gn 2 (d + u) - gn 2 (d - u) - 2 * u * gn 3 d) with (gn 2 (d + u) + - gn 2 (d - u) - (2 * u * gn 3 d)) by ring.
    apply (is_derive_minus_R (fun u => gn 1 (d + u) + gn 1 (d - u)) (fun u => 2 * gn 1 d + u ^ 2 * gn 3 d)).
    - apply (is_derive_plus (V := R_NormedModule) (fun u => gn 1 (d + u)) (fun u => gn 1 (d - u))); [apply shiftp|apply shiftm].
    - generalize (gn 1 d) (gn 3 d). intros a b. auto_derive; [exact I|Req; field]. }
  assert (D2 : forall u, is_derive F2 u (F3 u)).
  { intros u. unfold F2, F3. replace (gn 3 (d + u) + gn 3 (d - u) - 2 * gn 3 d) with (gn 3 (d + u) - (- gn 3 (d - u)) - (2 * gn 3 d)) by ring.
    apply (is_derive_minus_R (fun u => gn 2 (d + u) - gn 2 (d - u)) (fun u => 2 * u * gn 3 d)).
    - apply (is_derive_minus_R (fun u => gn 2 (d + u)) (fun u => gn 2 (d - u))); [apply shiftp|apply shiftm].
    - generalize (gn 3 d). intros b. auto_derive; [exact I|Req; field]. }
  assert (D3 : forall u, is_derive F3 u (F4 u)).
  { intros u. unfold F3, F4. replace (gn 4 (d + u) - gn 4 (d - u)) with (gn 4 (d + u) + - gn 4 (d - u) - 0) by ring.
    apply (is_derive_minus_R (fun u => gn 3 (d + u) + gn 3 (d - u)) (fun u => 2 * gn 3 d)); [|apply is_derive_const_R].
    apply (is_derive_plus (V := R_NormedModule) (fun u => gn 3 (d + u)) (fun u => gn 3 (d - u))); [apply shiftp|apply shiftm]. }
  assert (D4 : forall u, is_derive F4 u (F5 u)).
  { intros u. unfold F4, F5. replace (gn 5 (d + u) + gn 5 (d - u)) with (gn 5 (d + u) - (- gn 5 (d - u))) by ring.
    apply (is_derive_minus_R (fun u => gn 4 (d + u)) (fun u => gn 4 (d - u))); [apply shiftp|apply shiftm]. }
  set (M := gn 5 (d + U)).
  assert (B5 : forall u, 0 <= u <= U -> 0 <= F5 u <= 2 * M * u ^ 0).
  { intros u Hu. unfold F5, M. pose proof (gn_pos 5 (d + u)). pose proof (gn_pos 5 (d - u)). pose proof (gn_mono 5 (d + u) (d + U) ltac:(lra)). pose proof (gn_mono 5 (d - u) (d + U) ltac:(lra)). cbn [pow]. lra. }
  assert (B4 := integ_bound F4 F5 U _ _ HU D4 ltac:(unfold F4; rewrite Zp, Zm; ring) B5).
  assert (B3 := integ_bound F3 F4 U _ _ HU D3 ltac:(unfold F3; rewrite Zp, Zm; ring) B4).
  assert (B2 := integ_bound F2 F3 U _ _ HU D2 ltac:(unfold F2; rewrite Zp, Zm; ring) B3).
  assert (B1 := integ_bound F1 F2 U _ _ HU D1 ltac:(unfold F1; rewrite Zp, Zm; ring) B2).
  assert (B0 := integ_bound F0 F1 U _ _ HU D0 ltac:(unfold F0; rewrite Zp, Zm; field) B1).
  specialize (B0 U ltac:(lra)). change (0 <= F0 U <= M / 60 * U ^ 5). assert (EM : M / 60 * U ^ 5 = 2 * M / INR 1 / INR 2 / INR 3 / INR 4 / INR 5 * U ^ 5). { cbn [INR]. clearbody M. field. }
  rewrite EM. exact B0.
Qed.
Lemma gn5_far x : x < 0 -> gn 5 x * x ^ 4 <= 120 * gn 1 x.
Proof.
  intros Hx. pose proof (gn_step 4 x Hx) as H4. pose proof (gn_step 3 x Hx) as H3. pose proof (gn_step 2 x Hx) as H2. pose proof (gn_step 1 x Hx) as H1.
  cbn [INR] in *. set (y := - x) in *. assert (Hy : 0 < y) by (unfold y; lra). replace (x ^ 4) with (y ^ 4) by (unfold y; ring).
  generalize dependent (gn 5 x). generalize dependent (gn 4 x). generalize dependent (gn 3 x). generalize dependent (gn 2 x). generalize dependent (gn 1 x). intros g1 g2 G1 g3 G2 g4 G3 g5 G4.
  assert (A1 : y ^ 2 * g3 <= 6 * g1) by nra. assert (Y2 : 0 < y ^ 2) by (apply pow_lt; exact Hy).
  assert (A2 : y ^ 2 * g5 <= 20 * g3) by nra. replace (g5 * y ^ 4) with (y ^ 2 * (y ^ 2 * g5)) by ring. nra.
Qed.
Lemma gn5_near x : x <= / 2000 -> gn 5 x <= 9.
Proof.
  intros Hx. apply Rle_trans with (gn 5 (/ 2000)); [now apply gn_mono|]. rewrite !gn_SS. cbn [INR]. rewrite !gn_1.
  pose proof (g0_small (/ 2000) ltac:(lra)) as G. pose proof (gn_pos 0 (/ 2000)) as P. set (g := gn 0 (/ 2000)) in *. clearbody g. lra.
Qed.
Definition pvT (s lk : R) : R := (gn 1 (- lk / s) + s ^ 2 / 24 * gn 3 (- lk / s)) * s.
Lemma price_std_taylor s lk : 0 < s -> taylor_zone s lk -> price_std s lk 1 1 = pvT s lk.
Proof.
  intros Hs Ht. unfold price_std. cbn [Z.eqb Pos.eqb]. rewrite std_d0_eq by exact Hs. destruct (Rlt_dec 0 s) as [_|n]; [|lra].
  destruct (Rlt_dec (s / Rmax 1 (- (- lk / s))) (/ 1000)) as [_|H].
  2:{ exfalso. apply H. unfold taylor_zone in Ht. replace (- (- lk / s)) with (lk / s) by (field; lra). exact Ht. }
  destruct (Rlt_dec 0 1) as [_|n]; [|lra]. unfold pvT, mills. rewrite Ropp_involutive, npdf_even. set (d := - lk / s). rewrite !gn_SS. cbn [INR]. rewrite !gn_1. cbn [gn]. field.
  pose proof (npdf_pos d). lra.
Qed.
Lemma price_std_pv s lk : 0 < s -> ~ taylor_zone s lk -> price_std s lk 1 1 = pv s lk.
Proof.
  intros Hs Ht. pose proof (price_std_exact s lk Hs Ht) as H. rewrite cstd_pv in H by exact Hs. pose proof (npdf_pos (dd1 s lk)) as Hn. fold (dd1 s lk) in H.
  apply (Rmult_eq_reg_r (npdf (dd1 s lk))); [|lra]. rewrite H. ring.
Qed.
Lemma zone_cases s lk : 0 < s -> 0 <= lk -> taylor_zone s lk -> (lk / s <= 1 /\ s < / 1000) \/ (1 < lk / s /\ s < lk / s / 1000).
Proof.
  intros Hs Hl H. unfold taylor_zone in H. unfold Rmax in H. destruct (Rle_dec 1 (lk / s)) as [A|A].
  - assert (s < lk / s / 1000). { apply (Rmult_lt_compat_r (lk / s)) in H; [|lra]. replace (s / (lk / s) * (lk / s)) with s in H; [lra|]. field. split; [lra|]. intros E. rewrite E in A. unfold Rdiv in A. rewrite Rmult_0_l in A. lra. }
    destruct A as [A|A]; [right; lra|left; lra].
  - left. lra.
Qed.
Lemma pvT_rel s lk : 0 < s -> 0 <= lk -> taylor_zone s lk -> (1 - 3 / 10 ^ 13) * pv s lk <= pvT s lk <= pv s lk.
Proof.
  intros Hs Hl Hz. set (d := - lk / s). pose proof (taylor_g d (s / 2) ltac:(lra)) as T.
  assert (Epv : pv s lk = gn 0 (d + s / 2) - gn 0 (d - s / 2)) by reflexivity.
  assert (EpT : pvT s lk = 2 * (s / 2) * gn 1 d + (s / 2) ^ 3 / 3 * gn 3 d) by (unfold pvT; fold d; field).
  rewrite <- Epv, <- EpT in T. split; [|lra].
  enough (R : gn 5 (d + s / 2) * s ^ 4 / 1920 <= 3 / 10 ^ 13 * gn 1 d).
  { assert (P3 : s * gn 1 d <= pvT s lk). { unfold pvT. fold d. pose proof (gn_pos 3 d) as G3. assert (0 <= s ^ 2 / 24 * gn 3 d). { apply Rmult_le_pos; [|lra]. apply Rmult_le_pos; [apply pow2_ge_0|lra]. } nra. }
    assert (P4 : gn 5 (d + s / 2) / 60 * (s / 2) ^ 5 <= 3 / 10 ^ 13 * (s * gn 1 d)).
    { replace (gn 5 (d + s / 2) / 60 * (s / 2) ^ 5) with (s * (gn 5 (d + s / 2) * s ^ 4 / 1920)) by field. replace (3 / 10 ^ 13 * (s * gn 1 d)) with (s * (3 / 10 ^ 13 * gn 1 d)) by ring. apply Rmult_le_compat_l; lra. }
    assert (P5 : 3 / 10 ^ 13 * (s * gn 1 d) <= 3 / 10 ^ 13 * pv s lk) by (apply Rmult_le_compat_l; lra). lra. }
  pose proof (g1_lower d) as GL. pose proof (gn_pos 1 d) as G1.
  destruct (zone_cases s lk Hs Hl Hz) as [[A B]|[A B]].
  - assert (Hd : -1 <= d <= 0). { unfold d. assert (0 <= lk / s) by (apply Rmult_le_pos; [lra|left; now apply Rinv_0_lt_compat]). unfold Rdiv in *. lra. }
    pose proof (gn5_near (d + s / 2) ltac:(lra)) as G5. pose proof (gn_pos 5 (d + s / 2)) as G5p.
    assert (S4 : s ^ 4 <= / 10 ^ 12). { replace (/ 10 ^ 12) with ((/ 1000) ^ 4) by (cbn; field). apply pow_incr. lra. }
    assert (/ 4 <= gn 1 d) by nra. assert (0 < s ^ 4) by (apply pow_lt; exact Hs). assert (gn 5 (d + s / 2) * s ^ 4 <= 9 * / 10 ^ 12) by (apply Rmult_le_compat; lra).
    apply Rle_trans with (9 * / 10 ^ 12 / 1920); [lra|]. lra.
  - set (t := lk / s) in *. assert (Ed : d = - t) by (unfold d, t; field; lra). set (y := d + s / 2). assert (Hy : - t <= y <= - (9995 / 10000) * t) by (unfold y; lra).
    pose proof (gn5_far y ltac:(lra)) as G5. pose proof (g1_upper y ltac:(lra)) as GU. pose proof (gn_pos 5 y) as G5p.
    assert (Y2 : 99 / 100 * t ^ 2 <= y ^ 2) by nra. assert (T2 : 1 < t ^ 2) by nra.
    assert (S2 : s ^ 2 <= t ^ 2 / 10 ^ 6). { replace (t ^ 2 / 10 ^ 6) with ((t / 1000) ^ 2) by (cbn; field). apply pow_incr. lra. }
    assert (S4 : s ^ 4 <= t ^ 4 / 10 ^ 12). { replace (t ^ 4 / 10 ^ 12) with ((t / 1000) ^ 4) by (cbn; field). apply pow_incr. lra. }
    assert (GL' : 1 <= gn 1 d * (4 * t ^ 2)). { apply Rle_trans with (1 := GL). apply Rmult_le_compat_l; [lra|]. rewrite Ed. replace ((- t) ^ 2) with (t ^ 2) by ring. lra. }
    clearbody y t. clear Epv EpT T Hz Hl GL B.
    (* gn5 y * t^4 <= 130 * gn1 d * ... *)
    assert (K1 : gn 1 y * t ^ 2 <= 102 / 100) by nra.
    assert (K2 : gn 5 y * t ^ 4 <= 103 / 100 * (120 * gn 1 y)).
    { assert (Y4 : 98 / 100 * t ^ 4 <= y ^ 4). { replace (t ^ 4) with (t ^ 2 * t ^ 2) by ring. replace (y ^ 4) with (y ^ 2 * y ^ 2) by ring. nra. }
      assert (gn 5 y * (98 / 100 * t ^ 4) <= gn 5 y * y ^ 4) by (apply Rmult_le_compat_l; lra). pose proof (gn_pos 1 y). lra. }
    assert (K3 : gn 1 y <= 102 / 100 * (4 * gn 1 d)). { pose proof (gn_pos 1 y). assert (0 < t ^ 2) by lra. nra. }
    assert (K4 : gn 5 y * s ^ 4 <= gn 5 y * t ^ 4 / 10 ^ 12). { replace (gn 5 y * t ^ 4 / 10 ^ 12) with (gn 5 y * (t ^ 4 / 10 ^ 12)) by (unfold Rdiv; ring). apply Rmult_le_compat_l; lra. }
    assert (K5 : gn 5 y * t ^ 4 <= 505 * gn 1 d) by lra.
    lra.
Qed.
