(** C37: moments of the hyperbolic-normal model and the moment fit. *)
From Coq Require Import Reals Lra Lia List Psatz.
From Coquelicot Require Import Coquelicot.
From Verif Require Import Base Gauss Sums M_Opt M_Mgf M_Heston M_Fd M_Sabr Spec_Opt Spec_Expect Spec_Sabr P_Bsm P_Norm P_Expect P_Kink P_Nsvh.
Import ListNotations.
Open Scope R_scope.

Section Mom.
Variables (a b c v : R).
Definition hv : R := exp (v ^ 2 / 2).
Let h := hv.
Lemma hpow1 : exp (1 * v * (1 * v) / 2) = h ^ 1. Proof. unfold h, hv. rewrite <- exp_n. f_equal. simpl. field. Qed.
Lemma hpow2 : exp (2 * v * (2 * v) / 2) = h ^ 4. Proof. unfold h, hv. rewrite <- exp_n. f_equal. simpl. field. Qed.
Lemma hpow3 : exp (3 * v * (3 * v) / 2) = h ^ 9. Proof. unfold h, hv. rewrite <- exp_n. f_equal. simpl. field. Qed.
Lemma hpow4 : exp (4 * v * (4 * v) / 2) = h ^ 16. Proof. unfold h, hv. rewrite <- exp_n. f_equal. simpl. field. Qed.
Definition Y (z : R) : R := a * exp (v * z) - b * exp (- (v * z)) - c.
Definition yl1 : list (R * R) := [((-1) * b ^ 1, - (1 * v)); ((-1) * c ^ 1, 0); (1 * a ^ 1, 1 * v)].
Definition ym1 : R := ((-1) * b ^ 1) * h ^ 1 + ((-1) * c ^ 1) * h ^ 0 + (1 * a ^ 1) * h ^ 1.
Lemma ymom1 : gauss_expect (fun z => Y z ^ 1) ym1.
Proof.
  replace ym1 with (lsum (map (fun x => fst x * exp (snd x * snd x / 2)) yl1)).
  2: { unfold yl1, ym1. cbn [map lsum fold_right fst snd]. replace (exp (1 * v * (1 * v) / 2)) with (h ^ 1) by (symmetry; apply hpow1). replace (exp (- (1 * v) * - (1 * v) / 2)) with (h ^ 1) by (symmetry; rewrite <- hpow1; f_equal; field). replace (exp (0 * 0 / 2)) with 1 by (symmetry; rewrite <- exp_0; f_equal; field). ring. }
  apply (gauss_expect_ext (ef yl1)); [|apply ef_expect]. intros z. unfold ef, yl1, Y. cbn [map lsum fold_right fst snd].
  replace (exp (1 * v * z)) with (exp (v * z) ^ 1) by (rewrite <- exp_n; f_equal; simpl; ring). replace (exp (- (1 * v) * z)) with (/ exp (v * z) ^ 1) by (rewrite <- exp_n, <- exp_Ropp; f_equal; simpl; ring). rewrite Rmult_0_l, exp_0. rewrite exp_Ropp. pose proof (exp_pos (v * z)). field. lra.
Qed.
Definition yl2 : list (R * R) := [(1 * b ^ 2, - (2 * v)); (2 * b ^ 1 * c ^ 1, - (1 * v)); (1 * c ^ 2 + (-2) * a ^ 1 * b ^ 1, 0); ((-2) * a ^ 1 * c ^ 1, 1 * v); (1 * a ^ 2, 2 * v)].
Definition ym2 : R := (1 * b ^ 2) * h ^ 4 + (2 * b ^ 1 * c ^ 1) * h ^ 1 + (1 * c ^ 2 + (-2) * a ^ 1 * b ^ 1) * h ^ 0 + ((-2) * a ^ 1 * c ^ 1) * h ^ 1 + (1 * a ^ 2) * h ^ 4.
Lemma ymom2 : gauss_expect (fun z => Y z ^ 2) ym2.
Proof.
  replace ym2 with (lsum (map (fun x => fst x * exp (snd x * snd x / 2)) yl2)).
  2: { unfold yl2, ym2. cbn [map lsum fold_right fst snd]. replace (exp (1 * v * (1 * v) / 2)) with (h ^ 1) by (symmetry; apply hpow1). replace (exp (- (1 * v) * - (1 * v) / 2)) with (h ^ 1) by (symmetry; rewrite <- hpow1; f_equal; field). replace (exp (2 * v * (2 * v) / 2)) with (h ^ 4) by (symmetry; apply hpow2). replace (exp (- (2 * v) * - (2 * v) / 2)) with (h ^ 4) by (symmetry; rewrite <- hpow2; f_equal; field). replace (exp (0 * 0 / 2)) with 1 by (symmetry; rewrite <- exp_0; f_equal; field). ring. }
  apply (gauss_expect_ext (ef yl2)); [|apply ef_expect]. intros z. unfold ef, yl2, Y. cbn [map lsum fold_right fst snd].
  replace (exp (1 * v * z)) with (exp (v * z) ^ 1) by (rewrite <- exp_n; f_equal; simpl; ring). replace (exp (- (1 * v) * z)) with (/ exp (v * z) ^ 1) by (rewrite <- exp_n, <- exp_Ropp; f_equal; simpl; ring). replace (exp (2 * v * z)) with (exp (v * z) ^ 2) by (rewrite <- exp_n; f_equal; simpl; ring). replace (exp (- (2 * v) * z)) with (/ exp (v * z) ^ 2) by (rewrite <- exp_n, <- exp_Ropp; f_equal; simpl; ring). rewrite Rmult_0_l, exp_0. rewrite exp_Ropp. pose proof (exp_pos (v * z)). field. lra.
Qed.
Definition yl3 : list (R * R) := [((-1) * b ^ 3, - (3 * v)); ((-3) * b ^ 2 * c ^ 1, - (2 * v)); ((-3) * b ^ 1 * c ^ 2 + 3 * a ^ 1 * b ^ 2, - (1 * v)); ((-1) * c ^ 3 + 6 * a ^ 1 * b ^ 1 * c ^ 1, 0); (3 * a ^ 1 * c ^ 2 + (-3) * a ^ 2 * b ^ 1, 1 * v); ((-3) * a ^ 2 * c ^ 1, 2 * v); (1 * a ^ 3, 3 * v)].
Definition ym3 : R := ((-1) * b ^ 3) * h ^ 9 + ((-3) * b ^ 2 * c ^ 1) * h ^ 4 + ((-3) * b ^ 1 * c ^ 2 + 3 * a ^ 1 * b ^ 2) * h ^ 1 + ((-1) * c ^ 3 + 6 * a ^ 1 * b ^ 1 * c ^ 1) * h ^ 0 + (3 * a ^ 1 * c ^ 2 + (-3) * a ^ 2 * b ^ 1) * h ^ 1 + ((-3) * a ^ 2 * c ^ 1) * h ^ 4 + (1 * a ^ 3) * h ^ 9.
Lemma ymom3 : gauss_expect (fun z => Y z ^ 3) ym3.
Proof.
  replace ym3 with (lsum (map (fun x => fst x * exp (snd x * snd x / 2)) yl3)).
  2: { unfold yl3, ym3. cbn [map lsum fold_right fst snd]. replace (exp (1 * v * (1 * v) / 2)) with (h ^ 1) by (symmetry; apply hpow1). replace (exp (- (1 * v) * - (1 * v) / 2)) with (h ^ 1) by (symmetry; rewrite <- hpow1; f_equal; field). replace (exp (2 * v * (2 * v) / 2)) with (h ^ 4) by (symmetry; apply hpow2). replace (exp (- (2 * v) * - (2 * v) / 2)) with (h ^ 4) by (symmetry; rewrite <- hpow2; f_equal; field). replace (exp (3 * v * (3 * v) / 2)) with (h ^ 9) by (symmetry; apply hpow3). replace (exp (- (3 * v) * - (3 * v) / 2)) with (h ^ 9) by (symmetry; rewrite <- hpow3; f_equal; field). replace (exp (0 * 0 / 2)) with 1 by (symmetry; rewrite <- exp_0; f_equal; field). ring. }
  apply (gauss_expect_ext (ef yl3)); [|apply ef_expect]. intros z. unfold ef, yl3, Y. cbn [map lsum fold_right fst snd].
  replace (exp (1 * v * z)) with (exp (v * z) ^ 1) by (rewrite <- exp_n; f_equal; simpl; ring). replace (exp (- (1 * v) * z)) with (/ exp (v * z) ^ 1) by (rewrite <- exp_n, <- exp_Ropp; f_equal; simpl; ring). replace (exp (2 * v * z)) with (exp (v * z) ^ 2) by (rewrite <- exp_n; f_equal; simpl; ring). replace (exp (- (2 * v) * z)) with (/ exp (v * z) ^ 2) by (rewrite <- exp_n, <- exp_Ropp; f_equal; simpl; ring). replace (exp (3 * v * z)) with (exp (v * z) ^ 3) by (rewrite <- exp_n; f_equal; simpl; ring). replace (exp (- (3 * v) * z)) with (/ exp (v * z) ^ 3) by (rewrite <- exp_n, <- exp_Ropp; f_equal; simpl; ring). rewrite Rmult_0_l, exp_0. rewrite exp_Ropp. pose proof (exp_pos (v * z)). field. lra.
Qed.
Definition yl4 : list (R * R) := [(1 * b ^ 4, - (4 * v)); (4 * b ^ 3 * c ^ 1, - (3 * v)); (6 * b ^ 2 * c ^ 2 + (-4) * a ^ 1 * b ^ 3, - (2 * v)); (4 * b ^ 1 * c ^ 3 + (-12) * a ^ 1 * b ^ 2 * c ^ 1, - (1 * v)); (1 * c ^ 4 + (-12) * a ^ 1 * b ^ 1 * c ^ 2 + 6 * a ^ 2 * b ^ 2, 0); ((-4) * a ^ 1 * c ^ 3 + 12 * a ^ 2 * b ^ 1 * c ^ 1, 1 * v); (6 * a ^ 2 * c ^ 2 + (-4) * a ^ 3 * b ^ 1, 2 * v); ((-4) * a ^ 3 * c ^ 1, 3 * v); (1 * a ^ 4, 4 * v)].
Definition ym4 : R := (1 * b ^ 4) * h ^ 16 + (4 * b ^ 3 * c ^ 1) * h ^ 9 + (6 * b ^ 2 * c ^ 2 + (-4) * a ^ 1 * b ^ 3) * h ^ 4 + (4 * b ^ 1 * c ^ 3 + (-12) * a ^ 1 * b ^ 2 * c ^ 1) * h ^ 1 + (1 * c ^ 4 + (-12) * a ^ 1 * b ^ 1 * c ^ 2 + 6 * a ^ 2 * b ^ 2) * h ^ 0 + ((-4) * a ^ 1 * c ^ 3 + 12 * a ^ 2 * b ^ 1 * c ^ 1) * h ^ 1 + (6 * a ^ 2 * c ^ 2 + (-4) * a ^ 3 * b ^ 1) * h ^ 4 + ((-4) * a ^ 3 * c ^ 1) * h ^ 9 + (1 * a ^ 4) * h ^ 16.
Lemma ymom4 : gauss_expect (fun z => Y z ^ 4) ym4.
Proof.
  replace ym4 with (lsum (map (fun x => fst x * exp (snd x * snd x / 2)) yl4)).
  2: { unfold yl4, ym4. cbn [map lsum fold_right fst snd]. replace (exp (1 * v * (1 * v) / 2)) with (h ^ 1) by (symmetry; apply hpow1). replace (exp (- (1 * v) * - (1 * v) / 2)) with (h ^ 1) by (symmetry; rewrite <- hpow1; f_equal; field). replace (exp (2 * v * (2 * v) / 2)) with (h ^ 4) by (symmetry; apply hpow2). replace (exp (- (2 * v) * - (2 * v) / 2)) with (h ^ 4) by (symmetry; rewrite <- hpow2; f_equal; field). replace (exp (3 * v * (3 * v) / 2)) with (h ^ 9) by (symmetry; apply hpow3). replace (exp (- (3 * v) * - (3 * v) / 2)) with (h ^ 9) by (symmetry; rewrite <- hpow3; f_equal; field). replace (exp (4 * v * (4 * v) / 2)) with (h ^ 16) by (symmetry; apply hpow4). replace (exp (- (4 * v) * - (4 * v) / 2)) with (h ^ 16) by (symmetry; rewrite <- hpow4; f_equal; field). replace (exp (0 * 0 / 2)) with 1 by (symmetry; rewrite <- exp_0; f_equal; field). ring. }
  apply (gauss_expect_ext (ef yl4)); [|apply ef_expect]. intros z. unfold ef, yl4, Y. cbn [map lsum fold_right fst snd].
  replace (exp (1 * v * z)) with (exp (v * z) ^ 1) by (rewrite <- exp_n; f_equal; simpl; ring). replace (exp (- (1 * v) * z)) with (/ exp (v * z) ^ 1) by (rewrite <- exp_n, <- exp_Ropp; f_equal; simpl; ring). replace (exp (2 * v * z)) with (exp (v * z) ^ 2) by (rewrite <- exp_n; f_equal; simpl; ring). replace (exp (- (2 * v) * z)) with (/ exp (v * z) ^ 2) by (rewrite <- exp_n, <- exp_Ropp; f_equal; simpl; ring). replace (exp (3 * v * z)) with (exp (v * z) ^ 3) by (rewrite <- exp_n; f_equal; simpl; ring). replace (exp (- (3 * v) * z)) with (/ exp (v * z) ^ 3) by (rewrite <- exp_n, <- exp_Ropp; f_equal; simpl; ring). replace (exp (4 * v * z)) with (exp (v * z) ^ 4) by (rewrite <- exp_n; f_equal; simpl; ring). replace (exp (- (4 * v) * z)) with (/ exp (v * z) ^ 4) by (rewrite <- exp_n, <- exp_Ropp; f_equal; simpl; ring). rewrite Rmult_0_l, exp_0. rewrite exp_Ropp. pose proof (exp_pos (v * z)). field. lra.
Qed.
End Mom.


Lemma alg4 (rho v : R) : let h := hv v in let w := h ^ 2 in let B := w + 1 + rho ^ 2 * (w - 1) in
  ym4 ((1 + rho) / 2) ((1 - rho) / 2) (rho * h) v
  = ((w - 1) / 2) ^ 2 * (3 * B ^ 2 + (w - 1) / 2 * ((w + 1) ^ 3 * (w ^ 2 + 3)
      + rho ^ 2 * (2 * (3 * (w + 1) ^ 2) * (w * (w * (w + 1) + 3) - 1) + rho ^ 2 * ((w - 1) * (w * (w * (w * (w + 4) + 10) + 12) - 3))))).
Proof. cbv zeta. unfold ym4. generalize (hv v). intros h. field. Qed.
Lemma alg3 (rho v : R) : let h := hv v in let w := h ^ 2 in
  ym3 ((1 + rho) / 2) ((1 - rho) / 2) (rho * h) v = rho * h * ((w - 1) / 2) ^ 2 * (3 * (w + 1) ^ 2 + rho ^ 2 * ((w - 1) * (w + 3))).
Proof. cbv zeta. unfold ym3. generalize (hv v). intros h. field. Qed.
Lemma alg2 (rho v : R) : let h := hv v in let w := h ^ 2 in
  ym2 ((1 + rho) / 2) ((1 - rho) / 2) (rho * h) v = (w - 1) / 2 * (w + 1 + rho ^ 2 * (w - 1)).
Proof. cbv zeta. unfold ym2. generalize (hv v). intros h. field. Qed.

Section V.
Variables (p : sabrp) (T F : R).
Hypotheses (Hs : 0 < b_sigma p) (Hv : 0 < b_vov p) (Hr : -1 < b_rho p < 1) (HT : 0 < T).
Let v := b_vov p * sqrt T.
Let k := b_sigma p / b_vov p.
Let rho := b_rho p.
Let X := nsvh1_terminal F (b_sigma p) (b_vov p) rho v.
Lemma X_Y z : X z - F = k * Y ((1 + rho) / 2) ((1 - rho) / 2) (rho * hv v) v z.
Proof. unfold X, nsvh1_terminal, Y, hv, k. ring. Qed.
Lemma X_mom n m : gauss_expect (fun z => Y ((1 + rho) / 2) ((1 - rho) / 2) (rho * hv v) v z ^ n) m ->
  gauss_expect (fun z => (X z - F) ^ n) (k ^ n * m).
Proof.
  intros H. apply (gauss_expect_ext (fun z => k ^ n * Y ((1 + rho) / 2) ((1 - rho) / 2) (rho * hv v) v z ^ n)).
  - intros z. rewrite X_Y, Rpow_mult_distr. reflexivity.
  - apply gauss_expect_scal, H.
Qed.
Lemma nsvh1_vsk_true : exists m2 m3 m4,
  gauss_expect (fun z => (X z - F) ^ 1) 0 /\ gauss_expect (fun z => (X z - F) ^ 2) m2 /\
  gauss_expect (fun z => (X z - F) ^ 3) m3 /\ gauss_expect (fun z => (X z - F) ^ 4) m4 /\
  nsvh1_vsk p T = (m2, m3 / (m2 * sqrt m2), m4 / m2 ^ 2 - 3).
Proof.
  set (a := (1 + rho) / 2). set (b := (1 - rho) / 2). set (c := rho * hv v).
  exists (k ^ 2 * ym2 a b c v), (k ^ 3 * ym3 a b c v), (k ^ 4 * ym4 a b c v).
  split; [|split; [apply X_mom, ymom2|split; [apply X_mom, ymom3|split; [apply X_mom, ymom4|]]]].
  - pose proof (X_mom 1 _ (ymom1 a b c v)) as G. replace (k ^ 1 * ym1 a b c v) with 0 in G by (unfold ym1, a, b, c; field). exact G.
  - assert (Hvp : 0 < v) by (unfold v; apply Rmult_lt_0_compat; [exact Hv|apply sqrt_lt_R0, HT]).
    pose proof (alg2 rho v) as E2. pose proof (alg3 rho v) as E3. pose proof (alg4 rho v) as E4. cbv zeta in E2, E3, E4. fold a b c in E2, E3, E4.
    unfold nsvh1_vsk. cbv zeta. fold v rho k. set (h := hv v) in *. assert (Hw : exp (v ^ 2) = h ^ 2) by (unfold h, hv; rewrite <- exp_n; f_equal; simpl; field).
    rewrite Hw, E2, E3, E4. clear E2 E3 E4. assert (Hh : 1 < h). { unfold h, hv. rewrite <- exp_0 at 1. apply exp_increasing. assert (0 < v ^ 2) by (apply pow_lt; exact Hvp). lra. }
    assert (Hk : 0 < k) by (apply Rdiv_lt_0_compat; assumption).
    assert (Hx : 0 < h ^ 2 - 1) by nra. assert (Hrr : 0 <= rho ^ 2) by apply pow2_ge_0.
    replace c with (rho * h) by reflexivity. clearbody rho k h. clear a b c X Hr Hw Hvp. replace (1 + (h ^ 2 - 1)) with (h ^ 2) by ring.
    assert (Ew : h * h = h ^ 2) by ring. set (w := h ^ 2) in *.
    assert (Hh0 : 0 <= h) by lra. clearbody w.
    set (B := w + 1 + rho ^ 2 * (w - 1)). assert (HB : 0 < B) by (unfold B; nra).
    set (c3 := 3 * (w + 1) ^ 2 + rho ^ 2 * ((w - 1) * (w + 3))). set (kk := (w + 1) ^ 3 * (w ^ 2 + 3) + _). clearbody B c3 kk.
    set (q := sqrt ((w - 1) / 2)). assert (Hq : q * q = (w - 1) / 2) by (apply sqrt_sqrt; lra). assert (Hqp : 0 < q) by (apply sqrt_lt_R0; lra).
    set (s := sqrt B). assert (Hss : s * s = B) by (apply sqrt_sqrt; lra). assert (Hsp : 0 < s) by (apply sqrt_lt_R0; exact HB).
    assert (R1 : sqrt ((w - 1) * w / 2) = q * h).
    { replace ((w - 1) * w / 2) with ((q * h) ^ 2) by (replace ((q * h) ^ 2) with ((q * q) * (h * h)) by ring; rewrite Hq, Ew; field).
      apply sqrt_pow2. apply Rmult_le_pos; lra. }
    assert (R2 : sqrt (B ^ 3) = s ^ 3).
    { replace (B ^ 3) with ((s ^ 3) ^ 2) by (rewrite <- Hss; ring). apply sqrt_pow2, pow_le. lra. }
    assert (R3 : sqrt (k ^ 2 * ((w - 1) / 2 * B)) = k * q * s).
    { replace (k ^ 2 * ((w - 1) / 2 * B)) with ((k * q * s) ^ 2) by (rewrite <- Hq, <- Hss; ring). apply sqrt_pow2.
      apply Rmult_le_pos; [apply Rmult_le_pos|]; lra. }
    rewrite R1, R2, R3. clear R1 R2 R3. clearbody q s.
    apply (f_equal2 pair); [apply (f_equal2 pair)|].
    + ring.
    + rewrite <- Hss, <- !Hq. field. lra.
    + field. lra.
Qed.
End V.
