(** The QD+ price in the form of Li (2010): lambda(h), its derivative, c0 and b. *)
From Coq Require Import Reals Lra.
From Coquelicot Require Import Coquelicot.
From Verif Require Import Base Gauss M_Opt Spec_Opt P_Bsm M_Amer P_Amer.
Open Scope R_scope.

Lemma neg_root (n a l : R) : 0 < a -> l < 0 -> l ^ 2 + n * l - a = 0 -> l = - / 2 * (n + sqrt (n ^ 2 + 4 * a)).
Proof.
  intros Ha Hl E. assert (D : n ^ 2 + 4 * a = (- (2 * l + n)) ^ 2) by nra.
  assert (P : 0 <= - (2 * l + n)). { assert (l * (l + n) = a) by lra. assert (l + n < 0) by nra. lra. }
  rewrite D, sqrt_pow2 by exact P. lra.
Qed.
Lemma lam_formula_derive (n a x : R) : 0 < x -> 0 < n ^ 2 + 4 * a / x ->
  is_derive (fun y => - / 2 * (n + sqrt (n ^ 2 + 4 * a / y))) x (a / (x ^ 2 * sqrt (n ^ 2 + 4 * a / x))).
Proof.
  intros Hx HD.
  assert (D1 : is_derive (fun y => n ^ 2 + 4 * a / y) x (- (4 * a) / x ^ 2)).
  { auto_derive; [lra|]. Req. field. lra. }
  pose proof (is_derive_sqrt _ _ _ D1 HD) as D2. cbv beta in D2.
  pose proof (sqrt_lt_R0 _ HD) as Q. set (q := sqrt (n ^ 2 + 4 * a / x)) in *.
  replace (a / (x ^ 2 * q)) with (- / 2 * (0 + - (4 * a) / x ^ 2 / (2 * q))) by (field; split; lra).
  apply is_derive_scal. apply @is_derive_plus with (V := R_NormedModule); [apply @is_derive_const|exact D2].
Qed.
Section Li.
  Context (m : opt) (K T bdd : R) (lam : R -> R).
  Let al := 2 * intr m / sigma m ^ 2.
  Let be := 2 * (intr m - divr m) / sigma m ^ 2.
  Hypothesis S0 : 0 < sigma m.
  Hypothesis R0' : 0 < intr m.
  Hypothesis T0 : 0 < T.
  Hypothesis Hlam : forall x, 0 < x -> lam x < 0 /\ lam x ^ 2 + (be - 1) * lam x - al / x = 0.
  Lemma al_pos : 0 < al.
  Proof. unfold al. apply Rdiv_lt_0_compat; [lra|]. apply pow_lt. exact S0. Qed.
  Lemma lam_form x : 0 < x -> lam x = - / 2 * (am_nn m + sqrt (am_nn m ^ 2 + 4 * am_mm m / x)).
  Proof.
    intros Hx. destruct (Hlam x Hx) as [N E]. unfold Rdiv. rewrite (Rmult_assoc 4).
    apply neg_root; [|exact N|exact E]. apply Rdiv_lt_0_compat; [exact al_pos|exact Hx].
  Qed.
  Lemma hh_pos : 0 < am_hh m T.
  Proof. unfold am_hh. assert (exp (- intr m * T) < 1); [|lra]. rewrite <- exp_0. apply exp_increasing. nra. Qed.
  Lemma disc_pos x : 0 < x -> 0 < am_nn m ^ 2 + 4 * am_mm m / x.
  Proof. intros. pose proof al_pos. assert (0 < 4 * am_mm m / x) by (apply Rdiv_lt_0_compat; [unfold am_mm; fold al; lra|assumption]). nra. Qed.
  Lemma am_sqrt_pos : 0 < am_sqrt m T.
  Proof. unfold am_sqrt. apply sqrt_lt_R0, disc_pos, hh_pos. Qed.
  Lemma lam_derive : Derive lam (am_hh m T) = am_prime m T.
  Proof.
    pose proof hh_pos as H. pose proof am_sqrt_pos as Q.
    rewrite (Derive_ext_loc lam (fun x => - / 2 * (am_nn m + sqrt (am_nn m ^ 2 + 4 * am_mm m / x)))).
    - apply is_derive_unique. unfold am_prime, am_sqrt. apply lam_formula_derive; [exact H|]. apply disc_pos, H.
    - exists (mkposreal _ H). intros x Hx. apply lam_form. cbn in Hx. apply Rabs_def2 in Hx. cbn in Hx. lra.
  Qed.
  Lemma li_price S : bdd < S -> K - bdd - bsm_price m K bdd T (-1) <> 0 ->
    let h := 1 - DF (intr m) T in
    let p := bsm_price m K bdd T (-1) in
    let d := 2 * lam h + be - 1 in
    let c0 := - (1 - h) * al / d * (/ h - bsm_theta m K bdd T (-1) * exp (intr m * T) / (intr m * (K - bdd - p)) + Derive lam h / d) in
    let b := (1 - h) * al * Derive lam h / (2 * d) in
    let L := ln (S / bdd) in
    am_price m bdd K S T (-1) = bsm_price m K S T (-1) + (K - bdd - p) / (1 - c0 * L - b * L ^ 2) * exp (lam h * L).
  Proof.
    intros HS HP h p d c0 b L. pose proof am_sqrt_pos as Q. pose proof hh_pos as H0.
    assert (Hh : h = am_hh m T). { unfold h, DF, am_hh. do 2 f_equal. ring. }
    assert (El : lam h = - / 2 * (am_nn m + am_sqrt m T)) by (rewrite Hh; apply lam_form, hh_pos).
    assert (Ed : d = - am_sqrt m T). { unfold d. rewrite El. unfold am_nn, be. field. lra. }
    assert (Ep : Derive lam h = am_prime m T) by (rewrite Hh; apply lam_derive).
    assert (E1 : 1 - h = exp (- intr m * T)) by (rewrite Hh; unfold am_hh; ring).
    assert (Ee : exp (intr m * T) = / exp (- intr m * T)).
    { replace (- intr m * T) with (- (intr m * T)) by ring. rewrite exp_Ropp, Rinv_inv. reflexivity. }
    pose proof (exp_pos (- intr m * T)) as P1.
    assert (Ec : c0 = am_c0 m K bdd T (-1)).
    { unfold c0, am_c0. cbv zeta. rewrite Ed, Ep, Ee, E1, Hh. fold p. change (2 * intr m / sigma m ^ 2) with al.
      change (am_mm m) with al. generalize (am_prime m T). intros z.
      field. repeat split; try lra. exact HP. }
    assert (Eb : b = - exp (- intr m * T) * am_mm m * am_prime m T / (2 * am_sqrt m T)).
    { unfold b. rewrite Ed, Ep, E1. change (am_mm m) with al. field. lra. }
    unfold am_price. destruct (Rle_dec S bdd); [lra|]. unfold am_cont. fold p L. cbv zeta.
    rewrite <- Ec, <- Eb, <- El. f_equal. f_equal. f_equal. ring.
  Qed.
End Li.
Lemma lam_meets (n a : R) : 0 < a -> forall x, 0 < x ->
  let l := - / 2 * (n + sqrt (n ^ 2 + 4 * a / x)) in l < 0 /\ l ^ 2 + n * l - a / x = 0.
Proof.
  intros Ha x Hx l. assert (M : 0 < a / x) by (apply Rdiv_lt_0_compat; assumption).
  unfold l, Rdiv. rewrite (Rmult_assoc 4). change (a * / x) with (a / x). set (mm := a / x) in *.
  assert (Q : 0 <= n ^ 2 + 4 * mm) by nra.
  pose proof (sqrt_sqrt _ Q) as E. pose proof (sqrt_pos (n ^ 2 + 4 * mm)) as P.
  set (q := sqrt (n ^ 2 + 4 * mm)) in *. split; [|nra].
  assert (- n < q); [|lra]. apply Rnot_le_lt. intro. nra.
Qed.
