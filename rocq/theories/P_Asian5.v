(** Small-variance branches of price_mvsk: expansions in v at fixed p *)
From Coq Require Import Reals Lra Lia Psatz List Arith.
From Coquelicot Require Import Coquelicot.
From Verif Require Import Base Gauss Sums Spec_Opt Spec_Expect M_Opt M_Heston M_Fd M_Sabr M_Asian Spec_Asian P_Bsm P_Asian P_Asian2 P_Asian3 P_Asian4.
Import ListNotations.
Open Scope R_scope.

(** remainder of the exponential series *)
Fixpoint epoly (n : nat) (x : R) : R := match n with O => 0 | S k => epoly k x + x ^ k / INR (fact k) end.
Lemma epoly_0 n : epoly (S n) 0 = 1.
Proof.
  induction n as [|n IH]; [cbn [epoly fact INR pow]; field|]. cbn [epoly] in *. rewrite IH. rewrite (pow_i (S n)) by lia. unfold Rdiv. ring.
Qed.
Lemma epoly_derive n x : is_derive (epoly (S n)) x (epoly n x).
Proof.
  induction n as [|n IH].
  - apply (is_derive_ext (fun _ : R => 1)); [intros t; Req; cbn [epoly fact INR pow]; field|]. exact (is_derive_const (V := R_NormedModule) 1 x).
  - change (is_derive (fun y => epoly (S n) y + y ^ (S n) / INR (fact (S n))) x (epoly n x + x ^ n / INR (fact n))).
    apply (is_derive_plus (epoly (S n)) (fun y => y ^ (S n) / INR (fact (S n)))); [exact IH|].
    assert (0 < INR (fact n)) as Hf by apply INR_fact_lt_0. assert (0 < INR (S n)) as Hn by (apply lt_0_INR; lia).
    change (fact (S n)) with (S n * fact n)%nat. rewrite mult_INR.
    generalize dependent (INR (fact n)). intros f0 Hf.
    assert (is_derive (fun y : R => y ^ (S n)) x (INR (S n) * x ^ n)) as Hd.
    { auto_derive; [trivial|]. cbn [pred]. Req. rewrite S_INR. rewrite ?Rmult_1_r. destruct n; cbn [INR]; ring. }
    generalize dependent (INR (S n)). intros n1 Hn1 Hd.
    eapply is_derive_eq; [apply (is_derive_scal_l (fun y : R => y ^ S n) x _ (/ (n1 * f0)) Hd)|]. unfold scal; cbn; unfold mult; cbn. field. split; lra.
Qed.
Lemma exp_rem n (x : R) : Rabs (exp x - epoly n x) <= Rabs x ^ n * exp (Rabs x).
Proof.
  revert x. induction n as [|n IH]; intros x.
  - cbn [epoly pow]. rewrite Rminus_0_r, Rabs_right by (left; apply exp_pos). rewrite Rmult_1_l. apply exp_le, Rle_abs.
  - destruct (MVT_gen (fun y => exp y - epoly (S n) y) 0 x (fun y => exp y - epoly n y)) as (c & Hc & E).
    + intros y _. apply (is_derive_minus (fun y => exp y) (epoly (S n))); [apply is_derive_exp|apply epoly_derive].
    + intros y _. apply continuity_pt_filterlim. apply (ex_derive_continuous (fun y => exp y - epoly (S n) y)).
      exists (exp y - epoly n y). apply (is_derive_minus (fun y => exp y) (epoly (S n))); [apply is_derive_exp|apply epoly_derive].
    + cbv beta in E. rewrite exp_0, epoly_0 in E. replace (exp x - epoly (S n) x) with ((exp c - epoly n c) * x) by lra.
      assert (Rabs c <= Rabs x) as Hcx.
      { unfold Rmin, Rmax in Hc. destruct (Rle_dec 0 x); [rewrite !Rabs_right by lra; lra|]. rewrite !Rabs_left1 by lra. lra. }
      rewrite Rabs_mult, Rmult_comm. cbn [pow]. rewrite Rmult_assoc. apply Rmult_le_compat_l; [apply Rabs_pos|].
      eapply Rle_trans; [apply IH|]. apply Rmult_le_compat; [apply pow_le, Rabs_pos|left; apply exp_pos|apply pow_incr; split; [apply Rabs_pos|exact Hcx]|apply exp_le; exact Hcx].
Qed.
(** f = a + b v + c v^2 + O(v^3) on (0,1] *)
Definition jet (f : R -> R) (a b c : R) : Prop := exists C, forall v, 0 < v <= 1 -> Rabs (f v - (a + b * v + c * v ^ 2)) <= C * v ^ 3.
Lemma jet_ext f g a b c a' b' c' : (forall v, 0 < v <= 1 -> f v = g v) -> a = a' -> b = b' -> c = c' -> jet f a b c -> jet g a' b' c'.
Proof. intros H -> -> -> (C & HC). exists C. intros v Hv. rewrite <- H by exact Hv. apply HC, Hv. Qed.
Lemma jet_plus f g a b c a' b' c' : jet f a b c -> jet g a' b' c' -> jet (fun v => f v + g v) (a + a') (b + b') (c + c').
Proof.
  intros (C & HC) (D & HD). exists (C + D). intros v Hv.
  replace (f v + g v - (a + a' + (b + b') * v + (c + c') * v ^ 2)) with ((f v - (a + b * v + c * v ^ 2)) + (g v - (a' + b' * v + c' * v ^ 2))) by ring.
  eapply Rle_trans; [apply Rabs_triang|]. specialize (HC v Hv). specialize (HD v Hv). lra.
Qed.
Lemma jet_scal k f a b c : jet f a b c -> jet (fun v => k * f v) (k * a) (k * b) (k * c).
Proof.
  intros (C & HC). exists (Rabs k * C). intros v Hv. replace (k * f v - (k * a + k * b * v + k * c * v ^ 2)) with (k * (f v - (a + b * v + c * v ^ 2))) by ring.
  rewrite Rabs_mult, Rmult_assoc. apply Rmult_le_compat_l; [apply Rabs_pos|apply HC, Hv].
Qed.
Lemma jet_minus f g a b c a' b' c' : jet f a b c -> jet g a' b' c' -> jet (fun v => f v - g v) (a - a') (b - b') (c - c').
Proof.
  intros H1 H2. eapply jet_ext; [..|apply (jet_plus _ _ _ _ _ _ _ _ H1 (jet_scal (-1) _ _ _ _ H2))]; intros; cbv beta; ring.
Qed.
Lemma jet_mult f g a b c a' b' c' : jet f a b c -> jet g a' b' c' -> jet (fun v => f v * g v) (a * a') (a * b' + b * a') (a * c' + b * b' + c * a').
Proof.
  intros (C & HC) (D & HD).
  exists (C * (Rabs a' + Rabs b' + Rabs c' + D) + (Rabs a + Rabs b + Rabs c) * D + (Rabs b * Rabs c' + Rabs c * Rabs b' + Rabs c * Rabs c')).
  intros v Hv. specialize (HC v Hv). specialize (HD v Hv).
  set (x := f v - (a + b * v + c * v ^ 2)) in *. set (y := g v - (a' + b' * v + c' * v ^ 2)) in *.
  replace (f v * g v - (a * a' + (a * b' + b * a') * v + (a * c' + b * b' + c * a') * v ^ 2)) with
    (x * (a' + b' * v + c' * v ^ 2 + y) + (a + b * v + c * v ^ 2) * y + (b * c' + c * b' + c * c' * v) * v ^ 3) by (unfold x, y; ring).
  assert (0 < v ^ 3) as H3 by (apply pow_lt; lra). assert (v ^ 2 <= 1) as H2 by nra. assert (v ^ 3 <= 1) as H31 by nra.
  assert (0 <= v ^ 2) as H20 by (apply pow2_ge_0).
  assert (0 <= D) as HD0. { pose proof (Rabs_pos y). destruct (Rle_dec 0 D); [assumption|]. exfalso. nra. }
  assert (forall k u, 0 <= u <= 1 -> Rabs (k * u) <= Rabs k) as Hb.
  { intros k u Hu. rewrite Rabs_mult, (Rabs_right u) by lra. pose proof (Rabs_pos k). nra. }
  assert (Rabs (a + b * v + c * v ^ 2) <= Rabs a + Rabs b + Rabs c) as HA.
  { eapply Rle_trans; [apply Rabs_triang|]. apply Rplus_le_compat; [|apply Hb; lra]. eapply Rle_trans; [apply Rabs_triang|]. apply Rplus_le_compat_l, Hb; lra. }
  assert (Rabs (a' + b' * v + c' * v ^ 2 + y) <= Rabs a' + Rabs b' + Rabs c' + D) as HB.
  { eapply Rle_trans; [apply Rabs_triang|]. apply Rplus_le_compat; [|eapply Rle_trans; [exact HD|]; nra].
    eapply Rle_trans; [apply Rabs_triang|]. apply Rplus_le_compat; [|apply Hb; lra]. eapply Rle_trans; [apply Rabs_triang|]. apply Rplus_le_compat_l, Hb; lra. }
  assert (Rabs (b * c' + c * b' + c * c' * v) <= Rabs b * Rabs c' + Rabs c * Rabs b' + Rabs c * Rabs c') as HE.
  { eapply Rle_trans; [apply Rabs_triang|]. apply Rplus_le_compat; [|eapply Rle_trans; [apply Hb; lra|rewrite Rabs_mult; lra]].
    eapply Rle_trans; [apply Rabs_triang|]. rewrite !Rabs_mult. lra. }
  apply Rle_trans with (C * v ^ 3 * (Rabs a' + Rabs b' + Rabs c' + D) + (Rabs a + Rabs b + Rabs c) * (D * v ^ 3) + (Rabs b * Rabs c' + Rabs c * Rabs b' + Rabs c * Rabs c') * v ^ 3); [|right; ring].
  eapply Rle_trans; [apply Rabs_triang|]. apply Rplus_le_compat; [eapply Rle_trans; [apply Rabs_triang|]; apply Rplus_le_compat|].
  - rewrite Rabs_mult. apply Rmult_le_compat; [apply Rabs_pos|apply Rabs_pos|exact HC|exact HB].
  - rewrite Rabs_mult. apply Rmult_le_compat; [apply Rabs_pos|apply Rabs_pos|exact HA|exact HD].
  - rewrite Rabs_mult, (Rabs_right (v ^ 3)) by lra. apply Rmult_le_compat_r; [lra|exact HE].
Qed.
(** (e^(cv) - head)/v^k *)
Definition ephi (k : nat) (c v : R) : R := (exp (c * v) - epoly k (c * v)) / v ^ k.
Lemma ephi_jet k (c : R) : jet (ephi k c) (c ^ k / INR (fact k)) (c ^ (S k) / INR (fact (S k))) (c ^ (S (S k)) / INR (fact (S (S k)))).
Proof.
  exists (Rabs c ^ (S (S (S k))) * exp (Rabs c)). intros v Hv.
  assert (v ^ k <> 0) as Hk by (apply pow_nonzero; lra). assert (0 < v ^ k) as Hk0 by (apply pow_lt; lra).
  assert (forall i, INR (fact i) <> 0) as Hf by apply INR_fact_neq_0.
  replace (ephi k c v - (c ^ k / INR (fact k) + c ^ S k / INR (fact (S k)) * v + c ^ S (S k) / INR (fact (S (S k))) * v ^ 2))
    with ((exp (c * v) - epoly (S (S (S k))) (c * v)) / v ^ k).
  2:{ unfold ephi. cbn [epoly]. rewrite !Rpow_mult_distr. pose proof (Hf k). pose proof (Hf (S k)). pose proof (Hf (S (S k))).
      generalize dependent (INR (fact k)). generalize dependent (INR (fact (S k))). generalize dependent (INR (fact (S (S k)))).
      intros f2 H2 f1 H1 f0 H0. cbn [pow]. generalize dependent (v ^ k). intros w Hw Hw0. generalize (c ^ k) (epoly k (c * v)) (exp (c * v)).
      intros. field. repeat split; assumption. }
  unfold Rdiv. rewrite Rabs_mult, Rabs_inv, (Rabs_right (v ^ k)) by lra.
  apply (Rmult_le_reg_r (v ^ k)); [exact Hk0|]. rewrite Rmult_assoc, Rinv_l, Rmult_1_r by exact Hk.
  eapply Rle_trans; [apply exp_rem|]. rewrite Rabs_mult, (Rabs_right v) by lra. rewrite Rpow_mult_distr. 
  replace (Rabs c ^ S (S (S k)) * exp (Rabs c) * v ^ 3 * v ^ k) with (Rabs c ^ S (S (S k)) * v ^ S (S (S k)) * exp (Rabs c)) by (cbn [pow]; ring).
  apply Rmult_le_compat_l; [apply Rmult_le_pos; apply pow_le; [apply Rabs_pos|lra]|]. apply exp_le. pose proof (Rabs_pos c). nra.
Qed.
Lemma ephi_jet1 c : jet (ephi 1 c) c (c ^ 2 / 2) (c ^ 3 / 6).
Proof. eapply jet_ext; [..|apply (ephi_jet 1 c)]; try reflexivity; cbn [fact Nat.mul Nat.add INR pow]; field. Qed.
Lemma ephi_jet2 c : jet (ephi 2 c) (c ^ 2 / 2) (c ^ 3 / 6) (c ^ 4 / 24).
Proof. eapply jet_ext; [..|apply (ephi_jet 2 c)]; try reflexivity; cbn [fact Nat.mul Nat.add INR pow]; field. Qed.
Lemma ephi_jet3 c : jet (ephi 3 c) (c ^ 3 / 6) (c ^ 4 / 24) (c ^ 5 / 120).
Proof. eapply jet_ext; [..|apply (ephi_jet 3 c)]; try reflexivity; cbn [fact Nat.mul Nat.add INR pow]; field. Qed.
Lemma ephi_jet4 c : jet (ephi 4 c) (c ^ 4 / 24) (c ^ 5 / 120) (c ^ 6 / 720).
Proof.
  eapply jet_ext; [..|apply (ephi_jet 4 c)]; try reflexivity.
  - change (fact 4) with 24%nat. rewrite (INR_IZR_INZ 24). cbn [Z.of_nat Pos.of_succ_nat Pos.succ]. reflexivity.
  - change (fact 5) with 120%nat. rewrite (INR_IZR_INZ 120). cbn [Z.of_nat Pos.of_succ_nat Pos.succ]. reflexivity.
  - change (fact 6) with 720%nat. rewrite (INR_IZR_INZ 720). vm_compute (Z.of_nat 720). reflexivity.
Qed.
Section J.
Variable p : R.
Hypotheses (P0 : p <> 0) (P1 : p + 1 <> 0) (P2 : p + 2 <> 0) (P3 : p + 3 <> 0) (P4 : p + 4 <> 0) (P5 : p + 5 <> 0) (P6 : p + 6 <> 0).
Definition fm1 v := 2 / p * ephi 1 (p / 2) v.
Definition fm2 v := 4 / (p * (p + 1) * (p + 2)) * (- (2) * (p + 1) * ephi 2 (p / 2) v + p * ephi 2 (p + 1) v).
Definition fm3 v := 8 / (p * (p + 1) * (p + 2) * (p + 3) * (p + 4)) *
  (3 * (p + 1) * (p + 4) * ephi 3 (p / 2) v + - (3) * p * (p + 3) * ephi 3 (p + 1) v + p * (p + 1) * ephi 3 (3 * (p / 2) + 3) v).
Definition fm4 v := 16 / (p * (p + 1) * (p + 2) * (p + 3) * (p + 4) * (p + 5) * (p + 6)) *
  (- (4) * (p + 1) * (p + 5) * (p + 6) * ephi 4 (p / 2) v + 6 * p * (p + 3) * (p + 6) * ephi 4 (p + 1) v
   + - (4) * p * (p + 1) * (p + 5) * ephi 4 (3 * (p / 2) + 3) v + p * (p + 1) * (p + 2) * ephi 4 (2 * p + 6) v).
Lemma fm1_jet : jet fm1 1 (p / 4) (p ^ 2 / 24).
Proof using P0. eapply jet_ext; [..|apply jet_scal, (ephi_jet1 (p / 2))]; try reflexivity; field; exact P0. Qed.
Lemma fm2_jet : jet fm2 1 (p / 2 + 1 / 3) ((7 * p ^ 2 + 10 * p + 4) / 48).
Proof using P0 P1 P2.
  eapply jet_ext; [..|apply jet_scal, jet_plus; apply jet_scal; [apply (ephi_jet2 (p / 2))|apply (ephi_jet2 (p + 1))]]; try reflexivity; field; repeat split; assumption.
Qed.
Lemma fm3_jet : jet fm3 1 (3 * p / 4 + 1) ((25 * p ^ 2 + 70 * p + 52) / 80).
Proof using P0 P1 P2 P3 P4.
  eapply jet_ext; [..|apply jet_scal, jet_plus; [apply jet_plus; apply jet_scal; [apply (ephi_jet3 (p / 2))|apply (ephi_jet3 (p + 1))]|apply jet_scal, (ephi_jet3 (3 * (p / 2) + 3))]];
    try reflexivity; field; repeat split; assumption.
Qed.
Lemma fm4_jet : jet fm4 1 (p + 2) (13 * p ^ 2 / 24 + 9 * p / 4 + 73 / 30).
Proof using P0 P1 P2 P3 P4 P5 P6.
  eapply jet_ext; [..|apply jet_scal, jet_plus; [apply jet_plus; [apply jet_plus; apply jet_scal; [apply (ephi_jet4 (p / 2))|apply (ephi_jet4 (p + 1))]|apply jet_scal, (ephi_jet4 (3 * (p / 2) + 3))]|apply jet_scal, (ephi_jet4 (2 * p + 6))]];
    try reflexivity; field; repeat split; assumption.
Qed.
Lemma mu3_jet : jet (fun v => fm3 v - 3 * (fm2 v * fm1 v) + 2 * (fm1 v * (fm1 v * fm1 v))) 0 0 (2 / 5).
Proof using P0 P1 P2 P3 P4.
  eapply jet_ext; [..|apply jet_plus; [apply jet_minus; [apply fm3_jet|apply jet_scal, jet_mult; [apply fm2_jet|apply fm1_jet]]|
    apply jet_scal, jet_mult; [apply fm1_jet|apply jet_mult; apply fm1_jet]]]; try reflexivity; field.
Qed.
Lemma mu4_jet : jet (fun v => fm4 v - 4 * (fm3 v * fm1 v) + 6 * (fm2 v * (fm1 v * fm1 v)) - 3 * ((fm1 v * fm1 v) * (fm1 v * fm1 v))) 0 0 (1 / 3).
Proof using P0 P1 P2 P3 P4 P5 P6.
  eapply jet_ext; [..|apply jet_minus; [apply jet_plus; [apply jet_minus; [apply fm4_jet|apply jet_scal, jet_mult; [apply fm3_jet|apply fm1_jet]]|
    apply jet_scal, jet_mult; [apply fm2_jet|apply jet_mult; apply fm1_jet]]|apply jet_scal, jet_mult; apply jet_mult; apply fm1_jet]]; try reflexivity; field.
Qed.
(** error of the Taylor branch of mu2 *)
Definition fd v := 4 * ((2 - p) / 4 + v * (4 - p ^ 2) / 24) / ((p + 1) * (p + 2)) - 4 * (ephi 2 1 v - 2 / p * ephi 2 (p / 2) v) / ((p + 1) * (p + 2)).
Lemma lin_jet a b : jet (fun v => a + v * b) a b 0.
Proof. exists 0. intros v _. replace (a + v * b - (a + b * v + 0 * v ^ 2)) with 0 by ring. rewrite Rabs_R0. lra. Qed.
Lemma fd_jet : jet fd 0 0 (- (8 - p ^ 3) / (48 * (p + 1) * (p + 2))).
Proof using P0 P1 P2.
  assert ((p + 1) * (p + 2) <> 0) as Hpp by (apply Rmult_integral_contrapositive; split; assumption).
  eapply jet_ext; [..|apply (jet_scal (4 / ((p + 1) * (p + 2)))), jet_minus; [apply (lin_jet ((2 - p) / 4) ((4 - p ^ 2) / 24))|
    apply jet_minus; [apply (ephi_jet2 1)|apply (jet_scal (2 / p)), (ephi_jet2 (p / 2))]]]; [intros v _; unfold fd|..]; field; repeat split; assumption.
Qed.
End J.
Lemma tup4 (a b c d a' b' c' d' : R) : a = a' -> b = b' -> c = c' -> d = d' -> (a, b, c, d) = (a', b', c', d').
Proof. intros -> -> -> ->. reflexivity. Qed.
Section K.
Variables (m : opt) (T : R).
Hypotheses (Hs : 0 < sigma m) (HT : 0 < T).
Let p := mnc_p m.
Let v := sigma m ^ 2 * T.
Hypotheses (P0 : p <> 0) (P1 : p + 1 <> 0) (P2 : p + 2 <> 0) (P3 : p + 3 <> 0) (P4 : p + 4 <> 0) (P5 : p + 5 <> 0) (P6 : p + 6 <> 0).
Lemma k_v : 0 < v. Proof using Hs HT. apply Rmult_lt_0_compat; [apply pow_lt; exact Hs|exact HT]. Qed.
Lemma k_u : (intr m - divr m) * T = p / 2 * v. Proof using Hs. unfold p, v, mnc_p. field. clear - Hs. lra. Qed.
Lemma k_A : exp (p / 2 * v) * exp (p / 2 * v) * exp v = exp ((p + 1) * v).
Proof. rewrite <- !exp_plus. f_equal. field. Qed.
Lemma k_A3 : exp ((p + 1) * v) * exp (p / 2 * v) * exp v * exp v = exp ((3 * (p / 2) + 3) * v).
Proof. rewrite <- !exp_plus. f_equal. field. Qed.
Lemma k_A4 : exp ((3 * (p / 2) + 3) * v) * exp (p / 2 * v) * exp v * exp v * exp v = exp ((2 * p + 6) * v).
Proof. rewrite <- !exp_plus. f_equal. field. Qed.
Lemma fm_eq : asian_mnc4 m T = (fm1 p v, fm2 p v, fm3 p v, fm4 p v).
Proof using Hs HT P0 P1 P2 P3 P4 P5 P6.
  pose proof k_v as Hv. assert (p / 2 * v <> 0) as Hpv by (apply Rmult_integral_contrapositive; split; lra).
  unfold asian_mnc4. fold v p. rewrite k_u. rewrite exprel_nz by exact Hpv. cbv zeta. rewrite k_A, k_A3, k_A4.
  unfold fm1, fm2, fm3, fm4, ephi.
  change (epoly 1) with (fun x : R => 0 + x ^ 0 / INR (fact 0)).
  change (epoly 2) with (fun x : R => 0 + x ^ 0 / INR (fact 0) + x ^ 1 / INR (fact 1)).
  change (epoly 3) with (fun x : R => 0 + x ^ 0 / INR (fact 0) + x ^ 1 / INR (fact 1) + x ^ 2 / INR (fact 2)).
  change (epoly 4) with (fun x : R => 0 + x ^ 0 / INR (fact 0) + x ^ 1 / INR (fact 1) + x ^ 2 / INR (fact 2) + x ^ 3 / INR (fact 3)).
  cbv beta. change (fact 0) with 1%nat. change (fact 1) with 1%nat. change (fact 2) with 2%nat. change (fact 3) with 6%nat. cbn [INR].
  generalize (exp (p / 2 * v)) (exp ((p + 1) * v)) (exp ((3 * (p / 2) + 3) * v)) (exp ((2 * p + 6) * v)). intros A A2 A3 A4.
  clear Hpv. clearbody p v. apply tup4; field; repeat split; lra.
Qed.

Lemma moments4 : asian_moment (intr m - divr m) (sigma m) T 1 (fm1 p v) /\ asian_moment (intr m - divr m) (sigma m) T 2 (fm2 p v) /\
  asian_moment (intr m - divr m) (sigma m) T 3 (fm3 p v) /\ asian_moment (intr m - divr m) (sigma m) T 4 (fm4 p v).
Proof using Hs HT P0 P1 P2 P3 P4 P5 P6.
  assert (forall k, (k < 7)%nat -> p + INR k <> 0) as H.
  { intros k Hk. destruct k as [|[|[|[|[|[|[|k]]]]]]]; try lia; cbn [INR]; lra. }
  pose proof (mnc1 m T Hs HT P0) as E1. pose proof (mnc2 m T Hs HT P0 P1 P2) as E2. pose proof (mnc3 m T Hs HT P0 P1 P2 P3 P4) as E3.
  pose proof (mnc4 m T Hs HT P0 P1 P2 P3 P4 P5 P6) as E4. rewrite fm_eq in E1, E2, E3, E4. cbn [fst snd] in *.
  rewrite <- E1, <- E2, <- E3, <- E4. repeat split; apply mnc_moment; try assumption; intros k Hk; apply H; lia.
Qed.
Lemma mu2_err : v < / 100 -> asian_mu2 m T - mu2_exact m T = fd p v.
Proof using Hs HT P0 P1 P2 P3 P4 P5 P6.
  intros Hv. pose proof k_v as Hv0. assert (p / 2 * v <> 0) as Hpv by (apply Rmult_integral_contrapositive; split; lra).
  unfold asian_mu2, mu2_exact. fold v p. rewrite k_u. destruct (Rlt_dec v (/ 100)); [|contradiction]. cbv zeta.
  rewrite (exprel_nz (p / 2 * v)) by exact Hpv. rewrite (exprel_nz v) by lra. unfold fd, ephi.
  change (epoly 2) with (fun x : R => 0 + x ^ 0 / INR (fact 0) + x ^ 1 / INR (fact 1)). cbv beta.
  change (fact 0) with 1%nat. change (fact 1) with 1%nat. cbn [INR]. rewrite Rmult_1_l.
  generalize (exp (p / 2 * v)) (exp v). intros A B. clearbody p v. field. repeat split; lra.
Qed.
Lemma mu2_ex_fm : mu2_exact m T = fm2 p v - fm1 p v ^ 2.
Proof using Hs HT P0 P1 P2 P3 P4 P5 P6.
  rewrite mu2_exact_eq by assumption. unfold m2_all. destruct (Req_EM_T (mnc_p m) 0) as [E|_]; [exfalso; exact (P0 E)|].
  pose proof fm_eq as E. assert (fst (fst (fst (asian_mnc4 m T))) = fm1 p v) as E1 by (rewrite E; reflexivity).
  rewrite E. cbn [fst snd]. rewrite <- E1. unfold asian_mnc4. reflexivity.
Qed.
Lemma mvsk_big : / 100 <= v -> asian_mvsk m T = (fm1 p v, var_of_raw (fm1 p v) (fm2 p v) / fm1 p v ^ 2,
   skew_of_raw (fm1 p v) (fm2 p v) (fm3 p v), exkurt_of_raw (fm1 p v) (fm2 p v) (fm3 p v) (fm4 p v) + 3).
Proof using Hs HT P0 P1 P2 P3 P4 P5 P6.
  intros Hv. assert (asian_mu2 m T = var_of_raw (fm1 p v) (fm2 p v)) as E2.
  { unfold var_of_raw. rewrite <- mu2_ex_fm. unfold asian_mu2, mu2_exact. fold v. destruct (Rlt_dec v (/ 100)); [lra|reflexivity]. }
  unfold asian_mvsk. rewrite E2. unfold asian_mu34. fold v. rewrite fm_eq. destruct (Rlt_dec v (/ 100)); [lra|].
  unfold skew_of_raw, exkurt_of_raw. apply tup4; [reflexivity|reflexivity| |].
  - f_equal; [ring|]. generalize (var_of_raw (fm1 p v) (fm2 p v)). intros x. destruct (Rle_dec 0 x).
    + cbn [pow]. rewrite Rmult_1_r. rewrite <- (sqrt_sqrt x) at 1 by assumption. ring.
    + rewrite sqrt_neg_0 by lra. ring.
  - match goal with |- _ = ?a - 3 + 3 => replace (a - 3 + 3) with a by ring end. f_equal. ring.
Qed.
End K.
Lemma small_v (m : opt) : 0 < sigma m -> (forall k, (k < 7)%nat -> mnc_p m + INR k <> 0) ->
  exists C, forall T, 0 < T -> sigma m ^ 2 * T < / 100 ->
  exists m1 m2 m3 m4, asian_moment (intr m - divr m) (sigma m) T 1 m1 /\ asian_moment (intr m - divr m) (sigma m) T 2 m2 /\
    asian_moment (intr m - divr m) (sigma m) T 3 m3 /\ asian_moment (intr m - divr m) (sigma m) T 4 m4 /\
    let p := mnc_p m in let v := sigma m ^ 2 * T in
    Rabs (asian_mu2 m T - ((m2 - m1 ^ 2) - (8 - p ^ 3) / (48 * (p + 1) * (p + 2)) * v ^ 2)) <= C * v ^ 3 /\
    Rabs (fst (asian_mu34 m T) - (m3 - 3 * m1 * m2 + 2 * m1 ^ 3)) <= C * v ^ 3 /\
    Rabs (snd (asian_mu34 m T) - (m4 - 4 * m1 * m3 + 6 * m1 ^ 2 * m2 - 3 * m1 ^ 4)) <= C * v ^ 3.
Proof.
  intros Hs H. set (p := mnc_p m).
  assert (p <> 0 /\ p + 1 <> 0 /\ p + 2 <> 0 /\ p + 3 <> 0 /\ p + 4 <> 0 /\ p + 5 <> 0 /\ p + 6 <> 0) as (P0 & P1 & P2 & P3 & P4 & P5 & P6).
  { fold p in H. pose proof (H 0%nat ltac:(lia)) as H0. pose proof (H 1%nat ltac:(lia)) as H1. pose proof (H 2%nat ltac:(lia)) as H2.
    pose proof (H 3%nat ltac:(lia)) as H3. pose proof (H 4%nat ltac:(lia)) as H4. pose proof (H 5%nat ltac:(lia)) as H5. pose proof (H 6%nat ltac:(lia)) as H6.
    cbn [INR] in *. repeat split; lra. }
  destruct (fd_jet p P0 P1 P2) as (C2 & HC2). destruct (mu3_jet p P0 P1 P2 P3 P4) as (C3 & HC3). destruct (mu4_jet p P0 P1 P2 P3 P4 P5 P6) as (C4 & HC4).
  exists (Rmax C2 (Rmax C3 C4)). intros T HT Hv.
  pose proof (k_v m T Hs HT) as Hv0. exists (fm1 p (sigma m ^ 2 * T)), (fm2 p (sigma m ^ 2 * T)), (fm3 p (sigma m ^ 2 * T)), (fm4 p (sigma m ^ 2 * T)).
  destruct (moments4 m T Hs HT P0 P1 P2 P3 P4 P5 P6) as (M1 & M2 & M3 & M4). do 4 (split; [assumption|]). cbv zeta.
  pose proof (mu2_ex_fm m T Hs HT P0 P1 P2 P3 P4 P5 P6) as E2. pose proof (mu2_err m T Hs HT P0 P1 P2 P3 P4 P5 P6 Hv) as E1.
  fold p in E1, E2. unfold asian_mu34. rewrite (fm_eq m T Hs HT P0 P1 P2 P3 P4 P5 P6). fold p. clear M1 M2 M3 M4.
  set (v := sigma m ^ 2 * T) in *. destruct (Rlt_dec v (/ 100)) as [_|]; [|contradiction]. cbn [fst snd].
  assert (0 < v <= 1) as Hv1 by lra. specialize (HC2 v Hv1). specialize (HC3 v Hv1). specialize (HC4 v Hv1). cbv beta in *.
  assert (0 < v ^ 3) by (apply pow_lt; lra).
  pose proof (Rmax_l C2 (Rmax C3 C4)). pose proof (Rmax_r C2 (Rmax C3 C4)). pose proof (Rmax_l C3 C4). pose proof (Rmax_r C3 C4).
  split; [|split].
  - apply Rle_trans with (C2 * v ^ 3); [|apply Rmult_le_compat_r; lra].
    eapply Rle_trans; [|exact HC2]. right. f_equal. rewrite <- E1, <- E2. field. split; assumption.
  - apply Rle_trans with (C3 * v ^ 3); [|apply Rmult_le_compat_r; lra]. rewrite <- Rabs_Ropp. eapply Rle_trans; [|exact HC3]. right. f_equal. field.
  - apply Rle_trans with (C4 * v ^ 3); [|apply Rmult_le_compat_r; lra]. rewrite <- Rabs_Ropp. eapply Rle_trans; [|exact HC4]. right. f_equal. field.
Qed.
