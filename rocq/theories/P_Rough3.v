From Coq Require Import Reals List Lra Lia Psatz.
From Coquelicot Require Import Coquelicot.
From Verif Require Import Base Sums Spec_Cev M_Fd M_Rough Spec_Rough P_Half P_Gamma P_Gamma2 P_Cev5 P_Cev6 P_Cev7 P_Rough P_Rough2.
Import ListNotations.
Open Scope R_scope.

Section Coef.
Variables (Gam : R -> R) (al lambd mu nu : R).
Notation A := (hyb_a Gam al lambd mu nu).
Notation co := (hyb_coef Gam al lambd mu nu).
Lemma hyb_SS m : A (S (S m)) = (let '(a, a2) := A (S m) in
   (a ++ [(lambd * nth (S m) a2 0 + mu * nth (S m) a 0) * (Gam (al * INR (S m) + 1) / Gam (al * INR (S m) + al + 1))],
    a2 ++ [rsum (S (S m)) (fun l => nth l a 0 * nth (S m - l) a 0)])).
Proof. reflexivity. Qed.
Lemma hyb_len i : length (fst (A i)) = S i /\ length (snd (A i)) = S i.
Proof.
  destruct i as [|i]; [split; reflexivity|]. induction i as [|i [IH1 IH2]]; [split; reflexivity|].
  rewrite hyb_SS. destruct (A (S i)) as [a a2]. cbn [fst snd] in *. rewrite !app_length, IH1, IH2. cbn. lia.
Qed.
Lemma hyb_nth j i : (j <= i)%nat -> nth j (fst (A i)) 0 = co j.
Proof.
  induction i as [|i IH]; intros H; [assert (j = O) by lia; subst; reflexivity|].
  destruct (Nat.eq_dec j (S i)) as [->|Hn]; [reflexivity|]. rewrite <- IH by lia. destruct i as [|i]; [assert (j = O) by lia; subst; reflexivity|].
  pose proof (hyb_len (S i)) as [L1 _]. rewrite hyb_SS. destruct (A (S i)) as [a a2]. cbn [fst snd] in *. apply app_nth1. lia.
Qed.
Lemma co_0 : co 0 = 0. Proof. reflexivity. Qed.
Lemma co_1 : co 1 = nu / Gam (al + 1). Proof. reflexivity. Qed.
(** a_2 holds the Cauchy square one index late *)
Lemma hyb_a2 i : (1 <= i)%nat -> nth i (snd (A i)) 0 = square_coef co (pred i).
Proof.
  intros H. destruct i as [|i]; [lia|]. destruct i as [|i].
  - cbn [pred]. unfold square_coef. cbn [rsum Nat.sub]. rewrite co_0. cbn. ring.
  - pose proof (hyb_len (S i)) as [L1 L2]. pose proof (fun j (Hj : (j <= S i)%nat) => hyb_nth j (S i) Hj) as E. rewrite hyb_SS. destruct (A (S i)) as [a a2]. cbn [fst snd] in *.
    rewrite app_nth2 by lia. rewrite L2, Nat.sub_diag. cbn [nth pred]. unfold square_coef. apply rsum_ext. intros l Hl. rewrite !E by lia. reflexivity.
Qed.
Lemma co_S m : (1 <= m)%nat -> co (S m) = power_rule Gam al (al * INR m) * (lambd * square_coef co (pred m) + mu * co m).
Proof.
  intros H. destruct m as [|m]; [lia|]. unfold hyb_coef at 1. pose proof (hyb_len (S m)) as [L1 L2]. pose proof (hyb_a2 (S m) H) as E2. pose proof (hyb_nth (S m) (S m) (le_n _)) as E1.
  rewrite hyb_SS. destruct (A (S m)) as [a a2]. cbn [fst snd] in *. rewrite app_nth2 by lia. rewrite L1, Nat.sub_diag. cbn [nth]. rewrite E1, E2. unfold power_rule. ring.
Qed.
End Coef.

Lemma Gam_one Gam : gamma_function Gam -> Gam 1 = 1.
Proof.
  intros HG. destruct (HG 1 Rlt_0_1) as [G (P & DP & P0 & P1)].
  assert (D2 : forall x, 0 < x -> is_derive (fun x => (1 - exp (- (1) * x)) / Gam 1) x (gamma_pdf Gam 1 x)).
  { intros x Hx. unfold gamma_pdf. rewrite Rminus_eq_0, Rpower_O by exact Hx. auto_derive; [exact I|]. Req. replace (- (1) * x) with (- x) by ring. field. lra. }
  assert (L0 : filterlim (fun x => (1 - exp (- (1) * x)) / Gam 1) (at_right 0) (locally 0)).
  { assert (Cn : filterlim (fun x => (1 - exp (- (1) * x)) / Gam 1) (locally 0) (locally ((1 - exp (- (1) * 0)) / Gam 1))).
    { apply (ex_derive_continuous (K := R_AbsRing) (V := R_NormedModule) (fun x => (1 - exp (- (1) * x)) / Gam 1)). auto_derive. exact I. }
    rewrite Rmult_0_r, exp_0 in Cn. replace ((1 - 1) / Gam 1) with 0 in Cn by (field; lra). intros Q HQ. destruct (Cn Q HQ) as [e He]. exists e. intros y Hy _. now apply He. }
  assert (L1 : is_lim (fun x => (1 - exp (- (1) * x)) / Gam 1) p_infty (/ Gam 1)).
  { apply (is_lim_ext (fun x => / Gam 1 * (1 - exp (- (1) * x)))); [intros; field; lra|]. replace (Finite (/ Gam 1)) with (Rbar_mult (/ Gam 1) 1) by (cbn; f_equal; ring).
    apply is_lim_scal_l. replace (Finite 1) with (Rbar_minus 1 0) by (cbn; f_equal; ring). apply is_lim_minus'; [apply is_lim_const|apply exp_lim_m; lra]. }
  assert (U := half_unique P _ _ 0 DP D2 P0 L0).
  assert (L2 : is_lim P p_infty (/ Gam 1)). { apply (is_lim_ext_loc (fun x => (1 - exp (- (1) * x)) / Gam 1)); [exists 0; intros x Hx; symmetry; now apply U|exact L1]. }
  apply is_lim_unique in P1. apply is_lim_unique in L2. rewrite P1 in L2. injection L2 as E. rewrite <- (Rinv_inv (Gam 1)), <- E. apply Rinv_1.
Qed.
Theorem hybrid_lagged Gam al lambd mu nu : gamma_function Gam -> forall m,
  let a := hyb_coef Gam al lambd mu nu in
  a (S m) = power_rule Gam al (al * INR m) * (lambd * square_coef a (pred m) + mu * a m + (if Nat.eqb m 0 then nu else 0)).
Proof.
  intros HG m a. destruct m as [|m].
  - cbn [Nat.eqb pred]. unfold a. rewrite co_1. unfold square_coef, power_rule. cbn [rsum Nat.sub INR]. rewrite co_0. rewrite !Rmult_0_r, !Rplus_0_l, (Gam_one Gam HG). unfold Rdiv. ring.
  - cbn [Nat.eqb]. unfold a. rewrite co_S by lia. ring.
Qed.
Lemma power_rule_pos Gam r q : gamma_function Gam -> 0 < r -> 0 <= q -> 0 < power_rule Gam r q.
Proof. intros HG Hr Hq. unfold power_rule. apply Rdiv_lt_0_compat; apply (Gam_pos Gam HG); lra. Qed.
Lemma al_INR al m : 0 < al -> 0 <= al * INR m.
Proof. intros H. apply Rmult_le_pos; [lra|apply pos_INR]. Qed.
Lemma co_zero Gam al lambd mu m : gamma_function Gam -> hyb_coef Gam al lambd mu 0 m = 0.
Proof.
  intros HG. assert (All : forall n j, (j <= n)%nat -> hyb_coef Gam al lambd mu 0 j = 0); [|exact (All m m (le_n m))].
  induction n as [|n IH]; intros j Hj; [assert (j = O) by lia; subst; reflexivity|]. destruct j as [|j]; [reflexivity|].
  pose proof (hybrid_lagged Gam al lambd mu 0 HG j) as E. cbv zeta in E. rewrite E. unfold square_coef. rewrite rsum_eq0; [|intros l Hl; rewrite IH by lia; ring]. rewrite IH by lia. destruct (Nat.eqb j 0); ring.
Qed.
(** the computed coefficients solve the Riccati equation only when its quadratic or its constant term is absent *)
Theorem hybrid_riccati_iff Gam al lambd mu nu : gamma_function Gam -> 0 < al ->
  (riccati_series Gam al lambd mu nu (hyb_coef Gam al lambd mu nu) <-> lambd = 0 \/ nu = 0).
Proof.
  intros HG Ha. split.
  - intros [_ HS]. pose proof (HS 2%nat) as E. pose proof (hybrid_lagged Gam al lambd mu nu HG 2%nat) as C. cbv zeta in C. rewrite E in C. clear E HS.
    assert (P := power_rule_pos Gam al (al * INR 2) HG Ha (al_INR al 2 Ha)). cbn [Nat.eqb pred] in C. apply Rmult_eq_reg_l in C; [|lra].
    unfold square_coef in C. cbn [rsum Nat.sub] in C. rewrite co_0 in C. rewrite co_1 in C.
    assert (G : 0 < Gam (al + 1)) by (apply (Gam_pos Gam HG); lra). set (w := nu / Gam (al + 1)) in *.
    assert (K : lambd * (w * w) = 0) by lra. apply Rmult_integral in K as [K|K]; [now left|right].
    assert (Hw : w = 0) by (apply Rmult_integral in K as [K|K]; exact K). replace nu with (w * Gam (al + 1)); [rewrite Hw; ring|]. unfold w. field. lra.
  - intros H. split; [reflexivity|]. intros m. rewrite (hybrid_lagged Gam al lambd mu nu HG m). cbv zeta. f_equal. f_equal. f_equal. destruct H as [-> | ->]; [ring|].
    f_equal. unfold square_coef. rewrite !rsum_eq0; [reflexivity| |]; intros l _; rewrite !co_zero by exact HG; ring.
Qed.

(** ** I_1_FPS and I_2_FPS *)
Lemma npow_deriv y x : 0 < x -> is_derive (fun s => npow s y) x (y * Rpower x (y - 1)).
Proof.
  intros H. apply (is_derive_ext_loc (fun s => Rpower s y)); [apply (locally_interval _ x 0 p_infty); simpl; [lra|exact I|]; intros s Hs _; simpl in Hs; now rewrite npow_1 by lra|].
  now apply rpow_derive.
Qed.
Lemma I_1_antiderivative al t r0 (a : list R) : 0 < al -> 0 < t ->
  is_RInt_gen (V := R_NormedModule) (fun s => phi_t al s r0 a) (at_right 0) (at_point t) (I_1_FPS al t r0 a).
Proof.
  intros Ha Ht. set (Fd := fun s : R => rsum r0 (fun q => nth (S q) a 0 / (al * INR (S q) + 1) * npow s (al * INR (S q) + 1))).
  assert (Hp : forall q, 0 < al * INR (S q)) by (intros q; apply Rmult_lt_0_compat; [lra|apply lt_0_INR; lia]).
  assert (D : forall x, 0 < x -> is_derive Fd x (phi_t al x r0 a)).
  { intros x Hx. unfold Fd, phi_t. apply rsum_derive. intros q _. pose proof (Hp q).
    pose proof (is_derive_scal (fun s => npow s (al * INR (S q) + 1)) x (nth (S q) a 0 / (al * INR (S q) + 1)) _ (npow_deriv (al * INR (S q) + 1) x Hx)) as E.
    eapply (is_derive_eq _ _ _ _ E). cbv beta. rewrite npow_1 by exact Hx. replace (al * INR (S q) + 1 - 1) with (al * INR (S q)) by ring.
    generalize (Rpower x (al * INR (S q))). intros w. field. lra. }
  assert (V : I_1_FPS al t r0 a = Fd t - 0).
  { unfold I_1_FPS, Fd. rewrite Rminus_0_r, <- rsum_scal. apply rsum_ext. intros q _. cbv zeta. pose proof (Hp q). rewrite (npow_S t) by lra. field. lra. }
  rewrite V. apply (gen_anti (Fa := at_right 0) (Fb := at_point t) Fd (fun s => phi_t al s r0 a) 0 (Fd t)); [apply right_pos|now apply at_point_pos|exact D| | |].
  - intros x Hx. apply (ex_derive_continuous (K := R_AbsRing) (V := R_NormedModule)). unfold phi_t.
    exists (rsum r0 (fun q => nth (S q) a 0 * (al * INR (S q) * Rpower x (al * INR (S q) - 1)))). apply rsum_derive. intros q _. apply (is_derive_scal (fun s => npow s (al * INR (S q)))). now apply npow_deriv.
  - unfold Fd. clear D V Fd. induction r0 as [|r IH]; cbn [rsum]; [apply filterlim_const|].
    replace 0 with (0 + nth (S r) a 0 / (al * INR (S r) + 1) * 0) at 2 by ring. apply lim_plus_at0; [exact IH|].
    apply (filterlim_ext_loc (fun s => nth (S r) a 0 / (al * INR (S r) + 1) * Rpower s (al * INR (S r) + 1))).
    + exists (mkposreal 1 Rlt_0_1). intros s _ Hs. now rewrite npow_1 by lra.
    + rewrite Rmult_0_r. apply lim_scal_at0, pow_lim0. pose proof (Hp r). lra.
  - apply lim_at_point.
Qed.
Lemma I_2_power_rule Gam al lambd mu nu t r0 : gamma_function Gam -> 0 < al < 1 -> 0 < t -> (1 <= r0)%nat ->
  I_2_FPS Gam al t nu r0 (fst (hyb_a Gam al lambd mu nu r0))
  = rsum r0 (fun q => hyb_coef Gam al lambd mu nu (S q) * power_rule Gam (1 - al) (al * INR (S q)) * Rpower t (al * INR (S q) + (1 - al))).
Proof.
  intros HG Ha Ht Hr. destruct r0 as [|r]; [lia|]. rewrite rsum_shift. unfold I_2_FPS. replace (S r - 1)%nat with r by lia. rewrite Rmult_plus_distr_l, <- rsum_scal. f_equal.
  - rewrite co_1. unfold power_rule. cbn [INR]. rewrite !npow_1 by lra. replace (al * 1 + 1) with (al + 1) by ring. replace (al * 1 + (1 - al) + 1) with (1 + 1) by ring. replace (al * 1 + (1 - al)) with 1 by ring.
    rewrite (Gam_succ Gam HG 1) by lra. rewrite (Gam_one Gam HG), Rpower_1 by lra.
    assert (G : 0 < Gam (al + 1)) by (apply (Gam_pos Gam HG); lra).
    replace (Rpower t (1 - al) * (nu * Rpower t al)) with (nu * (Rpower t (1 - al) * Rpower t al)) by ring. rewrite <- Rpower_plus. replace (1 - al + al) with 1 by ring. rewrite Rpower_1 by lra. field. lra.
  - apply rsum_ext. intros q Hq. cbv zeta. rewrite hyb_nth by lia. set (i := S (S q)). set (a := hyb_coef Gam al lambd mu nu i). clearbody a.
    assert (Hi : 2 <= INR i) by (unfold i; rewrite !S_INR; pose proof (pos_INR q); lra). assert (Pi : 0 < al * (INR i - 1)) by (apply Rmult_lt_0_compat; lra).
    unfold power_rule. rewrite !npow_1 by lra.
    rewrite (Gam_succ Gam HG (al * INR i)) by nra. replace (al * INR i + (1 - al) + 1) with (al * INR i - al + 1 + 1) by ring. rewrite (Gam_succ Gam HG (al * INR i - al + 1)) by lra. rewrite (Gam_succ Gam HG (al * INR i - al)) by lra.
    rewrite Rpower_plus. replace (INR i * al) with (al * INR i) by ring.
    assert (G1 : 0 < Gam (al * INR i - al)) by (apply (Gam_pos Gam HG); lra).
    generalize (Gam (al * INR i)) (Rpower t (al * INR i)) (Rpower t (1 - al)). intros g x y. field. repeat split; lra.
Qed.
