(** 3/2 model: the conditional transform of the average variance, its mean and variance, and the Bessel mixture. *)
From Coq Require Import Reals Lra Lia List Arith Psatz.
From Coquelicot Require Import Coquelicot.
From Verif Require Import Base Sums Spec_Cev P_Gamma P_Gamma2 P_KlSum P_Digamma P_Ncx2 M_Mgf M_Heston M_Sv32Mc Spec_HestonMc P_HestonMc3 Spec_Sv32 P_Sv32Mc2.
Open Scope R_scope.

Section T.
Variables (p : svp) (dt : R).
Hypothesis (Hx : 0 < v_vov p) (Hk : 0 < v_mr p) (Ht : 0 < v_theta p) (Hd : 0 < dt).
Lemma sv32_nu_eq : sv32_nu p = 2 * v_mr p / v_vov p ^ 2 + 1.
Proof. unfold sv32_nu, chi_dim, sv32_cir. cbn [c_theta c_mr c_xi]. field. repeat split; lra. Qed.
Lemma sv32_nu_gt : 1 < sv32_nu p.
Proof. rewrite sv32_nu_eq. assert (0 < 2 * v_mr p / v_vov p ^ 2) by (apply Rdiv_lt_0_compat; [lra|now apply pow_lt]). lra. Qed.
Let c4 : R := 4 / (v_vov p ^ 2 * dt).
Lemma c4_pos : 0 < c4. Proof. unfold c4. apply Rdiv_lt_0_compat; [lra|]. apply Rmult_lt_0_compat; [now apply pow_lt|exact Hd]. Qed.
Lemma nu_bb_eq b : sv32_nu_bb p b dt = sqrt (sv32_nu p ^ 2 + 2 * c4 * b).
Proof. unfold sv32_nu_bb, c4. f_equal. f_equal. field. split; lra. Qed.
Lemma nu_bb_0 : sv32_nu_bb p 0 dt = sv32_nu p.
Proof. rewrite nu_bb_eq, Rmult_0_r, Rplus_0_r. pose proof sv32_nu_gt. replace (sv32_nu p ^ 2) with (sv32_nu p * sv32_nu p) by ring. apply sqrt_square. lra. Qed.
Definition bb_r : R := sv32_nu p ^ 2 / (2 * (4 / (v_vov p ^ 2 * dt))).
Lemma bb_r_pos : 0 < bb_r.
Proof. unfold bb_r. fold c4. pose proof c4_pos. pose proof sv32_nu_gt. apply Rdiv_lt_0_compat; [apply pow_lt|]; lra. Qed.
Lemma bb_ok b : - bb_r < b -> 0 < sv32_nu p ^ 2 + 2 * c4 * b.
Proof. intros Hb. pose proof c4_pos. apply (Rmult_lt_compat_l (2 * c4)) in Hb; [|lra]. unfold bb_r in Hb. fold c4 in Hb. replace (2 * c4 * - (sv32_nu p ^ 2 / (2 * c4))) with (- (sv32_nu p ^ 2)) in Hb by (field; lra). lra. Qed.
Lemma nu_bb_pos b : - bb_r < b -> 0 < sv32_nu_bb p b dt.
Proof. intros Hb. rewrite nu_bb_eq. apply sqrt_lt_R0, bb_ok, Hb. Qed.
Lemma nu_bb_d b : - bb_r < b -> is_derive (fun y => sv32_nu_bb p y dt) b (c4 / sv32_nu_bb p b dt).
Proof.
  intros Hb. pose proof (bb_ok b Hb) as P. apply (is_derive_ext (fun y => sqrt (sv32_nu p ^ 2 + 2 * c4 * y))); [intros y; symmetry; apply nu_bb_eq|]. rewrite nu_bb_eq.
  assert (Q := sqrt_lt_R0 _ P). auto_derive; [exact P|]. Req. change (sv32_nu p * (sv32_nu p * 1)) with (sv32_nu p ^ 2). field. lra.
Qed.
Lemma nu_bb_dd b : - bb_r < b -> is_derive (fun y => c4 / sv32_nu_bb p y dt) b (- c4 ^ 2 / sv32_nu_bb p b dt ^ 3).
Proof.
  intros Hb. pose proof (nu_bb_pos b Hb) as P. pose proof (nu_bb_d b Hb) as D.
  assert (DI : is_derive (fun y => c4 / y) (sv32_nu_bb p b dt) (- (c4 / sv32_nu_bb p b dt ^ 2))) by (auto_derive; [lra|]; Req; field; lra).
  pose proof (is_derive_comp (fun y => c4 / y) (fun y => sv32_nu_bb p y dt) b _ _ DI D) as C. unfold scal in C; cbn in C. unfold mult in C; cbn in C.
  eapply is_derive_eq; [exact C|]. field. lra.
Qed.
Lemma sv32_d1_eq : sv32_d1 p dt = c4 / sv32_nu_bb p 0 dt. Proof. unfold sv32_d1. now rewrite nu_bb_0. Qed.
Lemma sv32_d2_eq : sv32_d2 p dt = - c4 ^ 2 / sv32_nu_bb p 0 dt ^ 3. Proof. unfold sv32_d2. now rewrite nu_bb_0. Qed.
(** generic: ln of a function of nu_bb *)
Lemma comp_mean_var (G G1 : R -> R) (g2 : R) (L : R -> R) : (forall y, 0 < y -> is_derive G y (G1 y)) -> is_derive G1 (sv32_nu p) g2 ->
  L 0 = 1 -> (forall b, - bb_r < b -> 0 < L b /\ ln (L b) = G (sv32_nu_bb p b dt) - G (sv32_nu p)) ->
  laplace_mean_var L (- (G1 (sv32_nu p) * sv32_d1 p dt)) (G1 (sv32_nu p) * sv32_d2 p dt + g2 * sv32_d1 p dt ^ 2).
Proof.
  intros D1 D2 L0 HL. pose proof bb_r_pos as Hr. split; [exact L0|]. exists (fun b => G1 (sv32_nu_bb p b dt) * (c4 / sv32_nu_bb p b dt)).
  assert (DD : forall b, - bb_r < b -> is_derive (fun y => ln (L y)) b (G1 (sv32_nu_bb p b dt) * (c4 / sv32_nu_bb p b dt))).
  { intros b Hb. apply (is_derive_ext_loc (fun y => G (sv32_nu_bb p y dt) - G (sv32_nu p))).
    - assert (Hr2 : 0 < b + bb_r) by lra. exists (mkposreal _ Hr2). intros y Hy. change (Rabs (y - b) < b + bb_r) in Hy. apply Rabs_def2 in Hy. symmetry. apply HL. lra.
    - pose proof (is_derive_comp G (fun y => sv32_nu_bb p y dt) b _ _ (D1 _ (nu_bb_pos b Hb)) (nu_bb_d b Hb)) as C. unfold scal in C; cbn in C. unfold mult in C; cbn in C.
      eapply is_derive_eq; [apply is_derive_minus_R; [exact C|instantiate (1 := 0); apply (is_derive_const (K := R_AbsRing) (V := R_NormedModule))]|]. ring. }
  split; [|split].
  - exists (mkposreal _ Hr). intros b Hb. change (Rabs (b - 0) < bb_r) in Hb. rewrite Rminus_0_r in Hb. apply Rabs_def2 in Hb. split; [apply HL; lra|apply DD; lra].
  - rewrite sv32_d1_eq, nu_bb_0. ring.
  - assert (Hb : - bb_r < 0) by lra. rewrite sv32_d1_eq, sv32_d2_eq. rewrite <- nu_bb_0 in D2.
    pose proof (is_derive_comp G1 (fun y => sv32_nu_bb p y dt) 0 _ _ D2 (nu_bb_d 0 Hb)) as C. unfold scal in C; cbn in C. unfold mult in C; cbn in C.
    eapply is_derive_eq; [apply is_derive_mult_R; [exact C|exact (nu_bb_dd 0 Hb)]|]. cbv beta. rewrite nu_bb_0. Req. ring.
Qed.
Variables v0 vt : R.
Hypothesis (H0 : 0 < v0) (Hvt : 0 < vt).
Lemma sv32_zz_pos : 0 < sv32_zz p dt v0 vt.
Proof.
  unfold sv32_zz. apply Rdiv_lt_0_compat; [|apply sqrt_lt_R0; now apply Rmult_lt_0_compat].
  assert (0 < v_mr p * v_theta p) by now apply Rmult_lt_0_compat. apply phi_pos; unfold sv32_cir; cbn [c_xi c_mr c_theta]; assumption.
Qed.
Lemma floor_spec m v vs : vs = sv32_floor (v / m ^ 2) -> m <> 0 -> (0 <= v -> vs * m ^ 2 = v) /\ (v < 0 -> vs = / 10 ^ 64).
Proof.
  intros -> Hm. assert (P : 0 < m ^ 2) by (apply pow2_gt_0; exact Hm). unfold sv32_floor. assert (E : v / m ^ 2 * m ^ 2 = v) by (field; exact Hm). split; intros Hv.
  - destruct (Rlt_dec (v / m ^ 2) 0) as [Q|Q]; [|exact E]. exfalso. apply (Rmult_lt_compat_r (m ^ 2)) in Q; [|exact P]. rewrite E, Rmult_0_l in Q. lra.
  - destruct (Rlt_dec (v / m ^ 2) 0) as [Q|Q]; [reflexivity|]. exfalso. apply Q. apply Rmult_lt_reg_r with (m ^ 2); [exact P|]. rewrite E, Rmult_0_l. exact Hv.
Qed.
Lemma sv32_mv_exact (F : R -> R -> R) (ivd : R -> R -> R * R) (m vs : R) :
  (forall y z, 0 < y -> 0 < z -> 0 < F y z /\ is_derive (fun u => F u z) y (fst (ivd y z)) /\ is_derive (fun u => fst (ivd u z)) y (snd (ivd y z))) ->
  sv32_avgvar_mv F ivd p dt v0 vt = (m, vs) ->
  exists v, laplace_mean_var (fun b => sv32_laplace F F p b dt v0 vt) m v /\ (m <> 0 -> (0 <= v -> vs * m ^ 2 = v) /\ (v < 0 -> vs = / 10 ^ 64)).
Proof.
  intros HF E. pose proof sv32_zz_pos as Hz. pose proof sv32_nu_gt as Hn. set (z := sv32_zz p dt v0 vt) in *. set (nu := sv32_nu p) in *.
  assert (Hnu : 0 < nu) by lra. destruct (HF nu z Hnu Hz) as [P [E1 E2]].
  unfold sv32_avgvar_mv in E. fold nu z in E. destruct (ivd nu z) as [a1 a2] eqn:EA. cbn [fst snd] in *. injection E as Em Ev.
  exists (a1 / F nu z * sv32_d2 p dt + ((a2 * F nu z - a1 * a1) / F nu z ^ 2) * sv32_d1 p dt ^ 2). split.
  - rewrite <- Em. replace (- (a1 * sv32_d1 p dt) / F nu z) with (- (a1 / F nu z * sv32_d1 p dt)) by (field; lra).
    pose proof (comp_mean_var (fun y => ln (F y z)) (fun y => fst (ivd y z) / F y z) ((a2 * F nu z - a1 * a1) / F nu z ^ 2) (fun b => sv32_laplace F F p b dt v0 vt)) as CM.
    cbv beta in CM. fold nu in CM. rewrite EA in CM. cbn [fst] in CM. apply CM.
    + intros y Hy. destruct (HF y z Hy Hz) as [Py [D _]]. eapply is_derive_eq; [apply (is_derive_comp ln (fun u => F u z)); [apply is_derive_ln; exact Py|exact D]|]. unfold scal; cbn. unfold mult; cbn. unfold Rdiv. ring.
    + assert (D := is_derive_div (fun u => fst (ivd u z)) (fun u => F u z) nu _ _ E2 E1 ltac:(lra)). cbv beta in D. rewrite EA in D. cbn [fst] in D. eapply is_derive_eq; [exact D|]. Req. reflexivity.
    + unfold sv32_laplace. fold z nu. rewrite nu_bb_0. fold nu. field. lra.
    + intros b Hb. pose proof (nu_bb_pos b Hb) as Pb. destruct (HF _ z Pb Hz) as [PF _]. unfold sv32_laplace. fold z nu. split; [now apply Rdiv_lt_0_compat|].
      unfold Rdiv. rewrite ln_mult, ln_Rinv by (try apply Rinv_0_lt_compat; lra). ring.
  - intros Hm. apply floor_spec; [|exact Hm]. rewrite <- Ev, <- Em. f_equal. f_equal. field. lra.
Qed.
Section Eta.
Variables Gam psi psi1 : R -> R.
Hypothesis (HG : gamma_function Gam) (Hpsi : digamma_of Gam psi) (Hpsi1 : trigamma_of psi psi1).
(** the component of the transform given the Bessel index *)
Definition eta_component (b eta : R) : R :=
  Gam (eta + sv32_nu p + 1) / Gam (eta + sv32_nu_bb p b dt + 1) * Rpower (sv32_zz p dt v0 vt / 2) (sv32_nu_bb p b dt - sv32_nu p).
Lemma eta_component_mix b : - bb_r < b ->
  is_series (fun k => bessel_pmf Gam (sv32_nu p) (sv32_zz p dt v0 vt) k * eta_component b (INR k))
    (bessel_I Gam (sv32_nu_bb p b dt) (sv32_zz p dt v0 vt) / bessel_I Gam (sv32_nu p) (sv32_zz p dt v0 vt)).
Proof.
  intros Hb. pose proof sv32_zz_pos as Hz. pose proof sv32_nu_gt as Hn. pose proof (nu_bb_pos b Hb) as Hbb. unfold eta_component, bessel_pmf.
  set (z := sv32_zz p dt v0 vt) in *. set (nu := sv32_nu p) in *. set (nb := sv32_nu_bb p b dt) in *.
  pose proof (bI_pos Gam HG nu z ltac:(lra)) as PI. replace (bessel_I Gam nb z / bessel_I Gam nu z) with (/ bessel_I Gam nu z * bessel_I Gam nb z) by (field; lra).
  eapply series_ext; [apply series_scal; rewrite (bI_eq Gam HG nb z) by lra; apply (bI_series Gam HG nb z); lra|]. intros k. cbv beta. unfold bessel_I_term. pose proof (pos_INR k).
  unfold Rminus. rewrite Rpower_plus. pose proof (Rpower_Ropp (z / 2) nu) as EO. rewrite EO. pose proof (exp_pos (nu * ln (z / 2))) as PE. fold (Rpower (z / 2) nu) in PE.
  pose proof (Gam_pos Gam HG (INR k + nu + 1) ltac:(lra)). pose proof (Gam_pos Gam HG (INR k + nb + 1) ltac:(lra)). pose proof (fact_pos k). field. repeat split; lra.
Qed.
Lemma nu_diff_eq b : - bb_r < b -> 8 * b / v_vov p ^ 2 / (sv32_nu_bb p b dt + sv32_nu p) = dt * (sv32_nu_bb p b dt - sv32_nu p).
Proof.
  intros Hb. pose proof (nu_bb_pos b Hb) as P. pose proof sv32_nu_gt as Hn. pose proof (bb_ok b Hb) as B.
  assert (E : sv32_nu_bb p b dt ^ 2 = sv32_nu p ^ 2 + 2 * c4 * b) by (rewrite nu_bb_eq, pow2_sqrt; [reflexivity|lra]).
  apply Rmult_eq_reg_r with (sv32_nu_bb p b dt + sv32_nu p); [|lra]. replace (dt * (sv32_nu_bb p b dt - sv32_nu p) * (sv32_nu_bb p b dt + sv32_nu p)) with (dt * (sv32_nu_bb p b dt ^ 2 - sv32_nu p ^ 2)) by ring.
  rewrite E. unfold c4. field. repeat split; lra.
Qed.
Lemma laplace_eta_eq b eta : - bb_r < b -> sv32_laplace_eta Gam p b dt v0 vt eta =
  eta_component b eta * Rpower (sv32_zz p dt v0 vt / 2) ((dt - 1) * (sv32_nu_bb p b dt - sv32_nu p)).
Proof. intros Hb. unfold sv32_laplace_eta, eta_component. rewrite nu_diff_eq by exact Hb. rewrite Rmult_assoc, <- Rpower_plus. do 2 f_equal. ring. Qed.
Lemma eta_laplace_mixture b : - bb_r < b ->
  is_series (fun k => bessel_pmf Gam (sv32_nu p) (sv32_zz p dt v0 vt) k * sv32_laplace_eta Gam p b dt v0 vt (INR k))
    (sv32_laplace (bessel_I Gam) (bessel_I Gam) p b dt v0 vt * Rpower (sv32_zz p dt v0 vt / 2) ((dt - 1) * (sv32_nu_bb p b dt - sv32_nu p))).
Proof.
  intros Hb. unfold sv32_laplace. rewrite Rmult_comm. eapply series_ext; [apply series_scal, (eta_component_mix b Hb)|]. intros k. cbv beta. rewrite laplace_eta_eq by exact Hb. ring.
Qed.
Lemma sv32_mv_eta_exact (eta m vs : R) : 0 <= eta -> sv32_avgvar_mv_eta psi psi1 p dt v0 vt eta = (m, vs) ->
  exists v, laplace_mean_var (fun b => eta_component b eta) m v /\ (m <> 0 -> (0 <= v -> vs * m ^ 2 = v) /\ (v < 0 -> vs = / 10 ^ 64)).
Proof.
  intros He E. pose proof sv32_zz_pos as Hz. pose proof sv32_nu_gt as Hn. set (z := sv32_zz p dt v0 vt) in *. set (nu := sv32_nu p) in *.
  set (G1 := fun y => ln (z / 2) - psi (eta + y + 1)). unfold sv32_avgvar_mv_eta in E. fold nu z in E. injection E as Em Ev.
  exists (G1 nu * sv32_d2 p dt + - psi1 (eta + nu + 1) * sv32_d1 p dt ^ 2).
  assert (DI : forall y : R, is_derive (fun y : R => eta + y + 1) y 1) by (intros; auto_derive; [exact I|ring]). split.
  - rewrite <- Em. replace ((- psi (eta + nu + 1) + ln (z / 2)) * - sv32_d1 p dt) with (- (G1 nu * sv32_d1 p dt)) by (unfold G1; ring).
    apply (comp_mean_var (fun y => y * ln (z / 2) - ln (Gam (eta + y + 1))) G1 (- psi1 (eta + nu + 1)) (fun b => eta_component b eta)).
    + intros y Hy. pose proof (is_derive_comp (fun u => ln (Gam u)) (fun y => eta + y + 1) y _ _ (Hpsi (eta + y + 1) ltac:(lra)) (DI y)) as C. unfold scal in C; cbn in C. unfold mult in C; cbn in C.
      eapply is_derive_eq; [apply is_derive_minus_R; [|exact C]; instantiate (1 := ln (z / 2)); auto_derive; [exact I|ring]|]. unfold G1. ring.
    + fold nu. pose proof (is_derive_comp psi (fun y => eta + y + 1) nu _ _ (Hpsi1 (eta + nu + 1) ltac:(lra)) (DI nu)) as C. unfold scal in C; cbn in C. unfold mult in C; cbn in C.
      eapply is_derive_eq; [apply is_derive_minus_R; [instantiate (1 := 0); apply (is_derive_const (K := R_AbsRing) (V := R_NormedModule))|exact C]|]. ring.
    + unfold eta_component. rewrite nu_bb_0. fold nu z. replace (nu - nu) with 0 by ring. rewrite Rpower_O by lra. pose proof (Gam_pos Gam HG (eta + nu + 1) ltac:(lra)). field. lra.
    + intros b Hb. pose proof (nu_bb_pos b Hb) as Pb. unfold eta_component. fold nu z. set (nb := sv32_nu_bb p b dt) in *.
      pose proof (Gam_pos Gam HG (eta + nu + 1) ltac:(lra)). pose proof (Gam_pos Gam HG (eta + nb + 1) ltac:(lra)). assert (0 < Gam (eta + nu + 1) / Gam (eta + nb + 1)) by now apply Rdiv_lt_0_compat.
      split; [apply Rmult_lt_0_compat; [assumption|apply exp_pos]|]. rewrite ln_mult by (try apply exp_pos; assumption). unfold Rdiv at 1. rewrite ln_mult, ln_Rinv by (try apply Rinv_0_lt_compat; assumption).
      unfold Rpower. rewrite ln_exp. ring.
  - intros Hm. apply floor_spec; [|exact Hm]. rewrite <- Ev, <- Em. f_equal. f_equal. unfold G1. ring.
Qed.
End Eta.
End T.
