(** Assembly of the statements about the Heston gamma expansion. *)
From Coq Require Import Reals Lra Lia Arith Psatz.
From Coquelicot Require Import Coquelicot.
From Verif Require Import Base Sums M_Heston P_Cir P_KlSum M_HestonMc Spec_Dist Spec_Cev Spec_CevMc Spec_HestonMc P_HestonMc P_HestonMc2 P_HestonMc3 P_HestonMc5 P_HestonMc6 P_HestonMc7.
Open Scope R_scope.

Lemma cond_some_vs ive (c : cir) (dt v0 vt : R) (n : nat) : 0 < c_xi c -> 0 < c_mr c -> 0 < c_theta c -> 0 < dt -> 0 < v0 -> 0 < vt ->
  let '(m, vs) := cond_avgvar_mv ive c dt v0 vt (Some (INR n)) 0 in
  m = (v0 + vt) * fst (x1star c dt 0) + (chi_dim c / 2 + INR n * 2) * fst (x2star c dt 0) /\
  vs * m ^ 2 = (v0 + vt) * (snd (x1star c dt 0) * fst (x1star c dt 0) ^ 2) + (chi_dim c / 2 + INR n * 2) * (snd (x2star c dt 0) * fst (x2star c dt 0) ^ 2).
Proof.
  intros H1 H2 H3 H4 H5 H6. unfold cond_avgvar_mv. pose proof (x1star_fst_pos c dt H1 H2 H4 0) as P1. pose proof (x2star_fst_pos c dt H1 H2 H4 0) as P2.
  pose proof (chi_pos c H1 H2 H3) as PC. pose proof (pos_INR n) as PN. destruct (x1star c dt 0) as [m1 s1]. destruct (x2star c dt 0) as [m2 s2]. cbn [fst snd] in *.
  split; [field|]. assert (0 < m1 * (v0 + vt)) by (apply Rmult_lt_0_compat; lra). assert (0 < m2 * (2 * INR n + chi_dim c / 2)) by (apply Rmult_lt_0_compat; lra). field. lra.
Qed.
Lemma gk_step_moments (ive : R -> R -> R) (c : cir) (dt v0 vt : R) : 0 < c_xi c -> 0 < c_mr c -> 0 < c_theta c -> 0 < dt -> 0 < v0 -> 0 < vt ->
  forall kk n : nat, 0 < snd (x2star c dt kk) ->
  let '(m1, vs1) := x1star c dt kk in
  let '(m2, vs2) := x2star c dt kk in
  let total (f : (R -> R) -> R) :=
    (rsum kk (fun i => f (cpexp_cgf (draw_x1_lam c dt v0 vt i) (ge_gamma c dt (S i)))) + f (gamma_cgf (draw_x1_shape c dt v0 vt kk) (/ (vs1 * m1)))) +
    (rsum kk (fun i => f (gamma_cgf (chi_dim c / 2) (ge_gamma c dt (S i)))) + f (gamma_cgf (draw_x2_shape c dt (chi_dim c / 2) kk) (/ (vs2 * m2)))) +
    INR n * (rsum kk (fun i => f (gamma_cgf 2 (ge_gamma c dt (S i)))) + f (gamma_cgf (draw_x2_shape c dt 2 kk) (/ (vs2 * m2)))) in
  let '(m, vs) := cond_avgvar_mv ive c dt v0 vt (Some (INR n)) 0 in
  total cgf_mean = m /\ total cgf_var = vs * m ^ 2.
Proof.
  intros H1 H2 H3 H4 H5 H6 kk n PV. pose proof (cond_some_vs ive c dt v0 vt n H1 H2 H3 H4 H5 H6) as C.
  pose proof (draw_x1_invariant c dt H1 H2 H4 v0 vt kk H5 H6) as D1. pose proof (chi_pos c H1 H2 H3) as PC.
  pose proof (draw_x2_invariant c dt H1 H2 H4 (chi_dim c / 2) kk ltac:(lra) PV) as D2. pose proof (draw_x2_invariant c dt H1 H2 H4 2 kk ltac:(lra) PV) as D3.
  destruct (x1star c dt kk) as [m1 s1]. destruct (x2star c dt kk) as [m2 s2]. destruct (cond_avgvar_mv ive c dt v0 vt (Some (INR n)) 0) as [m vs].
  cbv zeta in *. destruct C as [C1 C2]. destruct D1 as [D1 E1]. destruct D2 as [D2 E2]. destruct D3 as [D3 E3]. rewrite D1, D2, D3, E1, E2, E3, C2, C1. split; ring.
Qed.
Lemma ge_step_moments (ive : R -> R -> R) (c : cir) (dt v0 vt : R) : 0 < c_xi c -> 0 < c_mr c -> 0 < c_theta c -> 0 < dt -> 0 < v0 -> 0 < vt ->
  forall kk n : nat,
  let ssum := / 2 * chi_dim c + 2 * INR n in
  let '(mt, vst) := x123_trunc c dt kk (v0 + vt) ssum in
  let total (f : (R -> R) -> R) := rsum kk (fun i => f (cpexp_cgf ((v0 + vt) * ge_lambda c dt (S i)) (ge_gamma c dt (S i))) + f (gamma_cgf ssum (ge_gamma c dt (S i)))) in
  let '(m, vs) := cond_avgvar_mv ive c dt v0 vt (Some (INR n)) 0 in
  total cgf_mean + mt = m /\ total cgf_var + vst * mt ^ 2 = vs * m ^ 2.
Proof.
  intros H1 H2 H3 H4 H5 H6 kk n. pose proof (cond_some_vs ive c dt v0 vt n H1 H2 H3 H4 H5 H6) as C. pose proof (chi_pos c H1 H2 H3) as PC. pose proof (pos_INR n) as PN.
  pose proof (draw_x123_invariant c dt H1 H2 H4 (v0 + vt) (/ 2 * chi_dim c + 2 * INR n) kk ltac:(lra) ltac:(lra)) as D.
  cbv zeta. destruct (x123_trunc c dt kk (v0 + vt) (/ 2 * chi_dim c + 2 * INR n)) as [mt st]. destruct (cond_avgvar_mv ive c dt v0 vt (Some (INR n)) 0) as [m vs].
  destruct D as [D1 D2]. destruct C as [C1 C2]. rewrite C2, C1. split; [rewrite D1|rewrite D2]; field.
Qed.
Lemma td_moments (Gam : R -> R) : gamma_function Gam -> forall (ive : R -> R -> R) (c : cir) (dt v0 : R),
  0 < c_xi c -> 0 < c_mr c -> 0 < c_theta c -> 0 < dt -> 0 < v0 -> 1 / 10 <= c_mr c * dt / 2 ->
  let '(_, shape, inten) := cir_pois_gamma_args c dt v0 in
  exists inner1 inner2 : nat -> R,
    (forall n, gam_expect Gam (shape + INR n) (fun g => let '(_, av, _) := poistd_step ive c dt v0 (INR n) g in av) (inner1 n)) /\
    (forall n, gam_expect Gam (shape + INR n) (fun g => let '(_, av, ev) := poistd_step ive c dt v0 (INR n) g in av ^ 2 + ev) (inner2 n)) /\
    pois_expect inten inner1 (cir_avg_mean c dt v0) /\
    pois_expect inten inner2 (cir_avg_mean c dt v0 ^ 2 + cir_avg_var c dt v0).
Proof.
  intros HG ive c dt v0 H1 H2 H3 H4 H5 Hb. cbn [cir_pois_gamma_args]. unfold cir_pois_gamma_args. cbv beta iota zeta.
  destruct (td_exact c dt v0 H1 H2 H4 Hb) as [E1 E2].
  exists (td_inner1 c dt v0), (td_inner2 c dt v0). split; [|split; [|split]].
  - intros n. exact (td_inner1_ok Gam HG ive c dt v0 H1 H2 H3 H4 H5 n).
  - intros n. exact (td_inner2_ok Gam HG ive c dt v0 H1 H2 H3 H4 H5 n).
  - rewrite <- E1. apply td_mean.
  - rewrite <- E1, <- E2. apply td_second.
Qed.
Lemma td_mean_small (Gam : R -> R) : gamma_function Gam -> forall (ive : R -> R -> R) (c : cir) (dt v0 : R),
  0 < c_xi c -> 0 < c_mr c -> 0 < c_theta c -> 0 < dt -> 0 < v0 -> c_mr c * dt / 2 < 1 / 10 ->
  let '(_, shape, inten) := cir_pois_gamma_args c dt v0 in
  exists (inner1 : nat -> R) (m : R),
    (forall n, gam_expect Gam (shape + INR n) (fun g => let '(_, av, _) := poistd_step ive c dt v0 (INR n) g in av) (inner1 n)) /\
    pois_expect inten inner1 m /\
    0 <= m - cir_avg_mean c dt v0 <= (8 / 9450 * (v0 + cir_mean c dt v0) + / 18900 * ge_vov2dt c dt * (2 * inten + shape)) * (c_mr c * dt / 2) ^ 6.
Proof.
  intros HG ive c dt v0 H1 H2 H3 H4 H5 Hb. unfold cir_pois_gamma_args. cbv beta iota zeta.
  destruct (td_mean_close c dt v0 H1 H2 H4) as [d1 [d2 [B1 [B2 E]]]]. destruct (Rlt_dec (c_mr c * dt / 2) (1 / 10)) as [L|L]; [|lra].
  eexists (td_inner1 c dt v0), _. split; [|split; [apply td_mean|]].
  - intros n. exact (td_inner1_ok Gam HG ive c dt v0 H1 H2 H3 H4 H5 n).
  - rewrite E. pose proof (cir_mean_td c dt v0 H1 H2 H4) as CM.
    pose proof (phi_pos c dt H1 H2 H4) as PP. pose proof (chi_pos c H1 H2 H3) as PC. unfold chi_dim in PC.
    assert (PE : 0 < cir_exp_h c dt) by apply exp_pos. assert (PW := w2_pos c dt H1 H4).
    assert (PI0 : 0 < v0 * cir_exp_h c dt * cir_phi c dt / 2) by (apply Rdiv_lt_0_compat; [|lra]; apply Rmult_lt_0_compat; [apply Rmult_lt_0_compat|]; assumption).
    assert (PA : 0 < 4 * c_mr c * c_theta c / c_xi c ^ 2 / 2) by (replace (4 * c_mr c * c_theta c) with (4 * c_theta c * c_mr c) by ring; lra).
    set (I0 := v0 * cir_exp_h c dt * cir_phi c dt / 2) in *. set (A0 := 4 * c_mr c * c_theta c / c_xi c ^ 2 / 2) in *. set (W := ge_vov2dt c dt) in *.
    assert (P1 : 0 < v0 + cir_mean c dt v0). { rewrite <- CM. assert (0 < cir_exp_h c dt / cir_phi c dt * 2 * (A0 + I0)). { apply Rmult_lt_0_compat; [|lra]. apply Rmult_lt_0_compat; [|lra]. now apply Rdiv_lt_0_compat. } lra. }
    assert (P2 : 0 < W * (2 * I0 + A0)) by (apply Rmult_lt_0_compat; lra).
    set (X := v0 + cir_mean c dt v0) in *. set (Y := W * (2 * I0 + A0)) in *. set (z := (c_mr c * dt / 2) ^ 6) in *.
    replace (cir_avg_mean c dt v0 + d1 * X + d2 * W * (2 * I0 + A0) - cir_avg_mean c dt v0) with (d1 * X + d2 * Y) by (unfold Y; ring).
    replace ((8 / 9450 * X + / 18900 * W * (2 * I0 + A0)) * z) with (8 / 9450 * z * X + / 18900 * z * Y) by (unfold Y; ring).
    split. { assert (0 <= d1 * X) by (apply Rmult_le_pos; lra). assert (0 <= d2 * Y) by (apply Rmult_le_pos; lra). lra. }
    apply Rplus_le_compat; apply Rmult_le_compat_r; lra.
Qed.
Lemma cond_mgf_crown (c : cir) (dt : R) : 0 < c_xi c -> 0 < c_mr c -> 0 < c_theta c -> 0 < dt -> forall Gam : R -> R, gamma_function Gam ->
  exists K1 : R -> R, K1 0 = 0 /\
    (forall aa, 2 * (c_xi c ^ 2 * dt) * aa < (c_mr c * dt) ^ 2 ->
       exists D : R, is_derive K1 aa D /\ is_series (fun i => Derive (cpexp_cgf (ge_lambda c dt (S i)) (ge_gamma c dt (S i))) aa) D) /\
    (forall iv, (forall nu z : R, -1 < nu -> 0 < z -> iv nu z = bessel_I Gam nu z) ->
       forall v0 vt aa, 0 < v0 -> 0 < vt -> 2 * (c_xi c ^ 2 * dt) * aa < (c_mr c * dt) ^ 2 ->
       is_series (fun n => bessel_pmf Gam (eta_nu c) (eta_zz c dt v0 vt) n * (exp ((v0 + vt) * K1 aa) * x2_avgvar_mgf c aa dt (chi_dim c / 2 + 2 * INR n)))
                 (cond_avgvar_mgf iv c aa dt v0 vt)) /\
    (forall v0 aa, 0 < v0 -> aa <= 0 ->
       let '(scale, shape, inten) := cir_pois_gamma_args c dt v0 in
       exists inner : nat -> R,
         (forall n, gam_expect Gam (shape + INR n) (fun g => exp ((v0 + scale * g) * K1 aa) * x2_avgvar_mgf c aa dt (chi_dim c / 2 + 2 * INR n)) (inner n)) /\
         pois_expect inten inner (exp (cir_log_mgf c (aa / dt) dt v0))).
Proof.
  intros H1 H2 H3 H4 Gam HG. exists (kap c dt). split; [exact (kap_0 c dt H2 H4)|]. split; [|split].
  - intros aa Ha. change (aa_ok c dt aa) in Ha. eexists. split; [exact (kap_derive c dt H1 H4 aa Ha)|].
    pose proof (x1_series c dt H1 H4 aa 1 Ha) as S. rewrite Rmult_1_l in S. eapply series_ext; [exact S|]. intros n. cbv beta. now rewrite Rmult_1_l.
  - intros iv Hiv v0 vt aa Hv0 Hvt Ha. change (aa_ok c dt aa) in Ha.
    pose proof (cond_mgf_series c dt H1 H2 H4 Gam HG H3 iv Hiv v0 vt Hv0 Hvt aa Ha) as S.
    pose proof (exp_pos ((v0 + vt) * kap c dt aa)) as PE. set (E := exp ((v0 + vt) * kap c dt aa)) in *.
    pose proof (series_scal E _ _ S) as T. replace (E * (cond_avgvar_mgf iv c aa dt v0 vt / E)) with (cond_avgvar_mgf iv c aa dt v0 vt) in T by (field; lra).
    eapply series_ext; [exact T|]. intros n. cbv beta. ring.
  - intros v0 aa Hv0 Ha. unfold cir_pois_gamma_args. cbv beta iota zeta. exists (tw_inner c dt v0 aa). split.
    + intros n. pose proof (tw_inner_ok c dt H1 H2 H4 Gam HG H3 v0 aa Ha n) as T. rewrite (chi_al c H1). exact T.
    + rewrite <- (tw_exact c dt H1 H2 H4 v0 aa Ha). exact (tw_sum c dt H1 H2 H4 v0 aa Ha).
Qed.
Lemma cond_mgf_0 (iv : R -> R -> R) (c : cir) (dt v0 vt : R) : 0 < c_xi c -> 0 < c_mr c -> 0 < dt ->
  iv (eta_nu c) (eta_zz c dt v0 vt) <> 0 -> cond_avgvar_mgf iv c 0 dt v0 vt = 1.
Proof.
  intros H1 H2 H4 Hz. unfold cond_avgvar_mgf. rewrite (gm_0 c dt H2 H4). assert (Hm : 0 < c_mr c * dt) by now apply Rmult_lt_0_compat.
  rewrite (phi_gamma_eq c dt H1 H4 (c_mr c * dt) Hm), (phi_mr_eq c dt H1 H2 H4). fold (ge_vov2dt c dt).
  pose proof (ps_pos c dt H1 H4 (c_mr c * dt) Hm) as PP. set (q := 2 * (c_mr c * dt) / ge_vov2dt c dt / sinh (c_mr c * dt / 2)) in *.
  assert (EZ : sqrt (v0 * vt) * q = eta_zz c dt v0 vt) by (unfold eta_zz; rewrite (phi_mr_eq c dt H1 H2 H4); reflexivity).
  rewrite EZ. assert (EC : (exp (- (c_mr c * dt) / 2) + 1 / exp (- (c_mr c * dt) / 2)) / 2 = cosh (c_mr c * dt / 2)).
  { unfold cosh. replace (- (c_mr c * dt) / 2) with (- (c_mr c * dt / 2)) by field. rewrite exp_Ropp. pose proof (exp_pos (c_mr c * dt / 2)). field. lra. }
  rewrite EC. replace ((v0 + vt) * (cosh (c_mr c * dt / 2) * q - cosh (c_mr c * dt / 2) * q) / 2) with 0 by field. rewrite exp_0. field. split; [exact Hz|lra].
Qed.
