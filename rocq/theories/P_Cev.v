(** CEV: total derivative of the Schroder formula. *)
From Coq Require Import Reals Lra Lia Psatz Arith FunctionalExtensionality.
From Coquelicot Require Import Coquelicot.
From Verif Require Import Base Sums Spec_Opt Spec_Cev M_Opt M_Heston M_Cev P_Gamma P_Gamma2 P_Ncx2 P_Ncx3 P_Half.
Open Scope R_scope.

Lemma exprel_gt0 x : 0 < exprel x.
Proof.
  unfold exprel. destruct (Req_EM_T x 0); [lra|]. destruct (Rtotal_order x 0) as [H|[H|H]]; [|lra|].
  - replace ((exp x - 1) / x) with ((1 - exp x) / (- x)) by (field; lra). apply Rdiv_lt_0_compat; [|lra]. pose proof (exp_lt_1 x H). lra.
  - apply Rdiv_lt_0_compat; [|lra]. pose proof (exp_gt_1 x H). lra.
Qed.
Lemma texprel c T : T * exprel (c * T) = if Req_EM_T c 0 then T else (exp (c * T) - 1) / c.
Proof.
  unfold exprel. destruct (Req_EM_T c 0) as [->|N].
  - destruct (Req_EM_T (0 * T) 0); [ring|lra].
  - destruct (Req_EM_T (c * T) 0) as [E|E]; [|field; split; [exact N|intros ->; apply E; ring]]. apply Rmult_integral in E. destruct E as [|E]; [contradiction|]. rewrite E, Rmult_0_r, exp_0. field. exact N.
Qed.
Lemma texprel_derive c T : is_derive (fun T => T * exprel (c * T)) T (exp (c * T)).
Proof.
  apply (is_derive_ext (fun T => if Req_EM_T c 0 then T else (exp (c * T) - 1) / c)); [intros; symmetry; apply texprel|].
  destruct (Req_EM_T c 0) as [->|N]; [|auto_derive; [exact I|field; exact N]]. rewrite Rmult_0_l, exp_0. apply is_derive_id_R.
Qed.

Section C.
Variable Gam : R -> R.
Hypothesis HG : gamma_function Gam.
Local Notation np := (np Gam). Local Notation Hn := (Hn Gam).
Lemma np_cont2' a l y : 0 < a -> 0 < y -> continuity_2d_pt (fun l y => np a l y) l y.
Proof. intros Ha Hy e. destruct (np_cont2 Gam HG a y l Ha Hy e) as [d Hd]. exists d. intros u v Hu Hv. exact (Hd v u Hv Hu). Qed.
Lemma Hn_total a (u v : R -> R) t du dv : 0 < a -> 0 < u t -> 0 < v t -> is_derive u t du -> is_derive v t dv ->
  is_derive (fun t => Hn a (u t) (v t)) t (- np (a + 1) (u t) (v t) * du + np a (u t) (v t) * dv).
Proof.
  intros Ha Hu Hv Du Dv. apply is_derive_Reals. apply (derivable_pt_lim_comp_2d (fun l y => Hn a l y) u v t); [|now apply is_derive_Reals|now apply is_derive_Reals].
  apply filterdiff_differentiable_pt_lim. apply (is_derive_filterdiff (fun l y => Hn a l y) (u t) (v t) (fun l y => - np (a + 1) l y) (np a (u t) (v t))).
  - exists (mkposreal _ (Rmin_pos _ _ Hu Hv)). intros [l y] [B1 B2]. cbn [fst snd]. change (Rabs (l - u t) < Rmin (u t) (v t)) in B1. change (Rabs (y - v t) < Rmin (u t) (v t)) in B2.
    apply Rabs_def2 in B1. apply Rabs_def2 in B2. pose proof (Rmin_l (u t) (v t)). pose proof (Rmin_r (u t) (v t)). apply (Hn_dl Gam HG); lra.
  - now apply (Hn_dy Gam HG).
  - apply (proj1 (continuity_2d_pt_filterlim (fun l y => - np (a + 1) l y) (u t) (v t))). apply (continuity_2d_pt_opp (fun l y => np (a + 1) l y)). apply np_cont2'; lra.
Qed.

(** y0, yK from the forward, the strike and the integrated variance s *)
Definition yv (bc x s : R) : R := Rpower x (2 * bc) / (2 * s).
Definition coreL (a F K y0 yK : R) : R := F * (1 - Hn (a + 1) y0 yK) - K * Hn a yK y0.
Lemma core_total a (F K u v : R -> R) t dF dK du dv : 0 < a -> 0 < u t -> 0 < v t -> 0 < F t -> 0 < K t ->
  is_derive F t dF -> is_derive K t dK -> is_derive u t du -> is_derive v t dv -> Rpower (v t / u t) a = K t / F t ->
  is_derive (fun t => coreL a (F t) (K t) (u t) (v t)) t
    (dF * (1 - Hn (a + 1) (u t) (v t)) - dK * Hn a (v t) (u t) - a * (du / u t) * F t * np (a + 1) (u t) (v t)).
Proof.
  intros Ha Hu Hv HF HK DF DK Du Dv E. unfold coreL.
  pose proof (Hn_total (a + 1) u v t du dv ltac:(lra) Hu Hv Du Dv) as D1. pose proof (Hn_total a v u t dv du Ha Hv Hu Dv Du) as D2.
  eapply is_derive_eq.
  - apply is_derive_minus_R; [apply is_derive_mult_R; [exact DF|apply is_derive_minus_R; [apply is_derive_const_R|exact D1]]|apply is_derive_mult_R; [exact DK|exact D2]].
  - pose proof (np_exchange Gam a (u t) (v t) Hu Hv) as X1. pose proof (np_exchange Gam (a + 1) (u t) (v t) Hu Hv) as X2.
    rewrite Rpower_plus, E, Rpower_1 in X2 by (apply Rdiv_lt_0_compat; assumption). rewrite E in X1. replace (a + 1 + 1) with (a + 2) in * by ring.
    pose proof (np_rec Gam HG a (v t) (u t) Ha Hu) as X3. rewrite X1, X2.
    set (p1 := np (a + 1) (v t) (u t)) in *. set (p2 := np (a + 2) (v t) (u t)) in *. set (p0 := np a (v t) (u t)) in *.
    replace p0 with ((v t * p2 + a * p1) / u t) by (rewrite X3; field; lra). field. lra.
Qed.
Lemma yv_derive bc (x s : R -> R) t dx ds : 0 < x t -> 0 < s t -> is_derive x t dx -> is_derive s t ds ->
  is_derive (fun t => yv bc (x t) (s t)) t (yv bc (x t) (s t) * (2 * bc * (dx / x t) - ds / s t)).
Proof.
  intros Hx Hs Dx Ds. unfold yv. eapply is_derive_eq.
  - unfold Rdiv. apply is_derive_mult_R; [apply (is_derive_comp_R (fun z => Rpower z (2 * bc)) x t); [now apply rpow_derive|exact Dx]|].
    apply (is_derive_inv (fun t => 2 * s t)); [apply is_derive_scal_R; exact Ds|lra].
  - pose proof (Rpower_succ (2 * bc) (x t) Hx) as X. cbv beta. set (p := Rpower (x t) (2 * bc - 1)) in *. clearbody p. rewrite <- !X. field. split; lra.
Qed.
Lemma yv_pos bc x s : 0 < s -> 0 < yv bc x s.
Proof. intros Hs. apply Rdiv_lt_0_compat; [apply exp_pos|lra]. Qed.
Lemma yv_ratio bc F K s a : 0 < F -> 0 < K -> 0 < s -> Rpower (yv bc K s / yv bc F s) a = Rpower (K / F) (2 * bc * a).
Proof.
  intros HF HK Hs. unfold yv. replace (Rpower K (2 * bc) / (2 * s) / (Rpower F (2 * bc) / (2 * s))) with (Rpower (K / F) (2 * bc)); [apply Rpower_mult|].
  unfold Rdiv at 1. rewrite Rpower_mult_distr_inv by assumption. field. split; [lra|apply Rgt_not_eq, exp_pos].
Qed.

(** the undiscounted call, its forward delta, the density term, and minus its strike derivative *)
Definition hlf (beta : R) : R := / (2 * Rabs (1 - beta)).
Definition ccall (beta F K s : R) : R := let y0 := yv (1 - beta) F s in let yK := yv (1 - beta) K s in let a := hlf beta in
  if Rlt_dec beta 1 then coreL a F K y0 yK else coreL a K F y0 yK + F - K.
Definition cdelta (beta F K s : R) : R := let y0 := yv (1 - beta) F s in let yK := yv (1 - beta) K s in let a := hlf beta in
  if Rlt_dec beta 1 then 1 - Hn a y0 yK else 1 - Hn (a + 1) yK y0.
Definition cdens (beta F K s : R) : R := let y0 := yv (1 - beta) F s in let yK := yv (1 - beta) K s in let a := hlf beta in
  if Rlt_dec beta 1 then np (a + 1) y0 yK else np (a + 1) yK y0.
Definition csurv (beta F K s : R) : R := let y0 := yv (1 - beta) F s in let yK := yv (1 - beta) K s in let a := hlf beta in
  if Rlt_dec beta 1 then Hn a yK y0 else Hn (a + 1) y0 yK.
Lemma hlf_pos beta : beta <> 1 -> 0 < hlf beta.
Proof. intros H. unfold hlf. apply Rinv_0_lt_compat. assert (0 < Rabs (1 - beta)) by (apply Rabs_pos_lt; lra). lra. Qed.
Lemma cdens_pos beta F K s : beta <> 1 -> 0 < F -> 0 < K -> 0 < s -> 0 < cdens beta F K s.
Proof.
  intros Hb HF HK Hs. unfold cdens. pose proof (hlf_pos beta Hb). pose proof (yv_pos (1 - beta) F s Hs). pose proof (yv_pos (1 - beta) K s Hs). destruct (Rlt_dec beta 1); apply (np_pos Gam HG); lra.
Qed.
Lemma ccall_total beta (F K s : R -> R) t dF dK ds : beta <> 1 -> 0 < F t -> 0 < K t -> 0 < s t -> is_derive F t dF -> is_derive K t dK -> is_derive s t ds ->
  is_derive (fun t => ccall beta (F t) (K t) (s t)) t
    (dF * cdelta beta (F t) (K t) (s t) - dK * csurv beta (F t) (K t) (s t) + hlf beta * (ds / s t) * F t * cdens beta (F t) (K t) (s t)).
Proof.
  intros Hb HF HK Hs DF DK Ds. pose proof (hlf_pos beta Hb) as Ha.
  pose proof (yv_derive (1 - beta) F s t dF ds HF Hs DF Ds) as D0. pose proof (yv_derive (1 - beta) K s t dK ds HK Hs DK Ds) as D1.
  pose proof (yv_pos (1 - beta) (F t) (s t) Hs) as P0. pose proof (yv_pos (1 - beta) (K t) (s t) Hs) as P1.
  unfold ccall, cdelta, csurv, cdens. destruct (Rlt_dec beta 1) as [L|L].
  - assert (A2 : 2 * (1 - beta) * hlf beta = 1) by (unfold hlf; rewrite Rabs_right by lra; field; lra).
    eapply is_derive_eq; [eapply (core_total (hlf beta) F K (fun t => yv (1 - beta) (F t) (s t)) (fun t => yv (1 - beta) (K t) (s t)) t dF dK); eauto|].
    + rewrite yv_ratio, A2, Rpower_1 by (try assumption; apply Rdiv_lt_0_compat; assumption). reflexivity.
    + cbv beta. set (y0 := yv (1 - beta) (F t) (s t)) in *. set (yK := yv (1 - beta) (K t) (s t)) in *. rewrite <- (Hn_step Gam HG (hlf beta) y0 yK) by assumption.
      set (H1 := Hn (hlf beta) y0 yK). set (H2 := Hn (hlf beta + 1) y0 yK). set (H3 := Hn (hlf beta) yK y0).
      replace (dF * (1 - H1)) with (dF * (1 - H2) - 2 * (1 - beta) * hlf beta * dF * (H1 - H2)) by (rewrite A2; ring). field. repeat split; lra.
  - assert (A2 : 2 * (1 - beta) * hlf beta = -1) by (unfold hlf; rewrite Rabs_left by lra; field; lra).
    eapply is_derive_eq; [apply is_derive_minus_R; [apply is_derive_plus_R; [eapply (core_total (hlf beta) K F (fun t => yv (1 - beta) (F t) (s t)) (fun t => yv (1 - beta) (K t) (s t)) t dK dF); eauto|exact DF]|exact DK]|].
    + rewrite yv_ratio, A2 by assumption. replace (-1) with (- (1)) by ring. rewrite Rpower_Ropp, Rpower_1 by (apply Rdiv_lt_0_compat; assumption). field. split; lra.
    + cbv beta. set (y0 := yv (1 - beta) (F t) (s t)) in *. set (yK := yv (1 - beta) (K t) (s t)) in *.
      pose proof (np_exchange Gam (hlf beta) y0 yK P0 P1) as X. assert (R0 : Rpower (yK / y0) (hlf beta) = Rpower (K t / F t) (-1)) by (unfold y0, yK; rewrite yv_ratio, A2 by assumption; reflexivity). rewrite R0 in X. replace (-1) with (- (1)) in X by ring. rewrite Rpower_Ropp, Rpower_1 in X by (apply Rdiv_lt_0_compat; assumption).
      rewrite X. rewrite <- (Hn_step Gam HG (hlf beta) yK y0) by assumption.
      set (H1 := Hn (hlf beta) yK y0). set (H2 := Hn (hlf beta + 1) yK y0). set (H3 := Hn (hlf beta + 1) y0 yK).
      replace (dF * (1 - H2)) with (dF * (1 - H1) - 2 * (1 - beta) * hlf beta * dF * (H1 - H2)) by (rewrite A2; ring). field. repeat split; lra.
Qed.
(** second derivative in the forward *)
Lemma cdelta_derive beta F K s : beta <> 1 -> 0 < F -> 0 < K -> 0 < s ->
  is_derive (fun F => cdelta beta F K s) F (cdens beta F K s * (2 * Rabs (1 - beta) * yv (1 - beta) F s / F)).
Proof.
  intros Hb HF HK Hs. pose proof (hlf_pos beta Hb) as Ha. pose proof (yv_pos (1 - beta) F s Hs) as P0. pose proof (yv_pos (1 - beta) K s Hs) as P1.
  pose proof (yv_derive (1 - beta) (fun F => F) (fun _ => s) F 1 0 HF Hs (is_derive_id_R F) (is_derive_const_R s F)) as D0.
  unfold cdelta, cdens. destruct (Rlt_dec beta 1) as [L|L].
  - eapply is_derive_eq; [apply is_derive_minus_R; [apply is_derive_const_R|]|].
    + apply (Hn_total (hlf beta) (fun F => yv (1 - beta) F s) (fun _ => yv (1 - beta) K s) F); [exact Ha|exact P0|exact P1|exact D0|apply is_derive_const_R].
    + cbv beta. rewrite Rabs_right by lra. field. lra.
  - eapply is_derive_eq; [apply is_derive_minus_R; [apply is_derive_const_R|]|].
    + apply (Hn_total (hlf beta + 1) (fun _ => yv (1 - beta) K s) (fun F => yv (1 - beta) F s) F); [lra|exact P1|exact P0|apply is_derive_const_R|exact D0].
    + cbv beta. replace (hlf beta + 1 + 1) with (hlf beta + 2) by ring. rewrite Rabs_left by lra. field. lra.
Qed.
End C.
