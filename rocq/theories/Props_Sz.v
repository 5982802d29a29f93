(** C94: OusvSchobelZhu1998; C95: SabrHagan2002.calibrate3. *)
From Coq Require Import Reals Lra Lia List.
From Coquelicot Require Import Coquelicot.
From Verif Require Import Base Sums M_Opt M_Mgf M_Fd M_Sabr M_VolPath M_Sz Spec_Sz P_Sz P_Sz2.
Open Scope R_scope.
(** ** C94 *)
(** f_1 and f_2 are the model's transform at 1 + i phi and at i phi, whatever the complex square root, exponential and logarithm. *)
Theorem C94_transforms : forall o p phi T, sz_f1 o p phi T = szc_mgf o p (Cplus (RtoC 1) (Cmult Ci (RtoC phi))) T /\ sz_f2 o p phi T = szc_mgf o p (Cmult Ci (RtoC phi)) T.
Proof. intros o p phi T. split; [apply f1_mgf|apply f2_mgf]. Qed.
Print Assumptions C94_transforms.
(** On the real arguments 0 < u < 1 that transform is the moment generating function logp_mgf of the model (which solves the model's equation, C56). *)
Theorem C94_real : forall o p u T, real_ops o -> v_vov p <> 0 -> v_mr p <> 0 -> 0 < u < 1 -> 0 <= T -> szc_mgf o p (RtoC u) T = RtoC (ousv_mgf p u T).
Proof. exact szc_real. Qed.
Print Assumptions C94_real.
(** The integrand is the Gil-Pelaez one: the phases of the two transforms are shifted by - phi log(K/F), f_2 is weighted by K/F, and the imaginary
    part is divided by phi. *)
Theorem C94_integrand : forall o p k T phi r1 t1 r2 t2, (forall y, c_exp o (Cmult Ci (RtoC y)) = (cos y, sin y)) -> phi <> 0 ->
  sz_f1 o p phi T = (r1 * cos t1, r1 * sin t1) -> sz_f2 o p phi T = (r2 * cos t2, r2 * sin t2) ->
  sz_integrand o p k T phi = (r1 * sin (t1 - phi * ln k) - k * r2 * sin (t2 - phi * ln k)) / phi.
Proof. exact sz_polar. Qed.
Print Assumptions C94_integrand.
(** Put-call parity holds exactly, whatever the truncation and the step. *)
Theorem C94_parity : forall o mo p n h K S T, 0 < S -> let '(F, df, _) := fwd_df_divf mo S T in
  sz_price o mo p n h K S T 1 - sz_price o mo p n h K S T (-1) = df * (F - K).
Proof. exact sz_parity. Qed.
Print Assumptions C94_parity.
(** The rule on the grid h, 2h, ..., n h integrates cubics exactly over [h, n h]: the interval (0, h) of the inversion integral is left out. *)
Theorem C94_rule : forall a b c d h m, let q := (fun x => a + b * x + c * x ^ 2 + d * x ^ 3) in is_RInt q h (INR (S (2 * m)) * h) (sz_simps h (S (2 * m)) q).
Proof. exact sz_simps_cubic. Qed.
Print Assumptions C94_rule.
Theorem C94_origin_refuted : forall c h m, c <> 0 -> 0 < h -> ~ is_RInt (fun _ => c) 0 (INR (S (2 * m)) * h) (sz_simps h (S (2 * m)) (fun _ => c)).
Proof.
  intros c h m Hc Hh HI. pose proof (C94_rule c 0 0 0 h m) as R. cbv zeta in R.
  assert (E : sz_simps h (S (2 * m)) (fun x => c + 0 * x + 0 * x ^ 2 + 0 * x ^ 3) = sz_simps h (S (2 * m)) (fun _ => c)) by (unfold sz_simps; f_equal; f_equal; apply map_ext; intros; ring).
  rewrite E in R. apply (is_RInt_ext _ (fun _ => c)) in R; [|intros; cbv beta; Req; ring].
  pose proof (is_RInt_const (V := R_NormedModule) 0 h c) as I0. pose proof (is_RInt_Chasles _ _ _ _ _ _ I0 R) as I1.
  pose proof (is_RInt_unique _ _ _ _ HI) as U1. pose proof (is_RInt_unique _ _ _ _ I1) as U2.
  rewrite U1 in U2. revert U2. unfold plus, scal; cbn -[sz_simps INR]. unfold mult; cbn -[sz_simps INR]. intros X.
  assert (Z : h * c = 0) by lra. apply Rmult_integral in Z. lra.
Qed.
Print Assumptions C94_origin_refuted.
Definition ex_ops : cops := mkOps (fun z => RtoC (sqrt (Re z))) (fun z => RtoC (exp (Re z))) (fun z => RtoC (ln (Re z))) (fun z => RtoC (sinh (Re z))) (fun z => RtoC (cosh (Re z))).
Example C94_ex : real_ops ex_ops /\ szc_mgf ex_ops (mkSv (/ 5) (/ 2) (- / 2) 4 (/ 5)) (RtoC (/ 3)) 2 = RtoC (ousv_mgf (mkSv (/ 5) (/ 2) (- / 2) 4 (/ 5)) (/ 3) 2).
Proof.
  assert (H : real_ops ex_ops) by (repeat split; intros; reflexivity). split; [exact H|]. apply C94_real; cbn [v_vov v_mr]; try lra. exact H.
Qed.
(** ** C95 *)
(** Whatever the solver returns, the parameters are admissible, beta is kept, and the model itself changes only if asked to. *)
Theorem C95_admissible : forall root iv mo p order q3 k3 S T sv isv, let '(q, p') := calibrate3 root iv mo p order q3 k3 S T sv isv in
  0 < b_sigma q /\ 0 < b_vov q /\ -1 < b_rho q < 1 /\ b_beta q = b_beta p /\ p' = (if sv then q else p).
Proof. exact cal_admissible. Qed.
Print Assumptions C95_admissible.
(** Every admissible parameter set is in the search space, so quotes produced by one are reproduced by a solver that finds roots that exist. *)
Theorem C95_fit : forall root iv mo p order k3 S T sv q0, 0 < b_sigma q0 -> 0 < b_vov q0 -> -1 < b_rho q0 < 1 -> b_beta q0 = b_beta p ->
  let vol := (fun q k => hagan_vol mo q order k S T) in
  solves_at root (cal_err mo (b_beta p) order (tmap (vol q0) k3) k3 S T) ->
  let '(q, _) := calibrate3 root iv mo p order (tmap (vol q0) k3) k3 S T sv true in tmap (vol q) k3 = tmap (vol q0) k3.
Proof. exact cal_fit. Qed.
Print Assumptions C95_fit.
(** Calibrating to prices: if the volatilities implied by the quotes are matched, the model's prices are the quotes. *)
Theorem C95_price_fit : forall root iv mo p order q3 k3 S T cp sv, let '(q, _) := calibrate3 root iv mo p order q3 k3 S T sv false in
  tmap (fun k => hagan_vol mo q order k S T) k3 = tmap2 iv q3 k3 ->
  tmap2 (fun c k => bsm_price (set_sigma mo (iv c k)) k S T cp) q3 k3 = q3 ->
  tmap (fun k => hagan_price mo q order k S T cp) k3 = q3.
Proof. exact cal_price_fit. Qed.
Print Assumptions C95_price_fit.
(** non-vacuity: a finder returning the logarithms of (1/5, 1) and 0 satisfies the hypothesis for quotes of (1/5, 1, 0) *)
Example C95_ex : let q0 := mkSabr (/ 5) 1 0 (/ 2) in let mo := mkOpt 0 0 0 false in let root := (fun (_ : tri -> tri) (_ : tri) => (ln (/ 5), 0, 0)) in
  let vol := (fun q k => hagan_vol mo q 1 k 1 1) in let k3 := (/ 2, 1, 2) in
  solves_at root (cal_err mo (/ 2) 1 (tmap (vol q0) k3) k3 1 1) /\ fst (calibrate3 root (fun _ _ => 0) mo q0 1 (tmap (vol q0) k3) k3 1 1 false true) = q0.
Proof.
  intros q0 mo root vol k3. assert (E : cal_model (/ 2) (ln (/ 5), 0, 0) = q0).
  { unfold cal_model, q0. rewrite exp_ln, exp_0 by lra. replace (tanh 0) with 0; [reflexivity|]. unfold tanh, sinh, cosh. rewrite Ropp_0, exp_0. field. }
  split; [|unfold calibrate3; exact E]. intros _ x0. unfold root, cal_err. rewrite E. unfold k3. cbn [tmap tmap2]. unfold vol. rewrite !Rminus_eq_0. reflexivity.
Qed.
