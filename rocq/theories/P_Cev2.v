(** CEV: the coded prices and Greeks in terms of the total-derivative lemma. *)
From Coq Require Import Reals Lra Lia Psatz Arith ZArith FunctionalExtensionality.
From Coquelicot Require Import Coquelicot.
From Verif Require Import Base Gauss Sums Spec_Opt Spec_Cev M_Opt M_Heston M_Cev P_Bsm P_Gamma P_Gamma2 P_Ncx2 P_Ncx3 P_Half P_Cev.
Open Scope R_scope.

(** integrated variance actually used by price_formula (with its floor), and without the floor *)
Definition s_eff (beta : R) (m : opt) (F T : R) : R :=
  Rpower F (2 * (1 - beta)) * (Rmax ((sigma m / Rpower F (1 - beta)) ^ 2 * T) eps * (1 - beta) ^ 2 * exprel (2 * (intr m - divr m) * (1 - beta) * T)).
Definition s_of (beta : R) (m : opt) (T : R) : R := ((1 - beta) * sigma m) ^ 2 * (T * exprel (2 * (intr m - divr m) * (1 - beta) * T)).
Lemma rp2 F b : Rpower F (2 * b) = Rpower F b ^ 2.
Proof. replace (2 * b) with (b + b) by ring. rewrite Rpower_plus. ring. Qed.
Lemma s_eff_pos beta m F T : beta <> 1 -> 0 < s_eff beta m F T.
Proof.
  intros Hb. unfold s_eff. apply Rmult_lt_0_compat; [apply exp_pos|]. apply Rmult_lt_0_compat; [|apply exprel_gt0]. apply Rmult_lt_0_compat; [|nra].
  pose proof (Rmax_r ((sigma m / Rpower F (1 - beta)) ^ 2 * T) eps). pose proof eps_pos. lra.
Qed.
Lemma s_eff_of beta m F T : eps <= (sigma m / Rpower F (1 - beta)) ^ 2 * T -> s_eff beta m F T = s_of beta m T.
Proof.
  intros H. unfold s_eff, s_of. rewrite Rmax_left by exact H. rewrite rp2. assert (0 < Rpower F (1 - beta)) by apply exp_pos. field. lra.
Qed.
Lemma s_of_pos beta m T F : beta <> 1 -> eps <= (sigma m / Rpower F (1 - beta)) ^ 2 * T -> 0 < s_of beta m T.
Proof. intros Hb H. rewrite <- (s_eff_of beta m F T H). now apply s_eff_pos. Qed.

Section C.
Variables (Gam : R -> R) (cdf sf pdf : R -> R -> R -> R).
Hypothesis HG : gamma_function Gam.
Hypothesis HR : ncx2_routines Gam cdf sf pdf.
Local Notation np := (np Gam). Local Notation Hn := (Hn Gam).
Lemma r_cdf a l y x k lam : x = 2 * y -> k = 2 * a -> lam = 2 * l -> 0 < a -> 0 < l -> 0 < y -> cdf x k lam = Hn a l y.
Proof.
  intros -> -> -> Ha Hl Hy. rewrite (ncx2_cdf_eq Gam cdf sf pdf) by (try assumption; lra). f_equal; field.
Qed.
Lemma r_sf a l y x k lam : x = 2 * y -> k = 2 * a -> lam = 2 * l -> 0 < a -> 0 < l -> 0 < y -> sf x k lam = 1 - Hn a l y.
Proof.
  intros E1 E2 E3 Ha Hl Hy. destruct (HR k lam ltac:(lra) ltac:(lra)) as [_ X]. destruct (X x ltac:(lra)) as [_ ->]. f_equal. now apply r_cdf.
Qed.
Lemma r_pdf a l y x k lam : x = 2 * y -> k = 2 * a -> lam = 2 * l -> 0 < a -> 0 < l -> 0 < y -> pdf x k lam = / 2 * np a l y.
Proof.
  intros -> -> -> Ha Hl Hy. destruct (HR (2 * a) (2 * l) ltac:(lra) ltac:(lra)) as [_ X]. destruct (X (2 * y) ltac:(lra)) as [-> _]. rewrite (ncx2_np Gam HG) by lra. f_equal. f_equal; field.
Qed.
Lemma z0_eq bc F s : 0 < s -> 1 / (s / Rpower F (2 * bc)) = 2 * yv bc F s.
Proof. intros Hs. unfold yv. assert (0 < Rpower F (2 * bc)) by apply exp_pos. field. lra. Qed.
Lemma zK_eq bc F K s : 0 < F -> 0 < K -> 0 < s -> Rpower (K / F) (2 * bc) * (2 * yv bc F s) = 2 * yv bc K s.
Proof. intros HF HK Hs. unfold yv, Rdiv at 1. rewrite Rpower_mult_distr_inv by assumption. assert (0 < Rpower F (2 * bc)) by apply exp_pos. field. lra. Qed.
Lemma hlf_lt beta : beta < 1 -> 1 / (1 - beta) = 2 * hlf beta.
Proof. intros H. unfold hlf. rewrite Rabs_right by lra. field. lra. Qed.
Lemma hlf_gt beta : 1 < beta -> 1 / (1 - beta) = - (2 * hlf beta).
Proof. intros H. unfold hlf. rewrite Rabs_left by lra. field. lra. Qed.
Ltac rt := rewrite ?(r_cdf (hlf _ + 1) (yv _ _ _) (yv _ _ _)), ?(r_cdf (hlf _) (yv _ _ _) (yv _ _ _)).
Lemma price_eq beta m K S T : beta <> 1 -> 0 < K -> 0 < S -> let F := mF m S T in let s := s_eff beta m F T in
  cev_price cdf sf beta m K S T 1 = mD m T * ccall Gam beta F K s /\
  cev_price cdf sf beta m K S T (-1) = mD m T * (ccall Gam beta F K s - F + K).
Proof.
  intros Hb HK HS F s. pose proof (s_eff_pos beta m F T Hb) as S0. fold s in S0. pose proof (mF_pos m S T HS) as F0. fold F in F0.
  pose proof (hlf_pos beta Hb) as Ha. pose proof (yv_pos (1 - beta) F s S0) as P0. pose proof (yv_pos (1 - beta) K s S0) as P1.
  unfold cev_price, cev_price_formula. cbv zeta.
  assert (EF : S * (if is_fwd m then 1 else exp (- T * divr m) / exp (- T * intr m)) = F).
  { unfold F, mF, FWD. destruct (is_fwd m); [ring|]. unfold Rdiv. rewrite <- exp_Ropp, <- exp_plus. f_equal. f_equal. ring. }
  rewrite EF. replace (exp (- T * intr m)) with (mD m T) by (unfold mD, DF; f_equal; ring).
  assert (EV : Rmax ((sigma m / Rpower F (1 - beta)) ^ 2 * T) eps * (1 - beta) ^ 2 * exprel (2 * (intr m - divr m) * (1 - beta) * T) = s / Rpower F (2 * (1 - beta))).
  { unfold s, s_eff. assert (0 < Rpower F (2 * (1 - beta))) by apply exp_pos. field. lra. }
  rewrite EV, z0_eq, zK_eq by assumption. unfold ccall, coreL. cbv zeta.
  destruct (Rlt_dec beta 1) as [L|L]; (destruct (Rlt_dec 0 1) as [_|]; [|lra]); (destruct (Rlt_dec 0 (-1)) as [|_]; [lra|]).
  - rewrite (hlf_lt beta L). split; f_equal.
    + rewrite (r_sf (hlf beta + 1) (yv (1 - beta) F s) (yv (1 - beta) K s)) by (try reflexivity; try ring; lra). rewrite (r_cdf (hlf beta) (yv (1 - beta) K s) (yv (1 - beta) F s)) by (try reflexivity; try ring; lra). ring.
    + rewrite (r_sf (hlf beta) (yv (1 - beta) K s) (yv (1 - beta) F s)) by (try reflexivity; try ring; lra). rewrite (r_cdf (hlf beta + 1) (yv (1 - beta) F s) (yv (1 - beta) K s)) by (try reflexivity; try ring; lra). ring.
  - rewrite (hlf_gt beta ltac:(lra)). split; f_equal.
    + rewrite (r_sf (hlf beta) (yv (1 - beta) K s) (yv (1 - beta) F s)) by (try reflexivity; try ring; lra). rewrite (r_cdf (hlf beta + 1) (yv (1 - beta) F s) (yv (1 - beta) K s)) by (try reflexivity; try ring; lra). ring.
    + rewrite (r_sf (hlf beta + 1) (yv (1 - beta) F s) (yv (1 - beta) K s)) by (try reflexivity; try ring; lra). rewrite (r_cdf (hlf beta) (yv (1 - beta) K s) (yv (1 - beta) F s)) by (try reflexivity; try ring; lra). ring.
Qed.
Lemma price_cp beta m K S T cp : call_or_put cp -> beta <> 1 -> 0 < K -> 0 < S -> let F := mF m S T in
  cev_price cdf sf beta m K S T cp = mD m T * (ccall Gam beta F K (s_eff beta m F T) - (1 - cp) / 2 * (F - K)).
Proof. intros [->| ->] Hb HK HS F; destruct (price_eq beta m K S T Hb HK HS) as [A B]; [rewrite A|rewrite B]; fold F; field. Qed.
(** parity: only cdf + sf = 1 *)
Lemma cev_parity beta m K S T : beta <> 1 -> 0 < K -> 0 < S -> cev_price cdf sf beta m K S T 1 - cev_price cdf sf beta m K S T (-1) = mD m T * (mF m S T - K).
Proof. intros Hb HK HS. destruct (price_eq beta m K S T Hb HK HS) as [-> ->]. ring. Qed.

(** the variables used by the Greeks: no floor *)
Lemma vars_eq beta m F K T : beta <> 1 -> 0 < F -> 0 < K -> 0 < s_of beta m T ->
  cev_variables beta m F K T = (sigma m / Rpower F (1 - beta), 1 - beta, 2 * yv (1 - beta) F (s_of beta m T), 2 * yv (1 - beta) K (s_of beta m T)).
Proof.
  intros Hb HF HK Hs. unfold cev_variables. cbv zeta.
  assert (E : ((1 - beta) * (sigma m / Rpower F (1 - beta))) ^ 2 * T * exprel (2 * (intr m - divr m) * (1 - beta) * T) = s_of beta m T / Rpower F (2 * (1 - beta))).
  { unfold s_of. rewrite rp2. assert (0 < Rpower F (1 - beta)) by apply exp_pos. field. lra. }
  rewrite E, z0_eq, zK_eq by assumption. reflexivity.
Qed.
Lemma delta_eq beta m K S T cp : beta <> 1 -> 0 < K -> 0 < S -> 0 < s_of beta m T -> let F := mF m S T in
  cev_delta sf beta m K S T cp = ((cp - 1) / 2 + cdelta Gam beta F K (s_of beta m T)) * (if is_fwd m then mD m T else exp (- (divr m * T))).
Proof.
  intros Hb HK HS Hs F. unfold cev_delta. rewrite fdd_eq. fold F. pose proof (mF_pos m S T HS) as F0. fold F in F0. rewrite vars_eq by assumption.
  set (s := s_of beta m T) in *. pose proof (hlf_pos beta Hb) as Ha. pose proof (yv_pos (1 - beta) F s Hs) as P0. pose proof (yv_pos (1 - beta) K s Hs) as P1. unfold cdelta. cbv zeta.
  destruct (Rlt_dec beta 1) as [L|L].
  - rewrite (hlf_lt beta L). rewrite (r_sf (hlf beta) (yv (1 - beta) F s) (yv (1 - beta) K s)) by (try reflexivity; try ring; lra). destruct (is_fwd m); field.
  - rewrite (hlf_gt beta ltac:(lra)). rewrite (r_sf (hlf beta + 1) (yv (1 - beta) K s) (yv (1 - beta) F s)) by (try reflexivity; try ring; lra). destruct (is_fwd m); field.
Qed.
Lemma gamma_eq beta m K S T cp : beta <> 1 -> 0 < K -> 0 < S -> 0 < s_of beta m T -> let F := mF m S T in
  cev_gamma pdf beta m K S T cp = mD m T * cdens Gam beta F K (s_of beta m T) * (2 * Rabs (1 - beta) * yv (1 - beta) F (s_of beta m T) / F) * (if is_fwd m then 1 else F / S) ^ 2.
Proof.
  intros Hb HK HS Hs F. unfold cev_gamma. rewrite fdd_eq. fold F. pose proof (mF_pos m S T HS) as F0. fold F in F0. rewrite vars_eq by assumption.
  set (s := s_of beta m T) in *. pose proof (hlf_pos beta Hb) as Ha. pose proof (yv_pos (1 - beta) F s Hs) as P0. pose proof (yv_pos (1 - beta) K s Hs) as P1. unfold cdens. cbv zeta.
  pose proof (mD_pos m T) as D0.
  assert (EQ : is_fwd m = false -> exp (- (divr m * T)) = F / S * mD m T). { intros E. unfold F, mF, FWD, mD, DF. rewrite E. replace (S * exp ((intr m - divr m) * T) / S) with (exp ((intr m - divr m) * T)) by (field; lra). rewrite <- exp_plus. f_equal. ring. }
  destruct (Rlt_dec beta 1) as [L|L].
  - rewrite (hlf_lt beta L), (Rabs_right (1 - beta)) by lra. rewrite (r_pdf (hlf beta + 1) (yv (1 - beta) F s) (yv (1 - beta) K s)) by (try reflexivity; try ring; lra).
    destruct (is_fwd m); [field; lra|]. rewrite (EQ eq_refl). field. lra.
  - rewrite (hlf_gt beta ltac:(lra)), (Rabs_left (1 - beta)) by lra. rewrite (r_pdf (hlf beta + 1) (yv (1 - beta) K s) (yv (1 - beta) F s)) by (try reflexivity; try ring; lra).
    destruct (is_fwd m); [field; lra|]. rewrite (EQ eq_refl). field. lra.
Qed.
Lemma vega_eq beta m K S T cp : beta <> 1 -> 0 < K -> 0 < S -> sigma m <> 0 -> 0 < s_of beta m T -> let F := mF m S T in
  cev_vega pdf beta m K S T cp = mD m T * (F * (2 * hlf beta / sigma m) * cdens Gam beta F K (s_of beta m T)).
Proof.
  intros Hb HK HS Hsg Hs F. unfold cev_vega. rewrite fdd_eq. fold F. pose proof (mF_pos m S T HS) as F0. fold F in F0. rewrite vars_eq by assumption.
  set (s := s_of beta m T) in *. pose proof (hlf_pos beta Hb) as Ha. pose proof (yv_pos (1 - beta) F s Hs) as P0. pose proof (yv_pos (1 - beta) K s Hs) as P1. unfold cdens. cbv zeta.
  assert (EP : F = Rpower F beta * Rpower F (1 - beta)) by (rewrite <- Rpower_plus; replace (beta + (1 - beta)) with 1 by ring; now rewrite Rpower_1).
  assert (0 < Rpower F beta) by apply exp_pos. assert (0 < Rpower F (1 - beta)) by apply exp_pos.
  destruct (Rlt_dec beta 1) as [L|L]; f_equal.
  - rewrite (hlf_lt beta L). rewrite (r_pdf (hlf beta + 1) (yv (1 - beta) F s) (yv (1 - beta) K s)) by (try reflexivity; try ring; lra).
    set (p := np (hlf beta + 1) (yv (1 - beta) F s) (yv (1 - beta) K s)). rewrite EP at 3. unfold hlf. rewrite Rabs_right by lra. field. repeat split; lra.
  - rewrite (hlf_gt beta ltac:(lra)). rewrite (r_pdf (hlf beta + 1) (yv (1 - beta) K s) (yv (1 - beta) F s)) by (try reflexivity; try ring; lra).
    set (p := np (hlf beta + 1) (yv (1 - beta) K s) (yv (1 - beta) F s)). rewrite EP at 3. unfold hlf. rewrite Rabs_left by lra. field. repeat split; lra.
Qed.
(** derivatives of the price *)
Definition ok (beta : R) (m : opt) (S T : R) : Prop := eps < (sigma m / Rpower (mF m S T) (1 - beta)) ^ 2 * T.
End C.
