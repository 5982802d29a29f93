(** C36: with 0 < beta < 1 and r <> q the base model's rate-dependent variance breaks "discount once"; parity through Cev. *)
From Coq Require Import Reals Lra Lia List Psatz.
From Coquelicot Require Import Coquelicot.
From Verif Require Import Base Gauss Sums M_Opt M_Mgf M_Heston M_Fd M_Sabr M_Cev Spec_Opt Spec_Cev Spec_Expect Spec_Sabr P_Bsm P_Norm P_Expect P_OptRefute P_Sabr3 P_Sabr4 P_Sabr5 P_Dist5 P_Cev P_Cev2 P_Cev6.
Import ListNotations.
Open Scope R_scope.

Lemma exprel_sign x : (0 < x -> 1 < exprel x) /\ (x < 0 -> exprel x < 1).
Proof.
  unfold exprel. split; intros H; (destruct (Req_EM_T x 0) as [|N]; [lra|]); pose proof (exp_ineq1 x N) as E.
  - apply (Rmult_lt_reg_r x); [exact H|]. unfold Rdiv. rewrite Rmult_assoc, Rinv_l by lra. lra.
  - apply (Rmult_lt_reg_r (- x)); [lra|]. unfold Rdiv. replace ((exp x - 1) * / x * - x) with (- (exp x - 1)) by (field; lra). lra.
Qed.
Section S.
Variables (Gam : R -> R) (cdf sf pdf : R -> R -> R -> R).
Hypothesis HG : gamma_function Gam.
Hypothesis HR : ncx2_routines Gam cdf sf pdf.
Lemma base_rates b m k f t c : isclose b 1 = false -> isclose b 0 = false -> b < 1 -> 0 < k -> 0 < f -> 0 < t -> call_or_put c ->
  (divr m < intr m -> DF (intr m) t * sabr_base_price (cev_price cdf sf) b (flat m) k f t c < sabr_base_price (cev_price cdf sf) b (set_fwd m) k f t c) /\
  (intr m < divr m -> sabr_base_price (cev_price cdf sf) b (set_fwd m) k f t c < DF (intr m) t * sabr_base_price (cev_price cdf sf) b (flat m) k f t c).
Proof using HG HR.
  intros E1 E0 Hb Hk Hf Ht Hc. unfold sabr_base_price. rewrite E1, E0. rewrite !(price_cp Gam cdf sf pdf HG HR) by (try assumption; lra).
  change (mF (set_fwd m) f t) with f. change (mF (flat m) f t) with f. change (mD (set_fwd m) t) with (DF (intr m) t).
  replace (mD (flat m) t) with 1 by (unfold mD, DF, flat; cbn [intr]; rewrite Rmult_0_l, Ropp_0, exp_0; reflexivity). rewrite Rmult_1_l.
  assert (D0 : 0 < DF (intr m) t) by apply exp_pos. set (c0 := Rpower f (2 * (1 - b)) * (Rmax ((sigma m / Rpower f (1 - b)) ^ 2 * t) eps * (1 - b) ^ 2)).
  assert (C0 : 0 < c0). { unfold c0. apply Rmult_lt_0_compat; [apply exp_pos|]. apply Rmult_lt_0_compat; [|nra]. pose proof (Rmax_r ((sigma m / Rpower f (1 - b)) ^ 2 * t) eps). pose proof eps_pos. lra. }
  assert (EF : s_eff b (flat m) f t = c0). { unfold s_eff, flat. cbn [sigma intr divr]. replace (2 * (0 - 0) * (1 - b) * t) with 0 by ring. unfold exprel. destruct (Req_EM_T 0 0); [|lra]. unfold c0. ring. }
  assert (ES : s_eff b (set_fwd m) f t = c0 * exprel (2 * (intr m - divr m) * (1 - b) * t)) by (unfold s_eff, set_fwd, c0; cbn [sigma intr divr]; ring).
  rewrite EF, ES. destruct (exprel_sign (2 * (intr m - divr m) * (1 - b) * t)) as [X1 X2]. pose proof (exprel_gt0 (2 * (intr m - divr m) * (1 - b) * t)) as X0.
  split; intros Hr; (apply Rmult_lt_compat_l; [exact D0|]).
  - assert (A : 0 < 2 * (intr m - divr m) * (1 - b) * t) by (repeat apply Rmult_lt_0_compat; lra). specialize (X1 A). pose proof (ccall_incr Gam HG b f k c0 (c0 * exprel (2 * (intr m - divr m) * (1 - b) * t)) ltac:(lra) Hf Hk C0 ltac:(nra)). lra.
  - assert (A : 2 * (intr m - divr m) * (1 - b) * t < 0) by (assert (0 < 2 * (divr m - intr m) * (1 - b) * t) by (repeat apply Rmult_lt_0_compat; lra); lra). specialize (X2 A). pose proof (ccall_incr Gam HG b f k (c0 * exprel (2 * (intr m - divr m) * (1 - b) * t)) c0 ltac:(lra) Hf Hk ltac:(nra) ltac:(nra)). lra.
Qed.
Lemma mc_rates mo p paths K S T cp : let F := FWD (intr mo) (divr mo) (is_fwd mo) S T in
  isclose (b_beta p) 1 = false -> isclose (b_beta p) 0 = false -> 0 < b_beta p < 1 -> 0 < F -> 0 < K -> 0 < T -> call_or_put cp ->
  paths F <> [] -> (forall x, In x (paths F) -> / 10 ^ 16 < fst x) ->
  let price := sabr_mc_price (cev_price cdf sf) mo p false paths K S T cp in
  let once := DF (intr mo) T * sabr_mc_price (cev_price cdf sf) (mkOpt (sigma mo) 0 0 true) p false paths K F T cp in
  (divr mo < intr mo -> once < price) /\ (intr mo < divr mo -> price < once).
Proof using HG HR.
  intros F E1 E0 Hb HF HK HT Hc Hne Hx price once.
  assert (A : (if Rlt_dec 0 (b_beta p) then / 10 ^ 16 else - 999) = / 10 ^ 16) by (destruct (Rlt_dec 0 (b_beta p)); [reflexivity|lra]).
  assert (N0 : 0 < INR (length (paths F))). { destruct (paths F) as [|x l]; [congruence|]. cbn [length]. apply lt_0_INR. lia. }
  assert (FA : filter (fun x : R * R => if Rlt_dec (/ 10 ^ 16) (fst x) then true else false) (paths F) = paths F).
  { apply filter_all. intros x Hi. specialize (Hx x Hi). destruct (Rlt_dec (/ 10 ^ 16) (fst x)); [reflexivity|contradiction]. }
  assert (P1 : price = F * lsum (map (fun x => sabr_base_price (cev_price cdf sf) (b_beta p) (set_fwd (set_sigma mo (sabr_alpha p F * snd x))) (K / F) (fst x) T cp) (paths F)) / INR (length (paths F))).
  { unfold price, sabr_mc_price. change (forward mo S T) with F. cbv zeta. rewrite A, FA. reflexivity. }
  assert (P2 : once = F * lsum (map (fun x => DF (intr mo) T * sabr_base_price (cev_price cdf sf) (b_beta p) (flat (set_sigma mo (sabr_alpha p F * snd x))) (K / F) (fst x) T cp) (paths F)) / INR (length (paths F))).
  { unfold once, sabr_mc_price. change (forward (mkOpt (sigma mo) 0 0 true) F T) with F. cbv zeta. rewrite A, FA, lsum_map_scal. unfold flat, set_fwd, set_sigma. cbn [sigma intr divr is_fwd]. field. lra. }
  rewrite P1, P2. assert (p16 : 0 < / 10 ^ 16) by (apply Rinv_0_lt_compat; lra).
  split; intros Hr; (apply Rmult_lt_compat_r; [now apply Rinv_0_lt_compat|]; apply Rmult_lt_compat_l; [exact HF|]; apply lsum_map_lt; [exact Hne|]; intros x Hi; specialize (Hx x Hi)).
  - apply (base_rates (b_beta p) (set_sigma mo (sabr_alpha p F * snd x)) (K / F) (fst x) T cp); try assumption; try lra. now apply Rdiv_lt_0_compat.
  - apply (base_rates (b_beta p) (set_sigma mo (sabr_alpha p F * snd x)) (K / F) (fst x) T cp); try assumption; try lra. now apply Rdiv_lt_0_compat.
Qed.
(** parity holds for every beta < 1 *)
Lemma base_parity_cev b m k f t : isclose b 1 = false -> isclose b 0 = false -> b <> 1 -> 0 < k -> 0 < f -> base_parity (cev_price cdf sf) b m k f t.
Proof using HG HR.
  intros E1 E0 Hb Hk Hf. unfold base_parity, sabr_base_price. rewrite E1, E0. rewrite (cev_parity Gam cdf sf pdf HG HR) by assumption. reflexivity.
Qed.
Lemma mc_parity_cev mo p paths K S T :
  let F := FWD (intr mo) (divr mo) (is_fwd mo) S T in let mean := lmean (map fst (paths F)) in
  0 < F -> 0 < K -> paths F <> [] -> isclose (b_beta p) 1 = false -> isclose (b_beta p) 0 = false -> 0 < b_beta p < 1 -> 0 < mean -> (forall x, In x (paths F) -> / 10 ^ 16 < fst x / mean) ->
  sabr_mc_price (cev_price cdf sf) mo p true paths K S T 1 - sabr_mc_price (cev_price cdf sf) mo p true paths K S T (-1) = DF (intr mo) T * (F - K).
Proof using HG HR.
  intros F mean HF HK Hne E1 E0 Hb Hm Hthr. pose proof (mc_parity (cev_price cdf sf) mo p true paths K S T) as P. cbv zeta in P. fold F mean in P.
  replace (F - K) with (F * (mean / mean) - K) by (field; lra). assert (p16 : 0 < / 10 ^ 16) by (apply Rinv_0_lt_compat; lra). apply P; try assumption; try lra.
  - intros x Hx. destruct (Rlt_dec 0 (b_beta p)); [|lra]. apply Hthr, Hx.
  - intros x Hx. specialize (Hthr x Hx). apply base_parity_cev; try assumption; try lra. now apply Rdiv_lt_0_compat.
Qed.
End S.
