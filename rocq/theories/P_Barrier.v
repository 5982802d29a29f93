(** Barrier options: the knock-out formula solves the boundary value problem. *)
From Coq Require Import Reals Lra Lia Psatz.
From Coquelicot Require Import Coquelicot.
From Verif Require Import Base Gauss Spec_Opt M_Opt P_Bsm P_Norm P_Black P_Gamma2 P_Qe P_Cev5 P_Cev7 P_Newton Spec_Barrier.
Open Scope R_scope.

(** closure of the equation *)
Lemma pe_ext (dom : R -> Prop) vol r q U U' : (forall S, dom S -> locally S dom) -> (forall S T, dom S -> 0 < T -> U S T = U' S T) -> pricing_equation dom vol r q U -> pricing_equation dom vol r q U'.
Proof.
  intros HD HE (U1 & U2 & Ut & H). exists U1, U2, Ut. intros S T HS HT. destruct (H S T HS HT) as (A & B & C & D). split; [|split; [exact B|split]].
  - eapply is_derive_ext_loc; [|exact A]. eapply filter_imp; [|exact (HD S HS)]. intros s Hs. now apply HE.
  - eapply is_derive_ext_loc; [|exact C]. eapply filter_imp; [|exact (open_gt 0 T HT)]. intros t Ht. now apply HE.
  - rewrite <- (HE S T HS HT). exact D.
Qed.
Lemma pe_plus dom vol r q U V : pricing_equation dom vol r q U -> pricing_equation dom vol r q V -> pricing_equation dom vol r q (fun S T => U S T + V S T).
Proof.
  intros (U1 & U2 & Ut & H) (V1 & V2 & Vt & H'). exists (fun S T => U1 S T + V1 S T), (fun S T => U2 S T + V2 S T), (fun S T => Ut S T + Vt S T).
  intros S T HS HT. destruct (H S T HS HT) as (A & B & C & D). destruct (H' S T HS HT) as (A' & B' & C' & D').
  split; [now apply is_derive_plus_R|]. split; [now apply is_derive_plus_R|]. split; [now apply is_derive_plus_R|]. rewrite D, D'. ring.
Qed.
Lemma pe_scal dom vol r q c U : pricing_equation dom vol r q U -> pricing_equation dom vol r q (fun S T => c * U S T).
Proof.
  intros (U1 & U2 & Ut & H). exists (fun S T => c * U1 S T), (fun S T => c * U2 S T), (fun S T => c * Ut S T).
  intros S T HS HT. destruct (H S T HS HT) as (A & B & C & D).
  split; [now apply is_derive_scal_R|]. split; [now apply is_derive_scal_R|]. split; [now apply is_derive_scal_R|]. rewrite D. ring.
Qed.
Lemma pe_sub (dom dom' : R -> Prop) vol r q U : (forall S, dom' S -> dom S) -> pricing_equation dom vol r q U -> pricing_equation dom' vol r q U.
Proof. intros H (U1 & U2 & Ut & P). exists U1, U2, Ut. intros S T HS HT. apply P; auto. Qed.

Lemma lim_scal_at (f : R -> R) (c u : R) : filterlim f (at_right 0) (locally u) -> filterlim (fun x => c * f x) (at_right 0) (locally (c * u)).
Proof. intros H. apply lim_mult_0; [apply filterlim_const|exact H]. Qed.
Section B.
Variables (sg r q : R).
Hypothesis Hs : 0 < sg.
Let mu := r - q - sg ^ 2 / 2.
(** building block *)
Definition Wb (a b c k m S T : R) : R := exp (a * ln S + b * T) * Phi (c * (ln S - k + m * T) / (sg * sqrt T)).
Definition pos (S : R) := 0 < S.
Lemma Wb_pde a c k : c ^ 2 = 1 -> pricing_equation pos (fun S _ => sg * S) r q (Wb a (sg ^ 2 / 2 * a ^ 2 + mu * a - r) c k (mu + sg ^ 2 * a)).
Proof using Hs.
  intros Hc. set (b := sg ^ 2 / 2 * a ^ 2 + mu * a - r). set (m := mu + sg ^ 2 * a).
  set (z S T := c * (ln S - k + m * T) / (sg * sqrt T)). set (E S T := exp (a * ln S + b * T)).
  exists (fun S T => E S T / S * (a * Phi (z S T) + npdf (z S T) * (c / (sg * sqrt T)))),
    (fun S T => E S T / S ^ 2 * ((a ^ 2 - a) * Phi (z S T) + npdf (z S T) * (c / (sg * sqrt T)) * (2 * a - 1) - npdf (z S T) * z S T * (c / (sg * sqrt T)) ^ 2)),
    (fun S T => E S T * (b * Phi (z S T) + npdf (z S T) * (c * m / (sg * sqrt T) - z S T / (2 * T)))).
  intros S T HS HT. unfold pos in HS. pose proof (sqrt_lt_R0 T HT) as HsT. assert (ET : sqrt T * sqrt T = T) by (apply sqrt_sqrt; lra).
  assert (HsT' : 0 < sg * sqrt T) by now apply Rmult_lt_0_compat.
  assert (DE : is_derive (fun s => E s T) S (E S T * (a / S))). { unfold E. auto_derive; [lra|]. Req. unfold Rdiv. ring. }
  assert (Dz : is_derive (fun s => z s T) S (c / (sg * sqrt T) / S)). { unfold z. auto_derive; [lra|]. Req. field. repeat split; lra. }
  assert (DP : is_derive (fun s => Phi (z s T)) S (npdf (z S T) * (c / (sg * sqrt T) / S))). { eapply is_derive_eq; [exact (is_derive_comp_R Phi (fun s => z s T) _ _ _ (is_derive_Phi _) Dz)|ring]. }
  assert (Dn : is_derive (fun s => npdf (z s T)) S (- z S T * npdf (z S T) * (c / (sg * sqrt T) / S))). { eapply is_derive_eq; [exact (is_derive_comp_R npdf (fun s => z s T) _ _ _ (is_derive_npdf _) Dz)|ring]. }
  split; [|split; [|split]].
  - eapply is_derive_eq; [apply (is_derive_mult_R _ _ _ _ _ DE DP)|]. field. repeat split; lra.
  - set (y := c / (sg * sqrt T)) in *. assert (DI : is_derive (fun s => E s T / s) S (E S T * (a - 1) / S ^ 2)).
    { apply (is_derive_ext_loc (fun s => E s T * / s)); [apply filter_forall; intros; reflexivity|]. eapply is_derive_eq; [apply (is_derive_mult_R _ _ _ (E S T * (a / S)) (- / S ^ 2) DE); auto_derive; [lra|Req; field; lra]|]. field. lra. }
    assert (D2 : is_derive (fun s => a * Phi (z s T) + npdf (z s T) * y) S (a * (npdf (z S T) * (y / S)) + y * (- z S T * npdf (z S T) * (y / S)))).
    { apply (is_derive_ext (fun s => a * Phi (z s T) + y * npdf (z s T))); [intros; Req; ring|]. exact (is_derive_plus_R _ _ _ _ _ (is_derive_scal_R _ a _ _ DP) (is_derive_scal_R _ y _ _ Dn)). }
    eapply is_derive_eq; [apply (is_derive_mult_R _ _ _ _ _ DI D2)|]. field. lra.
  - assert (DEt : is_derive (fun t => E S t) T (E S T * b)). { unfold E. auto_derive; [trivial|]. Req. ring. }
    assert (Dzt : is_derive (fun t => z S t) T (c * m / (sg * sqrt T) - z S T / (2 * T))).
    { unfold z. auto_derive; [split; [lra|split; [lra|trivial]]|]. Req. replace (2 * T) with (2 * (sqrt T * sqrt T)) by (rewrite ET; ring). field. repeat split; lra. }
    assert (DPt : is_derive (fun t => Phi (z S t)) T (npdf (z S T) * (c * m / (sg * sqrt T) - z S T / (2 * T)))). { eapply is_derive_eq; [exact (is_derive_comp_R Phi (fun t => z S t) _ _ _ (is_derive_Phi _) Dzt)|ring]. }
    eapply is_derive_eq; [apply (is_derive_mult_R _ _ _ _ _ DEt DPt)|]. ring.
  - unfold Wb. fold (E S T). fold (z S T). set (P := Phi (z S T)). set (n := npdf (z S T)). set (Z := z S T). clearbody P n Z. set (e := E S T). clearbody e. replace (2 * T) with (2 * (sqrt T * sqrt T)) by (rewrite ET; ring). unfold b, m, mu.
    assert (Ey : (c / (sg * sqrt T)) ^ 2 = / (sg * sqrt T) ^ 2). { replace ((c / (sg * sqrt T)) ^ 2) with (c ^ 2 / (sg * sqrt T) ^ 2) by (field; repeat split; lra). rewrite Hc. unfold Rdiv. ring. } rewrite Ey.
    field. repeat split; lra.
Qed.

(** ** limits at expiry *)
Lemma big_ratio d e : 0 < d -> filterlim (fun T => (d + e * T) / (sg * sqrt T)) (at_right 0) (Rbar_locally p_infty).
Proof using Hs.
  intros Hd P [M HM]. set (M' := Rabs M + 1). assert (M0 : 0 < M') by (unfold M'; pose proof (Rabs_pos M); lra).
  set (d1 := d / (2 * (Rabs e + 1))). set (d2 := (d / (2 * (sg * M'))) ^ 2). pose proof (Rabs_pos e) as He.
  assert (P1 : 0 < d1) by (apply Rdiv_lt_0_compat; lra). assert (P3 : 0 < sg * M') by now apply Rmult_lt_0_compat. assert (P2 : 0 < d2) by (apply pow_lt, Rdiv_lt_0_compat; lra).
  exists (mkposreal (Rmin d1 d2) (Rmin_pos _ _ P1 P2)). intros T HT T0. change (Rabs (T - 0) < Rmin d1 d2) in HT. rewrite Rminus_0_r, Rabs_right in HT by lra.
  pose proof (Rmin_l d1 d2). pose proof (Rmin_r d1 d2). apply HM. assert (HsT : 0 < sqrt T) by now apply sqrt_lt_R0.
  assert (L1 : sqrt T < d / (2 * (sg * M'))). { rewrite <- (sqrt_pow2 (d / (2 * (sg * M')))) by (left; apply Rdiv_lt_0_compat; lra). apply sqrt_lt_1_alt. fold d2. lra. }
  assert (L2 : d / 2 <= d + e * T). { assert (Rabs e * T <= d / 2). { apply Rle_trans with ((Rabs e + 1) * d1); [apply Rmult_le_compat; lra|]. right. unfold d1. field. lra. } assert (- (Rabs e * T) <= e * T). { pose proof (Rle_abs (- e)) as X. rewrite Rabs_Ropp in X. nra. } lra. }
  apply Rle_lt_trans with (Rabs M); [apply Rle_abs|]. apply Rlt_trans with M'; [unfold M'; lra|].
  apply (Rmult_lt_reg_r (sg * sqrt T)); [now apply Rmult_lt_0_compat|]. unfold Rdiv. rewrite Rmult_assoc, Rinv_l, Rmult_1_r by (apply Rgt_not_eq; now apply Rmult_lt_0_compat).
  apply Rlt_le_trans with (d / 2); [|exact L2]. apply (Rmult_lt_compat_l (sg * M')) in L1; [|exact P3]. replace (sg * M' * (d / (2 * (sg * M')))) with (d / 2) in L1 by (field; split; lra). lra.
Qed.
Lemma exp_part a b S : filterlim (fun T => exp (a * ln S + b * T)) (at_right 0) (locally (exp (a * ln S))).
Proof using.
  apply (filterlim_filter_le_1 _ (filter_le_within (F := locally 0) _)). assert (C : continuous (fun T => exp (a * ln S + b * T)) 0) by (apply (ex_derive_continuous (K := R_AbsRing) (V := R_NormedModule) (fun T => exp (a * ln S + b * T))); auto_derive; trivial).
  unfold continuous in C. replace (a * ln S + b * 0) with (a * ln S) in C by ring. exact C.
Qed.
Lemma Wb_lim a b c k m S v : (filterlim (fun T => Phi (c * (ln S - k + m * T) / (sg * sqrt T))) (at_right 0) (locally v)) -> filterlim (fun T => Wb a b c k m S T) (at_right 0) (locally (exp (a * ln S) * v)).
Proof using. intros H. unfold Wb. exact (filterlim_comp_2 _ _ Rmult (exp_part a b S) H (filterlim_mult (K := R_AbsRing) (exp (a * ln S)) v)). Qed.
Lemma ratio_ext c k m S T : c * (ln S - k + m * T) / (sg * sqrt T) = (c * (ln S - k) + c * m * T) / (sg * sqrt T).
Proof using. f_equal. ring. Qed.
Lemma Phi_lim1 c k m S : 0 < c * (ln S - k) -> filterlim (fun T => Phi (c * (ln S - k + m * T) / (sg * sqrt T))) (at_right 0) (locally 1).
Proof using Hs.
  intros H. apply (filterlim_ext (fun T => Phi ((c * (ln S - k) + c * m * T) / (sg * sqrt T)))); [intros T; now rewrite ratio_ext|].
  exact (filterlim_comp _ _ _ _ Phi _ _ _ (big_ratio (c * (ln S - k)) (c * m) H) Phi_lim_p).
Qed.
Lemma Phi_lim0 c k m S : c * (ln S - k) < 0 -> filterlim (fun T => Phi (c * (ln S - k + m * T) / (sg * sqrt T))) (at_right 0) (locally 0).
Proof using Hs.
  intros H. assert (H' : 0 < - c * (ln S - k)) by lra.
  apply (filterlim_ext (fun T => Phi (- ((- c * (ln S - k) + - c * m * T) / (sg * sqrt T))))); [intros T; f_equal; unfold Rdiv; ring|].
  exact (filterlim_comp _ _ _ _ (fun x => Phi (- x)) _ _ _ (big_ratio (- c * (ln S - k)) (- c * m) H') Phi_lim_mb).
Qed.
Lemma Phi_limh c k m S : ln S = k -> filterlim (fun T => Phi (c * (ln S - k + m * T) / (sg * sqrt T))) (at_right 0) (locally (/ 2)).
Proof using Hs.
  intros H. assert (C : continuous (fun T => Phi (c * m / sg * sqrt T)) 0).
  { apply (continuous_comp (fun T => c * m / sg * sqrt T) Phi); [|apply (ex_derive_continuous (K := R_AbsRing) (V := R_NormedModule)); eexists; apply is_derive_Phi].
    apply (continuous_mult (fun _ => c * m / sg) sqrt); [apply continuous_const|]. apply continuity_pt_filterlim, continuity_pt_sqrt. lra. }
  apply cont_0 in C. rewrite sqrt_0, Rmult_0_r, Phi_0 in C. eapply filterlim_ext_loc; [|exact C]. exists (mkposreal 1 Rlt_0_1). intros T _ HT. f_equal. rewrite H.
  pose proof (sqrt_lt_R0 T HT). assert (ET : sqrt T * sqrt T = T) by (apply sqrt_sqrt; lra). rewrite <- ET at 2. field. split; lra.
Qed.
(** ** the option values without the floor on the standard deviation *)
Definition subf (c K K2 S T : R) : R := c * Wb 1 (- q) c (ln K2) (mu + sg ^ 2) S T + - (c * K) * Wb 0 (- r) c (ln K2) mu S T.
Lemma subf_pde c K K2 : c ^ 2 = 1 -> pricing_equation pos (fun S _ => sg * S) r q (subf c K K2).
Proof using Hs.
  intros Hc. unfold subf. apply (pe_plus pos _ r q (fun S T => c * Wb 1 (- q) c (ln K2) (mu + sg ^ 2) S T) (fun S T => - (c * K) * Wb 0 (- r) c (ln K2) mu S T)).
  - apply pe_scal. pose proof (Wb_pde 1 c (ln K2) Hc) as H. replace (sg ^ 2 / 2 * 1 ^ 2 + mu * 1 - r) with (- q) in H by (unfold mu; field). replace (mu + sg ^ 2 * 1) with (mu + sg ^ 2) in H by ring. exact H.
  - apply pe_scal. pose proof (Wb_pde 0 c (ln K2) Hc) as H. replace (sg ^ 2 / 2 * 0 ^ 2 + mu * 0 - r) with (- r) in H by ring. replace (mu + sg ^ 2 * 0) with mu in H by ring. exact H.
Qed.
Lemma ln_side c S K : 0 < S -> 0 < K -> 0 < c * (S - K) -> 0 < c * (ln S - ln K).
Proof using.
  intros HS HK H. destruct (Rtotal_order S K) as [L|[->|L]]; [|lra|].
  - pose proof (ln_increasing S K HS L). nra.
  - pose proof (ln_increasing K S HK L). nra.
Qed.
Lemma subf_lim c K K2 S (v : R) : 0 < S -> (forall m, filterlim (fun T => Phi (c * (ln S - ln K2 + m * T) / (sg * sqrt T))) (at_right 0) (locally v)) -> at_expiry (subf c K K2) S (c * (S - K) * v).
Proof using.
  intros HS H. unfold at_expiry, subf. apply (lim_val _ _ (c * (exp (1 * ln S) * v) + - (c * K) * (exp (0 * ln S) * v))).
  { rewrite Rmult_1_l, Rmult_0_l, exp_0, exp_ln by exact HS. ring. }
  apply lim_plus_at0; apply lim_scal_at; apply Wb_lim; apply H.
Qed.
Lemma subf_out c K K2 S : 0 < S -> 0 < K2 -> 0 < - c * (S - K2) -> at_expiry (subf c K K2) S 0.
Proof using Hs.
  intros HS HK H. apply (lim_val _ _ (c * (S - K) * 0)); [ring|]. apply subf_lim; [exact HS|]. intros m. apply Phi_lim0. pose proof (ln_side (- c) S K2 HS HK H). lra.
Qed.
Lemma subf_payoff c K S : 0 < S -> 0 < K -> at_expiry (subf c K K) S (payoff c K S).
Proof using Hs.
  intros HS HK. unfold payoff. destruct (Rtotal_order (c * (S - K)) 0) as [L|[E|L]].
  - rewrite Rmax_right by lra. apply subf_out; try assumption. lra.
  - rewrite Rmax_left by lra. destruct (Req_dec S K) as [->|N].
    + apply (lim_val _ _ (c * (K - K) * / 2)); [ring|]. apply subf_lim; [exact HS|]. intros m. now apply Phi_limh.
    + assert (c = 0) by nra. subst c. apply (lim_val _ _ (0 * (S - K) * / 2)); [ring|]. apply subf_lim; [exact HS|]. intros m.
      apply (filterlim_ext (fun _ => / 2)); [|apply filterlim_const]. intros T. replace (0 * (ln S - ln K + m * T) / (sg * sqrt T)) with 0 by (unfold Rdiv; ring). now rewrite Phi_0.
  - rewrite Rmax_left by lra. apply (lim_val _ _ (c * (S - K) * 1)); [ring|]. apply subf_lim; [exact HS|]. intros m. apply Phi_lim1. now apply ln_side.
Qed.
(** reflected value (B/S)^(2 mu / sigma^2) sub(B^2/S) *)
Definition psif (B S : R) : R := Rpower (B / S) (2 * (r - q) / sg ^ 2 - 1).
Definition reff (B c K K2 S T : R) : R := psif B S * subf c K K2 (B ^ 2 / S) T.
Lemma ln_refl B S : 0 < B -> 0 < S -> ln (B ^ 2 / S) = 2 * ln B - ln S.
Proof using. intros HB HS. unfold Rdiv. rewrite ln_mult by (try apply pow_lt; try apply Rinv_0_lt_compat; assumption). rewrite ln_Rinv by exact HS. replace (B ^ 2) with (B * B) by ring. rewrite ln_mult by assumption. ring. Qed.
Lemma psif_eq B S : 0 < B -> 0 < S -> psif B S = exp (2 * mu / sg ^ 2 * (ln B - ln S)).
Proof using Hs. intros HB HS. unfold psif, Rpower. f_equal. rewrite ln_div by assumption. unfold mu. field. lra. Qed.
Lemma reff_eq B c K K2 S T : 0 < B -> 0 < S -> 0 < K2 -> 0 < T ->
  reff B c K K2 S T = (c * exp ((2 * mu / sg ^ 2 + 2) * ln B)) * Wb (- (2 * mu / sg ^ 2) - 1) (- q) (- c) (2 * ln B - ln K2) (- mu - sg ^ 2) S T
    + (- (c * K) * exp (2 * mu / sg ^ 2 * ln B)) * Wb (- (2 * mu / sg ^ 2)) (- r) (- c) (2 * ln B - ln K2) (- mu) S T.
Proof using Hs.
  intros HB HS HK HT. unfold reff. rewrite psif_eq by assumption. unfold subf, Wb. rewrite ln_refl by assumption. set (be := 2 * mu / sg ^ 2). set (lb := ln B). set (ls := ln S). set (lk := ln K2).
  replace (- c * (ls - (2 * lb - lk) + (- mu - sg ^ 2) * T)) with (c * (2 * lb - ls - lk + (mu + sg ^ 2) * T)) by ring.
  replace (- c * (ls - (2 * lb - lk) + - mu * T)) with (c * (2 * lb - ls - lk + mu * T)) by ring.
  set (P1 := Phi _). set (P2 := Phi _).
  assert (X1 : exp (be * (lb - ls)) * exp (1 * (2 * lb - ls) + - q * T) = exp ((be + 2) * lb) * exp ((- be - 1) * ls + - q * T)) by (rewrite <- !exp_plus; f_equal; ring).
  assert (X2 : exp (be * (lb - ls)) * exp (0 * (2 * lb - ls) + - r * T) = exp (be * lb) * exp (- be * ls + - r * T)) by (rewrite <- !exp_plus; f_equal; ring).
  replace (exp (be * (lb - ls)) * (c * (exp (1 * (2 * lb - ls) + - q * T) * P1) + - (c * K) * (exp (0 * (2 * lb - ls) + - r * T) * P2)))
    with (c * P1 * (exp (be * (lb - ls)) * exp (1 * (2 * lb - ls) + - q * T)) + - (c * K) * P2 * (exp (be * (lb - ls)) * exp (0 * (2 * lb - ls) + - r * T))) by ring.
  rewrite X1, X2. ring.
Qed.
Lemma pos_open S : pos S -> locally S pos. Proof using. intros H. exact (open_gt 0 S H). Qed.
Lemma reff_pde B c K K2 : 0 < B -> 0 < K2 -> c ^ 2 = 1 -> pricing_equation pos (fun S _ => sg * S) r q (reff B c K K2).
Proof using Hs.
  intros HB HK Hc. assert (Hc' : (- c) ^ 2 = 1) by (rewrite <- Hc; ring). eapply (pe_ext pos _ r q); [exact pos_open|intros S T HS HT; symmetry; now apply reff_eq|].
  apply (pe_plus pos _ r q (fun S T => (c * exp ((2 * mu / sg ^ 2 + 2) * ln B)) * Wb (- (2 * mu / sg ^ 2) - 1) (- q) (- c) (2 * ln B - ln K2) (- mu - sg ^ 2) S T) (fun S T => (- (c * K) * exp (2 * mu / sg ^ 2 * ln B)) * Wb (- (2 * mu / sg ^ 2)) (- r) (- c) (2 * ln B - ln K2) (- mu) S T)).
  - apply pe_scal. pose proof (Wb_pde (- (2 * mu / sg ^ 2) - 1) (- c) (2 * ln B - ln K2) Hc') as H.
    replace (sg ^ 2 / 2 * (- (2 * mu / sg ^ 2) - 1) ^ 2 + mu * (- (2 * mu / sg ^ 2) - 1) - r) with (- q) in H by (unfold mu; field; lra). replace (mu + sg ^ 2 * (- (2 * mu / sg ^ 2) - 1)) with (- mu - sg ^ 2) in H by (field; lra). exact H.
  - apply pe_scal. pose proof (Wb_pde (- (2 * mu / sg ^ 2)) (- c) (2 * ln B - ln K2) Hc') as H.
    replace (sg ^ 2 / 2 * (- (2 * mu / sg ^ 2)) ^ 2 + mu * (- (2 * mu / sg ^ 2)) - r) with (- r) in H by (field; lra). replace (mu + sg ^ 2 * (- (2 * mu / sg ^ 2))) with (- mu) in H by (field; lra). exact H.
Qed.
Lemma reff_lim B c K K2 S v : at_expiry (subf c K K2) (B ^ 2 / S) v -> at_expiry (reff B c K K2) S (psif B S * v).
Proof using. intros H. unfold at_expiry, reff. apply lim_scal_at. exact H. Qed.
(** knock-out; [same]: the reflected option is of the same type (down call / up put) *)
Definition kof (same : bool) (cp K B S T : R) : R :=
  if same then subf cp K K S T + -1 * reff B cp K K S T
  else let b' := cp * Rmax (cp * K) (cp * B) in
    subf cp K K S T + -1 * (subf cp K b' S T + (reff B (- cp) K K S T + -1 * reff B (- cp) K b' S T)).
Lemma bprime cp K B : call_or_put cp -> 0 < K -> 0 < B -> 0 < cp * Rmax (cp * K) (cp * B) /\ (cp * B <= cp * K -> cp * Rmax (cp * K) (cp * B) = K) /\ (cp * K <= cp * B -> cp * Rmax (cp * K) (cp * B) = B).
Proof using.
  intros [->| ->] HK HB; split; [|split| |split].
  - unfold Rmax. destruct (Rle_dec _ _); lra.
  - intros H. rewrite Rmax_left by lra. ring.
  - intros H. rewrite Rmax_right by lra. ring.
  - unfold Rmax. destruct (Rle_dec _ _); lra.
  - intros H. rewrite Rmax_left by lra. ring.
  - intros H. rewrite Rmax_right by lra. ring.
Qed.
Lemma kof_pde same cp K B : call_or_put cp -> 0 < K -> 0 < B -> pricing_equation pos (fun S _ => sg * S) r q (kof same cp K B).
Proof using Hs.
  intros Hcp HK HB. assert (C1 : cp ^ 2 = 1) by (destruct Hcp as [->| ->]; ring). assert (C2 : (- cp) ^ 2 = 1) by (rewrite <- C1; ring).
  unfold kof. destruct same.
  - apply (pe_plus pos _ r q (subf cp K K) (fun S T => -1 * reff B cp K K S T)); [now apply subf_pde|]. apply pe_scal. now apply reff_pde.
  - destruct (bprime cp K B Hcp HK HB) as (Hb & _). set (b' := cp * Rmax (cp * K) (cp * B)) in *.
    apply (pe_plus pos _ r q (subf cp K K) (fun S T => -1 * (subf cp K b' S T + (reff B (- cp) K K S T + -1 * reff B (- cp) K b' S T)))); [now apply subf_pde|].
    apply (pe_scal pos _ r q (-1) (fun S T => subf cp K b' S T + (reff B (- cp) K K S T + -1 * reff B (- cp) K b' S T))).
    apply (pe_plus pos _ r q (subf cp K b') (fun S T => reff B (- cp) K K S T + -1 * reff B (- cp) K b' S T)); [now apply subf_pde|].
    apply (pe_plus pos _ r q (reff B (- cp) K K) (fun S T => -1 * reff B (- cp) K b' S T)); [now apply reff_pde|]. apply pe_scal. now apply reff_pde.
Qed.
Lemma subf_parity K K2 K3 S T : subf 1 K K2 S T - subf (-1) K K2 S T = subf 1 K K3 S T - subf (-1) K K3 S T.
Proof using.
  unfold subf, Wb. assert (E : forall x, Phi (-1 * x) = 1 - Phi (1 * x)) by (intros x; replace (-1 * x) with (- x) by ring; rewrite Phi_opp, Rmult_1_l; ring).
  unfold Rdiv. rewrite !(Rmult_assoc (-1) _ (/ (sg * sqrt T))), !(Rmult_assoc 1 _ (/ (sg * sqrt T))). rewrite !E. ring.
Qed.
Lemma kof_barrier same cp K B T : call_or_put cp -> 0 < B -> kof same cp K B B T = 0.
Proof using Hs.
  intros Hcp HB. assert (E : forall c K2, reff B c K K2 B T = subf c K K2 B T).
  { intros c K2. unfold reff. rewrite psif_eq by assumption. replace (2 * mu / sg ^ 2 * (ln B - ln B)) with 0 by ring. rewrite exp_0. replace (B ^ 2 / B) with B by (field; lra). ring. }
  unfold kof. destruct same; cbv zeta; rewrite !E; [ring|]. set (b' := cp * Rmax (cp * K) (cp * B)). pose proof (subf_parity K K b' B T) as P.
  destruct Hcp as [->| ->]; [replace (- (1)) with (-1) by ring; lra|replace (- (-1)) with 1 by ring; lra].
Qed.
Lemma refl_side B S : 0 < B -> 0 < S -> 0 < B ^ 2 / S /\ (B < S -> B ^ 2 / S < B) /\ (S < B -> B < B ^ 2 / S).
Proof using.
  intros HB HS. assert (P : 0 < B ^ 2 / S) by (apply Rdiv_lt_0_compat; [apply pow_lt|]; lra). split; [exact P|]. set (x := B ^ 2 / S) in *. assert (E : x * S = B * B) by (unfold x; field; lra). clearbody x. split; intros; nra.
Qed.
Lemma kof_expiry_same cp K B S : 0 < K -> 0 < B -> 0 < S -> at_expiry (kof true cp K B) S (payoff cp K S - psif B S * payoff cp K (B ^ 2 / S)).
Proof using Hs.
  intros HK HB HS. destruct (refl_side B S HB HS) as (P & _). unfold kof, at_expiry. apply (lim_val _ _ (payoff cp K S + -1 * (psif B S * payoff cp K (B ^ 2 / S)))); [ring|].
  apply lim_plus_at0; [now apply subf_payoff|]. apply lim_scal_at. apply reff_lim. now apply subf_payoff.
Qed.
Lemma kof_expiry cp side K B S : call_or_put cp -> call_or_put side -> 0 < K -> 0 < B -> 0 < S -> alive side B S -> (side = cp -> cp * B <= cp * K) ->
  at_expiry (kof (if Req_EM_T side cp then true else false) cp K B) S (payoff cp K S).
Proof using Hs.
  intros Hcp Hsd HK HB HS Ha Hreg. unfold alive in Ha. destruct (refl_side B S HB HS) as (P & Pa & Pb). destruct (Req_EM_T side cp) as [E|N].
  - specialize (Hreg E). subst side. assert (Z : payoff cp K (B ^ 2 / S) = 0). { unfold payoff. apply Rmax_right. destruct Hcp as [->| ->]; [assert (B < S) by lra; specialize (Pa H); lra|assert (S < B) by lra; specialize (Pb H); lra]. }
    pose proof (kof_expiry_same cp K B S HK HB HS) as L. rewrite Z in L. replace (payoff cp K S - psif B S * 0) with (payoff cp K S) in L by ring. exact L.
  - assert (Es : side = - cp) by (destruct Hcp as [->| ->], Hsd as [->| ->]; lra). subst side. clear N Hreg.
    destruct (bprime cp K B Hcp HK HB) as (Hb & H1 & H2). unfold kof, at_expiry. cbv zeta. set (b' := cp * Rmax (cp * K) (cp * B)) in *.
    destruct (Rle_dec (cp * B) (cp * K)) as [L|L].
    + rewrite (H1 L). apply (filterlim_ext (fun _ => 0)); [intros T; ring|]. replace (payoff cp K S) with 0; [apply filterlim_const|]. symmetry. unfold payoff. apply Rmax_right. destruct Hcp as [->| ->]; lra.
    + assert (L' : cp * K <= cp * B) by lra. rewrite (H2 L').
      assert (O1 : at_expiry (subf cp K B) S 0). { apply subf_out; try assumption; lra. }
      assert (O2 : at_expiry (subf (- cp) K K) (B ^ 2 / S) 0). { apply subf_out; try assumption. destruct Hcp as [->| ->]; [assert (S < B) by lra; specialize (Pb H); lra|assert (B < S) by lra; specialize (Pa H); lra]. }
      assert (O3 : at_expiry (subf (- cp) K B) (B ^ 2 / S) 0). { apply subf_out; try assumption. destruct Hcp as [->| ->]; [assert (S < B) by lra; specialize (Pb H); lra|assert (B < S) by lra; specialize (Pa H); lra]. }
      apply (lim_val _ _ (payoff cp K S + -1 * (0 + (psif B S * 0 + -1 * (psif B S * 0))))); [ring|].
      apply lim_plus_at0; [now apply subf_payoff|]. apply lim_scal_at. apply lim_plus_at0; [exact O1|]. apply lim_plus_at0; [now apply reff_lim|]. apply lim_scal_at. now apply reff_lim.
Qed.
End B.
(** the code computes this whenever the standard deviation is above the floor *)
Lemma sub_code m K K2 S T c : is_fwd m = false -> 0 < sigma m -> 0 < S -> 0 < K2 -> 0 < T -> eps <= sigma m * sqrt T -> bsm_price_suboptimal m K S T c K2 = subf (sigma m) (intr m) (divr m) c K K2 S T.
Proof.
  intros Hf Hs HS HK HT He. unfold bsm_price_suboptimal, fwd_df_divf. rewrite Hf. cbv zeta iota beta. unfold bsm_d1, bsm_d2. rewrite sigma_std_big by exact He. unfold subf, Wb.
  set (r := intr m). set (q := divr m). set (s := sigma m) in *. pose proof (sqrt_lt_R0 T HT) as HsT. assert (ET : sqrt T * sqrt T = T) by (apply sqrt_sqrt; lra).
  assert (EL : ln (S * exp (- q * T) / exp (- r * T) / K2) = ln S - ln K2 + (r - q) * T).
  { unfold Rdiv. rewrite ln_mult, ln_Rinv; [|exact HK| |now apply Rinv_0_lt_compat]. 2:{ apply Rmult_lt_0_compat; [apply Rmult_lt_0_compat; [exact HS|apply exp_pos]|apply Rinv_0_lt_compat, exp_pos]. }
    rewrite ln_mult, ln_Rinv; [|apply exp_pos| |apply Rinv_0_lt_compat, exp_pos]. 2:{ apply Rmult_lt_0_compat; [exact HS|apply exp_pos]. } rewrite ln_mult by (try apply exp_pos; exact HS). rewrite !ln_exp. ring. }
  rewrite EL. assert (HsT2 : 0 < s * sqrt T) by now apply Rmult_lt_0_compat.
  assert (D1 : (ln S - ln K2 + (r - q) * T) / (s * sqrt T) + / 2 * (s * sqrt T) = (ln S - ln K2 + (r - q - s ^ 2 / 2 + s ^ 2) * T) / (s * sqrt T)).
  { apply (Rmult_eq_reg_r (s * sqrt T)); [|lra]. replace ((ln S - ln K2 + (r - q - s ^ 2 / 2 + s ^ 2) * T) / (s * sqrt T) * (s * sqrt T)) with (ln S - ln K2 + (r - q - s ^ 2 / 2 + s ^ 2) * T) by (field; lra).
    rewrite Rmult_plus_distr_r. replace ((ln S - ln K2 + (r - q) * T) / (s * sqrt T) * (s * sqrt T)) with (ln S - ln K2 + (r - q) * T) by (field; lra). replace (/ 2 * (s * sqrt T) * (s * sqrt T)) with (/ 2 * s ^ 2 * (sqrt T * sqrt T)) by ring. rewrite ET. field. }
  assert (D2 : (ln S - ln K2 + (r - q) * T) / (s * sqrt T) - / 2 * (s * sqrt T) = (ln S - ln K2 + (r - q - s ^ 2 / 2) * T) / (s * sqrt T)).
  { apply (Rmult_eq_reg_r (s * sqrt T)); [|lra]. replace ((ln S - ln K2 + (r - q - s ^ 2 / 2) * T) / (s * sqrt T) * (s * sqrt T)) with (ln S - ln K2 + (r - q - s ^ 2 / 2) * T) by (field; lra).
    unfold Rminus at 1. rewrite Rmult_plus_distr_r. replace ((ln S - ln K2 + (r - q) * T) / (s * sqrt T) * (s * sqrt T)) with (ln S - ln K2 + (r - q) * T) by (field; lra). replace (- (/ 2 * (s * sqrt T)) * (s * sqrt T)) with (- (/ 2 * s ^ 2 * (sqrt T * sqrt T))) by ring. rewrite ET. field. }
  rewrite D1, D2. set (A1 := ln S - ln K2 + (r - q - s ^ 2 / 2 + s ^ 2) * T). set (A2 := ln S - ln K2 + (r - q - s ^ 2 / 2) * T).
  replace (c * (A1 / (s * sqrt T))) with (c * A1 / (s * sqrt T)) by (unfold Rdiv; ring). replace (c * (A2 / (s * sqrt T))) with (c * A2 / (s * sqrt T)) by (unfold Rdiv; ring).
  set (P1 := Phi (c * A1 / (s * sqrt T))). set (P2 := Phi (c * A2 / (s * sqrt T))). rewrite Rmult_1_l, Rmult_0_l, Rplus_0_l, exp_plus, exp_ln by exact HS. pose proof (exp_pos (- r * T)). field. lra.
Qed.
Lemma ko_code m K B S T cp side : is_fwd m = false -> call_or_put cp -> call_or_put side -> 0 < sigma m -> 0 < K -> 0 < B -> 0 < S -> alive side B S -> 0 < T -> eps <= sigma m * sqrt T ->
  bsm_price_barrier m K B S T cp (-1) = kof (sigma m) (intr m) (divr m) (if Req_EM_T side cp then true else false) cp K B S T.
Proof.
  intros Hf Hcp Hsd Hs HK HB HS Ha HT He. unfold alive in Ha. unfold bsm_price_barrier, price_barrier, bsm_barrier_params. cbv zeta iota beta. destruct (Rlt_dec 0 (-1)) as [X|_]; [lra|].
  destruct (refl_side B S HB HS) as (P & _). destruct (bprime cp K B Hcp HK HB) as (Hb & _).
  assert (ES : (if Rlt_dec B S then 1 else -1) = side). { destruct (Rlt_dec B S); destruct Hsd as [->| ->]; lra. } rewrite ES. change (Rpower (B / S) (2 * (intr m - divr m) / sigma m ^ 2 - 1)) with (psif (sigma m) (intr m) (divr m) B S).
  unfold kof, reff. cbv zeta. destruct (Req_EM_T side cp) as [->|N].
  - assert (E1 : cp * cp = 1) by (destruct Hcp as [->| ->]; ring). rewrite E1. destruct (Rlt_dec 0 1) as [_|X]; [|lra]. rewrite Rmult_1_l. rewrite !sub_code by assumption. ring.
  - assert (E1 : side * cp = -1) by (destruct Hcp as [->| ->], Hsd as [->| ->]; lra). rewrite E1. destruct (Rlt_dec 0 (-1)) as [X|_]; [lra|]. replace (-1 * cp) with (- cp) by ring. rewrite !sub_code by assumption. ring.
Qed.
