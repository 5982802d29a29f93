(** Barrier options in the Bachelier model. *)
From Coq Require Import Reals Lra Lia Psatz.
From Coquelicot Require Import Coquelicot.
From Verif Require Import Base Gauss Spec_Opt M_Opt P_Bsm P_Norm P_Black P_Gamma2 P_Qe P_Cev5 P_Cev7 P_Newton Spec_Barrier P_Barrier.
Open Scope R_scope.
Section N.
Variables (sg r q : R).
Hypothesis Hs : 0 < sg.
Definition zn (K2 S T : R) : R := (S * exp ((r - q) * T) - K2) / (sg * sqrt T).
Definition subn (c K K2 S T : R) : R := exp (- r * T) * (c * (S * exp ((r - q) * T) - K) * Phi (c * zn K2 S T) + sg * sqrt T * npdf (zn K2 S T)).
Definition all (S : R) := True.
Definition subn1 (c K K2 S T : R) : R := exp (- q * T) * (c * Phi (c * zn K2 S T) + npdf (zn K2 S T) * ((K2 - K) / (sg * sqrt T))).
Lemma npdf_c c x : c ^ 2 = 1 -> npdf (c * x) = npdf x.
Proof using. intros H. unfold npdf. do 3 f_equal. replace (c * x * (c * x)) with (c ^ 2 * (x * x)) by ring. rewrite H. ring. Qed.
Lemma subn_pde c K K2 S T : c ^ 2 = 1 -> 0 < T -> exists U2 Ut : R,
  is_derive (fun s => subn c K K2 s T) S (subn1 c K K2 S T) /\ is_derive (fun s => subn1 c K K2 s T) S (U2) /\ is_derive (fun t => subn c K K2 S t) T Ut /\
  Ut = (sg * exp (- ((r - q) * T))) ^ 2 / 2 * U2 + (r - q) * S * subn1 c K K2 S T - r * subn c K K2 S T /\
  (K2 = K -> 0 < U2).
Proof using Hs.
  intros Hc HT. set (g := r - q). set (G := exp (g * T)). assert (HG : 0 < G) by apply exp_pos.
  set (y := npdf (zn K2 S T)). set (P := Phi (c * zn K2 S T)). set (z := zn K2 S T). set (s := sg * sqrt T).
  exists (exp (- q * T) * (G / s * y * (1 - z * ((K2 - K) / s)))).
  exists (- r * subn c K K2 S T + exp (- r * T) * (c * P * (S * (g * G)) + y * (K2 - K) / s * (S * (g * G)) + y / (2 * T) * (s - z * (K2 - K)))).
  pose proof (sqrt_lt_R0 T HT) as HsT. assert (ET : sqrt T * sqrt T = T) by (apply sqrt_sqrt; lra). assert (Hs' : 0 < s) by now apply Rmult_lt_0_compat.
  assert (Dz : is_derive (fun x => zn K2 x T) S (G / s)). { unfold zn. fold g. fold G. fold s. clearbody s G. auto_derive; [trivial|]. Req. unfold Rdiv. ring. }
  assert (DP : is_derive (fun x => Phi (c * zn K2 x T)) S (y * (c * (G / s)))).
  { eapply is_derive_eq; [exact (is_derive_comp_R Phi (fun x => c * zn K2 x T) _ _ _ (is_derive_Phi _) (is_derive_scal_R _ c _ _ Dz))|]. cbv beta. rewrite npdf_c by exact Hc. unfold y. ring. }
  assert (Dy : is_derive (fun x => npdf (zn K2 x T)) S (- z * y * (G / s))).
  { eapply is_derive_eq; [exact (is_derive_comp_R npdf (fun x => zn K2 x T) _ _ _ (is_derive_npdf _) Dz)|]. cbv beta. unfold z, y. ring. }
  assert (Ez : S * G - K = z * s + (K2 - K)). { unfold z, zn. fold g. fold G. fold s. field. lra. }
  assert (EG : exp (- r * T) * G = exp (- q * T)). { unfold G, g. rewrite <- exp_plus. f_equal. ring. }
  split; [|split; [|split; [|split]]].
  - assert (DL : is_derive (fun x => c * (x * G - K)) S (c * G)). { clearbody G. auto_derive; [trivial|Req; ring]. }
    unfold subn. fold g. fold G. fold s. eapply is_derive_eq; [exact (is_derive_scal_R _ (exp (- r * T)) _ _ (is_derive_plus_R _ _ _ _ _ (is_derive_mult_R _ _ _ _ _ DL DP) (is_derive_scal_R _ s _ _ Dy)))|].
    cbv beta. unfold subn1. fold y P s. rewrite <- EG. rewrite Ez. fold P. replace (c * (z * s + (K2 - K)) * (y * (c * (G / s)))) with (c ^ 2 * ((z * s + (K2 - K)) * (y * (G / s)))) by ring. rewrite Hc. field. lra.
  - unfold subn1. fold s. apply (is_derive_ext (fun x => exp (- q * T) * (c * Phi (c * zn K2 x T) + (K2 - K) / s * npdf (zn K2 x T)))); [intros; Req; ring|].
    eapply is_derive_eq; [exact (is_derive_scal_R _ (exp (- q * T)) _ _ (is_derive_plus_R _ _ _ _ _ (is_derive_scal_R _ c _ _ DP) (is_derive_scal_R _ ((K2 - K) / s) _ _ Dy)))|].
    replace (c * (y * (c * (G / s)))) with (c ^ 2 * (y * (G / s))) by ring. rewrite Hc. field. lra.
  - assert (Ds : is_derive (fun t => sg * sqrt t) T (s / (2 * T))). { auto_derive; [exact HT|]. Req. unfold s. replace (2 * T) with (2 * (sqrt T * sqrt T)) by (rewrite ET; ring). field. lra. }
    assert (Dzt : is_derive (fun t => zn K2 S t) T (S * (g * G) / s - z / (2 * T))).
    { unfold zn. fold g. apply (is_derive_ext_loc (fun t => (S * exp (g * t) - K2) * / (sg * sqrt t))); [apply filter_forall; intros; reflexivity|].
      assert (D1 : is_derive (fun t => S * exp (g * t) - K2) T (S * (g * G))). { unfold G. auto_derive; [trivial|]. Req. ring. }
      assert (D2 : is_derive (fun t => / (sg * sqrt t)) T (- (s / (2 * T)) / s ^ 2)). { apply (is_derive_inv (fun t => sg * sqrt t) T (s / (2 * T))); [exact Ds|fold s; lra]. }
      eapply is_derive_eq; [exact (is_derive_mult_R _ _ _ _ _ D1 D2)|]. cbv beta. fold G. fold s. unfold z, zn. fold g. fold G. fold s. field. split; lra. }
    assert (DPt : is_derive (fun t => Phi (c * zn K2 S t)) T (y * (c * (S * (g * G) / s - z / (2 * T))))).
    { eapply is_derive_eq; [exact (is_derive_comp_R Phi (fun t => c * zn K2 S t) _ _ _ (is_derive_Phi _) (is_derive_scal_R _ c _ _ Dzt))|]. cbv beta. rewrite npdf_c by exact Hc. unfold y. ring. }
    assert (Dyt : is_derive (fun t => npdf (zn K2 S t)) T (- z * y * (S * (g * G) / s - z / (2 * T)))).
    { eapply is_derive_eq; [exact (is_derive_comp_R npdf (fun t => zn K2 S t) _ _ _ (is_derive_npdf _) Dzt)|]. cbv beta. unfold z, y. ring. }
    assert (DL : is_derive (fun t => c * (S * exp (g * t) - K)) T (c * (S * (g * G)))). { unfold G. auto_derive; [trivial|Req; ring]. }
    assert (DE : is_derive (fun t => exp (- r * t)) T (- r * exp (- r * T))). { auto_derive; [trivial|Req; ring]. }
    unfold subn. fold g. eapply is_derive_eq; [exact (is_derive_mult_R _ _ _ _ _ DE (is_derive_plus_R _ _ _ _ _ (is_derive_mult_R _ _ _ _ _ DL DPt) (is_derive_mult_R _ _ _ _ _ Ds Dyt)))|].
    cbv beta. fold G s y P. rewrite Ez. replace (c * (z * s + (K2 - K)) * (y * (c * (S * (g * G) / s - z / (2 * T))))) with (c ^ 2 * ((z * s + (K2 - K)) * (y * (S * (g * G) / s - z / (2 * T))))) by ring. rewrite Hc. field. split; lra.
  - assert (EX : (sg * exp (- (g * T))) ^ 2 * (exp (- q * T) * G) = sg ^ 2 * exp (- r * T)). { unfold G. replace ((sg * exp (- (g * T))) ^ 2 * (exp (- q * T) * exp (g * T))) with (sg ^ 2 * (exp (- (g * T)) * exp (- (g * T)) * exp (- q * T) * exp (g * T))) by ring. rewrite <- !exp_plus. f_equal. f_equal. unfold g. ring. }
    replace ((sg * exp (- (g * T))) ^ 2 / 2 * (exp (- q * T) * (G / s * y * (1 - z * ((K2 - K) / s))))) with ((sg * exp (- (g * T))) ^ 2 * (exp (- q * T) * G) / 2 * (y / s * (1 - z * ((K2 - K) / s)))) by (unfold Rdiv; ring). rewrite EX.
    unfold subn1. fold P y s. rewrite <- EG. assert (E2 : sg ^ 2 = s ^ 2 / T) by (unfold s; replace ((sg * sqrt T) ^ 2) with (sg ^ 2 * (sqrt T * sqrt T)) by ring; rewrite ET; field; lra). rewrite E2. unfold subn. fold g. fold G. fold s. fold P. rewrite Ez. fold z y. Req. field. split; lra.
  - intros ->. replace (1 - z * ((K - K) / s)) with 1 by (field; lra). apply Rmult_lt_0_compat; [apply exp_pos|]. rewrite Rmult_1_r. apply Rmult_lt_0_compat; [now apply Rdiv_lt_0_compat|apply npdf_pos].
Qed.
End N.

Lemma is_derive_uniq_R (f : R -> R) (x a b : R) : is_derive f x a -> is_derive f x b -> a = b.
Proof. intros A B. rewrite <- (is_derive_unique _ _ _ A). now apply is_derive_unique. Qed.
Lemma subn_pe sg r q c K K2 : 0 < sg -> c ^ 2 = 1 -> pricing_equation all (fun _ T => sg * exp (- ((r - q) * T))) r q (subn sg r q c K K2).
Proof.
  intros Hs Hc. exists (subn1 sg r q c K K2), (fun S T => Derive (fun s => subn1 sg r q c K K2 s T) S), (fun S T => Derive (fun t => subn sg r q c K K2 S t) T).
  intros S T _ HT. destruct (subn_pde sg r q Hs c K K2 S T Hc HT) as (U2 & Ut & A & B & C & D & _).
  pose proof (is_derive_unique (fun s => subn1 sg r q c K K2 s T) _ _ B) as EB. pose proof (is_derive_unique (fun t => subn sg r q c K K2 S t) _ _ C) as EC.
  cbv beta. rewrite <- EB in B, D. rewrite <- EC in C, D. split; [exact A|]. split; [exact B|]. split; [exact C|exact D].
Qed.
Section N0.
Variables (sg r : R).
Hypothesis Hs : 0 < sg.
Definition refn (B c K K2 S T : R) : R := subn sg r r c K K2 (2 * B - S) T.
Lemma vol0 T : sg * exp (- ((r - r) * T)) = sg.
Proof using. replace (- ((r - r) * T)) with 0 by ring. rewrite exp_0. ring. Qed.
Lemma subn_pe0 c K K2 : c ^ 2 = 1 -> pricing_equation all (fun _ _ => sg) r r (subn sg r r c K K2).
Proof using Hs.
  intros Hc. destruct (subn_pe sg r r c K K2 Hs Hc) as (U1 & U2 & Ut & H). exists U1, U2, Ut. intros S T HS HT. destruct (H S T HS HT) as (A & B & C & D). rewrite vol0 in D. split; [exact A|split; [exact B|split; [exact C|exact D]]].
Qed.
Lemma refn_pe0 B c K K2 : c ^ 2 = 1 -> pricing_equation all (fun _ _ => sg) r r (refn B c K K2).
Proof using Hs.
  intros Hc. destruct (subn_pe0 c K K2 Hc) as (U1 & U2 & Ut & H). exists (fun S T => - U1 (2 * B - S) T), (fun S T => U2 (2 * B - S) T), (fun S T => Ut (2 * B - S) T).
  intros S T HS HT. destruct (H (2 * B - S) T I HT) as (A & A2 & C & D).
  assert (DI : is_derive (fun s => 2 * B - s) S (-1)) by (auto_derive; [trivial|Req; ring]).
  unfold refn. split; [|split; [|split; [exact C|]]].
  - eapply is_derive_eq; [exact (is_derive_comp_R (fun s => subn sg r r c K K2 s T) (fun s => 2 * B - s) _ _ _ A DI)|]. ring.
  - apply (is_derive_ext (fun s => -1 * U1 (2 * B - s) T)); [intros; Req; ring|]. eapply is_derive_eq; [exact (is_derive_scal_R _ (-1) _ _ (is_derive_comp_R (fun s => U1 s T) (fun s => 2 * B - s) _ _ _ A2 DI))|]. ring.
  - rewrite D. ring.
Qed.
Definition knf (same : bool) (cp K B S T : R) : R :=
  if same then subn sg r r cp K K S T + -1 * refn B cp K K S T
  else let b' := cp * Rmax (cp * K) (cp * B) in
    subn sg r r cp K K S T + -1 * (subn sg r r cp K b' S T + (refn B (- cp) K K S T + -1 * refn B (- cp) K b' S T)).
Lemma knf_pde same cp K B : call_or_put cp -> pricing_equation all (fun _ _ => sg) r r (knf same cp K B).
Proof using Hs.
  intros Hcp. assert (C1 : cp ^ 2 = 1) by (destruct Hcp as [->| ->]; ring). assert (C2 : (- cp) ^ 2 = 1) by (rewrite <- C1; ring).
  unfold knf. destruct same.
  - apply (pe_plus all _ r r (subn sg r r cp K K) (fun S T => -1 * refn B cp K K S T)); [now apply subn_pe0|]. apply pe_scal. now apply refn_pe0.
  - cbv zeta. set (b' := cp * Rmax (cp * K) (cp * B)).
    apply (pe_plus all _ r r (subn sg r r cp K K) (fun S T => -1 * (subn sg r r cp K b' S T + (refn B (- cp) K K S T + -1 * refn B (- cp) K b' S T)))); [now apply subn_pe0|].
    apply (pe_scal all _ r r (-1) (fun S T => subn sg r r cp K b' S T + (refn B (- cp) K K S T + -1 * refn B (- cp) K b' S T))).
    apply (pe_plus all _ r r (subn sg r r cp K b') (fun S T => refn B (- cp) K K S T + -1 * refn B (- cp) K b' S T)); [now apply subn_pe0|].
    apply (pe_plus all _ r r (refn B (- cp) K K) (fun S T => -1 * refn B (- cp) K b' S T)); [now apply refn_pe0|]. apply pe_scal. now apply refn_pe0.
Qed.
Lemma subn_parity K K2 S T : subn sg r r 1 K K2 S T - subn sg r r (-1) K K2 S T = exp (- r * T) * (S * exp ((r - r) * T) - K).
Proof using.
  unfold subn. replace (-1 * zn sg r r K2 S T) with (- zn sg r r K2 S T) by ring. rewrite Phi_opp, !Rmult_1_l. ring.
Qed.
Lemma knf_barrier same cp K B T : call_or_put cp -> knf same cp K B B T = 0.
Proof using.
  intros Hcp. assert (E : forall c K2, refn B c K K2 B T = subn sg r r c K K2 B T) by (intros c K2; unfold refn; f_equal; ring).
  unfold knf. destruct same; cbv zeta; rewrite !E; [ring|]. set (b' := cp * Rmax (cp * K) (cp * B)). pose proof (subn_parity K K B T) as P1. pose proof (subn_parity K b' B T) as P2.
  destruct Hcp as [->| ->]; [replace (- (1)) with (-1) by ring; lra|replace (- (-1)) with 1 by ring; lra].
Qed.
Lemma subn_eq0 c K K2 S T : subn sg r r c K K2 S T = exp (- r * T) * (c * (S - K) * Phi (c * ((S - K2) / (sg * sqrt T))) + sg * sqrt T * npdf ((S - K2) / (sg * sqrt T))).
Proof using. unfold subn, zn. replace ((r - r) * T) with 0 by ring. rewrite exp_0, !Rmult_1_r. reflexivity. Qed.
Lemma npdf_part (f : R -> R) : filterlim (fun T => sg * sqrt T * npdf (f T)) (at_right 0) (locally 0).
Proof using Hs.
  assert (N1 : forall x, 0 <= npdf x <= npdf 0).
  { intros x. split; [left; apply npdf_pos|]. unfold npdf. apply Rmult_le_compat_r; [left; apply Rinv_0_lt_compat, sqrt_2PI_pos|]. apply exp_le. nra. }
  apply (filterlim_le_le (F := at_right 0) (fun _ => 0) _ (fun T => sg * npdf 0 * sqrt T) 0).
  - exists (mkposreal 1 Rlt_0_1). intros T _ HT. pose proof (sqrt_lt_R0 T HT). pose proof (N1 (f T)). assert (0 < sg * sqrt T) by now apply Rmult_lt_0_compat. split; [apply Rmult_le_pos; lra|]. replace (sg * npdf 0 * sqrt T) with (sg * sqrt T * npdf 0) by ring. apply Rmult_le_compat_l; lra.
  - apply filterlim_const.
  - assert (C : continuous (fun T => sg * npdf 0 * sqrt T) 0). { apply (continuous_mult (fun _ => sg * npdf 0) sqrt); [apply continuous_const|]. apply continuity_pt_filterlim, continuity_pt_sqrt. lra. }
    apply cont_0 in C. rewrite sqrt_0, Rmult_0_r in C. exact C.
Qed.
Lemma df_part : filterlim (fun T => exp (- r * T)) (at_right 0) (locally 1).
Proof using. assert (C : continuous (fun T => exp (- r * T)) 0) by (apply (ex_derive_continuous (K := R_AbsRing) (V := R_NormedModule) (fun T => exp (- r * T))); auto_derive; trivial). apply cont_0 in C. rewrite Rmult_0_r, exp_0 in C. exact C. Qed.
Lemma subn_lim c K K2 S (v : R) : filterlim (fun T => Phi (c * ((S - K2) / (sg * sqrt T)))) (at_right 0) (locally v) -> at_expiry (subn sg r r c K K2) S (c * (S - K) * v).
Proof using Hs.
  intros H. unfold at_expiry. eapply filterlim_ext; [intros T; symmetry; apply subn_eq0|]. apply (lim_val _ _ (1 * (c * (S - K) * v + 0))); [ring|].
  apply lim_mult_0; [exact df_part|]. apply lim_plus_at0; [now apply lim_scal_at|apply npdf_part].
Qed.
Lemma Pn1 c K2 S : 0 < c * (S - K2) -> filterlim (fun T => Phi (c * ((S - K2) / (sg * sqrt T)))) (at_right 0) (locally 1).
Proof using Hs.
  intros H. apply (filterlim_ext (fun T => Phi ((c * (S - K2) + 0 * T) / (sg * sqrt T)))); [intros T; f_equal; unfold Rdiv; ring|].
  exact (filterlim_comp _ _ _ _ Phi _ _ _ (big_ratio sg Hs (c * (S - K2)) 0 H) Phi_lim_p).
Qed.
Lemma Pn0 c K2 S : c * (S - K2) < 0 -> filterlim (fun T => Phi (c * ((S - K2) / (sg * sqrt T)))) (at_right 0) (locally 0).
Proof using Hs.
  intros H. assert (H' : 0 < - (c * (S - K2))) by lra.
  apply (filterlim_ext (fun T => Phi (- ((- (c * (S - K2)) + 0 * T) / (sg * sqrt T))))); [intros T; f_equal; unfold Rdiv; ring|].
  exact (filterlim_comp _ _ _ _ (fun x => Phi (- x)) _ _ _ (big_ratio sg Hs (- (c * (S - K2))) 0 H') Phi_lim_mb).
Qed.
Lemma subn_out c K K2 S : c * (S - K2) < 0 -> at_expiry (subn sg r r c K K2) S 0.
Proof using Hs. intros H. apply (lim_val _ _ (c * (S - K) * 0)); [ring|]. apply subn_lim. now apply Pn0. Qed.
Lemma subn_payoff c K S : at_expiry (subn sg r r c K K) S (payoff c K S).
Proof using Hs.
  unfold payoff. destruct (Rtotal_order (c * (S - K)) 0) as [L|[E|L]].
  - rewrite Rmax_right by lra. now apply subn_out.
  - rewrite Rmax_left by lra. apply (lim_val _ _ (c * (S - K) * / 2)); [rewrite E; ring|]. apply subn_lim.
    apply (filterlim_ext (fun _ => / 2)); [|apply filterlim_const]. intros T. replace (c * ((S - K) / (sg * sqrt T))) with (c * (S - K) * / (sg * sqrt T)) by (unfold Rdiv; ring). rewrite E, Rmult_0_l. symmetry. exact Phi_0.
  - rewrite Rmax_left by lra. apply (lim_val _ _ (c * (S - K) * 1)); [ring|]. apply subn_lim. now apply Pn1.
Qed.
Lemma knf_expiry_same cp K B S : at_expiry (knf true cp K B) S (payoff cp K S - payoff cp K (2 * B - S)).
Proof using Hs.
  unfold knf, at_expiry. apply (lim_val _ _ (payoff cp K S + -1 * payoff cp K (2 * B - S))); [ring|].
  apply lim_plus_at0; [apply subn_payoff|]. apply lim_scal_at. apply subn_payoff.
Qed.
Lemma knf_expiry cp side K B S : call_or_put cp -> call_or_put side -> alive side B S -> (side = cp -> cp * B <= cp * K) ->
  at_expiry (knf (if Req_EM_T side cp then true else false) cp K B) S (payoff cp K S).
Proof using Hs.
  intros Hcp Hsd Ha Hreg. unfold alive in Ha. destruct (Req_EM_T side cp) as [E|N].
  - specialize (Hreg E). subst side. assert (Z : payoff cp K (2 * B - S) = 0) by (unfold payoff; apply Rmax_right; lra).
    pose proof (knf_expiry_same cp K B S) as L. rewrite Z, Rminus_0_r in L. exact L.
  - assert (Es : side = - cp) by (destruct Hcp as [->| ->], Hsd as [->| ->]; lra). subst side. clear N Hreg.
    unfold knf. cbv zeta. destruct (Rle_dec (cp * B) (cp * K)) as [L|L].
    + replace (cp * Rmax (cp * K) (cp * B)) with K by (rewrite Rmax_left by lra; destruct Hcp as [->| ->]; ring).
      assert (Z : payoff cp K S = 0) by (unfold payoff; apply Rmax_right; lra). rewrite Z. unfold at_expiry.
      eapply filterlim_ext; [|apply filterlim_const]. intros T. cbv beta. ring.
    + replace (cp * Rmax (cp * K) (cp * B)) with B by (rewrite Rmax_right by lra; destruct Hcp as [->| ->]; ring).
      unfold at_expiry. apply (lim_val _ _ (payoff cp K S + -1 * (0 + (0 + -1 * 0)))); [ring|].
      apply lim_plus_at0; [apply subn_payoff|]. apply lim_scal_at. apply lim_plus_at0; [apply subn_out; lra|]. apply lim_plus_at0; [|apply lim_scal_at]; apply subn_out; lra.
Qed.
End N0.
Lemma subn_code m K K2 S T c : is_fwd m = false -> eps <= sigma m * sqrt T -> norm_price_suboptimal m K S T c K2 = subn (sigma m) (intr m) (divr m) c K K2 S T.
Proof.
  intros Hf He. unfold norm_price_suboptimal, fwd_df_divf. rewrite Hf. cbv zeta iota beta. rewrite sigma_std_big by exact He. unfold subn, zn.
  replace (S * exp (- divr m * T) / exp (- intr m * T)) with (S * exp ((intr m - divr m) * T)); [ring|]. unfold Rdiv. rewrite <- exp_Ropp, Rmult_assoc, <- exp_plus. f_equal. f_equal. ring.
Qed.
Lemma subn_codef m K K2 S T c : is_fwd m = true -> eps <= sigma m * sqrt T -> norm_price_suboptimal m K S T c K2 = subn (sigma m) (intr m) (intr m) c K K2 S T.
Proof.
  intros Hf He. unfold norm_price_suboptimal, fwd_df_divf. rewrite Hf. cbv zeta iota beta. rewrite sigma_std_big by exact He. rewrite subn_eq0. ring.
Qed.
Lemma knf_code m K B S T cp side : is_fwd m = true \/ intr m = divr m -> call_or_put cp -> call_or_put side -> alive side B S -> eps <= sigma m * sqrt T ->
  norm_price_barrier m K B S T cp (-1) = knf (sigma m) (intr m) (if Req_EM_T side cp then true else false) cp K B S T.
Proof.
  intros Hf Hcp Hsd Ha He. unfold alive in Ha.
  assert (SC : forall c K2 x, norm_price_suboptimal m K x T c K2 = subn (sigma m) (intr m) (intr m) c K K2 x T).
  { intros c K2 x. destruct (is_fwd m) eqn:F; [now apply subn_codef|]. destruct Hf as [Hf|Hf]; [discriminate|]. rewrite subn_code by assumption. now rewrite <- Hf. }
  unfold norm_price_barrier, price_barrier, norm_barrier_params. cbv zeta iota beta. destruct (Rlt_dec 0 (-1)) as [X|_]; [lra|].
  assert (ES : (if Rlt_dec B S then 1 else -1) = side) by (destruct (Rlt_dec B S); destruct Hsd as [->| ->]; lra). rewrite ES.
  unfold knf, refn. cbv zeta. destruct (Req_EM_T side cp) as [->|N].
  - assert (C1 : cp * cp = 1) by (destruct Hcp as [->| ->]; ring). rewrite C1. destruct (Rlt_dec 0 1) as [_|X]; [|lra]. rewrite !SC. replace (1 * cp) with cp by ring. ring.
  - assert (E1 : side * cp = -1) by (destruct Hcp as [->| ->], Hsd as [->| ->]; lra). rewrite E1. destruct (Rlt_dec 0 (-1)) as [X|_]; [lra|]. replace (-1 * cp) with (- cp) by ring. rewrite !SC. ring.
Qed.
(** with drift the reflected term does not solve the pricing equation of the vanilla price *)
Lemma norm_drift_bad m K B : is_fwd m = false -> 0 < sigma m -> intr m <> divr m -> B <> 0 ->
  ~ exists vol V U,
    (forall S T, eps <= sigma m * sqrt T -> norm_price m K S T 1 = V S T) /\
    (forall S T, alive 1 B S -> eps <= sigma m * sqrt T -> norm_price_barrier m K B S T 1 (-1) = U S T) /\
    pricing_equation (alive 1 B) vol (intr m) (divr m) V /\ pricing_equation (alive 1 B) vol (intr m) (divr m) U.
Proof.
  intros Hf Hs Hd HB (vol & V & U & EV & EU & PV & PU).
  set (r := intr m) in *. set (q := divr m) in *. set (sg := sigma m) in *. set (T := (2 / sg) ^ 2). set (S := B + 1).
  assert (P2 : 0 < 2 / sg) by (apply Rdiv_lt_0_compat; lra). assert (HT : 0 < T) by (apply pow_lt; exact P2).
  assert (Sq : forall t, T / 2 < t -> eps <= sg * sqrt t).
  { intros t Ht. apply Rle_trans with 1; [unfold eps; rewrite <- Rinv_1; apply Rinv_le_contravar; [lra|apply pow_R1_Rle; lra]|]. assert (L : / sg <= sqrt t).
    { apply Rle_trans with (sqrt ((/ sg) ^ 2)); [rewrite sqrt_pow2; [lra|left; now apply Rinv_0_lt_compat]|]. apply sqrt_le_1_alt. unfold T in Ht. unfold Rdiv in Ht. replace ((2 * / sg) ^ 2 * / 2) with (2 * (/ sg) ^ 2) in Ht by (field; lra). assert (0 < (/ sg) ^ 2) by (apply pow_lt; now apply Rinv_0_lt_compat). lra. }
    replace 1 with (sg * / sg) by (field; lra). apply Rmult_le_compat_l; lra. }
  assert (EV' : forall s t, T / 2 < t -> V s t = subn sg r q 1 K K s t).
  { intros s t Ht. rewrite <- EV by now apply Sq. rewrite <- norm_suboptimal_vanilla by now apply Sq. apply subn_code; [exact Hf|now apply Sq]. }
  assert (EU' : forall s t, B < s -> T / 2 < t -> U s t = subn sg r q 1 K K s t - subn sg r q 1 K K (2 * B - s) t).
  { intros s t Hs' Ht. rewrite <- EU; [|unfold alive; lra|now apply Sq]. unfold norm_price_barrier, price_barrier, norm_barrier_params. cbv zeta iota beta.
    destruct (Rlt_dec 0 (-1)); [lra|]. destruct (Rlt_dec B s); [|lra]. rewrite !Rmult_1_l. destruct (Rlt_dec 0 1); [|lra]. rewrite !subn_code by (first [exact Hf|now apply Sq]). unfold sg, r, q. ring. }
  destruct PV as (V1 & V2 & Vt & PV). destruct PU as (U1 & U2 & Ut & PU).
  (* the derivatives of the closed form *)
  assert (C1 : (1 : R) ^ 2 = 1) by ring.
  destruct (subn_pde sg r q Hs 1 K K S T C1 HT) as (a2 & at_ & A1 & A2 & A3 & A4 & A5).
  destruct (subn_pde sg r q Hs 1 K K (2 * B - S) T C1 HT) as (b2 & bt & B1 & B2 & B3 & B4 & _).
  assert (HS : alive 1 B S) by (unfold alive, S; lra). assert (HTl : T / 2 < T) by lra.
  assert (LS : locally S (fun s => B < s)) by (apply (open_gt B S); unfold S; lra).
  assert (LT : locally T (fun t => T / 2 < t)) by (apply (open_gt (T / 2) T); lra).
  assert (HV1 : forall s, B < s -> V1 s T = subn1 sg r q 1 K K s T).
  { intros s Hs'. assert (Ha : alive 1 B s) by (unfold alive; lra). destruct (PV s T Ha HT) as (D1 & _). destruct (subn_pde sg r q Hs 1 K K s T C1 HT) as (x2 & xt & X1 & _).
    apply (is_derive_uniq_R (fun s => subn sg r q 1 K K s T) s); [|exact X1]. eapply is_derive_ext; [|exact D1]. intros x. cbv beta. now apply EV'. }
  assert (HU1 : forall s, B < s -> U1 s T = subn1 sg r q 1 K K s T + subn1 sg r q 1 K K (2 * B - s) T).
  { intros s Hs'. assert (Ha : alive 1 B s) by (unfold alive; lra). destruct (PU s T Ha HT) as (D1 & _). destruct (subn_pde sg r q Hs 1 K K s T C1 HT) as (x2 & xt & X1 & _). destruct (subn_pde sg r q Hs 1 K K (2 * B - s) T C1 HT) as (y2 & yt & Y1 & _).
    assert (DI : is_derive (fun s => 2 * B - s) s (-1)) by (auto_derive; [trivial|Req; ring]).
    apply (is_derive_uniq_R (fun s => subn sg r q 1 K K s T - subn sg r q 1 K K (2 * B - s) T) s).
    - eapply is_derive_ext_loc; [|exact D1]. apply (filter_imp (fun x => B < x)); [|exact (open_gt B s Hs')]. intros x Hx. now apply EU'.
    - eapply is_derive_eq; [exact (is_derive_minus_R _ _ _ _ _ X1 (is_derive_comp_R (fun s => subn sg r q 1 K K s T) (fun s => 2 * B - s) _ _ _ Y1 DI))|]. ring. }
  destruct (PV S T HS HT) as (_ & D2 & D3 & D4). destruct (PU S T HS HT) as (_ & E2 & E3 & E4).
  assert (HSB : B < S) by (unfold S; lra). assert (DI : is_derive (fun s => 2 * B - s) S (-1)) by (auto_derive; [trivial|Req; ring]).
  assert (X2 : V2 S T = a2). { apply (is_derive_uniq_R (fun s => subn1 sg r q 1 K K s T) S); [|exact A2]. eapply is_derive_ext_loc; [|exact D2]. eapply filter_imp; [|exact LS]. intros s Hs'. now apply HV1. }
  assert (Xt : Vt S T = at_). { apply (is_derive_uniq_R (fun t => subn sg r q 1 K K S t) T); [|exact A3]. eapply is_derive_ext_loc; [|exact D3]. eapply filter_imp; [|exact LT]. intros s Hs'. now apply EV'. }
  assert (Y2 : U2 S T = a2 - b2). { apply (is_derive_uniq_R (fun s => subn1 sg r q 1 K K s T + subn1 sg r q 1 K K (2 * B - s) T) S).
    - eapply is_derive_ext_loc; [|exact E2]. eapply filter_imp; [|exact LS]. intros s Hs'. now apply HU1.
    - eapply is_derive_eq; [exact (is_derive_plus_R _ _ _ _ _ A2 (is_derive_comp_R (fun s => subn1 sg r q 1 K K s T) (fun s => 2 * B - s) _ _ _ B2 DI))|]. ring. }
  assert (Yt : Ut S T = at_ - bt). { apply (is_derive_uniq_R (fun t => subn sg r q 1 K K S t - subn sg r q 1 K K (2 * B - S) t) T).
    - eapply is_derive_ext_loc; [|exact E3]. eapply filter_imp; [|exact LT]. intros s Hs'. now apply EU'.
    - exact (is_derive_minus_R _ _ _ _ _ A3 B3). }
  rewrite X2, Xt, HV1, EV' in D4 by assumption. rewrite Y2, Yt, HU1, EU' in E4 by assumption. specialize (A5 eq_refl).
  set (w := (sg * exp (- ((r - q) * T))) ^ 2 / 2) in *. set (w' := vol S T ^ 2 / 2) in *.
  assert (W : w' = w) by nra. rewrite W in E4.
  assert (P1 : 0 < subn1 sg r q 1 K K (2 * B - S) T). { unfold subn1. replace ((K - K) / (sg * sqrt T)) with 0 by (unfold Rdiv; ring). rewrite Rmult_0_r, Rplus_0_r, Rmult_1_l. apply Rmult_lt_0_compat; [apply exp_pos|apply Phi_pos]. }
  assert (Z : (r - q) * B * subn1 sg r q 1 K K (2 * B - S) T = 0) by lra.
  apply Rmult_integral in Z. destruct Z as [Z|Z]; [|lra]. apply Rmult_integral in Z. destruct Z as [Z|Z]; [apply Hd; clear - Z; lra|contradiction].
Qed.
