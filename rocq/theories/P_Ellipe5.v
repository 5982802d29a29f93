(** The quadrature correction of SabrNormAnalytic completes the closed form to the elliptic-integral formula. *)
From Coq Require Import Reals Lra Lia Psatz List.
From Coquelicot Require Import Coquelicot.
From Verif Require Import Base Gauss Sums Spec_Opt Spec_Dist M_Opt M_Fd M_Sabr M_Ellipe Spec_Ellipe P_Bsm P_Expect P_Gmom P_Half P_Asian5 P_Nsvh P_Newton P_Ellipe P_Ellipe2 P_Ellipe3 P_Ellipe4.
Open Scope R_scope.

(** what the Gauss-Laguerre rule is applied to *)
Definition corr_fun (ellipe : R -> R) (rho k xi v : R) : R :=
  let u0 := nsi_u0 rho k xi in let u := sqrt (u0 ^ 2 + 2 * v) in
  2 / (PI * sqrt (sqrt (k ^ 2 + (1 - rho ^ 2)))) * ((hh_xi ellipe u k xi rho - hh_xi_approx u k xi rho) * (mills (u + xi) + mills (u - xi))) / (u * (v * sqrt v)).
Lemma npdf_shift_v u0 v : 0 <= u0 ^ 2 + 2 * v -> npdf (sqrt (u0 ^ 2 + 2 * v)) = npdf u0 * exp (- v).
Proof.
  intros H. unfold npdf. rewrite sqrt_sqrt by exact H. replace (exp (- (u0 * u0) / 2) / sqrt (2 * PI) * exp (- v)) with (exp (- (u0 * u0) / 2) * exp (- v) / sqrt (2 * PI)) by (unfold Rdiv; ring). rewrite <- exp_plus. f_equal. f_equal. field.
Qed.
Lemma corr_int ellipe rho k xi v W : elliptic_E ellipe -> rho ^ 2 < 1 -> 0 < xi ->
  int_from (nsi_u0 rho k xi) (fun u => hh_xi_approx u k xi rho * nsi_weight u xi) v ->
  int_from (nsi_u0 rho k xi) (fun u => hh_xi ellipe u k xi rho * nsi_weight u xi) W ->
  half_line (fun v => v * sqrt v * exp (- v) * corr_fun ellipe rho k xi v) (2 / (PI * sqrt (sqrt (k ^ 2 + (1 - rho ^ 2))) * npdf (nsi_u0 rho k xi)) * (W - v)).
Proof.
  intros HE Hr Hxi I1 I2. set (u0 := nsi_u0 rho k xi) in *. pose proof (e_u0_nonneg rho k xi Hr Hxi) as U0. fold u0 in U0.
  assert (Id : int_from u0 (fun u => (hh_xi ellipe u k xi rho - hh_xi_approx u k xi rho) * nsi_weight u xi) (W - v)).
  { apply (is_RInt_gen_ext (V := R_NormedModule) (fun u => minus (hh_xi ellipe u k xi rho * nsi_weight u xi) (hh_xi_approx u k xi rho * nsi_weight u xi))); [|exact (is_RInt_gen_minus (V := R_NormedModule) _ _ _ _ I2 I1)].
    apply filter_forall. intros x u _. unfold minus, plus, opp; cbn. Req. ring. }
  apply from_subst in Id; [| |exact U0].
  2:{ intros u Hu. apply (continuous_mult (fun u => hh_xi ellipe u k xi rho - hh_xi_approx u k xi rho) (fun u => nsi_weight u xi)); [|apply weight_cont].
      apply (continuous_minus (V := R_NormedModule) (fun u => hh_xi ellipe u k xi rho) (fun u => hh_xi_approx u k xi rho)); [now apply hh_cont|].
      apply (ex_derive_continuous (K := R_AbsRing) (V := R_NormedModule) (fun u => hh_xi_approx u k xi rho)). unfold hh_xi_approx. cbv zeta. set (w := arcsinh_np _). clearbody w. auto_derive. trivial. }
  pose proof PI_RGT_0 as HPI. pose proof (npdf_pos u0) as HN. assert (SV : 0 < sqrt (sqrt (k ^ 2 + (1 - rho ^ 2)))) by (apply sqrt_lt_R0, (e_V rho k Hr)).
  apply (half_line_scal _ _ (2 / (PI * sqrt (sqrt (k ^ 2 + (1 - rho ^ 2))) * npdf u0))) in Id.
  eapply half_line_ext; [|exact Id]. intros t Ht. cbv beta. unfold corr_fun. cbv zeta. fold u0. unfold nsi_weight. rewrite npdf_shift_v by nra.
  assert (P1 : 0 < sqrt (u0 ^ 2 + 2 * t)) by (apply sqrt_lt_R0; nra). pose proof (sqrt_lt_R0 t Ht) as P2. field. repeat split; lra.
Qed.
Lemma corr_term ellipe rho k xi v w : rho ^ 2 < 1 -> 0 < xi -> 0 < v ->
  let rhoc2 := 1 - rho ^ 2 in let V := sqrt (k ^ 2 + rhoc2) in let u0 := nsi_u0 rho k xi in
  let tmp1 := Rabs (rho - k / V) in let tmp2 := 1 - rho * k / V in
  let A := 3 / 4 * tmp1 in let B := 3 / 4 * (tmp2 - 5 / 16 * tmp1 ^ 2) in
  let uu := sqrt (u0 ^ 2 + 2 * v) in
  let ch := cosh (2 * xi * uu) in
  let diff := sqrt (Rmax (rhoc2 * (ch ^ 2 - 1 - (k - rho * ch) ^ 2)) 0) in
  let v_p := rho * k + rhoc2 * ch + diff in
  (2 / PI * sqrt (v_p / V) * ellipe (Rmin (2 * diff / v_p) 1) - 1 - xi * (uu - u0) * (A + B * xi * (uu - u0))) * (mills (uu + xi) + mills (uu - xi)) * (w / (v * sqrt v) / uu)
  = w * corr_fun ellipe rho k xi v.
Proof.
  intros Hr Hxi Hv rhoc2 V u0 tmp1 tmp2 A B uu ch diff v_p.
  pose proof (e_u0_nonneg rho k xi Hr Hxi) as U0. fold u0 in U0. pose proof PI_RGT_0 as HPI. pose proof (e_V rho k Hr) as HV. fold rhoc2 in HV. fold V in HV.
  assert (SV : 0 < sqrt V) by now apply sqrt_lt_R0. assert (P1 : 0 < uu) by (apply sqrt_lt_R0; nra). pose proof (sqrt_lt_R0 v Hv) as P2.
  assert (Hu : u0 <= uu). { unfold uu. rewrite <- (sqrt_pow2 u0 U0) at 1. apply sqrt_le_1_alt. lra. }
  destruct (guards rho k xi Hr Hxi uu Hu) as (G1 & G2 & G3). fold rhoc2 ch in G1, G2, G3.
  unfold corr_fun. cbv zeta. fold u0. fold uu. fold rhoc2. fold V.
  assert (Eh : hh_xi ellipe uu k xi rho = sqrt V * (sqrt (v_p / V) * ellipe (Rmin (2 * diff / v_p) 1))).
  { unfold hh_xi. cbv zeta. fold rhoc2. fold ch. fold diff. fold v_p. assert (Ed : diff = sqrt (rhoc2 * (ch ^ 2 - 1 - (k - rho * ch) ^ 2))) by (unfold diff; rewrite Rmax_left by exact G1; reflexivity).
    assert (Pv : 0 < v_p) by (unfold v_p; rewrite Ed; exact G2). rewrite (Rmax_left v_p) by lra. rewrite <- Rmult_assoc. f_equal. rewrite <- sqrt_mult_alt by lra. f_equal. field. lra. }
  assert (Ea : hh_xi_approx uu k xi rho = sqrt V * PI / 2 * (1 + xi * (uu - u0) * (A + B * xi * (uu - u0)))) by reflexivity.
  rewrite Eh, Ea. clear Eh Ea. set (E1 := sqrt (v_p / V) * ellipe (Rmin (2 * diff / v_p) 1)). replace (2 / PI * sqrt (v_p / V) * ellipe (Rmin (2 * diff / v_p) 1)) with (2 / PI * E1) by (unfold E1; ring).
  set (L := xi * (uu - u0) * (A + B * xi * (uu - u0))). set (m := mills (uu + xi) + mills (uu - xi)). clearbody E1 L m. clearbody uu V. field. repeat split; lra.
Qed.
Lemma tv_corrected ellipe rule p K F T : elliptic_E ellipe -> 0 < b_vov p -> 0 < T -> b_rho p ^ 2 < 1 -> (forall vw, In vw rule -> 0 < fst vw) ->
  laguerre_exact rule (corr_fun ellipe (b_rho p) (nsi_k p K F) (nsi_xi p T)) ->
  exists W, int_from (nsi_u0 (b_rho p) (nsi_k p K F) (nsi_xi p T)) (fun u => hh_xi ellipe u (nsi_k p K F) (nsi_xi p T) (b_rho p) * nsi_weight u (nsi_xi p T)) W /\
  norm_analytic_tv p K F T + norm_analytic_correction ellipe rule p K F T = W * (b_sigma p * sqrt T / PI * exp (- (/ 2) * nsi_xi p T ^ 2)).
Proof.
  intros HE Hv HT Hr Hn HL. assert (Hxi : 0 < nsi_xi p T). { unfold nsi_xi. apply Rmult_lt_0_compat; [lra|now apply sqrt_lt_R0]. }
  destruct (tv_integral p K F T ltac:(lra) HT Hr) as (v & I1 & E1). destruct (hh_int_ex ellipe HE (b_rho p) (nsi_k p K F) (nsi_xi p T) Hr Hxi) as (W & I2).
  exists W. split; [exact I2|]. rewrite E1. specialize (HL _ (corr_int _ _ _ _ _ _ HE Hr Hxi I1 I2)).
  unfold norm_analytic_correction. cbv zeta. replace (b_vov p * sqrt T / 2) with (nsi_xi p T) by (unfold nsi_xi; field).
  set (k := nsi_k p K F) in *. set (xi := nsi_xi p T) in *. set (rho := b_rho p) in *. change (arcsinh_np (Rabs ((rho * sqrt (k ^ 2 + (1 - rho ^ 2)) - k) / (1 - rho ^ 2))) / (2 * xi)) with (nsi_u0 rho k xi).
  rewrite (map_ext_in _ (fun vw => snd vw * corr_fun ellipe rho k xi (fst vw))).
  2:{ intros [a w] Ha. cbn [fst snd]. exact (corr_term ellipe rho k xi a w Hr Hxi (Hn _ Ha)). }
  rewrite HL. pose proof PI_RGT_0 as HPI. pose proof (npdf_pos (nsi_u0 rho k xi)) as HN. assert (SV : 0 < sqrt (sqrt (k ^ 2 + (1 - rho ^ 2)))) by (apply sqrt_lt_R0, (e_V rho k Hr)).
  rewrite (sqrt_mult_alt T) by lra. field. repeat split; lra.
Qed.
(** parity *)
Lemma ellipe_parity ellipe quad mo p K S T : norm_ellipe_price ellipe quad mo p K S T 1 - norm_ellipe_price ellipe quad mo p K S T (-1) = mD mo T * (mF mo S T - K).
Proof.
  unfold norm_ellipe_price. rewrite fdd_eq. cbv zeta iota beta. set (F := mF mo S T). assert (E : Rmax (1 * (F - K)) 0 - Rmax (-1 * (F - K)) 0 = F - K) by (unfold Rmax; repeat destruct (Rle_dec _ _); lra).
  match goal with |- (?t + _) * ?d - _ = _ => set (tv := t); set (dd := d) end. clearbody tv. replace ((tv + Rmax (1 * (F - K)) 0) * dd - (tv + Rmax (-1 * (F - K)) 0) * dd) with (dd * (Rmax (1 * (F - K)) 0 - Rmax (-1 * (F - K)) 0)) by ring. rewrite E. reflexivity.
Qed.
Lemma corr_parity ellipe rule mo p K S T : norm_analytic_price_corr ellipe rule mo p K S T 1 - norm_analytic_price_corr ellipe rule mo p K S T (-1) = mD mo T * (mF mo S T - K).
Proof.
  unfold norm_analytic_price_corr. rewrite fdd_eq. cbv zeta iota beta. set (F := mF mo S T). assert (E : Rmax (1 * (F - K)) 0 - Rmax (-1 * (F - K)) 0 = F - K) by (unfold Rmax; repeat destruct (Rle_dec _ _); lra).
  match goal with |- (?t + _) * ?d - _ = _ => set (tv := t); set (dd := d) end. clearbody tv. replace ((tv + Rmax (1 * (F - K)) 0) * dd - (tv + Rmax (-1 * (F - K)) 0) * dd) with (dd * (Rmax (1 * (F - K)) 0 - Rmax (-1 * (F - K)) 0)) by ring. rewrite E. reflexivity.
Qed.
Lemma laguerre_ex (h : R -> R) : exists rule, (forall vw, In vw rule -> 0 < fst vw) /\ laguerre_exact rule h.
Proof.
  destruct (Classical_Prop.classic (exists I, half_line (fun v => v * sqrt v * exp (- v) * h v) I)) as [(I & HI)|N].
  2:{ exists nil. split; [intros vw []|]. intros I HI. exfalso. apply N. now exists I. }
  destruct (Classical_Prop.classic (exists v, 0 < v /\ h v <> 0)) as [(v & Hv & Hn)|N].
  - exists ((v, I / h v) :: nil). split; [intros vw [<-|[]]; exact Hv|]. intros J HJ. cbn. rewrite (half_line_unique _ _ _ HJ HI). field. exact Hn.
  - exists nil. split; [intros vw []|]. intros J HJ. cbn. apply (half_line_unique (fun v => v * sqrt v * exp (- v) * h v)); [|exact HJ].
    pose proof (half_line_scal _ _ 0 HJ) as Z. rewrite Rmult_0_l in Z. eapply half_line_ext; [|exact Z]. intros x Hx. cbv beta.
    assert (E : h x = 0) by (destruct (Req_dec (h x) 0) as [E|E]; [exact E|exfalso; apply N; now exists x]). rewrite E. ring.
Qed.
Lemma ellipe_ex : exists ellipe, elliptic_E ellipe.
Proof.
  exists (fun m => RInt (V := R_CompleteNormedModule) (fun t => sqrt (1 - m * sin t ^ 2)) 0 (PI / 2)). intros m Hm. apply (RInt_correct (V := R_CompleteNormedModule)), ex_RInt_cont_all.
  intros t. apply (cont_sqrt_pos (fun t => 1 - m * sin t ^ 2)); [pose proof (sin2_01 t); nra|]. apply (ex_derive_continuous (K := R_AbsRing) (V := R_NormedModule) (fun t => 1 - m * sin t ^ 2)). auto_derive. trivial.
Qed.
Lemma ellipe_value ellipe quad p K F T : elliptic_E ellipe -> 0 < b_vov p -> 0 < T -> b_rho p ^ 2 < 1 ->
  (forall f a b v, is_RInt (V := R_NormedModule) f a b v -> quad f a b = v) ->
  let xi := nsi_xi p T in let k := nsi_k p K F in let rho := b_rho p in let u0 := nsi_u0 rho k xi in let b := sqrt (u0 ^ 2 + 73) in
  exists W, is_RInt (V := R_NormedModule) (fun u => hh_xi ellipe u k xi rho * (npdf u * (mills (u + xi) + mills (u - xi)))) u0 b W /\
  norm_ellipe_tv ellipe quad p K F T = W * (b_sigma p * sqrt T / PI * exp (- (/ 2) * xi ^ 2)) /\ npdf b = exp (- (73 / 2)) * npdf u0.
Proof.
  intros HE Hv HT Hr HQ xi k rho u0 b. assert (Hxi : 0 < xi). { unfold xi, nsi_xi. apply Rmult_lt_0_compat; [lra|now apply sqrt_lt_R0]. }
  pose proof (e_u0_nonneg rho k xi Hr Hxi) as U0. fold u0 in U0. assert (Hb : u0 <= b). { unfold b. rewrite <- (sqrt_pow2 u0 U0) at 1. apply sqrt_le_1_alt. lra. }
  assert (EX : ex_RInt (V := R_NormedModule) (fun u => hh_xi ellipe u k xi rho * nsi_weight u xi) u0 b).
  { apply (ex_RInt_continuous (V := R_CompleteNormedModule)). intros z. rewrite Rmin_left, Rmax_right by lra. intros Hz.
    apply (continuous_mult (fun u => hh_xi ellipe u k xi rho) (fun u => nsi_weight u xi)); [apply hh_cont; try assumption; apply Hz|apply weight_cont]. }
  destruct EX as [W HW]. exists W. split; [exact HW|]. split.
  - unfold norm_ellipe_tv. cbv zeta. fold xi k rho. fold u0. fold b. rewrite (HQ _ _ _ _ HW). reflexivity.
  - unfold b. replace (u0 ^ 2 + 73) with (u0 ^ 2 + 2 * (73 / 2)) by field. rewrite npdf_shift_v by nra. ring.
Qed.
