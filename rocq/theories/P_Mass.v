(** Implied volatility and put price from the mass at zero: the put per unit of strike tends to the mass as the strike goes to 0. *)
From Coq Require Import Reals Lra Lia Psatz.
From Coquelicot Require Import Coquelicot.
From Verif Require Import Base Gauss Spec_Opt M_Opt P_Bsm P_Black P_Newton P_Gmom2 P_Cev5 P_Cev7 P_Gamma2 P_Barrier M_Heston M_Cev.
Open Scope R_scope.
Definition Mr (x : R) : R := Phi (- x) / npdf x.
Lemma Mr_gn x : Mr x = gn 0 (- x). Proof. unfold Mr. cbn [gn]. now rewrite npdf_even. Qed.
Lemma Mr_bounds x : 0 < x -> 0 < Mr x /\ / x - / x ^ 3 <= Mr x <= / x.
Proof.
  intros Hx. pose proof (gn_pos 0 (- x)) as P0. pose proof (gn_pos 1 (- x)) as P1. pose proof (gn_pos 2 (- x)) as P2. rewrite gn_SS in P2. rewrite gn_1 in P1, P2. rewrite <- Mr_gn in *. cbn [INR] in P2. set (M := Mr x) in *. clearbody M.
  assert (P3 : 0 < x ^ 3) by (apply pow_lt; lra). split; [exact P0|]. split.
  - apply Rmult_le_reg_r with (x ^ 3); [exact P3|]. replace ((/ x - / x ^ 3) * x ^ 3) with (x ^ 2 - 1) by (field; lra). nra.
  - apply Rmult_le_reg_r with x; [exact Hx|]. rewrite Rinv_l by lra. lra.
Qed.
Lemma mvt0 (f df : R -> R) (C : R) n : 0 <= C -> (forall s, is_derive f s (df s)) -> f 0 = 0 -> (forall s, Rabs (df s) <= C * Rabs s ^ n) -> forall w, Rabs (f w) <= C * Rabs w ^ S n.
Proof.
  intros HC D F0 B w. assert (K : exists c, Rabs c <= Rabs w /\ Rabs (f w) = Rabs (df c) * Rabs w).
  { destruct (Rtotal_order w 0) as [L|[->|L]].
    - destruct (MVT_R f df w 0 L (fun z _ => D z)) as (c & Hc & E). exists c. split; [rewrite !Rabs_left1; lra|]. rewrite F0 in E. replace (f w) with (df c * w) by lra. now rewrite Rabs_mult.
    - exists 0. split; [lra|]. rewrite F0, Rabs_R0. ring.
    - destruct (MVT_R f df 0 w L (fun z _ => D z)) as (c & Hc & E). exists c. split; [rewrite !Rabs_right; lra|]. rewrite F0 in E. replace (f w) with (df c * w) by lra. now rewrite Rabs_mult. }
  destruct K as (c & Hc & ->). cbn [pow]. rewrite (Rmult_comm (Rabs w)), <- Rmult_assoc. apply Rmult_le_compat_r; [apply Rabs_pos|]. eapply Rle_trans; [apply B|]. apply Rmult_le_compat_l; [exact HC|]. apply pow_incr. split; [apply Rabs_pos|exact Hc].
Qed.
Lemma x2npdf x : 0 <= x ^ 2 * npdf x <= 2.
Proof.
  pose proof (npdf_pos x) as P. split; [apply Rmult_le_pos; [apply pow2_ge_0|lra]|]. unfold npdf.
  pose proof (exp_ineq1_le (x * x / 2)) as H. assert (E : exp (- (x * x) / 2) * exp (x * x / 2) = 1) by (rewrite <- exp_plus; replace (- (x * x) / 2 + x * x / 2) with 0 by field; apply exp_0).
  pose proof (exp_pos (- (x * x) / 2)) as He. assert (B : x ^ 2 * exp (- (x * x) / 2) <= 2) by nra.
  assert (S1 : 1 <= sqrt (2 * PI)). { rewrite <- sqrt_1. apply sqrt_le_1_alt. pose proof PI2_1. lra. }
  assert (I1 : 0 < / sqrt (2 * PI) <= 1). { split; [apply Rinv_0_lt_compat; lra|]. rewrite <- Rinv_1. apply Rinv_le_contravar; lra. }
  unfold Rdiv at 1. rewrite <- Rmult_assoc. assert (0 <= x ^ 2 * exp (- (x * x) / 2)) by (apply Rmult_le_pos; [apply pow2_ge_0|lra]). nra.
Qed.
Section Q.
Variable q : R.
Let ph := npdf q.
Lemma tay_npdf w : Rabs (npdf (q + w) - ph + q * ph * w) <= 3 * Rabs w ^ 2.
Proof using.
  assert (D1 : forall s, is_derive (fun s => npdf (q + s)) s (- (q + s) * npdf (q + s))).
  { intros s. eapply is_derive_eq; [exact (is_derive_comp_R npdf (fun s => q + s) s _ 1 (is_derive_npdf _) ltac:(auto_derive; [trivial|Req; ring]))|]. ring. }
  apply (mvt0 (fun w => npdf (q + w) - ph + q * ph * w) (fun w => - (q + w) * npdf (q + w) + q * ph) 3 1); [lra| | |].
  - intros s. assert (D2 : is_derive (fun s => - ph + q * ph * s) s (q * ph)) by (auto_derive; [trivial|Req; ring]).
    apply (is_derive_ext (fun w => npdf (q + w) + (- ph + q * ph * w))); [intros; Req; ring|]. exact (is_derive_plus_R _ _ _ _ _ (D1 s) D2).
  - unfold ph. rewrite Rplus_0_r. ring.
  - apply (mvt0 (fun w => - (q + w) * npdf (q + w) + q * ph) (fun w => ((q + w) ^ 2 - 1) * npdf (q + w)) 3 0); [lra| | |].
    + intros s. assert (D3 : is_derive (fun w => - (q + w)) s (-1)) by (auto_derive; [trivial|Req; ring]). assert (D4 : is_derive (fun _ : R => q * ph) s 0) by apply is_derive_const_R.
      eapply is_derive_eq; [exact (is_derive_plus_R _ _ _ _ _ (is_derive_mult_R _ _ _ _ _ D3 (D1 s)) D4)|]. cbv beta. ring.
    + unfold ph. rewrite Rplus_0_r. ring.
    + intros s. cbn [pow]. pose proof (x2npdf (q + s)) as X. pose proof (npdf_le1 (q + s)). pose proof (npdf_pos (q + s)). apply Rabs_le. replace (((q + s) * ((q + s) * 1) - 1) * npdf (q + s)) with ((q + s) ^ 2 * npdf (q + s) - npdf (q + s)) by ring. lra.
Qed.
Lemma tay_Phi w : Rabs (Phi (q + w) - Phi q - ph * w + q * ph * (w ^ 2 / 2)) <= 3 * Rabs w ^ 3.
Proof using.
  apply (mvt0 (fun w => Phi (q + w) - Phi q - ph * w + q * ph * (w ^ 2 / 2)) (fun w => npdf (q + w) - ph + q * ph * w) 3 2); [lra| | |exact tay_npdf].
  - intros s. assert (D1 : is_derive (fun s => Phi (q + s)) s (npdf (q + s))).
    { eapply is_derive_eq; [exact (is_derive_comp_R Phi (fun s => q + s) s _ 1 (is_derive_Phi _) ltac:(auto_derive; [trivial|Req; ring]))|]. ring. }
    assert (D2 : is_derive (fun w => - Phi q - ph * w + q * ph * (w ^ 2 / 2)) s (- ph + q * ph * s)) by (auto_derive; [trivial|Req; field]).
    apply (is_derive_ext (fun w => Phi (q + w) + (- Phi q - ph * w + q * ph * (w ^ 2 / 2)))); [intros; Req; ring|]. eapply is_derive_eq; [exact (is_derive_plus_R _ _ _ _ _ D1 D2)|]. ring.
  - rewrite Rplus_0_r. field.
Qed.
(** s = (1 + u h)/u with u = 1/t; y = -d2, d1 = (1 + (1+uh)^2) / (2 u (1+uh)) at zero drift *)
Let a := 1 + q ^ 2 / 2.
Definition hq (u : R) : R := q + (a + q / 2 * u) * u.
Definition sq (u : R) : R := 1 + u * hq u.
Definition yq (u : R) : R := hq u - u * hq u ^ 2 / (2 * sq u).
Definition dq (u : R) : R := (1 + sq u ^ 2) / (2 * u * sq u).
Definition Fq (u : R) : R := Phi (yq u) - npdf (yq u) * Mr (dq u).
Let G := a + Rabs (q / 2).
Definition Hb : R := Rabs q + G.
Lemma h_bound u : 0 <= u <= 1 -> Rabs (a + q / 2 * u) <= G /\ Rabs (hq u) <= Hb.
Proof using.
  intros Hu. assert (A : Rabs (a + q / 2 * u) <= G).
  { unfold G. assert (0 <= a) by (unfold a; pose proof (pow2_ge_0 q); lra). eapply Rle_trans; [apply Rabs_triang|]. rewrite (Rabs_right a) by lra. apply Rplus_le_compat_l. rewrite Rabs_mult, (Rabs_right u) by lra. pose proof (Rabs_pos (q / 2)). nra. }
  split; [exact A|]. unfold hq, Hb. eapply Rle_trans; [apply Rabs_triang|]. apply Rplus_le_compat_l. rewrite Rabs_mult, (Rabs_right u) by lra. pose proof (Rabs_pos (a + q / 2 * u)). nra.
Qed.
Definition u0 : R := / (2 * Hb + 2).
Lemma Hb_pos : 1 <= Hb.
Proof using. unfold Hb, G, a. pose proof (Rabs_pos q). pose proof (Rabs_pos (q / 2)). pose proof (pow2_ge_0 q). lra. Qed.
Lemma u0_facts u : 0 < u <= u0 -> 0 < u <= / 4 /\ / 2 <= sq u <= 3 / 2 /\ Rabs (u * hq u) <= / 2.
Proof using.
  intros (H0 & H1). pose proof Hb_pos as HH. assert (L : u * (2 * Hb + 2) <= 1). { unfold u0 in H1. apply Rmult_le_compat_r with (r := 2 * Hb + 2) in H1; [|lra]. rewrite Rinv_l in H1 by lra. lra. }
  assert (U1 : u <= / 4) by nra. split; [lra|]. destruct (h_bound u ltac:(lra)) as (_ & B). assert (X : Rabs (u * hq u) <= / 2). { rewrite Rabs_mult, (Rabs_right u) by lra. nra. }
  split; [|exact X]. unfold sq. apply Rabs_le_between in X. lra.
Qed.
Definition Zq (u : R) : R := - q * (q / 2) - (a + q / 2 * u) ^ 2 / 2 + (a + q / 2 * u) * (3 * q ^ 2 + 3 * q * u * (a + q / 2 * u) + u ^ 2 * (a + q / 2 * u) ^ 2) / 2 - hq u ^ 4 / (2 * sq u).
Lemma yq_exp u : 0 < u <= u0 -> yq u = q + u - q / 2 * u ^ 2 + u ^ 3 * Zq u.
Proof using.
  intros Hu. destruct (u0_facts u Hu) as (U & Sg & _). unfold yq, Zq.
  assert (E : / sq u = 1 - u * hq u + u ^ 2 * hq u ^ 2 / sq u). { assert (E1 : sq u = 1 + u * hq u) by reflexivity. set (s := sq u) in *. set (h := hq u) in *. assert (Eh : h = (s - 1) / u) by (rewrite E1; field; lra). rewrite Eh. field. split; lra. }
  replace (u * hq u ^ 2 / (2 * sq u)) with (u * hq u ^ 2 / 2 * / sq u) by (field; lra). rewrite E.
  replace (hq u ^ 4 / (2 * sq u)) with (hq u ^ 4 / 2 * / sq u) by (field; lra). unfold Rdiv. set (i := / sq u). clearbody i. unfold hq, a. field.
Qed.
Lemma Z_bound : exists C, 0 <= C /\ forall u, 0 < u <= u0 -> Rabs (Zq u) <= C.
Proof using.
  exists (Rabs q * Rabs q / 2 + G ^ 2 / 2 + G * (3 * Rabs q ^ 2 + 3 * Rabs q * G + G ^ 2) / 2 + Hb ^ 4).
  assert (G0 : 0 <= G) by (unfold G, a; pose proof (pow2_ge_0 q); pose proof (Rabs_pos (q / 2)); lra). pose proof (Rabs_pos q) as Q0. pose proof Hb_pos.
  split. { repeat apply Rplus_le_le_0_compat; try (apply Rmult_le_pos; [|lra]); try apply pow_le; try lra; [nra|]. apply Rmult_le_pos; [lra|]. pose proof (pow2_ge_0 (Rabs q)). pose proof (pow2_ge_0 G). nra. }
  intros u Hu. destruct (u0_facts u Hu) as (U & Sg & _). destruct (h_bound u ltac:(lra)) as (B1 & B2). unfold Zq. set (g := a + q / 2 * u) in *. set (h := hq u) in *. clearbody g h.
  assert (T1 : Rabs (- q * (q / 2)) <= Rabs q * Rabs q / 2). { replace (- q * (q / 2)) with (- (q * q / 2)) by field. rewrite Rabs_Ropp. unfold Rdiv. rewrite !Rabs_mult, (Rabs_right (/ 2)) by lra. lra. }
  assert (T2 : Rabs (g ^ 2 / 2) <= G ^ 2 / 2). { unfold Rdiv. rewrite Rabs_mult, <- RPow_abs, (Rabs_right (/ 2)) by lra. apply Rmult_le_compat_r; [lra|]. apply pow_incr. split; [apply Rabs_pos|lra]. }
  assert (T3 : Rabs (3 * q ^ 2 + 3 * q * u * g + u ^ 2 * g ^ 2) <= 3 * Rabs q ^ 2 + 3 * Rabs q * G + G ^ 2).
  { eapply Rle_trans; [apply Rabs_triang|]. apply Rplus_le_compat; [eapply Rle_trans; [apply Rabs_triang|]; apply Rplus_le_compat|].
    - rewrite Rabs_mult, <- RPow_abs, (Rabs_right 3) by lra. lra.
    - rewrite !Rabs_mult, (Rabs_right 3), (Rabs_right u) by lra. assert (Rabs q * Rabs g <= Rabs q * G) by (apply Rmult_le_compat_l; lra). assert (0 <= Rabs q * Rabs g) by (apply Rmult_le_pos; apply Rabs_pos). nra.
    - rewrite <- Rpow_mult_distr, <- RPow_abs. apply pow_incr. split; [apply Rabs_pos|]. rewrite Rabs_mult, (Rabs_right u) by lra. pose proof (Rabs_pos g). nra. }
  assert (T4 : Rabs (h ^ 4 / (2 * sq u)) <= Hb ^ 4). { unfold Rdiv. rewrite Rabs_mult, <- RPow_abs. rewrite (Rabs_right (/ (2 * sq u))) by (left; apply Rinv_0_lt_compat; lra). assert (X : Rabs h ^ 4 <= Hb ^ 4) by (apply pow_incr; split; [apply Rabs_pos|lra]). assert (I : / (2 * sq u) <= 1) by (rewrite <- Rinv_1; apply Rinv_le_contravar; lra). assert (0 < / (2 * sq u)) by (apply Rinv_0_lt_compat; lra). assert (0 <= Rabs h ^ 4) by (apply pow_le, Rabs_pos). nra. }
  eapply Rle_trans; [apply Rabs_triang|]. rewrite Rabs_Ropp. apply Rplus_le_compat; [|exact T4]. eapply Rle_trans; [apply Rabs_triang|]. apply Rplus_le_compat.
  - eapply Rle_trans; [apply Rabs_triang|]. rewrite Rabs_Ropp. now apply Rplus_le_compat.
  - unfold Rdiv. rewrite !Rabs_mult, (Rabs_right (/ 2)) by lra. apply Rmult_le_compat_r; [lra|]. apply Rmult_le_compat; try apply Rabs_pos; lra.
Qed.
Lemma Mq_close u : 0 < u <= u0 -> 0 < Mr (dq u) <= u /\ Rabs (Mr (dq u) - u) <= (Hb ^ 2 + 1) * u ^ 3.
Proof using.
  intros Hu. destruct (u0_facts u Hu) as (U & Sg & _). destruct (h_bound u ltac:(lra)) as (_ & B).
  assert (Q : 0 < 1 + sq u ^ 2) by (pose proof (pow2_ge_0 (sq u)); lra).
  assert (P : 0 < dq u) by (unfold dq; apply Rdiv_lt_0_compat; [exact Q|nra]).
  destruct (Mr_bounds (dq u) P) as (M0 & M1 & M2). assert (EI : / dq u = u - u ^ 3 * hq u ^ 2 / (1 + sq u ^ 2)).
  { unfold dq. assert (E1 : sq u = 1 + u * hq u) by reflexivity. set (s := sq u) in *. set (h := hq u) in *. assert (Eh : h = (s - 1) / u) by (rewrite E1; field; lra). rewrite Eh. field. split; [|split]; lra. }
  assert (H2 : hq u ^ 2 <= Hb ^ 2) by (rewrite <- (pow2_abs (hq u)); apply pow_incr; split; [apply Rabs_pos|exact B]).
  assert (P3 : 0 < u ^ 3) by (apply pow_lt; lra). assert (X : 0 <= u ^ 3 * hq u ^ 2 / (1 + sq u ^ 2) <= Hb ^ 2 * u ^ 3).
  { split; [apply Rmult_le_pos; [apply Rmult_le_pos; [lra|apply pow2_ge_0]|left; now apply Rinv_0_lt_compat]|]. apply Rmult_le_reg_r with (1 + sq u ^ 2); [exact Q|]. replace (u ^ 3 * hq u ^ 2 / (1 + sq u ^ 2) * (1 + sq u ^ 2)) with (u ^ 3 * hq u ^ 2) by (field; lra). pose proof (pow2_ge_0 (sq u)). pose proof (pow2_ge_0 Hb). assert (u ^ 3 * hq u ^ 2 <= u ^ 3 * Hb ^ 2) by (apply Rmult_le_compat_l; lra). assert (0 <= Hb ^ 2 * u ^ 3 * sq u ^ 2) by (apply Rmult_le_pos; [apply Rmult_le_pos; lra|lra]). lra. }
  assert (Y : / dq u ^ 3 <= u ^ 3). { rewrite <- pow_inv. apply pow_incr. split; [left; now apply Rinv_0_lt_compat|lra]. }
  split; [lra|]. apply Rabs_le. lra.
Qed.
Lemma Fq_close : exists C, 0 <= C /\ forall u, 0 < u <= u0 -> Rabs (Fq u - Phi q) <= C * u ^ 3.
Proof using.
  destruct Z_bound as (C & HC & HZ). pose proof Hb_pos as HH. set (V := Rabs q / 2 + C). assert (V0 : 0 <= V) by (unfold V; pose proof (Rabs_pos q); lra).
  exists (1 * (C + Rabs q * V ^ 2 / 2) + 3 * (1 + V) ^ 3 + 3 * (1 + V) ^ 2 + 1 * (Hb ^ 2 + 1)).
  assert (N0 : 0 <= Rabs q * V ^ 2 / 2) by (apply Rmult_le_pos; [apply Rmult_le_pos; [apply Rabs_pos|apply pow2_ge_0]|lra]).
  split. { pose proof (pow_le (1 + V) 3 ltac:(lra)). pose proof (pow2_ge_0 (1 + V)). pose proof (pow2_ge_0 Hb). lra. }
  intros u Hu. destruct (u0_facts u Hu) as (U & _ & _). destruct (Mq_close u Hu) as ((M0 & M1) & M2). specialize (HZ u Hu).
  unfold Fq. rewrite yq_exp by exact Hu. set (v := - q / 2 * u ^ 2 + u ^ 3 * Zq u). set (w := u + v). replace (q + u - q / 2 * u ^ 2 + u ^ 3 * Zq u) with (q + w) by (unfold w, v; field).
  assert (P3 : 0 < u ^ 3) by (apply pow_lt; lra). assert (P2 : 0 < u ^ 2) by (apply pow_lt; lra).
  assert (Bv : Rabs v <= V * u ^ 2). { unfold v, V. eapply Rle_trans; [apply Rabs_triang|]. rewrite !Rabs_mult, (Rabs_right (u ^ 2)), (Rabs_right (u ^ 3)) by lra. replace (Rabs (- q / 2)) with (Rabs q / 2) by (unfold Rdiv; rewrite Rabs_mult, Rabs_Ropp, (Rabs_right (/ 2)) by lra; reflexivity). assert (u ^ 3 * Rabs (Zq u) <= u ^ 2 * C). { replace (u ^ 3) with (u ^ 2 * u) by ring. rewrite Rmult_assoc. apply Rmult_le_compat_l; [lra|]. pose proof (Rabs_pos (Zq u)). nra. } lra. }
  assert (Bw : Rabs w <= (1 + V) * u). { unfold w. eapply Rle_trans; [apply Rabs_triang|]. rewrite (Rabs_right u) by lra. assert (V * u ^ 2 <= V * u) by (apply Rmult_le_compat_l; [lra|nra]). lra. }
  pose proof (tay_Phi w) as E1. pose proof (tay_npdf w) as E2. set (e1 := Phi (q + w) - Phi q - ph * w + q * ph * (w ^ 2 / 2)) in *. set (e2 := npdf (q + w) - ph + q * ph * w) in *. set (M := Mr (dq u)) in *.
  assert (ID : Phi (q + w) - npdf (q + w) * M - Phi q = ph * (u ^ 3 * Zq u - q * v ^ 2 / 2) + e1 - e2 * u - npdf (q + w) * (M - u)).
  { assert (EP : Phi (q + w) = e1 + Phi q + ph * w - q * ph * (w ^ 2 / 2)) by (unfold e1; ring). assert (EN : npdf (q + w) = e2 + ph - q * ph * w) by (unfold e2; ring). rewrite EP, EN. unfold w, v. field. }
  rewrite ID. pose proof (npdf_le1 q) as N1. pose proof (npdf_pos q) as N2. fold ph in N1, N2. pose proof (npdf_le1 (q + w)) as N3. pose proof (npdf_pos (q + w)) as N4.
  assert (W2 : Rabs w ^ 2 <= (1 + V) ^ 2 * u ^ 2) by (rewrite <- Rpow_mult_distr; apply pow_incr; split; [apply Rabs_pos|exact Bw]).
  assert (W3 : Rabs w ^ 3 <= (1 + V) ^ 3 * u ^ 3) by (rewrite <- Rpow_mult_distr; apply pow_incr; split; [apply Rabs_pos|exact Bw]).
  assert (T1 : Rabs (ph * (u ^ 3 * Zq u - q * v ^ 2 / 2)) <= 1 * (C + Rabs q * V ^ 2 / 2) * u ^ 3).
  { rewrite Rabs_mult, (Rabs_right ph) by lra. rewrite Rmult_assoc. apply Rmult_le_compat; [lra|apply Rabs_pos|lra|].
    unfold Rminus. eapply Rle_trans; [apply Rabs_triang|]. rewrite Rabs_Ropp. unfold Rdiv. rewrite !Rabs_mult, (Rabs_right (/ 2)), (Rabs_right (u ^ 3)) by lra. rewrite <- RPow_abs.
    assert (A1 : u ^ 3 * Rabs (Zq u) <= u ^ 3 * C) by (apply Rmult_le_compat_l; lra).
    assert (A2 : Rabs v ^ 2 <= V ^ 2 * u ^ 3). { apply Rle_trans with ((V * u ^ 2) ^ 2); [apply pow_incr; split; [apply Rabs_pos|exact Bv]|]. replace ((V * u ^ 2) ^ 2) with (V ^ 2 * u ^ 3 * u) by ring. assert (0 <= V ^ 2 * u ^ 3) by (apply Rmult_le_pos; [apply pow2_ge_0|lra]). nra. }
    assert (A3 : Rabs q * Rabs v ^ 2 * / 2 <= Rabs q * (V ^ 2 * u ^ 3) * / 2) by (apply Rmult_le_compat_r; [lra|]; apply Rmult_le_compat_l; [apply Rabs_pos|exact A2]). lra. }
  assert (T2 : Rabs (e2 * u) <= 3 * (1 + V) ^ 2 * u ^ 3). { rewrite Rabs_mult, (Rabs_right u) by lra. replace (3 * (1 + V) ^ 2 * u ^ 3) with (3 * ((1 + V) ^ 2 * u ^ 2) * u) by ring. apply Rmult_le_compat_r; lra. }
  assert (T3 : Rabs (npdf (q + w) * (M - u)) <= 1 * (Hb ^ 2 + 1) * u ^ 3). { rewrite Rabs_mult, (Rabs_right (npdf (q + w))) by lra. rewrite Rmult_assoc. apply Rmult_le_compat; [lra|apply Rabs_pos|lra|lra]. }
  unfold Rminus. eapply Rle_trans; [apply Rabs_triang|]. rewrite Rabs_Ropp. eapply Rle_trans; [apply Rplus_le_compat_r; apply Rabs_triang|]. rewrite Rabs_Ropp. eapply Rle_trans; [do 2 apply Rplus_le_compat_r; apply Rabs_triang|].
  fold (Rminus (u ^ 3 * Zq u) (q * v ^ 2 / 2)). fold (Rminus M u). lra.
Qed.
End Q.
Definition FL (q L u : R) : R := Phi (yq q u - L * u / sq q u) - npdf (yq q u - L * u / sq q u) * Mr (dq q u + L * u / sq q u).
Lemma FL_0 q u : FL q 0 u = Fq q u.
Proof. unfold FL, Fq. replace (0 * u / sq q u) with 0 by (unfold Rdiv; ring). now rewrite Rminus_0_r, Rplus_0_r. Qed.
Lemma Phi_lip x y : Rabs (Phi (y + x) - Phi y) <= 1 * Rabs x.
Proof.
  rewrite <- (pow_1 (Rabs x)). apply (mvt0 (fun x => Phi (y + x) - Phi y) (fun x => npdf (y + x)) 1 0); [lra| | |].
  - intros s. assert (D1 : is_derive (fun s => Phi (y + s)) s (npdf (y + s))). { eapply is_derive_eq; [exact (is_derive_comp_R Phi (fun s => y + s) s _ 1 (is_derive_Phi _) ltac:(auto_derive; [trivial|Req; ring]))|]. ring. }
    eapply is_derive_eq; [exact (is_derive_minus_R _ _ _ _ _ D1 (is_derive_const_R (Phi y) s))|]. ring.
  - rewrite Rplus_0_r. ring.
  - intros s. cbn [pow]. pose proof (npdf_pos (y + s)). pose proof (npdf_le1 (y + s)). rewrite Rabs_right; lra.
Qed.
Lemma FL_close q L : exists C d, 0 <= C /\ 0 < d /\ forall u, 0 < u <= d -> Rabs (FL q L u - Phi q) <= C * u.
Proof.
  destruct (Z_bound q) as (C & HC & HZ). set (l := Rabs L). assert (L0 : 0 <= l) by apply Rabs_pos. pose proof (Rabs_pos q) as Q0. pose proof (Hb_pos q) as HH.
  exists ((1 + Rabs q / 2 + C + 2 * l) + 2), (Rmin (u0 q) (/ (2 * (l + 1)))). split; [lra|]. assert (D1 : 0 < u0 q) by (unfold u0; apply Rinv_0_lt_compat; lra). assert (D2 : 0 < / (2 * (l + 1))) by (apply Rinv_0_lt_compat; lra).
  split; [now apply Rmin_pos|]. intros u (Hu & Hu2). pose proof (Rmin_l (u0 q) (/ (2 * (l + 1)))). pose proof (Rmin_r (u0 q) (/ (2 * (l + 1)))). assert (Hu0 : 0 < u <= u0 q) by lra. destruct (u0_facts q u Hu0) as (U & Sg & _). specialize (HZ u Hu0).
  assert (UL : u * (2 * (l + 1)) <= 1). { apply Rmult_le_reg_r with (/ (2 * (l + 1))); [exact D2|]. rewrite Rmult_assoc, Rinv_r by lra. lra. }
  assert (BL : Rabs (L * u / sq q u) <= 2 * l * u). { unfold Rdiv. rewrite !Rabs_mult, (Rabs_right u), (Rabs_right (/ sq q u)) by (try lra; left; apply Rinv_0_lt_compat; lra). fold l. assert (/ sq q u <= 2) by (replace 2 with (/ / 2) by field; apply Rinv_le_contravar; lra). assert (0 < / sq q u) by (apply Rinv_0_lt_compat; lra). assert (0 <= l * u) by nra. nra. }
  unfold FL. rewrite yq_exp by exact Hu0. set (x := L * u / sq q u) in *. set (w := u - q / 2 * u ^ 2 + u ^ 3 * Zq q u - x).
  replace (q + u - q / 2 * u ^ 2 + u ^ 3 * Zq q u - x) with (q + w) by (unfold w; ring).
  assert (Bw : Rabs w <= (1 + Rabs q / 2 + C + 2 * l) * u).
  { assert (A1 : Rabs (q / 2 * u ^ 2) <= Rabs q / 2 * u). { unfold Rdiv. rewrite !Rabs_mult, (Rabs_right (/ 2)), (Rabs_right (u ^ 2)) by (try lra; apply Rle_ge, pow2_ge_0). apply Rmult_le_compat_l; [lra|nra]. }
    assert (A2 : Rabs (u ^ 3 * Zq q u) <= C * u). { rewrite Rabs_mult, (Rabs_right (u ^ 3)) by (apply Rle_ge, pow_le; lra). rewrite (Rmult_comm C). apply Rmult_le_compat; [apply pow_le; lra|apply Rabs_pos| |exact HZ]. replace (u ^ 3) with (u * u ^ 2) by ring. assert (u ^ 2 <= 1) by nra. nra. }
    apply Rabs_le_between in A1. apply Rabs_le_between in A2. apply Rabs_le_between in BL. unfold w. apply Rabs_le. lra. }
  assert (Hd : / (2 * u) <= dq q u + x).
  { assert (X : / u <= dq q u). { unfold dq. apply Rmult_le_reg_r with (2 * u * sq q u); [nra|]. replace ((1 + sq q u ^ 2) / (2 * u * sq q u) * (2 * u * sq q u)) with (1 + sq q u ^ 2) by (field; lra). replace (/ u * (2 * u * sq q u)) with (2 * sq q u) by (field; lra). pose proof (pow2_ge_0 (sq q u - 1)). nra. }
    apply Rabs_le_between in BL. assert (Y : 2 * l * u <= / (2 * u)). { apply Rmult_le_reg_r with (2 * u); [lra|]. rewrite Rinv_l by lra. nra. } replace (/ u) with (2 * / (2 * u)) in X by (field; lra). lra. }
  assert (Hp : 0 < / (2 * u)) by (apply Rinv_0_lt_compat; lra). destruct (Mr_bounds (dq q u + x) ltac:(lra)) as (M0 & _ & M2).
  assert (M3 : Mr (dq q u + x) <= 2 * u). { eapply Rle_trans; [exact M2|]. rewrite <- (Rinv_inv (2 * u)). now apply Rinv_le_contravar. }
  set (M := Mr (dq q u + x)) in *. pose proof (Phi_lip w q) as PL. pose proof (npdf_le1 (q + w)). pose proof (npdf_pos (q + w)). apply Rabs_le_between in PL. apply Rabs_le. assert (0 <= npdf (q + w) * M <= M) by (split; [apply Rmult_le_pos; lra|nra]). lra.
Qed.
(** the strike as a function of u *)
Definition uK (F K : R) : R := / sqrt (2 * Rabs (ln (K / F))).
Lemma uK_facts F K : 0 < F -> 0 < K -> K < F -> 0 < uK F K /\ ln (K / F) = - / (2 * uK F K ^ 2) /\ sqrt (2 * Rabs (ln (K / F))) = / uK F K.
Proof.
  intros HF HK H. assert (N : ln (K / F) < 0). { rewrite <- ln_1. apply ln_increasing; [now apply Rdiv_lt_0_compat|]. apply Rmult_lt_reg_r with F; [exact HF|]. unfold Rdiv. rewrite Rmult_assoc, Rinv_l by lra. lra. }
  assert (P : 0 < 2 * Rabs (ln (K / F))) by (rewrite Rabs_left by exact N; lra). pose proof (sqrt_lt_R0 _ P) as Q. unfold uK. split; [now apply Rinv_0_lt_compat|]. split; [|now rewrite Rinv_inv].
  rewrite pow_inv. replace (sqrt (2 * Rabs (ln (K / F))) ^ 2) with (2 * Rabs (ln (K / F))) by (rewrite <- Rsqr_pow2, Rsqr_sqrt; lra). rewrite Rabs_left by exact N. field. lra.
Qed.
Lemma uK_small F d : 0 < F -> 0 < d -> exists e, 0 < e /\ e <= F /\ forall K, 0 < K -> K < e -> 0 < uK F K <= d.
Proof.
  intros HF Hd. exists (F * exp (- / (2 * d ^ 2))). assert (P2 : 0 < / (2 * d ^ 2)) by (apply Rinv_0_lt_compat; pose proof (pow_lt d 2 Hd); lra). assert (X : exp (- / (2 * d ^ 2)) <= 1) by (rewrite <- exp_0; apply exp_le; lra). pose proof (exp_pos (- / (2 * d ^ 2))) as XP.
  split; [apply Rmult_lt_0_compat; assumption|]. split; [nra|]. intros K HK HKe. assert (HKF : K < F) by nra. destruct (uK_facts F K HF HK HKF) as (U0 & U1 & _). split; [exact U0|].
  assert (L : ln (K / F) <= - / (2 * d ^ 2)). { rewrite <- (ln_exp (- / (2 * d ^ 2))). apply Rcomplements.ln_le; [now apply Rdiv_lt_0_compat|]. apply Rmult_le_reg_r with F; [exact HF|]. unfold Rdiv. rewrite Rmult_assoc, Rinv_l by lra. lra. }
  rewrite U1 in L. destruct (Rle_dec (uK F K) d) as [A|A]; [exact A|exfalso]. assert (d ^ 2 < uK F K ^ 2) by (apply pow_lt_compat_l; [lra|lia]) || (assert (d * d < uK F K * uK F K) by nra; lra).
  pose proof (pow_lt d 2 Hd). assert (/ (2 * uK F K ^ 2) < / (2 * d ^ 2)) by (apply Rinv_lt_contravar; [apply Rmult_lt_0_compat; nra|nra]). lra.
Qed.
Lemma price_FL ppf m K S T mass : 0 < S -> 0 < K -> 0 < T -> let F := forward m S T in let q := ppf mass in let u := uK F K in
  0 < F -> K < F -> u <= u0 q -> price_from_mass_zero ppf m K S T (-1) mass / K = FL q (ln (S / F)) u.
Proof.
  intros HS HK HT F q u HF HKF Hu. destruct (uK_facts F K HF HK HKF) as (U0 & U1 & U2). fold u in U0, U1, U2. destruct (u0_facts q u (conj U0 Hu)) as (U & Sg & _).
  pose proof (sqrt_lt_R0 T HT) as HsT. set (s := sq q u / u). assert (Hs : 0 < s) by (apply Rdiv_lt_0_compat; lra).
  assert (EV : vol_from_mass_zero ppf m K S T mass * sqrt T = s).
  { unfold vol_from_mass_zero. fold F. fold q. cbv zeta. rewrite U2. unfold s, sq, hq. field. split; lra. }
  unfold price_from_mass_zero. rewrite bsm_price_eq. unfold mD, mF, DF, FWD. cbn [sigma intr divr is_fwd]. replace (- (0 * T)) with 0 by ring. try replace (- 0 * T) with 0 by ring. replace ((0 - 0) * T) with 0 by ring. rewrite exp_0, Rmult_1_l, Rmult_1_r.
  rewrite sigma_std_big; rewrite EV.
  2:{ apply Rle_trans with 1; [unfold eps; rewrite <- Rinv_1; apply Rinv_le_contravar; [lra|apply pow_R1_Rle; lra]|]. unfold s. apply Rmult_le_reg_r with u; [lra|]. replace (sq q u / u * u) with (sq q u) by (field; lra). lra. }
  unfold black. set (L := ln (S / F)). assert (EL : ln (S / K) = L + / (2 * u ^ 2)). { unfold L. replace (S / K) with (S / F * / (K / F)) by (field; lra). rewrite ln_mult, ln_Rinv, U1; [ring|now apply Rdiv_lt_0_compat|now apply Rdiv_lt_0_compat|apply Rinv_0_lt_compat; now apply Rdiv_lt_0_compat]. }
  assert (E2 : ln (S / K) / s - s / 2 = - (yq q u - L * u / sq q u)). { rewrite EL. unfold s, yq. assert (Eh : hq q u = (sq q u - 1) / u) by (unfold sq; field; lra). rewrite Eh. field. split; lra. }
  assert (E1 : ln (S / K) / s + s / 2 = dq q u + L * u / sq q u). { rewrite EL. unfold s, dq. field. split; lra. }
  pose proof (black_core s S K Hs HS HK) as BC. rewrite E1, E2, npdf_even in BC. rewrite E1, E2. unfold FL. set (y := yq q u - L * u / sq q u) in *. set (d := dq q u + L * u / sq q u) in *. replace (-1 * - y) with y by ring. replace (-1 * d) with (- d) by ring. unfold Mr.
  pose proof (npdf_pos d) as Nd. replace (npdf y) with (S * npdf d / K) by (rewrite BC; field; lra). field. split; lra.
Qed.
Lemma fwd_pos m S T : 0 < S -> 0 < forward m S T.
Proof. intros HS. unfold forward. destruct (is_fwd m); [exact HS|]. unfold Rdiv. repeat (first [exact HS|apply exp_pos|apply Rmult_lt_0_compat|apply Rinv_0_lt_compat]). Qed.
Lemma mass_limit ppf m S T mass : 0 < S -> 0 < T -> Phi (ppf mass) = mass ->
  filterlim (fun K => price_from_mass_zero ppf m K S T (-1) mass / K) (at_right 0) (locally mass).
Proof.
  intros HS HT Hq. pose proof (fwd_pos m S T HS) as HF. set (F := forward m S T) in *. destruct (FL_close (ppf mass) (ln (S / F))) as (C & d & HC & Hd & B).
  apply filterlim_locally. intros e. assert (Hdd : 0 < Rmin (Rmin d (u0 (ppf mass))) (e / (2 * (C + 1)))).
  { apply Rmin_pos; [apply Rmin_pos; [exact Hd|unfold u0; apply Rinv_0_lt_compat; pose proof (Hb_pos (ppf mass)); lra]|apply Rdiv_lt_0_compat; [apply cond_pos|lra]]. }
  destruct (uK_small F _ HF Hdd) as (k & Hk & HkF & HK). exists (mkposreal k Hk). intros K HKb HK0. change (Rabs (K - 0) < k) in HKb. rewrite Rminus_0_r, Rabs_right in HKb by lra.
  destruct (HK K HK0 HKb) as (U0 & U1). pose proof (Rmin_l (Rmin d (u0 (ppf mass))) (e / (2 * (C + 1)))). pose proof (Rmin_r (Rmin d (u0 (ppf mass))) (e / (2 * (C + 1)))). pose proof (Rmin_l d (u0 (ppf mass))). pose proof (Rmin_r d (u0 (ppf mass))).
  rewrite price_FL by (try assumption; fold F; lra). fold F. specialize (B (uK F K) ltac:(lra)). rewrite Hq in B. change (Rabs (FL (ppf mass) (ln (S / F)) (uK F K) - mass) < e). eapply Rle_lt_trans; [exact B|].
  apply Rle_lt_trans with (C * (e / (2 * (C + 1)))); [apply Rmult_le_compat_l; lra|]. pose proof (cond_pos e). apply Rmult_lt_reg_r with (2 * (C + 1)); [lra|]. replace (C * (e / (2 * (C + 1))) * (2 * (C + 1))) with (C * e) by (field; lra). nra.
Qed.
Lemma mass_rate ppf m S T mass : 0 < S -> 0 < T -> Phi (ppf mass) = mass -> forward m S T = S ->
  exists C k, 0 < k /\ forall K, 0 < K -> K < k -> Rabs (price_from_mass_zero ppf m K S T (-1) mass / K - mass) * sqrt (ln (S / K)) ^ 3 <= C.
Proof.
  intros HS HT Hq EF. destruct (Fq_close (ppf mass)) as (C & HC & B). assert (Hd : 0 < u0 (ppf mass)) by (unfold u0; apply Rinv_0_lt_compat; pose proof (Hb_pos (ppf mass)); lra).
  destruct (uK_small S _ HS Hd) as (k & Hk & HkF & HK). exists C, k. split; [exact Hk|]. intros K HK0 HKk. destruct (HK K HK0 HKk) as (U0 & U1).
  rewrite price_FL by (try assumption; rewrite EF; lra). rewrite EF. replace (S / S) with 1 by (field; lra). rewrite ln_1, FL_0. specialize (B (uK S K) ltac:(lra)). rewrite Hq in B. destruct (uK_facts S K HS HK0 ltac:(lra)) as (_ & E & _). set (u := uK S K) in *.
  assert (EL : ln (S / K) = / (2 * u ^ 2)). { replace (S / K) with (/ (K / S)) by (field; lra). rewrite ln_Rinv by now apply Rdiv_lt_0_compat. rewrite E. ring. }
  rewrite EL. assert (SQ : 0 <= sqrt (/ (2 * u ^ 2)) <= / u). { split; [apply sqrt_pos|]. assert (0 < / u) by (apply Rinv_0_lt_compat; lra). rewrite <- (sqrt_pow2 (/ u)) by lra. apply sqrt_le_1_alt. rewrite pow_inv. apply Rinv_le_contravar; [apply pow_lt; lra|]. pose proof (pow_lt u 2 U0). lra. }
  assert (S3 : 0 <= sqrt (/ (2 * u ^ 2)) ^ 3 <= / u ^ 3). { split; [apply pow_le; lra|]. rewrite <- pow_inv. apply pow_incr. exact SQ. }
  apply Rle_trans with (C * u ^ 3 * / u ^ 3); [apply Rmult_le_compat; try lra; apply Rabs_pos|]. assert (0 < u ^ 3) by (apply pow_lt; lra). right. field. lra.
Qed.
Lemma mass_discount ppf m S T mass : 0 < S -> 0 < T -> Phi (ppf mass) = mass -> intr m <> 0 ->
  ~ filterlim (fun K => price_from_mass_zero ppf m K S T (-1) mass / K) (at_right 0) (locally (DF (intr m) T * mass)).
Proof.
  intros HS HT Hq Hr H. pose proof (mass_limit ppf m S T mass HS HT Hq) as H2. pose proof (filterlim_locally_unique (F := at_right 0) _ _ _ H H2) as E. pose proof (Phi_pos (ppf mass)) as P. rewrite Hq in P.
  assert (ED : DF (intr m) T = 1) by (apply Rmult_eq_reg_r with mass; lra). unfold DF in ED. rewrite <- exp_0 in ED. apply exp_inv in ED. apply Hr. nra.
Qed.
