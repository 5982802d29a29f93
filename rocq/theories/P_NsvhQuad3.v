(** NSVh quadrature: the price is the expectation of the payoff of the simulated law. *)
From Coq Require Import Reals Lra Lia List Psatz.
From Coquelicot Require Import Coquelicot.
From Verif Require Import Base Gauss Sums M_Opt M_Fd M_Sabr M_Dist M_NsvhQuad Spec_Expect Spec_Dist Spec_NsvhQuad P_Half P_Expect P_Dist P_NsvhQuad P_NsvhQuad2.
Import ListNotations.
Open Scope R_scope.

Lemma nmc_std_sq p T : 0 <= T -> nmc_std p T ^ 2 = b_vov p ^ 2 * T.
Proof. intros H. unfold nmc_std. rewrite pow2_sqrt; [reflexivity|]. apply Rmult_le_pos; [nra|exact H]. Qed.
Lemma nmc_std_eq p T : 0 <= b_vov p -> nmc_std p T = b_vov p * sqrt T.
Proof. intros H. unfold nmc_std. rewrite sqrt_mult_alt by nra. now rewrite sqrt_pow2. Qed.
Lemma sc r t : 0 <= r -> (sqrt r * cos t) ^ 2 + (sqrt r * sin t) ^ 2 = r.
Proof. intros H. pose proof (sin2_cos2 t) as S. unfold Rsqr in S. pose proof (sqrt_sqrt r H). replace ((sqrt r * cos t) ^ 2 + (sqrt r * sin t) ^ 2) with (sqrt r * sqrt r * (sin t * sin t + cos t * cos t)) by ring. rewrite S. lra. Qed.
(** one path in polar coordinates *)
Lemma path_polar p lam T K r t z2 : 0 <= T -> b_vov p <> 0 -> b_sigma p <> 0 -> b_rho p ^ 2 < 1 -> 0 < nmc_std p T -> 0 < r ->
  let s := nmc_std p T in let u := nmc_z lam s z2 in
  fst (nmc_prices p lam T (sqrt r * cos t) (sqrt r * sin t) z2) - K =
  b_sigma p / b_vov p * exp (s * u / 2) * (nq_h (b_rho p) s u 0 r * cos t + nq_g (b_rho p) lam s (b_vov p / b_sigma p * K) u).
Proof.
  intros HT Hv Hsg Hr Hs Pr s u. unfold nmc_prices. cbv zeta. fold s u. unfold nmc_dfw, nmc_phi, nmc_dfz. cbv zeta. rewrite (sc r t) by lra. cbn [fst].
  rewrite <- (nmc_std_sq p T HT). fold s. unfold nq_h, nq_g. cbv zeta. set (e := exp (s * u / 2)). assert (Pe : 0 < e) by apply exp_pos.
  replace (exp (/ 2 * s * u)) with e by (unfold e; f_equal; field).
  replace (2 * cosh (s * sqrt (u ^ 2 + 0 + r)) - 2 * cosh (s * u)) with (2 * (cosh (sqrt (r + u ^ 2) * s) - cosh (u * s))).
  2:{ replace (u ^ 2 + 0 + r) with (r + u ^ 2) by ring. rewrite (Rmult_comm s u), (Rmult_comm s). ring. }
  rewrite (sqrt_mult_alt 2) by lra. rewrite (sqrt_div_alt 2 r) by exact Pr. set (C := sqrt (cosh (sqrt (r + u ^ 2) * s) - cosh (u * s))).
  assert (0 < sqrt r) by now apply sqrt_lt_R0. field. repeat split; lra.
Qed.
Lemma snd_path_polar p lam T r t z2 : snd (nmc_prices p lam T (sqrt r * cos t) (sqrt r * sin t) z2) = fst (nmc_prices p lam T (sqrt r * sin t) (sqrt r * cos t) z2).
Proof. unfold nmc_prices, nmc_dfw, nmc_phi. cbv zeta. cbn [fst snd]. rewrite (Rplus_comm ((sqrt r * cos t) ^ 2)). reflexivity. Qed.
Lemma Rmax_scal a x : 0 <= a -> Rmax (a * x) 0 = a * Rmax x 0.
Proof. intros H. replace 0 with (a * 0) at 1 by ring. rewrite RmaxRmult by exact H. reflexivity. Qed.
Lemma circle_scal a f v : circle_mean f v -> circle_mean (fun t => a * f t) (a * v).
Proof. intros H. unfold circle_mean in *. replace (2 * PI * (a * v)) with (scal a (2 * PI * v)) by (unfold scal; cbn; unfold mult; cbn; ring). exact (is_RInt_scal (V := R_NormedModule) _ _ _ a _ H). Qed.
Lemma circle_ext f h v : (forall t, f t = h t) -> circle_mean f v -> circle_mean h v.
Proof. intros E H. unfold circle_mean in *. eapply is_RInt_ext; [|exact H]. intros; apply E. Qed.
Lemma pos_scal dn f v a : pos_expect dn f v -> pos_expect dn (fun r => a * f r) (a * v).
Proof. intros H. unfold pos_expect in *. eapply half_line_ext; [|apply half_line_scal; exact H]. intros. cbv beta. ring. Qed.
(** the conditional expectation given the third normal *)
Lemma slice_expect p lam T K cp z2 J : 0 <= T -> 0 < b_vov p -> 0 < b_sigma p -> b_rho p ^ 2 < 1 -> 0 < nmc_std p T -> cp = 1 \/ cp = - (1) ->
  let s := nmc_std p T in let u := nmc_z lam s z2 in let k := b_vov p / b_sigma p * K in
  let v0 := nq_v0 (b_rho p) lam s k u in let g := nq_g (b_rho p) lam s k u in
  half_line (fun v => exp (- v / 2) / (2 * PI) * nq_zv g (nq_h (b_rho p) s u v0 v)) J ->
  plane_expect (fun x y => Rmax (cp * (fst (nmc_prices p lam T x y z2) - K)) 0) (b_sigma p / b_vov p * exp (s * u / 2) * (J * exp (- v0 / 2) + Rmax (cp * g) 0)).
Proof.
  intros HT Hv Hsg Hr Hs Hcp s u k v0 g HJ. set (a := b_sigma p / b_vov p * exp (s * u / 2)).
  assert (Pa : 0 < a) by (apply Rmult_lt_0_compat; [now apply Rdiv_lt_0_compat|apply exp_pos]).
  exists (fun r => a * (Ag cp (nq_h (b_rho p) s u 0 r) g / PI)). split.
  - intros r Pr. apply (circle_ext (fun t => a * pay cp (nq_h (b_rho p) s u 0 r) g t)).
    + intros t. unfold pay. rewrite <- Rmax_scal by lra. f_equal. rewrite (path_polar p lam T K r t z2) by lra. fold s u k g a. ring.
    + apply circle_scal. apply circle_Ag.
  - apply pos_scal. apply (slice_radial (b_rho p) lam s k u Hr Hs cp Hcp J). exact HJ.
Qed.
Lemma vw_sum (vr : list (R * R)) (f : R -> R) : (forall x w, In (x, w) vr -> 0 < x) ->
  lsum (map (fun vw => f (fst vw) * snd vw) (nq_vw vr)) = rule_sum (fun x => f (2 * x) / (PI * sqrt x)) vr.
Proof.
  intros H. unfold rule_sum, nq_vw, lsum. rewrite map_map. cbn [fst snd]. induction vr as [|[x w] l IH]; [reflexivity|]. cbn [map fold_right fst snd]. rewrite IH by (intros y v Hy; apply (H y v); now right).
  f_equal. assert (0 < sqrt x) by (apply sqrt_lt_R0; apply (H x w); now left). pose proof PI_RGT_0. field. split; lra.
Qed.
Lemma lag_half (vr : list (R * R)) (f : R -> R) : (forall x w, In (x, w) vr -> 0 < x) -> laguerre_exact vr (fun x => f (2 * x) / (PI * sqrt x)) ->
  half_line (fun v => exp (- v / 2) / (2 * PI) * f v) (lsum (map (fun vw => f (fst vw) * snd vw) (nq_vw vr))).
Proof.
  intros Hp H. rewrite (vw_sum vr f Hp). unfold laguerre_exact in H. pose proof (half_line_dilate _ _ (/ 2) ltac:(lra) H) as D. eapply half_line_ext; [|exact D]. intros x Hx. cbv beta.
  replace (2 * (/ 2 * x)) with x by field. replace (- (/ 2 * x)) with (- x / 2) by field. pose proof PI_RGT_0. assert (0 < sqrt (/ 2 * x)) by (apply sqrt_lt_R0; lra). field. split; lra.
Qed.
(** every slice *)
Lemma slice_node p lam T K cp z vr : 0 <= T -> 0 < b_vov p -> 0 < b_sigma p -> b_rho p ^ 2 < 1 -> 0 < nmc_std p T -> cp = 1 \/ cp = - (1) ->
  (forall x w, In (x, w) vr -> 0 < x) -> laguerre_exact vr (nq_target p lam T K z) ->
  let s := nmc_std p T in
  plane_expect (fun x y => Rmax (cp * (fst (nmc_prices p lam T x y (z + s / 2)) - K)) 0)
    (b_sigma p / b_vov p * exp (s * nq_u lam s z / 2) * nq_intz (b_rho p) lam s (b_vov p / b_sigma p * K) vr cp z).
Proof.
  intros HT Hv Hsg Hr Hs Hcp Hp HL s. assert (Eu : nq_u lam s z = nmc_z lam s (z + s / 2)) by (unfold nq_u, nmc_z; field).
  pose proof (lag_half vr (fun v => nq_zv (nq_g (b_rho p) lam s (b_vov p / b_sigma p * K) (nq_u lam s z)) (nq_h (b_rho p) s (nq_u lam s z) (nq_v0 (b_rho p) lam s (b_vov p / b_sigma p * K) (nq_u lam s z)) v)) Hp HL) as HJ.
  unfold nq_intz. cbv zeta. rewrite Eu in HJ |- *. apply (slice_expect p lam T K cp (z + s / 2) _ HT Hv Hsg Hr Hs Hcp HJ).
Qed.
(** uniqueness of the conditional expectation *)
Lemma plane_unique f a b : plane_expect f a -> plane_expect f b -> a = b.
Proof.
  intros [A [HA1 HA2]] [B [HB1 HB2]]. apply (half_line_unique _ _ _ HA2). unfold pos_expect in *. eapply half_line_ext; [|exact HB2]. intros r Hr. cbv beta. f_equal.
  pose proof (HA1 r Hr) as H1. pose proof (HB1 r Hr) as H2. apply (is_RInt_unique (V := R_CompleteNormedModule)) in H1. apply (is_RInt_unique (V := R_CompleteNormedModule)) in H2. rewrite H1 in H2. pose proof PI_RGT_0. apply (Rmult_eq_reg_l (2 * PI)); [|lra]. symmetry. exact H2.
Qed.
Lemma zw_sum (s : R) (zr : list (R * R)) (f : R -> R) : lsum (map (fun zw => f (fst zw) * snd zw) (nq_zw s zr)) = rule_sum f zr / (rule_sum (fun z => exp (s / 2 * z)) zr / exp (s ^ 2 / 8)).
Proof.
  unfold nq_zw. cbv zeta. replace (lsum (map (fun zw => exp (s / 2 * fst zw) * snd zw) zr)) with (rule_sum (fun z => exp (s / 2 * z)) zr).
  2:{ unfold rule_sum. f_equal. apply map_ext. intros [x w]. cbn [fst snd]. ring. }
  set (D := rule_sum (fun z => exp (s / 2 * z)) zr / exp (s ^ 2 / 8)). clearbody D. rewrite map_map. unfold rule_sum, lsum. cbn [fst snd]. induction zr as [|[x w] l IH]; cbn [map fold_right fst snd]; [unfold Rdiv; ring|]. rewrite IH. unfold Rdiv. ring.
Qed.
Lemma nq_price_expect (mo : opt) (p : sabrp) (lam : R) (zr vr : list (R * R)) (strike spot texp cp : R) (A : R -> R) :
  / 2 ^ 52 <= texp -> 0 < b_vov p -> 0 < b_sigma p -> b_rho p ^ 2 < 1 -> cp = 1 \/ cp = - (1) ->
  (forall x w, In (x, w) vr -> 0 < x) ->
  let '(fwd, df, _) := fwd_df_divf mo spot texp in
  (forall z, plane_expect (fun x y => Rmax (cp * (fwd + fst (nmc_prices p lam texp x y z) - strike)) 0) (A z)) ->
  (forall z w, In (z, w) zr -> laguerre_exact vr (nq_target p lam texp (strike - fwd) z)) ->
  let h := b_vov p * sqrt texp / 2 in
  nq_price1 mo p lam zr vr strike spot texp cp = df * rule_sum (shifted h A) zr * exp (h ^ 2 / 2) / rule_sum (fun z => exp (h * z)) zr.
Proof.
  intros HT Hv Hsg Hr Hcp Hp. destruct (fwd_df_divf mo spot texp) as [[fwd df] dv] eqn:EF. intros HA HL h. assert (P52 : 0 < / 2 ^ 52) by (apply Rinv_0_lt_compat; apply pow_lt; lra).
  assert (T0 : 0 < texp) by lra. set (s := nmc_std p texp). assert (Es : s = b_vov p * sqrt texp) by (apply nmc_std_eq; lra). assert (Ps : 0 < s) by (rewrite Es; apply Rmult_lt_0_compat; [exact Hv|now apply sqrt_lt_R0]).
  unfold nq_price1. rewrite EF. cbv zeta. replace (nq_vovn (/ 2 ^ 52) (b_vov p) texp) with s. 2:{ unfold nq_vovn. rewrite Rmax_left by exact HT. exact Es. }
  rewrite (zw_sum s zr (nq_intz (b_rho p) lam s (b_vov p / b_sigma p * (strike - fwd)) vr cp)).
  assert (Eh : h = s / 2) by (unfold h; rewrite Es; reflexivity).
  assert (ES : rule_sum (shifted h A) zr = b_sigma p / b_vov p * exp ((2 * lam - 1) / 8 * s ^ 2) * rule_sum (nq_intz (b_rho p) lam s (b_vov p / b_sigma p * (strike - fwd)) vr cp) zr).
  { unfold rule_sum, lsum. clear EF. induction zr as [|[z w] l IH]; [cbn; ring|]. cbn [map fold_right fst snd]. rewrite IH by (intros z' w' Hz; apply (HL z' w'); now right).
    assert (EA : A (z + s / 2) = b_sigma p / b_vov p * exp (s * nq_u lam s z / 2) * nq_intz (b_rho p) lam s (b_vov p / b_sigma p * (strike - fwd)) vr cp z).
    { apply (plane_unique _ _ _ (HA (z + s / 2))). pose proof (slice_node p lam texp (strike - fwd) cp z vr ltac:(lra) Hv Hsg Hr Ps Hcp Hp (HL z w (or_introl eq_refl))) as SN. cbv zeta in SN. fold s in SN.
      destruct SN as [B [B1 B2]]. exists B. split; [|exact B2]. intros r Pr. eapply circle_ext; [|exact (B1 r Pr)]. intros t. cbv beta. f_equal. ring. }
    unfold shifted at 1. rewrite Eh, EA. assert (Ee : exp (s * nq_u lam s z / 2) * exp (- (s / 2) * z - (s / 2) ^ 2 / 2) = exp ((2 * lam - 1) / 8 * s ^ 2)) by (rewrite <- exp_plus; f_equal; unfold nq_u; field). rewrite <- Ee. ring. }
  rewrite ES, Eh. replace ((s / 2) ^ 2 / 2) with (s ^ 2 / 8) by field. pose proof (exp_pos (s ^ 2 / 8)). unfold Rdiv. rewrite Rinv_mult, Rinv_inv. ring.
Qed.
(** the change of measure *)
Lemma line_shift h A v : line_expect A v -> line_expect (shifted h A) v.
Proof.
  intros H P HP. specialize (H P HP). destruct H as [Q S [M1 HQ] [M2 HS] H]. apply (Filter_prod _ _ _ (fun a => a < M1 - h) (fun b => M2 - h < b)); [exists (M1 - h); auto|exists (M2 - h); auto|].
  intros a b Ha Hb. destruct (H (a + h) (b + h)) as [y [Y1 Y2]]; [apply HQ; lra|apply HS; lra|]. exists y. split; [|exact Y2]. cbn [fst snd] in *.
  assert (G : is_RInt (fun x => scal 1 (A (1 * x + h) * gauss_density (1 * x + h))) a b y).
  { apply (is_RInt_comp_lin (V := R_NormedModule) (fun z => A z * gauss_density z) 1 h a b). rewrite !Rmult_1_l. exact Y1. }
  eapply is_RInt_ext; [|exact G]. intros x _. cbv beta. Req. unfold scal; cbn; unfold mult; cbn. rewrite !Rmult_1_l. unfold shifted. rewrite !gauss_density_npdf. replace (x + h) with (x - - h) by ring. rewrite <- npdf_shift.
  replace (- h * x - h ^ 2 / 2) with (- h * x - - h * - h / 2) by field. change (gauss_density x) with (npdf x). ring.
Qed.
(** ** parity *)
Lemma nq_parity (mo : opt) (p : sabrp) (lam : R) (zr vr : list (R * R)) (strike spot texp : R) :
  b_vov p <> 0 -> b_sigma p <> 0 -> symmetric_rule zr -> zr <> nil -> (forall z w, In (z, w) zr -> 0 < w) ->
  let '(fwd, df, _) := fwd_df_divf mo spot texp in
  nq_price1 mo p lam zr vr strike spot texp 1 - nq_price1 mo p lam zr vr strike spot texp (- (1)) = df * (fwd - strike).
Proof.
  intros Hv Hsg Hsym Hne Hw. destruct (fwd_df_divf mo spot texp) as [[fwd df] dv] eqn:EF. unfold nq_price1. rewrite EF. cbv zeta. set (s := nq_vovn _ _ _). set (k := b_vov p / b_sigma p * (strike - fwd)).
  rewrite !zw_sum. set (I := fun cp => rule_sum (nq_intz (b_rho p) lam s k vr cp) zr).
  assert (PD : 0 < rule_sum (fun z => exp (s / 2 * z)) zr).
  { unfold rule_sum, lsum. clear - Hne Hw. assert (G : forall l, (forall z w, In (z, w) l -> 0 < w) -> 0 <= fold_right Rplus 0 (map (fun p0 => snd p0 * exp (s / 2 * fst p0)) l)).
    { induction l as [|[z w] l IH]; [cbn; lra|]. intros Hl. cbn [map fold_right fst snd]. specialize (IH (fun z' w' Hi => Hl z' w' (or_intror Hi))). pose proof (Hl z w (or_introl eq_refl)). pose proof (exp_pos (s / 2 * z)). nra. }
    destruct zr as [|[z w] l]; [now elim Hne|]. cbn [map fold_right fst snd]. specialize (G l (fun z' w' Hi => Hw z' w' (or_intror Hi))). pose proof (Hw z w (or_introl eq_refl)). pose proof (exp_pos (s / 2 * z)). nra. }
  assert (ED : rule_sum (fun z => exp (s / 2 * - z)) zr = rule_sum (fun z => exp (s / 2 * z)) zr) by (apply (Hsym (fun z => exp (s / 2 * z)))).
  set (D := rule_sum (fun z => exp (s / 2 * z)) zr) in *.
  assert (EI : I 1 - I (- (1)) = - k * exp (- (lam * s ^ 2 / 4)) * D).
  { transitivity (b_rho p * exp (lam * s ^ 2 / 4) * D - (b_rho p * exp (/ 2 * lam * s ^ 2) + k) * exp (- (lam * s ^ 2 / 4)) * rule_sum (fun z => exp (s / 2 * - z)) zr).
    - unfold I, D, rule_sum, lsum. clear. induction zr as [|[z w] l IH]; [cbn; ring|]. cbn [map fold_right fst snd]. set (R1 := fold_right Rplus 0 (map (fun p0 => snd p0 * nq_intz (b_rho p) lam s k vr 1 (fst p0)) l)) in *. set (R2 := fold_right Rplus 0 (map (fun p0 => snd p0 * nq_intz (b_rho p) lam s k vr (- (1)) (fst p0)) l)) in *.
      assert (E1 : nq_intz (b_rho p) lam s k vr 1 z - nq_intz (b_rho p) lam s k vr (- (1)) z = nq_g (b_rho p) lam s k (nq_u lam s z)).
      { unfold nq_intz. cbv zeta. set (g := nq_g _ _ _ _ _). rewrite Rmult_1_l. replace (- (1) * g) with (- g) by ring. unfold Rmax. repeat destruct Rle_dec; lra. }
      assert (E2 : nq_g (b_rho p) lam s k (nq_u lam s z) = b_rho p * exp (lam * s ^ 2 / 4) * exp (s / 2 * z) - (b_rho p * exp (/ 2 * lam * s ^ 2) + k) * exp (- (lam * s ^ 2 / 4)) * exp (s / 2 * - z)).
      { unfold nq_g. cbv zeta. unfold Rdiv at 2. rewrite <- exp_Ropp. replace (exp (s * nq_u lam s z / 2)) with (exp (lam * s ^ 2 / 4) * exp (s / 2 * z)) by (rewrite <- exp_plus; f_equal; unfold nq_u; field).
        replace (exp (- (s * nq_u lam s z / 2))) with (exp (- (lam * s ^ 2 / 4)) * exp (s / 2 * - z)) by (rewrite <- exp_plus; f_equal; unfold nq_u; field). ring. }
      replace (nq_intz (b_rho p) lam s k vr 1 z) with (nq_intz (b_rho p) lam s k vr (- (1)) z + nq_g (b_rho p) lam s k (nq_u lam s z)) by lra. rewrite E2. replace R1 with (R1 - R2 + R2) by ring. rewrite IH. ring.
    - rewrite ED. replace (exp (/ 2 * lam * s ^ 2)) with (exp (lam * s ^ 2 / 4) * exp (lam * s ^ 2 / 4)) by (rewrite <- exp_plus; f_equal; field). rewrite exp_Ropp. pose proof (exp_pos (lam * s ^ 2 / 4)). field. lra. }
  assert (Ex : exp ((2 * lam - 1) / 8 * s ^ 2) = exp (lam * s ^ 2 / 4) / exp (s ^ 2 / 8)) by (replace (lam * s ^ 2 / 4) with ((2 * lam - 1) / 8 * s ^ 2 + s ^ 2 / 8) by field; rewrite exp_plus; field; apply Rgt_not_eq, exp_pos).
  rewrite Ex. fold (I 1) (I (- (1))). rewrite exp_Ropp in EI. pose proof (exp_pos (lam * s ^ 2 / 4)). pose proof (exp_pos (s ^ 2 / 8)). set (e1 := exp (lam * s ^ 2 / 4)) in *. set (e2 := exp (s ^ 2 / 8)) in *.
  transitivity ((I 1 - I (- (1))) / (D / e2) * (e1 / e2 * (b_sigma p / b_vov p) * df)); [unfold Rdiv; ring|]. rewrite EI. unfold k. field. repeat split; lra.
Qed.
(** cdf: the two sides add up *)
Lemma g0_v0 rho lam s k u : rho ^ 2 < 1 -> 0 < s -> nq_g rho lam s k u = 0 -> nq_v0 rho lam s k u = 0.
Proof.
  intros Hr Hs Hg. pose proof (v0_ge0 rho lam s k u Hr Hs) as [P|E]; [|now symmetry]. assert (Q : 0 < nq_h rho s u 0 (nq_v0 rho lam s k u)) by exact (H_pos rho s u Hr Hs _ P).
  assert (E : nq_h rho s u 0 (nq_v0 rho lam s k u) = Rabs (nq_g rho lam s k u)) by exact (H_v0 rho lam s k u Hr Hs). rewrite E, Hg, Rabs_R0 in Q. lra.
Qed.
Lemma cdf_half rho lam s k vr cp z : rho ^ 2 < 1 -> 0 < s -> nq_g rho lam s k (nq_u lam s z) = 0 -> rule_sum (fun _ => 1) vr = 1 ->
  nq_cdf_intz rho lam s k vr cp z = / 2 * exp (- z * s / 2 - s ^ 2 / 8).
Proof.
  intros Hr Hs Hg Hv. unfold nq_cdf_intz. cbv zeta. rewrite (g0_v0 _ _ _ _ _ Hr Hs Hg), Hg, Rmult_0_r. destruct (Rlt_dec 0 0) as [N|_]; [lra|]. f_equal.
  replace (/ 2) with (rule_sum (fun _ => 1) vr * / 2) by (rewrite Hv; ring). unfold nq_vw0, rule_sum, lsum. rewrite map_map. clear Hv. pose proof PI_RGT_0 as HP. induction vr as [|[x w] l IH]; [cbn; ring|]. cbn [map fold_right fst snd] in IH |- *. rewrite IH.
  unfold nq_theta. rewrite Rabs_R0. unfold Rdiv at 1. rewrite Rmult_0_l, acos_0. replace (- 0 / 2) with 0 by field. rewrite exp_0. field. lra.
Qed.
Lemma nq_cdf_parity (mo : opt) (p : sabrp) (lam : R) (zr vr : list (R * R)) (strike spot texp : R) :
  b_rho p ^ 2 < 1 -> 0 < b_vov p -> symmetric_rule zr -> zr <> nil -> (forall z w, In (z, w) zr -> 0 < w) -> rule_sum (fun _ => 1) vr = 1 ->
  nq_cdf1 mo p lam zr vr strike spot texp 1 + nq_cdf1 mo p lam zr vr strike spot texp (- (1)) = 1.
Proof.
  intros Hr Hv Hsym Hne Hw Hg. unfold nq_cdf1. cbv zeta. set (s := nq_vovn _ _ _) in *. assert (Hs : 0 < s). { unfold s, nq_vovn. apply Rmult_lt_0_compat; [exact Hv|]. apply sqrt_lt_R0. apply Rlt_le_trans with (/ 10 ^ 64); [apply Rinv_0_lt_compat, pow_lt; lra|apply Rmax_r]. }
  clearbody s. set (k := b_vov p / b_sigma p * _) in *. rewrite !zw_sum.
  assert (PP : 0 < sqrt (2 * PI)) by (apply sqrt_lt_R0; pose proof PI_RGT_0; lra).
  assert (RS : forall f, rule_sum f (map (fun zw => (fst zw, snd zw / sqrt (2 * PI))) zr) = rule_sum f zr / sqrt (2 * PI)).
  { intros f. unfold rule_sum, lsum. clear. induction zr as [|[z w] l IH]; [cbn; unfold Rdiv; ring|]. cbn [map fold_right fst snd]. rewrite IH. unfold Rdiv. ring. }
  rewrite !RS.
  assert (PD : 0 < rule_sum (fun z => exp (s / 2 * z)) zr).
  { unfold rule_sum, lsum. clear - Hne Hw. assert (G : forall l, (forall z w, In (z, w) l -> 0 < w) -> 0 <= fold_right Rplus 0 (map (fun p0 => snd p0 * exp (s / 2 * fst p0)) l)).
    { induction l as [|[z w] l IH]; [cbn; lra|]. intros Hl. cbn [map fold_right fst snd]. specialize (IH (fun z' w' Hi => Hl z' w' (or_intror Hi))). pose proof (Hl z w (or_introl eq_refl)). pose proof (exp_pos (s / 2 * z)). nra. }
    destruct zr as [|[z w] l]; [now elim Hne|]. cbn [map fold_right fst snd]. specialize (G l (fun z' w' Hi => Hw z' w' (or_intror Hi))). pose proof (Hw z w (or_introl eq_refl)). pose proof (exp_pos (s / 2 * z)). nra. }
  assert (ED : rule_sum (fun z => exp (s / 2 * - z)) zr = rule_sum (fun z => exp (s / 2 * z)) zr) by (apply (Hsym (fun z => exp (s / 2 * z)))).
  set (D := rule_sum (fun z => exp (s / 2 * z)) zr) in *.
  assert (EI : rule_sum (nq_cdf_intz (b_rho p) lam s k vr 1) zr + rule_sum (nq_cdf_intz (b_rho p) lam s k vr (- (1))) zr = D * exp (- (s ^ 2 / 8))).
  { rewrite <- ED. unfold rule_sum at 1 2 3, lsum. clear - Hg Hr Hs. induction zr as [|[z w] l IH]; [cbn; ring|]. cbn [map fold_right fst snd].
    set (R1 := fold_right Rplus 0 (map (fun p0 => snd p0 * nq_cdf_intz (b_rho p) lam s k vr 1 (fst p0)) l)) in *. set (R2 := fold_right Rplus 0 (map (fun p0 => snd p0 * nq_cdf_intz (b_rho p) lam s k vr (- (1)) (fst p0)) l)) in *.
    assert (E1 : nq_cdf_intz (b_rho p) lam s k vr 1 z + nq_cdf_intz (b_rho p) lam s k vr (- (1)) z = exp (s / 2 * - z) * exp (- (s ^ 2 / 8))).
    { assert (Ee : exp (- z * s / 2 - s ^ 2 / 8) = exp (s / 2 * - z) * exp (- (s ^ 2 / 8))) by (rewrite <- exp_plus; f_equal; field).
      destruct (Req_dec (nq_g (b_rho p) lam s k (nq_u lam s z)) 0) as [Zg|Ng]; [rewrite !(cdf_half _ _ _ _ _ _ _ Hr Hs Zg Hg), Ee; field|].
      unfold nq_cdf_intz. cbv zeta. set (g := nq_g _ _ _ _ _) in *. rewrite Ee. repeat destruct Rlt_dec; try lra. }
    replace (w * nq_cdf_intz (b_rho p) lam s k vr 1 z + R1 + (w * nq_cdf_intz (b_rho p) lam s k vr (- (1)) z + R2)) with (w * (nq_cdf_intz (b_rho p) lam s k vr 1 z + nq_cdf_intz (b_rho p) lam s k vr (- (1)) z) + (R1 + R2)) by ring. rewrite E1, IH. ring. }
  rewrite exp_Ropp in EI. pose proof (exp_pos (s ^ 2 / 8)). set (e2 := exp (s ^ 2 / 8)) in *. set (C1 := rule_sum (nq_cdf_intz (b_rho p) lam s k vr 1) zr) in *. set (C2 := rule_sum (nq_cdf_intz (b_rho p) lam s k vr (- (1))) zr) in *.
  replace (C1 / sqrt (2 * PI) / (D / sqrt (2 * PI) / e2) + C2 / sqrt (2 * PI) / (D / sqrt (2 * PI) / e2)) with ((C1 + C2) * e2 / D) by (field; repeat split; lra). rewrite EI. field. split; lra.
Qed.
