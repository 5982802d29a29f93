(** C51 and C52: the rough Heston transform (heston_rough.py). [gamma_function Gam] says that Gam is Euler's gamma function (Spec_Cev.v). *)
From Coq Require Import Reals List Lra Lia.
From Coquelicot Require Import Coquelicot.
From Verif Require Import Base Sums Spec_Cev M_Fd M_Rough Spec_Rough P_Gamma2 P_Rough P_Rough2 P_Rough3 P_Rough4.
Import ListNotations.
Open Scope R_scope.

(** a gamma function exists, so none of the statements below is vacuous *)
Theorem C51_gamma_exists : exists Gam, gamma_function Gam.
Proof. exact gamma_exists. Qed.
Print Assumptions C51_gamma_exists.

(** the predictor weights integrate every step function exactly, the corrector weights every piecewise linear function *)
Theorem C51_predictor_exact : forall Gam al delta k g f, gamma_function Gam -> 0 < al -> 0 < delta -> steps_of delta g f ->
  frac_integral Gam al (INR (S k) * delta) f (rsum (S k) (fun j => b_j_kp1 Gam al k delta j * g j)).
Proof. exact predictor. Qed.
Print Assumptions C51_predictor_exact.
Theorem C51_corrector_exact : forall Gam al delta k g f, gamma_function Gam -> 0 < al -> 0 < delta -> lines_of delta g f ->
  frac_integral Gam al (INR (S k) * delta) f (rsum (S (S k)) (fun j => a_j_kp1 Gam al k delta j * g j)).
Proof. exact corrector. Qed.
Print Assumptions C51_corrector_exact.
(** both sum to the fractional integral of the constant 1, t^al / Gamma(al + 1) *)
Theorem C51_weight_sums : forall Gam al delta k, gamma_function Gam -> 0 < al -> 0 < delta ->
  rsum (S k) (b_j_kp1 Gam al k delta) = Rpower (INR (S k) * delta) al / Gam (al + 1) /\
  rsum (S (S k)) (a_j_kp1 Gam al k delta) = Rpower (INR (S k) * delta) al / Gam (al + 1).
Proof. exact weight_sums. Qed.
Print Assumptions C51_weight_sums.
(** a fractional integral has at most one value, and interpolants exist *)
Theorem C51_interpolants : forall delta g, 0 < delta -> (exists f, steps_of delta g f) /\ (exists f, lines_of delta g f).
Proof. intros delta g H. exact (conj (steps_exist delta g H) (lines_exist delta g H)). Qed.
Print Assumptions C51_interpolants.
Theorem C51_integral_unique : forall Gam r t f v w, 0 < Gam r -> frac_integral Gam r t f v -> frac_integral Gam r t f w -> v = w.
Proof. exact frac_unique. Qed.
Print Assumptions C51_integral_unique.

(** the array h_hat, whatever its length, follows the Adams recursion with node values F(h_(j-1)) in place of F(h_j) *)
Theorem C51_adam_lagged : forall Gam p u delta n, gamma_function Gam -> 0 < rh_alpha p -> 0 < delta ->
  exists h, (forall j, (j <= n)%nat -> nth j (fst (adam_run Gam p u delta n)) 0 = h j) /\
    adams_recursion Gam (rh_alpha p) delta (rough_F p u) (fun j => rough_F p u (h (pred j))) h.
Proof. intros Gam p u delta n HG Ha Hd. exists (adam_h Gam p u delta). split; [intros j Hj; now apply run_h|now apply adam_lagged]. Qed.
Print Assumptions C51_adam_lagged.
(** REFUTED: it is not the Adams method. For every order and step some parameters make it differ for every u other than 0 and 1 *)
Theorem C51_adam_refuted : forall Gam al delta, gamma_function Gam -> 0 < al -> 0 < delta ->
  exists p, rh_alpha p = al /\ 0 < rh_mr p /\ forall u, u <> 0 -> u <> 1 ->
    ~ exists h, (forall n j, (j <= n)%nat -> nth j (fst (adam_run Gam p u delta n)) 0 = h j) /\ adams_method Gam al delta (rough_F p u) h.
Proof.
  intros Gam al delta HG Ha Hd. destruct (adam_not_adams Gam al delta HG Ha Hd) as (p & E & Hm & H). exists p. split; [exact E|]. split; [exact Hm|].
  intros u U0 U1 (h & Hh & HA). apply (H u U0 U1). destruct HA as [H0 HS]. split; [reflexivity|].
  assert (Eh : forall j, h j = adam_h Gam p u delta j) by (intros j; symmetry; exact (Hh j j (le_n j))).
  intros k. destruct (HS k) as (P & A & B). exists P. split; intros f Hf.
  - apply A. intros m s Hs. rewrite Eh. now apply Hf.
  - rewrite <- Eh. apply B. intros m s Hs. rewrite (Hf m s Hs). cbv beta. now rewrite !Eh.
Qed.
Print Assumptions C51_adam_refuted.
(** the transform is 1 at 0 (total mass) and at 1 (martingale), and each returned entry depends on its own argument only *)
Theorem C51_adam_values : forall Gam p uu texp i, (i < length uu)%nat ->
  nth i (fst (logp_mgf_adam Gam p uu texp)) 0 = exp (adam_log Gam p texp (nth i uu 0)) /\
  (nth i uu 0 = 0 \/ nth i uu 0 = 1 -> nth i (fst (logp_mgf_adam Gam p uu texp)) 0 = 1).
Proof.
  intros Gam p uu texp i Hi. assert (E : nth i (fst (logp_mgf_adam Gam p uu texp)) 0 = exp (adam_log Gam p texp (nth i uu 0))).
  { unfold logp_mgf_adam. cbn [fst]. rewrite map_map. rewrite (nth_indep _ 0 (exp (adam_log Gam p texp 0))) by (rewrite map_length; exact Hi). exact (map_nth (fun u => exp (adam_log Gam p texp u)) uu 0 i). }
  split; [exact E|]. intros Hu. rewrite E, adam_log_zero by exact Hu. apply exp_0.
Qed.
Print Assumptions C51_adam_values.

(** ** C52 *)
(** the coefficients computed by the hybrid method use the Cauchy square one index late ... *)
Theorem C52_series_lagged : forall Gam al lambd mu nu r0 m, gamma_function Gam -> (m < r0)%nat ->
  let a := fun i => nth i (fst (hyb_a Gam al lambd mu nu r0)) 0 in
  a O = 0 /\ a (S m) = power_rule Gam al (al * INR m) * (lambd * square_coef a (pred m) + mu * a m + (if Nat.eqb m 0 then nu else 0)).
Proof.
  intros Gam al lambd mu nu r0 m HG Hm a. assert (E : forall i, (i <= r0)%nat -> a i = hyb_coef Gam al lambd mu nu i) by (intros i Hi; apply hyb_nth; exact Hi).
  split; [rewrite E by lia; reflexivity|]. rewrite !E by lia. rewrite (hybrid_lagged Gam al lambd mu nu HG m). cbv zeta. do 4 f_equal.
  unfold square_coef. apply rsum_ext. intros l Hl. rewrite !E by lia. reflexivity.
Qed.
Print Assumptions C52_series_lagged.
(** ... REFUTED: they solve the Riccati equation exactly when the quadratic or the constant coefficient vanishes *)
Theorem C52_series_refuted : forall Gam al lambd mu nu, gamma_function Gam -> 0 < al ->
  (riccati_series Gam al lambd mu nu (hyb_coef Gam al lambd mu nu) <-> lambd = 0 \/ nu = 0).
Proof. exact hybrid_riccati_iff. Qed.
Print Assumptions C52_series_refuted.
(** I_1_FPS is the integral of the series phi_t over (0, t); I_2_FPS applies the power rule of order 1 - al to it *)
Theorem C52_I1_series : forall al t r0 a, 0 < al -> 0 < t ->
  is_RInt_gen (V := R_NormedModule) (fun s => phi_t al s r0 a) (at_right 0) (at_point t) (I_1_FPS al t r0 a).
Proof. exact I_1_antiderivative. Qed.
Print Assumptions C52_I1_series.
Theorem C52_I2_series : forall Gam al lambd mu nu t r0, gamma_function Gam -> 0 < al < 1 -> 0 < t -> (1 <= r0)%nat ->
  I_2_FPS Gam al t nu r0 (fst (hyb_a Gam al lambd mu nu r0))
  = rsum r0 (fun q => hyb_coef Gam al lambd mu nu (S q) * power_rule Gam (1 - al) (al * INR (S q)) * Rpower t (al * INR (S q) + (1 - al))).
Proof. exact I_2_power_rule. Qed.
Print Assumptions C52_I2_series.
(** phi_n: the series up to k_0, then phi_i = I^al of the steps through lambda phi_j^2 + mu phi_j + nu *)
Theorem C52_phi_euler : forall Gam al lambd mu nu texp n r0 k0 a i N f, gamma_function Gam -> 0 < al -> 0 < texp -> (0 < n)%nat -> (k0 < i)%nat -> (i <= N)%nat ->
  let ph := fun j => nth j (phi_n Gam al lambd mu nu texp n r0 k0 a N) 0 in
  steps_of (texp / INR n) (fun j => lambd * ph j ^ 2 + mu * ph j + nu) f -> frac_integral Gam al (INR i * (texp / INR n)) f (ph i).
Proof. intros Gam al lambd mu nu texp n r0 k0 a i N f HG Ha Ht Hn Hk HN ph Hf. exact (phi_euler Gam al lambd mu nu texp n r0 k0 a i N f HG Ha Ht Hn Hk HN Hf). Qed.
Print Assumptions C52_phi_euler.
Theorem C52_phi_series : forall Gam al lambd mu nu texp n r0 k0 a i N, (1 <= i)%nat -> (i <= k0)%nat -> (i <= N)%nat ->
  nth i (phi_n Gam al lambd mu nu texp n r0 k0 a N) 0 = phi_t al (INR i * texp / INR n) r0 a.
Proof. exact phi_series. Qed.
Print Assumptions C52_phi_series.
(** I_1_PED adds the integral of the lines through phi; I_2_PED overestimates the rectangle rule for I^(1-al) (REFUTED: it raises the weights to the power 1 - al) *)
Theorem C52_I1_trapezoid : forall texp n k0 k I1 ph f, 0 < texp -> (0 < n)%nat -> (k0 <= k)%nat -> lines_of (texp / INR n) (fun j => nth j ph 0) f ->
  is_RInt f (INR k0 * (texp / INR n)) (INR k * (texp / INR n)) (I_1_PED texp n k0 k I1 ph - I1).
Proof. exact I_1_trapezoid. Qed.
Print Assumptions C52_I1_trapezoid.
Theorem C52_I2_refuted : forall Gam al texp n k ph f v, gamma_function Gam -> 0 < al < 1 -> 0 < texp -> (0 < n)%nat -> nth 0 ph 0 = 0 ->
  (forall j, (j < k)%nat -> 0 <= nth j ph 0) -> (exists j, (1 <= j)%nat /\ (j + 1 < k)%nat /\ 0 < nth j ph 0) ->
  steps_of (texp / INR n) (fun j => nth j ph 0) f -> frac_integral Gam (1 - al) (INR k * (texp / INR n)) f v ->
  v < I_2_PED Gam al texp n k ph.
Proof. exact I_2_overestimates. Qed.
Print Assumptions C52_I2_refuted.
Example C52_I2_witness : exists Gam f v, gamma_function Gam /\ steps_of (1 / INR 3) (fun j => nth j [0; 1; 1; 1] 0) f /\
  frac_integral Gam (1 - / 2) (INR 3 * (1 / INR 3)) f v /\ v < I_2_PED Gam (/ 2) 1 3 3 [0; 1; 1; 1].
Proof.
  destruct gamma_exists as [Gam HG]. assert (H3 : (0 < 3)%nat) by lia. assert (Ha : 0 < / 2 < 1) by lra.
  destruct (steps_exist (1 / INR 3) (fun j => nth j [0; 1; 1; 1] 0)) as [f Hf]; [apply Rdiv_lt_0_compat; [lra|apply lt_0_INR; lia]|].
  pose proof (I_2_rectangle Gam (/ 2) 1 3 3 [0; 1; 1; 1] f HG Ha Rlt_0_1 H3 (ltac:(lia)) eq_refl Hf) as V.
  exists Gam, f. eexists. split; [exact HG|]. split; [exact Hf|]. split; [exact V|].
  refine (I_2_overestimates Gam (/ 2) 1 3 3 [0; 1; 1; 1] f _ HG Ha Rlt_0_1 H3 eq_refl _ _ Hf V).
  - intros [|[|[|[|j]]]] Hj; cbn [nth]; try lra; lia.
  - exists 1%nat. split; [lia|]. split; [lia|]. cbn. lra.
Qed.
(** short maturities: every entry is the value at its own argument, 1 at 0 and at 1; the caller's array is overwritten with the result *)
Theorem C52_small_entries : forall Gam p n r0 uu texp, gamma_function Gam -> texp <= 9 / 10 * (22 / 100) ->
  logp_mgf_hybrid Gam p n r0 uu texp = Some (map (hyb_small Gam p r0 texp) uu) /\
  rough_logp_mgf Gam p 2 n r0 uu texp = Some (map (hyb_small Gam p r0 texp) uu, map (hyb_small Gam p r0 texp) uu) /\
  hyb_small Gam p r0 texp 0 = 1 /\ hyb_small Gam p r0 texp 1 = 1.
Proof.
  intros Gam p n r0 uu texp HG Ht. assert (E : logp_mgf_hybrid Gam p n r0 uu texp = Some (map (hyb_small Gam p r0 texp) uu)).
  { unfold logp_mgf_hybrid. cbv zeta. destruct (Rle_dec texp (9 / 10 * (22 / 100))); [reflexivity|contradiction]. }
  split; [exact E|]. split; [unfold rough_logp_mgf; cbn [Nat.eqb]; rewrite E; reflexivity|]. split; apply hyb_small_one; auto.
Qed.
Print Assumptions C52_small_entries.
(** REFUTED: for longer maturities the call fails for up to r_0 = 250 arguments; otherwise only entry r_0 is written, with the value at
    the last argument, and every other entry is the argument itself - so the entry for u = 0 is 0, although the transform at 0 is 1 *)
Theorem C52_large_refuted : forall Gam p n r0 uu texp, gamma_function Gam -> (0 < r0)%nat -> 9 / 10 * (22 / 100) < texp -> uu <> [] ->
  (((length uu <= r0)%nat -> logp_mgf_hybrid Gam p n r0 uu texp = None) /\
   ((r0 + 1 < length uu)%nat -> exists k0 L, logp_mgf_hybrid Gam p n r0 uu texp = Some L /\ nth r0 L 0 = hyb_large Gam p n r0 k0 texp (nth (length uu - 1) uu 0)) /\
   ((r0 < length uu)%nat -> exists L, logp_mgf_hybrid Gam p n r0 uu texp = Some L /\ length L = length uu /\ (forall j, j <> r0 -> nth j L 0 = nth j uu 0) /\
      (nth 0 uu 0 = 0 -> nth 0 L 0 = 0 /\ forall k0, hyb_large Gam p n r0 k0 texp (nth 0 uu 0) = 1))).
Proof.
  intros Gam p n r0 uu texp HG Hr Ht Hne. unfold logp_mgf_hybrid. cbv zeta. destruct (Rle_dec texp (9 / 10 * (22 / 100))) as [H|_]; [lra|].
  set (k0 := n_floor _). split; [|split].
  - intros Hl. destruct uu as [|u uu]; [contradiction|]. cbn [length seq hyb_loop] in *. now replace (Nat.ltb r0 (S (length uu))) with false by (symmetry; apply Nat.ltb_ge; exact Hl).
  - intros Hl. exists k0. now apply hyb_loop_last.
  - intros Hl. destruct (hyb_loop_keeps (hyb_large Gam p n r0 k0 texp) r0 (seq 0 (length uu)) uu Hl) as (L & E & EL & HL). exists L. split; [exact E|]. split; [exact EL|]. split; [exact HL|].
    intros H0. split; [rewrite HL by lia; exact H0|]. intros k1. apply hyb_large_one; auto.
Qed.
Print Assumptions C52_large_refuted.
(** REFUTED: neither method leaves the caller's array unchanged. Method 1 replaces it by the logarithms of the result *)
Theorem C52_input_overwritten : forall Gam p n r0 uu texp, rough_logp_mgf Gam p 1 n r0 uu texp = Some (map (fun u => exp (adam_log Gam p texp u)) uu, map (adam_log Gam p texp) uu) /\
  (nth 0 uu 0 = 1 -> nth 0 (map (adam_log Gam p texp) uu) 0 = 0).
Proof.
  intros Gam p n r0 uu texp. split; [unfold rough_logp_mgf, logp_mgf_adam; cbn [Nat.eqb]; now rewrite map_map|].
  intros H. destruct uu as [|u uu]; [cbn in H; lra|]. cbn in *. apply adam_log_zero. now right.
Qed.
Print Assumptions C52_input_overwritten.
(** an unknown method raises *)
Theorem C52_method_checked : forall Gam p m n r0 uu texp, m <> 1%nat -> m <> 2%nat -> rough_logp_mgf Gam p m n r0 uu texp = None.
Proof. intros Gam p m n r0 uu texp H1 H2. unfold rough_logp_mgf. apply Nat.eqb_neq in H1. apply Nat.eqb_neq in H2. now rewrite H1, H2. Qed.
Print Assumptions C52_method_checked.
