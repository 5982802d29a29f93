From Coq Require Import Reals List Lra Lia Psatz.
From Coquelicot Require Import Coquelicot.
From Verif Require Import Base Sums Spec_Cev M_Fd M_Rough Spec_Rough P_Half P_Gamma P_Gamma2 P_Cev5 P_Cev6 P_Cev7 P_Rough P_Rough2 P_Rough3.
Import ListNotations.
Open Scope R_scope.

Section Phi.
Variables (Gam : R -> R) (al lambd mu nu texp : R) (n r0 k0 : nat) (a : list R).
Notation ph := (phi_n Gam al lambd mu nu texp n r0 k0 a).
Lemma phi_len i : length (ph i) = S i.
Proof. induction i as [|i IH]; [reflexivity|]. cbn [phi_n]. cbv zeta. rewrite app_length, IH. cbn. lia. Qed.
Lemma phi_nth j i : (j <= i)%nat -> nth j (ph i) 0 = nth j (ph j) 0.
Proof.
  induction i as [|i IH]; intros H; [assert (j = O) by lia; now subst|]. destruct (Nat.eq_dec j (S i)) as [->|Hn]; [reflexivity|].
  rewrite <- IH by lia. cbn [phi_n]. cbv zeta. apply app_nth1. rewrite phi_len. lia.
Qed.
Lemma phi_0 i : nth 0 (ph i) 0 = 0.
Proof. rewrite phi_nth by lia. reflexivity. Qed.
Lemma phi_val i : nth (S i) (ph (S i)) 0 = (if Nat.leb (S i) k0 then phi_t al (INR (S i) * texp / INR n) r0 a
   else npow (texp / INR n) al * (nu * npow (INR (S i)) al + rsum i (fun q => let j := S q in hyb_c al (S i - j - 1) * nth j (ph i) 0 * (lambd * nth j (ph i) 0 + mu))) / Gam (al + 1)).
Proof. cbn [phi_n]. cbv zeta. rewrite app_nth2 by (rewrite phi_len; lia). rewrite phi_len, Nat.sub_diag. reflexivity. Qed.
(** before k_0 the power series, after it the rectangle rule for phi = I^al (lambda phi^2 + mu phi + nu) *)
Lemma phi_series i N : (1 <= i)%nat -> (i <= k0)%nat -> (i <= N)%nat -> nth i (ph N) 0 = phi_t al (INR i * texp / INR n) r0 a.
Proof. intros H1 H2 H3. rewrite phi_nth by exact H3. destruct i as [|i]; [lia|]. rewrite phi_val. now replace (Nat.leb (S i) k0) with true by (symmetry; apply Nat.leb_le; lia). Qed.
Lemma phi_euler i N (f : R -> R) : gamma_function Gam -> 0 < al -> 0 < texp -> (0 < n)%nat -> (k0 < i)%nat -> (i <= N)%nat ->
  steps_of (texp / INR n) (fun j => lambd * nth j (ph N) 0 ^ 2 + mu * nth j (ph N) 0 + nu) f ->
  frac_integral Gam al (INR i * (texp / INR n)) f (nth i (ph N) 0).
Proof.
  intros HG Ha Ht Hn Hk HN Hf. destruct i as [|i]; [lia|]. set (d := texp / INR n) in *. assert (Hd : 0 < d) by (apply Rdiv_lt_0_compat; [lra|apply lt_0_INR; lia]).
  pose proof (predictor Gam al d i _ f HG Ha Hd Hf) as P. match type of P with frac_integral _ _ _ _ ?v => replace (nth (S i) (ph N) 0) with v; [exact P|] end. clear P Hf.
  rewrite (phi_nth (S i) N) by exact HN. rewrite phi_val. replace (Nat.leb (S i) k0) with false by (symmetry; apply Nat.leb_gt; lia). fold d. rewrite (npow_1 d) by exact Hd.
  assert (G : 0 < Gam (al + 1)) by (apply (Gam_pos Gam HG); lra).
  set (y := fun j => nth j (ph N) 0). set (c := fun j => npow (INR i - INR j + 1) al - npow (INR i - INR j) al).
  assert (T : rsum (S i) c = npow (INR (S i)) al).
  { transitivity (rsum (S i) (fun j => - npow (INR (S i) - INR (S j)) al - - npow (INR (S i) - INR j) al)).
    - apply rsum_ext. intros j Hj. unfold c. rewrite !S_INR. replace (INR i + 1 - (INR j + 1)) with (INR i - INR j) by ring. replace (INR i + 1 - INR j) with (INR i - INR j + 1) by ring. ring.
    - rewrite (rsum_tele (S i) (fun j => - npow (INR (S i) - INR j) al)). replace (INR (S i) - INR (S i)) with 0 by ring. rewrite npow_0 by exact Ha. cbn [INR]. replace (match i with O => 1 | S _ => INR i + 1 end) with (INR (S i)) by reflexivity. rewrite Rminus_0_r. ring. }
  transitivity (Rpower d al / Gam (al + 1) * (nu * rsum (S i) c + rsum (S i) (fun j => c j * (y j * (lambd * y j + mu))))).
  - rewrite <- rsum_scal, <- rsum_plus, <- rsum_scal. apply rsum_ext. intros j Hj. unfold b_j_kp1, y, c. field. lra.
  - rewrite T, (rsum_shift i). assert (Y0 : y O = 0) by (unfold y; apply phi_0). rewrite Y0.
    replace (rsum i (fun j => c (S j) * (y (S j) * (lambd * y (S j) + mu)))) with (rsum i (fun q => let j := S q in hyb_c al (S i - j - 1) * nth j (ph i) 0 * (lambd * nth j (ph i) 0 + mu))).
    + field. lra.
    + apply rsum_ext. intros q Hq. cbv zeta. unfold y, c, hyb_c. rewrite (phi_nth (S q) N), (phi_nth (S q) i) by lia. rewrite !minus_INR by lia. rewrite !S_INR. cbn [INR].
      replace (INR i + 1 - (INR q + 1) - (0 + 1)) with (INR i - (INR q + 1)) by ring. ring.
Qed.
End Phi.

(** trapezoid *)
Lemma lines_int delta (g : nat -> R) f k0 m : 0 < delta -> lines_of delta g f ->
  is_RInt f (INR k0 * delta) (INR (k0 + m) * delta) (rsum m (fun q => (g (k0 + q)%nat + g (S (k0 + q))) / 2 * delta)).
Proof.
  intros Hd Hf. induction m as [|m IH]; cbn [rsum].
  - rewrite Nat.add_0_r. apply (is_RInt_point (V := R_NormedModule)).
  - set (j := (k0 + m)%nat) in *. replace (k0 + S m)%nat with (S j) by (unfold j; lia). apply (is_RInt_Chasles (V := R_NormedModule) _ _ (INR j * delta) _ _ _ IH).
    assert (Hj : INR j * delta < INR (S j) * delta) by (rewrite S_INR; nra).
    apply (is_RInt_ext (fun s => g j + (s - INR j * delta) / delta * (g (S j) - g j))); [intros s; rewrite Rmin_left, Rmax_right by lra; intros Hs; symmetry; now apply Hf|].
    set (Fd := fun s => g j * s + (s - INR j * delta) ^ 2 / (2 * delta) * (g (S j) - g j)).
    replace ((g j + g (S j)) / 2 * delta) with (minus (Fd (INR (S j) * delta)) (Fd (INR j * delta))).
    + apply (is_RInt_derive Fd).
      * intros x _. unfold Fd. auto_derive; [exact I|]. Req. field. lra.
      * intros x _. apply (ex_derive_continuous (K := R_AbsRing) (V := R_NormedModule)). auto_derive. exact I.
    + unfold minus, plus, opp, Fd. cbn -[INR]. rewrite S_INR. field. lra.
Qed.
Lemma I_1_trapezoid texp n k0 k I1 (ph : list R) f : 0 < texp -> (0 < n)%nat -> (k0 <= k)%nat -> lines_of (texp / INR n) (fun j => nth j ph 0) f ->
  is_RInt f (INR k0 * (texp / INR n)) (INR k * (texp / INR n)) (I_1_PED texp n k0 k I1 ph - I1).
Proof.
  intros Ht Hn Hk Hf. assert (Hd : 0 < texp / INR n) by (apply Rdiv_lt_0_compat; [lra|apply lt_0_INR; lia]). assert (Hn' : 0 < INR n) by (apply lt_0_INR; lia).
  pose proof (lines_int _ _ f k0 (k - k0) Hd Hf) as P. replace (k0 + (k - k0))%nat with k in P by lia.
  match type of P with is_RInt _ _ _ ?v => replace (I_1_PED texp n k0 k I1 ph - I1) with v; [exact P|] end. clear P Hf. unfold I_1_PED.
  set (m := (k - k0)%nat). replace k with (k0 + m)%nat by (unfold m; lia). clearbody m. clear Hk.
  transitivity (rsum m (fun q => nth (k0 + q) ph 0) * (texp / INR n) + rsum m (fun q => nth (k0 + S q) ph 0 - nth (k0 + q) ph 0) * (texp / INR n / 2)).
  - rewrite <- !rsum_scal_r, <- rsum_plus. apply rsum_ext. intros q _. rewrite Nat.add_succ_r. field. lra.
  - rewrite (rsum_tele m (fun q => nth (k0 + q) ph 0)). rewrite Nat.add_0_r. field. lra.
Qed.
(** I_2_PED *)
Lemma c_alpha_range al l : 0 < al < 1 -> (1 <= l)%nat -> 0 < hyb_c_alpha al l < 1.
Proof.
  intros Ha Hl. assert (Hx : 1 <= INR l) by (change 1 with (INR 1); now apply le_INR). unfold hyb_c_alpha. rewrite !npow_1 by lra. set (x := INR l) in *. set (b := 1 - al).
  split.
  - assert (Rpower x b < Rpower (x + 1) b); [|lra]. apply Rlt_Rpower_l; unfold b; lra.
  - replace (1 - al) with (- al + 1) in * by ring. unfold b. replace (1 - al) with (- al + 1) by ring. rewrite !Rpower_plus, !Rpower_1 by lra. rewrite !Rpower_Ropp.
    assert (Q1 : 1 < Rpower (x + 1) al). { rewrite <- (Rpower_O (x + 1)) at 1 by lra. apply Rpower_lt; lra. }
    assert (Q2 : Rpower x al < Rpower (x + 1) al) by (apply Rlt_Rpower_l; lra). assert (Q0 : 0 < Rpower x al) by apply exp_pos.
    assert (/ Rpower (x + 1) al < / Rpower x al) by (apply Rinv_lt_contravar; [apply Rmult_lt_0_compat|]; lra).
    assert (/ Rpower (x + 1) al < 1). { apply (Rmult_lt_reg_r (Rpower (x + 1) al)); [lra|]. rewrite Rinv_l by lra. lra. }
    assert (K : 0 < x * (/ Rpower x al - / Rpower (x + 1) al)) by (apply Rmult_lt_0_compat; lra). lra.
Qed.
Lemma c_alpha_0 al : 0 < al < 1 -> hyb_c_alpha al 0 = 1.
Proof. intros Ha. unfold hyb_c_alpha. cbn [INR]. rewrite npow_0 by lra. rewrite Rplus_0_l, npow_1 by lra. unfold Rpower. rewrite ln_1, Rmult_0_r, exp_0. ring. Qed.
Lemma pow_gt x b : 0 < x < 1 -> 0 < b < 1 -> x < npow x b.
Proof.
  intros Hx Hb. rewrite npow_1 by lra. rewrite <- (Rpower_1 x) at 1 by lra. unfold Rpower. apply exp_increasing. assert (ln x < 0) by (rewrite <- ln_1; apply ln_increasing; lra). nra.
Qed.
Lemma rsum_lt_one n f g i : (i < n)%nat -> (forall k, (k < n)%nat -> f k <= g k) -> f i < g i -> rsum n f < rsum n g.
Proof.
  induction n as [|n IH]; intros Hi H Hl; [lia|]. cbn [rsum]. destruct (Nat.eq_dec i n) as [->|Hn].
  - pose proof (rsum_le n f g (fun k Hk => H k (ltac:(lia)))). lra.
  - pose proof (IH (ltac:(lia)) (fun k Hk => H k (ltac:(lia))) Hl). pose proof (H n (ltac:(lia))). lra.
Qed.
(** the rectangle rule for I^(1-al), with phi_0 = 0, against the code's weights *)
Lemma I_2_rectangle Gam al texp n k (ph : list R) f : gamma_function Gam -> 0 < al < 1 -> 0 < texp -> (0 < n)%nat -> (1 <= k)%nat -> nth 0 ph 0 = 0 ->
  steps_of (texp / INR n) (fun j => nth j ph 0) f ->
  frac_integral Gam (1 - al) (INR k * (texp / INR n)) f
    (npow (texp / INR n) (1 - al) * rsum (k - 1) (fun q => hyb_c_alpha al (k - S q - 1) * nth (S q) ph 0) / Gam (2 - al)).
Proof.
  intros HG Ha Ht Hn Hk H0 Hf. destruct k as [|k]; [lia|]. replace (S k - 1)%nat with k by lia. assert (Hd : 0 < texp / INR n) by (apply Rdiv_lt_0_compat; [lra|apply lt_0_INR; lia]).
  pose proof (predictor Gam (1 - al) _ k _ f HG (ltac:(lra)) Hd Hf) as P. match type of P with frac_integral _ _ _ _ ?v => match goal with |- frac_integral _ _ _ _ ?w => replace w with v; [exact P|] end end. clear P Hf.
  assert (G : 0 < Gam (2 - al)) by (apply (Gam_pos Gam HG); lra). rewrite rsum_shift. rewrite H0, Rmult_0_r, Rplus_0_l. rewrite npow_1 by exact Hd.
  transitivity (Rpower (texp / INR n) (1 - al) / Gam (2 - al) * rsum k (fun q => hyb_c_alpha al (S k - S q - 1) * nth (S q) ph 0)); [|field; lra].
  rewrite <- rsum_scal. apply rsum_ext. intros j Hj. unfold b_j_kp1, hyb_c_alpha.
  replace (1 - al + 1) with (2 - al) by ring. rewrite !minus_INR by lia. rewrite !S_INR. cbn [INR]. replace (INR k + 1 - (INR j + 1) - (0 + 1)) with (INR k - (INR j + 1)) by ring. field. lra.
Qed.
Theorem I_2_overestimates Gam al texp n k (ph : list R) f v : gamma_function Gam -> 0 < al < 1 -> 0 < texp -> (0 < n)%nat -> nth 0 ph 0 = 0 ->
  (forall j, (j < k)%nat -> 0 <= nth j ph 0) -> (exists j, (1 <= j)%nat /\ (j + 1 < k)%nat /\ 0 < nth j ph 0) ->
  steps_of (texp / INR n) (fun j => nth j ph 0) f -> frac_integral Gam (1 - al) (INR k * (texp / INR n)) f v ->
  v < I_2_PED Gam al texp n k ph.
Proof.
  intros HG Ha Ht Hn H0 Hp (j & J1 & J2 & J3) Hf Hv. assert (G : 0 < Gam (2 - al)) by (apply (Gam_pos Gam HG); lra). assert (G' : 0 < Gam (1 - al)) by (apply (Gam_pos Gam HG); lra).
  rewrite (frac_unique _ _ _ _ _ _ G' Hv (I_2_rectangle Gam al texp n k ph f HG Ha Ht Hn (ltac:(lia)) H0 Hf)). unfold I_2_PED.
  assert (Hd : 0 < texp / INR n) by (apply Rdiv_lt_0_compat; [lra|apply lt_0_INR; lia]). unfold Rdiv at 2 4. apply Rmult_lt_compat_r; [now apply Rinv_0_lt_compat|]. apply Rmult_lt_compat_l; [rewrite npow_1 by exact Hd; apply exp_pos|].
  cbv zeta. apply (rsum_lt_one _ _ _ (j - 1)%nat); [lia| |].
  - intros q Hq. apply Rmult_le_compat_r; [apply Hp; lia|]. destruct (k - S q - 1)%nat as [|l] eqn:E.
    + rewrite c_alpha_0 by exact Ha. rewrite npow_1 by lra. unfold Rpower. rewrite ln_1, Rmult_0_r, exp_0. lra.
    + left. apply pow_gt; [apply c_alpha_range; [exact Ha|lia]|lra].
  - replace (S (j - 1)) with j by lia. apply Rmult_lt_compat_r; [exact J3|]. apply pow_gt; [apply c_alpha_range; [exact Ha|lia]|lra].
Qed.

(** ** logp_mgf_hybrid *)
Lemma set_nth_len l i v : length (set_nth l i v) = length l.
Proof. revert i. induction l as [|x l IH]; intros [|i]; cbn; try reflexivity. now rewrite IH. Qed.
Lemma set_nth_ne l i v j : j <> i -> nth j (set_nth l i v) 0 = nth j l 0.
Proof. revert i j. induction l as [|x l IH]; intros [|i] [|j] H; cbn; try reflexivity; try lia. apply IH. lia. Qed.
Lemma set_nth_eq l i v : (i < length l)%nat -> nth i (set_nth l i v) 0 = v.
Proof. revert i. induction l as [|x l IH]; intros [|i] H; cbn in *; try lia; [reflexivity|]. apply IH. lia. Qed.
Lemma hyb_loop_keeps f r0 todo : forall LL, (r0 < length LL)%nat -> exists L, hyb_loop f r0 todo LL = Some L /\ length L = length LL /\ forall j, j <> r0 -> nth j L 0 = nth j LL 0.
Proof.
  induction todo as [|i rest IH]; intros LL H; [exists LL; repeat split; reflexivity|].
  cbn [hyb_loop]. replace (Nat.ltb r0 (length LL)) with true by (symmetry; apply Nat.ltb_lt; lia).
  destruct (IH (set_nth LL r0 (f (nth i LL 0)))) as (L & E & Hl & Hn); [rewrite set_nth_len; exact H|]. exists L. rewrite set_nth_len in Hl. repeat split; [exact E|exact Hl|]. intros j Hj. rewrite Hn by exact Hj. now apply set_nth_ne.
Qed.
(** entry r0 holds the value at the last argument when there are more than r0 + 1 arguments *)
Lemma hyb_loop_app f r0 t1 t2 LL : hyb_loop f r0 (t1 ++ t2) LL = match hyb_loop f r0 t1 LL with Some L => hyb_loop f r0 t2 L | None => None end.
Proof. revert LL. induction t1 as [|i t1 IH]; intros LL; [reflexivity|]. cbn [hyb_loop app]. destruct (Nat.ltb r0 (length LL)); [apply IH|reflexivity]. Qed.
Lemma hyb_loop_last f r0 LL : (r0 + 1 < length LL)%nat -> exists L, hyb_loop f r0 (seq 0 (length LL)) LL = Some L /\ nth r0 L 0 = f (nth (length LL - 1) LL 0).
Proof.
  intros H. destruct (length LL) as [|m] eqn:El; [lia|]. rewrite seq_S. rewrite hyb_loop_app. destruct (hyb_loop_keeps f r0 (seq 0 m) LL) as (L & E & Hl & Hn); [lia|]. rewrite E. cbn [hyb_loop Nat.add].
  replace (Nat.ltb r0 (length L)) with true by (symmetry; apply Nat.ltb_lt; lia). eexists. split; [reflexivity|]. rewrite set_nth_eq by lia. rewrite Hn by lia. f_equal. f_equal. lia.
Qed.
Lemma hyb_small_one Gam p r0 texp u : gamma_function Gam -> u = 0 \/ u = 1 -> hyb_small Gam p r0 texp u = 1.
Proof.
  intros HG Hu. unfold hyb_small. cbv zeta. assert (Hnu : (u ^ 2 - u) / 2 = 0) by (destruct Hu as [-> | ->]; field). rewrite Hnu.
  set (A := hyb_a _ _ _ _ _ _). assert (Z : forall i, nth i (fst A) 0 = 0).
  { intros i. destruct (Nat.le_gt_cases i r0) as [H|H]; [unfold A; rewrite hyb_nth by exact H; now apply co_zero|]. apply nth_overflow. unfold A. rewrite (proj1 (hyb_len _ _ _ _ _ r0)). lia. }
  unfold I_1_FPS, I_2_FPS. cbv zeta. rewrite !rsum_eq0 by (intros q _; rewrite Z; unfold Rdiv; ring). rewrite !Rmult_0_l, !Rplus_0_l, !Rmult_0_r, Rplus_0_l. apply exp_0.
Qed.
Lemma hyb_large_one Gam p n r0 k0 texp u : gamma_function Gam -> u = 0 \/ u = 1 -> hyb_large Gam p n r0 k0 texp u = 1.
Proof.
  intros HG Hu. unfold hyb_large. cbv zeta. assert (Hnu : (u ^ 2 - u) / 2 = 0) by (destruct Hu as [-> | ->]; field). rewrite Hnu.
  set (A := hyb_a _ _ _ _ _ _). assert (Z : forall i, nth i (fst A) 0 = 0).
  { intros i. destruct (Nat.le_gt_cases i r0) as [H|H]; [unfold A; rewrite hyb_nth by exact H; now apply co_zero|]. apply nth_overflow. unfold A. rewrite (proj1 (hyb_len _ _ _ _ _ r0)). lia. }
  set (lambd := (rh_vov p * rh_mr p) ^ 2 / 2). set (mu := rh_mr p * (u * rh_rho p * rh_vov p - 1)). set (al := rh_alpha p).
  assert (W : forall m j, nth j (phi_n Gam al lambd mu 0 texp n r0 k0 (fst A) m) 0 = 0).
  { induction m as [|m IH]; intros j; [destruct j as [|[|j]]; reflexivity|]. cbn [phi_n]. cbv zeta.
    destruct (Nat.lt_ge_cases j (S m)) as [H|H]; [rewrite app_nth1 by (rewrite phi_len; lia); apply IH|]. rewrite app_nth2 by (rewrite phi_len; lia). rewrite phi_len.
    destruct (j - S m)%nat as [|q]; [|destruct q; reflexivity]. cbn [nth].
    destruct (Nat.leb (S m) k0); [unfold phi_t; apply rsum_eq0; intros q _; rewrite Z; ring|]. rewrite rsum_eq0 by (intros q _; rewrite IH; ring). unfold Rdiv. ring. }
  unfold I_1_PED, I_2_PED. cbv zeta. rewrite !rsum_eq0 by (intros q _; rewrite ?W, ?Z; unfold Rdiv; ring).
  rewrite !W. rewrite <- exp_0. f_equal. unfold Rdiv. ring.
Qed.
Lemma weight_sums Gam al delta k : gamma_function Gam -> 0 < al -> 0 < delta ->
  rsum (S k) (b_j_kp1 Gam al k delta) = Rpower (INR (S k) * delta) al / Gam (al + 1) /\
  rsum (S (S k)) (a_j_kp1 Gam al k delta) = Rpower (INR (S k) * delta) al / Gam (al + 1).
Proof.
  intros HG Ha Hd. pose proof (Gam_pos Gam HG al Ha) as GP. assert (G : 0 < Gam (al + 1)) by (apply (Gam_pos Gam HG); lra).
  assert (B : rsum (S k) (b_j_kp1 Gam al k delta) = Rpower (INR (S k) * delta) al / Gam (al + 1)).
  { transitivity (rsum (S k) (fun j => Rpower delta al / Gam (al + 1) * (- npow (INR (S k) - INR (S j)) al - - npow (INR (S k) - INR j) al))).
    - apply rsum_ext. intros j Hj. unfold b_j_kp1. rewrite !S_INR. replace (INR k + 1 - (INR j + 1)) with (INR k - INR j) by ring. replace (INR k + 1 - INR j) with (INR k - INR j + 1) by ring. field. lra.
    - rewrite rsum_scal, (rsum_tele (S k) (fun j => - npow (INR (S k) - INR j) al)). replace (INR (S k) - INR (S k)) with 0 by ring. rewrite npow_0 by exact Ha. change (INR 0) with 0. rewrite Rminus_0_r.
      assert (0 < INR (S k)) by (apply lt_0_INR; lia). rewrite npow_1 by lra. rewrite <- Rpower_mult_distr by lra. field. lra. }
  split; [exact B|]. rewrite <- B.
  assert (P1 := predictor Gam al delta k (fun _ => 1) (fun _ => 1) HG Ha Hd (fun m s _ => eq_refl)).
  assert (P2 := corrector Gam al delta k (fun _ => 1) (fun _ => 1) HG Ha Hd (fun m s _ => ltac:(lra))).
  pose proof (frac_unique _ _ _ _ _ _ GP P2 P1) as E. cbv beta in E. rewrite (rsum_scal_r (S (S k)) 1 (a_j_kp1 Gam al k delta)), (rsum_scal_r (S k) 1 (b_j_kp1 Gam al k delta)), !Rmult_1_r in E. exact E.
Qed.
