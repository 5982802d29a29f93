(** price, cond_spot_sigma and priceCMC of heston_rough_mc.py. *)
From Coq Require Import Reals List Lra Lia Psatz Arith.
From Coquelicot Require Import Coquelicot.
From Verif Require Import Base Sums Spec_Opt Spec_Expect P_Expect P_Gmom P_Conv2 P_KlLaw M_Fd M_Opt P_Bsm M_Rough M_RoughMc Spec_RoughMc.
Import ListNotations.
Open Scope R_scope.
Lemma upd_ne z n y i : i <> n -> upd z n y i = z i. Proof. intros H. unfold upd. now rewrite (proj2 (Nat.eqb_neq i n) H). Qed.
Lemma upd_eq z n y : upd z n y n = y. Proof. unfold upd. now rewrite Nat.eqb_refl. Qed.
(** random_normals: standard, with correlation rho *)
Lemma rn_moments p : rh_rho p ^ 2 <= 1 ->
  normals_expect 2 (fun z => snd (rm_normals p (z 0%nat) (z 1%nat))) 0 /\ normals_expect 2 (fun z => snd (rm_normals p (z 0%nat) (z 1%nat)) ^ 2) 1 /\
  normals_expect 2 (fun z => fst (rm_normals p (z 0%nat) (z 1%nat)) * snd (rm_normals p (z 0%nat) (z 1%nat))) (rh_rho p).
Proof.
  intros Hr. set (r := rh_rho p) in *. set (c := sqrt (1 - r ^ 2)). assert (Ec : c ^ 2 = 1 - r ^ 2) by (unfold c; apply pow2_sqrt; lra).
  assert (G : forall a0 a1 a2 m, a0 + a2 = m -> gauss_expect (fun y => a0 + a1 * y + a2 * y ^ 2) m).
  { intros a0 a1 a2 m <-.
    assert (Z := gauss_expect_plus _ _ _ _ (gauss_expect_plus _ _ _ _ (gauss_expect_const a0) (gauss_expect_scal _ _ a1 gauss_z1)) (gauss_expect_scal _ _ a2 gauss_z2)). cbv beta in Z. replace (a0 + a1 * 0 + a2 * 1) with (a0 + a2) in Z by ring. exact Z. }
  assert (X : forall a0 a1 a2 b0 b1 b2 m F, (forall x y, F x y = (a0 + a1 * x + a2 * x ^ 2) + (b0 + b1 * x) * y + b2 * y ^ 2) -> a0 + a2 + b2 = m -> normals_expect 2 (fun z => F (z 0%nat) (z 1%nat)) m).
  { intros a0 a1 a2 b0 b1 b2 m F HF Hm. exists (fun z => (a0 + a1 * z 0%nat + a2 * z 0%nat ^ 2) + b2). split.
    - intros z. eapply gauss_expect_ext; [|apply (G (a0 + a1 * z 0%nat + a2 * z 0%nat ^ 2) (b0 + b1 * z 0%nat) b2); reflexivity]. intros y. cbv beta. rewrite upd_eq, upd_ne by lia. rewrite HF. ring.
    - exists (fun _ => m). split; [|intros z; reflexivity]. intros z. eapply gauss_expect_ext; [|apply (G (a0 + b2) a1 a2); lra]. intros y. cbv beta. rewrite upd_eq. ring. }
  unfold rm_normals. cbn [fst snd]. fold r. fold c. clearbody c. split; [|split].
  - apply (X 0 r 0 c 0 0 0 (fun x y => r * x + c * y)); [intros; ring|ring].
  - apply (X 0 0 (r ^ 2) 0 (2 * r * c) (c ^ 2) 1 (fun x y => (r * x + c * y) ^ 2)); [intros; ring|rewrite Ec; ring].
  - apply (X 0 0 r 0 c 0 r (fun x y => x * (r * x + c * y))); [intros; ring|ring].
Qed.
Lemma ge_lin (a b : R) : gauss_expect (fun y => exp (a + b * y)) (exp (a + b ^ 2 / 2)).
Proof.
  rewrite exp_plus. eapply gauss_expect_ext; [|replace (b ^ 2 / 2) with (b * b / 2) by (unfold Rdiv; ring); exact (gauss_expect_scal _ _ (exp a) (gauss_mgf b))].
  intros y. cbv beta. now rewrite exp_plus.
Qed.
(** price *)
Lemma logprice_local intr spot dt (V V' W W' : nat -> R) m : (forall k, (k < m)%nat -> V k = V' k /\ W k = W' k) -> rm_logprice intr spot dt V W m = rm_logprice intr spot dt V' W' m.
Proof. induction m; intros H; [reflexivity|]. cbn [rm_logprice]. rewrite IHm by (intros; apply H; lia). destruct (H m ltac:(lia)) as [-> ->]. reflexivity. Qed.
Section PR.
Variables (p : rhp) (intr spot dt : R) (V : (nat -> R) -> nat -> R).
Hypothesis (Hr : rh_rho p ^ 2 <= 1) (Hs : 0 < spot) (Hdt : 0 <= dt) (HV : adapted 2 V) (HV0 : forall z k, 0 <= V z k).
Let W (z : nat -> R) (k : nat) : R := snd (rm_normals p (z (2 * k)%nat) (z (2 * k + 1)%nat)).
Lemma price_mean m : normals_expect (2 * m) (fun z => exp (rm_logprice intr spot dt (V z) (W z) m)) (spot * exp (INR m * intr)).
Proof.
  induction m.
  - intros z. cbn [rm_logprice INR]. rewrite Rmult_0_l, exp_0, Rmult_1_r. now apply exp_ln.
  - replace (2 * S m)%nat with (S (S (2 * m))) by lia. set (r := rh_rho p) in *. set (c := sqrt (1 - r ^ 2)). assert (Ec : c ^ 2 = 1 - r ^ 2) by (unfold c; apply pow2_sqrt; lra).
    set (X := fun z => rm_logprice intr spot dt (V z) (W z) m). set (v := fun z => V z m * dt). assert (Pv : forall z, 0 <= v z) by (intros z; apply Rmult_le_pos; [apply HV0|exact Hdt]).
    assert (LX : forall z i y, (2 * m <= i)%nat -> X (upd z i y) = X z).
    { intros z i y Hi. unfold X. apply logprice_local. intros k Hk. split; [apply HV; intros l Hl; apply upd_ne; lia|]. unfold W. now rewrite !upd_ne by lia. }
    assert (Lv : forall z i y, (2 * m <= i)%nat -> v (upd z i y) = v z). { intros z i y Hi. unfold v. f_equal. apply HV. intros l Hl. apply upd_ne. lia. }
    exists (fun z => exp (X z + intr - / 2 * v z + sqrt (v z) * (r * z (2 * m)%nat) + (sqrt (v z) * c) ^ 2 / 2)). split.
    + intros z. eapply gauss_expect_ext; [|exact (eq_ind _ (gauss_expect _) (ge_lin (X z + intr - / 2 * v z + sqrt (v z) * (r * z (2 * m)%nat)) (sqrt (v z) * c)) _ eq_refl)].
      intros y. cbv beta. f_equal. cbn [rm_logprice]. fold (X (upd z (S (2 * m)) y)). rewrite LX by lia. fold (v (upd z (S (2 * m)) y)). change (V (upd z (S (2 * m)) y) m * dt) with (v (upd z (S (2 * m)) y)).
      rewrite (Rmult_assoc (/ 2)). change (V (upd z (S (2 * m)) y) m * dt) with (v (upd z (S (2 * m)) y)). rewrite Lv by lia. unfold W, rm_normals. cbn [snd]. replace (2 * m + 1)%nat with (S (2 * m)) by lia. rewrite upd_eq, upd_ne by lia. fold r c. ring.
    + exists (fun z => exp intr * exp (X z)). split.
      * intros z. eapply gauss_expect_ext; [|]. 2: { replace (exp intr * exp (X z)) with (exp (X z + intr - / 2 * v z + (sqrt (v z) * c) ^ 2 / 2 + (sqrt (v z) * r) ^ 2 / 2)); [exact (ge_lin (X z + intr - / 2 * v z + (sqrt (v z) * c) ^ 2 / 2) (sqrt (v z) * r))|].
          rewrite <- exp_plus. f_equal. rewrite !Rpow_mult_distr, pow2_sqrt, Ec by apply Pv. field. }
        intros y. cbv beta. rewrite LX, Lv, upd_eq by lia. f_equal. ring.
      * rewrite S_INR. replace (spot * exp ((INR m + 1) * intr)) with (exp intr * (spot * exp (INR m * intr))); [|rewrite Rmult_plus_distr_r, Rmult_1_l, exp_plus; ring]. apply normals_scal. exact IHm.
Qed.
Lemma payoff_parity texp n (Vp Wp : nat -> R) K : rm_payoff intr texp spot n Vp Wp K 1 - rm_payoff intr texp spot n Vp Wp K (- (1)) =
  exp (- texp * intr) * (exp (rm_logprice intr spot (rm_dt texp n) Vp Wp (n - 1)) - K).
Proof.
  unfold rm_payoff. set (S := exp (rm_logprice intr spot (rm_dt texp n) Vp Wp (n - 1))). rewrite <- Rmult_minus_distr_l. f_equal.
  destruct (Rle_dec 0 (S - K)); [rewrite (Rmax_right 0 (1 * (S - K))), (Rmax_left 0 (- (1) * (S - K))) by lra|rewrite (Rmax_left 0 (1 * (S - K))), (Rmax_right 0 (- (1) * (S - K))) by lra]; ring.
Qed.
End PR.
Lemma price_parity p intr spot texp (n : nat) V K : rh_rho p ^ 2 <= 1 -> 0 < spot -> 0 < texp -> (0 < n)%nat -> adapted 2 V -> (forall z k, 0 <= V z k) ->
  normals_expect (2 * (n - 1)) (fun z => rm_payoff intr texp spot n (V z) (fun k => snd (rm_normals p (z (2 * k)%nat) (z (2 * k + 1)%nat))) K 1 -
     rm_payoff intr texp spot n (V z) (fun k => snd (rm_normals p (z (2 * k)%nat) (z (2 * k + 1)%nat))) K (- (1))) (DF intr texp * (spot * exp ((INR n - 1) * intr) - K)).
Proof.
  intros Hr Hs HT Hn HV HV0. assert (Pd : 0 <= rm_dt texp n). { unfold rm_dt. left. apply Rdiv_lt_0_compat; [exact HT|]. apply lt_0_INR. exact Hn. }
  pose proof (price_mean p intr spot (rm_dt texp n) V Hr Hs Pd HV HV0 (n - 1)) as M. pose proof (normals_scal _ _ _ (exp (- texp * intr)) (normals_plus _ _ _ _ _ M (normals_const _ (- K)))) as M2.
  rewrite minus_INR in M2 by lia. cbn [INR] in M2. unfold DF. replace (- (intr * texp)) with (- texp * intr) by ring. eapply normals_ext; [|exact M2].
  intros z. cbv beta. rewrite payoff_parity. reflexivity.
Qed.
Lemma price_parity_right intr divr spot texp (n : nat) K : 0 < spot ->
  DF intr texp * (spot * exp ((INR n - 1) * intr) - K) = DF intr texp * (FWD intr divr false spot texp - K) <-> (INR n - 1) * intr = (intr - divr) * texp.
Proof.
  intros Hs. unfold FWD. assert (P : 0 < DF intr texp) by apply exp_pos. split; intros E.
  - apply Rmult_eq_reg_l in E; [|lra]. assert (E2 : exp ((INR n - 1) * intr) = exp ((intr - divr) * texp)) by (apply Rmult_eq_reg_l with spot; lra). now apply exp_inv.
  - now rewrite E.
Qed.
Lemma payoff_local intr texp spot n (V V' W W' : nat -> R) K cp : (forall k, (S k < n)%nat -> V k = V' k /\ W k = W' k) -> rm_payoff intr texp spot n V W K cp = rm_payoff intr texp spot n V' W' K cp.
Proof. intros H. unfold rm_payoff. rewrite (logprice_local intr spot _ V V' W W') by (intros k Hk; apply H; lia). reflexivity. Qed.
(** cond_spot_sigma *)
Lemma trapz_left dt n (V : nat -> R) : rm_trapz dt n V = rsum n (fun i => V i * dt) + dt * (V n - V 0%nat) / 2.
Proof.
  unfold rm_trapz. rewrite (rsum_ext n _ (fun i => V i * dt + dt / 2 * (V (S i) - V i))) by (intros; field). rewrite rsum_plus, rsum_scal, (rsum_tele n V). field.
Qed.
Section CF.
Variables (rho dt : R) (V : (nat -> R) -> nat -> R).
Hypothesis (Hdt : 0 <= dt) (HV : adapted 1 V) (HV0 : forall z k, 0 <= V z k).
Lemma euler_mart m : normals_expect m (fun z => exp (rho * rsum m (fun i => sqrt (V z i * dt) * z i) - / 2 * rho ^ 2 * rsum m (fun i => V z i * dt))) 1.
Proof.
  induction m.
  - intros z. cbn [rsum]. replace (rho * 0 - / 2 * rho ^ 2 * 0) with 0 by ring. apply exp_0.
  - set (X := fun z => rho * rsum m (fun i => sqrt (V z i * dt) * z i) - / 2 * rho ^ 2 * rsum m (fun i => V z i * dt)).
    exists (fun z => exp (X z)). split; [|exact IHm]. intros z.
    assert (Pv : 0 <= V z m * dt) by (apply Rmult_le_pos; [apply HV0|exact Hdt]).
    eapply gauss_expect_ext. 2: { replace (X z) with (X z - / 2 * rho ^ 2 * (V z m * dt) + (rho * sqrt (V z m * dt)) ^ 2 / 2); [exact (ge_lin (X z - / 2 * rho ^ 2 * (V z m * dt)) (rho * sqrt (V z m * dt)))|]. rewrite Rpow_mult_distr, pow2_sqrt by exact Pv. field. }
    intros y. cbv beta. f_equal. cbn [rsum]. rewrite upd_eq. assert (A : forall k, (k <= m)%nat -> V (upd z m y) k = V z k) by (intros k Hk; apply HV; intros i Hi; apply upd_ne; lia).
    rewrite (A m) by lia. rewrite (rsum_ext m (fun i => sqrt (V (upd z m y) i * dt) * upd z m y i) (fun i => sqrt (V z i * dt) * z i)) by (intros k Hk; rewrite A, upd_ne by lia; reflexivity).
    rewrite (rsum_ext m (fun i => V (upd z m y) i * dt) (fun i => V z i * dt)) by (intros k Hk; now rewrite A by lia). unfold X. ring.
Qed.
End CF.
Lemma dt_nonneg texp n : 0 < texp -> (0 < n)%nat -> 0 <= rm_dt texp n.
Proof. intros HT Hn. unfold rm_dt. left. apply Rdiv_lt_0_compat; [exact HT|]. now apply lt_0_INR. Qed.
Lemma rm_forward_fwd intr divr texp spot : rm_forward intr divr texp spot = FWD intr divr false spot texp.
Proof. unfold rm_forward, FWD, Rdiv. rewrite <- exp_Ropp, Rmult_assoc, <- exp_plus. f_equal. f_equal. ring. Qed.
Lemma cond_fwd_mean p intr divr texp spot n V : 0 < texp -> (0 < n)%nat -> adapted 1 V -> (forall z k, 0 <= V z k) ->
  normals_expect n (fun z => rm_cond_fwd p intr divr texp spot n (V z) z * exp (rh_rho p ^ 2 * rm_dt texp n * (V z n - V z 0%nat) / 4)) (FWD intr divr false spot texp * exp (intr * texp)).
Proof.
  intros HT Hn HV HV0. pose proof (euler_mart (rh_rho p) (rm_dt texp n) V (dt_nonneg texp n HT Hn) HV HV0 n) as M.
  pose proof (normals_scal _ _ _ (FWD intr divr false spot texp * exp (intr * texp)) M) as M2. rewrite Rmult_1_r in M2. eapply normals_ext; [|exact M2].
  intros z. cbv beta. unfold rm_cond_fwd. rewrite rm_forward_fwd, trapz_left. rewrite !Rmult_assoc. f_equal. rewrite <- !exp_plus. f_equal. field.
Qed.
Lemma cond_fwd_det p intr divr texp spot n (V : nat -> R) : 0 < texp -> (0 < n)%nat -> (forall k, 0 <= V k) ->
  normals_expect n (fun z => rm_cond_fwd p intr divr texp spot n V z) (FWD intr divr false spot texp * exp (intr * texp) * exp (rh_rho p ^ 2 * rm_dt texp n * (V 0%nat - V n) / 4)).
Proof.
  intros HT Hn HV0. pose proof (cond_fwd_mean p intr divr texp spot n (fun _ => V) HT Hn (fun _ _ _ _ => eq_refl) (fun _ => HV0)) as M.
  pose proof (normals_scal _ _ _ (exp (rh_rho p ^ 2 * rm_dt texp n * (V 0%nat - V n) / 4)) M) as M2. rewrite Rmult_comm. eapply normals_ext; [|exact M2].
  intros z. cbv beta. set (a := rh_rho p ^ 2 * rm_dt texp n). replace (a * (V 0%nat - V n) / 4) with (- (a * (V n - V 0%nat) / 4)) by field. rewrite exp_Ropp. field. apply Rgt_not_eq, exp_pos.
Qed.
Lemma cond_sigma_var p texp n V : 0 < texp -> (0 < n)%nat -> rh_rho p ^ 2 <= 1 -> (forall k, (k <= n)%nat -> 0 <= V k) ->
  rm_cond_sigma p texp n V ^ 2 * texp = (1 - rh_rho p ^ 2) * rm_trapz (rm_dt texp n) n V.
Proof.
  intros HT Hn Hr HV. unfold rm_cond_sigma. assert (0 <= rm_trapz (rm_dt texp n) n V). { unfold rm_trapz. apply rsum_nonneg. intros i Hi. pose proof (HV i ltac:(lia)). pose proof (HV (S i) ltac:(lia)). pose proof (dt_nonneg texp n HT Hn). nra. }
  rewrite pow2_sqrt; [field; lra|]. apply Rmult_le_pos; [nra|left; now apply Rinv_0_lt_compat].
Qed.
(** correct_fwd *)
Lemma mean_scal (c : R) l : rm_mean (map (fun x => c * x) l) = c * rm_mean l.
Proof. unfold rm_mean. rewrite (lsum_map_scal c (fun x => x)), map_id, map_length. unfold Rdiv. ring. Qed.
Lemma scaled_mean intr divr texp spot cf : rm_mean cf <> 0 -> rm_mean (rm_scaled intr divr texp spot cf) = FWD intr divr false spot texp * exp (intr * texp).
Proof. intros H. unfold rm_scaled. rewrite mean_scal, rm_forward_fwd. field. exact H. Qed.
(** priceCMC *)
Lemma mean_minus {A} (f g : A -> R) l : rm_mean (map (fun a => f a - g a) l) = rm_mean (map f l) - rm_mean (map g l).
Proof. unfold rm_mean. rewrite !map_length, lsum_map_minus. unfold Rdiv. ring. Qed.
Lemma cmc_parity intr divr isf texp (cf : list (R * R)) ks i : cf <> [] -> (i < length ks)%nat ->
  exists C P, rm_price_cmc intr divr isf texp cf (Some ks) 1 = Some C /\ rm_price_cmc intr divr isf texp cf (Some ks) (-1) = Some P /\
    length C = length ks /\ length P = length ks /\
    nth i C 0 - nth i P 0 = DF intr texp * (FWD intr divr isf (rm_mean (map fst cf)) texp - nth i ks 0).
Proof.
  intros Hc Hi. unfold rm_price_cmc. eexists; eexists. split; [reflexivity|]. split; [reflexivity|]. rewrite !map_length. split; [reflexivity|]. split; [reflexivity|].
  set (fC := fun cp k => rm_mean (map (fun q => bsm_price (mkOpt (snd q) intr divr isf) k (fst q) texp cp) cf)).
  rewrite (nth_indep _ 0 (fC 1 0)), (nth_indep (map (fC (-1)) ks) 0 (fC (-1) 0)) by now rewrite map_length. rewrite !map_nth. set (k := nth i ks 0). unfold fC. rewrite <- mean_minus.
  rewrite (map_ext _ (fun q => DF intr texp * (FWD intr divr isf (fst q) texp - k))) by (intros q; exact (bsm_parity (mkOpt (snd q) intr divr isf) k (fst q) texp)).
  set (g := if isf then 1 else exp ((intr - divr) * texp)). assert (EF : forall s, FWD intr divr isf s texp = g * s) by (intros s; unfold FWD, g; destruct isf; ring).
  rewrite (map_ext _ (fun q => DF intr texp * (g * fst q - k))) by (intros q; now rewrite EF). rewrite EF. unfold rm_mean. rewrite !map_length, lsum_map_scal, lsum_map_minus, lsum_map_scal, lsum_map_const.
  assert (INR (length cf) <> 0) by (destruct cf; [congruence|]; apply not_0_INR; cbn; lia). field. assumption.
Qed.
(** put together: with correct_fwd the strip satisfies parity about the wrong forward *)
Lemma cmc_scaled_parity intr divr texp spot (cf : list (R * R)) ks i : rm_mean (map fst cf) <> 0 -> (i < length ks)%nat ->
  exists C P, rm_price_cmc intr divr false texp (combine (rm_scaled intr divr texp spot (map fst cf)) (map snd cf)) (Some ks) 1 = Some C /\
    rm_price_cmc intr divr false texp (combine (rm_scaled intr divr texp spot (map fst cf)) (map snd cf)) (Some ks) (-1) = Some P /\
    nth i C 0 - nth i P 0 = spot * exp (2 * (intr - divr) * texp) - nth i ks 0 * DF intr texp.
Proof.
  intros Hm Hi. assert (Hc : cf <> []) by (intros ->; apply Hm; unfold rm_mean; cbn; field || (unfold Rdiv; ring)).
  set (c2 := combine (rm_scaled intr divr texp spot (map fst cf)) (map snd cf)).
  assert (F2 : map fst c2 = rm_scaled intr divr texp spot (map fst cf)).
  { unfold c2. assert (L : length (rm_scaled intr divr texp spot (map fst cf)) = length (map snd cf)) by (unfold rm_scaled; now rewrite !map_length). revert L. generalize (rm_scaled intr divr texp spot (map fst cf)) (map snd cf). induction l; intros [|b l2]; cbn; try discriminate; [reflexivity|]. intros [= L]. f_equal. now apply IHl. }
  assert (Hc2 : c2 <> []). { intros E. rewrite E in F2. unfold rm_scaled in F2. destruct cf; [congruence|discriminate]. }
  destruct (cmc_parity intr divr false texp c2 ks i Hc2 Hi) as [C [P (E1 & E2 & _ & _ & E3)]]. exists C, P. split; [exact E1|]. split; [exact E2|]. rewrite E3, F2, scaled_mean by exact Hm. unfold FWD, DF.
  replace (2 * (intr - divr) * texp) with (- (intr * texp) + ((intr - divr) * texp + intr * texp + (intr - divr) * texp)) by ring. rewrite !exp_plus. ring.
Qed.
Lemma cmc_parity_right intr divr texp spot K : 0 < spot -> 0 < texp ->
  spot * exp (2 * (intr - divr) * texp) - K * DF intr texp = DF intr texp * (FWD intr divr false spot texp - K) <-> 2 * intr = divr.
Proof.
  intros Hs HT. unfold DF, FWD. assert (E0 : exp (- (intr * texp)) * (spot * exp ((intr - divr) * texp)) = spot * exp (- divr * texp)). { replace (- divr * texp) with (- (intr * texp) + (intr - divr) * texp) by ring. rewrite exp_plus. ring. }
  rewrite (Rmult_minus_distr_l (exp (- (intr * texp)))), E0. split; intros E.
  - assert (E2 : exp (2 * (intr - divr) * texp) = exp (- divr * texp)) by (apply Rmult_eq_reg_l with spot; lra). apply exp_inv in E2. apply Rmult_eq_reg_r with texp; [|lra]. lra.
  - replace (2 * (intr - divr) * texp) with (- divr * texp) by (rewrite <- E; ring). ring.
Qed.
