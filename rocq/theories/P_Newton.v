(** Derivatives of g = Phi / npdf: signs, bounds; towards the convergence of the implied-volatility iteration. *)
From Coq Require Import Reals Lra Lia Psatz.
From Coquelicot Require Import Coquelicot.
From Verif Require Import Base Gauss P_Black P_Gmom P_Half.
Open Scope R_scope.

Fixpoint gn (n : nat) (x : R) : R :=
  match n with
  | O => Phi x / npdf x
  | S O => 1 + x * (Phi x / npdf x)
  | S (S k as m) => x * gn m x + INR m * gn k x
  end.
Lemma gn_SS n x : gn (S (S n)) x = x * gn (S n) x + INR (S n) * gn n x.
Proof. reflexivity. Qed.
Lemma gn_1 x : gn 1 x = 1 + x * gn 0 x.
Proof. reflexivity. Qed.
Lemma idd (x : R) : is_derive (fun y : R => y) x 1.
Proof. auto_derive; [exact I|reflexivity]. Qed.
Lemma gn_derive n : forall x : R, is_derive (gn n) x (gn (S n) x).
Proof.
  enough (H : (forall x : R, is_derive (gn n) x (gn (S n) x)) /\ (forall x : R, is_derive (gn (S n)) x (gn (S (S n)) x))) by apply H.
  induction n as [|n [IH1 IH2]].
  - assert (D0 : forall x : R, is_derive (gn 0) x (gn 1 x)).
    { intros x. eapply is_derive_eq; [exact (is_derive_Mills x)|]. rewrite gn_1. cbn [gn]. unfold gfun. pose proof (npdf_pos x). field. lra. }
    split; [exact D0|]. intros x.
    apply (is_derive_ext (fun x => 1 + x * gn 0 x)); [intros; reflexivity|].
    eapply is_derive_eq; [apply (is_derive_plus (V := R_NormedModule) (fun _ => 1) (fun x => x * gn 0 x)); [apply is_derive_const_R|apply (is_derive_mult_R (fun x => x) (gn 0) x 1 (gn 1 x)); [exact (idd x)|apply D0]]|].
    rewrite gn_SS. transitivity (0 + (1 * gn 0 x + x * gn 1 x)); [reflexivity|]. cbn [INR]. ring.
  - split; [exact IH2|]. intros x. apply (is_derive_ext (fun x => x * gn (S n) x + INR (S n) * gn n x)); [intros; reflexivity|].
    eapply is_derive_eq; [apply (is_derive_plus (V := R_NormedModule) (fun x => x * gn (S n) x) (fun x => INR (S n) * gn n x));
      [apply (is_derive_mult_R (fun x => x) (gn (S n)) x 1 (gn (S (S n)) x)); [exact (idd x)|apply IH2]|apply (is_derive_scal_R (gn n) (INR (S n)) x (gn (S n) x)), IH1]|].
    rewrite (gn_SS (S n) x). rewrite (S_INR (S n)). transitivity (1 * gn (S n) x + x * gn (S (S n)) x + INR (S n) * gn (S n) x); [reflexivity|]. ring.
Qed.
(** decay at minus infinity *)
Lemma pow_npdf_gen k : is_lim (fun b => b ^ k * npdf b) p_infty 0.
Proof.
  apply (is_lim_le_le_loc (fun _ => 0) (fun b => / sqrt (2 * PI) * (Rpower b (INR k) * exp (- (1) * b)))).
  - exists 2. intros b Hb. pose proof sqrt_2PI_pos as Hq. pose proof (npdf_pos b). split.
    + apply Rmult_le_pos; [apply pow_le; lra|lra].
    + rewrite Rpower_pow by lra. unfold npdf. apply Rle_trans with (/ sqrt (2 * PI) * (b ^ k * exp (- (b * b) / 2))).
      * right. unfold Rdiv. ring.
      * apply Rmult_le_compat_l; [left; now apply Rinv_0_lt_compat|]. apply Rmult_le_compat_l; [apply pow_le; lra|]. apply exp_le. nra.
  - apply is_lim_const.
  - replace (Finite 0) with (Rbar_mult (/ sqrt (2 * PI)) 0) by (cbn; f_equal; ring). apply is_lim_scal_l. apply powexp_lim_p; [lra|apply pos_INR].
Qed.

Lemma pow_npdf_m k : is_lim (fun b => b ^ k * npdf b) m_infty 0.
Proof.
  apply (is_lim_ext (fun b => (-1) ^ k * ((- b) ^ k * npdf (- b)))).
  { intros b. rewrite npdf_even. replace (- b) with (-1 * b) by ring. rewrite Rpow_mult_distr, <- Rmult_assoc, <- Rmult_assoc, <- Rpow_mult_distr. replace (-1 * -1) with 1 by ring. rewrite pow1. ring. }
  replace (Finite 0) with (Rbar_mult ((-1) ^ k) 0) by (cbn; f_equal; ring). apply is_lim_scal_l.
  apply (is_lim_comp (fun y => y ^ k * npdf y) (fun b => - b) m_infty 0 p_infty); [apply pow_npdf_gen| |exists 0; intros; discriminate].
  replace p_infty with (Rbar_opp m_infty) by reflexivity. apply is_lim_opp, is_lim_id.
Qed.
Lemma is_lim_abs0 f : is_lim f m_infty 0 -> is_lim (fun b => Rabs (f b)) m_infty 0.
Proof.
  intros H. apply is_lim_spec in H. apply is_lim_spec. intros e. destruct (H e) as [M HM]. exists M. intros x Hx. specialize (HM x Hx). rewrite Rminus_0_r in *. rewrite Rabs_Rabsolu. exact HM.
Qed.
Lemma phi_m n : forall k, is_lim (fun b => b ^ k * (npdf b * gn n b)) m_infty 0.
Proof.
  enough (H : (forall k, is_lim (fun b => b ^ k * (npdf b * gn n b)) m_infty 0) /\ (forall k, is_lim (fun b => b ^ k * (npdf b * gn (S n) b)) m_infty 0)) by apply H.
  induction n as [|n [IH1 IH2]].
  - assert (D0 : forall k, is_lim (fun b => b ^ k * (npdf b * gn 0 b)) m_infty 0).
    { intros k. apply (is_lim_le_le_loc (fun b => - Rabs (b ^ k * npdf b)) (fun b => Rabs (b ^ k * npdf b))).
      - exists (-1). intros b Hb. apply Rabs_le_between. rewrite !Rabs_mult. apply Rmult_le_compat_l; [apply Rabs_pos|]. cbn [gn]. pose proof (npdf_pos b) as Hn. pose proof (Phi_pos b) as HP.
        rewrite (Rabs_pos_eq (npdf b)), (Rabs_pos_eq (Phi b / npdf b)) by (try (apply Rlt_le, Rdiv_lt_0_compat; assumption); lra). pose proof (gfun_pos b) as G. unfold gfun in G.
        replace (npdf b * (Phi b / npdf b)) with (Phi b) by (field; lra). nra.
      - replace (Finite 0) with (Finite (- 0)) by (f_equal; ring). apply (is_lim_opp _ _ (Finite 0)). exact (is_lim_abs0 _ (pow_npdf_m k)).
      - exact (is_lim_abs0 _ (pow_npdf_m k)). }
    split; [exact D0|]. intros k. apply (is_lim_ext (fun b => b ^ k * npdf b + b ^ S k * (npdf b * gn 0 b))).
    { intros b. rewrite gn_1. cbn [pow]. ring. }
    replace (Finite 0) with (Finite (0 + 0)) by (f_equal; ring). apply is_lim_plus'; [apply pow_npdf_m|apply D0].
  - split; [exact IH2|]. intros k. apply (is_lim_ext (fun b => b ^ S k * (npdf b * gn (S n) b) + INR (S n) * (b ^ k * (npdf b * gn n b)))).
    { intros b. rewrite (gn_SS n b). cbn [pow]. ring. }
    replace (Finite 0) with (Finite (0 + INR (S n) * 0)) by (f_equal; ring). apply is_lim_plus'; [apply IH2|]. apply (is_lim_scal_l _ (INR (S n)) m_infty 0), IH1.
Qed.
Lemma pos_of_m (f df : R -> R) : (forall x, is_derive f x (df x)) -> (forall x, 0 < df x) -> is_lim f m_infty 0 -> forall x, 0 < f x.
Proof.
  intros Hd Hp Hl x. pose proof (strictly_increasing_of_derive f df Hd Hp) as Hi.
  apply Rle_lt_trans with (f (x - 1)); [|apply Hi; lra].
  apply Rnot_lt_le. intros Hneg. apply is_lim_spec in Hl. destruct (Hl (mkposreal (- f (x - 1)) ltac:(lra))) as [M HM]. cbn in HM.
  specialize (HM (Rmin M (x - 1) - 1) ltac:(pose proof (Rmin_l M (x - 1)); lra)). rewrite Rminus_0_r in HM. apply Rabs_def2 in HM.
  pose proof (Hi (Rmin M (x - 1) - 1) (x - 1) ltac:(pose proof (Rmin_r M (x - 1)); lra)). lra.
Qed.
Lemma gn_pos n : forall x, 0 < gn n x.
Proof.
  induction n as [|n IH]; intros x.
  - cbn [gn]. apply Rdiv_lt_0_compat; [apply Phi_pos|apply npdf_pos].
  - apply (Rmult_lt_reg_l (npdf x)); [apply npdf_pos|]. rewrite Rmult_0_r.
    apply (pos_of_m (fun b => npdf b * gn (S n) b) (fun b => INR (S n) * (npdf b * gn n b))).
    + intros b. eapply is_derive_eq; [apply (is_derive_mult_R npdf (gn (S n)) b (- b * npdf b) (gn (S (S n)) b)); [apply is_derive_npdf|apply gn_derive]|]. rewrite gn_SS. ring.
    + intros b. apply Rmult_lt_0_compat; [apply lt_0_INR; lia|]. apply Rmult_lt_0_compat; [apply npdf_pos|apply IH].
    + apply (is_lim_ext (fun b => b ^ 0 * (npdf b * gn (S n) b))); [intros; cbn [pow]; ring|]. apply (phi_m (S n) 0).
Qed.
Lemma gn_incr n x y : x < y -> gn n x < gn n y.
Proof. apply (strictly_increasing_of_derive (gn n) (gn (S n))); [apply gn_derive|apply gn_pos]. Qed.
Lemma gn_mono n x y : x <= y -> gn n x <= gn n y.
Proof. intros [H|<-]; [left; now apply gn_incr|lra]. Qed.
Lemma gn_step n x : x < 0 -> - x * gn (S n) x <= INR (S n) * gn n x.
Proof. intros Hx. pose proof (gn_pos (S (S n)) x) as H. rewrite gn_SS in H. lra. Qed.
(** 1/(x^2+3) < g'(x) < 1/(x^2+1) for x <= 0 *)
Lemma g1_upper x : x <= 0 -> gn 1 x * (1 + x ^ 2) <= 1.
Proof. intros Hx. pose proof (gn_pos 2 x) as H. rewrite gn_SS in H. cbn [INR] in H. rewrite gn_1 in *. nra. Qed.
Lemma g1_lower x : 1 <= gn 1 x * (x ^ 2 + 3).
Proof. pose proof (gn_pos 3 x) as H. rewrite !gn_SS in H. cbn [INR] in H. rewrite !gn_1 in *. lra. Qed.
(** g^2 > g' *)
Lemma sampford x : gn 1 x < gn 0 x ^ 2.
Proof.
  enough (H : 0 < (gn 0 x ^ 2 - gn 1 x) * exp (- (x * x))). { pose proof (exp_pos (- (x * x))). nra. }
  apply (pos_of_m (fun b => (gn 0 b ^ 2 - gn 1 b) * exp (- (b * b))) (fun b => gn 2 b * exp (- (b * b)))).
  - intros b. eapply is_derive_eq.
    + apply (is_derive_mult_R (fun b => gn 0 b ^ 2 - gn 1 b) (fun b => exp (- (b * b))) b (2 * gn 0 b * gn 1 b - gn 2 b) (- 2 * b * exp (- (b * b)))).
      * apply (is_derive_minus_R (fun b => gn 0 b ^ 2) (gn 1)); [|apply gn_derive].
        apply (is_derive_ext (fun b => gn 0 b * gn 0 b)); [intros t; Req; ring|]. eapply is_derive_eq; [apply (is_derive_mult_R (gn 0) (gn 0) b (gn 1 b) (gn 1 b)); apply gn_derive|Req; ring].
      * auto_derive; [exact I|]. Req. ring.
    + rewrite (gn_SS 0). rewrite (gn_1 b). cbn [INR]. ring.
  - intros b. apply Rmult_lt_0_compat; [apply gn_pos|apply exp_pos].
  - apply (is_lim_ext (fun b => 2 * PI * ((b ^ 0 * (npdf b * gn 0 b)) ^ 2 - (b ^ 0 * npdf b) * (b ^ 0 * (npdf b * gn 1 b))))).
    { intros b. cbn [pow]. assert (E : npdf b * npdf b * (2 * PI) = exp (- (b * b))).
      { unfold npdf. pose proof PI_RGT_0. pose proof sqrt_2PI_pos. rewrite <- (sqrt_sqrt (2 * PI)) at 3 by lra.
        replace (exp (- (b * b))) with (exp (- (b * b) / 2) * exp (- (b * b) / 2)) by (rewrite <- exp_plus; f_equal; field). field. lra. }
      rewrite <- E. ring. }
    replace (Finite 0) with (Finite (2 * PI * (0 * (0 * 1) - 0 * 0))) by (f_equal; ring). apply (is_lim_scal_l _ (2 * PI) m_infty (0 * (0 * 1) - 0 * 0)). apply is_lim_minus'.
    + apply (is_lim_ext (fun b => b ^ 0 * (npdf b * gn 0 b) * (b ^ 0 * (npdf b * gn 0 b)))); [intros; ring|]. replace (0 * (0 * 1)) with (0 * 0) by ring.
      apply (is_lim_mult _ _ m_infty 0 0 (phi_m 0 0) (phi_m 0 0)). reflexivity.
    + apply (is_lim_mult _ _ m_infty 0 0 (pow_npdf_m 0) (phi_m 1 0)). reflexivity.
Qed.
