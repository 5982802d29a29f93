(** Gamma expansion of the Heston average variance: closed-form remainders are the exact tails. *)
From Coq Require Import Reals Lra Lia Arith Psatz.
From Coquelicot Require Import Coquelicot.
From Verif Require Import Base Sums M_Heston M_Ou P_Kl P_Fejer P_KlSum P_Zeta M_HestonMc Spec_Dist Spec_Cev Spec_CevMc Spec_HestonMc.
Open Scope R_scope.

Lemma series_le (a b : nat -> R) la lb : is_series a la -> is_series b lb -> (forall n, a n <= b n) -> la <= lb.
Proof.
  intros Ha Hb H. apply series_rsum in Ha. apply series_rsum in Hb.
  apply (is_lim_seq_le (fun n => rsum n a) (fun n => rsum n b) la lb); auto. intros n. apply rsum_le. auto.
Qed.
Lemma series_pos (a : nat -> R) l : is_series a l -> (forall n, 0 < a n) -> 0 < l.
Proof.
  intros Ha H. apply Rlt_le_trans with (a 0%nat); [apply H|]. apply series_rsum in Ha. apply is_lim_seq_incr_1 in Ha.
  apply (is_lim_seq_le (fun _ => a 0%nat) (fun n => rsum (S n) a) (a 0%nat) l); auto. 2:apply is_lim_seq_const.
  intros n. rewrite rsum_shift. assert (0 <= rsum n (fun k => a (S k))) by (apply rsum_nonneg; intros; left; apply H). lra.
Qed.
Lemma series_plus (a b : nat -> R) l m : is_series a l -> is_series b m -> is_series (fun n => a n + b n) (l + m).
Proof. intros. apply (is_series_plus (V := R_NormedModule)); assumption. Qed.
Lemma series_uniq (a : nat -> R) (l m : R) : is_series a l -> is_series a m -> l = m.
Proof. intros H1 H2. rewrite <- (is_series_unique _ _ H1), <- (is_series_unique _ _ H2). reflexivity. Qed.

(** cumulants of the building blocks *)
Lemma gamma_cgf_d s r u : 0 < r -> u < r -> is_derive (gamma_cgf s r) u (s / (r - u)).
Proof.
  intros Hr Hu. unfold gamma_cgf. assert (0 < 1 - u / r). { replace (1 - u / r) with ((r - u) / r) by (field; lra). apply Rdiv_lt_0_compat; lra. }
  auto_derive; [auto|]. Req. field. repeat split; lra.
Qed.
Lemma cpexp_cgf_d l r u : 0 < r -> u < r -> is_derive (cpexp_cgf l r) u (l * r / (r - u) ^ 2).
Proof.
  intros Hr Hu. unfold cpexp_cgf. assert (0 < 1 - u / r). { replace (1 - u / r) with ((r - u) / r) by (field; lra). apply Rdiv_lt_0_compat; lra. }
  auto_derive; [lra|]. Req. field. repeat split; lra.
Qed.
Lemma loc_lt (u r : R) : u < r -> locally u (fun y => y < r).
Proof. intros H. exists (mkposreal (r - u) ltac:(lra)). intros y Hy. unfold ball in Hy; simpl in Hy. unfold AbsRing_ball, abs, minus, plus, opp in Hy; simpl in Hy. apply Rabs_def2 in Hy. lra. Qed.
Lemma gamma_mean s r : 0 < r -> cgf_mean (gamma_cgf s r) = s / r.
Proof. intros H. unfold cgf_mean. rewrite (is_derive_unique _ _ _ (gamma_cgf_d s r 0 H H)). f_equal. ring. Qed.
Lemma gamma_var s r : 0 < r -> cgf_var (gamma_cgf s r) = s / r ^ 2.
Proof.
  intros H. unfold cgf_var. apply is_derive_unique. apply (is_derive_ext_loc (fun u => s / (r - u))).
  - apply (filter_imp (fun y => y < r)); [|apply loc_lt; exact H]. intros y Hy. symmetry. apply is_derive_unique. now apply gamma_cgf_d.
  - auto_derive; [lra|]. Req. field. lra.
Qed.
Lemma cpexp_mean l r : 0 < r -> cgf_mean (cpexp_cgf l r) = l / r.
Proof. intros H. unfold cgf_mean. rewrite (is_derive_unique _ _ _ (cpexp_cgf_d l r 0 H H)). field. lra. Qed.
Lemma cpexp_var l r : 0 < r -> cgf_var (cpexp_cgf l r) = 2 * l / r ^ 2.
Proof.
  intros H. unfold cgf_var. apply is_derive_unique. apply (is_derive_ext_loc (fun u => l * r / (r - u) ^ 2)).
  - apply (filter_imp (fun y => y < r)); [|apply loc_lt; exact H]. intros y Hy. symmetry. apply is_derive_unique. now apply cpexp_cgf_d.
  - auto_derive. { rewrite Ropp_0, Rplus_0_r, Rmult_1_r. nra. } Req. field. lra.
Qed.

Section Tails.
Variables (c : cir) (dt : R).
Hypothesis (Hxi : 0 < c_xi c) (Hdt : 0 < dt).
Let w2 := ge_vov2dt c dt.
Let a := c_mr c * dt / 2.
Let q (n : nat) : R := a ^ 2 + npi n ^ 2.
Lemma w2_pos : 0 < w2. Proof. unfold w2, ge_vov2dt. apply Rmult_lt_0_compat; [now apply pow_lt|exact Hdt]. Qed.
Lemma q_pos n : 0 < q (S n). Proof. unfold q. pose proof (pow_lt _ 2 (npi_pos (S n) ltac:(lia))). pose proof (pow2_ge_0 a). lra. Qed.
Lemma ge_gamma_eq n : ge_gamma c dt n = 2 * q n / w2.
Proof. pose proof w2_pos. unfold ge_gamma, q, npi, a. fold w2. field. lra. Qed.
Lemma ge_lambda_eq n : ge_lambda c dt (S n) = 4 * npi (S n) ^ 2 / (w2 * q (S n)).
Proof.
  pose proof w2_pos. pose proof (q_pos n). unfold ge_lambda. fold w2.
  replace ((c_mr c * dt) ^ 2 + (INR (S n) * 2 * PI) ^ 2) with (4 * q (S n)) by (unfold q, npi, a; field).
  replace ((INR (S n) * 2 * PI) ^ 2) with (4 * npi (S n) ^ 2) by (unfold npi; field). field. lra.
Qed.
Lemma ge_gamma_pos n : 0 < ge_gamma c dt (S n).
Proof. rewrite ge_gamma_eq. pose proof w2_pos. pose proof (q_pos n). apply Rdiv_lt_0_compat; lra. Qed.
Lemma ge_lambda_pos n : 0 < ge_lambda c dt (S n).
Proof. rewrite ge_lambda_eq. pose proof w2_pos. pose proof (q_pos n). pose proof (pow_lt _ 2 (npi_pos (S n) ltac:(lia))). apply Rdiv_lt_0_compat; [lra|]. now apply Rmult_lt_0_compat. Qed.
Lemma t_x1m n : ge_lambda c dt (S n) / ge_gamma c dt (S n) = 2 * npi (S n) ^ 2 / q (S n) ^ 2.
Proof. rewrite ge_gamma_eq, ge_lambda_eq. pose proof w2_pos. pose proof (q_pos n). field. lra. Qed.
Lemma t_x1v n : 2 * ge_lambda c dt (S n) / ge_gamma c dt (S n) ^ 2 = w2 * (2 * npi (S n) ^ 2 / q (S n) ^ 3).
Proof. rewrite ge_gamma_eq, ge_lambda_eq. pose proof w2_pos. pose proof (q_pos n). field. lra. Qed.
Lemma t_x2m n : 1 / ge_gamma c dt (S n) = w2 * (/ (2 * q (S n))).
Proof. rewrite ge_gamma_eq. pose proof w2_pos. pose proof (q_pos n). field. lra. Qed.
Lemma t_x2v n : 1 / ge_gamma c dt (S n) ^ 2 = w2 ^ 2 * (/ (4 * q (S n) ^ 2)).
Proof. rewrite ge_gamma_eq. pose proof w2_pos. pose proof (q_pos n). field. lra. Qed.

(** full sums *)
Definition cx1m (a : R) : R := (cosh a / sinh a / a - (1 / sinh a) ^ 2) / 2.
Definition cx1v (a : R) : R := (cosh a / sinh a / a ^ 3 + (1 / sinh a) ^ 2 / a ^ 2 - 2 * (cosh a / sinh a) * (1 / sinh a) ^ 2 / a) / 8.
Definition cx2m (a : R) : R := (a * (cosh a / sinh a) - 1) / (4 * a ^ 2).
Definition cx2v (a : R) : R := (a * (cosh a / sinh a) + a ^ 2 * (1 / sinh a) ^ 2 - 2) / (16 * (a ^ 2) ^ 2).
End Tails.
Lemma sinh_pos a : 0 < a -> 0 < sinh a.
Proof. intros. unfold sinh. assert (exp (- a) < exp a) by (apply exp_increasing; lra). lra. Qed.
Lemma cosh_pos a : 0 < cosh a.
Proof. unfold cosh. pose proof (exp_pos a). pose proof (exp_pos (- a)). lra. Qed.
Section Full.
Variable a : R. Hypothesis Ha : 0 < a.
Let S1 := sinh a. Let C1 := cosh a.
Let HS : 0 < S1 := sinh_pos a Ha. Let HC : 0 < C1 := cosh_pos a.
Let q (n : nat) : R := a ^ 2 + npi n ^ 2.
Let q_pos' n : 0 < q n. Proof. unfold q. pose proof (pow_lt a 2 Ha). pose proof (pow2_ge_0 (npi n)). lra. Qed.
Ltac fin := unfold kl_f6n, kl_f2, kl_f4, kl_f6, tanh; fold S1 C1; try field.
Lemma full_x1m : is_series (fun i => 2 * npi (S i) ^ 2 / q (S i) ^ 2) (cx1m a).
Proof.
  pose proof HS. pose proof HC. pose proof Ha.
  replace (cx1m a) with (kl_f2 a - a ^ 2 / 2 * kl_f4 a). 2:{ unfold cx1m. fold S1 C1. fin. repeat split; lra. }
  eapply series_ext; [apply series_minus; [apply (series_t2 a Ha)|apply series_scal, (series_t4 a Ha)]|].
  intros n. cbv beta. unfold kl_t2, kl_t4. pose proof (q_pos' (S n)) as Q. change (a ^ 2 + npi (S n) ^ 2) with (q (S n)).
  replace (npi (S n) ^ 2) with (q (S n) - a ^ 2) by (unfold q; ring). field. lra.
Qed.
Lemma full_x1v : is_series (fun i => 2 * npi (S i) ^ 2 / q (S i) ^ 3) (cx1v a).
Proof.
  pose proof HS. pose proof HC. pose proof Ha.
  replace (cx1v a) with (/ 4 * kl_f6n a). 2:{ unfold cx1v. fold S1 C1. fin. repeat split; lra. }
  eapply series_ext; [apply series_scal; apply (series_t6n a Ha)|].
  intros n. cbv beta. unfold kl_t6n. pose proof (q_pos' (S n)) as Q. change (a ^ 2 + npi (S n) ^ 2) with (q (S n)). field. lra.
Qed.
Lemma full_x2m : is_series (fun i => / (2 * q (S i))) (cx2m a).
Proof.
  pose proof HS. pose proof HC. pose proof Ha.
  replace (cx2m a) with (/ 4 * kl_f2 a). 2:{ unfold cx2m. fold S1 C1. fin. repeat split; lra. }
  eapply series_ext; [apply series_scal; apply (series_t2 a Ha)|].
  intros n. cbv beta. unfold kl_t2. pose proof (q_pos' (S n)) as Q. change (a ^ 2 + npi (S n) ^ 2) with (q (S n)). field. lra.
Qed.
Lemma full_x2v : is_series (fun i => / (4 * q (S i) ^ 2)) (cx2v a).
Proof.
  pose proof HS. pose proof HC. pose proof Ha.
  replace (cx2v a) with (/ 16 * kl_f4 a). 2:{ unfold cx2v. fold S1 C1. fin. repeat split; lra. }
  eapply series_ext; [apply series_scal; apply (series_t4 a Ha)|].
  intros n. cbv beta. unfold kl_t4. pose proof (q_pos' (S n)) as Q. change (a ^ 2 + npi (S n) ^ 2) with (q (S n)). field. lra.
Qed.
(** Taylor polynomials against the sums *)
Let P n := npi (S n) ^ 2.
Let P_pos n : 0 < P n. Proof. apply pow_lt, npi_pos. lia. Qed.
Let P_ge1 n : 1 <= P n.
Proof. unfold P. assert (1 <= npi (S n)). { unfold npi. rewrite S_INR. pose proof (pos_INR n). pose proof PI2_3_2. nra. } nra. Qed.
Let zP1 : is_series (fun i => / P i) (1 / 6). Proof. exact zeta2. Qed.
Let zP2 : is_series (fun i => / P i ^ 2) (1 / 90).
Proof. eapply series_ext; [exact zeta4|]. intros n. unfold P. rewrite <- pow_mult. reflexivity. Qed.
Let zP3 : is_series (fun i => / P i ^ 3) (1 / 945).
Proof. eapply series_ext; [exact zeta6|]. intros n. unfold P. rewrite <- pow_mult. reflexivity. Qed.
Let zP4 : is_series (fun i => / P i ^ 4) (1 / 9450).
Proof. eapply series_ext; [exact zeta8|]. intros n. unfold P. rewrite <- pow_mult. reflexivity. Qed.
Let qP n : q (S n) = P n + a ^ 2. Proof. unfold q, P. ring. Qed.
Let z0 : is_series (fun _ => 0) 0.
Proof. apply series_rsum. apply (is_lim_seq_ext (fun _ => 0)); [intros n; symmetry; apply rsum_0|apply is_lim_seq_const]. Qed.
(* the common comparison: Taylor terms minus exact terms lie between 0 and K b^j / p^4 *)
Lemma tay_gen (k1 k2 k3 k4 : R) (f : nat -> R) (g : R -> R -> R) (l U : R) : is_series f l -> (forall n, f n = g (P n) (a ^ 2)) ->
  (forall p b : R, 1 <= p -> 0 < b -> 0 <= k1 * / p + k2 * b * / p ^ 2 + k3 * b ^ 2 * / p ^ 3 + k4 * b ^ 2 * / p ^ 4 - g p b <= U * b ^ 3 * / p ^ 4) ->
  0 <= k1 / 6 + k2 * a ^ 2 / 90 + k3 * a ^ 4 / 945 + k4 * a ^ 4 / 9450 - l <= U / 9450 * a ^ 6.
Proof.
  intros Hf Eg B.
  pose proof (series_minus _ _ _ _ (series_plus _ _ _ _ (series_plus _ _ _ _ (series_plus _ _ _ _ (series_scal k1 _ _ zP1) (series_scal (k2 * a ^ 2) _ _ zP2)) (series_scal (k3 * (a ^ 2) ^ 2) _ _ zP3)) (series_scal (k4 * (a ^ 2) ^ 2) _ _ zP4)) Hf) as HD.
  cbv beta in HD. pose proof (series_scal (U * (a ^ 2) ^ 3) _ _ zP4) as HU.
  replace (k1 / 6 + k2 * a ^ 2 / 90 + k3 * a ^ 4 / 945 + k4 * a ^ 4 / 9450 - l) with (k1 * (1 / 6) + k2 * a ^ 2 * (1 / 90) + k3 * (a ^ 2) ^ 2 * (1 / 945) + k4 * (a ^ 2) ^ 2 * (1 / 9450) - l) by field.
  replace (U / 9450 * a ^ 6) with (U * (a ^ 2) ^ 3 * (1 / 9450)) by field.
  assert (B' := fun n => B (P n) (a ^ 2) (P_ge1 n) (pow_lt a 2 Ha)).
  split.
  - apply (series_le (fun _ => 0) _ 0 _ z0 HD). intros n. rewrite Eg. apply B'.
  - apply (series_le _ _ _ _ HD HU). intros n. rewrite Eg. apply B'.
Qed.
Lemma tay_x1m : 0 <= 1 / 3 + a ^ 2 * (- (2 / 45) + a ^ 2 * 2 / 315) - cx1m a <= 8 / 9450 * a ^ 6.
Proof.
  replace (1 / 3 + a ^ 2 * (- (2 / 45) + a ^ 2 * 2 / 315) - cx1m a) with (2 / 6 + (- (4)) * a ^ 2 / 90 + 6 * a ^ 4 / 945 + 0 * a ^ 4 / 9450 - cx1m a) by field.
  apply (tay_gen 2 (- (4)) 6 0 _ (fun p b => 2 * p / (p + b) ^ 2) _ 8 full_x1m). { intros n. cbv beta. rewrite qP. reflexivity. }
  intros p b Hp Hb.
  replace (2 * / p + - (4) * b * / p ^ 2 + 6 * b ^ 2 * / p ^ 3 + 0 * b ^ 2 * / p ^ 4 - 2 * p / (p + b) ^ 2) with ((8 * b ^ 3 * p + 6 * b ^ 4) / (p ^ 3 * (p + b) ^ 2)) by (field; lra).
  assert (0 < b ^ 3) by now apply pow_lt. assert (0 < b ^ 4) by now apply pow_lt.
  split. { apply Rmult_le_pos; [nra|]. left; apply Rinv_0_lt_compat. apply Rmult_lt_0_compat; apply pow_lt; lra. }
  apply Rminus_le. replace ((8 * b ^ 3 * p + 6 * b ^ 4) / (p ^ 3 * (p + b) ^ 2) - 8 * b ^ 3 * / p ^ 4) with (- (b ^ 3 * (10 * b * p + 8 * b ^ 2) / (p ^ 4 * (p + b) ^ 2))) by (field; lra).
  enough (0 <= b ^ 3 * (10 * b * p + 8 * b ^ 2) / (p ^ 4 * (p + b) ^ 2)) by lra. apply Rmult_le_pos; [|left; apply Rinv_0_lt_compat, Rmult_lt_0_compat; apply pow_lt; lra].
  apply Rmult_le_pos; [lra|]. nra.
Qed.
Lemma tay_x1v : 0 <= 1 / 45 + a ^ 2 * (- (2 / 315) + a ^ 2 * 2 / 1575) - cx1v a <= 20 / 9450 * a ^ 6.
Proof.
  assert (E : is_series (fun i => 2 * P i / (P i + a ^ 2) ^ 3) (cx1v a)) by (eapply series_ext; [exact full_x1v|]; intros n; cbv beta; rewrite qP; reflexivity).
  pose proof (series_minus _ _ _ _ (series_plus _ _ _ _ (series_minus _ _ _ _ (series_scal 2 _ _ zP2) (series_scal (6 * a ^ 2) _ _ zP3)) (series_scal (12 * a ^ 4) _ _ zP4)) E) as HD.
  cbv beta in HD. pose proof (series_scal (20 * a ^ 6) _ _ zP4) as HU.
  replace (1 / 45 + a ^ 2 * (- (2 / 315) + a ^ 2 * 2 / 1575) - cx1v a) with (2 * (1 / 90) - 6 * a ^ 2 * (1 / 945) + 12 * a ^ 4 * (1 / 9450) - cx1v a) by field.
  replace (20 / 9450 * a ^ 6) with (20 * a ^ 6 * (1 / 9450)) by field.
  assert (B : forall n, 0 <= 2 * / P n ^ 2 - 6 * a ^ 2 * / P n ^ 3 + 12 * a ^ 4 * / P n ^ 4 - 2 * P n / (P n + a ^ 2) ^ 3 <= 20 * a ^ 6 * / P n ^ 4).
  { intros n. pose proof (P_ge1 n) as Q. set (p := P n) in *. set (b := a ^ 2). assert (0 < b) by (unfold b; now apply pow_lt).
    replace (a ^ 4) with (b ^ 2) by (unfold b; ring). replace (a ^ 6) with (b ^ 3) by (unfold b; ring).
    replace (2 * / p ^ 2 - 6 * b * / p ^ 3 + 12 * b ^ 2 * / p ^ 4 - 2 * p / (p + b) ^ 3) with (b ^ 3 * (20 * p ^ 2 + 30 * b * p + 12 * b ^ 2) / (p ^ 4 * (p + b) ^ 3)) by (field; lra).
    assert (0 < b ^ 3) by now apply pow_lt. assert (0 < p ^ 4 * (p + b) ^ 3) by (apply Rmult_lt_0_compat; apply pow_lt; lra).
    split. { apply Rmult_le_pos; [|left; now apply Rinv_0_lt_compat]. apply Rmult_le_pos; [lra|nra]. }
    apply Rminus_le. replace (b ^ 3 * (20 * p ^ 2 + 30 * b * p + 12 * b ^ 2) / (p ^ 4 * (p + b) ^ 3) - 20 * b ^ 3 * / p ^ 4) with
      (- (b ^ 3 * (20 * (p + b) ^ 3 - (20 * p ^ 2 + 30 * b * p + 12 * b ^ 2)) / (p ^ 4 * (p + b) ^ 3))) by (field; lra).
    enough (0 <= b ^ 3 * (20 * (p + b) ^ 3 - (20 * p ^ 2 + 30 * b * p + 12 * b ^ 2)) / (p ^ 4 * (p + b) ^ 3)) by lra. apply Rmult_le_pos; [|left; now apply Rinv_0_lt_compat].
    apply Rmult_le_pos; [lra|]. assert ((p + b) ^ 2 <= (p + b) ^ 3) by (replace ((p + b) ^ 3) with ((p + b) ^ 2 * (p + b)) by ring; pose proof (pow2_ge_0 (p + b)); nra). nra. }
  split.
  - apply (series_le (fun _ => 0) _ 0 _ z0 HD). intros n; apply B.
  - apply (series_le _ _ _ _ HD HU). intros n; apply B.
Qed.
Lemma tay_x2m : 0 <= 1 / 12 + a ^ 2 * (- (1 / 180) + a ^ 2 / 1890) - cx2m a <= / 18900 * a ^ 6.
Proof.
  replace (1 / 12 + a ^ 2 * (- (1 / 180) + a ^ 2 / 1890) - cx2m a) with (/ 2 / 6 + - / 2 * a ^ 2 / 90 + / 2 * a ^ 4 / 945 + 0 * a ^ 4 / 9450 - cx2m a) by field.
  replace (/ 18900 * a ^ 6) with (/ 2 / 9450 * a ^ 6) by field.
  apply (tay_gen (/ 2) (- / 2) (/ 2) 0 _ (fun p b => / (2 * (p + b))) _ (/ 2) full_x2m). { intros n. cbv beta. rewrite qP. reflexivity. }
  intros p b Hp Hb. assert (0 < b ^ 3) by now apply pow_lt. assert (0 < p ^ 4 * (p + b)) by (apply Rmult_lt_0_compat; [apply pow_lt; lra|lra]).
  replace (/ 2 * / p + - / 2 * b * / p ^ 2 + / 2 * b ^ 2 * / p ^ 3 + 0 * b ^ 2 * / p ^ 4 - / (2 * (p + b))) with (b ^ 3 * p / (2 * (p ^ 4 * (p + b)))) by (field; lra).
  split. { apply Rmult_le_pos; [|left; apply Rinv_0_lt_compat; lra]. nra. }
  apply Rminus_le. replace (b ^ 3 * p / (2 * (p ^ 4 * (p + b))) - / 2 * b ^ 3 * / p ^ 4) with (- (b ^ 3 * b / (2 * (p ^ 4 * (p + b))))) by (field; lra).
  enough (0 <= b ^ 3 * b / (2 * (p ^ 4 * (p + b)))) by lra. apply Rmult_le_pos; [|left; apply Rinv_0_lt_compat; lra]. nra.
Qed.
Lemma tay_x2v : 0 <= cx2v a - (1 / 360 - a ^ 2 / 1890) <= a ^ 4 / 12600.
Proof.
  assert (E : is_series (fun i => / (4 * (P i + a ^ 2) ^ 2)) (cx2v a)) by (eapply series_ext; [exact full_x2v|]; intros n; cbv beta; rewrite qP; reflexivity).
  pose proof (series_minus _ _ _ _ E (series_minus _ _ _ _ (series_scal (/ 4) _ _ zP2) (series_scal (/ 2 * a ^ 2) _ _ zP3))) as HD.
  cbv beta in HD. pose proof (series_scal (3 / 4 * a ^ 4) _ _ zP4) as HU.
  replace (1 / 360 - a ^ 2 / 1890) with (/ 4 * (1 / 90) - / 2 * a ^ 2 * (1 / 945)) by field.
  replace (a ^ 4 / 12600) with (3 / 4 * a ^ 4 * (1 / 9450)) by field.
  assert (B : forall n, 0 <= / (4 * (P n + a ^ 2) ^ 2) - (/ 4 * / P n ^ 2 - / 2 * a ^ 2 * / P n ^ 3) <= 3 / 4 * a ^ 4 * / P n ^ 4).
  { intros n. pose proof (P_ge1 n) as Q. set (p := P n) in *. set (b := a ^ 2). assert (0 < b) by (unfold b; now apply pow_lt).
    replace (a ^ 4) with (b ^ 2) by (unfold b; ring). assert (0 < p ^ 4 * (p + b) ^ 2) by (apply Rmult_lt_0_compat; apply pow_lt; lra).
    replace (/ (4 * (p + b) ^ 2) - (/ 4 * / p ^ 2 - / 2 * b * / p ^ 3)) with (b ^ 2 * p * (3 * p + 2 * b) / (4 * (p ^ 4 * (p + b) ^ 2))) by (field; lra).
    assert (0 < b ^ 2) by now apply pow_lt.
    split. { apply Rmult_le_pos; [|left; apply Rinv_0_lt_compat; lra]. apply Rmult_le_pos; nra. }
    apply Rminus_le. replace (b ^ 2 * p * (3 * p + 2 * b) / (4 * (p ^ 4 * (p + b) ^ 2)) - 3 / 4 * b ^ 2 * / p ^ 4) with (- (b ^ 2 * (4 * p * b + 3 * b ^ 2) / (4 * (p ^ 4 * (p + b) ^ 2)))) by (field; lra).
    enough (0 <= b ^ 2 * (4 * p * b + 3 * b ^ 2) / (4 * (p ^ 4 * (p + b) ^ 2))) by lra. apply Rmult_le_pos; [|left; apply Rinv_0_lt_compat; lra]. apply Rmult_le_pos; nra. }
  split.
  - apply (series_le (fun _ => 0) _ 0 _ z0 HD). intros n; apply B.
  - apply (series_le _ _ _ _ HD HU). intros n; apply B.
Qed.
Lemma tay_x2v_strict : 1 / 360 - a ^ 2 / 1890 < cx2v a.
Proof.
  assert (E : is_series (fun i => / (4 * (P i + a ^ 2) ^ 2)) (cx2v a)) by (eapply series_ext; [exact full_x2v|]; intros n; cbv beta; rewrite qP; reflexivity).
  pose proof (series_minus _ _ _ _ E (series_minus _ _ _ _ (series_scal (/ 4) _ _ zP2) (series_scal (/ 2 * a ^ 2) _ _ zP3))) as HD.
  cbv beta in HD. replace (1 / 360 - a ^ 2 / 1890) with (/ 4 * (1 / 90) - / 2 * a ^ 2 * (1 / 945)) by field.
  apply Rminus_gt_0_lt. refine (series_pos _ _ HD _). intros n. cbv beta. pose proof (P_ge1 n) as Q. set (p := P n) in *. set (b := a ^ 2). assert (0 < b) by (unfold b; now apply pow_lt).
  assert (0 < p ^ 4 * (p + b) ^ 2) by (apply Rmult_lt_0_compat; apply pow_lt; lra).
  replace (/ (4 * (p + b) ^ 2) - (/ 4 * / p ^ 2 - / 2 * b * / p ^ 3)) with (b ^ 2 * p * (3 * p + 2 * b) / (4 * (p ^ 4 * (p + b) ^ 2))) by (field; lra).
  assert (0 < b ^ 2) by now apply pow_lt. apply Rdiv_lt_0_compat; [|lra]. apply Rmult_lt_0_compat; nra.
Qed.
End Full.
