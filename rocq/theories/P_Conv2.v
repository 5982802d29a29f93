(** n-dimensional Gaussian expectations: linearity, exponentials of linear forms, half-spaces, Bachelier payoffs of linear forms. *)
From Coq Require Import Reals Lra Lia Psatz List Arith.
From Coquelicot Require Import Coquelicot.
From Verif Require Import Base Gauss Sums Spec_Opt Spec_Expect P_Black P_Norm P_Expect P_Gmom P_Qe P_KlLaw P_Sabr2 P_Conv.
Open Scope R_scope.

(** the linear form b.z over the first n coordinates *)
Definition lin (n : nat) (b z : nat -> R) : R := rsum n (fun i => b i * z i).
Definition nrm2 (n : nat) (b : nat -> R) : R := rsum n (fun i => b i * b i).
Lemma nrm2_nn n b : 0 <= nrm2 n b. Proof. apply rsum_nonneg. intros. nra. Qed.
Lemma nrm2_S n b : nrm2 (S n) b = nrm2 n b + b n * b n. Proof. reflexivity. Qed.
Lemma nrm2_pos n b i : (i < n)%nat -> b i <> 0 -> 0 < nrm2 n b.
Proof.
  induction n as [|n IH]; [lia|]. intros Hi Hb. rewrite nrm2_S. destruct (Nat.eq_dec i n) as [->|Hn].
  - pose proof (nrm2_nn n b). nra.
  - assert (0 < nrm2 n b) by (apply IH; [lia|exact Hb]). nra.
Qed.
Lemma nrm2_0 n b : nrm2 n b = 0 -> forall i, (i < n)%nat -> b i = 0.
Proof. intros H i Hi. destruct (Req_dec (b i) 0) as [|Hn]; [assumption|]. pose proof (nrm2_pos n b i Hi Hn). lra. Qed.
Lemma lin_S n b z y : lin (S n) b (upd z n y) = lin n b z + b n * y.
Proof.
  unfold lin. cbn [rsum]. rewrite upd_eq. f_equal. apply rsum_ext. intros k Hk. unfold upd. destruct (Nat.eqb_spec k n); [lia|reflexivity].
Qed.
Lemma lin_comm n b z : lin n b z = lin n z b. Proof. apply rsum_ext. intros. ring. Qed.

Lemma normals_plus n : forall F G u v, normals_expect n F u -> normals_expect n G v -> normals_expect n (fun z => F z + G z) (u + v).
Proof.
  induction n as [|n IH]; cbn; intros F G u v HF HG; [intros z; now rewrite HF, HG|].
  destruct HF as (h & H1 & H2), HG as (k & K1 & K2). exists (fun z => h z + k z). split; [|apply IH; assumption].
  intros z. apply gauss_expect_plus; [apply H1|apply K1].
Qed.
Lemma normals_scal n : forall F u c, normals_expect n F u -> normals_expect n (fun z => c * F z) (c * u).
Proof.
  induction n as [|n IH]; cbn; intros F u c HF; [intros z; now rewrite HF|].
  destruct HF as (h & H1 & H2). exists (fun z => c * h z). split; [|apply IH; assumption]. intros z. apply gauss_expect_scal, H1.
Qed.
Lemma normals_const n : forall c, normals_expect n (fun _ => c) c.
Proof. induction n as [|n IH]; intros c; cbn; [reflexivity|]. exists (fun _ => c). split; [intros; apply gauss_expect_const|apply IH]. Qed.
Lemma normals_rsum n k : forall (F : nat -> (nat -> R) -> R) v, (forall j, (j < k)%nat -> normals_expect n (F j) (v j)) ->
  normals_expect n (fun z => rsum k (fun j => F j z)) (rsum k v).
Proof.
  induction k as [|k IH]; intros F v H; cbn [rsum]; [apply normals_const|].
  apply normals_plus; [apply IH; intros; apply H; lia|apply H; lia].
Qed.
Lemma normals_le n : forall F G u v, (forall z, F z <= G z) -> normals_expect n F u -> normals_expect n G v -> u <= v.
Proof.
  induction n as [|n IH]; cbn; intros F G u v L HF HG.
  - rewrite <- (HF (fun _ => 0)), <- (HG (fun _ => 0)). apply L.
  - destruct HF as (h & H1 & H2), HG as (k & K1 & K2). apply (IH h k); [|assumption|assumption].
    intros z. apply (ge_le _ _ _ _ (H1 z) (K1 z)). intros y. apply L.
Qed.
Lemma normals_unique n F u v : normals_expect n F u -> normals_expect n F v -> u = v.
Proof. intros A B. apply Rle_antisym; [apply (normals_le n F F)|apply (normals_le n F F)]; try assumption; intros; lra. Qed.

(** moment generating function of a linear form *)
Lemma normals_mgf n a : normals_expect n (fun z => exp (lin n a z)) (exp (nrm2 n a / 2)).
Proof.
  enough (H : forall c, normals_expect n (fun z => c * exp (lin n a z)) (c * exp (nrm2 n a / 2))).
  { specialize (H 1). rewrite Rmult_1_l in H. eapply normals_ext; [|exact H]. intros. cbn. ring. }
  induction n as [|n IH]; intros c.
  - intros z. unfold lin, nrm2. cbn. do 2 f_equal. field.
  - exists (fun z => (c * exp (a n * a n / 2)) * exp (lin n a z)). split.
    + intros z. apply (gauss_expect_ext (fun y => (c * exp (lin n a z)) * exp (a n * y))).
      { intros y. rewrite lin_S, exp_plus. ring. }
      replace (c * exp (a n * a n / 2) * exp (lin n a z)) with (c * exp (lin n a z) * exp (a n * a n / 2)) by ring.
      apply gauss_expect_scal, gauss_mgf.
    + replace (c * exp (nrm2 (S n) a / 2)) with (c * exp (a n * a n / 2) * exp (nrm2 n a / 2)); [apply IH|].
      rewrite nrm2_S, Rmult_assoc, <- exp_plus. do 2 f_equal. field.
Qed.

(** density ratio exp(a.z - |a|^2/2) *)
Definition tilt (n : nat) (a z : nat -> R) : R := exp (lin n a z - nrm2 n a / 2).
Lemma tilt_S n a z y : tilt (S n) a (upd z n y) = tilt n a z * exp (a n * y - a n * a n / 2).
Proof. unfold tilt. rewrite lin_S, nrm2_S, <- exp_plus. f_equal. field. Qed.
Lemma tilt_pos n a z : 0 < tilt n a z. Proof. apply exp_pos. Qed.
Lemma tilt_0 a z : tilt 0 a z = 1. Proof. unfold tilt, lin, nrm2. cbn. replace (0 - 0 / 2) with 0 by field. apply exp_0. Qed.
Lemma tilt_expect n a : normals_expect n (tilt n a) 1.
Proof.
  pose proof (normals_scal n _ _ (exp (- (nrm2 n a / 2))) (normals_mgf n a)) as H.
  rewrite <- exp_plus in H. replace (- (nrm2 n a / 2) + nrm2 n a / 2) with 0 in H by ring. rewrite exp_0 in H.
  eapply normals_ext; [|exact H]. intros z. cbn. unfold tilt. rewrite <- exp_plus. f_equal. ring.
Qed.

Lemma normals_tilt_Phi n a b : forall (g s : R), 0 < s ->
  normals_expect n (fun z => tilt n a z * Phi ((g - lin n b z) / s)) (Phi ((g - lin n a b) / sqrt (s ^ 2 + nrm2 n b))).
Proof.
  induction n as [|n IH]; intros g s Hs.
  - intros z. rewrite tilt_0. unfold lin, nrm2. cbn [rsum]. rewrite Rplus_0_r, (sqrt_pow2 s) by lra. ring.
  - set (s' := sqrt (s ^ 2 + b n * b n)).
    assert (Hs' : 0 < s') by (apply sqrt_lt_R0; nra).
    assert (S2 : s' ^ 2 = s ^ 2 + b n * b n). { unfold s'. rewrite <- Rsqr_pow2, Rsqr_sqrt by nra. reflexivity. }
    exists (fun z => tilt n a z * Phi (((g - a n * b n) - lin n b z) / s')). split.
    + intros z. apply (gauss_expect_ext (fun y => tilt n a z * (exp (a n * y - a n * a n / 2) * Phi ((g - lin n b z) / s + (- b n / s) * y)))).
      { intros y. rewrite tilt_S, lin_S. rewrite Rmult_assoc. do 3 f_equal. field. lra. }
      apply gauss_expect_scal.
      pose proof (conv_exp_Phi (a n) ((g - lin n b z) / s) (- b n / s)) as H.
      replace (((g - lin n b z) / s + a n * (- b n / s)) / sqrt (1 + (- b n / s) ^ 2)) with ((g - a n * b n - lin n b z) / s') in H; [exact H|].
      replace (1 + (- b n / s) ^ 2) with (s' ^ 2 / s ^ 2). 2:{ rewrite S2. field. lra. }
      replace (sqrt (s' ^ 2 / s ^ 2)) with (s' / s). 2:{ replace (s' ^ 2 / s ^ 2) with ((s' / s) ^ 2) by (field; lra). rewrite sqrt_pow2; [reflexivity|]. left. apply Rdiv_lt_0_compat; lra. }
      field. split; lra.
    + specialize (IH (g - a n * b n) s' Hs'). rewrite S2 in IH.
      replace (g - lin (S n) a b) with (g - a n * b n - lin n a b) by (unfold lin; cbn [rsum]; ring).
      rewrite nrm2_S. replace (s ^ 2 + (nrm2 n b + b n * b n)) with (s ^ 2 + b n * b n + nrm2 n b) by ring. exact IH.
Qed.

(** indicator of a half line *)
Definition ind_le (x y : R) : R := if Rle_dec x y then 1 else 0.
Lemma ind_half (al c : R) : gauss_expect (fun y => exp (al * y - al * al / 2) * ind_le y c) (Phi (c - al)) /\
  gauss_expect (fun y => exp (al * y - al * al / 2) * ind_le c y) (Phi (al - c)).
Proof.
  set (G := fun z => Phi (z - al)). set (g := fun z => npdf (z - al)).
  assert (dG : forall z, is_derive G z (g z)) by (intros; apply is_derive_Phi_shift).
  assert (cg : forall z, continuous g z) by (intros; apply cont_npdf_shift).
  assert (K1 : forall b, - b <= c <= b -> is_RInt (fun z => exp (al * z - al * al / 2) * ind_le z c * npdf z) (- b) b ((G c - G (- b)) + (0 - 0))).
  { intros b Hb. apply (RInt_kink _ g (fun _ => 0) G (fun _ => 0) c b Hb); try assumption.
    - intros; apply is_derive_const_R. - intros; apply continuous_const.
    - intros x Hx. unfold ind_le, g. destruct Rle_dec; [|lra]. rewrite Rmult_1_r, npdf_shift. reflexivity.
    - intros x Hx. unfold ind_le. destruct Rle_dec; [lra|]. ring. }
  assert (K2 : forall b, - b <= c <= b -> is_RInt (fun z => exp (al * z - al * al / 2) * ind_le c z * npdf z) (- b) b ((0 - 0) + (G b - G c))).
  { intros b Hb. apply (RInt_kink _ (fun _ => 0) g (fun _ => 0) G c b Hb); try assumption.
    - intros; apply is_derive_const_R. - intros; apply continuous_const.
    - intros x Hx. unfold ind_le. destruct Rle_dec; [lra|]. ring.
    - intros x Hx. unfold ind_le, g. destruct Rle_dec; [|lra]. rewrite Rmult_1_r, npdf_shift. reflexivity. }
  assert (Shrink : forall (f : R -> R) b, (forall b, - b <= c <= b -> ex_RInt f (- b) b) -> ex_RInt f (- b) b).
  { intros f b H. assert (A : ex_RInt (V := R_CompleteNormedModule) f (- (Rabs b + Rabs c)) (Rabs b + Rabs c)).
    { apply H. pose proof (Rle_abs c). pose proof (Rle_abs (- c)) as Q. rewrite Rabs_Ropp in Q. pose proof (Rabs_pos b). lra. }
    pose proof (Rle_abs b). pose proof (Rle_abs (- b)) as Q. rewrite Rabs_Ropp in Q. pose proof (Rabs_pos c).
    destruct (Rle_dec (- b) b).
    - apply (ex_RInt_Chasles_2 (V := R_CompleteNormedModule)) with (- (Rabs b + Rabs c)); [lra|].
      apply (ex_RInt_Chasles_1 (V := R_CompleteNormedModule)) with (Rabs b + Rabs c); [lra|exact A].
    - apply ex_RInt_swap. apply (ex_RInt_Chasles_2 (V := R_CompleteNormedModule)) with (- (Rabs b + Rabs c)); [lra|].
      apply (ex_RInt_Chasles_1 (V := R_CompleteNormedModule)) with (Rabs b + Rabs c); [lra|exact A]. }
  split.
  - apply (gauss_expect_of _ c (fun b => (G c - G (- b)) + (0 - 0))).
    + intros b. apply Shrink. intros b' Hb'. eexists. apply (K1 b' Hb').
    + intros b Hb. apply K1. apply Rabs_le_between in Hb. lra.
    + replace (Finite (Phi (c - al))) with (Finite ((G c - 0) + (0 - 0))) by (f_equal; unfold G; ring).
      apply is_lim_plus'; [|apply is_lim_const]. apply is_lim_minus'; [apply is_lim_const|]. apply Phi_shift_lim_m.
  - apply (gauss_expect_of _ c (fun b => (0 - 0) + (G b - G c))).
    + intros b. apply Shrink. intros b' Hb'. eexists. apply (K2 b' Hb').
    + intros b Hb. apply K2. apply Rabs_le_between in Hb. lra.
    + replace (Finite (Phi (al - c))) with (Finite ((0 - 0) + (1 - G c))).
      2:{ f_equal. unfold G. replace (al - c) with (- (c - al)) by ring. rewrite Phi_opp. ring. }
      apply is_lim_plus'; [apply is_lim_const|]. apply is_lim_minus'; [|apply is_lim_const]. apply Phi_shift_lim_p.
Qed.

(** E[ exp(a.Z - |a|^2/2) 1{b.Z <= g} ] *)
Lemma normals_half_space n a b : forall (g : R), 0 < nrm2 n b ->
  normals_expect n (fun z => tilt n a z * ind_le (lin n b z) g) (Phi ((g - lin n a b) / sqrt (nrm2 n b))).
Proof.
  induction n as [|n IH]; intros g Hb. { unfold nrm2 in Hb. cbn in Hb. lra. }
  destruct (Req_dec (b n) 0) as [H0|H0].
  - exists (fun z => tilt n a z * ind_le (lin n b z) g). split.
    + intros z. apply (gauss_expect_ext (fun y => (tilt n a z * ind_le (lin n b z) g * exp (- (a n * a n / 2))) * exp (a n * y))).
      { intros y. rewrite tilt_S, lin_S, H0, Rmult_0_l, Rplus_0_r. replace (a n * y - a n * a n / 2) with (- (a n * a n / 2) + a n * y) by ring. rewrite exp_plus. ring. }
      pose proof (gauss_expect_scal _ _ (tilt n a z * ind_le (lin n b z) g * exp (- (a n * a n / 2))) (gauss_mgf (a n))) as H.
      replace (tilt n a z * ind_le (lin n b z) g * exp (- (a n * a n / 2)) * exp (a n * a n / 2)) with (tilt n a z * ind_le (lin n b z) g) in H; [exact H|].
      rewrite Rmult_assoc, <- exp_plus. replace (- (a n * a n / 2) + a n * a n / 2) with 0 by ring. rewrite exp_0. ring.
    + rewrite nrm2_S in *. rewrite H0 in *.
      replace (lin (S n) a b) with (lin n a b) by (unfold lin; cbn [rsum]; rewrite H0; ring).
      replace (nrm2 n b + 0 * 0) with (nrm2 n b) in * by ring. apply IH, Hb.
  - exists (fun z => tilt n a z * Phi (((g - a n * b n) - lin n b z) / Rabs (b n))). split.
    + intros z. set (c := (g - lin n b z) / b n).
      assert (Ha : 0 < Rabs (b n)) by (apply Rabs_pos_lt, H0).
      destruct (ind_half (a n) c) as [I1 I2].
      destruct (Rdichotomy _ _ H0) as [Hn|Hp].
      * apply (gauss_expect_ext (fun y => tilt n a z * (exp (a n * y - a n * a n / 2) * ind_le c y))).
        { intros y. rewrite tilt_S, lin_S, Rmult_assoc. do 2 f_equal. unfold ind_le, c.
          assert (E : (g - lin n b z) / b n <= y <-> lin n b z + b n * y <= g).
          { split; intros H.
            - apply Rmult_le_compat_neg_l with (r := b n) in H; [|lra]. replace (b n * ((g - lin n b z) / b n)) with (g - lin n b z) in H by (field; lra). lra.
            - apply Rmult_le_reg_l with (- b n); [lra|]. replace (- b n * ((g - lin n b z) / b n)) with (- (g - lin n b z)) by (field; lra). lra. }
          destruct (Rle_dec _ y), (Rle_dec _ g); tauto. }
        apply gauss_expect_scal. replace ((g - a n * b n - lin n b z) / Rabs (b n)) with (a n - c); [exact I2|].
        unfold c. rewrite Rabs_left by lra. field. exact H0.
      * apply (gauss_expect_ext (fun y => tilt n a z * (exp (a n * y - a n * a n / 2) * ind_le y c))).
        { intros y. rewrite tilt_S, lin_S, Rmult_assoc. do 2 f_equal. unfold ind_le, c.
          assert (E : y <= (g - lin n b z) / b n <-> lin n b z + b n * y <= g).
          { split; intros H.
            - apply Rmult_le_compat_l with (r := b n) in H; [|lra]. replace (b n * ((g - lin n b z) / b n)) with (g - lin n b z) in H by (field; lra). lra.
            - apply Rmult_le_reg_l with (b n); [lra|]. replace (b n * ((g - lin n b z) / b n)) with (g - lin n b z) by (field; lra). lra. }
          destruct (Rle_dec y _), (Rle_dec _ g); tauto. }
        apply gauss_expect_scal. replace ((g - a n * b n - lin n b z) / Rabs (b n)) with (c - a n); [exact I1|].
        unfold c. rewrite Rabs_right by lra. field. exact H0.
    + assert (Ha : 0 < Rabs (b n)) by (apply Rabs_pos_lt, H0).
      pose proof (normals_tilt_Phi n a b (g - a n * b n) (Rabs (b n)) Ha) as H.
      replace (Rabs (b n) ^ 2 + nrm2 n b) with (nrm2 (S n) b) in H by (rewrite nrm2_S, pow2_abs; ring).
      replace (g - lin (S n) a b) with (g - a n * b n - lin n a b) by (unfold lin; cbn [rsum]; ring). exact H.
Qed.

(** Bachelier payoffs of linear forms *)
Lemma stein_Phi (a b : R) : gauss_expect (fun z => z * Phi (a + b * z)) (b * (npdf (a / sqrt (1 + b ^ 2)) / sqrt (1 + b ^ 2))).
Proof.
  assert (L : forall f : R -> R, (forall x, 0 < Phi (f x) < 1) -> is_lim (fun x => npdf x * Phi (f x)) p_infty 0).
  { intros f Hf. apply (is_lim_le_le_loc (fun _ => 0) npdf); [|apply is_lim_const|exact npdf_lim].
    exists 0. intros x _. pose proof (npdf_pos x). pose proof (Hf x). nra. }
  assert (H1 : gauss_expect (fun z => z * Phi (a + b * z) - b * npdf (a + b * z)) 0).
  { replace 0 with (0 - 0) by ring. apply (gauss_expect_anti _ (fun z => - (npdf z * Phi (a + b * z)))).
    - intros x. eapply is_derive_eq.
      { apply (is_derive_opp (V := R_NormedModule) (fun z => npdf z * Phi (a + b * z))).
        apply (is_derive_mult npdf (fun z => Phi (a + b * z)) x).
        - apply is_derive_npdf.
        - apply (is_derive_Phi_comp (fun z => a + b * z) x b). auto_derive; [trivial|Req; ring].
        - intros; apply Rmult_comm. }
      unfold opp, plus, mult. cbn. Req. ring.
    - apply cont_mult_npdf. intros x. apply (continuous_minus (V := R_NormedModule) (fun z => z * Phi (a + b * z)) (fun z => b * npdf (a + b * z))).
      + apply (continuous_mult (K := R_AbsRing) (fun z => z) (fun z => Phi (a + b * z))); [apply continuous_id|apply cont_lin_Phi].
      + apply (continuous_mult (K := R_AbsRing) (fun _ => b) (fun z => npdf (a + b * z))); [apply continuous_const|].
        apply (continuous_comp (fun z => a + b * z) npdf); [|apply continuous_npdf]. apply ex_derive_continuous_R. auto_derive. trivial.
    - replace (Finite 0) with (Rbar_opp 0) by (cbn; f_equal; ring). apply is_lim_opp. apply L. intros. apply Phi_bounds.
    - replace (Finite 0) with (Rbar_opp 0) by (cbn; f_equal; ring). apply is_lim_opp.
      apply (is_lim_ext (fun x => npdf x * Phi (a + b * - x))). { intros. now rewrite npdf_even. } apply L. intros. apply Phi_bounds. }
  pose proof (gauss_expect_plus _ _ _ _ H1 (gauss_expect_scal _ _ b (npdf_lin_expect a b))) as H2.
  rewrite Rplus_0_l in H2. eapply gauss_expect_ext; [|exact H2]. intros z. cbn. ring.
Qed.

Lemma conv_bach (s x b cp : R) : is_cp cp -> 0 < s -> gauss_expect (fun z => bach s (x + b * z) cp) (bach (sqrt (s ^ 2 + b * b)) x cp).
Proof.
  intros Hcp Hs. set (S := sqrt (s ^ 2 + b * b)).
  assert (HS : 0 < S) by (apply sqrt_lt_R0; nra).
  assert (S2 : S * S = s ^ 2 + b * b) by (apply sqrt_sqrt; nra).
  assert (C2 : cp * cp = 1) by (destruct Hcp as [->| ->]; ring).
  pose proof (conv_Phi (cp * x / s) (cp * b / s)) as P1. pose proof (stein_Phi (cp * x / s) (cp * b / s)) as P2.
  pose proof (npdf_lin_expect (cp * x / s) (cp * b / s)) as P3.
  assert (E1 : sqrt (1 + (cp * b / s) ^ 2) = S / s).
  { replace (1 + (cp * b / s) ^ 2) with ((S / s) ^ 2). 2:{ replace ((S / s) ^ 2) with (S * S / s ^ 2) by (field; lra). rewrite S2. replace ((cp * b / s) ^ 2) with ((cp * cp) * (b * b) / s ^ 2) by (field; lra). rewrite C2. field. lra. }
    rewrite sqrt_pow2; [reflexivity|]. left. apply Rdiv_lt_0_compat; lra. }
  rewrite E1 in *. replace (cp * x / s / (S / s)) with (cp * (x / S)) in * by (field; lra).
  assert (En : npdf (cp * (x / S)) = npdf (x / S)) by (destruct Hcp as [->| ->]; [f_equal; ring|rewrite <- npdf_even; f_equal; ring]).
  rewrite En in *.
  pose proof (gauss_expect_plus _ _ _ _ (gauss_expect_scal _ _ (cp * x) P1) (gauss_expect_plus _ _ _ _ (gauss_expect_scal _ _ (cp * b) P2) (gauss_expect_scal _ _ s P3))) as H.
  cbv beta in H.
  replace (bach S x cp) with (cp * x * Phi (cp * (x / S)) + (cp * b * (cp * b / s * (npdf (x / S) / (S / s))) + s * (npdf (x / S) / (S / s)))).
  2:{ unfold bach. f_equal. replace (cp * b * (cp * b / s * (npdf (x / S) / (S / s))) + s * (npdf (x / S) / (S / s))) with (((cp * cp) * (b * b) + s ^ 2) / S * npdf (x / S)) by (field; lra).
      rewrite C2. replace (1 * (b * b) + s ^ 2) with (S * S) by (rewrite S2; ring). field. lra. }
  eapply gauss_expect_ext; [|exact H]. intros z. cbn. unfold bach.
  replace (cp * x / s + cp * b / s * z) with (cp * ((x + b * z) / s)) by (field; lra).
  replace (npdf (cp * ((x + b * z) / s))) with (npdf ((x + b * z) / s)) by (destruct Hcp as [->| ->]; [f_equal; ring|rewrite <- npdf_even; f_equal; ring]).
  ring.
Qed.

Lemma normals_bach n b cp : is_cp cp -> forall (x s : R), 0 < s ->
  normals_expect n (fun z => bach s (x + lin n b z) cp) (bach (sqrt (s ^ 2 + nrm2 n b)) x cp).
Proof.
  intros Hcp. induction n as [|n IH]; intros x s Hs.
  - intros z. unfold lin, nrm2. cbn [rsum]. rewrite !Rplus_0_r, sqrt_pow2 by lra. reflexivity.
  - assert (Hs' : 0 < sqrt (s ^ 2 + b n * b n)) by (apply sqrt_lt_R0; nra).
    exists (fun z => bach (sqrt (s ^ 2 + b n * b n)) (x + lin n b z) cp). split.
    + intros z. apply (gauss_expect_ext (fun y => bach s ((x + lin n b z) + b n * y) cp)); [intros y; rewrite lin_S; f_equal; ring|].
      apply conv_bach; assumption.
    + specialize (IH x _ Hs'). rewrite (pow2_sqrt (s ^ 2 + b n * b n)) in IH by nra. rewrite nrm2_S.
      replace (s ^ 2 + (nrm2 n b + b n * b n)) with (s ^ 2 + b n * b n + nrm2 n b) by ring. exact IH.
Qed.

(** E[payoff(F + b.Z)] *)
Lemma normals_bach_payoff n b cp K : is_cp cp -> forall F, 0 < nrm2 n b ->
  normals_expect n (fun z => payoff cp K (F + lin n b z)) (bach (sqrt (nrm2 n b)) (F - K) cp).
Proof.
  intros Hcp. induction n as [|n IH]; intros F Hb. { unfold nrm2 in Hb. cbn in Hb. lra. }
  destruct (Req_dec (b n) 0) as [H0|H0].
  - exists (fun z => payoff cp K (F + lin n b z)). split.
    + intros z. apply (gauss_expect_ext (fun _ => payoff cp K (F + lin n b z))); [|apply gauss_expect_const].
      intros y. rewrite lin_S, H0. f_equal. ring.
    + rewrite nrm2_S in *. rewrite H0 in *. replace (nrm2 n b + 0 * 0) with (nrm2 n b) in * by ring. apply IH, Hb.
  - assert (Ha : 0 < Rabs (b n)) by (apply Rabs_pos_lt, H0).
    exists (fun z => bach (Rabs (b n)) ((F - K) + lin n b z) cp). split.
    + intros z. destruct (Rdichotomy _ _ H0) as [Hn|Hp].
      * pose proof (ge_refl _ _ (bach_expect (Rabs (b n)) (F + lin n b z) K Ha cp Hcp)) as H.
        replace (F + lin n b z - K) with (F - K + lin n b z) in H by ring.
        eapply gauss_expect_ext; [|exact H]. intros y. cbv beta. rewrite lin_S, Rabs_left by lra. f_equal. ring.
      * pose proof (bach_expect (Rabs (b n)) (F + lin n b z) K Ha cp Hcp) as H.
        replace (F + lin n b z - K) with (F - K + lin n b z) in H by ring.
        eapply gauss_expect_ext; [|exact H]. intros y. cbv beta. rewrite lin_S, Rabs_right by lra. f_equal. ring.
    + pose proof (normals_bach n b cp Hcp (F - K) _ Ha) as H. rewrite pow2_abs in H. rewrite nrm2_S.
      replace (nrm2 n b + b n * b n) with (b n ^ 2 + nrm2 n b) by ring. exact H.
Qed.
