(** Cumulants as derivatives of the logarithm of the coded MGF; affine ODEs. *)
From Coq Require Import Reals Lra Lia List.
From Coquelicot Require Import Coquelicot.
From Verif Require Import Base M_Params M_Mgf M_Opt P_Mgf.
Open Scope R_scope.

Lemma is_derive_n_4 (f f1 f2 f3 : R -> R) (x l : R) :
  locally x (fun y => is_derive f y (f1 y)) -> locally x (fun y => is_derive f1 y (f2 y)) ->
  locally x (fun y => is_derive f2 y (f3 y)) -> is_derive f3 x l -> is_derive_n f 4 x l.
Proof.
  intros H H1 H2 H3. simpl. apply (is_derive_ext_loc f3); [|exact H3].
  pose proof (locally_locally x _ H) as HH. pose proof (locally_locally x _ H1) as HH1.
  generalize (filter_and _ _ (filter_and _ _ HH HH1) H2). apply filter_imp. intros y [[Hy Hy1] Hy2].
  symmetry. apply is_derive_unique. apply (is_derive_ext_loc f2); [|exact Hy2].
  generalize (filter_and _ _ (locally_locally y _ Hy) Hy1). apply filter_imp. intros z [Hz Hz1].
  symmetry. apply is_derive_unique. apply (is_derive_ext_loc f1); [|exact Hz1].
  apply (filter_imp _ _ (fun w Hw => eq_sym (is_derive_unique f w (f1 w) Hw)) Hz).
Qed.

(** first four derivatives at 0 of the logarithm of [M] *)
Definition cumulants_of (M : R -> R) (c : R * R * R * R) : Prop :=
  let '(c1, c2, c3, c4) := c in
  is_derive_n (fun u => ln (M u)) 1 0 c1 /\ is_derive_n (fun u => ln (M u)) 2 0 c2 /\
  is_derive_n (fun u => ln (M u)) 3 0 c3 /\ is_derive_n (fun u => ln (M u)) 4 0 c4.

Lemma chain4 (f f1 f2 f3 f4 : R -> R) (P : R -> Prop) : locally 0 P ->
  (forall y, P y -> is_derive f y (f1 y)) -> (forall y, P y -> is_derive f1 y (f2 y)) ->
  (forall y, P y -> is_derive f2 y (f3 y)) -> (forall y, P y -> is_derive f3 y (f4 y)) ->
  is_derive_n f 1 0 (f1 0) /\ is_derive_n f 2 0 (f2 0) /\ is_derive_n f 3 0 (f3 0) /\ is_derive_n f 4 0 (f4 0).
Proof.
  intros HP H1 H2 H3 H4. pose proof (locally_singleton _ _ HP) as H0.
  assert (L1 := filter_imp _ _ H1 HP). assert (L2 := filter_imp _ _ H2 HP). assert (L3 := filter_imp _ _ H3 HP).
  split; [|split; [|split]].
  - simpl. now apply H1.
  - apply (is_derive_n_2 f f1); auto.
  - apply (is_derive_n_3 f f1 f2); auto.
  - apply (is_derive_n_4 f f1 f2 f3); auto.
Qed.

Lemma locally_quad_pos (a b : R) : locally 0 (fun u => 0 < 1 + (a - b * u) * u).
Proof.
  apply (locally_gt (fun u => 1 + (a - b * u) * u) 0 0).
  - apply (ex_derive_continuous_R (fun u => 1 + (a - b * u) * u)). auto_derive. exact I.
  - lra.
Qed.
Section Quad.
Variables p c : R.
Local Notation q := (fun u => 1 + (- p - / 2 * c * u) * u).
Local Notation q1 := (fun u => - p - c * u).
(** derivatives of h = - ln q *)
Definition h1 (u : R) := - (q1 u) / q u.
Definition h2 (u : R) := c / q u + (q1 u) ^ 2 / q u ^ 2.
Definition h3 (u : R) := - 3 * c * q1 u / q u ^ 2 - 2 * (q1 u) ^ 3 / q u ^ 3.
Definition h4 (u : R) := 3 * c ^ 2 / q u ^ 2 + 12 * c * (q1 u) ^ 2 / q u ^ 3 + 6 * (q1 u) ^ 4 / q u ^ 4.
Lemma dh0 y : 0 < q y -> is_derive (fun u => - ln (q u)) y (h1 y).
Proof. intros H. unfold h1. auto_derive; [lra|]. Req. field. lra. Qed.
Lemma dh1 y : 0 < q y -> is_derive h1 y (h2 y).
Proof. intros H. unfold h1, h2. auto_derive; [lra|]. Req. field. lra. Qed.
Lemma dh2 y : 0 < q y -> is_derive h2 y (h3 y).
Proof. intros H. unfold h2, h3. auto_derive; [repeat split; try lra; apply Rgt_not_eq; nra|]. Req. field. lra. Qed.
Lemma dh3 y : 0 < q y -> is_derive h3 y (h4 y).
Proof.
  intros H. unfold h3, h4. auto_derive; [|Req; field; lra].
  assert (A : forall n, pow (q y) n <> 0) by (intro; apply pow_nonzero; lra). simpl in A.
  pose proof (A 2%nat); pose proof (A 3%nat). simpl in *. repeat split; auto.
Qed.
End Quad.

(** VG *)
Lemma vg_log o u T : ln (vg_mgf o u T) = T / s_nu o * (- s_corr o * u
   + - ln (1 + (- (s_theta o * s_nu o) - / 2 * (s_nu o * s_sigma o ^ 2) * u) * u)).
Proof. unfold vg_mgf. rewrite ln_exp. f_equal. unfold Rminus at 1. f_equal. f_equal. f_equal. f_equal. ring. Qed.

Lemma affine_shift (f f' : R -> R) a b y d : is_derive f y d -> is_derive (fun u => a * (b * u + f u)) y (a * (b + d)).
Proof.
  intros H. apply (is_derive_scal_R (fun u => b * u + f u) a y (b + d)).
  apply (is_derive_plus_R (fun u => b * u) f y b d); [|exact H].
  auto_derive; [exact I|]. Req. ring.
Qed.
Lemma scal_shift (f : R -> R) a y d : is_derive f y d -> is_derive (fun u => a * f u) y (a * d).
Proof. apply (is_derive_scal_R f a y d). Qed.

Lemma vg_cumulants o T : s_nu o <> 0 -> cumulants_of (fun u => vg_mgf o u T) (vg_cum4 o T).
Proof.
  intros Hn. unfold vg_cum4, cumulants_of. set (p := s_theta o * s_nu o). set (c := s_nu o * s_sigma o ^ 2).
  set (a := T / s_nu o). set (b := - s_corr o).
  assert (E : forall u, a * (b * u + - ln (1 + (- p - / 2 * c * u) * u)) = ln (vg_mgf o u T)) by (intro u; rewrite vg_log; reflexivity).
  destruct (chain4 (fun u => a * (b * u + - ln (1 + (- p - / 2 * c * u) * u)))
     (fun u => a * (b + h1 p c u)) (fun u => a * h2 p c u) (fun u => a * h3 p c u) (fun u => a * h4 p c u)
     (fun u => 0 < 1 + (- p - / 2 * c * u) * u)) as (A1 & A2 & A3 & A4).
  - apply (locally_quad_pos (- p) (/ 2 * c)).
  - intros y Hy. apply (affine_shift (fun u => - ln (1 + (- p - / 2 * c * u) * u)) (fun _ => 0)). now apply dh0.
  - intros y Hy. apply (scal_shift (fun u => b + h1 p c u) a y). apply (is_derive_eq _ y (0 + h2 p c y)); [|ring].
    apply (is_derive_plus_R (fun _ => b) (h1 p c)); [apply is_derive_const_R|now apply dh1].
  - intros y Hy. apply (scal_shift (h2 p c)). now apply dh2.
  - intros y Hy. apply (scal_shift (h3 p c)). now apply dh3.
  - assert (F1 : a * (b + h1 p c 0) = T * (- s_corr o / s_nu o + s_theta o)) by (unfold a, b, h1, p, c; field; exact Hn).
    assert (F2 : a * h2 p c 0 = T * (s_sigma o ^ 2 + s_nu o * s_theta o ^ 2)) by (unfold a, h2, p, c; field; exact Hn).
    assert (F3 : a * h3 p c 0 = T * s_nu o * s_theta o * (3 * s_sigma o ^ 2 + 2 * (s_nu o * s_theta o ^ 2))) by (unfold a, h3, p, c; field; exact Hn).
    assert (F4 : a * h4 p c 0 = 3 * T * s_nu o * ((s_sigma o ^ 2) ^ 2 + 4 * (s_nu o * s_theta o ^ 2) * s_sigma o ^ 2 + 2 * (s_nu o * s_theta o ^ 2) ^ 2)) by (unfold a, h4, p, c; field; exact Hn).
    rewrite F1 in A1. rewrite F2 in A2. rewrite F3 in A3. rewrite F4 in A4.
    split; [|split; [|split]]; (eapply is_derive_n_ext; [|eassumption]); exact E.
Qed.
Lemma vgcos_cum_eq s n t o T : vg_new s n t = Some o -> vgcos_cum4 o T = vg_cum4 o T.
Proof.
  intros H. apply vg_new_inv in H. destruct H as (E1 & E2 & E3 & Hp & E4).
  unfold vgcos_cum4, vg_cum4. rewrite E1, E2, E3, E4. f_equal; [f_equal; [f_equal|]|]; try ring.
  unfold Rdiv. ring.
Qed.

Section Nig.
Variables p c : R.
(** h = 1 - sqrt q,  q = 1 - 2 p u - c u^2 *)
Definition nq (u : R) := 1 + (-2 * p - c * u) * u.
Definition nr (u : R) := sqrt (nq u).
Definition k1 (u : R) := (p + c * u) / nr u.
Definition k2 (u : R) := (c + p ^ 2) / nr u ^ 3.
Definition k3 (u : R) := 3 * (c + p ^ 2) * (p + c * u) / nr u ^ 5.
Definition k4 (u : R) := 3 * (c + p ^ 2) * (c * nr u ^ 2 + 5 * (p + c * u) ^ 2) / nr u ^ 7.
Lemma nr_pos y : 0 < nq y -> 0 < nr y /\ nr y ^ 2 = nq y.
Proof. intros H. split; [now apply sqrt_lt_R0|]. unfold nr. rewrite <- (sqrt_sqrt (nq y)) at 2 by lra. ring. Qed.
Lemma dnr y : 0 < nq y -> is_derive nr y (- (p + c * y) / nr y).
Proof.
  intros H. destruct (nr_pos y H) as [Hp Hs]. unfold nr at 1.
  apply (is_derive_eq _ y ((/ (2 * sqrt (nq y))) * (- 2 * p - 2 * c * y))).
  - apply (is_derive_eq _ y (((-2 * p - 2 * c * y)) * (/ (2 * sqrt (nq y))))); [|ring]. apply (is_derive_comp_R sqrt nq y); [auto_derive; [exact H|Req; field; fold (nr y); lra]|]. unfold nq. auto_derive; [exact I|]. Req. ring.
  - fold (nr y). field. lra.
Qed.
Lemma dk0 y : 0 < nq y -> is_derive (fun u => 1 - nr u) y (k1 y).
Proof.
  intros H. destruct (nr_pos y H) as [Hp Hs]. apply (is_derive_eq _ y (0 - (- (p + c * y) / nr y))); [|unfold k1; field; lra].
  apply (is_derive_minus_R (fun _ => 1) nr); [apply is_derive_const_R|now apply dnr].
Qed.
Ltac der D := match type of D with is_derive _ ?y ?v => match goal with |- context [Derive ?f y] => replace (Derive f y) with v by (symmetry; apply is_derive_unique; exact D) end end.
Lemma dk1 y : 0 < nq y -> is_derive k1 y (k2 y).
Proof.
  intros H. destruct (nr_pos y H) as [Hp Hs]. pose proof (dnr y H) as D. unfold k1, k2.
  auto_derive; [split; [eexists; exact D|split; [lra|exact I]]|].
  der D. Req.
  apply (Rmult_eq_reg_r (nr y ^ 3)); [|apply pow_nonzero; lra].
  field_simplify; [|lra|lra]. rewrite Hs. unfold nq. field.
Qed.
Lemma dk2 y : 0 < nq y -> is_derive k2 y (k3 y).
Proof.
  intros H. destruct (nr_pos y H) as [Hp Hs]. pose proof (dnr y H) as D. unfold k2, k3.
  assert (N : forall n, nr y ^ n <> 0) by (intro; apply pow_nonzero; lra).
  auto_derive; [split; [eexists; exact D|split; [apply (N 3%nat)|exact I]]|].
  der D. Req. field. lra.
Qed.
Lemma dk3 y : 0 < nq y -> is_derive k3 y (k4 y).
Proof.
  intros H. destruct (nr_pos y H) as [Hp Hs]. pose proof (dnr y H) as D. unfold k3, k4.
  assert (N : forall n, nr y ^ n <> 0) by (intro; apply pow_nonzero; lra).
  auto_derive; [split; [eexists; exact D|split; [apply (N 5%nat)|exact I]]|].
  der D. Req. field. lra.
Qed.
End Nig.

Lemma nig_cumulants o T : s_nu o <> 0 -> cumulants_of (fun u => nig_mgf o u T) (nig_cum4 o T).
Proof.
  intros Hn. unfold nig_cum4, cumulants_of. set (p := s_theta o * s_nu o). set (c := s_nu o * s_sigma o ^ 2).
  set (a := T / s_nu o). set (b := - s_corr o).
  assert (E : forall u, a * (b * u + (1 - nr p c u)) = ln (nig_mgf o u T)).
  { intro u. unfold nig_mgf. rewrite ln_exp. unfold nr, nq. unfold a, b, p, c.
    replace (-2 * (s_theta o * s_nu o)) with (-2 * s_theta o * s_nu o) by ring. f_equal. ring. }
  destruct (chain4 (fun u => a * (b * u + (1 - nr p c u)))
     (fun u => a * (b + k1 p c u)) (fun u => a * k2 p c u) (fun u => a * k3 p c u) (fun u => a * k4 p c u)
     (fun u => 0 < nq p c u)) as (A1 & A2 & A3 & A4).
  - apply (locally_quad_pos (-2 * p) c).
  - intros y Hy. apply (affine_shift (fun u => 1 - nr p c u) (fun _ => 0)). now apply dk0.
  - intros y Hy. apply (scal_shift (fun u => b + k1 p c u) a y). apply (is_derive_eq _ y (0 + k2 p c y)); [|ring].
    apply (is_derive_plus_R (fun _ => b) (k1 p c)); [apply is_derive_const_R|now apply dk1].
  - intros y Hy. apply (scal_shift (k2 p c)). now apply dk2.
  - intros y Hy. apply (scal_shift (k3 p c)). now apply dk3.
  - assert (R0 : nr p c 0 = 1) by (unfold nr, nq; rewrite Rmult_0_r, Rplus_0_r; apply sqrt_1).
    assert (F1 : a * (b + k1 p c 0) = T * (- s_corr o / s_nu o + s_theta o)) by (unfold a, b, k1; rewrite R0; unfold p, c; field; exact Hn).
    assert (F2 : a * k2 p c 0 = T * (s_sigma o ^ 2 + s_nu o * s_theta o ^ 2)) by (unfold a, k2; rewrite R0; unfold p, c; field; exact Hn).
    assert (F3 : a * k3 p c 0 = 3 * s_nu o * s_theta o * (T * (s_sigma o ^ 2 + s_nu o * s_theta o ^ 2))) by (unfold a, k3; rewrite R0; unfold p, c; field; exact Hn).
    assert (F4 : a * k4 p c 0 = 3 * s_nu o * (T * (s_sigma o ^ 2 + s_nu o * s_theta o ^ 2)) * (s_sigma o ^ 2 + 5 * (s_nu o * s_theta o ^ 2))) by (unfold a, k4; rewrite R0; unfold p, c; field; exact Hn).
    rewrite F1 in A1. rewrite F2 in A2. rewrite F3 in A3. rewrite F4 in A4.
    split; [|split; [|split]]; (eapply is_derive_n_ext; [|eassumption]); exact E.
Qed.
Lemma bsm_cumulants m T : cumulants_of (fun u => bsm_logp_mgf m u T) (bsmcos_cum4 (sigma m) T).
Proof.
  unfold bsmcos_cum4, cumulants_of. set (s := sigma m ^ 2 * T).
  assert (E : forall u, - / 2 * s * u * (1 - u) = ln (bsm_logp_mgf m u T)).
  { intro u. unfold bsm_logp_mgf. rewrite ln_exp. unfold s. ring. }
  destruct (chain4 (fun u => - / 2 * s * u * (1 - u)) (fun u => - / 2 * s + s * u) (fun _ => s) (fun _ => 0) (fun _ => 0)
     (fun _ => True)) as (A1 & A2 & A3 & A4).
  - apply filter_forall. auto.
  - intros y _. auto_derive; [exact I|]. Req. field.
  - intros y _. auto_derive; [exact I|]. Req. field.
  - intros y _. apply is_derive_const_R.
  - intros y _. apply is_derive_const_R.
  - replace (- / 2 * s + s * 0) with (- / 2 * s) in A1 by ring.
    split; [|split; [|split]]; (eapply is_derive_n_ext; [|eassumption]); exact E.
Qed.
