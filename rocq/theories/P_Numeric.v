(** Proofs about the finite-difference routines (model in M_Numeric.v) and BsmDisp. *)
From Coq Require Import Reals Lra Psatz List Lia.
From Coquelicot Require Import Coquelicot.
From Verif Require Import Base Gauss P_Black Spec_Opt M_Opt M_Numeric P_Bsm.
Import ListNotations.
Open Scope R_scope.

Section Heap.
  Context {A : Type}.
  Variables (pr : A -> R -> R -> R -> R -> R) (get : A -> R) (set : A -> R -> A) (dflt : A).
  Notation heap := (list A).
  Notation deref := (deref dflt).
  Notation assign := (assign set dflt).

  (** [ext h h']: every object of [h] is unchanged in [h'] (which may hold new objects). *)
  Definition ext (h h' : heap) : Prop := exists tl, h' = h ++ tl.

  Lemma ext_refl h : ext h h. Proof. exists []. now rewrite app_nil_r. Qed.
  Lemma ext_trans h1 h2 h3 : ext h1 h2 -> ext h2 h3 -> ext h1 h3.
  Proof. intros [t1 ->] [t2 ->]. exists (t1 ++ t2). now rewrite app_assoc. Qed.

  Lemma update_app (h : list A) x y : update (h ++ [x]) (length h) y = h ++ [y].
  Proof. induction h as [|z h IH]; simpl; [reflexivity | now rewrite IH]. Qed.
  Lemma deref_app h x : deref (h ++ [x]) (length h) = x.
  Proof. unfold M_Numeric.deref. now rewrite app_nth2, Nat.sub_diag by lia. Qed.
  Lemma deref_ext h h' a : ext h h' -> (a < length h)%nat -> deref h' a = deref h a.
  Proof. intros [tl ->] H. unfold M_Numeric.deref. now rewrite app_nth1. Qed.

  Lemma vega_numeric_eq h a K S T cp :
    let m := deref h a in
    let m1 := set m (get m + vega_shock) in
    let m2 := set m1 (get m1 - 2 * vega_shock) in
    vega_numeric pr get set dflt h a K S T cp =
      ((pr m1 K S T cp - pr m2 K S T cp) / (2 * vega_shock), h ++ [m2]).
  Proof.
    unfold vega_numeric, copy, M_Numeric.assign. cbv beta iota zeta.
    rewrite ?update_app, ?deref_app, ?update_app, ?deref_app, ?update_app, ?deref_app. reflexivity.
  Qed.

  Lemma volga_numeric_eq h a K S T cp :
    let m := deref h a in
    let m1 := set m (get m + vega_shock) in
    let m2 := set m1 (get m1 - 2 * vega_shock) in
    volga_numeric pr get set dflt h a K S T cp =
      ((pr m1 K S T cp + pr m2 K S T cp - 2 * pr m K S T cp) / (vega_shock * vega_shock), h ++ [m2]).
  Proof.
    unfold volga_numeric, copy, M_Numeric.assign. cbv beta iota zeta.
    rewrite ?update_app, ?deref_app, ?update_app, ?deref_app, ?update_app, ?deref_app. reflexivity.
  Qed.

  Lemma vega_numeric_ext h a K S T cp : ext h (snd (vega_numeric pr get set dflt h a K S T cp)).
  Proof. rewrite vega_numeric_eq. eexists. reflexivity. Qed.
  Lemma volga_numeric_ext h a K S T cp : ext h (snd (volga_numeric pr get set dflt h a K S T cp)).
  Proof. rewrite volga_numeric_eq. eexists. reflexivity. Qed.
  Lemma vanna_numeric_ext h a K S T cp : ext h (snd (vanna_numeric pr get set dflt h a K S T cp)).
  Proof.
    unfold vanna_numeric.
    pose proof (vega_numeric_ext h a K (S + delta_shock S) T cp) as H1.
    destruct (vega_numeric pr get set dflt h a K (S + delta_shock S) T cp) as [v1 h1].
    pose proof (vega_numeric_ext h1 a K (S - delta_shock S) T cp) as H2.
    destruct (vega_numeric pr get set dflt h1 a K (S - delta_shock S) T cp) as [v2 h2].
    simpl in *. eapply ext_trans; eassumption.
  Qed.

  Lemma brentq_ext fdd bq h a P K S T cp :
    ext h (snd (impvol_brentq pr set dflt fdd bq h a P K S T cp false)).
  Proof.
    unfold impvol_brentq. destruct (fdd (M_Numeric.deref dflt h a) S T) as [fwd df].
    unfold copy, M_Numeric.assign. cbv beta iota zeta.
    rewrite ?update_app, ?deref_app, ?update_app, ?deref_app, ?update_app, ?deref_app.
    assert (E : forall x : A, ext h (h ++ [x])) by (intros; eexists; reflexivity).
    match goal with |- context [match ?r with Some _ => _ | None => _ end] => destruct r as [[s|]|] end; simpl; apply E.
  Qed.

  (** central differences are exact on quadratics *)
  Hypothesis get_set : forall m x, get (set m x) = x.
  Hypothesis set_set : forall m x y, set (set m x) y = set m y.
  Hypothesis set_get : forall m, set m (get m) = m.

  Lemma vega_quadratic h a K S T cp (q2 q1 q0 : R) :
    (forall x, pr (set (deref h a) x) K S T cp = q2 * x ^ 2 + q1 * x + q0) ->
    fst (vega_numeric pr get set dflt h a K S T cp) = 2 * q2 * get (deref h a) + q1
    /\ fst (volga_numeric pr get set dflt h a K S T cp) = 2 * q2.
  Proof.
    intros Hq. rewrite vega_numeric_eq, volga_numeric_eq. cbn [fst].
    rewrite !get_set, !set_set.
    replace (pr (deref h a) K S T cp) with (pr (set (deref h a) (get (deref h a))) K S T cp)
      by (rewrite set_get; reflexivity).
    rewrite !Hq. unfold vega_shock. split; field.
  Qed.

  Lemma delta_quadratic h a K S T cp (q2 q1 q0 : R) : S <> 0 ->
    (forall x, pr (deref h a) K x T cp = q2 * x ^ 2 + q1 * x + q0) ->
    fst (delta_numeric pr dflt h a K S T cp) = 2 * q2 * S + q1
    /\ fst (gamma_numeric pr dflt h a K S T cp) = 2 * q2.
  Proof.
    intros HS Hq. unfold delta_numeric, gamma_numeric. cbn [fst]. rewrite !Hq.
    unfold delta_shock. split; field; assumption.
  Qed.

  Lemma theta_quadratic h a K S T cp (q2 q1 q0 : R) : 0 < T ->
    (forall t, pr (deref h a) K S t cp = q2 * t ^ 2 + q1 * t + q0) ->
    fst (theta_numeric pr dflt h a K S T cp) = - (2 * q2 * T + q1).
  Proof.
    intros HT Hq. unfold theta_numeric. cbn [fst]. rewrite !Hq.
    assert (0 < Rmin (1 / (36525 / 10)) T) by (apply Rmin_glb_lt; lra).
    field. lra.
  Qed.

  (** vanna is exact on prices a*S*sigma + (anything in S) + (anything in sigma) *)
  Lemma vanna_bilinear h a K S T cp (c : R) (u v : R -> R) : (a < length h)%nat -> S <> 0 ->
    (forall x y, pr (set (deref h a) x) K y T cp = c * x * y + u x + v y) ->
    fst (vanna_numeric pr get set dflt h a K S T cp) = c.
  Proof.
    intros Ha HS Hq. unfold vanna_numeric.
    rewrite vega_numeric_eq. rewrite vega_numeric_eq. cbn [fst].
    rewrite (deref_ext h (h ++ _) a) by (try (eexists; reflexivity); exact Ha).
    rewrite !get_set, !set_set, !Hq. unfold vega_shock, delta_shock. field. assumption.
  Qed.
End Heap.

(** ** BsmDisp *)

Definition disp_beta1 (m : dispo) : Prop := d_beta m = 1.
Definition disp_opt (m : dispo) : opt := mkOpt (d_sigma m) (d_intr m) (d_divr m) (d_isf m).

Lemma disp_base_1 m : d_beta m = 1 -> disp_base m = disp_opt m.
Proof. intros E. unfold disp_base, disp_opt. now rewrite E, Rmult_1_r. Qed.
Lemma disp_spot_1 m S : d_beta m = 1 -> disp_spot m S = S.
Proof. intros E. unfold disp_spot. rewrite E. ring. Qed.
Lemma disp_strike_1 m K T : d_beta m = 1 -> disp_strike m K T = K.
Proof. intros E. unfold disp_strike. rewrite E. ring. Qed.

Lemma disp_beta1_all m K S T cp : d_beta m = 1 ->
  disp_price m K S T cp = bsm_price (disp_opt m) K S T cp /\
  disp_delta m K S T cp = bsm_delta (disp_opt m) K S T cp /\
  disp_gamma m K S T cp = bsm_gamma (disp_opt m) K S T cp /\
  disp_vega m K S T cp = bsm_vega (disp_opt m) K S T cp /\
  disp_theta m K S T cp = bsm_theta (disp_opt m) K S T cp /\
  disp_cdf m K S T cp = bsm_cdf (disp_opt m) K S T cp.
Proof.
  intros E. unfold disp_theta, disp_price, disp_delta, disp_gamma, disp_vega, disp_cdf.
  rewrite !disp_base_1 by exact E.
  rewrite ?disp_spot_1, ?disp_strike_1 by exact E. rewrite E.
  unfold bsm_theta. cbn [is_fwd disp_opt intr divr sigma].
  replace (1 / 1) with 1 by field. rewrite !Rmult_1_l, !Rmult_1_r.
  repeat split; reflexivity.
Qed.

Lemma mF_lin m x y a b T : mF m (a * x + b * y) T = a * mF m x T + b * mF m y T.
Proof. unfold mF, FWD. destruct (is_fwd m); ring. Qed.

Lemma disp_moneyness m K S T :
  mF (disp_base m) (disp_spot m S) T - disp_strike m K T = d_beta m * (mF (disp_base m) S T - K).
Proof.
  unfold disp_spot, disp_strike. rewrite mF_lin. change (forward (disp_base m) (d_pivot m) T) with (mF (disp_base m) (d_pivot m) T).
  ring.
Qed.

Lemma disp_parity m K S T : d_beta m <> 0 ->
  disp_price m K S T 1 - disp_price m K S T (-1)
  = DF (d_intr m) T * (FWD (d_intr m) (d_divr m) (d_isf m) S T - K).
Proof.
  intros Hb. unfold disp_price. rewrite <- Rmult_minus_distr_l, bsm_parity.
  change (FWD (intr (disp_base m)) (divr (disp_base m)) (is_fwd (disp_base m)) (disp_spot m S) T)
    with (mF (disp_base m) (disp_spot m S) T).
  rewrite disp_moneyness. change (intr (disp_base m)) with (d_intr m).
  change (FWD (d_intr m) (d_divr m) (d_isf m) S T) with (mF (disp_base m) S T).
  field. exact Hb.
Qed.

Lemma is_derive_disp_spot m S : is_derive (disp_spot m) S (d_beta m).
Proof. unfold disp_spot. auto_derive; [trivial|]. Req. ring. Qed.

Lemma disp_delta_derive m K S T cp : call_or_put cp -> d_beta m <> 0 ->
  0 < disp_strike m K T -> 0 < disp_spot m S ->
  is_derive (fun x => disp_price m K x T cp) S (disp_delta m K S T cp).
Proof.
  intros Hcp Hb HK HS. unfold disp_price. eapply is_derive_eq.
  - apply is_derive_scal_R.
    apply (is_derive_comp_R (fun y => bsm_price (disp_base m) (disp_strike m K T) y T cp) (disp_spot m)).
    + apply bsm_delta_derive; eassumption.
    + apply is_derive_disp_spot.
  - unfold disp_delta. field. exact Hb.
Qed.

Lemma disp_gamma_derive2 m K S T cp : call_or_put cp -> d_beta m <> 0 ->
  0 < disp_strike m K T -> 0 < disp_spot m S ->
  100 * eps <= d_sigma m * d_beta m * sqrt T ->
  is_derive_n (fun x => disp_price m K x T cp) 2 S (disp_gamma m K S T cp).
Proof.
  intros Hcp Hb HK HS He. apply (is_derive_n_2 _ (fun x => disp_delta m K x T cp)).
  - apply (filter_imp (fun y => 0 < disp_spot m y)).
    + intros y Hy. now apply disp_delta_derive.
    + apply (locally_gt (disp_spot m)); [|exact HS].
      apply ex_derive_continuous_R. eexists. apply is_derive_disp_spot.
  - unfold disp_delta. eapply is_derive_eq.
    + apply (is_derive_comp_R (fun y => bsm_delta (disp_base m) (disp_strike m K T) y T cp) (disp_spot m)).
      * apply bsm_delta_gamma; eassumption.
      * apply is_derive_disp_spot.
    + unfold disp_gamma. reflexivity.
Qed.

Lemma disp_vega_derive m K S T cp : call_or_put cp -> d_beta m <> 0 ->
  0 < disp_strike m K T -> 0 < disp_spot m S ->
  eps < d_sigma m * d_beta m * sqrt T ->
  is_derive (fun u => disp_price (disp_set m u) K S T cp) (d_sigma m) (disp_vega m K S T cp).
Proof.
  intros Hcp Hb HK HS He.
  pose proof (bsm_vega_derive (disp_base m) (disp_strike m K T) (disp_spot m S) T cp Hcp HK HS He) as H.
  apply (is_derive_ext (fun u => 1 / d_beta m *
     (fun v => bsm_price (set_sigma (disp_base m) v) (disp_strike m K T) (disp_spot m S) T cp) (u * d_beta m))).
  { intros u. reflexivity. }
  eapply is_derive_eq.
  - apply is_derive_scal_R.
    apply (is_derive_comp_R (fun v => bsm_price (set_sigma (disp_base m) v) (disp_strike m K T) (disp_spot m S) T cp)
             (fun u => u * d_beta m)).
    + exact H.
    + auto_derive; [trivial|]. reflexivity.
  - unfold disp_vega. field. exact Hb.
Qed.
