(** Expectations of positive parts of sums of exponentials under the standard normal law. *)
From Coq Require Import Reals Lra Lia List Psatz.
From Coquelicot Require Import Coquelicot.
From Verif Require Import Base Gauss Sums Spec_Opt Spec_Expect P_Expect.
Import ListNotations.
Open Scope R_scope.

Definition ef (l : list (R * R)) (z : R) : R := lsum (map (fun x => fst x * exp (snd x * z)) l).
Definition EG (l : list (R * R)) (z : R) : R := lsum (map (fun x => fst x * exp (snd x * snd x / 2) * Phi (z - snd x)) l).
Definition EGp (l : list (R * R)) (z : R) : R := lsum (map (fun x => fst x * exp (snd x * snd x / 2) * npdf (z - snd x)) l).
Lemma ef_npdf l z : ef l z * npdf z = EGp l z.
Proof.
  unfold ef, EGp. induction l as [|[a b] l IH]; cbn [map lsum fold_right fst snd]; [ring|].
  unfold lsum in IH. rewrite Rmult_plus_distr_r, IH. f_equal. rewrite Rmult_assoc.
  replace (exp (b * z)) with (exp (b * b / 2) * exp (b * z - b * b / 2)) by (rewrite <- exp_plus; f_equal; ring).
  rewrite Rmult_assoc, npdf_shift. ring.
Qed.
Lemma d_EG l z : is_derive (EG l) z (EGp l z).
Proof.
  unfold EG, EGp. induction l as [|[a b] l IH]; cbn [map lsum fold_right fst snd]; [apply is_derive_const_R|].
  apply is_derive_plus_R; [|exact IH]. apply is_derive_scal_R, is_derive_Phi_shift.
Qed.
Lemma c_EGp l z : continuous (EGp l) z.
Proof.
  unfold EGp. induction l as [|[a b] l IH]; cbn [map lsum fold_right fst snd]; [apply continuous_const|].
  apply (continuous_plus (fun z => a * exp (b * b / 2) * npdf (z - b))); [|exact IH].
  apply (continuous_mult (fun _ => a * exp (b * b / 2)) (fun z => npdf (z - b))); [apply continuous_const|apply cont_npdf_shift].
Qed.
Lemma EG_lim_p l : is_lim (EG l) p_infty (lsum (map (fun x => fst x * exp (snd x * snd x / 2)) l)).
Proof.
  unfold EG. induction l as [|[a b] l IH]; cbn [map lsum fold_right fst snd]; [apply is_lim_const|].
  apply is_lim_plus'; [|exact IH]. replace (Finite (a * exp (b * b / 2))) with (Finite (a * exp (b * b / 2) * 1)) by (f_equal; ring).
  apply (is_lim_scal_l (fun y => Phi (y - b)) _ p_infty 1), Phi_shift_lim_p.
Qed.
Lemma EG_lim_m l : is_lim (fun y => EG l (- y)) p_infty 0.
Proof.
  unfold EG. induction l as [|[a b] l IH]; cbn [map lsum fold_right fst snd]; [apply is_lim_const|].
  replace (Finite 0) with (Finite (a * exp (b * b / 2) * 0 + 0)) by (f_equal; ring).
  apply is_lim_plus'; [|exact IH]. apply (is_lim_scal_l (fun y => Phi (- y - b)) _ p_infty 0), Phi_shift_lim_m.
Qed.
Lemma c_ef l z : continuous (ef l) z.
Proof.
  unfold ef. induction l as [|[a b] l IH]; cbn [map lsum fold_right fst snd]; [apply continuous_const|].
  apply (continuous_plus (fun z => a * exp (b * z))); [|exact IH]. apply ex_derive_continuous_R. auto_derive. exact I.
Qed.
Lemma ef_expect l : gauss_expect (ef l) (lsum (map (fun x => fst x * exp (snd x * snd x / 2)) l)).
Proof.
  unfold ef. induction l as [|[a b] l IH]; cbn [map lsum fold_right fst snd]; [apply gauss_expect_const|].
  apply gauss_expect_plus; [|exact IH]. apply gauss_expect_scal, gauss_mgf.
Qed.
(** f negative before c, positive after *)
Lemma kink_expect (l : list (R * R)) (c : R) : (forall z, z < c -> ef l z <= 0) -> (forall z, c < z -> 0 <= ef l z) ->
  gauss_expect (fun z => Rmax (ef l z) 0) (lsum (map (fun x => fst x * exp (snd x * snd x / 2) * Phi (snd x - c)) l)) /\
  gauss_expect (fun z => Rmax (- ef l z) 0) (lsum (map (fun x => - fst x * exp (snd x * snd x / 2) * Phi (c - snd x)) l)).
Proof.
  intros Hn Hp. split.
  - apply (gauss_expect_of _ c (fun b => (0 - 0) + (EG l b - EG l c))).
    + intros b. apply ex_RInt_cont_all. intros x. apply (continuous_mult (fun z => Rmax (ef l z) 0) npdf); [|apply continuous_npdf]. apply cont_Rmax0, c_ef.
    + intros b Hb. apply Rabs_le_between in Hb.
      apply (RInt_kink _ (fun _ => 0) (EGp l) (fun _ => 0) (EG l) c b Hb).
      * intros; apply is_derive_const_R.
      * intros; apply d_EG.
      * intros; apply continuous_const.
      * intros; apply c_EGp.
      * intros x Hx. rewrite Rmax_right by (apply Hn, Hx). ring.
      * intros x Hx. rewrite Rmax_left by (apply Hp, Hx). apply ef_npdf.
    + replace (Finite (lsum (map (fun x => fst x * exp (snd x * snd x / 2) * Phi (snd x - c)) l)))
        with (Finite ((0 - 0) + (lsum (map (fun x => fst x * exp (snd x * snd x / 2)) l) - EG l c))).
      * apply is_lim_plus'; [apply is_lim_const|]. apply is_lim_minus'; [apply EG_lim_p|apply is_lim_const].
      * f_equal. unfold EG. rewrite <- lsum_map_minus, Rminus_0_r, Rplus_0_l. apply lsum_map_ext. intros [a b] _. cbn [fst snd].
        replace (b - c) with (- (c - b)) by ring. rewrite Phi_opp. ring.
  - apply (gauss_expect_of _ c (fun b => ((- EG l c - - EG l (- b)) + (0 - 0)))).
    + intros b. apply ex_RInt_cont_all. intros x. apply (continuous_mult (fun z => Rmax (- ef l z) 0) npdf); [|apply continuous_npdf]. apply cont_Rmax0.
      apply (continuous_opp (ef l)), c_ef.
    + intros b Hb. apply Rabs_le_between in Hb.
      apply (RInt_kink _ (fun z => - EGp l z) (fun _ => 0) (fun z => - EG l z) (fun _ => 0) c b Hb).
      * intros x. apply (is_derive_opp (K := R_AbsRing) (V := R_NormedModule)), d_EG.
      * intros; apply is_derive_const_R.
      * intros x. apply (continuous_opp (EGp l)), c_EGp.
      * intros; apply continuous_const.
      * intros x Hx. rewrite Rmax_left by (pose proof (Hn x Hx); lra). rewrite <- ef_npdf. ring.
      * intros x Hx. rewrite Rmax_right by (pose proof (Hp x Hx); lra). ring.
    + replace (Finite (lsum (map (fun x => - fst x * exp (snd x * snd x / 2) * Phi (c - snd x)) l))) with (Finite ((- EG l c - - 0) + (0 - 0))).
      * apply is_lim_plus'; [|apply is_lim_const]. apply is_lim_minus'; [apply is_lim_const|].
        apply (is_lim_opp (fun y => EG l (- y)) p_infty 0), EG_lim_m.
      * f_equal. unfold EG. rewrite Ropp_0, !Rminus_0_r, Rplus_0_r, <- lsum_map_opp. apply lsum_map_ext. intros [a b] _. cbn [fst snd]. ring.
Qed.
