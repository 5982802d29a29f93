(** Small composed lemmas used by Props_Opt.v. *)
From Coq Require Import Reals Lra List.
From Coquelicot Require Import Coquelicot.
From Verif Require Import Base Gauss P_Black Spec_Opt M_Opt M_Numeric P_Bsm P_Norm P_Numeric.
Import ListNotations.
Open Scope R_scope.

Lemma bsm_barrier_in_out m K B S T cp :
  bsm_price_barrier m K B S T cp 1 + bsm_price_barrier m K B S T cp (-1) = bsm_price m K S T cp.
Proof. unfold bsm_price_barrier. rewrite price_barrier_sum. apply bsm_suboptimal_vanilla. Qed.
Lemma norm_barrier_in_out m K B S T cp : eps <= sigma m * sqrt T ->
  norm_price_barrier m K B S T cp 1 + norm_price_barrier m K B S T cp (-1) = norm_price m K S T cp.
Proof. intros H. unfold norm_price_barrier. rewrite price_barrier_sum. now apply norm_suboptimal_vanilla. Qed.
Lemma bsm_barrier_ko_zero m K B T cp : call_or_put cp -> 0 < B -> bsm_price_barrier m K B B T cp (-1) = 0.
Proof.
  intros Hcp HB. apply (price_barrier_at _ _ _ _ _ _ (mD m T * (mF m B T - K)) Hcp).
  - now apply bsm_barrier_params_at.
  - intros X. apply bsm_suboptimal_parity.
Qed.
Lemma norm_barrier_ko_zero m K B T cp : call_or_put cp -> norm_price_barrier m K B B T cp (-1) = 0.
Proof.
  intros Hcp. apply (price_barrier_at _ _ _ _ _ _ (mD m T * (mF m B T - K)) Hcp).
  - unfold norm_barrier_params. f_equal. ring.
  - intros X. apply norm_suboptimal_parity.
Qed.
Lemma norm_theta_ok m K S T cp : call_or_put cp -> eps < sigma m * sqrt T ->
  (if is_fwd m then intr m else divr m) = 0 ->
  is_derive (fun t => norm_price m K S t cp) T (- norm_theta m K S T cp).
Proof.
  intros Hcp He H0. pose proof (norm_theta_derive m K S T cp Hcp He) as H.
  unfold norm_theta_true in H. rewrite H0, Rmult_0_r, Rplus_0_r in H. exact H.
Qed.
Lemma forward_consistent m S T :
  forward m S T = FWD (intr m) (divr m) (is_fwd m) S T /\
  fst (fst (fwd_df_divf m S T)) = forward m S T /\
  snd (fst (fwd_df_divf m S T)) = DF (intr m) T /\
  (is_fwd m = false -> snd (fwd_df_divf m S T) = DF (divr m) T) /\
  (is_fwd m = true -> snd (fwd_df_divf m S T) = 1).
Proof.
  rewrite fdd_eq. split; [apply forward_eq|]. split; [symmetry; apply forward_eq|].
  split; [reflexivity|]. split; intros E; simpl; rewrite E; reflexivity.
Qed.
Lemma norm_translate m K S T cp a : is_fwd m = true ->
  norm_price m (K + a) (S + a) T cp = norm_price m K S T cp.
Proof.
  intros H. unfold norm_price, norm_price_formula. rewrite H.
  replace ((S + a) * 1 - (K + a)) with (S * 1 - K) by ring. reflexivity.
Qed.
Lemma fwd_quote_agrees s r q K S T cp :
  bsm_price (mkOpt s r q false) K S T cp = bsm_price (mkOpt s r q true) K (FWD r q false S T) T cp /\
  norm_price (mkOpt s r q false) K S T cp = norm_price (mkOpt s r q true) K (FWD r q false S T) T cp.
Proof.
  assert (E : S * (exp (- T * q) / exp (- T * r)) = FWD r q false S T * 1).
  { unfold FWD. rewrite <- exp_sub, Rmult_1_r. f_equal. f_equal. ring. }
  split; unfold bsm_price, norm_price, bsm_price_formula, norm_price_formula; cbn [is_fwd sigma intr divr]; rewrite E; reflexivity.
Qed.
Lemma numeric_all_ext (A : Type) (pr : A -> R -> R -> R -> R -> R) (get : A -> R) (set : A -> R -> A) (d : A)
         fdd brentq (h : list A) a P K S T cp :
  ext h (snd (delta_numeric pr d h a K S T cp)) /\
  ext h (snd (gamma_numeric pr d h a K S T cp)) /\
  ext h (snd (theta_numeric pr d h a K S T cp)) /\
  ext h (snd (vega_numeric pr get set d h a K S T cp)) /\
  ext h (snd (volga_numeric pr get set d h a K S T cp)) /\
  ext h (snd (vanna_numeric pr get set d h a K S T cp)) /\
  ext h (snd (impvol_brentq pr set d fdd brentq h a P K S T cp false)).
Proof.
  repeat split; try apply ext_refl.
  - apply vega_numeric_ext. - apply volga_numeric_ext. - apply vanna_numeric_ext. - apply brentq_ext.
Qed.
