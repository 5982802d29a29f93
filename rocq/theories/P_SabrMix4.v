(** One outer node: the correlated mixture loses forward value when beta > 0 and rho <> 0. *)
From Coq Require Import Reals Lra List.
From Verif Require Import Base Sums M_Opt M_Fd M_Sabr M_Dist M_SabrMix Spec_Opt Spec_Dist Spec_SabrVol P_Sabr4 P_Dist P_SabrMix P_SabrMix2 P_SabrMix3.
Import ListNotations.
Open Scope R_scope.
Lemma one_rule : positive_rule [(0, 1)] /\ symmetric_rule [(0, 1)].
Proof. split; [split; [discriminate|repeat constructor; cbn; lra]|]. intros f. unfold rule_sum. cbn. replace (-0) with 0 by ring. reflexivity. Qed.
Lemma mix_forward_one p T F zw1 : 0 < T -> 0 < F -> 0 < b_vov p -> -1 < b_rho p < 1 -> b_rho p <> 0 -> 0 < b_sigma p -> 0 < b_beta p -> isclose (b_beta p) 0 = false ->
  positive_rule zw1 -> symmetric_rule zw1 -> exists l, mixchoi_nodes p T F [(0, 1)] zw1 = Some l /\ total_weight l = 1 /\ avg_forward l < 1.
Proof.
  intros HT HF Hv Hr Hr0 Hs Hb Hb0 P1 S1. destruct one_rule as [P0 S0].
  destruct (mixchoi_facts p T F [(0, 1)] zw1 (or_intror Hb) Hv Hr P0 S0 P1 S1) as (l & E & _ & W & Hin & _). exists l. split; [exact E|]. split; [exact W|].
  rewrite mixchoi_nodes_eq in E by now right. apply (f_equal (fun o => match o with Some x => x | None => [] end)) in E. cbn beta iota in E.
  assert (Ha : 0 < sabr_alpha p F). { unfold sabr_alpha. rewrite npow_s_pos by exact HF. apply Rdiv_lt_0_compat; [exact Hs|]. apply exp_pos. }
  assert (Hf : forall x, In x l -> fst (fst x) < 1).
  { intros x Hx. rewrite <- E in Hx. apply in_flat_map in Hx. destruct Hx as ([[s w0] z] & Ho & Hx). unfold mixchoi_row in Hx. apply in_map_iff in Hx. destruct Hx as ([av w2] & <- & Hi). cbn [fst snd].
    destruct (inner_facts (sabr_vovn p T) z zw1 (vovn_pos p T Hv) P1 S1) as (_ & _ & _ & _ & Hav). destruct (Hav _ _ Hi) as [A _].
    assert (Es : s = 1). { unfold outer_rule, ln_quad in Ho. cbn [map combine fst snd ln_sig ln_lam ln_mu] in Ho. destruct Ho as [Ho|[]]. apply (f_equal (fun u => fst (fst u))) in Ho. cbn [fst] in Ho. rewrite <- Ho.
      replace (/ 2 * sabr_vovn p T * 0) with 0 by ring. rewrite exp_0. ring. }
    subst s. unfold mc_f. rewrite Hb0. apply Rmax_lub_lt; [|simpl; lra].
    set (ra := b_rho p * sabr_alpha p F). assert (Hra : ra <> 0) by (apply Rmult_integral_contrapositive; split; [exact Hr0|lra]).
    replace (ra * ((1 - 1) / b_vov p - / 2 * ra * T * av)) with (- (/ 2 * (ra * ra) * T * av)) by (field; lra).
    assert (0 < ra * ra) by (pose proof (Rsqr_pos_lt ra Hra); unfold Rsqr in *; lra).
    assert (0 < / 2 * (ra * ra) * T * av) by (apply Rmult_lt_0_compat; [apply Rmult_lt_0_compat; [lra|exact HT]|exact A]).
    apply Rlt_le_trans with (exp 0); [apply exp_increasing; lra|rewrite exp_0; lra]. }
  unfold avg_forward. apply (lsum_wavg_gt snd (fun x => fst (fst x)) 1 l); [|intros [[f v] w] Hx; apply (Hin _ _ _ Hx)|exact W|exact Hf].
  intros ->. unfold lsum in W. cbn in W. lra.
Qed.
