(** Generalized hyperbolic distribution: moments, cdf, quantile bracket, the cached quadrature. *)
From Coq Require Import Reals Lra Lia List Psatz Bool.
From Coquelicot Require Import Coquelicot.
From Verif Require Import Base Gauss Sums M_Opt M_Sabr M_Dist Spec_Opt Spec_Expect Spec_Misc Spec_Dist P_Black P_Expect P_Gmom P_Gmom2 P_Qe P_Sabr2 P_Dist P_Dist2 P_Dist3 P_Half P_Dist4.
Import ListNotations.
Open Scope R_scope.

(** *** conditional normal moments *)
Lemma nvm_c1 mu beta m x : 0 < x -> nvm_cond mu beta (fun y => y - m) x (mu + beta * x - m).
Proof.
  intros Hx. unfold nvm_cond. replace (mu + beta * x - m) with ((mu + beta * x - m) + 0 + 3 * 0) by ring.
  eapply gauss_expect_ext; [|apply (gauss_poly4 (mu + beta * x - m) (sqrt x) 0 0 0)]. intros z. cbv beta. ring.
Qed.
Lemma nvm_c2 mu beta m x : 0 < x -> nvm_cond mu beta (fun y => (y - m) ^ 2) x ((mu + beta * x - m) ^ 2 + x).
Proof.
  intros Hx. unfold nvm_cond. set (c := mu + beta * x - m). pose proof (sqrt_sqrt x ltac:(lra)) as S. set (s := sqrt x) in *.
  replace (c ^ 2 + x) with (c ^ 2 + s * s + 3 * 0) by (rewrite S; ring).
  eapply gauss_expect_ext; [|apply (gauss_poly4 (c ^ 2) (2 * c * s) (s * s) 0 0)]. intros z. cbv beta. unfold c. ring.
Qed.
Lemma nvm_c3 mu beta m x : 0 < x -> nvm_cond mu beta (fun y => (y - m) ^ 3) x ((mu + beta * x - m) ^ 3 + 3 * (mu + beta * x - m) * x).
Proof.
  intros Hx. unfold nvm_cond. set (c := mu + beta * x - m). pose proof (sqrt_sqrt x ltac:(lra)) as S. set (s := sqrt x) in *.
  replace (c ^ 3 + 3 * c * x) with (c ^ 3 + 3 * c * (s * s) + 3 * 0) by (rewrite S; ring).
  eapply gauss_expect_ext; [|apply (gauss_poly4 (c ^ 3) (3 * c ^ 2 * s) (3 * c * (s * s)) (s * s * s) 0)]. intros z. cbv beta. unfold c. ring.
Qed.
Lemma nvm_c4 mu beta m x : 0 < x -> nvm_cond mu beta (fun y => (y - m) ^ 4) x ((mu + beta * x - m) ^ 4 + 6 * (mu + beta * x - m) ^ 2 * x + 3 * x ^ 2).
Proof.
  intros Hx. unfold nvm_cond. set (c := mu + beta * x - m). pose proof (sqrt_sqrt x ltac:(lra)) as S. set (s := sqrt x) in *.
  replace (c ^ 4 + 6 * c ^ 2 * x + 3 * x ^ 2) with (c ^ 4 + 6 * c ^ 2 * (s * s) + 3 * (s * s) ^ 2) by (rewrite S; ring).
  eapply gauss_expect_ext; [|apply (gauss_poly4 (c ^ 4) (4 * c ^ 3 * s) (6 * c ^ 2 * (s * s)) (4 * c * (s * s * s)) ((s * s) ^ 2))]. intros z. cbv beta. unfold c. ring.
Qed.
(** *** moments under a mixing density *)
Lemma pos_poly dens m1 m2 m3 m4 p0 p1 p2 p3 p4 : half_line dens 1 ->
  pos_expect dens (fun x => x) m1 -> pos_expect dens (fun x => x ^ 2) m2 -> pos_expect dens (fun x => x ^ 3) m3 -> pos_expect dens (fun x => x ^ 4) m4 ->
  pos_expect dens (fun x => p0 + p1 * x + p2 * x ^ 2 + p3 * x ^ 3 + p4 * x ^ 4) (p0 + p1 * m1 + p2 * m2 + p3 * m3 + p4 * m4).
Proof.
  intros H0 H1 H2 H3 H4. unfold pos_expect in *.
  pose proof (half_line_plus _ _ _ _ (half_line_plus _ _ _ _ (half_line_plus _ _ _ _ (half_line_plus _ _ _ _ (half_line_scal _ _ p0 H0) (half_line_scal _ _ p1 H1)) (half_line_scal _ _ p2 H2)) (half_line_scal _ _ p3 H3)) (half_line_scal _ _ p4 H4)) as G.
  cbv beta in G. replace (p0 + p1 * m1 + p2 * m2 + p3 * m3 + p4 * m4) with (p0 * 1 + p1 * m1 + p2 * m2 + p3 * m3 + p4 * m4) by ring.
  eapply half_line_ext; [|exact G]. intros x _. cbv beta. ring.
Qed.
Lemma sqrt_cube v : 0 <= v -> v * sqrt v = sqrt v ^ 3.
Proof. intros H. pose proof (sqrt_sqrt v H). transitivity (sqrt v * sqrt v * sqrt v); [now rewrite H0|ring]. Qed.
Lemma gh_mvsk_density dens mu beta m1 m2 m3 m4 : is_density dens ->
  pos_expect dens (fun x => x) m1 -> pos_expect dens (fun x => x ^ 2) m2 -> pos_expect dens (fun x => x ^ 3) m3 -> pos_expect dens (fun x => x ^ 4) m4 ->
  exists mean c2 c3 c4, nvm_expect dens mu beta (fun y => y) mean /\ nvm_expect dens mu beta (fun y => (y - mean) ^ 2) c2 /\
    nvm_expect dens mu beta (fun y => (y - mean) ^ 3) c3 /\ nvm_expect dens mu beta (fun y => (y - mean) ^ 4) c4 /\
    (0 <= c2 -> gh_mvsk_of mu beta m1 m2 m3 m4 = (mean, c2, c3 / sqrt c2 ^ 3, c4 / c2 ^ 2 - 3)).
Proof.
  intros [_ H0] H1 H2 H3 H4.
  set (mean := mu + beta * m1).
  exists mean, (m1 + beta ^ 2 * (m2 - m1 ^ 2)), (3 * beta * (m2 - m1 ^ 2) + beta ^ 3 * (m3 - 3 * m2 * m1 + 2 * m1 ^ 3)),
    (3 * m2 + 6 * beta ^ 2 * (m3 - 2 * m1 * m2 + m1 ^ 3) + beta ^ 4 * (m4 - 4 * m3 * m1 + 6 * m2 * m1 ^ 2 - 3 * m1 ^ 4)).
  pose proof (fun p0 p1 p2 p3 p4 => pos_poly dens m1 m2 m3 m4 p0 p1 p2 p3 p4 H0 H1 H2 H3 H4) as P.
  split; [|split; [|split; [|split]]].
  - exists (fun x => mu + beta * x). split. { intros x Hx. unfold nvm_cond. eapply gauss_expect_ext; [|replace (mu + beta * x) with (mu + beta * x - 0) by ring; apply (nvm_c1 mu beta 0 x Hx)]. intros z. cbv beta. ring. }
    specialize (P mu beta 0 0 0). replace mean with (mu + beta * m1 + 0 * m2 + 0 * m3 + 0 * m4) by (unfold mean; ring). eapply half_line_ext; [|exact P]. intros. cbv beta. ring.
  - eexists. split; [intros x Hx; apply (nvm_c2 mu beta mean x Hx)|].
    specialize (P (beta ^ 2 * m1 ^ 2) (1 - 2 * beta ^ 2 * m1) (beta ^ 2) 0 0).
    match type of P with pos_expect _ _ ?v => replace (m1 + beta ^ 2 * (m2 - m1 ^ 2)) with v by ring end.
    eapply half_line_ext; [|exact P]. intros. cbv beta. unfold mean. ring.
  - eexists. split; [intros x Hx; apply (nvm_c3 mu beta mean x Hx)|].
    specialize (P (- (beta * m1) ^ 3) (3 * beta ^ 3 * m1 ^ 2 - 3 * beta * m1) (3 * beta - 3 * beta ^ 3 * m1) (beta ^ 3) 0).
    match type of P with pos_expect _ _ ?v => replace (3 * beta * (m2 - m1 ^ 2) + beta ^ 3 * (m3 - 3 * m2 * m1 + 2 * m1 ^ 3)) with v by ring end.
    eapply half_line_ext; [|exact P]. intros. cbv beta. unfold mean. ring.
  - eexists. split; [intros x Hx; apply (nvm_c4 mu beta mean x Hx)|].
    specialize (P ((beta * m1) ^ 4) (- (4) * beta ^ 4 * m1 ^ 3 + 6 * beta ^ 2 * m1 ^ 2) (6 * beta ^ 4 * m1 ^ 2 - 12 * beta ^ 2 * m1 + 3) (- (4) * beta ^ 4 * m1 + 6 * beta ^ 2) (beta ^ 4)).
    match type of P with pos_expect _ _ ?v => replace (3 * m2 + 6 * beta ^ 2 * (m3 - 2 * m1 * m2 + m1 ^ 3) + beta ^ 4 * (m4 - 4 * m3 * m1 + 6 * m2 * m1 ^ 2 - 3 * m1 ^ 4)) with v by ring end.
    eapply half_line_ext; [|exact P]. intros. cbv beta. unfold mean. ring.
  - intros Hc. unfold gh_mvsk_of. cbv zeta. rewrite (sqrt_cube _ Hc). reflexivity.
Qed.
(** *** moments under the cached quadrature *)
Definition pos_nodes (xw : list (R * R)) : Prop := List.Forall (fun p => 0 < fst p /\ 0 < snd p) xw.
Lemma pos_nodes_in xw x w : pos_nodes xw -> In (x, w) xw -> 0 < x /\ 0 < w.
Proof. intros P Hi. unfold pos_nodes in P. rewrite Forall_forall in P. apply (P _ Hi). Qed.
Lemma gh_mvsk_quad_true d : pos_nodes (gh_quad d) ->
  exists mean c2 c3 c4, nvm_sum (gh_quad d) (gh_mu d) (gh_beta d) (fun y => y) mean /\
    nvm_sum (gh_quad d) (gh_mu d) (gh_beta d) (fun y => (y - mean) ^ 2) c2 /\
    nvm_sum (gh_quad d) (gh_mu d) (gh_beta d) (fun y => (y - mean) ^ 3) c3 /\ nvm_sum (gh_quad d) (gh_mu d) (gh_beta d) (fun y => (y - mean) ^ 4) c4 /\
    gh_mvsk_quad d = (mean, c2, c3 / sqrt c2 ^ 3, c4 / c2 ^ 2 - 3).
Proof.
  intros P. unfold gh_mvsk_quad. cbv zeta. set (xw := gh_quad d) in *. set (mu := gh_mu d). set (beta := gh_beta d).
  set (mean := dotw xw (fun x => mu + beta * x)).
  exists mean, (dotw xw (fun x => (mu + beta * x - mean) ^ 2 + x)), (dotw xw (fun x => (mu + beta * x - mean) ^ 3 + 3 * (mu + beta * x - mean) * x)),
    (dotw xw (fun x => (mu + beta * x - mean) ^ 4 + 6 * (mu + beta * x - mean) ^ 2 * x + 3 * x ^ 2)).
  split; [|split; [|split; [|split]]].
  - exists (fun x => mu + beta * x). split; [|reflexivity]. intros x w Hi. destruct (pos_nodes_in _ _ _ P Hi) as [Hx _].
    unfold nvm_cond. eapply gauss_expect_ext; [|replace (mu + beta * x) with (mu + beta * x - 0) by ring; apply (nvm_c1 mu beta 0 x Hx)]. intros z. cbv beta. ring.
  - eexists. split; [|reflexivity]. intros x w Hi. apply nvm_c2. apply (pos_nodes_in _ _ _ P Hi).
  - eexists. split; [|reflexivity]. intros x w Hi. apply nvm_c3. apply (pos_nodes_in _ _ _ P Hi).
  - eexists. split; [|reflexivity]. intros x w Hi. apply nvm_c4. apply (pos_nodes_in _ _ _ P Hi).
  - rewrite sqrt_cube; [reflexivity|]. apply lsum_map_nonneg. intros [x w] Hi. destruct (pos_nodes_in _ _ _ P Hi) as [Hx Hw]. cbn [fst snd].
    apply Rmult_le_pos; [lra|]. pose proof (pow2_ge_0 (mu + beta * x - mean)). lra.
Qed.
(** *** the cdf *)
Lemma gauss_ind (c : R) : gauss_expect (fun z => if Rle_dec z c then 1 else 0) (Phi c).
Proof.
  assert (K : forall b, Rabs c <= b -> is_RInt (fun z => (if Rle_dec z c then 1 else 0) * npdf z) (- b) b (Phi c - Phi (- b))).
  { intros b Hb. assert (Hb' : - b <= c <= b) by (apply Rabs_le_between in Hb; lra). replace (Phi c - Phi (- b)) with ((Phi c - Phi (- b)) + (0 - 0)) by ring.
    apply (RInt_kink _ npdf (fun _ => 0) Phi (fun _ => 0) c b Hb').
    - intros; apply is_derive_Phi.
    - intros; apply is_derive_const_R.
    - intros; apply continuous_npdf.
    - intros; apply continuous_const.
    - intros x Hx. destruct (Rle_dec x c); [ring|lra].
    - intros x Hx. destruct (Rle_dec x c); [lra|ring]. }
  apply (gauss_expect_of _ c (fun b => Phi c - Phi (- b))).
  - intros b. set (B := Rmax (Rabs b) (Rabs c)). pose proof (Rmax_l (Rabs b) (Rabs c)) as L1. pose proof (Rmax_r (Rabs b) (Rabs c)) as L2. fold B in L1, L2.
    assert (E : ex_RInt (fun z => (if Rle_dec z c then 1 else 0) * npdf z) (- B) B) by (eexists; apply K; exact L2).
    apply Rabs_le_between in L1. apply ex_RInt_Chasles with (- B).
    + apply ex_RInt_swap. apply (ex_RInt_Chasles_1 (V := R_CompleteNormedModule) _ (- B) (- b) B); [lra|exact E].
    + apply (ex_RInt_Chasles_1 (V := R_CompleteNormedModule) _ (- B) b B); [lra|exact E].
  - exact K.
  - replace (Finite (Phi c)) with (Finite (Phi c - 0)) by (f_equal; ring). apply is_lim_minus'; [apply is_lim_const|].
    apply (is_lim_comp Phi Ropp p_infty 0 m_infty); [exact Phi_lim_m| |exists 0; intros; discriminate]. apply (is_lim_opp (fun x => x) p_infty p_infty), is_lim_id.
Qed.
Lemma gh_cdf_prob d y : pos_nodes (gh_quad d) -> nvm_sum (gh_quad d) (gh_mu d) (gh_beta d) (fun t => if Rle_dec t y then 1 else 0) (gh_cdf d y).
Proof.
  intros P. eexists. split; [|reflexivity]. intros x w Hi. destruct (pos_nodes_in _ _ _ P Hi) as [Hx _]. unfold nvm_cond.
  eapply gauss_expect_ext; [|apply gauss_ind]. intros z. cbv beta. assert (S : 0 < sqrt x) by now apply sqrt_lt_R0.
  assert (E : z <= (y - gh_mu d - gh_beta d * x) / sqrt x <-> gh_mu d + gh_beta d * x + sqrt x * z <= y).
  { split; intros H.
    - apply (Rmult_le_compat_l (sqrt x)) in H; [|lra]. replace (sqrt x * ((y - gh_mu d - gh_beta d * x) / sqrt x)) with (y - gh_mu d - gh_beta d * x) in H by (field; lra). lra.
    - apply (Rmult_le_reg_l (sqrt x)); [exact S|]. replace (sqrt x * ((y - gh_mu d - gh_beta d * x) / sqrt x)) with (y - gh_mu d - gh_beta d * x) by (field; lra). lra. }
  destruct (Rle_dec z _), (Rle_dec (_ + _) y); tauto || reflexivity.
Qed.
Lemma lsum_map_lt {A} (f g : A -> R) l : l <> [] -> (forall a, In a l -> f a < g a) -> lsum (map f l) < lsum (map g l).
Proof.
  intros N H. pose proof (lsum_pos (fun a => g a - f a) l N ltac:(intros a Ha; specialize (H a Ha); cbv beta; lra)) as P.
  rewrite lsum_map_minus in P. lra.
Qed.
Section Cdf.
Variable d : ghd.
Hypotheses (P : pos_nodes (gh_quad d)) (NE : gh_quad d <> []).
Let mass := rule_sum (fun _ => 1) (gh_quad d).
Lemma gh_mass_pos : 0 < mass.
Proof. apply rule_sum_pos; [split; [exact NE|]|intros; lra]. eapply Forall_impl; [|exact P]. cbn. tauto. Qed.
Lemma gh_cdf_incr y1 y2 : y1 < y2 -> gh_cdf d y1 < gh_cdf d y2.
Proof.
  intros H. unfold gh_cdf, dotw. apply lsum_map_lt; [exact NE|]. intros [x w] Hi. destruct (pos_nodes_in _ _ _ P Hi) as [Hx Hw]. cbn [fst snd].
  apply Rmult_lt_compat_l; [exact Hw|]. apply Phi_incr. apply Rmult_lt_compat_r; [apply Rinv_0_lt_compat, sqrt_lt_R0; exact Hx|lra].
Qed.
Lemma gh_cdf_bounds y : 0 < gh_cdf d y < mass.
Proof.
  split.
  - apply lsum_pos; [exact NE|]. intros [x w] Hi. destruct (pos_nodes_in _ _ _ P Hi) as [Hx Hw]. cbn [fst snd]. apply Rmult_lt_0_compat; [exact Hw|apply Phi_pos].
  - unfold gh_cdf, dotw, mass, rule_sum. apply lsum_map_lt; [exact NE|]. intros [x w] Hi. destruct (pos_nodes_in _ _ _ P Hi) as [Hx Hw]. cbn [fst snd].
    apply Rmult_lt_compat_l; [exact Hw|apply Phi_lt_1].
Qed.
End Cdf.
Lemma gh_cdf_lim d (xw : list (R * R)) : pos_nodes xw ->
  is_lim (fun y => dotw xw (fun x => Phi ((y - gh_mu d - gh_beta d * x) / sqrt x))) p_infty (rule_sum (fun _ => 1) xw) /\
  is_lim (fun y => dotw xw (fun x => Phi ((y - gh_mu d - gh_beta d * x) / sqrt x))) m_infty 0.
Proof.
  intros P. induction xw as [|[x w] t IH].
  - split; [apply (is_lim_const 0 p_infty)|apply (is_lim_const 0 m_infty)].
  - inversion P; subst. cbn in H1. destruct (IH H2) as [I1 I2]. assert (S : 0 < / sqrt x) by (apply Rinv_0_lt_compat, sqrt_lt_R0; apply H1).
    set (k := gh_mu d + gh_beta d * x).
    assert (A : forall b s, (s = p_infty \/ s = m_infty) -> is_lim Phi s b -> is_lim (fun y => Phi ((y - gh_mu d - gh_beta d * x) / sqrt x)) s b).
    { intros b s Hs HL. apply (is_lim_comp Phi (fun y => (y - gh_mu d - gh_beta d * x) / sqrt x) s b s); [exact HL| |destruct Hs; subst; exists 0; intros; discriminate].
      apply (is_lim_ext (fun y => / sqrt x * y + (- k / sqrt x))). { intros. unfold k, Rdiv. ring. }
      assert (E : Rbar_mult (/ sqrt x) s = s).
      { destruct Hs; subst; cbn; destruct (Rle_dec 0 (/ sqrt x)) as [h|h]; try lra; destruct (Rle_lt_or_eq_dec 0 (/ sqrt x) h) as [h2|h2]; try lra; reflexivity. }
      apply (is_lim_plus _ _ s s (- k / sqrt x) s). { rewrite <- E at 2. apply (is_lim_scal_l (fun y => y) (/ sqrt x) s s), is_lim_id. } { apply is_lim_const. }
      destruct Hs; subst; reflexivity. }
    split.
    + apply (is_lim_ext (fun y => w * Phi ((y - gh_mu d - gh_beta d * x) / sqrt x) + dotw t (fun x => Phi ((y - gh_mu d - gh_beta d * x) / sqrt x)))); [reflexivity|].
      change (rule_sum (fun _ => 1) ((x, w) :: t)) with (w * 1 + rule_sum (fun _ => 1) t). apply is_lim_plus'; [|exact I1].
      apply (is_lim_scal_l _ w p_infty 1). apply A; [now left|exact Phi_lim_p].
    + apply (is_lim_ext (fun y => w * Phi ((y - gh_mu d - gh_beta d * x) / sqrt x) + dotw t (fun x => Phi ((y - gh_mu d - gh_beta d * x) / sqrt x)))); [reflexivity|].
      replace (Finite 0) with (Finite (w * 0 + 0)) by (f_equal; ring). apply is_lim_plus'; [|exact I2].
      apply (is_lim_scal_l _ w m_infty 0). apply A; [now right|exact Phi_lim_m].
Qed.
(** *** Chebyshev and the quantile bracket *)
Lemma Phi_cantelli u : 0 <= u -> Phi (- u) * (1 + u ^ 2) <= 1.
Proof.
  intros Hu. rewrite Phi_opp. pose proof (Phi_tail u Hu) as T. pose proof PI2_1 as HP. assert (P3 : 3 < PI).
  { pose proof PI_RGT_0. pose proof (sin_lt_x (PI / 6) ltac:(lra)) as X. rewrite sin_PI6 in X. lra. }
  assert (E : 1 + u * u / 2 + (u * u / 2) ^ 2 / 4 <= exp (u * u / 2)).
  { pose proof (exp_ge_pow 2 (u * u / 2) ltac:(nra) ltac:(lia)) as X. cbn [INR] in X. eapply Rle_trans; [|exact X]. right. field. }
  replace (- (u * u) / 2) with (- (u * u / 2)) in T by field. rewrite exp_Ropp in T.
  set (e := exp (u * u / 2)) in *. assert (0 < e) by apply exp_pos. clearbody e.
  assert (T2 : 1 - Phi u <= 2 / (PI * e)). { eapply Rle_trans; [exact T|]. right. field. split; lra. }
  apply Rle_trans with (2 / (PI * e) * (1 + u ^ 2)). { apply Rmult_le_compat_r; [nra|exact T2]. }
  apply (Rmult_le_reg_r (PI * e)); [nra|]. replace (2 / (PI * e) * (1 + u ^ 2) * (PI * e)) with (2 * (1 + u ^ 2)) by (field; split; lra).
  assert (2 * (1 + u ^ 2) <= 3 * e). { assert (H1 : 0 <= u * u) by nra. set (v := u * u) in *. replace (u ^ 2) with v by (unfold v; ring). clearbody v. nra. }
  nra.
Qed.
Lemma cheb1 s b K : 0 < s -> 0 < K -> Phi ((- K - b) / s) * K ^ 2 <= b ^ 2 + s ^ 2.
Proof.
  intros Hs HK. destruct (Rle_or_lt 0 (- K - b)) as [H|H].
  - pose proof (Phi_bounds ((- K - b) / s)). assert (K ^ 2 <= b ^ 2) by nra. nra.
  - set (u := (K + b) / s). assert (Hu : 0 < u) by (apply Rdiv_lt_0_compat; lra). replace ((- K - b) / s) with (- u) by (unfold u; field; lra).
    pose proof (Phi_cantelli u ltac:(lra)) as C. pose proof (Phi_pos (- u)) as Pp.
    assert (E : K = s * u - b) by (unfold u; field; lra).
    assert (CS : K ^ 2 <= (b ^ 2 + s ^ 2) * (1 + u ^ 2)). { rewrite E. pose proof (pow2_ge_0 (s + b * u)). nra. }
    apply Rle_trans with (Phi (- u) * ((b ^ 2 + s ^ 2) * (1 + u ^ 2))). { apply Rmult_le_compat_l; [lra|exact CS]. }
    replace (Phi (- u) * ((b ^ 2 + s ^ 2) * (1 + u ^ 2))) with ((b ^ 2 + s ^ 2) * (Phi (- u) * (1 + u ^ 2))) by ring. assert (0 <= b ^ 2 + s ^ 2) by nra. nra.
Qed.
Section Ppf.
Variable d : ghd.
Hypotheses (P : pos_nodes (gh_quad d)) (NE : gh_quad d <> []) (M1 : rule_sum (fun _ => 1) (gh_quad d) = 1).
Let xw := gh_quad d.
Let e := dotw xw (fun x => x).
Let m := gh_ppf_m1 d.
Let var := e + gh_beta d ^ 2 * (dotw xw (fun x => x ^ 2) - e ^ 2).
Lemma var_eq : dotw xw (fun x => (gh_mu d + gh_beta d * x - m) ^ 2 + x) = var.
Proof.
  transitivity (dotw xw (fun x => (gh_beta d ^ 2 * e ^ 2) * 1 + ((1 - 2 * gh_beta d ^ 2 * e) * x + gh_beta d ^ 2 * x ^ 2))).
  { apply rule_sum_ext. intros z. unfold m, gh_ppf_m1. fold xw. fold e. ring. }
  change dotw with (fun xw f => rule_sum f xw) in *. cbv beta in *.
  rewrite (rule_sum_plus (fun x => gh_beta d ^ 2 * e ^ 2 * 1)), (rule_sum_plus (fun x => (1 - 2 * gh_beta d ^ 2 * e) * x)).
  rewrite (rule_sum_scal _ (fun _ => 1)), (rule_sum_scal _ (fun x => x)), (rule_sum_scal _ (fun x => x ^ 2)). fold e. fold xw in M1. rewrite M1. unfold var. ring.
Qed.
Lemma cheb_lo K : 0 < K -> gh_cdf d (m - K) * K ^ 2 <= var.
Proof.
  intros HK. rewrite <- var_eq. unfold gh_cdf. fold xw. unfold dotw. rewrite Rmult_comm, <- lsum_map_scal. apply lsum_map_le. intros [x w] Hi.
  destruct (pos_nodes_in _ _ _ P Hi) as [Hx Hw]. cbn [fst snd]. pose proof (cheb1 (sqrt x) (gh_mu d + gh_beta d * x - m) K (sqrt_lt_R0 _ Hx) HK) as C.
  replace (sqrt x ^ 2) with x in C by (rewrite <- Rsqr_pow2, Rsqr_sqrt; [reflexivity|lra]).
  replace (m - K - gh_mu d - gh_beta d * x) with (- K - (gh_mu d + gh_beta d * x - m)) by ring. set (p := Phi _) in *. nra.
Qed.
Lemma cheb_hi K : 0 < K -> (1 - gh_cdf d (m + K)) * K ^ 2 <= var.
Proof.
  intros HK. rewrite <- var_eq. rewrite <- M1. unfold gh_cdf. fold xw. unfold dotw, rule_sum. rewrite <- lsum_map_minus. rewrite Rmult_comm, <- lsum_map_scal. apply lsum_map_le. intros [x w] Hi.
  destruct (pos_nodes_in _ _ _ P Hi) as [Hx Hw]. cbn [fst snd]. pose proof (cheb1 (sqrt x) (- (gh_mu d + gh_beta d * x - m)) K (sqrt_lt_R0 _ Hx) HK) as C.
  replace (sqrt x ^ 2) with x in C by (rewrite <- Rsqr_pow2, Rsqr_sqrt; [reflexivity|lra]).
  replace ((m + K - gh_mu d - gh_beta d * x) / sqrt x) with (- ((- K - - (gh_mu d + gh_beta d * x - m)) / sqrt x)) by (field; apply Rgt_not_eq, sqrt_lt_R0; exact Hx).
  rewrite Phi_opp. set (p := Phi _) in *. nra.
Qed.
Lemma ppf_std_ok : 0 < gh_ppf_std d /\ var <= gh_ppf_std d ^ 2.
Proof.
  unfold gh_ppf_std. cbv zeta. fold xw. fold e. fold var. pose proof (Rmax_l var (/ 10 ^ 30)) as A. pose proof (Rmax_r var (/ 10 ^ 30)) as B.
  assert (0 < / 10 ^ 30) by (apply Rinv_0_lt_compat, pow_lt; lra). split.
  - apply sqrt_lt_R0. lra.
  - rewrite <- Rsqr_pow2, Rsqr_sqrt; lra.
Qed.
Definition straddles (q : R) (b : R * R) : Prop := fst b < snd b /\ gh_cdf d (fst b) <= q <= gh_cdf d (snd b).
Lemma straddle_k q k : 1 < k -> / k ^ 2 <= q <= 1 - / k ^ 2 -> straddles q (m - k * gh_ppf_std d, m + k * gh_ppf_std d).
Proof.
  intros Hk Hq. destruct ppf_std_ok as [S V]. set (s := gh_ppf_std d) in *. assert (KS : 0 < k * s) by nra.
  pose proof (cheb_lo (k * s) KS) as L. pose proof (cheb_hi (k * s) KS) as U. split; cbn [fst snd]; [lra|].
  assert (K2 : 0 < k ^ 2 * s ^ 2). { assert (0 < k ^ 2) by nra. assert (0 < s ^ 2) by nra. nra. }
  assert (I : / k ^ 2 * (k ^ 2 * s ^ 2) = s ^ 2) by (field; lra). rewrite Rpow_mult_distr in L, U.
  split.
  - apply Rle_trans with (/ k ^ 2); [|lra]. apply (Rmult_le_reg_r (k ^ 2 * s ^ 2)); [exact K2|]. rewrite I. lra.
  - assert (1 - gh_cdf d (m + k * s) <= / k ^ 2). { apply (Rmult_le_reg_r (k ^ 2 * s ^ 2)); [exact K2|]. rewrite I. lra. } lra.
Qed.
Lemma bracket_straddles q : / 500 ^ 2 <= q <= 1 - / 500 ^ 2 -> straddles q (gh_bracket d q).
Proof.
  intros Hq. destruct ppf_std_ok as [S _]. unfold gh_bracket. cbn [gh_expand fst snd]. fold m.
  repeat (match goal with |- straddles _ (if Rlt_dec ?a ?b then _ else _) => destruct (Rlt_dec a b) end);
   first [split; cbn [fst snd]; nra | apply straddle_k; lra].
Qed.
End Ppf.
Lemma gh_cdf_cont d : pos_nodes (gh_quad d) -> forall y, continuous (gh_cdf d) y.
Proof.
  unfold gh_cdf. induction (gh_quad d) as [|[x w] t IH]; intros P y; [apply continuous_const|]. inversion P; subst.
  apply (continuous_ext (fun y => w * Phi ((y - gh_mu d - gh_beta d * x) / sqrt x) + dotw t (fun x => Phi ((y - gh_mu d - gh_beta d * x) / sqrt x)))); [reflexivity|].
  apply (continuous_plus (V := R_NormedModule)); [|apply IH; assumption]. apply (continuous_scal_r (V := R_NormedModule) w (fun y => Phi ((y - gh_mu d - gh_beta d * x) / sqrt x))).
  apply (continuous_comp (fun y => (y - gh_mu d - gh_beta d * x) / sqrt x) Phi); [|apply continuous_Phi]. apply ex_derive_continuous_R. auto_derive. trivial.
Qed.
Lemma gh_ppf_ok d q : pos_nodes (gh_quad d) -> gh_quad d <> [] -> rule_sum (fun _ => 1) (gh_quad d) = 1 -> / 500 ^ 2 <= q <= 1 - / 500 ^ 2 ->
  let '(lo, hi) := gh_bracket d q in (gh_cdf d lo - q) * (gh_cdf d hi - q) <= 0 /\
  exists y, lo <= y <= hi /\ gh_cdf d y = q /\ forall y', gh_cdf d y' = q -> y' = y.
Proof.
  intros P NE M Hq. pose proof (bracket_straddles d P M q Hq) as [L [A B]]. destruct (gh_bracket d q) as [lo hi]. cbn [fst snd] in *. split; [nra|].
  destruct (IVT_gen (gh_cdf d) lo hi q) as (y & Hy & Ey).
  - intros t. apply continuity_pt_filterlim. apply gh_cdf_cont. exact P.
  - rewrite Rmin_left, Rmax_right by lra. lra.
  - rewrite Rmin_left, Rmax_right in Hy by lra. exists y. split; [exact Hy|]. split; [exact Ey|]. intros y' Ey'. destruct (Rtotal_order y' y) as [H|[H|H]]; [|exact H|].
    + pose proof (gh_cdf_incr d P NE _ _ H). lra.
    + pose proof (gh_cdf_incr d P NE _ _ H). lra.
Qed.
(** *** the normal inverse Gaussian *)
Lemma tuple4_eq (a b c d a' b' c' d' : R) : a = a' -> b = b' -> c = c' -> d = d' -> (a, b, c, d) = (a', b', c', d').
Proof. now intros -> -> -> ->. Qed.
Lemma ig_raw mu lam m1 m2 m3 m4 : 0 < mu -> 0 < lam ->
  let dens := ig_density mu lam in let f := / 2 * mu / lam in
  pos_expect dens (fun x => x) m1 -> pos_expect dens (fun x => x ^ 2) m2 -> pos_expect dens (fun x => x ^ 3) m3 -> pos_expect dens (fun x => x ^ 4) m4 ->
  m1 = mu /\ m2 = mu ^ 2 * (1 + 2 * f) /\ m3 = mu ^ 3 * (1 + 6 * f + 12 * f ^ 2) /\ m4 = mu ^ 4 * (1 + 12 * f + 60 * f ^ 2 + 120 * f ^ 3).
Proof.
  intros Hmu Hl dens f H1 H2 H3 H4.
  assert (E1 : pmean (fst (igpoly f 1)) = 1) by (cbn; ring).
  assert (E2 : pmean (fst (igpoly f 2)) = 1 + 2 * f) by (cbn; ring).
  assert (E3 : pmean (fst (igpoly f 3)) = 1 + 6 * f + 12 * f ^ 2) by (cbn; ring).
  assert (E4 : pmean (fst (igpoly f 4)) = 1 + 12 * f + 60 * f ^ 2 + 120 * f ^ 3) by (cbn; ring).
  rewrite <- E2, <- E3, <- E4. split; [|split; [|split]].
  - apply (half_line_unique _ _ _ H1). pose proof (ig_moment mu lam Hmu Hl 1) as M. fold f in M. rewrite E1 in M. replace (mu ^ 1 * 1) with mu in M by ring. eapply half_line_ext; [|exact M]. intros. cbv beta. rewrite pow_1. reflexivity.
  - apply (half_line_unique _ _ _ H2). exact (ig_moment mu lam Hmu Hl 2).
  - apply (half_line_unique _ _ _ H3). exact (ig_moment mu lam Hmu Hl 3).
  - apply (half_line_unique _ _ _ H4). exact (ig_moment mu lam Hmu Hl 4).
Qed.
Lemma ig_raw_ex mu lam : 0 < mu -> 0 < lam -> let dens := ig_density mu lam in exists m1 m2 m3 m4,
  pos_expect dens (fun x => x) m1 /\ pos_expect dens (fun x => x ^ 2) m2 /\ pos_expect dens (fun x => x ^ 3) m3 /\ pos_expect dens (fun x => x ^ 4) m4.
Proof. intros Hm Hl dens. destruct (ig_mvsk_true mu lam Hm Hl) as (m1 & m2 & m3 & m4 & A & B & C & D & _). exists m1, m2, m3, m4. repeat split; assumption. Qed.
Lemma nig_mvsk_eq mu beta gm dl m1 m2 m3 m4 : 0 < gm -> 0 < dl ->
  let dens := ig_density (dl / gm) (dl ^ 2) in
  pos_expect dens (fun x => x) m1 -> pos_expect dens (fun x => x ^ 2) m2 -> pos_expect dens (fun x => x ^ 3) m3 -> pos_expect dens (fun x => x ^ 4) m4 ->
  nig_mvsk mu beta gm dl = gh_mvsk_of mu beta m1 m2 m3 m4 /\ 0 <= m1 + beta ^ 2 * (m2 - m1 ^ 2).
Proof.
  intros Hg Hd dens H1 H2 H3 H4. assert (Hmu : 0 < dl / gm) by (apply Rdiv_lt_0_compat; lra). assert (Hl2 : 0 < dl ^ 2) by (apply pow_lt; lra).
  destruct (ig_raw _ _ m1 m2 m3 m4 Hmu Hl2 H1 H2 H3 H4) as (-> & -> & -> & ->). clear H1 H2 H3 H4 dens.
  unfold nig_mvsk, gh_mvsk_of. cbv zeta. assert (Ha2 : 0 < gm ^ 2 + beta ^ 2) by nra. pose proof (sqrt_sqrt (gm ^ 2 + beta ^ 2) ltac:(lra)) as A2. pose proof (sqrt_lt_R0 _ Ha2) as Ap. set (al := sqrt (gm ^ 2 + beta ^ 2)) in *.
  pose proof (sqrt_sqrt (dl * gm) ltac:(nra)) as S2. pose proof (sqrt_lt_R0 (dl * gm) ltac:(nra)) as Sp. set (sg := sqrt (dl * gm)) in *.
  set (f := / 2 * (dl / gm) / dl ^ 2). assert (Ef : f = / (2 * (sg * sg))) by (rewrite S2; unfold f; field; lra).
  assert (EV : dl / gm + beta ^ 2 * ((dl / gm) ^ 2 * (1 + 2 * f) - (dl / gm) ^ 2) = dl * al ^ 2 / gm ^ 3).
  { replace (al ^ 2) with (gm ^ 2 + beta ^ 2) by (rewrite <- A2; ring). unfold f. field. lra. }
  rewrite EV. assert (VS : dl * al ^ 2 / gm ^ 3 = (sg * al / gm ^ 2) ^ 2). { replace ((sg * al / gm ^ 2) ^ 2) with (sg * sg * al ^ 2 / gm ^ 4) by (field; lra). rewrite S2. field. lra. }
  assert (VP : 0 < sg * al / gm ^ 2). { apply Rdiv_lt_0_compat; [nra|apply pow_lt; lra]. }
  split; [|rewrite VS; nra]. assert (SV : sqrt (dl * al ^ 2 / gm ^ 3) = sg * al / gm ^ 2) by (rewrite VS; apply sqrt_pow2; lra). rewrite SV.
  assert (ED : dl = sg * sg / gm) by (rewrite S2; field; lra). clearbody sg al. unfold f. clear f Ef EV VS SV.
  apply tuple4_eq.
  - field. lra.
  - reflexivity.
  - match goal with |- _ = ?a / _ => replace a with (3 * beta / gm ^ 2 * (dl * al ^ 2 / gm ^ 3)) end.
    2:{ replace (al ^ 2) with (gm ^ 2 + beta ^ 2) by (rewrite <- A2; ring). field. lra. }
    field. lra.
  - match goal with |- _ = ?a / _ - 3 => replace a with ((dl * (gm ^ 2 + beta ^ 2) / gm ^ 3) ^ 2 * (3 + 3 * (1 + 4 * beta ^ 2 / (gm ^ 2 + beta ^ 2)) / (dl * gm))) end.
    2:{ field. lra. }
    replace (al ^ 2) with (gm ^ 2 + beta ^ 2) by (rewrite <- A2; ring). field. lra.
Qed.
(** p = -1/2: the GIG rule is the IG rule *)
Lemma gig_half_quad kve gm dl zw : 0 < gm -> 0 < dl -> kve (- / 2) (gm * dl) = sqrt (PI / (2 * (gm * dl))) -> positive_rule zw ->
  gig_quad kve (mkGig gm dl (- / 2)) false zw = ig_quad (ig_from_gig gm dl) zw.
Proof.
  intros Hg Hd HK P. unfold gig_quad, ig_from_gig. cbn [gg_gamma gg_delta gg_p]. cbv zeta. assert (Hmu : 0 < dl / gm) by (apply Rdiv_lt_0_compat; lra). assert (Hl2 : 0 < dl ^ 2) by (apply pow_lt; lra).
  pose proof (ig_quad_pos (dl / gm) (dl ^ 2) Hmu Hl2 zw P) as PP. set (xw := ig_quad _ zw) in *. rewrite map_map. cbn [fst snd]. rewrite HK.
  assert (RT : Rpower (gm / dl) (- / 2) / dl / sqrt (2 / PI) / sqrt (PI / (2 * (gm * dl))) = 1).
  { pose proof PI_RGT_0 as HP. assert (Q : 0 < gm * dl) by nra.
    rewrite Rpower_Ropp. rewrite Rpower_sqrt by (apply Rdiv_lt_0_compat; lra).
    assert (A : 0 < sqrt (gm / dl)) by (apply sqrt_lt_R0, Rdiv_lt_0_compat; lra). assert (B : 0 < sqrt (2 / PI)) by (apply sqrt_lt_R0, Rdiv_lt_0_compat; lra).
    assert (C : 0 < sqrt (PI / (2 * (gm * dl)))) by (apply sqrt_lt_R0, Rdiv_lt_0_compat; lra).
    assert (E : sqrt (2 / PI) * sqrt (PI / (2 * (gm * dl))) * sqrt (gm / dl) * dl = 1).
    { assert (H1 : 0 <= 2 / PI) by (left; apply Rdiv_lt_0_compat; lra). assert (H2 : 0 <= PI / (2 * (gm * dl))) by (left; apply Rdiv_lt_0_compat; lra). assert (H3 : 0 <= gm / dl) by (left; apply Rdiv_lt_0_compat; lra).
      rewrite <- (sqrt_mult _ _ H1 H2). rewrite <- (sqrt_mult _ (gm / dl)); [|apply Rmult_le_pos; assumption|assumption].
      replace (2 / PI * (PI / (2 * (gm * dl))) * (gm / dl)) with ((/ dl) ^ 2) by (field; lra). rewrite sqrt_pow2; [field; lra|left; now apply Rinv_0_lt_compat]. }
    apply (Rmult_eq_reg_r (sqrt (2 / PI) * sqrt (PI / (2 * (gm * dl))) * sqrt (gm / dl) * dl)); [|rewrite E; lra].
    transitivity 1; [field; lra|rewrite E; ring]. }
  rewrite RT. rewrite <- (map_id xw) at 2. apply map_ext_in. intros [x w] Hi. rewrite Forall_forall in PP. destruct (PP _ Hi) as [Hx _]. cbn [fst snd] in *.
  replace (- / 2 + / 2) with 0 by ring. rewrite Rpower_O by exact Hx. f_equal. ring.
Qed.
(** *** the cached quadrature over histories of attribute assignments *)
Definition keeps_mixer (o : gh_op) : bool := match o with SetMu _ | SetBeta _ => true | _ => false end.
Definition gh_run kve herm (d : ghd) (ops : list gh_op) : ghd := fold_left (gh_step kve herm) ops d.
Lemma gh_keep kve herm ops d : forallb keeps_mixer ops = true -> gh_quad (gh_run kve herm d ops) = gh_quad d /\ gh_mixer (gh_run kve herm d ops) = gh_mixer d.
Proof.
  revert d. induction ops as [|o ops IH]; intros d H; [split; reflexivity|]. cbn in H. apply andb_prop in H. destruct H as [H1 H2]. cbn [gh_run fold_left].
  destruct (IH (gh_step kve herm d o) H2) as [A B]. unfold gh_run in A, B. cbn [fold_left]. unfold gh_run. cbn [fold_left]. rewrite A, B. destruct o; try discriminate; split; reflexivity.
Qed.
Lemma gh_fresh kve herm d pre n post : forallb keeps_mixer post = true ->
  let d' := gh_run kve herm d (pre ++ SetN n :: post) in gh_quad d' = gig_quad kve (gh_mixer d') false (herm n).
Proof.
  intros H d'. unfold d', gh_run. rewrite fold_left_app. cbn [fold_left]. destruct (gh_keep kve herm post (gh_step kve herm (fold_left (gh_step kve herm) pre d) (SetN n)) H) as [A B].
  unfold gh_run in A, B. rewrite A, B. reflexivity.
Qed.
Lemma gh_stale kve herm d o : match o with SetGamma _ | SetDelta _ | SetP _ => True | _ => False end ->
  (forall y, gh_cdf (gh_step kve herm d o) y = gh_cdf d y) /\ gh_mvsk_quad (gh_step kve herm d o) = gh_mvsk_quad d.
Proof. destruct o; intros H; try contradiction; split; reflexivity. Qed.
(** the means disagree after gamma is reassigned *)
Lemma gh_stale_mean mu beta gm dl gm' zw kve : positive_rule zw -> symmetric_rule zw -> 0 < gm -> 0 < dl -> 0 < gm' -> gm' <> gm -> beta <> 0 ->
  let d := nig_set_nquad (fun _ => zw) (mkGh mu beta gm dl (- / 2) []) 32 in let d' := gh_step kve (fun _ => zw) d (SetGamma gm') in
  fst (fst (fst (gh_mvsk_quad d))) = fst (fst (fst (nig_mvsk mu beta gm dl))) /\
  fst (fst (fst (gh_mvsk_quad d'))) <> fst (fst (fst (nig_mvsk mu beta gm' dl))).
Proof.
  intros P Sy Hg Hd Hg' Hne Hb d d'. assert (Hmu : 0 < dl / gm) by (apply Rdiv_lt_0_compat; lra). assert (Hl2 : 0 < dl ^ 2) by (apply pow_lt; lra).
  assert (M : fst (fst (fst (gh_mvsk_quad d))) = mu + beta * (dl / gm)).
  { unfold gh_mvsk_quad, d, nig_set_nquad, ig_from_gig. cbn [fst gh_mu gh_beta gh_quad gh_gamma gh_delta]. change (rule_sum (fun x => mu + beta * x) (ig_quad (mkIg (dl / gm) (dl ^ 2)) zw) = mu + beta * (dl / gm)).
    destruct (ig_quad_mass_mean (dl / gm) (dl ^ 2) Hmu Hl2 zw P Sy) as [A B].
    rewrite (rule_sum_ext _ (fun x => mu * 1 + beta * x)) by (intros; ring). rewrite (rule_sum_plus (fun _ => mu * 1)), (rule_sum_scal mu (fun _ => 1)), (rule_sum_scal beta (fun x => x)). rewrite A, B. ring. }
  split. { rewrite M. unfold nig_mvsk. cbv zeta. cbn [fst]. field. lra. }
  change (gh_mvsk_quad d') with (gh_mvsk_quad d). rewrite M. unfold nig_mvsk. cbv zeta. cbn [fst]. intros E.
  assert (E2 : beta * (dl * (gm' - gm)) = 0). { replace (dl * (gm' - gm)) with ((dl / gm - dl / gm') * (gm * gm')) by (field; lra). replace (dl * beta / gm') with (beta * (dl / gm')) in E by (unfold Rdiv; ring). assert (Z : beta * (dl / gm - dl / gm') = 0) by lra. rewrite <- Rmult_assoc, Z. ring. }
  apply Rmult_integral in E2. destruct E2 as [E2|E2]; [contradiction|]. apply Rmult_integral in E2. destruct E2; lra.
Qed.
(** examples of rules *)
Definition gh2 : list (R * R) := [(-1, / 2); (1, / 2)].
Lemma gh2_rule : hermite_rule 2 gh2.
Proof.
  split; [split; [discriminate|]|split].
  - repeat constructor; cbn; lra.
  - intros f. unfold rule_sum, gh2. cbn. replace (- -1) with 1 by lra. replace (- (1)) with (-1) by lra. ring.
  - intros k Hk. assert (k = 0 \/ k = 1)%nat as [-> | ->] by lia; cbn; lra.
Qed.
Lemma exp_density : is_density (gamma_density 1 1 1).
Proof.
  split. { intros x Hx. unfold gamma_density. pose proof (exp_pos (- (1) * x)). pose proof (Rpower_pos' x (1 - 1)). nra. }
  apply (half_line_ext (fun x => exp (- (1) * x))). { intros x Hx. unfold gamma_density. replace (1 - 1) with 0 by ring. rewrite Rpower_O by exact Hx. ring. }
  cut (half_line (fun x => exp (- (1) * x)) (0 - -1)); [replace (0 - -1) with 1 by lra; exact (fun H => H)|]. apply (half_line_anti (fun x => - exp (- (1) * x))).
  - intros x _. auto_derive; [trivial|]. Req. ring.
  - intros x _. apply ex_derive_continuous_R. auto_derive. trivial.
  - assert (C : continuous (fun x => - exp (- (1) * x)) 0) by (apply ex_derive_continuous_R; auto_derive; trivial). unfold continuous in C. rewrite Rmult_0_r, exp_0 in C. eapply filterlim_filter_le_1; [|exact C]. apply filter_le_within.
  - replace (Finite 0) with (Rbar_opp (Finite 0)) by (cbn; f_equal; ring). apply (is_lim_opp (fun x => exp (- (1) * x))). apply exp_lim_m. lra.
Qed.
Lemma nig_mvsk_law mu beta gm dl : 0 < gm -> 0 < dl -> let dens := ig_density (dl / gm) (dl ^ 2) in
  exists mean c2 c3 c4, nvm_expect dens mu beta (fun y => y) mean /\ nvm_expect dens mu beta (fun y => (y - mean) ^ 2) c2 /\
    nvm_expect dens mu beta (fun y => (y - mean) ^ 3) c3 /\ nvm_expect dens mu beta (fun y => (y - mean) ^ 4) c4 /\
    nig_mvsk mu beta gm dl = (mean, c2, c3 / sqrt c2 ^ 3, c4 / c2 ^ 2 - 3).
Proof.
  intros Hg Hd dens. assert (Hmu : 0 < dl / gm) by (apply Rdiv_lt_0_compat; lra). assert (Hl2 : 0 < dl ^ 2) by (apply pow_lt; lra).
  destruct (ig_raw_ex _ _ Hmu Hl2) as (m1 & m2 & m3 & m4 & H1 & H2 & H3 & H4).
  destruct (gh_mvsk_density dens mu beta m1 m2 m3 m4 (ig_is_density _ _ Hmu Hl2) H1 H2 H3 H4) as (mean & c2 & c3 & c4 & A & B & C & D & E).
  exists mean, c2, c3, c4. split; [exact A|]. split; [exact B|]. split; [exact C|]. split; [exact D|].
  destruct (nig_mvsk_eq mu beta gm dl m1 m2 m3 m4 Hg Hd H1 H2 H3 H4) as [F G]. rewrite F. apply E.
  (* c2 is the variance formula *)
  destruct B as (g & Hg1 & Hg2). destruct A as (g0 & Hg3 & Hg4).
  assert (Em : mean = mu + beta * m1).
  { apply (half_line_unique _ _ _ Hg4). pose proof (pos_poly dens m1 m2 m3 m4 mu beta 0 0 0 (proj2 (ig_is_density _ _ Hmu Hl2)) H1 H2 H3 H4) as P. replace (mu + beta * m1) with (mu + beta * m1 + 0 * m2 + 0 * m3 + 0 * m4) by ring.
    eapply half_line_ext; [|exact P]. intros x Hx. cbv beta. f_equal. symmetry. apply (gauss_expect_unique _ _ _ (Hg3 x Hx)).
    eapply gauss_expect_ext; [|replace (mu + beta * x + 0 * x ^ 2 + 0 * x ^ 3 + 0 * x ^ 4) with (mu + beta * x - 0) by ring; apply (nvm_c1 mu beta 0 x Hx)]. intros z. cbv beta. ring. }
  assert (Ec : c2 = m1 + beta ^ 2 * (m2 - m1 ^ 2)); [|rewrite Ec; exact G].
  apply (half_line_unique _ _ _ Hg2). pose proof (pos_poly dens m1 m2 m3 m4 (beta ^ 2 * m1 ^ 2) (1 - 2 * beta ^ 2 * m1) (beta ^ 2) 0 0 (proj2 (ig_is_density _ _ Hmu Hl2)) H1 H2 H3 H4) as P.
  match type of P with pos_expect _ _ ?v => replace (m1 + beta ^ 2 * (m2 - m1 ^ 2)) with v by ring end.
  eapply half_line_ext; [|exact P]. intros x Hx. cbv beta. f_equal. symmetry. apply (gauss_expect_unique _ _ _ (Hg1 x Hx)).
  pose proof (nvm_c2 mu beta mean x Hx) as N. unfold nvm_cond in N. replace (beta ^ 2 * m1 ^ 2 + (1 - 2 * beta ^ 2 * m1) * x + beta ^ 2 * x ^ 2 + 0 * x ^ 3 + 0 * x ^ 4) with ((mu + beta * x - mean) ^ 2 + x) by (rewrite Em; ring). exact N.
Qed.
