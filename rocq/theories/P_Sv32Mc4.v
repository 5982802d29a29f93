(** 3/2 model: moment-matched draws, the step schemes. *)
From Coq Require Import Reals Lra Lia List Arith Psatz.
From Coquelicot Require Import Coquelicot.
From Verif Require Import Base Sums Gauss Spec_Expect P_Gmom P_Expect P_Gmom2 Spec_Dist P_Dist2 P_Dist3 P_Half Spec_Cev P_Gamma P_Gamma2 M_Mgf M_Heston P_Cir2 M_Sv32Mc Spec_HestonMc P_HestonMc3 P_HestonMc5 Spec_Sv32 P_Sv32Mc P_Sv32Mc3.
Open Scope R_scope.

Lemma draw_ln_moments eps mean vs : eps < mean -> 0 <= vs ->
  gauss_expect (sv32_draw_ln eps mean vs) mean /\ gauss_expect (fun z => sv32_draw_ln eps mean vs z ^ 2) (mean ^ 2 * (1 + vs)).
Proof.
  intros He Hv. assert (E : forall z, sv32_draw_ln eps mean vs z = dfm_ln mean vs z). { intros z. unfold sv32_draw_ln. destruct (Rlt_dec eps mean); [reflexivity|contradiction]. }
  destruct (dfm_ln_moments mean vs Hv) as [A B]. split; [eapply gauss_expect_ext; [|exact A]; intros z; now rewrite E|eapply gauss_expect_ext; [|exact B]; intros z; cbv beta; now rewrite E].
Qed.
Lemma draw_ga_moments Gam eps mean vs : gamma_function Gam -> eps < mean -> 0 < vs ->
  exists shape, 0 < shape /\ gam_expect Gam shape (fun x => sv32_draw_ga eps mean vs (fun s => if Req_EM_T s shape then x else 0)) mean /\
  gam_expect Gam shape (fun x => sv32_draw_ga eps mean vs (fun s => if Req_EM_T s shape then x else 0) ^ 2) (mean ^ 2 * (1 + vs)).
Proof.
  intros HG He Hv. exists (1 / vs). assert (Ps : 0 < 1 / vs) by (apply Rdiv_lt_0_compat; lra). split; [exact Ps|].
  assert (E : forall x, sv32_draw_ga eps mean vs (fun s => if Req_EM_T s (1 / vs) then x else 0) = vs * mean * x).
  { intros x. unfold sv32_draw_ga. destruct (Rlt_dec eps mean); [|contradiction]. destruct (Req_EM_T (1 / vs) (1 / vs)); [reflexivity|contradiction]. }
  split.
  - pose proof (gam_quad Gam HG (1 / vs) 0 (vs * mean) 0 (fun x => sv32_draw_ga eps mean vs (fun s => if Req_EM_T s (1 / vs) then x else 0)) Ps) as Q.
    replace (0 + vs * mean * (1 / vs) + 0 * (1 / vs * (1 / vs + 1))) with mean in Q by (field; lra). apply Q. intros x _. rewrite E. ring.
  - pose proof (gam_quad Gam HG (1 / vs) 0 0 ((vs * mean) ^ 2) (fun x => sv32_draw_ga eps mean vs (fun s => if Req_EM_T s (1 / vs) then x else 0) ^ 2) Ps) as Q.
    replace (0 + 0 * (1 / vs) + (vs * mean) ^ 2 * (1 / vs * (1 / vs + 1))) with (mean ^ 2 * (1 + vs)) in Q by (field; lra). apply Q. intros x _. rewrite E. ring.
Qed.
Lemma draw_ig_moments eps mean vs : 0 <= eps < mean -> 0 < vs ->
  exists mu lam, 0 < mu /\ 0 < lam /\ (forall w, sv32_draw_ig eps mean vs w = w mu lam) /\
  pos_expect (ig_density mu lam) (fun x => x) mean /\ pos_expect (ig_density mu lam) (fun x => x ^ 2) (mean ^ 2 * (1 + vs)).
Proof.
  intros He Hv. exists mean, (mean / vs). assert (Pl : 0 < mean / vs) by (apply Rdiv_lt_0_compat; lra). split; [lra|]. split; [exact Pl|]. split.
  { intros w. unfold sv32_draw_ig. destruct (Rlt_dec eps mean); [reflexivity|lra]. }
  split.
  - pose proof (ig_moment mean (mean / vs) ltac:(lra) Pl 1) as M. replace (mean ^ 1 * _) with mean in M by (cbn; ring). eapply half_line_ext; [|exact M]. intros. cbv beta. rewrite pow_1. reflexivity.
  - pose proof (ig_moment mean (mean / vs) ltac:(lra) Pl 2) as M. match type of M with pos_expect _ _ ?v => replace v with (mean ^ 2 * (1 + vs)) in M end; [exact M|]. cbn. field. lra.
Qed.
Lemma draw_small eps mean vs : mean <= eps -> (forall w, sv32_draw_ig eps mean vs w = 0) /\ (forall g, sv32_draw_ga eps mean vs g = 0) /\ (forall z, sv32_draw_ln eps mean vs z = 0).
Proof. intros H. unfold sv32_draw_ig, sv32_draw_ga, sv32_draw_ln. destruct (Rlt_dec eps mean); [lra|]. repeat split. Qed.
(** schemes *)
Lemma step_scheme p scheme dt v0 z x g : (4 <= scheme)%nat <-> sv32_step p scheme dt v0 z x g = None.
Proof. destruct scheme as [|[|[|[|s]]]]; cbn; split; intros H; try lia; try discriminate; reflexivity. Qed.
Lemma step_trap p scheme dt v0 z x g vt a : sv32_step p scheme dt v0 z x g = Some (vt, a) -> a = (v0 + vt) / 2.
Proof. destruct scheme as [|[|[|[|s]]]]; cbn; intros H; inversion H; reflexivity. Qed.
Lemma step_exact p scheme dt v0 z x g vt a : 0 < v_vov p -> 0 < v_mr p -> 0 < v_theta p -> 0 < dt -> 0 < v0 -> 0 < x -> 0 < g ->
  (scheme = 2 \/ scheme = 3)%nat -> sv32_step p scheme dt v0 z x g = Some (vt, a) ->
  0 < vt /\ 0 < a /\ (scheme = 2%nat -> / vt = let '(scale, _, _) := cir_ncx2_args (sv32_cir p) dt (/ v0) in scale * x) /\
  (scheme = 3%nat -> / vt = let '(scale, _, _) := cir_pois_gamma_args (sv32_cir p) dt (/ v0) in scale * g).
Proof.
  intros Hx Hk Ht Hd H0 Px Pg Hs E. assert (Hm : 0 < v_mr p * v_theta p) by now apply Rmult_lt_0_compat.
  assert (Pp : 0 < cir_phi (sv32_cir p) dt) by (apply phi_pos; unfold sv32_cir; cbn [c_xi c_mr c_theta]; assumption).
  assert (Pe : 0 < cir_exp_h (sv32_cir p) dt / cir_phi (sv32_cir p) dt) by (apply Rdiv_lt_0_compat; [apply exp_pos|exact Pp]).
  destruct Hs as [-> | ->]; cbn in E; inversion E; subst.
  - assert (P : 0 < cir_exp_h (sv32_cir p) dt / cir_phi (sv32_cir p) dt * x) by now apply Rmult_lt_0_compat.
    assert (Q : 0 < 1 / (cir_exp_h (sv32_cir p) dt / cir_phi (sv32_cir p) dt * x)) by (apply Rdiv_lt_0_compat; lra).
    split; [exact Q|]. split; [lra|]. split; [intros _|intros C; discriminate C]. cbn. unfold Rdiv at 1. rewrite Rmult_1_l, Rinv_inv. reflexivity.
  - assert (P : 0 < cir_exp_h (sv32_cir p) dt / cir_phi (sv32_cir p) dt * 2 * g) by (apply Rmult_lt_0_compat; lra).
    assert (Q : 0 < 1 / (cir_exp_h (sv32_cir p) dt / cir_phi (sv32_cir p) dt * 2 * g)) by (apply Rdiv_lt_0_compat; lra).
    split; [exact Q|]. split; [lra|]. split; [intros C; discriminate C|intros _]. cbn. unfold Rdiv at 1. rewrite Rmult_1_l, Rinv_inv. reflexivity.
Qed.
