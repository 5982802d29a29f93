(** The coded Heston and OUSV transforms solve the affine (Feynman-Kac) differential equations;
    Schobel-Zhu and Lord-Kahl forms agree; GARCH old and new forms. *)
From Coq Require Import Reals Lra Lia List.
From Coquelicot Require Import Coquelicot.
From Verif Require Import Base M_Params M_Mgf P_Mgf.
Open Scope R_scope.

(** ** Heston *)
Section Heston.
Variables (k th v rho u : R).
Let p (s : R) := mkSv s v rho k th.
Let b := heston_beta (p 0) u.
Let d := heston_dd (p 0) u.
Let g := heston_gg (p 0) u.
Definition hB (T : R) : R := (b - d) * (1 - exp (- d * T)) / (1 - g * exp (- d * T)) / v ^ 2.
Definition hA (T : R) : R := k * th * ((b - d) * T - 2 * ln ((1 - g * exp (- d * T)) / (1 - g))) / v ^ 2.

Lemma heston_log s T : ln (heston_mgf (p s) u T) = hA T + s * hB T.
Proof. unfold heston_mgf. rewrite ln_exp. change (heston_beta (p s) u) with b. change (heston_dd (p s) u) with d. change (heston_gg (p s) u) with g. unfold hA, hB. change (v_vov (p s)) with v. change (v_mr (p s)) with k. change (v_theta (p s)) with th. change (v_sigma (p s)) with s. unfold Rdiv. ring. Qed.
Lemma hAB_0 : 1 - g <> 0 -> hA 0 = 0 /\ hB 0 = 0.
Proof.
  intros H. unfold hA, hB. rewrite (Rmult_0_r (- d)), exp_0. split.
  - replace ((1 - g * 1) / (1 - g)) with 1 by (field; exact H). rewrite ln_1. unfold Rdiv. ring.
  - unfold Rdiv. ring.
Qed.
Hypothesis Hv : v <> 0.
Hypothesis Hrad : 0 < b ^ 2 + v ^ 2 * u * (1 - u).
Hypothesis Hbd : b + d <> 0.
Lemma d_sq : d ^ 2 = b ^ 2 + v ^ 2 * u * (1 - u).
Proof. unfold d, heston_dd. change (v_vov (p 0)) with v. fold b. apply pow2_sqrt. lra. Qed.
Lemma d_pos : 0 < d.
Proof. unfold d, heston_dd. apply sqrt_lt_R0. exact Hrad. Qed.
Lemma hg_eq : (b + d) * g = b - d.
Proof. unfold g, heston_gg. fold b d. field. exact Hbd. Qed.
Lemma hB_riccati T : 1 - g * exp (- d * T) <> 0 ->
  is_derive hB T (/ 2 * (u ^ 2 - u) - (k - rho * v * u) * hB T + / 2 * v ^ 2 * hB T ^ 2).
Proof.
  intros Ht. unfold hB. pose proof d_sq as Hd. pose proof hg_eq as Hg. pose proof d_pos as Hdp.
  assert (Eb : k - rho * v * u = b) by (unfold b, heston_beta, p; simpl; ring). rewrite Eb.
  assert (Eu : u ^ 2 - u = (b ^ 2 - d ^ 2) / v ^ 2) by (rewrite Hd; field; exact Hv). rewrite Eu.
  assert (Eg : g = (b - d) / (b + d)) by reflexivity.
  auto_derive; [exact Ht|]. Req.
  set (e := exp (- d * T)) in *.
  assert (Ht2 : b + d - (b - d) * e <> 0).
  { intros E. apply Ht. rewrite Eg. apply (Rmult_eq_reg_l (b + d)); [|exact Hbd].
    replace ((b + d) * (1 - (b - d) / (b + d) * e)) with (b + d - (b - d) * e) by (field; exact Hbd). rewrite E. ring. }
  rewrite Eg. field. repeat split; auto.
Qed.
Lemma hA_ode T : 0 < (1 - g * exp (- d * T)) / (1 - g) -> is_derive hA T (k * th * hB T).
Proof.
  intros Ht. unfold hA, hB. pose proof d_sq as Hd. pose proof d_pos as Hdp.
  assert (Eg : g = (b - d) / (b + d)) by reflexivity.
  assert (Hg1 : 1 - g <> 0) by (rewrite Eg; replace (1 - (b - d) / (b + d)) with (2 * d / (b + d)) by (field; exact Hbd);
     apply Rmult_integral_contrapositive_currified; [lra|now apply Rinv_neq_0_compat]).
  assert (Ht1 : 1 - g * exp (- d * T) <> 0) by (intros E; rewrite E in Ht; unfold Rdiv in Ht; lra).
  auto_derive; [exact Ht|]. Req. set (e := exp (- d * T)) in *.
  assert (Ht2 : b + d - (b - d) * e <> 0).
  { intros E. apply Ht1. rewrite Eg. apply (Rmult_eq_reg_l (b + d)); [|exact Hbd].
    replace ((b + d) * (1 - (b - d) / (b + d) * e)) with (b + d - (b - d) * e) by (field; exact Hbd). rewrite E. ring. }
  replace (1 - g) with (2 * d / (b + d)) in * by (rewrite Eg; field; exact Hbd).
  rewrite Eg. field. repeat split; auto; lra.
Qed.
End Heston.

(** ** OUSV *)
Section Ousv.
Variables (k th v rho u : R).
Let p (s : R) := mkSv s v rho k th.
Let b := ousv_beta (p 0) u.
Let d := ousv_dd (p 0) u.
Let g := ousv_gg (p 0) u.
Let eh (T : R) := exp (- / 2 * d * T).
Definition oC (T : R) : R := (b - d) * (1 - eh T ^ 2) / (1 - g * eh T ^ 2) / (4 * v ^ 2).
Definition oB (T : R) : R := / 2 * th / (v ^ 2 / (2 * k)) * (b - d) / d * ((1 - eh T) ^ 2 / (1 - g * eh T ^ 2)).
Definition oA (T : R) : R :=
  2 * k * (v ^ 2 / (2 * k)) * ((b - d) * T - 2 * ln ((1 - g * eh T ^ 2) / (1 - g))) / (4 * v ^ 2)
  + / 2 * th / (v ^ 2 / (2 * k)) * (b - d) / d * (/ 2 * k * th / d ^ 2 *
    (b * (d * T - 4) + d * (d * T - 2) + 4 * ((d ^ 2 - 2 * b ^ 2) / (b + d) * eh T ^ 2 + 2 * b * eh T) / (1 - g * eh T ^ 2))).
Lemma ousv_log s T : ousv_logmgf (p s) u T = oA T + s * oB T + s ^ 2 * oC T.
Proof.
  unfold ousv_logmgf. change (ousv_beta (p s) u) with b. change (ousv_dd (p s) u) with d. change (ousv_gg (p s) u) with g.
  fold (eh T). unfold oA, oB, oC. change (v_vov (p s)) with v. change (v_mr (p s)) with k. change (v_theta (p s)) with th.
  change (v_sigma (p s)) with s. unfold Rdiv. ring.
Qed.
Hypothesis Hv : v <> 0.
Hypothesis Hk : k <> 0.
Hypothesis Hrad : 0 < b ^ 2 + 4 * v ^ 2 * u * (1 - u).
Hypothesis Hbd : b + d <> 0.
Lemma od_sq : d ^ 2 = b ^ 2 + 4 * v ^ 2 * u * (1 - u).
Proof. unfold d, ousv_dd. change (v_vov (p 0)) with v. fold b. apply pow2_sqrt. lra. Qed.
Lemma od_pos : 0 < d.
Proof. unfold d, ousv_dd. apply sqrt_lt_R0. exact Hrad. Qed.
Lemma ousv_0 : oA 0 = 0 /\ oB 0 = 0 /\ oC 0 = 0.
Proof.
  pose proof od_pos as Hd. assert (Eg : g = (b - d) / (b + d)) by reflexivity.
  assert (Hg1 : 1 - g = 2 * d / (b + d)) by (rewrite Eg; field; exact Hbd).
  assert (Hg2 : 1 - g <> 0) by (rewrite Hg1; apply Rmult_integral_contrapositive_currified; [lra|now apply Rinv_neq_0_compat]).
  unfold oA, oB, oC, eh. rewrite (Rmult_0_r (- / 2 * d)), exp_0. split; [|split].
  - replace ((1 - g * 1 ^ 2) / (1 - g)) with 1 by (field; exact Hg2). rewrite ln_1. rewrite Eg. field.
    repeat split; auto; lra.
  - unfold Rdiv. ring.
  - unfold Rdiv. ring.
Qed.
Lemma od_den T : 1 - g * eh T ^ 2 <> 0 -> b + d - (b - d) * eh T ^ 2 <> 0.
Proof.
  intros Ht E. apply Ht. change g with ((b - d) / (b + d)). apply (Rmult_eq_reg_l (b + d)); [|exact Hbd].
  replace ((b + d) * (1 - (b - d) / (b + d) * eh T ^ 2)) with (b + d - (b - d) * eh T ^ 2) by (field; exact Hbd). rewrite E. ring.
Qed.
Lemma d_eh T : is_derive eh T (- / 2 * d * eh T).
Proof. unfold eh. auto_derive; [exact I|]. Req. ring. Qed.
Ltac dere T := match goal with |- context [Derive ?f T] => replace (Derive f T) with (- / 2 * d * eh T) by (symmetry; apply is_derive_unique; exact (d_eh T)) end.
Lemma oC_riccati T : 1 - g * eh T ^ 2 <> 0 ->
  is_derive oC T (/ 2 * (u ^ 2 - u) - 2 * (k - rho * v * u) * oC T + 2 * v ^ 2 * oC T ^ 2).
Proof.
  intros Ht. unfold oC. pose proof od_sq as Hd. pose proof od_pos as Hdp.
  assert (Eb : 2 * (k - rho * v * u) = b) by (unfold b, ousv_beta, p; simpl; ring). rewrite Eb.
  assert (Eu : u ^ 2 - u = (b ^ 2 - d ^ 2) / (4 * v ^ 2)) by (rewrite Hd; field; exact Hv). rewrite Eu.
  pose proof (od_den T Ht) as Ht2.
  assert (Xe : ex_derive (fun x => eh x) T) by (eexists; apply d_eh).
  auto_derive; [repeat split; auto|]. dere T. Req.
  set (e := eh T) in *. change g with ((b - d) / (b + d)). field. repeat split; auto.
Qed.
Lemma oB_ode T : 1 - g * eh T ^ 2 <> 0 ->
  is_derive oB T (2 * k * th * oC T - (k - rho * v * u) * oB T + 2 * v ^ 2 * oB T * oC T).
Proof.
  intros Ht. unfold oB, oC. pose proof od_sq as Hd. pose proof od_pos as Hdp.
  assert (Eb : k - rho * v * u = b / 2) by (unfold b, ousv_beta, p; simpl; field). rewrite Eb.
  pose proof (od_den T Ht) as Ht2.
  assert (Xe : ex_derive (fun x => eh x) T) by (eexists; apply d_eh).
  auto_derive; [repeat split; auto|]. dere T. Req.
  set (e := eh T) in *. change g with ((b - d) / (b + d)). field. repeat split; auto; lra.
Qed.
Lemma oA_ode T : 0 < (1 - g * eh T ^ 2) / (1 - g) ->
  is_derive oA T (k * th * oB T + / 2 * v ^ 2 * oB T ^ 2 + v ^ 2 * oC T).
Proof.
  intros Ht. unfold oA, oB, oC. pose proof od_sq as Hd. pose proof od_pos as Hdp.
  assert (Ht1 : 1 - g * eh T ^ 2 <> 0) by (intros E; rewrite E in Ht; unfold Rdiv in Ht; lra).
  pose proof (od_den T Ht1) as Ht2.
  assert (Hg1 : 1 - g = 2 * d / (b + d)) by (change g with ((b - d) / (b + d)); field; exact Hbd).
  assert (Xe : ex_derive (fun x => eh x) T) by (eexists; apply d_eh).
  auto_derive; [repeat split; auto|]. dere T. Req.
  rewrite Hg1. set (e := eh T) in *. change g with ((b - d) / (b + d)). field. repeat split; auto; lra.
Qed.
End Ousv.

(** ** Schobel-Zhu (1998) and Lord-Kahl forms of the OUSV transform agree *)
Lemma sz_eq_ousv p u T : v_vov p <> 0 -> v_mr p <> 0 ->
  0 < ousv_beta p u ^ 2 + 4 * v_vov p ^ 2 * u * (1 - u) -> ousv_beta p u + ousv_dd p u <> 0 ->
  0 < (1 - ousv_gg p u * exp (- / 2 * ousv_dd p u * T) ^ 2) / (1 - ousv_gg p u) ->
  sz_logmgf p u T = ousv_logmgf p u T.
Proof.
  destruct p as [s v rho k th]. cbn [v_vov v_mr]. intros Hv Hk Hrad Hbd Ht.
  assert (Ek : k = ousv_beta (mkSv s v rho k th) u / 2 + rho * v * u) by (unfold ousv_beta; simpl; field).
  assert (Eg1 : sz_g1 (mkSv s v rho k th) u = ousv_dd (mkSv s v rho k th) u / 2).
  { unfold sz_g1, ousv_dd, ousv_beta; cbn [v_vov v_mr v_rho]. 
    match goal with |- sqrt ?X = sqrt ?Y / 2 => replace Y with (2 ^ 2 * X) by (field; exact Hv) end.
    rewrite sqrt_mult_alt by (apply pow_le; lra). rewrite sqrt_pow2 by lra. field. }
  unfold sz_logmgf, ousv_logmgf, sz_g2. rewrite Eg1. unfold ousv_gg in *. cbn [v_vov v_mr v_rho v_theta v_sigma] in *.
  assert (Hd : 0 < ousv_dd (mkSv s v rho k th) u) by (unfold ousv_dd; apply sqrt_lt_R0; exact Hrad).
  set (b := ousv_beta (mkSv s v rho k th) u) in *. set (d := ousv_dd (mkSv s v rho k th) u) in *.
  set (e := exp (- / 2 * d * T)) in *.
  assert (He : 0 < e) by apply exp_pos.
  assert (Ech : cosh (d / 2 * T) = (/ e + e) / 2).
  { unfold cosh, e. rewrite <- exp_Ropp. f_equal. f_equal; f_equal; field. }
  assert (Esh : sinh (d / 2 * T) = (/ e - e) / 2).
  { unfold sinh, e. rewrite <- exp_Ropp. f_equal. f_equal; f_equal; try f_equal; field. }
  rewrite Ech, Esh.
  assert (Eg2 : (k - 2 * v ^ 2 * (/ 2 * u * rho / v)) / (d / 2) = b / d) by (rewrite Ek; field; lra). rewrite Eg2.
  assert (Ht1 : 1 - (b - d) / (b + d) * e ^ 2 <> 0) by (intros E; rewrite E in Ht; unfold Rdiv in Ht; lra).
  assert (Ht2 : b + d - (b - d) * e ^ 2 <> 0).
  { intros E. apply Ht1. apply (Rmult_eq_reg_l (b + d)); [|exact Hbd].
    replace ((b + d) * (1 - (b - d) / (b + d) * e ^ 2)) with (b + d - (b - d) * e ^ 2) by (field; exact Hbd). rewrite E. ring. }
  assert (Hg1 : 1 - (b - d) / (b + d) = 2 * d / (b + d)) by (field; exact Hbd). rewrite Hg1 in *.
  assert (Ecs : (/ e + e) / 2 + b / d * ((/ e - e) / 2) = (1 - (b - d) / (b + d) * e ^ 2) / (2 * d / (b + d)) * / e)
    by (field; lra).
  rewrite Ecs. rewrite ln_mult by (try exact Ht; now apply Rinv_0_lt_compat).
  assert (Ele : ln (/ e) = / 2 * d * T) by (unfold e; rewrite <- exp_Ropp, ln_exp; ring). rewrite Ele.
  set (L := ln _). clearbody L. clear Eg1 Hrad Ht Ele Ech Esh. clearbody b d e. subst k. field.
  repeat split; auto; try lra.
Qed.

(** ** GARCH diffusion: the refined MGF multiplies one term by texp *)
Lemma garch_diff p u T : v_vov p <> 0 -> 0 < v_theta p ->
  0 < garch_gg p u ^ 2 + 2 * v_vov p ^ 2 * v_theta p * (u - u ^ 2) -> garch_dd p u + garch_gg p u <> 0 ->
  let d := garch_dd p u in let g := garch_gg p u in let e := exp (- d * T) in
  2 * d - (d - g) * (1 - e) <> 0 ->
  garch_new p u T - garch_old p u T = (T - 1) * (d * (d - g) * (1 - e)) / (2 * v_vov p ^ 2 * (2 * d - (d - g) * (1 - e))).
Proof.
  destruct p as [s v rho k th]. intros Hv Hth Hrad Hdg d g e Hden. cbn [v_vov v_theta] in *.
  unfold garch_new, garch_old. cbn [v_vov v_mr v_rho v_theta v_sigma].
  assert (Eg : k - 3 / 2 * rho * v * sqrt th * u = g) by (unfold g, garch_gg; simpl; field).
  rewrite Eg.
  assert (Ed : sqrt (g ^ 2 - 4 * v ^ 2 * (- / 2 * (u - u ^ 2)) * th) = d) by (unfold d, garch_dd, g; cbn [v_vov v_theta]; f_equal; field).
  rewrite Ed. fold d. fold g. fold e.
  assert (Hd2 : d ^ 2 = g ^ 2 + 2 * v ^ 2 * th * (u - u ^ 2)) by (unfold d, garch_dd; cbn [v_vov v_theta]; apply pow2_sqrt; apply Rlt_le, Hrad).
  assert (Hdp : 0 < d) by (unfold d, garch_dd; apply sqrt_lt_R0; exact Hrad).
  assert (Edm : 2 * v ^ 2 * th * (u - u ^ 2) / (d + g) = d - g).
  { apply (Rmult_eq_reg_r (d + g)); [|exact Hdg]. unfold Rdiv. rewrite Rmult_assoc, Rinv_l, Rmult_1_r by exact Hdg.
    replace ((d - g) * (d + g)) with (d ^ 2 - g ^ 2) by ring. lra. }
  rewrite Edm.
  assert (Etm : 1 - / 2 * (d - g) * (- (e - 1) / d) = (2 * d - (d - g) * (1 - e)) / (2 * d)) by (field; lra).
  rewrite Etm.
  assert (Ez : 2 * v ^ 2 * th * (u - u ^ 2) = d ^ 2 - g ^ 2) by lra. rewrite Ez.
  assert (Ek : k = g + 3 / 2 * (rho * v * sqrt th * u)) by (unfold g, garch_gg; simpl; field).
  set (w := sqrt th) in *. set (L := ln _). 
  assert (Ezz : u - u ^ 2 = (d ^ 2 - g ^ 2) / (2 * v ^ 2 * th)) by (rewrite <- Ez; field; lra). rewrite Ezz.
  clearbody w L e. clear Eg Ed Etm Edm Hrad Hd2 Ez. clearbody d g. subst k. field.
  repeat split; auto; lra.
Qed.

Lemma garch_new_neq_old p u T : v_vov p <> 0 -> 0 < v_theta p -> 0 < u < 1 -> 0 < T -> T <> 1 ->
  garch_new p u T <> garch_old p u T.
Proof.
  intros Hv Hth Hu HT HT1 E.
  assert (Hv2 : 0 < v_vov p ^ 2) by (apply pow2_gt_0; exact Hv).
  assert (Hz : 0 < 2 * v_vov p ^ 2 * v_theta p * (u - u ^ 2)).
  { apply Rmult_lt_0_compat; [apply Rmult_lt_0_compat; lra|]. nra. }
  assert (Hrad : 0 < garch_gg p u ^ 2 + 2 * v_vov p ^ 2 * v_theta p * (u - u ^ 2)) by (pose proof (pow2_ge_0 (garch_gg p u)); lra).
  assert (Hd : Rabs (garch_gg p u) < garch_dd p u).
  { unfold garch_dd. rewrite <- sqrt_Rsqr_abs. apply sqrt_lt_1; unfold Rsqr; nra. }
  apply Rabs_def2 in Hd. set (d := garch_dd p u) in *. set (g := garch_gg p u) in *.
  assert (He : 0 < exp (- d * T) < 1) by (split; [apply exp_pos|apply exp_lt_1; nra]).
  assert (Hden : 0 < 2 * d - (d - g) * (1 - exp (- d * T))) by nra.
  pose proof (garch_diff p u T Hv Hth Hrad ltac:(fold d; fold g; lra)) as D. cbv zeta in D. fold d in D. fold g in D.
  specialize (D ltac:(lra)). rewrite E, Rminus_eq_0 in D. symmetry in D.
  apply Rmult_integral in D. destruct D as [D|D].
  - apply Rmult_integral in D. destruct D as [D|D]; [lra|].
    assert (0 < d * (d - g) * (1 - exp (- d * T))) by (apply Rmult_lt_0_compat; [apply Rmult_lt_0_compat; lra|lra]). lra.
  - revert D. apply Rinv_neq_0_compat. apply Rgt_not_eq. apply Rmult_lt_0_compat; lra.
Qed.

(** for 0 < u < 1 the positivity conditions of the ODE theorems always hold *)
Lemma heston_domain p u T : v_vov p <> 0 -> 0 < u < 1 -> 0 <= T ->
  0 < heston_beta p u ^ 2 + v_vov p ^ 2 * u * (1 - u) /\ heston_beta p u + heston_dd p u <> 0 /\
  0 < 1 - heston_gg p u /\ 0 < 1 - heston_gg p u * exp (- heston_dd p u * T).
Proof.
  intros Hv Hu HT. assert (Hv2 : 0 < v_vov p ^ 2) by (apply pow2_gt_0; exact Hv).
  assert (Hz : 0 < v_vov p ^ 2 * u * (1 - u)) by (apply Rmult_lt_0_compat; [apply Rmult_lt_0_compat|]; lra).
  assert (Hrad : 0 < heston_beta p u ^ 2 + v_vov p ^ 2 * u * (1 - u)) by (pose proof (pow2_ge_0 (heston_beta p u)); lra).
  assert (Hd : Rabs (heston_beta p u) < heston_dd p u).
  { unfold heston_dd. rewrite <- sqrt_Rsqr_abs. apply sqrt_lt_1; unfold Rsqr; nra. }
  apply Rabs_def2 in Hd.
  assert (Hg : heston_gg p u < 0).
  { unfold heston_gg. apply Ropp_lt_cancel. rewrite Ropp_0. replace (- ((heston_beta p u - heston_dd p u) / (heston_beta p u + heston_dd p u)))
      with ((heston_dd p u - heston_beta p u) / (heston_beta p u + heston_dd p u)) by (field; lra). apply Rdiv_lt_0_compat; lra. }
  pose proof (exp_pos (- heston_dd p u * T)) as He.
  split; [exact Hrad|]. split; [lra|]. split; [lra|].
  assert (0 < - heston_gg p u * exp (- heston_dd p u * T)) by (apply Rmult_lt_0_compat; lra). lra.
Qed.
Lemma ousv_domain p u T : v_vov p <> 0 -> 0 < u < 1 -> 0 <= T ->
  0 < ousv_beta p u ^ 2 + 4 * v_vov p ^ 2 * u * (1 - u) /\ ousv_beta p u + ousv_dd p u <> 0 /\
  0 < 1 - ousv_gg p u /\ 0 < 1 - ousv_gg p u * exp (- / 2 * ousv_dd p u * T) ^ 2.
Proof.
  intros Hv Hu HT. assert (Hv2 : 0 < v_vov p ^ 2) by (apply pow2_gt_0; exact Hv).
  assert (Hz : 0 < 4 * v_vov p ^ 2 * u * (1 - u)) by (apply Rmult_lt_0_compat; [apply Rmult_lt_0_compat; [apply Rmult_lt_0_compat|]|]; lra).
  assert (Hrad : 0 < ousv_beta p u ^ 2 + 4 * v_vov p ^ 2 * u * (1 - u)) by (pose proof (pow2_ge_0 (ousv_beta p u)); lra).
  assert (Hd : Rabs (ousv_beta p u) < ousv_dd p u).
  { unfold ousv_dd. rewrite <- sqrt_Rsqr_abs. apply sqrt_lt_1; unfold Rsqr; nra. }
  apply Rabs_def2 in Hd.
  assert (Hg : ousv_gg p u < 0).
  { unfold ousv_gg. apply Ropp_lt_cancel. rewrite Ropp_0. replace (- ((ousv_beta p u - ousv_dd p u) / (ousv_beta p u + ousv_dd p u)))
      with ((ousv_dd p u - ousv_beta p u) / (ousv_beta p u + ousv_dd p u)) by (field; lra). apply Rdiv_lt_0_compat; lra. }
  pose proof (pow2_ge_0 (exp (- / 2 * ousv_dd p u * T))) as He.
  split; [exact Hrad|]. split; [lra|]. split; [lra|].
  assert (0 <= - ousv_gg p u * exp (- / 2 * ousv_dd p u * T) ^ 2) by (apply Rmult_le_pos; lra). lra.
Qed.

(** Affine transform statements, packaged. *)
Definition heston_affine_ode (k th v rho u : R) (A B : R -> R) (T : R) : Prop :=
  is_derive B T (/ 2 * (u ^ 2 - u) - (k - rho * v * u) * B T + / 2 * v ^ 2 * B T ^ 2) /\
  is_derive A T (k * th * B T).
Definition ousv_affine_ode (k th v rho u : R) (A B C : R -> R) (T : R) : Prop :=
  is_derive C T (/ 2 * (u ^ 2 - u) - 2 * (k - rho * v * u) * C T + 2 * v ^ 2 * C T ^ 2) /\
  is_derive B T (2 * k * th * C T - (k - rho * v * u) * B T + 2 * v ^ 2 * B T * C T) /\
  is_derive A T (k * th * B T + / 2 * v ^ 2 * B T ^ 2 + v ^ 2 * C T).

Lemma heston_affine k th v rho u : v <> 0 -> 0 < u < 1 ->
  exists A B : R -> R, A 0 = 0 /\ B 0 = 0 /\
    (forall s T, ln (heston_mgf (mkSv s v rho k th) u T) = A T + s * B T) /\
    (forall T, 0 <= T -> heston_affine_ode k th v rho u A B T).
Proof.
  intros Hv Hu. exists (hA k th v rho u), (hB k th v rho u).
  destruct (heston_domain (mkSv 0 v rho k th) u 0 Hv Hu (Rle_refl 0)) as (H1 & H2 & H3 & _).
  destruct (hAB_0 k th v rho u ltac:(lra)) as [E1 E2].
  split; [exact E1|]. split; [exact E2|]. split; [intros; apply heston_log|].
  intros T HT. destruct (heston_domain (mkSv 0 v rho k th) u T Hv Hu HT) as (_ & _ & _ & H4).
  split; [apply hB_riccati|apply hA_ode]; auto; try lra. apply Rdiv_lt_0_compat; assumption.
Qed.
Lemma ousv_affine k th v rho u : v <> 0 -> k <> 0 -> 0 < u < 1 ->
  exists A B C : R -> R, A 0 = 0 /\ B 0 = 0 /\ C 0 = 0 /\
    (forall s T, ln (ousv_mgf (mkSv s v rho k th) u T) = A T + s * B T + s ^ 2 * C T) /\
    (forall T, 0 <= T -> ousv_affine_ode k th v rho u A B C T).
Proof.
  intros Hv Hk Hu. exists (oA k th v rho u), (oB k th v rho u), (oC k th v rho u).
  destruct (ousv_domain (mkSv 0 v rho k th) u 0 Hv Hu (Rle_refl 0)) as (H1 & H2 & H3 & _).
  destruct (ousv_0 k th v rho u Hv Hk H1 H2) as (E1 & E2 & E3).
  split; [exact E1|]. split; [exact E2|]. split; [exact E3|].
  split; [intros; unfold ousv_mgf; rewrite ln_exp; apply ousv_log|].
  intros T HT. destruct (ousv_domain (mkSv 0 v rho k th) u T Hv Hu HT) as (_ & _ & _ & H4).
  split; [|split]; [apply oC_riccati|apply oB_ode|apply oA_ode]; auto; try lra. apply Rdiv_lt_0_compat; assumption.
Qed.
Lemma sz_eq_mgf p u T : v_vov p <> 0 -> v_mr p <> 0 -> 0 < u < 1 -> 0 <= T -> sz_logmgf p u T = ln (ousv_mgf p u T).
Proof.
  intros Hv Hk Hu HT. unfold ousv_mgf. rewrite ln_exp. destruct (ousv_domain p u T Hv Hu HT) as (H1 & H2 & H3 & H4).
  apply sz_eq_ousv; auto. apply Rdiv_lt_0_compat; assumption.
Qed.
