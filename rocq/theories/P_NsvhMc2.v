(** NSVh simulation: change of variables, onto, martingale, parity. *)
From Coq Require Import Reals Lra Lia List Psatz.
From Coquelicot Require Import Coquelicot.
From Verif Require Import Base Gauss Sums M_Opt M_Fd M_Sabr M_Dist M_NsvhQuad Spec_Expect Spec_Dist Spec_NsvhQuad P_Half P_Expect P_Dist P_NsvhQuad P_NsvhQuad2 P_NsvhQuad3 P_NsvhQuad4 P_NsvhMc.
Import ListNotations.
Open Scope R_scope.

Lemma dfz_exp s u : nmc_dfz s u = exp (s * u).
Proof. unfold nmc_dfz. replace (s * u) with (/ 2 * s * u + / 2 * s * u) by field. rewrite exp_plus. ring. Qed.
Lemma dfw_norm s z0 z1 u : 0 < s -> 0 < z0 ^ 2 + z1 ^ 2 ->
  let '(w0, w1) := nmc_dfw s z0 z1 u in w0 ^ 2 + w1 ^ 2 = 2 * nmc_dfz s u * (cosh (s * sqrt (z0 ^ 2 + z1 ^ 2 + u ^ 2)) - cosh (s * u)).
Proof.
  intros Hs Hr. unfold nmc_dfw, nmc_phi. cbv zeta. set (r := z0 ^ 2 + z1 ^ 2) in *. rewrite dfz_exp.
  assert (Q : 0 <= cosh (sqrt (r + u ^ 2) * s) - cosh (u * s)).
  { rewrite <- (cosh_abs (u * s)), Rabs_mult, (Rabs_right s) by lra. assert (Rabs u <= sqrt (r + u ^ 2)). { rewrite <- (sqrt_pow2 (Rabs u)) by apply Rabs_pos. apply sqrt_le_1_alt. rewrite pow2_abs. lra. }
    pose proof (cosh_le (Rabs u * s) (sqrt (r + u ^ 2) * s) ltac:(apply Rmult_le_pos; [apply Rabs_pos|lra]) ltac:(apply Rmult_le_compat_r; lra)). lra. }
  set (C := sqrt (cosh (sqrt (r + u ^ 2) * s) - cosh (u * s))). assert (C2 : C ^ 2 = cosh (sqrt (r + u ^ 2) * s) - cosh (u * s)) by (unfold C; rewrite pow2_sqrt by exact Q; reflexivity).
  assert (S2 : sqrt (2 / r) ^ 2 = 2 / r). { rewrite pow2_sqrt; [reflexivity|]. left. apply Rdiv_lt_0_compat; lra. }
  assert (E2 : exp (/ 2 * s * u) ^ 2 = exp (s * u)) by exact (dfz_exp s u).
  replace ((exp (/ 2 * s * u) * z0 * (sqrt (2 / r) * C)) ^ 2 + (exp (/ 2 * s * u) * z1 * (sqrt (2 / r) * C)) ^ 2) with (exp (/ 2 * s * u) ^ 2 * (sqrt (2 / r) ^ 2) * C ^ 2 * r) by (unfold r; ring).
  rewrite C2, S2, E2. replace (sqrt (r + u ^ 2) * s) with (s * sqrt (r + u ^ 2)) by ring. replace (u * s) with (s * u) by ring. field. lra.
Qed.
Lemma dfw_dist s z0 z1 u : 0 < s -> 0 < z0 ^ 2 + z1 ^ 2 ->
  let '(w0, w1) := nmc_dfw s z0 z1 u in hyp_cosh w0 w1 (nmc_dfz s u) = cosh (s * sqrt (z0 ^ 2 + z1 ^ 2 + u ^ 2)).
Proof.
  intros Hs Hr. pose proof (dfw_norm s z0 z1 u Hs Hr) as N. destruct (nmc_dfw s z0 z1 u) as [w0 w1]. unfold hyp_cosh. replace (1 + w0 ^ 2 + w1 ^ 2 + nmc_dfz s u ^ 2) with (w0 ^ 2 + w1 ^ 2 + (1 + nmc_dfz s u ^ 2)) by ring. rewrite N, dfz_exp.
  assert (P := exp_pos (s * u)). unfold cosh at 2. rewrite (exp_Ropp (s * u)). field. lra.
Qed.
Lemma hyp_dist_cosh x y z d : 0 <= d -> hyp_cosh x y z = cosh d -> hyp_dist x y z = d.
Proof.
  intros Hd E. unfold hyp_dist. cbv zeta. rewrite E. assert (E2 : cosh d ^ 2 - 1 = sinh d ^ 2). { unfold cosh, sinh. rewrite exp_Ropp. pose proof (exp_pos d). field. lra. }
  rewrite E2, sqrt_pow2. 2:{ unfold sinh. assert (exp (- d) <= exp d) by (apply exp_le; lra). lra. }
  replace (cosh d + sinh d) with (exp d) by (unfold cosh, sinh; field). apply ln_exp.
Qed.
Lemma dist_eq s z0 z1 u : 0 < s -> 0 < z0 ^ 2 + z1 ^ 2 ->
  let '(w0, w1) := nmc_dfw s z0 z1 u in hyp_dist w0 w1 (nmc_dfz s u) = s * sqrt (z0 ^ 2 + z1 ^ 2 + u ^ 2).
Proof.
  intros Hs Hr. pose proof (dfw_dist s z0 z1 u Hs Hr) as N. destruct (nmc_dfw s z0 z1 u) as [w0 w1]. apply hyp_dist_cosh; [|exact N]. apply Rmult_le_pos; [lra|apply sqrt_pos].
Qed.
Lemma sqn_polar s u r th : 0 < s -> 0 < r -> sqn (nmc_dfw s (sqrt r * cos th) (sqrt r * sin th) u) = 2 * exp (s * u) * (cosh (s * sqrt (r + u ^ 2)) - cosh (s * u)).
Proof.
  intros Hs Hr. pose proof (sc r th ltac:(lra)) as E. pose proof (dfw_norm s (sqrt r * cos th) (sqrt r * sin th) u Hs ltac:(lra)) as N. rewrite E in N. destruct (nmc_dfw s _ _ u) as [w0 w1]. unfold sqn. cbn [fst snd]. rewrite N, dfz_exp. reflexivity.
Qed.
Lemma jac_r s u r th : 0 < s -> 0 < r -> let d := s * sqrt (r + u ^ 2) in
  is_derive (fun r => sqn (nmc_dfw s (sqrt r * cos th) (sqrt r * sin th) u)) r (exp (s * u) * s ^ 2 * (sinh d / d)).
Proof.
  intros Hs Hr d. apply (is_derive_ext_loc (fun r => 2 * exp (s * u) * (cosh (s * sqrt (r + u ^ 2)) - cosh (s * u)))).
  { exists (mkposreal r Hr). intros v Hv. change (Rabs (v - r) < r) in Hv. apply Rabs_def2 in Hv. symmetry. apply sqn_polar; lra. }
  assert (P : 0 < r + u ^ 2) by (pose proof (pow2_ge_0 u); lra). assert (PS : 0 < sqrt (r + u ^ 2)) by now apply sqrt_lt_R0.
  eapply is_derive_eq.
  { apply is_derive_scal_R. apply is_derive_minus_R; [|apply is_derive_const_R]. apply (is_derive_comp_R cosh (fun r => s * sqrt (r + u ^ 2))).
    - apply is_derive_Reals. apply derivable_pt_lim_cosh.
    - apply is_derive_scal_R. apply (is_derive_comp_R sqrt (fun r => r + u ^ 2)); [apply is_derive_Reals; apply derivable_pt_lim_sqrt; exact P|]. apply is_derive_plus_R; [apply is_derive_id_R|apply is_derive_const_R]. }
  cbv beta. fold d. set (sh := sinh d). clearbody sh. unfold d. field. split; lra.
Qed.
Lemma jac_z lam s z2 : is_derive (fun z2 => nmc_dfz s (nmc_z lam s z2)) z2 (s * nmc_dfz s (nmc_z lam s z2)).
Proof.
  apply (is_derive_ext (fun z2 => exp (s * nmc_z lam s z2))). { intros v. now rewrite dfz_exp. } rewrite dfz_exp. unfold nmc_z. auto_derive; [exact I|]. Req. ring.
Qed.
Lemma density_push p lam T r th z2 : 0 < T -> 0 < b_vov p -> 0 < r ->
  let s := nmc_std p T in let w := fun r z2 => nmc_dfw s (sqrt r * cos th) (sqrt r * sin th) (nmc_z lam s z2) in let zt := fun z2 => nmc_dfz s (nmc_z lam s z2) in
  exists J1 J2, 0 < J1 /\ 0 < J2 /\ is_derive (fun r => sqn (w r z2)) r J1 /\ is_derive zt z2 J2 /\
    fst (w r z2) = sqrt (sqn (w r z2)) * cos th /\ snd (w r z2) = sqrt (sqn (w r z2)) * sin th /\
    / 2 * exp (- r / 2) * gauss_density z2 = PI * hyp_density lam (b_vov p ^ 2 * T) (fst (w r z2)) (snd (w r z2)) (zt z2) * J1 * J2.
Proof.
  intros HT Hv Hr s w zt. assert (Hs : 0 < s). { unfold s. rewrite nmc_std_eq by lra. apply Rmult_lt_0_compat; [exact Hv|now apply sqrt_lt_R0]. }
  set (u := nmc_z lam s z2). set (d := s * sqrt (r + u ^ 2)). assert (P : 0 < r + u ^ 2) by (pose proof (pow2_ge_0 u); lra). assert (PS : 0 < sqrt (r + u ^ 2)) by now apply sqrt_lt_R0. assert (Pd : 0 < d) by (apply Rmult_lt_0_compat; lra).
  pose proof (sinh_pos0 d Pd) as PSh. pose proof (exp_pos (s * u)) as PE.
  exists (exp (s * u) * s ^ 2 * (sinh d / d)), (s * exp (s * u)). split; [|split; [|split; [|split; [|split; [|split]]]]].
  - apply Rmult_lt_0_compat; [apply Rmult_lt_0_compat; [exact PE|nra]|now apply Rdiv_lt_0_compat].
  - now apply Rmult_lt_0_compat.
  - exact (jac_r s u r th Hs Hr).
  - unfold zt. replace (exp (s * u)) with (nmc_dfz s u) by apply dfz_exp. apply jac_z.
  - unfold w. rewrite (sqn_polar s u r th Hs Hr : sqn (nmc_dfw s (sqrt r * cos th) (sqrt r * sin th) (nmc_z lam s z2)) = _). fold u. unfold nmc_dfw, nmc_phi. cbv zeta. cbn [fst]. rewrite (sc r th) by lra.
    replace (2 * exp (s * u) * (cosh (s * sqrt (r + u ^ 2)) - cosh (s * u))) with (exp (/ 2 * s * u) ^ 2 * (2 * (cosh (sqrt (r + u ^ 2) * s) - cosh (u * s)))) by (rewrite <- (dfz_exp s u); unfold nmc_dfz; replace (sqrt (r + u ^ 2) * s) with (s * sqrt (r + u ^ 2)) by ring; replace (u * s) with (s * u) by ring; ring).
    rewrite (sqrt_mult_alt (exp (/ 2 * s * u) ^ 2)) by apply pow2_ge_0. rewrite sqrt_pow2 by (left; apply exp_pos). rewrite (sqrt_mult_alt 2), (sqrt_div_alt 2 r) by lra. assert (0 < sqrt r) by now apply sqrt_lt_R0. field. lra.
  - unfold w. rewrite (sqn_polar s u r th Hs Hr : sqn (nmc_dfw s (sqrt r * cos th) (sqrt r * sin th) (nmc_z lam s z2)) = _). fold u. unfold nmc_dfw, nmc_phi. cbv zeta. cbn [snd]. rewrite (sc r th) by lra.
    replace (2 * exp (s * u) * (cosh (s * sqrt (r + u ^ 2)) - cosh (s * u))) with (exp (/ 2 * s * u) ^ 2 * (2 * (cosh (sqrt (r + u ^ 2) * s) - cosh (u * s)))) by (rewrite <- (dfz_exp s u); unfold nmc_dfz; replace (sqrt (r + u ^ 2) * s) with (s * sqrt (r + u ^ 2)) by ring; replace (u * s) with (s * u) by ring; ring).
    rewrite (sqrt_mult_alt (exp (/ 2 * s * u) ^ 2)) by apply pow2_ge_0. rewrite sqrt_pow2 by (left; apply exp_pos). rewrite (sqrt_mult_alt 2), (sqrt_div_alt 2 r) by lra. assert (0 < sqrt r) by now apply sqrt_lt_R0. field. lra.
  - unfold w, zt. fold u. pose proof (dist_eq s (sqrt r * cos th) (sqrt r * sin th) u Hs ltac:(rewrite sc by lra; exact Hr)) as D. rewrite (sc r th) in D by lra. fold d in D.
    destruct (nmc_dfw s (sqrt r * cos th) (sqrt r * sin th) u) as [w0 w1]. cbn [fst snd]. unfold hyp_density. cbv zeta. rewrite D. rewrite <- (nmc_std_sq p T) by lra. fold s. rewrite dfz_exp.
    unfold gauss_density. pose proof PI_RGT_0 as HP.
    replace (2 * PI * s ^ 2) with (s ^ 2 * (2 * PI)) by ring. rewrite (sqrt_mult_alt (s ^ 2)) by apply pow2_ge_0. rewrite sqrt_pow2 by lra. assert (PQ : 0 < sqrt (2 * PI)) by (apply sqrt_lt_R0; lra).
    unfold Rpower. rewrite ln_exp. set (e0 := ((lam - 1) / 2 - 2) * (s * u)).
    assert (EX : exp (- d ^ 2 / (2 * s ^ 2) - (lam - 1) ^ 2 * s ^ 2 / 8) * exp e0 * exp (s * u) * exp (s * u) = exp (- r / 2) * exp (- (z2 * z2) / 2)).
    { rewrite <- !exp_plus. f_equal. unfold d, e0. replace ((s * sqrt (r + u ^ 2)) ^ 2) with (s ^ 2 * (r + u ^ 2)) by (rewrite Rpow_mult_distr, pow2_sqrt by lra; ring). unfold u, nmc_z. field. lra. }
    transitivity (/ 2 * (exp (- r / 2) * exp (- (z2 * z2) / 2)) / sqrt (2 * PI)); [|rewrite <- EX; field; repeat split; lra].
    try (unfold Rdiv; ring).
Qed.
