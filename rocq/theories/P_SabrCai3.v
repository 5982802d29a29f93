(** The conditional transform of the inverse average variance; the Euler transformation. *)
From Coq Require Import Reals Lra Lia Psatz Arith List.
From Coquelicot Require Import Coquelicot.
From Verif Require Import Base Sums Spec_NsvhQuad Spec_SabrCai M_Dist P_Dist P_NsvhQuad2 M_SabrCai.
Open Scope R_scope.
Lemma arccosh_derive z : 1 < z -> is_derive arccosh z (/ sqrt (z ^ 2 - 1)).
Proof.
  intros Hz. unfold arccosh. assert (P : 0 < z ^ 2 - 1) by nra. pose proof (sqrt_lt_R0 _ P) as Q. pose proof (sqrt_sqrt (z ^ 2 - 1) ltac:(lra)) as E.
  auto_derive; [split; [|split; [|exact I]]|].
  - replace (z * (z * 1) + - (1)) with (z ^ 2 - 1) by ring. exact P.
  - replace (z * (z * 1) + - (1)) with (z ^ 2 - 1) by ring. lra.
  - replace (z * (z * 1) + - (1)) with (z ^ 2 - 1) by ring. set (q := sqrt _) in *. clearbody q. field. split; lra.
Qed.
Lemma sq_derive z : 1 < z -> is_derive (fun z => sqrt (z ^ 2 - 1)) z (z / sqrt (z ^ 2 - 1)).
Proof.
  intros Hz. assert (P : 0 < z ^ 2 - 1) by nra. pose proof (sqrt_lt_R0 _ P) as Q.
  auto_derive; [repeat split; replace (z * (z * 1) + - (1)) with (z ^ 2 - 1) by ring; lra|]. replace (z * (z * 1) + - (1)) with (z ^ 2 - 1) by ring. field. lra.
Qed.
Section Gen.
Variables (z z1 z2 a a1 a2 : R -> R) (v : R).
Hypothesis Hv : v <> 0.
Definition gE (t : R) : R := exp (a t - arccosh (z t) ^ 2 / (2 * v)).
Definition gE1 (t : R) : R := gE t * (a1 t - arccosh (z t) * z1 t / (v * sqrt (z t ^ 2 - 1))).
Lemma gen1 t : 1 < z t -> is_derive z t (z1 t) -> is_derive a t (a1 t) -> is_derive gE t (gE1 t).
Proof.
  intros Hz Dz Da. unfold gE. pose proof (is_derive_comp_R arccosh z t _ _ (arccosh_derive _ Hz) Dz) as Dp.
  assert (Q : 0 < sqrt (z t ^ 2 - 1)) by (apply sqrt_lt_R0; nra).
  eapply is_derive_eq; [apply (is_derive_comp_R exp (fun t => a t - arccosh (z t) ^ 2 / (2 * v)) t); [apply is_derive_Reals, derivable_pt_lim_exp|]|].
  - apply is_derive_minus_R; [exact Da|]. apply (is_derive_ext (fun t => / (2 * v) * (arccosh (z t) * arccosh (z t)))); [intros; rfield; exact Hv|].
    apply is_derive_scal_R. apply is_derive_mult_R; exact Dp.
  - unfold gE1, gE. set (q := sqrt _) in *. clearbody q. field. lra.
Qed.
Definition gE2 (t : R) : R := let q := sqrt (z t ^ 2 - 1) in let p := arccosh (z t) in
  gE t * ((a1 t - p * z1 t / (v * q)) ^ 2 + a2 t - / v * (z1 t ^ 2 / q ^ 2 + p * z2 t / q - p * z1 t ^ 2 * z t / q ^ 3)).
Lemma gen2 t : 1 < z t -> is_derive z t (z1 t) -> is_derive z1 t (z2 t) -> is_derive a t (a1 t) -> is_derive a1 t (a2 t) -> is_derive gE1 t (gE2 t).
Proof.
  intros Hz Dz Dz1 Da Da1. pose proof (gen1 t Hz Dz Da) as D. pose proof (is_derive_comp_R arccosh z t _ _ (arccosh_derive _ Hz) Dz) as Dp.
  pose proof (is_derive_comp_R _ z t _ _ (sq_derive _ Hz) Dz) as Dq. cbv beta in Dq.
  assert (Q : 0 < sqrt (z t ^ 2 - 1)) by (apply sqrt_lt_R0; nra).
  assert (Di : is_derive (fun t => / sqrt (z t ^ 2 - 1)) t (- (z t / sqrt (z t ^ 2 - 1) * z1 t) / sqrt (z t ^ 2 - 1) ^ 2)).
  { apply (is_derive_inv (fun t => sqrt (z t ^ 2 - 1)) t); [|lra]. replace (z t / sqrt (z t ^ 2 - 1) * z1 t) with (z1 t * (z t / sqrt (z t ^ 2 - 1))) by ring. exact Dq. }
  unfold gE1. eapply is_derive_eq; [apply is_derive_mult_R; [exact D|]|].
  - apply is_derive_minus_R; [exact Da1|]. apply (is_derive_ext (fun t => / v * (arccosh (z t) * z1 t * / sqrt (z t ^ 2 - 1)))); [intros; Req; unfold Rdiv; rewrite Rinv_mult; ring|].
    apply is_derive_scal_R. apply is_derive_mult_R; [apply is_derive_mult_R; [exact Dp|exact Dz1]|exact Di].
  - unfold gE2, gE1. cbv zeta. set (q := sqrt _) in *. clearbody q. field. lra.
Qed.
End Gen.
(** the joint transform in exponential form *)
Definition zf (s lam : R) : R := / 2 * s + (/ 2 + lam) / s.
Definition hjoint (v s lam : R) : R := vol_density v s * cond_invavgvar_mgf (- (lam / v)) (sqrt v) s.
Lemma hjoint_exp v s lam : 0 < v -> 0 < s -> hjoint v s lam = exp (- (3 / 2) * ln s - v / 8 - / 2 * ln (2 * PI * v) - arccosh (zf s lam) ^ 2 / (2 * v)).
Proof.
  intros Hv Hs. unfold hjoint, vol_density, cond_invavgvar_mgf. cbv zeta. pose proof (sqrt_sqrt v ltac:(lra)) as E. replace (sqrt v ^ 2) with v by (rewrite <- E at 1; ring). replace (- - (lam / v) * v) with lam by (field; lra). fold (zf s lam).
  pose proof PI_RGT_0. assert (P : 0 < 2 * PI * v) by (apply Rmult_lt_0_compat; lra). replace (sqrt (2 * PI * v)) with (exp (/ 2 * ln (2 * PI * v))).
  - unfold Rdiv at 1. replace (/ (s * exp (/ 2 * ln (2 * PI * v)))) with (exp (- (ln s + / 2 * ln (2 * PI * v)))) by (rewrite exp_Ropp, exp_plus, exp_ln by lra; reflexivity).
    rewrite <- !exp_plus. f_equal. field. lra.
  - change (exp (/ 2 * ln (2 * PI * v))) with (Rpower (2 * PI * v) (/ 2)). apply Rpower_sqrt. exact P.
Qed.
Lemma zf_gt1 s lam : 0 < s -> 0 < lam -> 1 < zf s lam.
Proof.
  intros Hs Hl. unfold zf. assert (1 <= / 2 * s + / 2 / s). { apply (Rmult_le_reg_r s); [lra|]. replace ((/ 2 * s + / 2 / s) * s) with (/ 2 * s ^ 2 + / 2) by (field; lra). pose proof (pow2_ge_0 (s - 1)). nra. }
  assert (0 < lam / s) by (apply Rdiv_lt_0_compat; lra). replace ((/ 2 + lam) / s) with (/ 2 / s + lam / s) by (field; lra). lra.
Qed.
Lemma zf_id s lam : 0 < s -> zf s lam ^ 2 - 1 = 2 * lam + (/ 2 * s - (/ 2 + lam) / s) ^ 2.
Proof. intros Hs. unfold zf. field. lra. Qed.
Lemma loc_pos x : 0 < x -> locally x (fun y : R => 0 < y).
Proof. intros H. apply open_gt. exact H. Qed.
Lemma invA_fwd v s lam : 0 < v -> 0 < s -> 0 < lam -> invA_forward hjoint v s lam.
Proof.
  intros Hv Hs Hl. pose proof (zf_gt1 s lam Hs Hl) as Hz. set (c := fun v s => - (3 / 2) * ln s - v / 8 - / 2 * ln (2 * PI * v)).
  pose proof PI_RGT_0 as HP. assert (Q : 0 < sqrt (zf s lam ^ 2 - 1)) by (apply sqrt_lt_R0; nra). pose proof (sqrt_sqrt (zf s lam ^ 2 - 1) ltac:(nra)) as Q2.
  set (b := fun s => / 2 * ln s - v / 8 - / 2 * ln (2 * PI * v)).
  exists (hjoint v s lam * (- / 8 - / (2 * v) + arccosh (zf s lam) ^ 2 / (2 * v ^ 2))),
    (gE2 (zf s) (fun _ => / s) (fun _ => 0) (fun _ => c v s) (fun _ => 0) (fun _ => 0) v lam),
    (gE2 (fun s => zf s lam) (fun s => / 2 - (/ 2 + lam) / s ^ 2) (fun s => 2 * (/ 2 + lam) / s ^ 3) b (fun s => / (2 * s)) (fun s => - / (2 * s ^ 2)) v s).
  split; [|split; [|split]].
  - apply (is_derive_ext_loc (fun v => exp (c v s - arccosh (zf s lam) ^ 2 / (2 * v)))).
    + apply (filter_imp (fun y => 0 < y)); [|now apply loc_pos]. intros y Hy. symmetry. now apply hjoint_exp.
    + rewrite hjoint_exp by assumption. fold (c v s). unfold c. set (P := arccosh _). clearbody P. auto_derive; [repeat split; try lra; apply Rmult_lt_0_compat; lra|].
      set (L := exp _). set (L' := exp (- (3 / 2) * ln s - v / 8 - / 2 * ln (2 * PI * v) - P ^ 2 / (2 * v))). assert (EL : L = L') by (unfold L, L'; f_equal; field; lra). rewrite EL. clearbody L'. field. lra.
  - exists (gE1 (zf s) (fun _ => / s) (fun _ => c v s) (fun _ => 0) v). split.
    + apply (filter_imp (fun y => 0 < y)); [|now apply loc_pos]. intros y Hy. apply (is_derive_ext (gE (zf s) (fun _ => c v s) v)).
      * intros l. unfold gE, c. rewrite hjoint_exp by assumption. reflexivity.
      * apply gen1; [lra|now apply zf_gt1| |apply is_derive_const_R]. unfold zf. auto_derive; [exact I|field; lra].
    + apply gen2; [lra|exact Hz| |apply is_derive_const_R|apply is_derive_const_R|apply is_derive_const_R]. unfold zf. auto_derive; [exact I|field; lra].
  - exists (gE1 (fun s => zf s lam) (fun s => / 2 - (/ 2 + lam) / s ^ 2) b (fun s => / (2 * s)) v). split.
    + apply (filter_imp (fun y => 0 < y)); [|now apply loc_pos]. intros y Hy. apply (is_derive_ext_loc (gE (fun s => zf s lam) b v)).
      * apply (filter_imp (fun y => 0 < y)); [|now apply loc_pos]. intros w Hw. unfold gE, b. rewrite hjoint_exp by assumption. Req.
        replace (w ^ 2) with (exp (2 * ln w)) by (replace (2 * ln w) with (ln w + ln w) by ring; rewrite exp_plus, exp_ln by lra; ring). rewrite <- exp_plus. f_equal. field. lra.
      * apply gen1; [lra|now apply zf_gt1| |]; [unfold zf; auto_derive; [lra|field; lra]|unfold b; auto_derive; [lra|field; lra]].
    + apply gen2; [lra|exact Hz| | | |].
      * unfold zf. auto_derive; [lra|field; lra].
      * auto_derive; [intros E; pose proof (pow_lt s 2 Hs); cbn in *; lra|field; lra].
      * unfold b. auto_derive; [lra|field; lra].
      * auto_derive; [lra|field; lra].
  - unfold gE2. cbv zeta beta. assert (E1 : gE (zf s) (fun _ => c v s) v lam = hjoint v s lam) by (unfold gE, c; rewrite hjoint_exp by assumption; reflexivity).
    assert (E2 : gE (fun s => zf s lam) b v s = s ^ 2 * hjoint v s lam).
    { unfold gE, b. rewrite hjoint_exp by assumption. replace (s ^ 2) with (exp (2 * ln s)) by (replace (2 * ln s) with (ln s + ln s) by ring; rewrite exp_plus, exp_ln by lra; ring). rewrite <- exp_plus. f_equal. field. lra. }
    rewrite E1, E2. set (H := hjoint v s lam). clearbody H.
    pose proof (zf_id s lam Hs) as Zi. set (q := sqrt _) in *. set (p := arccosh _). set (k := (/ 2 + lam) / s) in *. assert (Z : zf s lam = / 2 * s + k) by reflexivity.
    assert (L : lam = (q * q - (/ 2 * s - k) ^ 2) / 2) by (rewrite Q2, Zi; field). rewrite Z. clearbody q p.
    replace ((/ 2 + lam) / s ^ 2) with (k / s) by (unfold k; field; lra). replace (2 * (/ 2 + lam) / s ^ 3) with (2 * k / s ^ 2) by (unfold k; field; lra).
    clearbody k. rewrite L. clear - Hv Hs Q. Req. field. repeat split; lra.
Qed.
