From Coq Require Import Reals List Lra Lia Psatz.
From Coquelicot Require Import Coquelicot.
From Verif Require Import Base Sums Spec_Cev M_Fd M_Rough Spec_Rough P_Half P_Gamma P_Gamma2 P_Cev5 P_Cev7 P_Rough.
Import ListNotations.
Open Scope R_scope.

(** entry j of the array h_hat *)
Definition adam_h (Gam : R -> R) (p : rhp) (u delta : R) (j : nat) : R := nth j (fst (adam_run Gam p u delta j)) 0.

Lemma ndot_seq (f : nat -> R) : forall n a (l : list R), length l = n -> ndot (map f (seq a n)) l = rsum n (fun j => f (a + j)%nat * nth j l 0).
Proof.
  induction n as [|n IH]; intros a l Hl; [reflexivity|]. destruct l as [|x l]; [discriminate|]. cbn in Hl. injection Hl as Hl.
  rewrite rsum_shift. cbn [seq map nth]. unfold ndot in *. cbn [combine map lsum fold_right fst snd]. unfold lsum in *. rewrite IH by exact Hl.
  rewrite Nat.add_0_r. f_equal. apply rsum_ext. intros j _. replace (S a + j)%nat with (a + S j)%nat by lia. reflexivity.
Qed.
Section Run.
Variables (Gam : R -> R) (p : rhp) (u delta : R).
Notation run := (adam_run Gam p u delta).
Notation hh := (adam_h Gam p u delta).
Notation al := (rh_alpha p).
Lemma run_len j : length (fst (run j)) = S j /\ length (snd (run j)) = S j.
Proof. induction j as [|j [IH1 IH2]]; [split; reflexivity|]. cbn [adam_run]. destruct (run j) as [h Fs]. cbn [fst snd] in *. rewrite !app_length, IH1, IH2. cbn. lia. Qed.
Lemma run_h j n : (j <= n)%nat -> nth j (fst (run n)) 0 = hh j.
Proof.
  induction n as [|n IH]; intros H; [assert (j = O) by lia; subst; reflexivity|].
  destruct (Nat.eq_dec j (S n)) as [->|Hn]; [reflexivity|]. rewrite <- IH by lia. pose proof (run_len n) as [L1 _].
  cbn [adam_run]. destruct (run n) as [h Fs]. cbn [fst snd] in *. apply app_nth1. lia.
Qed.
Lemma run_F j n : (j <= n)%nat -> nth j (snd (run n)) 0 = rough_F p u (hh (pred j)).
Proof.
  induction n as [|n IH]; intros H; [assert (j = O) by lia; subst; reflexivity|].
  pose proof (run_len n) as [L1 L2]. destruct (Nat.eq_dec j (S n)) as [->|Hn].
  - pose proof (run_h n n (le_n n)) as E. cbn [adam_run pred]. destruct (run n) as [h Fs]. cbn [fst snd] in *. rewrite app_nth2 by lia. rewrite L2, Nat.sub_diag. cbn [nth]. now rewrite E.
  - rewrite <- IH by lia. cbn [adam_run]. destruct (run n) as [h Fs]. cbn [fst snd] in *. apply app_nth1. lia.
Qed.
(** the recursion computed by the code *)
Lemma adam_step k : hh (S k) =
  rsum (S k) (fun j => a_j_kp1 Gam al k delta j * rough_F p u (hh (pred j)))
  + a_j_kp1 Gam al (S k) delta (S k + 1) * rough_F p u (rsum (S k) (fun j => b_j_kp1 Gam al k delta j * rough_F p u (hh (pred j)))).
Proof.
  unfold adam_h at 1. cbn [adam_run]. pose proof (run_len k) as [L1 L2]. pose proof (fun j (H : (j < S k)%nat) => run_F j k (ltac:(lia))) as EF. destruct (run k) as [h Fs]. cbn [fst snd] in *.
  rewrite app_nth2 by lia. rewrite L1, Nat.sub_diag. cbn [nth]. unfold a_kp1, b_kp1. rewrite !Nat.add_1_r, !ndot_seq by exact L2.
  f_equal; [|f_equal; f_equal]; apply rsum_ext; intros j Hj; cbn [Nat.add]; now rewrite EF by lia.
Qed.
Lemma a_top k : a_j_kp1 Gam al (S k) delta (S k + 1) = a_j_kp1 Gam al k delta (S k).
Proof. unfold a_j_kp1. rewrite !Nat.add_1_r, !Nat.eqb_refl. reflexivity. Qed.
End Run.

Lemma recursion_of Gam al delta F g h : gamma_function Gam -> 0 < al -> 0 < delta -> h O = 0 ->
  (forall k, h (S k) = rsum (S k) (fun j => a_j_kp1 Gam al k delta j * g j) + a_j_kp1 Gam al k delta (S k) * F (rsum (S k) (fun j => b_j_kp1 Gam al k delta j * g j))) ->
  adams_recursion Gam al delta F g h.
Proof.
  intros HG Ha Hd H0 HS. split; [exact H0|]. intros k. exists (rsum (S k) (fun j => b_j_kp1 Gam al k delta j * g j)). split; intros f Hf.
  - now apply predictor.
  - pose proof (corrector Gam al delta k _ f HG Ha Hd Hf) as C.
    match type of C with frac_integral _ _ _ _ ?v => replace (h (S k)) with v; [exact C|] end. rewrite HS.
    change (rsum (S (S k)) ?f) with (rsum (S k) f + f (S k)). cbv beta. replace (Nat.leb (S k) k) with false by (symmetry; apply Nat.leb_gt; lia). f_equal.
    apply rsum_ext. intros j Hj. now replace (Nat.leb j k) with true by (symmetry; apply Nat.leb_le; lia).
Qed.
Lemma at_left_proper t : ProperFilter (at_left t).
Proof. apply at_left_proper_filter. Qed.
Lemma frac_unique Gam r t f v w : 0 < Gam r -> frac_integral Gam r t f v -> frac_integral Gam r t f w -> v = w.
Proof.
  intros HG H1 H2. unfold frac_integral in *.
  pose proof (is_RInt_gen_unique (V := R_CompleteNormedModule) (Fa := at_point 0) (Fb := at_left t) _ _ H1) as E1.
  pose proof (is_RInt_gen_unique (V := R_CompleteNormedModule) (Fa := at_point 0) (Fb := at_left t) _ _ H2) as E2.
  apply (Rmult_eq_reg_l (Gam r)); [|lra]. exact (eq_trans (eq_sym E1) E2).
Qed.
(** concrete interpolants *)
Lemma cell delta m s : 0 < delta -> INR m * delta < s < INR (S m) * delta -> n_floor (s / delta) = m.
Proof.
  intros Hd [H1 H2]. unfold n_floor. assert (E : Int_part (s / delta) = Z.of_nat m).
  { rewrite S_INR in H2.
    assert (INR m < s / delta) by (apply Rmult_lt_reg_r with delta; [lra|]; unfold Rdiv; rewrite Rmult_assoc, Rinv_l by lra; lra).
    assert (s / delta < INR m + 1) by (apply Rmult_lt_reg_r with delta; [lra|]; unfold Rdiv; rewrite Rmult_assoc, Rinv_l by lra; lra).
    unfold Int_part. rewrite <- (tech_up (s / delta) (Z.of_nat m + 1)); [ring| |]; rewrite plus_IZR, <- INR_IZR_INZ; lra. }
  rewrite E. apply Nat2Z.id.
Qed.
Lemma steps_exist delta g : 0 < delta -> exists f, steps_of delta g f.
Proof. intros Hd. exists (fun s => g (n_floor (s / delta))). intros m s H. now rewrite (cell delta m s Hd H). Qed.
Lemma lines_exist delta g : 0 < delta -> exists f, lines_of delta g f.
Proof. intros Hd. exists (fun s => let m := n_floor (s / delta) in g m + (s - INR m * delta) / delta * (g (S m) - g m)). intros m s H. cbv zeta. now rewrite (cell delta m s Hd H). Qed.
(** conversely a recursion determines the values *)
Lemma recursion_values Gam al delta F g h : gamma_function Gam -> 0 < al -> 0 < delta -> adams_recursion Gam al delta F g h ->
  forall k, h (S k) = rsum (S k) (fun j => a_j_kp1 Gam al k delta j * g j) + a_j_kp1 Gam al k delta (S k) * F (rsum (S k) (fun j => b_j_kp1 Gam al k delta j * g j)).
Proof.
  intros HG Ha Hd [H0 HS] k. destruct (HS k) as (P & HP & HL). pose proof (Gam_pos Gam HG al Ha) as GP.
  destruct (steps_exist delta g Hd) as [f Hf]. pose proof (frac_unique _ _ _ _ _ _ GP (HP f Hf) (predictor Gam al delta k g f HG Ha Hd Hf)) as EP.
  destruct (lines_exist delta (fun j => if Nat.leb j k then g j else F P) Hd) as [f2 Hf2].
  rewrite (frac_unique _ _ _ _ _ _ GP (HL f2 Hf2) (corrector Gam al delta k _ f2 HG Ha Hd Hf2)).
  change (rsum (S (S k)) ?f) with (rsum (S k) f + f (S k)). cbv beta. replace (Nat.leb (S k) k) with false by (symmetry; apply Nat.leb_gt; lia). rewrite <- EP. f_equal.
  apply rsum_ext. intros j Hj. now replace (Nat.leb j k) with true by (symmetry; apply Nat.leb_le; lia).
Qed.

(** the code runs the recursion with node values that lag one step behind *)
Theorem adam_lagged Gam p u delta : gamma_function Gam -> 0 < rh_alpha p -> 0 < delta ->
  adams_recursion Gam (rh_alpha p) delta (rough_F p u) (fun j => rough_F p u (adam_h Gam p u delta (pred j))) (adam_h Gam p u delta).
Proof.
  intros HG Ha Hd. apply recursion_of; try assumption; [reflexivity|]. intros k. rewrite adam_step, a_top. reflexivity.
Qed.
(** without vol-of-vol, for a small mean reversion, the second step differs from the Adams method *)
Theorem adam_not_adams Gam al delta : gamma_function Gam -> 0 < al -> 0 < delta ->
  exists p, rh_alpha p = al /\ 0 < rh_mr p /\ forall u, u <> 0 -> u <> 1 -> ~ adams_method Gam al delta (rough_F p u) (adam_h Gam p u delta).
Proof.
  intros HG Ha Hd. pose proof (Gam_pos Gam HG al Ha) as GP. pose proof (Gam_1 Gam al HG Ha) as G1. pose proof (Gam_2 Gam al HG Ha) as G2.
  set (D := Rpower delta al). assert (HD : 0 < D) by apply exp_pos.
  set (q := Rpower 2 (al + 1)). assert (Hq : 2 < q).
  { unfold q. rewrite <- (Rpower_1 2) at 1 by lra. apply Rpower_lt; lra. }
  set (mr := Rmin (al * Gam al * (q - 2) / (2 * D)) (al * Gam al / (2 * D))).
  assert (Hm : 0 < mr). { apply Rmin_glb_lt; apply Rdiv_lt_0_compat; try lra; repeat apply Rmult_lt_0_compat; lra. }
  assert (Hm1 : mr * (D / (al * Gam al)) <= (q - 2) / 2).
  { apply Rle_trans with (al * Gam al * (q - 2) / (2 * D) * (D / (al * Gam al))); [|right; field; lra]. apply Rmult_le_compat_r; [apply Rlt_le, Rdiv_lt_0_compat; nra|apply Rmin_l]. }
  assert (Hm2 : mr * (D / (al * Gam al)) <= / 2).
  { apply Rle_trans with (al * Gam al / (2 * D) * (D / (al * Gam al))); [|right; field; lra]. apply Rmult_le_compat_r; [apply Rlt_le, Rdiv_lt_0_compat; nra|apply Rmin_r]. }
  clearbody mr. exists (mkRh 0 0 0 mr 0 al). split; [reflexivity|]. split; [exact Hm|]. intros u U0 U1 HA. unfold adams_method in HA.
  set (p := mkRh 0 0 0 mr 0 al) in *. set (nu := / 2 * (u ^ 2 - u)).
  assert (Hnu : nu <> 0). { unfold nu. replace (u ^ 2 - u) with (u * (u - 1)) by ring. intros E. apply Rmult_integral in E as [E|E]; [lra|]. apply Rmult_integral in E as [E|E]; [now apply U0|]. apply U1. lra. }
  assert (EF : forall x, rough_F p u x = nu - mr * x). { intros x. unfold rough_F, p, nu. cbn [rh_mr rh_rho rh_vov]. field. }
  pose proof (recursion_values Gam al delta _ _ _ HG Ha Hd HA 1%nat) as E2.
  pose proof (adam_step Gam p u delta 1%nat) as C2. rewrite a_top in C2. change (rh_alpha p) with al in C2.
  pose proof (adam_step Gam p u delta 0%nat) as C1. rewrite a_top in C1. change (rh_alpha p) with al in C1.
  rewrite C2 in E2. clear C2 HA. cbn [rsum pred] in E2, C1. rewrite !EF in E2, C1. change (adam_h Gam p u delta 0) with 0 in E2, C1.
  set (h1 := adam_h Gam p u delta 1) in *. clearbody h1.
  set (a1 := a_j_kp1 Gam al 1 delta 1) in *. set (a2 := a_j_kp1 Gam al 1 delta 2) in *. set (b1 := b_j_kp1 Gam al 1 delta 1) in *.
  assert (K : mr * h1 * (a1 - a2 * mr * b1) = 0). { rewrite !EF in E2. clear - E2. clearbody a1 a2 b1. lra. } clear E2.
  assert (Ea1 : a1 = D * (q - 2) / ((al + 1) * (al * Gam al))).
  { unfold a1, a_j_kp1. cbn [Nat.eqb Nat.add]. rewrite G2. cbn [INR]. replace (1 - 1 + 2) with 2 by ring. replace (1 - 1 + 1) with 1 by ring. replace (1 - 1) with 0 by ring.
    rewrite npow_0 by lra. rewrite !npow_1 by lra. unfold Rpower at 3. rewrite ln_1, Rmult_0_r, exp_0. fold D q. f_equal. ring. }
  assert (Ea2 : a2 = D / ((al + 1) * (al * Gam al))) by (unfold a2, a_j_kp1; cbn [Nat.eqb Nat.add]; now rewrite G2).
  assert (Eb1 : b1 = D / (al * Gam al)).
  { unfold b1, b_j_kp1. rewrite G1. cbn [INR]. replace (1 - 1 + 1) with 1 by ring. replace (1 - 1) with 0 by ring. rewrite npow_0 by lra. rewrite !npow_1 by lra. unfold Rpower at 2. rewrite ln_1, Rmult_0_r, exp_0. fold D. f_equal. ring. }
  assert (P1 : 0 < a1 - a2 * mr * b1).
  { rewrite Eb1, Ea1, Ea2. replace (D * (q - 2) / ((al + 1) * (al * Gam al)) - D / ((al + 1) * (al * Gam al)) * mr * (D / (al * Gam al))) with (D / ((al + 1) * (al * Gam al)) * ((q - 2) - mr * (D / (al * Gam al)))) by (field; lra).
    apply Rmult_lt_0_compat; [apply Rdiv_lt_0_compat; [lra|]; repeat apply Rmult_lt_0_compat; lra|lra]. }
  assert (Eb0 : b_j_kp1 Gam al 0 delta 0 = D / (al * Gam al)).
  { unfold b_j_kp1. rewrite G1. cbn [INR]. replace (0 - 0 + 1) with 1 by ring. replace (0 - 0) with 0 by ring. rewrite npow_0 by lra. rewrite !npow_1 by lra. unfold Rpower at 2. rewrite ln_1, Rmult_0_r, exp_0. fold D. f_equal. ring. }
  assert (Ea01 : a_j_kp1 Gam al 0 delta 1 = D / ((al + 1) * (al * Gam al))) by (unfold a_j_kp1; cbn [Nat.eqb Nat.add]; now rewrite G2).
  assert (Ea00 : a_j_kp1 Gam al 0 delta 0 = al * D / ((al + 1) * (al * Gam al))).
  { unfold a_j_kp1. cbn [Nat.eqb INR]. rewrite G2. rewrite npow_0 by lra. replace (0 + 1) with 1 by ring. rewrite !npow_1 by lra. unfold Rpower at 2. rewrite ln_1, Rmult_0_r, exp_0. fold D. f_equal. ring. }
  rewrite Eb0, Ea01, Ea00 in C1.
  assert (Eh : h1 = nu * (D / ((al + 1) * (al * Gam al)) * (al + (1 - mr * (D / (al * Gam al)))))) by (rewrite C1; ring_simplify; field; lra).
  assert (P2 : 0 < D / ((al + 1) * (al * Gam al)) * (al + (1 - mr * (D / (al * Gam al))))).
  { apply Rmult_lt_0_compat; [apply Rdiv_lt_0_compat; [lra|]; repeat apply Rmult_lt_0_compat; lra|lra]. }
  apply Rmult_integral in K as [K|K]; [|lra]. apply Rmult_integral in K as [K|K]; [lra|]. rewrite Eh in K. apply Rmult_integral in K as [K|K]; lra.
Qed.
Lemma rsum_scaled0 n (f : nat -> R) : (forall j, (j < n)%nat -> f j = 0) -> rsum n f = 0.
Proof. apply rsum_eq0. Qed.
Lemma adam_zero Gam p u delta n : u = 0 \/ u = 1 -> adam_h Gam p u delta n = 0.
Proof.
  intros Hu. assert (F0 : rough_F p u 0 = 0) by (unfold rough_F; destruct Hu as [->| ->]; field).
  assert (All : forall n j, (j <= n)%nat -> adam_h Gam p u delta j = 0).
  { clear n. induction n as [|n IH]; intros j Hj; [assert (j = O) by lia; subst; reflexivity|].
    destruct j as [|k]; [reflexivity|]. rewrite adam_step.
    rewrite (rsum_eq0 (S k) (fun j => b_j_kp1 Gam (rh_alpha p) k delta j * _)) by (intros j H; rewrite IH by lia; rewrite F0; ring).
    rewrite (rsum_eq0 (S k)) by (intros j H; rewrite IH by lia; rewrite F0; ring). rewrite F0. ring. }
  exact (All n n (le_n n)).
Qed.
Lemma adam_log_zero Gam p u texp : u = 0 \/ u = 1 -> adam_log Gam p texp u = 0.
Proof.
  intros Hu. unfold adam_log. cbv zeta. set (k := n_floor (texp / (1 / 100))).
  assert (Z : forall m, nth m (fst (adam_run Gam p u (1 / 100) k)) 0 = 0).
  { intros m. destruct (Nat.le_gt_cases m k) as [H|H]; [rewrite run_h by exact H; now apply adam_zero|].
    apply nth_overflow. rewrite (proj1 (run_len Gam p u (1 / 100) k)). lia. }
  unfold rough_Ih. rewrite !rsum_eq0 by (intros m _; rewrite Z; ring). unfold Rdiv. ring.
Qed.
