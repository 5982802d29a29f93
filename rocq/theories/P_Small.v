(** Expansions at 0: [small n g] is g(z) = o(z^n). *)
From Coq Require Import Reals Lra Lia Psatz.
From Coquelicot Require Import Coquelicot.
From Verif Require Import Base.
Open Scope R_scope.
Definition small (n : nat) (g : R -> R) : Prop :=
  forall e, 0 < e -> exists d, 0 < d /\ forall z, Rabs z < d -> z <> 0 -> Rabs (g z) <= e * Rabs z ^ n.
Definition near (P : R -> Prop) : Prop := exists d, 0 < d /\ forall z, Rabs z < d -> z <> 0 -> P z.
Lemma near_and (P Q : R -> Prop) : near P -> near Q -> near (fun z => P z /\ Q z).
Proof.
  intros (d & D & H) (d' & D' & H'). exists (Rmin d d'). split; [apply Rmin_glb_lt; assumption|]. intros z Hz Nz.
  split; [apply H|apply H']; try assumption; eapply Rlt_le_trans; try exact Hz; [apply Rmin_l|apply Rmin_r].
Qed.
Lemma near_impl (P Q : R -> Prop) : near P -> (forall z, z <> 0 -> P z -> Q z) -> near Q.
Proof. intros (d & D & H) K. exists d. split; [exact D|]. intros z Hz Nz. apply K, H; assumption. Qed.
Lemma small_near n g : small n g -> forall e, 0 < e -> near (fun z => Rabs (g z) <= e * Rabs z ^ n).
Proof. intros H e He. destruct (H e He) as (d & D & K). exists d. split; assumption. Qed.
Lemma near_small n g : (forall e, 0 < e -> near (fun z => Rabs (g z) <= e * Rabs z ^ n)) -> small n g.
Proof. intros H e He. destruct (H e He) as (d & D & K). exists d. split; assumption. Qed.
Lemma small_ext n f g : near (fun z => f z = g z) -> small n f -> small n g.
Proof. intros E H. apply near_small. intros e He. apply (near_impl _ _ (near_and _ _ E (small_near _ _ H e He))). intros z _ [A B]. rewrite <- A. exact B. Qed.
Lemma near_all (P : R -> Prop) : (forall z, z <> 0 -> P z) -> near P.
Proof. intros H. exists 1. split; [lra|]. intros z _ Nz. apply H, Nz. Qed.
Lemma small_plus n f g : small n f -> small n g -> small n (fun z => f z + g z).
Proof.
  intros F G. apply near_small. intros e He. apply (near_impl _ _ (near_and _ _ (small_near _ _ F (e / 2) ltac:(lra)) (small_near _ _ G (e / 2) ltac:(lra)))).
  intros z _ [A B]. eapply Rle_trans; [apply Rabs_triang|]. lra.
Qed.
Lemma small_bd n f g M : small n f -> near (fun z => Rabs (g z) <= M) -> small n (fun z => f z * g z).
Proof.
  intros F G. apply near_small. intros e He. assert (HM : 0 < Rabs M + 1) by (pose proof (Rabs_pos M); lra).
  apply (near_impl _ _ (near_and _ _ (small_near _ _ F (e / (Rabs M + 1)) ltac:(apply Rdiv_lt_0_compat; lra)) G)).
  intros z _ [A B]. rewrite Rabs_mult. assert (0 <= Rabs z ^ n) by (apply pow_le, Rabs_pos). assert (Rabs (g z) <= Rabs M + 1) by (pose proof (Rle_abs M); lra).
  eapply Rle_trans; [apply Rmult_le_compat; [apply Rabs_pos|apply Rabs_pos|exact A|exact H0]|]. apply Req_le. field. lra.
Qed.
Lemma small_scal n c f : small n f -> small n (fun z => c * f z).
Proof.
  intros F. apply (small_ext n (fun z => f z * c)); [apply near_all; intros; ring|]. apply (small_bd n f (fun _ => c) (Rabs c)); [exact F|].
  apply near_all. intros. lra.
Qed.
Lemma small_minus n f g : small n f -> small n g -> small n (fun z => f z - g z).
Proof. intros F G. apply (small_ext n (fun z => f z + (- (1)) * g z)); [apply near_all; intros; ring|]. apply small_plus; [exact F|apply small_scal, G]. Qed.
Lemma small_pow_lt n m : (n < m)%nat -> small n (fun z => z ^ m).
Proof.
  intros H. apply near_small. intros e He. exists (Rmin e 1). split; [apply Rmin_glb_lt; lra|]. intros z Hz Nz.
  assert (Rabs z < e) by (eapply Rlt_le_trans; [exact Hz|apply Rmin_l]). assert (Rabs z < 1) by (eapply Rlt_le_trans; [exact Hz|apply Rmin_r]).
  replace m with (S (m - S n) + n)%nat by lia. rewrite pow_add, Rabs_mult, <- !RPow_abs. apply Rmult_le_compat_r; [apply pow_le, Rabs_pos|].
  cbn [pow]. pose proof (Rabs_pos z). assert (Rabs z ^ (m - S n) <= 1) by (rewrite <- (pow1 (m - S n)); apply pow_incr; lra).
  assert (0 <= Rabs z ^ (m - S n)) by (apply pow_le; lra). nra.
Qed.
Lemma small_pow n m f : small n f -> small (m + n) (fun z => z ^ m * f z).
Proof.
  intros F. apply near_small. intros e He. apply (near_impl _ _ (small_near _ _ F e He)). intros z _ A.
  rewrite Rabs_mult, <- RPow_abs, pow_add. replace (e * (Rabs z ^ m * Rabs z ^ n)) with (Rabs z ^ m * (e * Rabs z ^ n)) by ring.
  apply Rmult_le_compat_l; [apply pow_le, Rabs_pos|exact A].
Qed.
(** division by z^m *)
Lemma small_div n m f : small (m + n) f -> small n (fun z => f z / z ^ m).
Proof.
  intros F. apply near_small. intros e He. apply (near_impl _ _ (small_near _ _ F e He)). intros z Nz A.
  assert (P : 0 < Rabs z ^ m) by (apply pow_lt, Rabs_pos_lt, Nz). unfold Rdiv. rewrite Rabs_mult, Rabs_inv, <- RPow_abs. apply (Rmult_le_reg_r (Rabs z ^ m)); [exact P|].
  rewrite Rmult_assoc, Rinv_l, Rmult_1_r by lra. rewrite pow_add in A. lra.
Qed.
Lemma small_le n m f : (n <= m)%nat -> small m f -> small n f.
Proof.
  intros H F. apply near_small. intros e He. apply (near_impl _ _ (near_and _ _ (small_near _ _ F e He) (ex_intro _ 1 (conj Rlt_0_1 (fun z Hz _ => Hz))))).
  intros z _ [A B]. eapply Rle_trans; [exact A|]. apply Rmult_le_compat_l; [lra|]. replace m with ((m - n) + n)%nat by lia. rewrite pow_add.
  rewrite <- (Rmult_1_l (Rabs z ^ n)) at 2. apply Rmult_le_compat_r; [apply pow_le, Rabs_pos|]. rewrite <- (pow1 (m - n)). apply pow_incr. pose proof (Rabs_pos z). lra.
Qed.
Lemma small_int n (g g' : R -> R) r : 0 < r -> g 0 = 0 -> (forall z, Rabs z < r -> is_derive g z (g' z)) -> g' 0 = 0 -> small n g' -> small (S n) g.
Proof.
  intros Hr G0 D D0 S. apply near_small. intros e He. destruct (S e He) as (d & Hd & K). exists (Rmin d r). split; [apply Rmin_glb_lt; assumption|].
  intros z Hz Nz. assert (Zd : Rabs z < d) by (eapply Rlt_le_trans; [exact Hz|apply Rmin_l]). assert (Zr : Rabs z < r) by (eapply Rlt_le_trans; [exact Hz|apply Rmin_r]).
  assert (B : forall u, Rmin 0 z <= u <= Rmax 0 z -> Rabs u <= Rabs z).
  { intros u. unfold Rmin, Rmax. destruct (Rle_dec 0 z); intros Hu; [rewrite !Rabs_pos_eq by lra; lra|]. rewrite !Rabs_left1 by lra. lra. }
  destruct (MVT_gen g 0 z g') as (c & Hc & E).
  - intros u Hu. apply D. specialize (B u ltac:(lra)). lra.
  - intros u Hu. apply continuity_pt_filterlim, (ex_derive_continuous (K := R_AbsRing) (V := R_NormedModule)). eexists. apply D. specialize (B u Hu). lra.
  - rewrite G0, !Rminus_0_r in E. rewrite E, Rabs_mult. cbn [pow]. rewrite (Rmult_comm (Rabs z)), <- Rmult_assoc. apply Rmult_le_compat_r; [apply Rabs_pos|].
    specialize (B c Hc). destruct (Req_dec c 0) as [->|Nc].
    + rewrite D0, Rabs_R0. apply Rmult_le_pos; [lra|apply pow_le, Rabs_pos].
    + eapply Rle_trans; [apply K; [lra|exact Nc]|]. apply Rmult_le_compat_l; [lra|]. apply pow_incr. split; [apply Rabs_pos|exact B].
Qed.
Lemma small1_derive (g : R -> R) : g 0 = 0 -> is_derive g 0 0 -> small 1 g.
Proof.
  intros G0 D. apply near_small. intros e He. apply is_derive_Reals in D. destruct (D e He) as (d & H). exists d. split; [apply cond_pos|]. intros z Hz Nz.
  specialize (H z Nz Hz). rewrite Rplus_0_l, G0, !Rminus_0_r in H. rewrite pow_1. unfold Rdiv in H. rewrite Rabs_mult, Rabs_inv in H.
  pose proof (Rabs_pos_lt z Nz) as P. apply (Rmult_lt_compat_r (Rabs z)) in H; [|exact P]. rewrite Rmult_assoc, Rinv_l in H by lra. lra.
Qed.
Lemma small0_cont (g : R -> R) : g 0 = 0 -> continuous g 0 -> small 0 g.
Proof.
  intros G0 C. apply near_small. intros e He. destruct (C (fun y => Rabs y < e)) as (d & H).
  - exists (mkposreal e He). intros y Hy. change (Rabs (y - g 0) < e) in Hy. rewrite G0, Rminus_0_r in Hy. exact Hy.
  - exists d. split; [apply cond_pos|]. intros z Hz _. rewrite pow_O, Rmult_1_r. left. apply H. change (Rabs (z - 0) < d). rewrite Rminus_0_r. exact Hz.
Qed.
(** limits *)
Lemma near_lim0 (g : R -> R) (l : R) : small 0 (fun z => g z - l) <-> is_lim g 0 l.
Proof.
  split; intros H.
  - apply is_lim_spec. intros e. destruct (H (e / 2)) as (d & D & K); [destruct e; cbn; lra|]. exists (mkposreal d D). intros z Hz Nz.
    change (Rabs (z - 0) < d) in Hz. rewrite Rminus_0_r in Hz. specialize (K z Hz Nz). rewrite pow_O in K. destruct e as [e He]; cbn in *. lra.
  - apply is_lim_spec in H. intros e He. destruct (H (mkposreal e He)) as (d & K). exists d. split; [apply cond_pos|]. intros z Hz Nz. rewrite pow_O, Rmult_1_r. left.
    apply K; [|exact Nz]. change (Rabs (z - 0) < d). rewrite Rminus_0_r. exact Hz.
Qed.
Lemma small_lim n (g : R -> R) (c : R) : small n (fun z => g z - c * z ^ n) -> is_lim (fun z => g z / z ^ n) 0 c.
Proof.
  intros H. apply near_lim0. apply (small_ext 0 (fun z => (g z - c * z ^ n) / z ^ n)).
  - apply near_all. intros z Nz. field. apply pow_nonzero, Nz.
  - apply small_div. rewrite Nat.add_0_r. exact H.
Qed.
Lemma lim_small n (g : R -> R) (c : R) : is_lim (fun z => g z / z ^ n) 0 c -> small n (fun z => g z - c * z ^ n).
Proof.
  intros H. apply near_lim0 in H. apply (small_ext n (fun z => z ^ n * (g z / z ^ n - c))).
  - apply near_all. intros z Nz. field. apply pow_nonzero, Nz.
  - pose proof (small_pow 0 n _ H) as K. rewrite Nat.add_0_r in K. exact K.
Qed.
(** ln(1 + w) for w = c z^2 + o(z^2) *)
Lemma ln1p_quad w : Rabs w <= / 2 -> Rabs (ln (1 + w) - w) <= 2 * w ^ 2.
Proof.
  intros H. apply Rabs_le_between in H.
  assert (L : forall x, -1 < x -> ln (1 + x) <= x). { intros x Hx. rewrite <- (ln_exp x) at 2. apply Rcomplements.ln_le; [lra|]. apply exp_ineq1_le. }
  pose proof (L w ltac:(lra)) as U. pose proof (L (- w / (1 + w))) as V.
  assert (E : 1 + - w / (1 + w) = / (1 + w)) by (field; lra). rewrite E, ln_Rinv in V by lra.
  assert (Q : -1 < - w / (1 + w)) by (apply (Rplus_lt_reg_l 1); rewrite E; pose proof (Rinv_0_lt_compat (1 + w) ltac:(lra)); lra). specialize (V Q).
  assert (W : w / (1 + w) <= ln (1 + w)) by (unfold Rdiv in *; lra). assert (w / (1 + w) - w = - (w ^ 2 * / (1 + w))) by (field; lra).
  assert (/ (1 + w) <= 2). { rewrite <- (Rinv_inv 2). apply Rinv_le_contravar; lra. } pose proof (pow2_ge_0 w). apply Rabs_le. split; [|lra]. nra.
Qed.
Lemma small_ln1p2 (w : R -> R) (c : R) : small 2 (fun z => w z - c * z ^ 2) -> small 2 (fun z => ln (1 + w z) - c * z ^ 2).
Proof.
  intros H. apply (small_ext 2 (fun z => (w z - c * z ^ 2) + (ln (1 + w z) - w z))); [apply near_all; intros; ring|]. apply small_plus; [exact H|].
  assert (B : near (fun z => Rabs (w z) <= (Rabs c + 1) * Rabs z ^ 2)).
  { apply (near_impl _ _ (small_near _ _ H 1 ltac:(lra))). intros z _ A. replace (w z) with ((w z - c * z ^ 2) + c * z ^ 2) by ring.
    eapply Rle_trans; [apply Rabs_triang|]. rewrite (Rabs_mult c), <- RPow_abs. lra. }
  apply near_small. intros e He. pose proof (Rabs_pos c) as C0. set (M := Rabs c + 1) in *. assert (HM : 0 < M) by (unfold M; lra).
  destruct B as (d & D & K). set (r := Rmin d (Rmin (/ (2 * (M + 1))) (Rmin 1 (e / (2 * M ^ 2))))).
  assert (R0 : 0 < r). { unfold r. repeat apply Rmin_glb_lt; try lra; [apply Rinv_0_lt_compat; lra|]. apply Rdiv_lt_0_compat; [lra|]. pose proof (pow_lt M 2 HM). lra. }
  exists r. split; [exact R0|]. intros z Hz Nz. assert (Z1 : Rabs z < d /\ Rabs z < / (2 * (M + 1)) /\ Rabs z < 1 /\ Rabs z < e / (2 * M ^ 2)).
  { unfold r in Hz. repeat apply Rmin_Rgt_l in Hz as [? Hz]; repeat split; try lra. all: eapply Rlt_le_trans; [exact Hz|]; unfold Rmin; repeat destruct (Rle_dec _ _); lra. }
  destruct Z1 as (Z1 & Z2 & Z3 & Z4). specialize (K z Z1 Nz). pose proof (Rabs_pos z) as Zp.
  set (a := Rabs z) in *. assert (Q2 : a ^ 2 <= a) by (cbn [pow]; nra).
  assert (W : Rabs (w z) <= / 2).
  { eapply Rle_trans; [exact K|]. eapply Rle_trans; [apply Rmult_le_compat_l; [lra|exact Q2]|]. apply (Rmult_lt_compat_l (2 * (M + 1))) in Z2; [|lra]. rewrite Rinv_r in Z2 by lra. nra. }
  eapply Rle_trans; [apply ln1p_quad, W|]. assert (W2 : (w z) ^ 2 <= (M * a ^ 2) ^ 2) by (rewrite <- (pow2_abs (w z)); apply pow_incr; split; [apply Rabs_pos|exact K]).
  assert (a ^ 2 <= e / (2 * M ^ 2)) by lra. assert (P2 : 0 < M ^ 2) by (apply pow_lt; lra). apply (Rmult_le_compat_l (2 * M ^ 2)) in H0; [|lra].
  replace (2 * M ^ 2 * (e / (2 * M ^ 2))) with e in H0 by (field; lra). assert (0 <= a ^ 2) by apply pow2_ge_0. nra.
Qed.
