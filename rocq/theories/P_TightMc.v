(** Tightening: the gamma-expansion draws as weighted sums, and the node counts of the rough kernel. *)
From Coq Require Import Reals Lra Lia Arith Psatz ZArith.
From Coquelicot Require Import Coquelicot.
From Verif Require Import Base Sums M_Heston M_HestonMc M_RoughMc Spec_HestonMc P_HestonMc P_HestonMc2 P_HestonMc7.
Open Scope R_scope.

Lemma draw_x1_weights (c : cir) (dt v0 vt : R) (kk : nat) : 0 < c_xi c -> 0 < c_mr c -> 0 < dt -> 0 < v0 -> 0 < vt ->
  exists (a : nat -> R) (b : R), (forall g gt, draw_x1 c dt kk g gt = rsum kk (fun i => a i * g i) + b * gt) /\
    rsum kk (fun i => a i * draw_x1_lam c dt v0 vt i) + b * draw_x1_shape c dt v0 vt kk = (v0 + vt) * fst (x1star c dt 0) /\
    rsum kk (fun i => a i ^ 2 * (2 * draw_x1_lam c dt v0 vt i)) + b ^ 2 * draw_x1_shape c dt v0 vt kk = (v0 + vt) * (snd (x1star c dt 0) * fst (x1star c dt 0) ^ 2).
Proof.
  intros Hx Hm Hd H0 Ht. exists (fun i => / ge_gamma c dt (S i)), (snd (x1star c dt kk) * fst (x1star c dt kk)). destruct (x1star_split c dt Hx Hm Hd kk) as [E1 E2]. rewrite <- E2, <- E1.
  pose proof (x1star_fst_pos c dt Hx Hm Hd kk) as PM. pose proof (x1_vs_pos c dt Hx Hm Hd kk) as PV. split; [|split].
  - intros g gt. unfold draw_x1. destruct (x1star c dt kk) as [m vs]. cbn [fst snd]. f_equal. apply rsum_ext. intros i _. unfold Rdiv. ring.
  - unfold draw_x1_shape. rewrite (rsum_ext kk _ (fun i => (v0 + vt) * (ge_lambda c dt (S i) / ge_gamma c dt (S i)))) by (intros i _; unfold draw_x1_lam, Rdiv; ring). rewrite rsum_scal. field. lra.
  - unfold draw_x1_shape. rewrite (rsum_ext kk _ (fun i => (v0 + vt) * (2 * ge_lambda c dt (S i) / ge_gamma c dt (S i) ^ 2))) by (intros i _; unfold draw_x1_lam; pose proof (ge_gamma_pos c dt Hx Hd i); field; lra). rewrite rsum_scal. field. lra.
Qed.
Lemma draw_x2_weights (c : cir) (dt shape : R) (kk : nat) : 0 < c_xi c -> 0 < c_mr c -> 0 < dt -> snd (x2star c dt kk) <> 0 ->
  exists (a : nat -> R) (b : R), (forall g gt, draw_x2 c dt kk g gt = rsum kk (fun i => a i * g i) + b * gt) /\
    rsum kk (fun i => a i * shape) + b * draw_x2_shape c dt shape kk = shape * fst (x2star c dt 0) /\
    rsum kk (fun i => a i ^ 2 * shape) + b ^ 2 * draw_x2_shape c dt shape kk = shape * (snd (x2star c dt 0) * fst (x2star c dt 0) ^ 2).
Proof.
  intros Hx Hm Hd PV. exists (fun i => / ge_gamma c dt (S i)), (snd (x2star c dt kk) * fst (x2star c dt kk)). destruct (x2star_split c dt Hx Hm Hd kk) as [E1 E2]. rewrite <- E2, <- E1. split; [|split].
  - intros g gt. unfold draw_x2. destruct (x2star c dt kk) as [m vs]. cbn [fst snd]. f_equal. apply rsum_ext. intros i _. unfold Rdiv. ring.
  - unfold draw_x2_shape. rewrite (rsum_ext kk _ (fun i => shape * (1 / ge_gamma c dt (S i)))) by (intros i _; unfold Rdiv; ring). rewrite rsum_scal. field. exact PV.
  - unfold draw_x2_shape. rewrite (rsum_ext kk _ (fun i => shape * (1 / ge_gamma c dt (S i) ^ 2))) by (intros i _; pose proof (ge_gamma_pos c dt Hx Hd i); field; lra). rewrite rsum_scal. field. exact PV.
Qed.
(** k is the least integer not below x *)
Definition least_int (x : R) (k : Z) : Prop := x <= IZR k /\ forall j : Z, x <= IZR j -> (k <= j)%Z.
Lemma least_ceil x : least_int x (- Int_part (- x)).
Proof.
  destruct (base_Int_part (- x)) as [A B]. split; [rewrite opp_IZR; lra|]. intros j Hj. assert (IZR (- j) < IZR (Int_part (- x) + 1)) as C by (rewrite opp_IZR, plus_IZR; lra). apply lt_IZR in C. lia.
Qed.
Lemma node_counts texp dt eps : exists m n o l : Z,
  rm_nodes texp dt eps 1 = (IZR (Z.max m 0 + 1), IZR n, IZR o, IZR o, IZR l) /\
  least_int (ln texp) m /\ least_int (ln (ln (1 / eps) / dt)) n /\ least_int (ln (1 / eps)) o /\ least_int (ln (1 / eps / dt)) l.
Proof.
  exists (- Int_part (- ln texp))%Z, (- Int_part (- ln (ln (1 / eps) / dt)))%Z, (- Int_part (- ln (1 / eps)))%Z, (- Int_part (- ln (1 / eps / dt)))%Z.
  split; [|repeat split; try apply least_ceil]. unfold rm_nodes. rewrite !Rmult_1_l. repeat f_equal. rewrite plus_IZR. f_equal.
  unfold Rmax. destruct (Rle_dec (IZR (- Int_part (- ln texp))) 0) as [L|L]; [rewrite Z.max_r; [reflexivity|apply le_IZR; exact L]|rewrite Z.max_l; [reflexivity|]]. apply Rnot_le_lt in L. apply lt_IZR in L. lia.
Qed.
