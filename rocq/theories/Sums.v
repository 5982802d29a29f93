(** Finite sums of reals (over 0 <= k < n, and over lists). *)
From Coq Require Import Reals Lra Lia List Permutation.
From Coquelicot Require Import Coquelicot.
From Verif Require Import Base.
Import ListNotations.
Open Scope R_scope.

Fixpoint rsum (n : nat) (f : nat -> R) : R :=
  match n with O => 0 | S m => rsum m f + f m end.
Lemma rsum_ext n f g : (forall k, (k < n)%nat -> f k = g k) -> rsum n f = rsum n g.
Proof. induction n as [|n IH]; intros H; simpl; [reflexivity|]. rewrite IH by (intros; apply H; lia). rewrite H by lia. reflexivity. Qed.
Lemma rsum_plus n f g : rsum n (fun k => f k + g k) = rsum n f + rsum n g.
Proof. induction n as [|n IH]; simpl; [ring|]. rewrite IH. ring. Qed.
Lemma rsum_minus n f g : rsum n (fun k => f k - g k) = rsum n f - rsum n g.
Proof. induction n as [|n IH]; simpl; [ring|]. rewrite IH. ring. Qed.
Lemma rsum_scal n c f : rsum n (fun k => c * f k) = c * rsum n f.
Proof. induction n as [|n IH]; simpl; [ring|]. rewrite IH. ring. Qed.
Lemma rsum_scal_r n c f : rsum n (fun k => f k * c) = rsum n f * c.
Proof. induction n as [|n IH]; simpl; [ring|]. rewrite IH. ring. Qed.
Lemma rsum_const n c : rsum n (fun _ => c) = INR n * c.
Proof. induction n as [|n IH]; [simpl; ring|]. rewrite S_INR. simpl rsum. rewrite IH. ring. Qed.
Lemma rsum_0 n : rsum n (fun _ => 0) = 0.
Proof. rewrite rsum_const. ring. Qed.
Lemma rsum_eq0 n f : (forall k, (k < n)%nat -> f k = 0) -> rsum n f = 0.
Proof. intros H. rewrite (rsum_ext n f (fun _ => 0) H). apply rsum_0. Qed.
Lemma rsum_nonneg n f : (forall k, (k < n)%nat -> 0 <= f k) -> 0 <= rsum n f.
Proof. induction n as [|n IH]; intros H; simpl; [lra|]. apply Rplus_le_le_0_compat; [apply IH; intros; apply H; lia|apply H; lia]. Qed.
Lemma rsum_le n f g : (forall k, (k < n)%nat -> f k <= g k) -> rsum n f <= rsum n g.
Proof. induction n as [|n IH]; intros H; simpl; [lra|]. apply Rplus_le_compat; [apply IH; intros; apply H; lia|apply H; lia]. Qed.
Lemma rsum_pos n f : (0 < n)%nat -> (forall k, (k < n)%nat -> 0 < f k) -> 0 < rsum n f.
Proof.
  intros Hn H. destruct n as [|n]; [lia|]. simpl. apply Rplus_le_lt_0_compat; [|apply H; lia].
  apply rsum_nonneg. intros. left. apply H. lia.
Qed.
Lemma rsum_lt n f g : (0 < n)%nat -> (forall k, (k < n)%nat -> f k < g k) -> rsum n f < rsum n g.
Proof.
  intros Hn H. pose proof (rsum_pos n (fun k => g k - f k) Hn ltac:(intros k Hk; specialize (H k Hk); lra)) as P.
  rewrite rsum_minus in P. lra.
Qed.
Lemma rsum_shift n f : rsum (S n) f = f 0%nat + rsum n (fun k => f (S k)).
Proof. induction n as [|n IH]; [simpl; ring|]. change (rsum (S (S n)) f) with (rsum (S n) f + f (S n)). rewrite IH. simpl. ring. Qed.
Lemma rsum_split n m f : rsum (n + m) f = rsum n f + rsum m (fun k => f (n + k)%nat).
Proof.
  induction m as [|m IH]; [rewrite Nat.add_0_r; simpl; ring|]. rewrite Nat.add_succ_r. simpl. rewrite IH. ring.
Qed.
Lemma rsum_swap n m (f : nat -> nat -> R) : rsum n (fun i => rsum m (fun j => f i j)) = rsum m (fun j => rsum n (fun i => f i j)).
Proof.
  induction n as [|n IH]; simpl; [symmetry; apply rsum_0|]. rewrite IH. symmetry. apply rsum_plus.
Qed.
Lemma rsum_mul n m f g : rsum n f * rsum m g = rsum n (fun i => rsum m (fun j => f i * g j)).
Proof.
  rewrite <- rsum_scal_r. apply rsum_ext. intros i _. symmetry. apply rsum_scal.
Qed.
Lemma rsum_tele n (f : nat -> R) : rsum n (fun k => f (S k) - f k) = f n - f 0%nat.
Proof. induction n as [|n IH]; simpl; [ring|]. rewrite IH. ring. Qed.
(** Kronecker delta *)
Definition kd (i j : nat) : R := if Nat.eq_dec i j then 1 else 0.
Lemma kd_refl i : kd i i = 1.
Proof. unfold kd. destruct (Nat.eq_dec i i); [reflexivity|congruence]. Qed.
Lemma kd_neq i j : i <> j -> kd i j = 0.
Proof. unfold kd. destruct (Nat.eq_dec i j); [congruence|reflexivity]. Qed.
Lemma kd_sym i j : kd i j = kd j i.
Proof. unfold kd. destruct (Nat.eq_dec i j), (Nat.eq_dec j i); congruence. Qed.
Lemma rsum_kd n i f : (i < n)%nat -> rsum n (fun k => kd i k * f k) = f i.
Proof.
  induction n as [|n IH]; intros H; [lia|]. simpl. destruct (Nat.eq_dec i n) as [->|Hn].
  - rewrite kd_refl. rewrite rsum_eq0; [ring|]. intros k Hk. rewrite kd_neq by lia. ring.
  - rewrite IH by lia. rewrite kd_neq by exact Hn. ring.
Qed.
Lemma rsum_kd_r n i f : (i < n)%nat -> rsum n (fun k => f k * kd k i) = f i.
Proof. intros H. rewrite <- (rsum_kd n i f H). apply rsum_ext. intros k _. rewrite kd_sym. ring. Qed.

(** integral of a finite sum *)
Lemma rsum_ex_RInt n (f : nat -> R -> R) a b : (forall k, (k < n)%nat -> ex_RInt (f k) a b) ->
  ex_RInt (fun x => rsum n (fun k => f k x)) a b.
Proof.
  induction n as [|n IH]; intros H; simpl; [apply (ex_RInt_const (V := R_NormedModule) a b 0)|].
  apply (ex_RInt_plus (V := R_NormedModule) (fun x => rsum n (fun k => f k x)) (f n));
    [apply IH; intros; apply H; lia|apply H; lia].
Qed.
Lemma rsum_RInt n (f : nat -> R -> R) a b : (forall k, (k < n)%nat -> ex_RInt (f k) a b) ->
  RInt (fun x => rsum n (fun k => f k x)) a b = rsum n (fun k => RInt (f k) a b).
Proof.
  induction n as [|n IH]; intros H; simpl; [rewrite RInt_const_R; ring|].
  rewrite (RInt_plus_R (fun x => rsum n (fun k => f k x)) (f n)).
  - rewrite IH by (intros; apply H; lia). reflexivity.
  - apply rsum_ex_RInt. intros; apply H; lia.
  - apply H; lia.
Qed.
Lemma rsum_derive n (f : nat -> R -> R) (d : nat -> R) x : (forall k, (k < n)%nat -> is_derive (f k) x (d k)) ->
  is_derive (fun y => rsum n (fun k => f k y)) x (rsum n d).
Proof.
  induction n as [|n IH]; intros H; simpl; [apply is_derive_const_R|].
  apply (is_derive_plus_R (fun y => rsum n (fun k => f k y)) (f n)); [apply IH; intros; apply H; lia|apply H; lia].
Qed.

(** list sums *)
Definition lsum (l : list R) : R := fold_right Rplus 0 l.
Lemma lsum_app l m : lsum (l ++ m) = lsum l + lsum m.
Proof. induction l as [|a l IH]; simpl; [ring|]. rewrite IH. ring. Qed.
Lemma lsum_map_ext {A} (f g : A -> R) l : (forall a, In a l -> f a = g a) -> lsum (map f l) = lsum (map g l).
Proof. intros H. f_equal. apply map_ext_in. exact H. Qed.
Lemma lsum_map_plus {A} (f g : A -> R) l : lsum (map (fun a => f a + g a) l) = lsum (map f l) + lsum (map g l).
Proof. induction l as [|a l IH]; simpl; [ring|]. rewrite IH. ring. Qed.
Lemma lsum_map_minus {A} (f g : A -> R) l : lsum (map (fun a => f a - g a) l) = lsum (map f l) - lsum (map g l).
Proof. induction l as [|a l IH]; simpl; [ring|]. rewrite IH. ring. Qed.
Lemma lsum_map_scal {A} c (f : A -> R) l : lsum (map (fun a => c * f a) l) = c * lsum (map f l).
Proof. induction l as [|a l IH]; simpl; [ring|]. rewrite IH. ring. Qed.
Lemma lsum_map_const {A} c (l : list A) : lsum (map (fun _ => c) l) = INR (length l) * c.
Proof. induction l as [|a l IH]; [simpl; ring|]. simpl length. rewrite S_INR. simpl lsum. rewrite IH. ring. Qed.
Lemma lsum_map_nonneg {A} (f : A -> R) l : (forall a, In a l -> 0 <= f a) -> 0 <= lsum (map f l).
Proof. induction l as [|a l IH]; intros H; simpl; [lra|]. apply Rplus_le_le_0_compat; [apply H; now left|apply IH; intros; apply H; now right]. Qed.
Lemma lsum_map_le {A} (f g : A -> R) l : (forall a, In a l -> f a <= g a) -> lsum (map f l) <= lsum (map g l).
Proof. induction l as [|a l IH]; intros H; simpl; [lra|]. apply Rplus_le_compat; [apply H; now left|apply IH; intros; apply H; now right]. Qed.
Lemma lsum_rev l : lsum (rev l) = lsum l.
Proof. induction l as [|a l IH]; simpl; [reflexivity|]. rewrite lsum_app, IH. simpl. ring. Qed.
Lemma lsum_perm l m : Permutation l m -> lsum l = lsum m.
Proof. induction 1; simpl; try rewrite IHPermutation; try ring. congruence. Qed.
Lemma lsum_map_opp {A} (f : A -> R) l : lsum (map (fun a => - f a) l) = - lsum (map f l).
Proof. induction l as [|a l IH]; simpl; [ring|]. rewrite IH. ring. Qed.
Lemma lsum_flat_map {A B} (h : A -> list B) (f : B -> R) l :
  lsum (map f (flat_map h l)) = lsum (map (fun a => lsum (map f (h a))) l).
Proof. induction l as [|a l IH]; simpl; [reflexivity|]. rewrite map_app, lsum_app, IH. reflexivity. Qed.
Lemma lsum_seq n f : lsum (map f (seq 0 n)) = rsum n f.
Proof. induction n as [|n IH]; [reflexivity|]. rewrite seq_S, map_app, lsum_app, IH. simpl. ring. Qed.
Definition lmean (l : list R) : R := lsum l / INR (length l).
