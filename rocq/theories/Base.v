(** Real-analysis helpers with plain [R]-typed statements (Coquelicot's own are stated
    over its algebraic hierarchy).  Nothing here models repository code. *)
From Coq Require Import Reals Lra Psatz.
From Coquelicot Require Import Coquelicot.
Open Scope R_scope.

(** Normalise an equation whose type Coquelicot left as a carrier of [R_AbsRing] etc. *)
Ltac Req := match goal with |- @eq _ ?a ?b => change (@eq R a b) end.
Ltac runfold := unfold plus, minus, opp, scal, mult, zero, one in *; simpl;
                unfold plus, minus, opp, scal, mult, zero, one in *; simpl.
Ltac rfield := Req; unfold Rdiv; field.
Ltac dring := cbv beta; Req; ring.
Ltac dfield := cbv beta; Req; unfold Rdiv; field.

Lemma RInt_scal_R (f : R -> R) (k a b : R) :
  ex_RInt f a b -> RInt (fun y => k * f y) a b = k * RInt f a b.
Proof. intros H. exact (RInt_scal f a b k H). Qed.

Lemma ex_RInt_scal_R (f : R -> R) (k a b : R) :
  ex_RInt f a b -> ex_RInt (fun y => k * f y) a b.
Proof. intros H. exact (ex_RInt_scal f a b k H). Qed.

Lemma RInt_plus_R (f g : R -> R) (a b : R) :
  ex_RInt f a b -> ex_RInt g a b -> RInt (fun y => f y + g y) a b = RInt f a b + RInt g a b.
Proof. intros H H'. exact (RInt_plus f g a b H H'). Qed.

Lemma RInt_minus_R (f g : R -> R) (a b : R) :
  ex_RInt f a b -> ex_RInt g a b -> RInt (fun y => f y - g y) a b = RInt f a b - RInt g a b.
Proof. intros H H'. exact (RInt_minus f g a b H H'). Qed.

Lemma RInt_const_R (a b c : R) : RInt (fun _ => c) a b = (b - a) * c.
Proof. exact (RInt_const a b c). Qed.

Lemma RInt_comp_lin_R (f : R -> R) (u v a b : R) :
  ex_RInt f (u * a + v) (u * b + v) ->
  RInt (fun y => u * f (u * y + v)) a b = RInt f (u * a + v) (u * b + v).
Proof. intros H. exact (RInt_comp_lin f u v a b H). Qed.

Lemma RInt_Chasles_R (f : R -> R) (a b c : R) :
  ex_RInt f a b -> ex_RInt f b c -> RInt f a b + RInt f b c = RInt f a c.
Proof. intros H H'. exact (RInt_Chasles f a b c H H'). Qed.

(** Fundamental theorem of calculus, in a form ready to use. *)
Lemma RInt_of_derive (F f : R -> R) (a b : R) :
  (forall x, Rmin a b <= x <= Rmax a b -> is_derive F x (f x)) ->
  (forall x, Rmin a b <= x <= Rmax a b -> continuous f x) ->
  RInt f a b = F b - F a.
Proof.
  intros Hd Hc. apply is_RInt_unique.
  apply (is_RInt_derive F f a b Hd Hc).
Qed.

Lemma ex_derive_continuous_R (f : R -> R) (x : R) : ex_derive f x -> continuous f x.
Proof. intros H. exact (ex_derive_continuous f x H). Qed.

Lemma ex_RInt_of_ex_derive (f : R -> R) (a b : R) :
  (forall x, Rmin a b <= x <= Rmax a b -> ex_derive f x) -> ex_RInt f a b.
Proof.
  intros H. apply (ex_RInt_continuous f). intros z Hz.
  apply ex_derive_continuous_R, H, Hz.
Qed.

Lemma is_derive_plus_R (f g : R -> R) (x a b : R) :
  is_derive f x a -> is_derive g x b -> is_derive (fun t => f t + g t) x (a + b).
Proof. intros H H'. exact (is_derive_plus f g x a b H H'). Qed.

Lemma is_derive_minus_R (f g : R -> R) (x a b : R) :
  is_derive f x a -> is_derive g x b -> is_derive (fun t => f t - g t) x (a - b).
Proof. intros H H'. exact (is_derive_minus f g x a b H H'). Qed.

Lemma is_derive_mult_R (f g : R -> R) (x a b : R) :
  is_derive f x a -> is_derive g x b -> is_derive (fun t => f t * g t) x (a * g x + f x * b).
Proof. intros H H'. apply (is_derive_mult f g x a b H H'). intros; apply Rmult_comm. Qed.

Lemma is_derive_scal_R (f : R -> R) (k x a : R) :
  is_derive f x a -> is_derive (fun t => k * f t) x (k * a).
Proof. intros H. exact (is_derive_scal f x k a H). Qed.

Lemma is_derive_const_R (c x : R) : is_derive (fun _ : R => c) x 0.
Proof. exact (is_derive_const c x). Qed.

Lemma is_derive_id_R (x : R) : is_derive (fun t : R => t) x 1.
Proof. exact (is_derive_id x). Qed.

Lemma is_derive_comp_R (f g : R -> R) (x df dg : R) :
  is_derive f (g x) df -> is_derive g x dg -> is_derive (fun t => f (g t)) x (dg * df).
Proof. intros H H'. exact (is_derive_comp f g x df dg H H'). Qed.

(** Change the value of a derivative by an equation. *)
Lemma is_derive_eq (f : R -> R) (x a b : R) : is_derive f x a -> a = b -> is_derive f x b.
Proof. intros H <-. exact H. Qed.

Lemma strictly_increasing_of_derive (f df : R -> R) :
  (forall x, is_derive f x (df x)) -> (forall x, 0 < df x) ->
  forall x y, x < y -> f x < f y.
Proof.
  intros Hd Hp x y Hxy.
  destruct (MVT_gen f x y df) as [c [_ Hc]].
  - intros z _. apply Hd.
  - intros z _. apply continuity_pt_filterlim.
    apply (ex_derive_continuous f). eexists; apply Hd.
  - specialize (Hp c). nra.
Qed.

(** Mean value theorem on a segment [x < y], derivative needed on the closed segment. *)
Lemma MVT_R (f df : R -> R) (x y : R) :
  x < y -> (forall z, x <= z <= y -> is_derive f z (df z)) ->
  exists c, x <= c <= y /\ f y - f x = df c * (y - x).
Proof.
  intros Hxy Hd. destruct (MVT_gen f x y df) as [c [Hc1 Hc]].
  - intros z Hz. rewrite Rmin_left, Rmax_right in Hz by lra. apply Hd. lra.
  - intros z Hz. rewrite Rmin_left, Rmax_right in Hz by lra.
    apply continuity_pt_filterlim. apply (ex_derive_continuous f). eexists; apply Hd; lra.
  - rewrite Rmin_left, Rmax_right in Hc1 by lra. exists c. split; [lra|exact Hc].
Qed.

Lemma increasing_on (f df : R -> R) (x y : R) :
  x < y -> (forall z, x <= z <= y -> is_derive f z (df z)) ->
  (forall z, x <= z <= y -> 0 < df z) -> f x < f y.
Proof.
  intros Hxy Hd Hp. destruct (MVT_R f df x y Hxy Hd) as [c [Hc E]].
  specialize (Hp c Hc). nra.
Qed.

Lemma nondecreasing_on (f df : R -> R) (x y : R) :
  x <= y -> (forall z, x <= z <= y -> is_derive f z (df z)) ->
  (forall z, x <= z <= y -> 0 <= df z) -> f x <= f y.
Proof.
  intros [Hxy|<-] Hd Hp; [|lra]. destruct (MVT_R f df x y Hxy Hd) as [c [Hc E]].
  specialize (Hp c Hc). nra.
Qed.

Lemma constant_of_derive_0 (f : R -> R) : (forall x, is_derive f x 0) -> forall x y, f x = f y.
Proof.
  intros H x y.
  destruct (MVT_gen f x y (fun _ => 0)) as [c [_ Hc]].
  - intros z _. apply H.
  - intros z _. apply continuity_pt_filterlim.
    apply (ex_derive_continuous f). eexists; apply H.
  - lra.
Qed.

Lemma exp_le (x y : R) : x <= y -> exp x <= exp y.
Proof. intros [H|<-]; [left; now apply exp_increasing | lra]. Qed.

Lemma ln_le_R (x y : R) : 0 < x -> x <= y -> ln x <= ln y.
Proof. intros Hx [H|<-]; [left; now apply ln_increasing | lra]. Qed.

Lemma exp_sub (x y : R) : exp (x - y) = exp x / exp y.
Proof. unfold Rminus, Rdiv. now rewrite exp_plus, exp_Ropp. Qed.

Lemma exp_opp_inv (x : R) : exp (- x) = / exp x.
Proof. apply exp_Ropp. Qed.

(** Higher derivatives from a chain of first derivatives valid near the point. *)
Lemma is_derive_n_2 (f f1 : R -> R) (x l : R) :
  locally x (fun y => is_derive f y (f1 y)) -> is_derive f1 x l -> is_derive_n f 2 x l.
Proof.
  intros H H1. simpl. apply (is_derive_ext_loc f1); [|exact H1].
  apply (filter_imp _ _ (fun y Hy => eq_sym (is_derive_unique f y (f1 y) Hy)) H).
Qed.

Lemma is_derive_n_3 (f f1 f2 : R -> R) (x l : R) :
  locally x (fun y => is_derive f y (f1 y)) -> locally x (fun y => is_derive f1 y (f2 y)) ->
  is_derive f2 x l -> is_derive_n f 3 x l.
Proof.
  intros H H1 H2. simpl. apply (is_derive_ext_loc f2); [|exact H2].
  pose proof (locally_locally x _ H) as HH.
  generalize (filter_and _ _ HH H1). apply filter_imp. intros y [Hy Hy1].
  symmetry. apply is_derive_unique. apply (is_derive_ext_loc f1); [|exact Hy1].
  apply (filter_imp _ _ (fun z Hz => eq_sym (is_derive_unique f z (f1 z) Hz)) Hy).
Qed.

(** An open condition on a continuous function holds near the point. *)
Lemma locally_gt (f : R -> R) (c x : R) : continuous f x -> c < f x -> locally x (fun y => c < f y).
Proof. intros Hc H. apply (Hc (fun y => c < y)). apply (open_gt c). exact H. Qed.

Lemma locally_lt (f : R -> R) (c x : R) : continuous f x -> f x < c -> locally x (fun y => f y < c).
Proof. intros Hc H. apply (Hc (fun y => y < c)). apply (open_lt c). exact H. Qed.

Lemma exp_gt_1 (x : R) : 0 < x -> 1 < exp x.
Proof. intros H. rewrite <- exp_0 at 1. now apply exp_increasing. Qed.
Lemma exp_lt_1 (x : R) : x < 0 -> exp x < 1.
Proof. intros H. rewrite <- exp_0. now apply exp_increasing. Qed.
Lemma exp_eq_1 (x : R) : exp x = 1 -> x = 0.
Proof. intros H. apply exp_inv. now rewrite exp_0. Qed.
