(** Simpson rule and Brownian paths on a grid. *)
From Coq Require Import Reals Lra Lia List.
From Coquelicot Require Import Coquelicot.
From Verif Require Import Base Sums M_Opt M_Mgf M_Ou M_Sabr M_Mc M_Fd M_VolPath.
Import ListNotations.
Open Scope R_scope.

(** ** Simpson *)
Lemma two_step (P : list R -> Prop) : P [] -> (forall a, P [a]) -> (forall a b, P [a; b]) -> (forall a b c r, P (c :: r) -> P (a :: b :: c :: r)) -> forall l, P l.
Proof.
  intros H0 H1 H2 H3. assert (G : forall n l, (length l <= n)%nat -> P l).
  { induction n as [|n IH]; intros l L; destruct l as [|a [|b [|c r]]]; cbn [length] in L; auto; try lia. apply H3, IH. cbn [length]. lia. }
  intros l. apply (G (length l)). lia.
Qed.
Lemma simp13_step a b c r : simp13 (a :: b :: c :: r) = (a + 4 * b + c) / 3 + simp13 (c :: r).
Proof. reflexivity. Qed.
Lemma simp13_lin a b (f g : R -> R) l : simp13 (map (fun x => a * f x + b * g x) l) = a * simp13 (map f l) + b * simp13 (map g l).
Proof.
  revert l. apply (two_step (fun l => simp13 (map (fun x => a * f x + b * g x) l) = a * simp13 (map f l) + b * simp13 (map g l))); [cbn; ring|intros; cbn; ring|intros; cbn; ring|].
  intros u v w r H. cbn [map] in H |- *. rewrite !simp13_step, H. field.
Qed.
Lemma simp13_pos l : List.Forall (fun x => 0 <= x) l -> 0 <= simp13 l.
Proof.
  revert l. apply (two_step (fun l => List.Forall (fun x => 0 <= x) l -> 0 <= simp13 l)); [cbn; lra|intros; cbn; lra|intros; cbn; lra|].
  intros a b c r H H0. rewrite simp13_step. inversion H0 as [|? ? Ha Hr]; subst. inversion Hr as [|? ? Hb Hr2]; subst. specialize (H Hr2). inversion Hr2; subst. lra.
Qed.
Lemma simp13_const c (l : list R) : Nat.odd (length l) = true -> simp13 (map (fun _ => c) l) = c * (INR (length l) - 1).
Proof.
  revert l. apply (two_step (fun l : list R => Nat.odd (length l) = true -> simp13 (map (fun _ => c) l) = c * (INR (length l) - 1))); [discriminate|intros; cbn; ring|discriminate|].
  intros u v w r H H0. cbn [map] in H |- *. rewrite simp13_step, H by exact H0. cbn [length]. rewrite !S_INR. field.
Qed.
Lemma map_removelast {A B} (f : A -> B) l : removelast (map f l) = map f (removelast l).
Proof. induction l as [|a [|b r] IH]; [reflexivity..|]. cbn [map removelast] in *. rewrite IH. reflexivity. Qed.
Lemma last_map (f : R -> R) l d : l <> [] -> last (map f l) d = f (last l d).
Proof. induction l as [|a [|b r] IH]; intros H; [easy|reflexivity|]. cbn [map last] in *. apply IH. discriminate. Qed.
Lemma removelast_ne (l : list R) : (2 <= length l)%nat -> removelast l <> [].
Proof. destruct l as [|a [|b r]]; cbn; try lia. discriminate. Qed.
Lemma tl_map {A B} (f : A -> B) l : tl (map f l) = map f (tl l).
Proof. now destruct l. Qed.
Lemma hd_map (f : R -> R) l d : l <> [] -> hd d (map f l) = f (hd d l).
Proof. destruct l; [easy|reflexivity]. Qed.
Lemma len_removelast (l : list R) : length (removelast l) = pred (length l).
Proof. induction l as [|a [|b r] IH]; [reflexivity..|]. cbn [removelast length pred] in *. rewrite IH. reflexivity. Qed.
Lemma tl_ne (l : list R) : (2 <= length l)%nat -> tl l <> [].
Proof. destruct l as [|a [|b r]]; cbn; try lia. discriminate. Qed.
Lemma ne_len (l : list R) : (2 <= length l)%nat -> l <> [].
Proof. destruct l; cbn; [lia|discriminate]. Qed.
Lemma simps_lin a b (f g : R -> R) l : l <> [] -> simps (map (fun x => a * f x + b * g x) l) = a * simps (map f l) + b * simps (map g l).
Proof.
  intros Hl. unfold simps. rewrite !map_length. destruct (Nat.even (length l)) eqn:E; [|apply simp13_lin].
  assert (L : (2 <= length l)%nat) by (destruct l as [|x [|y r]]; [easy|discriminate|cbn; lia]).
  pose proof (removelast_ne l L). pose proof (tl_ne l L).
  rewrite !map_removelast, !tl_map, !last_map, !hd_map by assumption. rewrite !simp13_lin. field.
Qed.
Lemma Forall_removelast (P : R -> Prop) l : List.Forall P l -> List.Forall P (removelast l).
Proof. induction l as [|a [|b r] IH]; intros H; [constructor..|]. cbn [removelast]. inversion H; subst. constructor; [assumption|]. apply IH. assumption. Qed.
Lemma Forall_last (P : R -> Prop) l : l <> [] -> List.Forall P l -> P (last l 0).
Proof. induction l as [|a [|b r] IH]; intros N H; [easy|inversion H; assumption|]. cbn [last]. apply IH; [discriminate|]. inversion H; assumption. Qed.
Lemma simps_pos l : l <> [] -> List.Forall (fun x => 0 <= x) l -> 0 <= simps l.
Proof.
  intros Hl H. unfold simps. destruct (Nat.even (length l)) eqn:E; [|apply simp13_pos; assumption].
  assert (L : (2 <= length l)%nat) by (destruct l as [|x [|y r]]; [easy|discriminate|cbn; lia]).
  assert (H1 : List.Forall (fun x => 0 <= x) (removelast l)) by (apply Forall_removelast; assumption).
  assert (H2 : List.Forall (fun x => 0 <= x) (tl l)) by (destruct l; [constructor|inversion H; assumption]).
  pose proof (simp13_pos _ H1). pose proof (simp13_pos _ H2).
  pose proof (Forall_last _ _ (removelast_ne l L) H1) as A1. pose proof (Forall_last _ _ Hl H) as A2. cbv beta in A1, A2.
  assert (0 <= hd 0 l /\ 0 <= hd 0 (tl l)) as [B1 B2].
  { destruct l as [|x [|y r]]; cbn in L; try lia. inversion H as [|? ? X Y]; subst. inversion Y; subst. cbn. split; assumption. }
  lra.
Qed.
Lemma simps_const c (l : list R) : l <> [] -> simps (map (fun _ => c) l) = c * (INR (length l) - 1).
Proof.
  intros Hl. unfold simps. rewrite map_length. destruct (Nat.even (length l)) eqn:E; [|apply simp13_const; rewrite <- Nat.negb_even, E; reflexivity].
  assert (L : (2 <= length l)%nat) by (destruct l as [|x [|y r]]; [easy|discriminate|cbn; lia]).
  pose proof (removelast_ne l L). pose proof (tl_ne l L).
  rewrite !map_removelast, !tl_map, !last_map, !hd_map by assumption.
  assert (T : length (tl l) = pred (length l)) by (destruct l; reflexivity).
  assert (O : Nat.odd (pred (length l)) = true) by (destruct l as [|x r]; [easy|]; cbn [length pred]; cbn [length] in E; rewrite Nat.even_succ in E; exact E).
  rewrite !simp13_const by (rewrite ?len_removelast, ?T; exact O). rewrite len_removelast, T.
  assert (I : INR (pred (length l)) = INR (length l) - 1) by (rewrite <- Nat.sub_1_r, minus_INR by lia; reflexivity).
  rewrite I. field.
Qed.
(** the average over n = length - 1 intervals: between the bounds, and Jensen *)
Lemma simps_bounds lo hi l : (2 <= length l)%nat -> List.Forall (fun x => lo <= x <= hi) l -> lo <= simps l / (INR (length l) - 1) <= hi.
Proof.
  intros L H. pose proof (ne_len l L) as Hl. assert (N : 0 < INR (length l) - 1) by (apply le_INR in L; simpl in L; lra).
  assert (A : 0 <= simps (map (fun x => x - lo) l)) by (apply simps_pos; [destruct l; [easy|discriminate]|]; rewrite Forall_map; eapply Forall_impl; [|exact H]; cbn; intros; lra).
  assert (B : 0 <= simps (map (fun x => hi - x) l)) by (apply simps_pos; [destruct l; [easy|discriminate]|]; rewrite Forall_map; eapply Forall_impl; [|exact H]; cbn; intros; lra).
  rewrite (map_ext (fun x => x - lo) (fun x => 1 * x + (- lo) * 1)) in A by (intros; ring).
  rewrite (map_ext (fun x => hi - x) (fun x => hi * 1 + (- 1) * x)) in B by (intros; ring).
  rewrite (simps_lin 1 (- lo) (fun x => x) (fun _ => 1)) in A by exact Hl. rewrite (simps_lin hi (- 1) (fun _ => 1) (fun x => x)) in B by exact Hl.
  rewrite simps_const, map_id in A, B by exact Hl.
  split; [apply Rle_div_r; [exact N|]|apply Rle_div_l; [exact N|]]; lra.
Qed.
Lemma simps_jensen l : (2 <= length l)%nat -> (simps l / (INR (length l) - 1)) ^ 2 <= simps (map (fun x => x ^ 2) l) / (INR (length l) - 1).
Proof.
  intros L. pose proof (ne_len l L) as Hl. assert (N : 0 < INR (length l) - 1) by (apply le_INR in L; simpl in L; lra).
  set (m := simps l / (INR (length l) - 1)).
  assert (A : 0 <= simps (map (fun x => (x - m) ^ 2) l)) by (apply simps_pos; [destruct l; [easy|discriminate]|]; rewrite Forall_map; apply Forall_forall; intros; apply pow2_ge_0).
  rewrite (map_ext (fun x => (x - m) ^ 2) (fun x => 1 * x ^ 2 + 1 * ((- 2 * m) * x + m ^ 2 * 1))) in A by (intros; ring).
  rewrite (simps_lin 1 1 (fun x => x ^ 2)) in A by exact Hl. rewrite (simps_lin (- 2 * m) (m ^ 2) (fun x => x) (fun _ => 1)) in A by exact Hl.
  rewrite simps_const, map_id in A by exact Hl.
  assert (E : simps l = m * (INR (length l) - 1)) by (unfold m; field; lra). rewrite E in A.
  apply (proj1 (Rle_div_r (m ^ 2) _ _ N)). nra.
Qed.
(** exact for cubics on an even number of equal intervals *)
Lemma simp13_cubic a b c d m s : let q := (fun x => a + b * x + c * x ^ 2 + d * x ^ 3) in let Q := (fun x => a * x + b * x ^ 2 / 2 + c * x ^ 3 / 3 + d * x ^ 4 / 4) in
  simp13 (map (fun i => q (INR i)) (seq s (S (2 * m)))) = Q (INR (s + 2 * m)) - Q (INR s).
Proof.
  intros q Q. revert s. induction m as [|m IH]; intros s.
  - cbn. rewrite Nat.add_0_r. ring.
  - replace (S (2 * S m)) with (S (S (S (2 * m)))) by lia. cbn [seq map]. specialize (IH (S (S s))). cbn [seq map] in IH. rewrite simp13_step, IH.
    replace (S (S s) + 2 * m)%nat with (s + 2 * S m)%nat by lia. rewrite !S_INR. unfold q, Q. field.
Qed.
