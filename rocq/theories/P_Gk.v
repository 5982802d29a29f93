(** Glasserman-Kim: distribution of the Z draws over the paths. *)
From Coq Require Import Reals Lra Lia List Permutation.
From Verif Require Import Sums M_Heston.
Import ListNotations.
Open Scope R_scope.

Fixpoint zip_app (a b : list (list R)) : list (list R) :=
  match a, b with x :: a', y :: b' => (x ++ y) :: zip_app a' b' | _, _ => [] end.
Lemma zip_app_concat a b : length a = length b -> Permutation (concat (zip_app a b)) (concat a ++ concat b).
Proof.
  revert b. induction a as [|x a IH]; intros [|y b] H; cbn in H; try lia; [constructor|].
  cbn. rewrite IH by lia. rewrite <- !app_assoc. apply Permutation_app_head.
  rewrite !app_assoc. apply Permutation_app_tail. apply Permutation_app_comm.
Qed.
(** pointwise relation between eta, old value, new value and assigned draws *)
Inductive served (want : nat -> nat) : list nat -> list R -> list R -> list (list R) -> Prop :=
| served_nil : served want [] [] [] []
| served_cons e a o d eta avg out asg : length d = want e -> o = a + lsum d -> served want eta avg out asg ->
    served want (e :: eta) (a :: avg) (o :: out) (d :: asg).
Definition total (want : nat -> nat) (eta : list nat) : nat := list_sum (map want eta).

Lemma gk_round_served i eta avg zz : length avg = length eta ->
  (total (fun e => if Nat.ltb i e then 1 else 0) eta <= length zz)%nat ->
  exists out asg rest, gk_round i eta avg zz = Some (out, rest) /\ zz = concat asg ++ rest /\
    served (fun e => if Nat.ltb i e then 1 else 0)%nat eta avg out asg.
Proof.
  revert avg zz. induction eta as [|e eta IH]; intros [|a avg] zz Hl Hz; cbn in Hl; try lia.
  - exists [], [], zz. cbn. repeat split. constructor.
  - unfold total in *. cbn [map list_sum fold_right] in Hz. cbn [gk_round]. destruct (Nat.ltb i e) eqn:Hi.
    + destruct zz as [|z zz]; [cbn in Hz; lia|].
      destruct (IH avg zz ltac:(lia)) as (out & asg & rest & E & Z & S). { cbn [length] in Hz. unfold list_sum. lia. }
      rewrite E. exists ((a + z) :: out), ([z] :: asg), rest. split; [reflexivity|]. split; [cbn; now rewrite Z|].
      constructor; [now rewrite Hi|unfold lsum; cbn; ring|exact S].
    + destruct (IH avg zz ltac:(lia)) as (out & asg & rest & E & Z & S). { unfold list_sum. lia. }
      rewrite E. exists (a :: out), ([] :: asg), rest. split; [reflexivity|]. split; [exact Z|].
      constructor; [now rewrite Hi|unfold lsum; cbn; ring|exact S].
Qed.
Lemma served_length w eta avg out asg : served w eta avg out asg ->
  length avg = length eta /\ length out = length eta /\ length asg = length eta /\ length (concat asg) = total w eta.
Proof.
  induction 1 as [|e a o d eta avg out asg Hd Ho S (A & B & C & D)]; [cbn; auto|].
  unfold total in *. cbn [length map concat list_sum fold_right] in *. rewrite app_length, D, Hd. unfold list_sum. auto.
Qed.
Lemma served_trans w1 w2 eta avg mid out d1 d2 :
  served w1 eta avg mid d1 -> served w2 eta mid out d2 ->
  served (fun e => w1 e + w2 e)%nat eta avg out (zip_app d1 d2).
Proof.
  intros H. revert out d2. induction H as [|e a o d eta avg mid asg Hd Ho S IH]; intros out d2 H2; inversion H2; subst; cbn [zip_app]; constructor.
  - rewrite app_length. congruence.
  - rewrite lsum_app. ring.
  - now apply IH.
Qed.
Lemma served_want w w' eta avg out asg : (forall e, In e eta -> w e = w' e) -> served w eta avg out asg -> served w' eta avg out asg.
Proof.
  intros E H. induction H; constructor; auto. { rewrite <- E by (left; reflexivity). assumption. }
  apply IHserved. intros. apply E. now right.
Qed.
Lemma total_plus w1 w2 eta : total (fun e => w1 e + w2 e)%nat eta = (total w1 eta + total w2 eta)%nat.
Proof. unfold total. induction eta; cbn; [reflexivity|]. unfold list_sum in IHeta. rewrite IHeta. lia. Qed.
Lemma total_ext w w' eta : (forall e, In e eta -> w e = w' e) -> total w eta = total w' eta.
Proof. intros H. unfold total. f_equal. now apply map_ext_in. Qed.

(** draws still owed when rounds i .. i+n-1 remain *)
Definition owed (i n e : nat) : nat := Nat.min n (e - i).
Lemma owed_S i n e : owed i (S n) e = ((if Nat.ltb i e then 1 else 0) + owed (S i) n e)%nat.
Proof. unfold owed. destruct (Nat.ltb_spec i e); lia. Qed.

Lemma gk_rounds_served n i eta avg zz : length avg = length eta -> (total (owed i n) eta <= length zz)%nat ->
  exists out asg rest, gk_rounds n i eta avg zz = Some (out, rest) /\ Permutation zz (concat asg ++ rest) /\ served (owed i n) eta avg out asg.
Proof.
  revert i avg zz. induction n as [|n IH]; intros i avg zz Hl Hz.
  - exists avg, (map (fun _ => []) eta), zz. split; [reflexivity|]. split.
    + replace (concat (map (fun _ => []) eta)) with (@nil R); [reflexivity|]. clear Hl Hz. induction eta; cbn; auto.
    + clear Hz. revert avg Hl. induction eta as [|e eta IHe]; intros [|a avg] Hl; cbn in Hl; try lia; constructor.
      * reflexivity. * unfold lsum; cbn. ring. * apply IHe. lia.
  - cbn [gk_rounds].
    assert (T : total (owed i (S n)) eta = (total (fun e => if Nat.ltb i e then 1 else 0) eta + total (owed (S i) n) eta)%nat).
    { rewrite <- total_plus. apply total_ext. intros. apply owed_S. }
    destruct (gk_round_served i eta avg zz Hl) as (mid & d1 & rest1 & E1 & Z1 & S1); [lia|]. rewrite E1.
    destruct (served_length _ _ _ _ _ S1) as (_ & L1 & L2 & L3).
    destruct (IH (S i) mid rest1 L1) as (out & d2 & rest & E2 & Z2 & S2).
    { apply (f_equal (@length R)) in Z1. rewrite app_length in Z1. lia. }
    destruct (served_length _ _ _ _ _ S2) as (_ & _ & L4 & _).
    exists out, (zip_app d1 d2), rest. split; [exact E2|]. split.
    + rewrite Z1. rewrite zip_app_concat by lia. rewrite Z2, <- app_assoc. reflexivity.
    + apply (served_want (fun e => (if Nat.ltb i e then 1 else 0) + owed (S i) n e)%nat). { intros. symmetry. apply owed_S. }
      eapply served_trans; eassumption.
Qed.

Lemma list_max_ge l e : In e l -> (e <= list_max l)%nat.
Proof. intros H. pose proof (proj1 (list_max_le l (list_max l)) (Nat.le_refl _)) as F. rewrite Forall_forall in F. now apply F. Qed.

Lemma served_nth w eta avg out asg : served w eta avg out asg -> forall p, (p < length eta)%nat ->
  length (nth p asg []) = w (nth p eta 0%nat) /\ nth p out 0 = nth p avg 0 + lsum (nth p asg []).
Proof.
  induction 1 as [|e a o d eta avg out asg Hd Ho S IH]; intros p Hp; cbn in Hp; [lia|]. destruct p; [cbn; auto|]. cbn [nth]. apply IH. lia.
Qed.

Lemma gk_loop_correct eta avg zz : length avg = length eta -> length zz = list_sum eta ->
  exists out asg, gk_loop eta avg zz = Some (out, []) /\ length out = length eta /\ length asg = length eta /\
   Permutation (concat asg) zz /\
   forall p, (p < length eta)%nat -> length (nth p asg []) = nth p eta 0%nat /\ nth p out 0 = nth p avg 0 + lsum (nth p asg []).
Proof.
  intros Hl Hz. unfold gk_loop.
  assert (W : forall e, In e eta -> owed 0 (list_max eta) e = e). { intros e He. unfold owed. pose proof (list_max_ge _ _ He). lia. }
  assert (T : total (owed 0 (list_max eta)) eta = list_sum eta).
  { rewrite (total_ext _ (fun e => e)) by exact W. unfold total. now rewrite map_id. }
  destruct (gk_rounds_served (list_max eta) 0 eta avg zz Hl) as (out & asg & rest & E & P & S); [lia|].
  destruct (served_length _ _ _ _ _ S) as (_ & L1 & L2 & L3).
  assert (R0 : rest = []). { apply Permutation_length in P. rewrite app_length in P. destruct rest; [reflexivity|cbn in P; lia]. }
  subst rest. rewrite app_nil_r in P. exists out, asg. repeat split; auto; try now symmetry.
  - destruct (served_nth _ _ _ _ _ S p H) as [A _]. rewrite A. apply W. apply nth_In. exact H.
  - now destruct (served_nth _ _ _ _ _ S p H).
Qed.
(** total conservation *)
Lemma gk_loop_sum eta avg zz : length avg = length eta -> length zz = list_sum eta ->
  exists out, gk_loop eta avg zz = Some (out, []) /\ lsum out = lsum avg + lsum zz.
Proof.
  intros Hl Hz. unfold gk_loop.
  assert (W : forall e, In e eta -> owed 0 (list_max eta) e = e). { intros e He. unfold owed. pose proof (list_max_ge _ _ He). lia. }
  assert (T : total (owed 0 (list_max eta)) eta = list_sum eta).
  { rewrite (total_ext _ (fun e => e)) by exact W. unfold total. now rewrite map_id. }
  destruct (gk_rounds_served (list_max eta) 0 eta avg zz Hl) as (out & asg & rest & E & P & S); [lia|].
  destruct (served_length _ _ _ _ _ S) as (_ & L1 & L2 & L3).
  assert (R0 : rest = []). { apply Permutation_length in P. rewrite app_length in P. destruct rest; [reflexivity|cbn in P; lia]. }
  subst rest. rewrite app_nil_r in P. exists out. split; [exact E|]. rewrite (lsum_perm _ _ P).
  clear - S. clear - S. induction S as [|e a o d eta' avg' out' asg' Hd Ho S IH]; [unfold lsum; cbn; ring|].
  cbn [concat]. rewrite lsum_app. subst o. change (lsum (a :: avg')) with (a + lsum avg').
  change (lsum ((a + lsum d) :: out')) with ((a + lsum d) + lsum out'). rewrite IH. ring.
Qed.
