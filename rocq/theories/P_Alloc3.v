(** Projection on the capped simplex and the SCA line search. *)
From Coq Require Import Reals Lra Lia Psatz List Arith.
From Coquelicot Require Import Coquelicot.
From Verif Require Import Base Sums M_Params Spec_Alloc M_Alloc P_Alloc P_Alloc2.
Import ListNotations.
Open Scope R_scope.

Lemma clip_box u x : 0 <= u -> 0 <= clip u x <= u.
Proof. intros H. unfold clip, Rmin, Rmax. repeat destruct Rle_dec; lra. Qed.
Lemma clip_mono u x y : x <= y -> clip u x <= clip u y.
Proof. intros H. unfold clip, Rmin, Rmax. repeat destruct Rle_dec; lra. Qed.
Lemma clip_lip u x y : x <= y -> clip u y - clip u x <= y - x.
Proof. intros H. unfold clip, Rmin, Rmax. repeat destruct Rle_dec; lra. Qed.
Lemma clip_kkt u x y : 0 <= u -> 0 <= y <= u -> 0 <= (clip u x - x) * (y - clip u x).
Proof. intros Hu Hy. unfold clip, Rmin, Rmax. repeat destruct Rle_dec; nra. Qed.

Definition ptot (v : list R) (u tau : R) : R := lsum (clip_at v u tau).
Lemma ptot_cons x v u t : ptot (x :: v) u t = clip u (x - t) + ptot v u t.
Proof. reflexivity. Qed.
Lemma ptot_mono v u s t : s <= t -> ptot v u t <= ptot v u s.
Proof. intros H. induction v as [|x v IH]; [right; reflexivity|]. rewrite !ptot_cons. pose proof (clip_mono u (x - t) (x - s) ltac:(lra)). lra. Qed.
Lemma ptot_lip v u s t : s <= t -> ptot v u s - ptot v u t <= INR (length v) * (t - s).
Proof.
  intros H. induction v as [|x v IH]; [cbn; lra|]. rewrite !ptot_cons. pose proof (clip_lip u (x - t) (x - s) ltac:(lra)).
  change (length (x :: v)) with (S (length v)). rewrite S_INR. lra.
Qed.
Lemma ptot_lip_abs v u s t : Rabs (ptot v u s - ptot v u t) <= INR (length v) * Rabs (s - t).
Proof.
  destruct (Rle_dec s t) as [H|H].
  - rewrite Rabs_right, Rabs_left1 by (try lra; pose proof (ptot_mono v u s t H); lra). pose proof (ptot_lip v u s t H). lra.
  - assert (H' : t <= s) by lra. rewrite Rabs_left1, (Rabs_right (s - t)) by (try lra; pose proof (ptot_mono v u t s H'); lra). pose proof (ptot_lip v u t s H'). lra.
Qed.
Lemma ptot_l1 v u s t : lsum (map (fun p => Rabs (fst p - snd p)) (combine (clip_at v u s) (clip_at v u t))) = Rabs (ptot v u s - ptot v u t).
Proof.
  assert (A : forall s t, s <= t -> lsum (map (fun p => Rabs (fst p - snd p)) (combine (clip_at v u s) (clip_at v u t))) = ptot v u s - ptot v u t /\
     lsum (map (fun p => Rabs (fst p - snd p)) (combine (clip_at v u t) (clip_at v u s))) = ptot v u s - ptot v u t).
  { clear s t. intros s t H. induction v as [|x v [I1 I2]]; [cbn; split; unfold ptot; cbn; ring|].
    rewrite !ptot_cons. cbn [clip_at map combine fst snd lsum]. fold (clip_at v u s) (clip_at v u t).
    change (lsum (Rabs (clip u (x - s) - clip u (x - t)) :: ?l)) with (Rabs (clip u (x - s) - clip u (x - t)) + lsum l).
    pose proof (clip_mono u (x - t) (x - s) ltac:(lra)). cbn [lsum fold_right]. split.
    - etransitivity; [apply (f_equal2 Rplus); [apply Rabs_right; lra|exact I1]|]. ring.
    - etransitivity; [apply (f_equal2 Rplus); [apply Rabs_left1; lra|exact I2]|]. ring. }
  destruct (Rle_dec s t) as [H|H].
  - rewrite (proj1 (A s t H)). rewrite Rabs_right; [reflexivity|]. pose proof (ptot_mono v u s t H). lra.
  - assert (H' : t <= s) by lra. rewrite (proj2 (A t s H')). rewrite Rabs_left1; [ring|]. pose proof (ptot_mono v u t s H'). lra.
Qed.
Lemma clip_at_length v u t : length (clip_at v u t) = length v.
Proof. apply map_length. Qed.
Lemma clip_at_box v u t : 0 <= u -> forall x, In x (clip_at v u t) -> 0 <= x <= u.
Proof. intros H x Hx. apply in_map_iff in Hx as (y & <- & _). now apply clip_box. Qed.
Lemma clip_at_kkt v u t : 0 <= u -> forall y, length y = length v -> (forall x, In x y -> 0 <= x <= u) ->
  sqdist v (clip_at v u t) + sqdist (clip_at v u t) y + 2 * t * (ptot v u t - lsum y) <= sqdist v y.
Proof.
  intros Hu. induction v as [|x v IH]; intros [|y l] HL Hy; try discriminate; [unfold ptot; cbn; lra|].
  rewrite ptot_cons. cbn [clip_at map sqdist]. fold (clip_at v u t). change (lsum (y :: l)) with (y + lsum l).
  specialize (IH l ltac:(now injection HL) ltac:(intros; apply Hy; now right)).
  pose proof (clip_kkt u (x - t) y Hu ltac:(apply Hy; now left)). set (c := clip u (x - t)) in *. nra.
Qed.
Lemma lmin_le v x : In x v -> lmin v <= x.
Proof.
  destruct v as [|a v]; [easy|]. cbn [lmin]. assert (A : fold_right Rmin a v <= a /\ forall y, In y v -> fold_right Rmin a v <= y).
  { induction v as [|b v [I1 I2]]; cbn; [split; [lra|easy]|]. split; [eapply Rle_trans; [apply Rmin_r|exact I1]|]. intros y [->|H]; [apply Rmin_l|]. eapply Rle_trans; [apply Rmin_r|now apply I2]. }
  destruct A as [A1 A2]. intros [->|H]; [exact A1|exact (A2 _ H)].
Qed.
Lemma lmax_ge v x : In x v -> x <= lmax v.
Proof.
  destruct v as [|a v]; [easy|]. cbn [lmax]. assert (A : a <= fold_right Rmax a v /\ forall y, In y v -> y <= fold_right Rmax a v).
  { induction v as [|b v [I1 I2]]; cbn; [split; [lra|easy]|]. split; [eapply Rle_trans; [exact I1|apply Rmax_r]|]. intros y [->|H]; [apply Rmax_l|]. eapply Rle_trans; [now apply I2|apply Rmax_r]. }
  destruct A as [A1 A2]. intros [->|H]; [exact A1|exact (A2 _ H)].
Qed.
Lemma ptot_low v u m : 0 <= u -> (forall x, In x v -> m <= x) -> ptot v u (m - u) = INR (length v) * u.
Proof.
  intros Hu H. induction v as [|x v IH]; [unfold ptot; cbn; ring|]. rewrite ptot_cons, IH by (intros; apply H; now right).
  replace (clip u (x - (m - u))) with u; [change (length (x :: v)) with (S (length v)); rewrite S_INR; ring|].
  pose proof (H x ltac:(now left)). unfold clip, Rmin, Rmax. repeat destruct Rle_dec; lra.
Qed.
Lemma ptot_high v u m : 0 <= u -> (forall x, In x v -> x <= m) -> ptot v u m = 0.
Proof.
  intros Hu H. induction v as [|x v IH]; [unfold ptot; cbn; ring|]. rewrite ptot_cons, IH by (intros; apply H; now right).
  replace (clip u (x - m)) with 0; [ring|]. pose proof (H x ltac:(now left)). unfold clip, Rmin, Rmax. repeat destruct Rle_dec; lra.
Qed.
(** exact multiplier *)
Lemma ptot_root v u lo hi : lo <= hi -> 1 <= ptot v u lo -> ptot v u hi <= 1 -> exists t, lo <= t <= hi /\ ptot v u t = 1.
Proof.
  intros H A B. destruct (Req_dec (ptot v u lo) 1) as [E|E]; [exists lo; split; [lra|exact E]|]. destruct (Req_dec (ptot v u hi) 1) as [F|F]; [exists hi; split; [lra|exact F]|].
  assert (lo <> hi) by (intros ->; lra).
  assert (C : continuity (fun t => 1 - ptot v u t)).
  { intros x. apply continuity_pt_minus; [apply continuity_pt_const; now intros ? ?|]. apply continuity_pt_filterlim. apply filterlim_locally. intros eps.
    assert (P : 0 < INR (length v) + 1) by (pose proof (pos_INR (length v)); lra).
    exists (mkposreal (eps / (INR (length v) + 1)) ltac:(apply Rdiv_lt_0_compat; [apply cond_pos|exact P])). intros y Hy.
    change (Rabs (ptot v u y - ptot v u x) < eps). change (Rabs (y - x) < eps / (INR (length v) + 1)) in Hy. eapply Rle_lt_trans; [apply ptot_lip_abs|].
    apply Rmult_lt_compat_l with (r := INR (length v) + 1) in Hy; [|exact P]. replace ((INR (length v) + 1) * (eps / (INR (length v) + 1))) with (pos eps) in Hy by (field; lra).
    pose proof (Rabs_pos (y - x)). nra. }
  destruct (IVT (fun t => 1 - ptot v u t) lo hi C ltac:(lra) ltac:(lra) ltac:(lra)) as (t & Ht & Et). exists t. split; [lra|lra].
Qed.

Lemma proj_loop_form v u : forall fuel lo hi, exists t, proj_loop fuel v u lo hi = clip_at v u t.
Proof.
  induction fuel as [|f IH]; intros lo hi; cbn [proj_loop]; [eexists; reflexivity|]. cbv zeta.
  destruct Rlt_dec; [eexists; reflexivity|]. destruct Rlt_dec; apply IH.
Qed.
Lemma proj_loop_total v u : forall fuel lo hi, lo <= hi -> 1 - / 10 ^ 12 <= ptot v u lo -> ptot v u hi <= 1 ->
  Rabs (lsum (proj_loop fuel v u lo hi) - 1) <= / 10 ^ 12 + INR (length v) * ((hi - lo) / 2 ^ (S fuel)).
Proof.
  assert (T : 0 < / 10 ^ 12) by (apply Rinv_0_lt_compat, pow_lt; lra).
  induction fuel as [|f IH]; intros lo hi H A B; cbn [proj_loop].
  - fold (ptot v u (/ 2 * (lo + hi))). pose proof (ptot_lip v u lo (/ 2 * (lo + hi)) ltac:(lra)). pose proof (ptot_lip v u (/ 2 * (lo + hi)) hi ltac:(lra)).
    replace (/ 2 * (lo + hi) - lo) with ((hi - lo) / 2 ^ 1) in * by field. replace (hi - / 2 * (lo + hi)) with ((hi - lo) / 2 ^ 1) in * by field. 
    apply Rabs_le. lra.
  - cbv zeta. fold (ptot v u (/ 2 * (lo + hi))). set (tau := / 2 * (lo + hi)) in *.
    assert (W : 0 <= INR (length v) * ((hi - lo) / 2 ^ S (S f))).
    { apply Rmult_le_pos; [apply pos_INR|]. apply Rmult_le_pos; [lra|]. left. apply Rinv_0_lt_compat, pow_lt. lra. }
    assert (E : (hi - lo) / 2 ^ S (S f) = ((hi - lo) / 2) / 2 ^ S f) by (change (2 ^ S (S f)) with (2 * 2 ^ S f); field; apply pow_nonzero; lra).
    destruct (Rlt_dec (Rabs (ptot v u tau - 1)) (/ 10 ^ 12)) as [L|L]; [fold (ptot v u tau); lra|].
    destruct (Rlt_dec 1 (ptot v u tau)) as [G|G].
    + specialize (IH tau hi ltac:(unfold tau; lra) ltac:(lra) B). replace (hi - tau) with ((hi - lo) / 2) in IH by (unfold tau; field). rewrite E. exact IH.
    + specialize (IH lo tau ltac:(unfold tau; lra) A ltac:(lra)). replace (tau - lo) with ((hi - lo) / 2) in IH by (unfold tau; field). rewrite E. exact IH.
Qed.

Lemma Some_inj {A} (x y : A) : Some x = Some y -> x = y.
Proof. intros H. now inversion H. Qed.
Definition proj_err (v : list R) (u : R) : R := / 10 ^ 12 + INR (length v) * ((lmax v - lmin v + u) / 2 ^ 101).
Lemma proj_some v u w : project_simplex_box v u = Some w -> 0 < u /\ 1 - / 10 ^ 12 <= u * INR (length v) /\ w = proj_loop 100 v u (lmin v - u) (lmax v).
Proof.
  unfold project_simplex_box. generalize (proj_loop 100 v u (lmin v - u) (lmax v)). intros w0.
  destruct Rle_dec; [discriminate|]. destruct Rlt_dec; [discriminate|]. intros H. apply Some_inj in H. split; [lra|split; [lra|now symmetry]].
Qed.
Lemma proj_nonempty (v : list R) u : 1 - / 10 ^ 12 <= u * INR (length v) -> v <> [].
Proof. intros H ->. cbn in H. assert (/ 10 ^ 12 < 1). { rewrite <- Rinv_1. apply Rinv_lt_contravar; [rewrite Rmult_1_l; apply pow_lt; lra|]. apply Rlt_pow_R1; [lra|lia]. } cbn in H0. lra. Qed.
Lemma lmin_lmax v : v <> [] -> lmin v <= lmax v.
Proof. destruct v as [|x v]; [easy|]. intros _. apply Rle_trans with x; [apply lmin_le; now left|apply lmax_ge; now left]. Qed.
Lemma proj_box v u w : project_simplex_box v u = Some w -> length w = length v /\ (forall x, In x w -> 0 <= x <= u) /\ Rabs (lsum w - 1) <= proj_err v u.
Proof.
  intros H. destruct (proj_some v u w H) as (Hu & Hn & ->). split; [|split].
  - destruct (proj_loop_form v u 100 (lmin v - u) (lmax v)) as [t ->]. apply clip_at_length.
  - destruct (proj_loop_form v u 100 (lmin v - u) (lmax v)) as [t ->]. apply clip_at_box. lra.
  - unfold proj_err. replace (lmax v - lmin v + u) with (lmax v - (lmin v - u)) by ring. pose proof (lmin_lmax v (proj_nonempty v u Hn)). apply proj_loop_total; [lra| |].
    + rewrite ptot_low by (try lra; intros; now apply lmin_le). lra.
    + rewrite ptot_high by (try lra; intros; now apply lmax_ge). lra.
Qed.
(** w is the closest point to v of the box with the same total *)
Lemma proj_closest v u w y : project_simplex_box v u = Some w -> length y = length v -> (forall x, In x y -> 0 <= x <= u) -> lsum y = lsum w ->
  sqdist v w + sqdist w y <= sqdist v y.
Proof.
  intros H HL Hy HS. destruct (proj_some v u w H) as (Hu & Hn & ->). destruct (proj_loop_form v u 100 (lmin v - u) (lmax v)) as [t E]. rewrite E in *.
  pose proof (clip_at_kkt v u t ltac:(lra) y HL Hy) as K. unfold ptot in K. rewrite HS in K. lra.
Qed.
Lemma proj_near v u w : project_simplex_box v u = Some w -> 1 <= u * INR (length v) ->
  exists p, length p = length v /\ (forall x, In x p -> 0 <= x <= u) /\ lsum p = 1 /\
    (forall y, length y = length v -> (forall x, In x y -> 0 <= x <= u) -> lsum y = 1 -> sqdist v p + sqdist p y <= sqdist v y) /\
    lsum (map (fun q => Rabs (fst q - snd q)) (combine w p)) <= proj_err v u.
Proof.
  intros H H1. pose proof (proj_box v u w H) as (_ & _ & HT). destruct (proj_some v u w H) as (Hu & Hn & E).
  destruct (proj_loop_form v u 100 (lmin v - u) (lmax v)) as [t Et]. pose proof (lmin_lmax v (proj_nonempty v u Hn)).
  destruct (ptot_root v u (lmin v - u) (lmax v)) as (s & _ & Hs); [lra|rewrite ptot_low by (try lra; intros; now apply lmin_le); lra|rewrite ptot_high by (try lra; intros; now apply lmax_ge); lra|].
  exists (clip_at v u s). split; [apply clip_at_length|]. split; [apply clip_at_box; lra|]. split; [exact Hs|]. split.
  - intros y HL Hy HS. pose proof (clip_at_kkt v u s ltac:(lra) y HL Hy) as K. rewrite Hs, HS in K. lra.
  - rewrite E, Et, ptot_l1. rewrite Hs. rewrite E, Et in HT. exact HT.
Qed.
Lemma proj_none v u : project_simplex_box v u = None <-> u <= 0 \/ u * INR (length v) < 1 - / 10 ^ 12.
Proof. unfold project_simplex_box. generalize (proj_loop 100 v u (lmin v - u) (lmax v)). intros w0. destruct Rle_dec; [split; auto|]. destruct Rlt_dec; [split; auto|]. split; [discriminate|lra]. Qed.
(** a vector already in the box with total one is left (almost) unchanged *)
Lemma sqdist_nonneg a b : 0 <= sqdist a b.
Proof. revert b. induction a as [|x a IH]; intros [|y b]; cbn [sqdist]; try lra. pose proof (IH b); pose proof (pow2_ge_0 (x - y)). lra. Qed.
Lemma sqdist_refl a : sqdist a a = 0.
Proof. induction a as [|x a IH]; cbn [sqdist]; [reflexivity|]. rewrite IH. ring. Qed.
