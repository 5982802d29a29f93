(** Each time step of the finite-difference engine is a Douglas ADI step for the model's generator. *)
From Coq Require Import Reals Lra Lia Arith List Psatz.
From Coquelicot Require Import Coquelicot.
From Verif Require Import Base Spec_Opt Spec_Fd Spec_Fd2 M_Opt P_Bsm M_Mgf M_Fd P_Fd P_Fd2 P_Fd3.
Open Scope R_scope.

Lemma inner_t n i : (0 < i < n)%nat -> inner n i = true.
Proof. apply inner_spec. Qed.

Section Eqs.
Variables (M L : nat) (bc : (nat -> nat -> R) -> nat -> nat -> R).
Hypothesis HM : (2 <= M)%nat.
Hypothesis HL : (2 <= L)%nat.
Hypothesis Hin : forall W i j, (0 < i < M)%nat -> (0 < j < L)%nat -> bc W i j = W i j.
Hypothesis Hlo : forall W W' j, (0 < j < L)%nat -> bc W 0%nat j = bc W' 0%nat j.
Hypothesis Hhi : forall W W' j, (0 < j < L)%nat -> bc W M j = bc W' M j.
Hypothesis Hne : forall W i, (i <= M)%nat -> bc W i L = bc W i (L - 1)%nat.
Hypothesis Hz : forall W W' i, (0 < i < M)%nat -> W i 0%nat = W' i 0%nat -> bc W i 0%nat = bc W' i 0%nat.
Hypothesis Hidem : forall W i, (0 < i < M)%nat -> bc (bc W) i 0%nat = bc W i 0%nat.

Lemma solve_S_eq adt aS bS dX rhs i j : (0 < i < M)%nat -> (0 < j < L)%nat ->
  pivots_ok (M - 1) (tri_sub adt (fun i => aS i j / dX ^ 2) (fun i => bS i j / (2 * dX)))
     (tri_mid adt (fun i => aS i j / dX ^ 2)) (tri_sup adt (fun i => aS i j / dX ^ 2) (fun i => bS i j / (2 * dX))) ->
  let Y := solve_S bc M L adt aS bS dX rhs in
  Y i j - adt * (aS i j / dX ^ 2 * (Y (i + 1)%nat j - 2 * Y i j + Y (i - 1)%nat j) + bS i j / (2 * dX) * (Y (i + 1)%nat j - Y (i - 1)%nat j))
  = rhs i j.
Proof using HM HL Hin Hlo Hhi.
  intros Hi Hj Hpiv Y.
  set (a := fun i => aS i j / dX ^ 2) in *. set (b := fun i => bS i j / (2 * dX)) in *.
  set (sub := tri_sub adt a b) in *. set (mid := tri_mid adt a) in *. set (sup := tri_sup adt a b) in *.
  set (Y0 := bc rhs).
  set (rint := fun k => rhs (S k) j - (if Nat.eqb k 0 then sub 0%nat * Y0 0%nat j else 0) - (if Nat.eqb k (M - 2) then sup (M - 2)%nat * Y0 M j else 0)).
  pose proof (thomas_solves (M - 1) sub mid sup rint Hpiv) as Hp.
  set (x := thomas (M - 1) sub mid sup rint) in *.
  assert (EY : forall k, (0 < k < M)%nat -> Y k j = x (k - 1)%nat).
  { intros k Hk. unfold Y, solve_S. rewrite Hin by assumption. rewrite (inner_t M k Hk), (inner_t L j Hj). reflexivity. }
  assert (E0 : Y 0%nat j = Y0 0%nat j) by (apply Hlo; exact Hj).
  assert (EM : Y M j = Y0 M j) by (apply Hhi; exact Hj).
  specialize (Hp (i - 1)%nat ltac:(lia)).
  change (aS i j / dX ^ 2) with (a i). change (bS i j / (2 * dX)) with (b i).
  assert (Er : rint (i - 1)%nat = rhs i j - (if Nat.eqb (i - 1) 0 then sub (i - 1)%nat * Y (i - 1)%nat j else 0)
                 - (if Nat.eqb (i - 1) (M - 2) then sup (i - 1)%nat * Y (i + 1)%nat j else 0)).
  { unfold rint. replace (S (i - 1)) with i by lia.
    destruct (Nat.eqb_spec (i - 1) 0) as [F0|F0]; destruct (Nat.eqb_spec (i - 1) (M - 2)) as [F1|F1];
      try rewrite F0; try rewrite E0; try reflexivity.
    - replace (i + 1)%nat with M by lia. rewrite EM. replace (M - 2)%nat with 0%nat by lia. reflexivity.
    - replace (i + 1)%nat with M by lia. rewrite EM. rewrite F1. reflexivity. }
  rewrite Er in Hp. replace (M - 1 - 1)%nat with (M - 2)%nat in Hp by lia.
  rewrite <- (EY i Hi) in Hp.
  assert (Hrow : sub (i - 1)%nat * Y (i - 1)%nat j + mid (i - 1)%nat * Y i j + sup (i - 1)%nat * Y (i + 1)%nat j = rhs i j).
  { destruct (Nat.eqb_spec (i - 1) 0) as [F0|F0]; destruct (Nat.eqb_spec (i - 1) (M - 2)) as [F1|F1].
    - lra.
    - rewrite (EY (i + 1)%nat) by lia. replace (i + 1 - 1)%nat with (i - 1 + 1)%nat by lia. lra.
    - rewrite (EY (i - 1)%nat) by lia. lra.
    - rewrite (EY (i - 1)%nat), (EY (i + 1)%nat) by lia. replace (i + 1 - 1)%nat with (i - 1 + 1)%nat by lia. lra. }
  rewrite <- Hrow. unfold sub, mid, sup, tri_sub, tri_mid, tri_sup. replace (S (i - 1)) with i by lia. ring.
Qed.

Lemma solve_v_eq adt aV bV dv rhs i j : (0 < i < M)%nat -> (0 < j < L)%nat ->
  pivots_ok (L - 1) (tri_sub adt (fun j => aV j / dv ^ 2) (fun j => bV j / (2 * dv)))
     (v_mid L adt (fun j => aV j / dv ^ 2) (fun j => bV j / (2 * dv))) (tri_sup adt (fun j => aV j / dv ^ 2) (fun j => bV j / (2 * dv))) ->
  let Z := solve_v bc L adt aV bV dv rhs in
  Z i j - adt * (aV j / dv ^ 2 * (Z i (j + 1)%nat - 2 * Z i j + Z i (j - 1)%nat) + bV j / (2 * dv) * (Z i (j + 1)%nat - Z i (j - 1)%nat))
  = rhs i j.
Proof using HM HL Hin Hne Hz Hidem.
  intros Hi Hj Hpiv Z.
  set (c := fun j => aV j / dv ^ 2) in *. set (d := fun j => bV j / (2 * dv)) in *.
  set (sub := tri_sub adt c d) in *. set (mid := v_mid L adt c d) in *. set (sup := tri_sup adt c d) in *.
  set (Y0 := bc rhs).
  set (rint := fun k => rhs i (S k) - (if Nat.eqb k 0 then sub 0%nat * Y0 i 0%nat else 0)).
  pose proof (thomas_solves (L - 1) sub mid sup rint Hpiv) as Hp.
  set (x := thomas (L - 1) sub mid sup rint) in *.
  assert (EZ : forall k, (0 < k < L)%nat -> Z i k = x (k - 1)%nat).
  { intros k Hk. unfold Z, solve_v. rewrite Hin by assumption. rewrite (inner_t L k Hk). reflexivity. }
  assert (E0 : Z i 0%nat = Y0 i 0%nat).
  { unfold Z, solve_v, Y0. rewrite <- (Hidem rhs i Hi). apply Hz; [exact Hi|].
    destruct (inner L 0) eqn:E; [apply inner_spec in E; lia|]. destruct (Nat.eqb_spec 0 L); [lia|]. reflexivity. }
  assert (EL : Z i L = Z i (L - 1)%nat) by (apply Hne; lia).
  specialize (Hp (j - 1)%nat ltac:(lia)).
  change (aV j / dv ^ 2) with (c j). change (bV j / (2 * dv)) with (d j).
  replace (L - 1 - 1)%nat with (L - 2)%nat in Hp by lia.
  rewrite <- (EZ j Hj) in Hp. unfold rint in Hp. replace (S (j - 1)) with j in Hp by lia.
  assert (Hrow : sub (j - 1)%nat * Z i (j - 1)%nat + tri_mid adt c (j - 1) * Z i j + sup (j - 1)%nat * Z i (j + 1)%nat = rhs i j).
  { unfold mid, v_mid in Hp. fold sup in Hp.
    destruct (Nat.eqb_spec (j - 1) (L - 2)) as [F1|F1].
    - replace (j + 1)%nat with L by lia. rewrite EL. replace (L - 1)%nat with j by lia.
      destruct (Nat.eqb_spec (j - 1) 0) as [F0|F0].
      + rewrite F0 in *. rewrite E0. lra.
      + rewrite (EZ (j - 1)%nat) by lia. lra.
    - rewrite (EZ (j + 1)%nat) by lia. replace (j + 1 - 1)%nat with (j - 1 + 1)%nat by lia.
      destruct (Nat.eqb_spec (j - 1) 0) as [F0|F0].
      + rewrite F0 in *. rewrite E0. lra.
      + rewrite (EZ (j - 1)%nat) by lia. lra. }
  rewrite <- Hrow. unfold sub, sup, tri_sub, tri_mid, tri_sup. replace (S (j - 1)) with j by lia. ring.
Qed.
End Eqs.

(** boundary operators *)
Section Bc.
Variables (M L : nat) (kk cp : R) (X : nat -> R).
Hypothesis HM : (2 <= M)%nat.
Hypothesis HL : (2 <= L)%nat.
Ltac eqbs := repeat match goal with |- context[Nat.eqb ?a ?b] => destruct (Nat.eqb_spec a b); try lia end; try reflexivity; try congruence.
Lemma sbc_in W i j : (0 < i < M)%nat -> (0 < j < L)%nat -> standard_bc M L kk X cp W i j = W i j.
Proof. intros. unfold standard_bc, neumann, edge_x. eqbs. Qed.
Lemma sbc_lo W j : (0 < j <= L)%nat -> standard_bc M L kk X cp W 0%nat j = (if Rlt_dec 0 cp then 0 else kk).
Proof using HM HL. intros. unfold standard_bc, neumann, edge_x. eqbs. Qed.
Lemma sbc_hi W j : (0 < j <= L)%nat -> standard_bc M L kk X cp W M j = (if Rlt_dec 0 cp then Rmax (X M - kk) 0 else 0).
Proof using HM HL. intros. unfold standard_bc, neumann, edge_x. eqbs. Qed.
Lemma sbc_ne W i : standard_bc M L kk X cp W i L = standard_bc M L kk X cp W i (L - 1)%nat.
Proof using HM HL. unfold standard_bc, neumann, edge_x. eqbs. Qed.
Lemma sbc_0 W i : standard_bc M L kk X cp W i 0%nat = intrinsic kk X cp i.
Proof using HM HL. unfold standard_bc, neumann, edge_x. eqbs. Qed.
Lemma hbc_in W i j : (0 < i < M)%nat -> (j < L)%nat -> heston_bc M L kk X cp W i j = W i j.
Proof. intros. unfold heston_bc, neumann, edge_x. eqbs. Qed.
Lemma hbc_lo W j : (j <= L)%nat -> heston_bc M L kk X cp W 0%nat j = (if Rlt_dec 0 cp then 0 else kk).
Proof using HM HL. intros. unfold heston_bc, neumann, edge_x. eqbs. Qed.
Lemma hbc_hi W j : (j <= L)%nat -> heston_bc M L kk X cp W M j = (if Rlt_dec 0 cp then Rmax (X M - kk) 0 else 0).
Proof using HM HL. intros. unfold heston_bc, neumann, edge_x. eqbs. Qed.
Lemma hbc_ne W i : heston_bc M L kk X cp W i L = heston_bc M L kk X cp W i (L - 1)%nat.
Proof using HM HL. unfold heston_bc, neumann, edge_x. eqbs. Qed.
Lemma intrinsic_payoff i : cp = 1 \/ cp = -1 -> intrinsic kk X cp i = payoff cp kk (X i).
Proof. intros [->| ->]; unfold intrinsic, payoff; destruct (Rlt_dec 0 _); try lra; f_equal; ring. Qed.
Lemma edges_sabr W : cp = 1 \/ cp = -1 -> edges_payoff M L X kk cp (standard_bc M L kk X cp W).
Proof using HM HL.
  intros Hcp. split; [split|].
  - intros j Hj. split; [apply sbc_lo, Hj|apply sbc_hi, Hj].
  - intros i _. apply sbc_ne.
  - intros i _. rewrite sbc_0. apply intrinsic_payoff, Hcp.
Qed.
Lemma edges_heston W : edges_column M L X kk cp (fun i => W i 0%nat) (heston_bc M L kk X cp W).
Proof using HM HL.
  split; [split|].
  - intros j Hj. split; [apply hbc_lo; lia|apply hbc_hi; lia].
  - intros i _. apply hbc_ne.
  - intros i Hi. apply hbc_in; lia.
Qed.
End Bc.

(** the spec's difference operators against the engine's *)
Lemma part_x_eq m hx X v (u : grid) i j a b : hx <> 0 -> a = / 2 * var_x m (X i) (v j) -> b = 0 ->
  part_x m hx X v u i j = a / hx ^ 2 * (u (i + 1)%nat j - 2 * u i j + u (i - 1)%nat j) + b / (2 * hx) * (u (i + 1)%nat j - u (i - 1)%nat j).
Proof. intros H -> ->. unfold part_x, diff2. field. exact H. Qed.
Lemma part_v_eq m hv v (u : grid) i j c d : hv <> 0 -> c = / 2 * var_v m (v j) -> d = drift_v m (v j) ->
  part_v m hv v u i j = c / hv ^ 2 * (u i (j + 1)%nat - 2 * u i j + u i (j - 1)%nat) + d / (2 * hv) * (u i (j + 1)%nat - u i (j - 1)%nat).
Proof. intros H -> ->. unfold part_v, diff2, diff1. field. exact H. Qed.
Lemma part_xv_eq m hx hv X v (u : grid) i j g : hx <> 0 -> hv <> 0 -> g = cov_xv m (X i) (v j) ->
  part_xv m hx hv X v u i j = g * (u (i + 1)%nat (j + 1)%nat - u (i + 1)%nat (j - 1)%nat - u (i - 1)%nat (j + 1)%nat + u (i - 1)%nat (j - 1)%nat) / (4 * hx * hv).
Proof. intros H1 H2 ->. unfold part_xv, diff1. field. auto. Qed.

Section Step.
Variables (m : fdm) (sm : sv_model) (M L : nat) (theta kk cp dX dv dt : R) (X v : nat -> R).
Hypothesis HM : (2 <= M)%nat.
Hypothesis HL : (2 <= L)%nat.
Hypothesis HdX : dX <> 0.
Hypothesis Hdv : dv <> 0.
Hypothesis Ha : forall x y, f_aS m x y = / 2 * var_x sm x y.
Hypothesis Hb : forall x y, f_bS m x y = 0.
Hypothesis Hc : forall y, f_aV m y = / 2 * var_v sm y.
Hypothesis Hd : forall y, f_bV m y = drift_v sm y.
Hypothesis Hg : forall x y, f_gam m x y = cov_xv sm x y.
Hypothesis HpS : forall j, (0 < j < L)%nat ->
  pivots_ok (M - 1) (tri_sub (theta * dt) (fun i => f_aS m (X i) (v j) / dX ^ 2) (fun i => f_bS m (X i) (v j) / (2 * dX)))
     (tri_mid (theta * dt) (fun i => f_aS m (X i) (v j) / dX ^ 2))
     (tri_sup (theta * dt) (fun i => f_aS m (X i) (v j) / dX ^ 2) (fun i => f_bS m (X i) (v j) / (2 * dX))).
Hypothesis Hpv : pivots_ok (L - 1) (tri_sub (theta * dt) (fun j => f_aV m (v j) / dv ^ 2) (fun j => f_bV m (v j) / (2 * dv)))
     (v_mid L (theta * dt) (fun j => f_aV m (v j) / dv ^ 2) (fun j => f_bV m (v j) / (2 * dv)))
     (tri_sup (theta * dt) (fun j => f_aV m (v j) / dv ^ 2) (fun j => f_bV m (v j) / (2 * dv))).
Let bc := f_bc m M L kk X cp.
Hypothesis Hin : forall W i j, (0 < i < M)%nat -> (0 < j < L)%nat -> bc W i j = W i j.
Hypothesis Hlo : forall W W' j, (0 < j < L)%nat -> bc W 0%nat j = bc W' 0%nat j.
Hypothesis Hhi : forall W W' j, (0 < j < L)%nat -> bc W M j = bc W' M j.
Hypothesis Hne : forall W i, (i <= M)%nat -> bc W i L = bc W i (L - 1)%nat.
Hypothesis Hz : forall W W' i, (0 < i < M)%nat -> W i 0%nat = W' i 0%nat -> bc W i 0%nat = bc W' i 0%nat.
Hypothesis Hidem : forall W i, (0 < i < M)%nat -> bc (bc W) i 0%nat = bc W i 0%nat.
Variable (bd : grid -> Prop) (V : grid).
(** stage grids before the last application of the boundary operator *)
Let V' : grid := V.
Let F0V := fd_F0 M L (fun i j => f_gam m (X i) (v j)) dX dv V'.
Let F1V := fd_F1 M (fun i j => f_aS m (X i) (v j)) (fun i j => f_bS m (X i) (v j)) dX V'.
Let F2V := fd_F2 L (fun j => f_aV m (v j)) (fun j => f_bV m (v j)) dv V'.
Let Y0 := bc (fun i j => V i j + dt * (F0V i j + F1V i j + F2V i j)).
Let Y1 := solve_S bc M L (theta * dt) (fun i j => f_aS m (X i) (v j)) (fun i j => f_bS m (X i) (v j)) dX (fun i j => Y0 i j - theta * dt * F1V i j).
Let Z := solve_v bc L (theta * dt) (fun j => f_aV m (v j)) (fun j => f_bV m (v j)) dv (fun i j => Y1 i j - theta * dt * F2V i j).
Lemma step_is : fd_step m M L theta kk cp dX dv dt X v V = Z.
Proof. reflexivity. Qed.
Lemma F1_part i j : (0 < i < M)%nat -> F1V i j = part_x sm dX X v V i j.
Proof using Ha Hb HdX.
  intros Hi. unfold F1V, fd_F1. rewrite (inner_t M i Hi). symmetry. apply part_x_eq; [exact HdX|apply Ha|apply Hb].
Qed.
Lemma F2_part i j : (0 < j < L)%nat -> F2V i j = part_v sm dv v V i j.
Proof using Hc Hd Hdv.
  intros Hi. unfold F2V, fd_F2. rewrite (inner_t L j Hi). symmetry. apply part_v_eq; [exact Hdv|apply Hc|apply Hd].
Qed.
Lemma F0_part i j : (0 < i < M)%nat -> (0 < j < L)%nat -> F0V i j = part_xv sm dX dv X v V i j.
Proof using Hg HdX Hdv.
  intros Hi Hj. unfold F0V, fd_F0. rewrite (inner_t M i Hi), (inner_t L j Hj). symmetry. apply part_xv_eq; [exact HdX|exact Hdv|apply Hg].
Qed.
Lemma step_douglas : bd Y1 -> bd Z -> douglas sm dX dv X v M L theta dt bd V Z.
Proof using Ha Hb Hc Hd Hdv HdX Hg Hhi Hidem Hin HL Hlo HM Hne HpS Hpv Hz.
  intros B1 B2. exists Y1. split; [|split; [|split; assumption]].
  - intros i j [Hi Hj].
    pose proof (solve_S_eq M L bc HM HL Hin Hlo Hhi (theta * dt) (fun i j => f_aS m (X i) (v j)) (fun i j => f_bS m (X i) (v j)) dX
       (fun i j => Y0 i j - theta * dt * F1V i j) i j Hi Hj (HpS j Hj)) as E. cbv beta zeta in E. fold Y1 in E.
    rewrite (part_x_eq sm dX X v Y1 i j _ _ HdX (Ha (X i) (v j)) (Hb (X i) (v j))), E.
    unfold Y0. rewrite (Hin _ i j Hi Hj), (F1_part i j Hi), (F2_part i j Hj), (F0_part i j Hi Hj). ring.
  - intros i j [Hi Hj].
    pose proof (solve_v_eq M L bc HM HL Hin Hne Hz Hidem (theta * dt) (fun j => f_aV m (v j)) (fun j => f_bV m (v j)) dv
       (fun i j => Y1 i j - theta * dt * F2V i j) i j Hi Hj Hpv) as E. cbv beta zeta in E. fold Z in E.
    rewrite (part_v_eq sm dv v Z i j _ _ Hdv (Hc (v j)) (Hd (v j))), E. rewrite (F2_part i j Hj). reflexivity.
Qed.
End Step.
