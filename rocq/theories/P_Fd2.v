(** Interpolation and put-call parity of the finite-difference engine (model in M_Fd.v). *)
From Coq Require Import Reals Lra Psatz List Arith Lia Bool.
From Verif Require Import Spec_Fd Spec_Opt M_Opt P_Bsm M_Mgf M_Fd P_Fd.
Open Scope R_scope.

(** ** Interpolation *)

Lemma searchsorted_le n g x : (searchsorted n g x <= n)%nat.
Proof. induction n; simpl; [lia|]. destruct (Rlt_dec (g n) x); lia. Qed.
Lemma searchsorted_spec n g x : increasing_to n g ->
  forall k, (k < n)%nat -> (g k < x <-> (k < searchsorted n g x)%nat).
Proof.
  induction n as [|n IH]; intros Hg k Hk; [lia|].
  assert (Hg' : increasing_to n g) by (intros a b Hab; apply Hg; lia).
  cbn [searchsorted]. pose proof (searchsorted_le n g x) as Hle.
  destruct (Rlt_dec (g n) x) as [Hn|Hn].
  - assert (Hall : searchsorted n g x = n).
    { destruct n as [|m]; [reflexivity|].
      assert (Hm : g m < x) by (pose proof (Hg m (S m) ltac:(lia)); lra).
      apply (IH Hg' m ltac:(lia)) in Hm. lia. }
    rewrite Hall. split; [lia|]. intros _.
    destruct (Nat.eq_dec k n) as [->|Hne]; [exact Hn|]. pose proof (Hg k n ltac:(lia)). lra.
  - rewrite Nat.add_0_r. destruct (Nat.eq_dec k n) as [->|Hne]; [split; intros; [lra|lia]|].
    apply IH; [exact Hg'|lia].
Qed.

Lemma cell_bounds n g x : (2 <= n)%nat -> (1 <= cell n g x <= n - 1)%nat.
Proof. intros. unfold cell. lia. Qed.

Lemma cell_bracket n g x : (2 <= n)%nat -> increasing_to n g -> g 0%nat <= x <= g (n - 1)%nat ->
  g (cell n g x - 1)%nat <= x <= g (cell n g x).
Proof.
  intros Hn Hg Hx. pose proof (searchsorted_spec n g x Hg) as Hs. pose proof (searchsorted_le n g x) as Hle.
  unfold cell. set (s := searchsorted n g x) in *.
  assert (Hsn : (s <= n - 1)%nat).
  { destruct (Nat.le_gt_cases s (n - 1)) as [H|H]; [exact H|].
    assert (g (n - 1)%nat < x) by (apply Hs; lia). lra. }
  rewrite Nat.min_l by exact Hsn.
  destruct (Nat.eq_dec s 0) as [E|E].
  - rewrite E. rewrite Nat.max_l by lia. assert (~ g 0%nat < x) by (intros H; apply Hs in H; lia).
    assert (x = g 0%nat) by lra. replace (1 - 1)%nat with 0%nat by lia.
    pose proof (Hg 0%nat 1%nat ltac:(lia)). lra.
  - rewrite Nat.max_r by lia. assert (g (s - 1)%nat < x) by (apply Hs; lia).
    assert (~ g s < x) by (intros H1; apply Hs in H1; lia). lra.
Qed.

Lemma clip_id x : 0 <= x <= 1 -> clip x 0 1 = x.
Proof. intros H. unfold clip. rewrite Rmax_left by lra. apply Rmin_left. lra. Qed.
Lemma clip_range x : 0 <= clip x 0 1 <= 1.
Proof.
  unfold clip. split; [apply Rmin_glb; [apply Rmax_r|lra]|apply Rmin_r].
Qed.

Lemma cell_w_mix n g x : (2 <= n)%nat -> increasing_to n g -> g 0%nat <= x <= g (n - 1)%nat ->
  (1 - cell_w n g x) * g (cell n g x - 1)%nat + cell_w n g x * g (cell n g x) = x.
Proof.
  intros Hn Hg Hx. pose proof (cell_bracket n g x Hn Hg Hx) as Hb. pose proof (cell_bounds n g x Hn) as Hc.
  unfold cell_w. set (i := cell n g x) in *.
  assert (Hlt : g (i - 1)%nat < g i) by (apply Hg; lia).
  rewrite clip_id.
  - field. lra.
  - split; [apply Rmult_le_pos; [lra|apply Rlt_le, Rinv_0_lt_compat; lra]|].
    apply (Rmult_le_reg_r (g i - g (i - 1)%nat)); [lra|]. unfold Rdiv. rewrite Rmult_assoc, Rinv_l by lra. lra.
Qed.

(** exact on bilinear functions *)
Lemma bilinear_exact V nS nv gS gv x y c0 c1 c2 c3 : (2 <= nS)%nat -> (2 <= nv)%nat ->
  increasing_to nS gS -> increasing_to nv gv ->
  gS 0%nat <= x <= gS (nS - 1)%nat -> gv 0%nat <= y <= gv (nv - 1)%nat ->
  (forall i j, (i < nS)%nat -> (j < nv)%nat -> V i j = c0 + c1 * gS i + c2 * gv j + c3 * gS i * gv j) ->
  bilinear V nS nv gS gv x y = c0 + c1 * x + c2 * y + c3 * x * y.
Proof.
  intros HnS Hnv HgS Hgv Hx Hy HV. unfold bilinear.
  pose proof (cell_bounds nS gS x HnS). pose proof (cell_bounds nv gv y Hnv).
  rewrite !HV by lia.
  pose proof (cell_w_mix nS gS x HnS HgS Hx) as EX. pose proof (cell_w_mix nv gv y Hnv Hgv Hy) as EY.
  set (u := cell_w nS gS x) in *. set (w := cell_w nv gv y) in *.
  set (a := gS (cell nS gS x - 1)%nat) in *. set (b := gS (cell nS gS x)) in *.
  set (c := gv (cell nv gv y - 1)%nat) in *. set (d := gv (cell nv gv y)) in *.
  rewrite <- EX, <- EY. ring.
Qed.

(** stays between any bounds of the four corners of the cell containing the point *)
Lemma bilinear_range V nS nv gS gv x y lo hi : (2 <= nS)%nat -> (2 <= nv)%nat ->
  (forall i j, (i < nS)%nat -> (j < nv)%nat -> lo <= V i j <= hi) ->
  lo <= bilinear V nS nv gS gv x y <= hi.
Proof.
  intros HnS Hnv HV. unfold bilinear.
  pose proof (cell_bounds nS gS x HnS). pose proof (cell_bounds nv gv y Hnv).
  pose proof (HV (cell nS gS x - 1)%nat (cell nv gv y - 1)%nat ltac:(lia) ltac:(lia)) as H1.
  pose proof (HV (cell nS gS x) (cell nv gv y - 1)%nat ltac:(lia) ltac:(lia)) as H2.
  pose proof (HV (cell nS gS x - 1)%nat (cell nv gv y) ltac:(lia) ltac:(lia)) as H3.
  pose proof (HV (cell nS gS x) (cell nv gv y) ltac:(lia) ltac:(lia)) as H4.
  assert (Hu : 0 <= cell_w nS gS x <= 1) by apply clip_range.
  assert (Hw : 0 <= cell_w nv gv y <= 1) by apply clip_range.
  set (u := cell_w nS gS x) in *. set (w := cell_w nv gv y) in *.
  assert (P1 : 0 <= (1 - u) * (1 - w)) by nra. assert (P2 : 0 <= u * (1 - w)) by nra.
  assert (P3 : 0 <= (1 - u) * w) by nra. assert (P4 : 0 <= u * w) by nra.
  assert (Hsum : (1 - u) * (1 - w) + u * (1 - w) + (1 - u) * w + u * w = 1) by ring.
  set (p1 := (1 - u) * (1 - w)) in *. set (p2 := u * (1 - w)) in *. set (p3 := (1 - u) * w) in *. set (p4 := u * w) in *.
  split; nra.
Qed.

(** at a grid point the weights select that point *)
Lemma cell_at n g a : (2 <= n)%nat -> increasing_to n g -> (a < n)%nat ->
  (cell_w n g (g a) = 1 /\ cell n g (g a) = a) \/ (cell_w n g (g a) = 0 /\ (cell n g (g a) - 1)%nat = a).
Proof.
  intros Hn Hg Ha. pose proof (searchsorted_spec n g (g a) Hg) as Hs. pose proof (searchsorted_le n g (g a)) as Hle.
  assert (Es : searchsorted n g (g a) = a).
  { set (s := searchsorted n g (g a)) in *.
    destruct (Nat.lt_trichotomy s a) as [H|[H|H]]; [|exact H|].
    - pose proof (Hg s a ltac:(lia)) as H1. apply Hs in H1; lia.
    - assert (H1 : g a < g a) by (apply Hs; lia). lra. }
  unfold cell_w, cell. rewrite Es.
  destruct a as [|a].
  - right. rewrite Nat.min_l by lia. replace (Nat.max 1 0 - 1)%nat with 0%nat by lia. split; [|lia].
    rewrite Rminus_diag_eq by reflexivity. unfold Rdiv. rewrite Rmult_0_l. apply clip_id. lra.
  - left. rewrite Nat.min_l by lia. rewrite Nat.max_r by lia. split; [|lia].
    pose proof (Hg (S a - 1)%nat (S a) ltac:(lia)). unfold Rdiv. rewrite Rinv_r by lra. apply clip_id. lra.
Qed.
Lemma bilinear_grid V nS nv gS gv a b : (2 <= nS)%nat -> (2 <= nv)%nat ->
  increasing_to nS gS -> increasing_to nv gv -> (a < nS)%nat -> (b < nv)%nat ->
  bilinear V nS nv gS gv (gS a) (gv b) = V a b.
Proof.
  intros HnS Hnv HgS Hgv Ha Hb. unfold bilinear.
  destruct (cell_at nS gS a HnS HgS Ha) as [[E1 E2]|[E1 E2]];
  destruct (cell_at nv gv b Hnv Hgv Hb) as [[F1 F2]|[F1 F2]]; rewrite E1, E2, F1, F2; ring.
Qed.

(** ** Parity *)
Section Parity.
Variables (M L : nat) (X : nat -> R) (kk h : R).
Hypothesis HM : (2 <= M)%nat.
Hypothesis HL : (2 <= L)%nat.
Hypothesis HX : forall i, X (S i) = X i + h.
Hypothesis HX0 : X 0%nat = 0.
Hypothesis HXM : kk <= X M.

Definition Dif (V W : nat -> nat -> R) : Prop := forall i j, (i <= M)%nat -> (j <= L)%nat -> V i j - W i j = X i - kk.

Lemma intrinsic_dif i : intrinsic kk X 1 i - intrinsic kk X (-1) i = X i - kk.
Proof.
  unfold intrinsic. destruct (Rlt_dec 0 1) as [_|n]; [|lra]. destruct (Rlt_dec 0 (-1)) as [n|_]; [lra|].
  unfold Rmax. destruct (Rle_dec (X i - kk) 0), (Rle_dec (kk - X i) 0); lra.
Qed.
Lemma payoff_dif x : Rmax (1 * (x - kk)) 0 - Rmax (-1 * (x - kk)) 0 = x - kk.
Proof. unfold Rmax. destruct (Rle_dec (1 * (x - kk)) 0), (Rle_dec (-1 * (x - kk)) 0); lra. Qed.
Lemma edge_dif V W i j : (i = 0%nat \/ i = M \/ V i j - W i j = X i - kk) ->
  edge_x M kk X 1 V i j - edge_x M kk X (-1) W i j = X i - kk.
Proof.
  intros H. unfold edge_x. destruct (Rlt_dec 0 1) as [_|n]; [|lra]. destruct (Rlt_dec 0 (-1)) as [n|_]; [lra|].
  destruct (Nat.eqb_spec i M) as [->|H1]; [rewrite Rmax_left; lra|].
  destruct (Nat.eqb_spec i 0) as [->|H2]; [lra|]. destruct H as [H|[H|H]]; [lia|lia|exact H].
Qed.

(** a pair (call, put) of boundary operators is compatible when it extends an interior difference X - kk *)
Definition bc_ok (bc : R -> (nat -> nat -> R) -> nat -> nat -> R) : Prop := forall V W,
  (forall i j, (0 < i < M)%nat -> (j < L)%nat -> V i j - W i j = X i - kk) -> Dif (bc 1 V) (bc (-1) W).

Lemma standard_bc_ok : bc_ok (standard_bc M L kk X).
Proof.
  intros V W H i j Hi Hj. unfold standard_bc, neumann.
  assert (G : forall j, (j < L)%nat ->
    (if Nat.eqb j 0 then intrinsic kk X 1 i else edge_x M kk X 1 V i j) -
    (if Nat.eqb j 0 then intrinsic kk X (-1) i else edge_x M kk X (-1) W i j) = X i - kk).
  { intros l Hl. destruct (Nat.eqb l 0); [apply intrinsic_dif|]. apply edge_dif.
    destruct (Nat.eq_dec i 0); [auto|]. destruct (Nat.eq_dec i M); [auto|]. right; right. apply H; lia. }
  destruct (Nat.eqb_spec j L); apply G; lia.
Qed.
Lemma heston_bc_ok : bc_ok (heston_bc M L kk X).
Proof.
  intros V W H i j Hi Hj. unfold heston_bc, neumann.
  assert (G : forall j, (j < L)%nat -> edge_x M kk X 1 V i j - edge_x M kk X (-1) W i j = X i - kk).
  { intros l Hl. apply edge_dif.
    destruct (Nat.eq_dec i 0); [auto|]. destruct (Nat.eq_dec i M); [auto|]. right; right. apply H; lia. }
  destruct (Nat.eqb_spec j L); apply G; lia.
Qed.

Lemma inner_spec n i : inner n i = true <-> (0 < i < n)%nat.
Proof. unfold inner. rewrite andb_true_iff, !Nat.ltb_lt. tauto. Qed.

Lemma F0_dif gam dX dv V W i j : Dif V W -> (i <= M)%nat -> (j <= L)%nat -> fd_F0 M L gam dX dv V i j = fd_F0 M L gam dX dv W i j.
Proof.
  intros HD Hi Hj. unfold fd_F0. destruct (andb (inner M i) (inner L j)) eqn:E; [|reflexivity].
  apply andb_true_iff in E. rewrite !inner_spec in E. f_equal. f_equal.
  pose proof (HD (i + 1) (j + 1) ltac:(lia) ltac:(lia))%nat. pose proof (HD (i + 1) (j - 1) ltac:(lia) ltac:(lia))%nat.
  pose proof (HD (i - 1) (j + 1) ltac:(lia) ltac:(lia))%nat. pose proof (HD (i - 1) (j - 1) ltac:(lia) ltac:(lia))%nat. lra.
Qed.
Lemma X_second i : (0 < i)%nat -> X (i + 1)%nat - 2 * X i + X (i - 1)%nat = 0.
Proof.
  intros H. replace (i + 1)%nat with (S i) by lia. rewrite HX.
  pose proof (HX (i - 1)) as E. replace (S (i - 1)) with i in E by lia. lra.
Qed.
Lemma F1_dif aS bS dX V W i j : Dif V W -> (forall i j, bS i j = 0) -> (i <= M)%nat -> (j <= L)%nat ->
  fd_F1 M aS bS dX V i j = fd_F1 M aS bS dX W i j.
Proof.
  intros HD Hb Hi Hj. unfold fd_F1. destruct (inner M i) eqn:E; [|reflexivity]. apply inner_spec in E.
  rewrite Hb. unfold Rdiv at 2 4. rewrite !Rmult_0_l, !Rplus_0_r. f_equal.
  pose proof (HD (i + 1)%nat j ltac:(lia) ltac:(lia)). pose proof (HD i j ltac:(lia) ltac:(lia)).
  pose proof (HD (i - 1)%nat j ltac:(lia) ltac:(lia)). pose proof (X_second i ltac:(lia)). lra.
Qed.
Lemma F2_dif aV bV dv V W i j : Dif V W -> (i <= M)%nat -> (j <= L)%nat ->
  fd_F2 L aV bV dv V i j = fd_F2 L aV bV dv W i j.
Proof.
  intros HD Hi Hj. unfold fd_F2. destruct (inner L j) eqn:E; [|reflexivity]. apply inner_spec in E.
  pose proof (HD i (j + 1)%nat ltac:(lia) ltac:(lia)). pose proof (HD i j ltac:(lia) ltac:(lia)).
  pose proof (HD i (j - 1)%nat ltac:(lia) ltac:(lia)). f_equal; f_equal; lra.
Qed.

Lemma solve_S_dif bc adt aS bS dX Rc Rp : bc_ok bc -> (forall i j, bS i j = 0) ->
  (forall j, (0 < j < L)%nat -> pivots_ok (M - 1) (tri_sub adt (fun i => aS i j / dX ^ 2) (fun i => bS i j / (2 * dX)))
     (tri_mid adt (fun i => aS i j / dX ^ 2)) (tri_sup adt (fun i => aS i j / dX ^ 2) (fun i => bS i j / (2 * dX)))) ->
  Dif Rc Rp -> Dif (solve_S (bc 1) M L adt aS bS dX Rc) (solve_S (bc (-1)) M L adt aS bS dX Rp).
Proof.
  intros Hbc Hb Hpiv HD. unfold solve_S.
  assert (HY : Dif (bc 1 Rc) (bc (-1) Rp)) by (apply Hbc; intros i j Hi Hj; apply HD; lia).
  set (Yc := bc 1 Rc) in *. set (Yp := bc (-1) Rp) in *.
  apply Hbc. intros i j Hi Hj.
  destruct (andb (inner M i) (inner L j)) eqn:E; [|apply HY; lia].
  apply andb_true_iff in E. rewrite !inner_spec in E. destruct E as [_ Ej].
  specialize (Hpiv j Ej).
  set (a := fun i => aS i j / dX ^ 2) in *. set (b := fun i => bS i j / (2 * dX)) in *.
  set (sub := tri_sub adt a b) in *. set (mid := tri_mid adt a) in *. set (sup := tri_sup adt a b) in *.
  assert (Hb0 : forall i, b i = 0) by (intros l; unfold b; rewrite Hb; unfold Rdiv; ring).
  set (rc := fun k => Rc (S k) j - (if Nat.eqb k 0 then sub 0%nat * Yc 0%nat j else 0) - (if Nat.eqb k (M - 2) then sup (M - 2)%nat * Yc M j else 0)).
  set (rp := fun k => Rp (S k) j - (if Nat.eqb k 0 then sub 0%nat * Yp 0%nat j else 0) - (if Nat.eqb k (M - 2) then sup (M - 2)%nat * Yp M j else 0)).
  pose proof (thomas_solves (M - 1) sub mid sup rp Hpiv) as Hp.
  set (xp := thomas (M - 1) sub mid sup rp) in *.
  assert (Hy : tridiag (M - 1) sub mid sup rc (fun k => xp k + (X (S k) - kk))).
  { intros k Hk. specialize (Hp k Hk).
    assert (Erc : rc k = rp k + (X (S k) - kk) - (if Nat.eqb k 0 then sub 0%nat * (X 0%nat - kk) else 0)
                   - (if Nat.eqb k (M - 2) then sup (M - 2)%nat * (X M - kk) else 0)).
    { unfold rc, rp. pose proof (HD (S k) j ltac:(lia) ltac:(lia)) as D1.
      pose proof (HY 0%nat j ltac:(lia) ltac:(lia)) as D2. pose proof (HY M j ltac:(lia) ltac:(lia)) as D3.
      replace (X 0%nat - kk) with (Yc 0%nat j - Yp 0%nat j) by lra.
      replace (X M - kk) with (Yc M j - Yp M j) by lra. replace (Rc (S k) j) with (Rp (S k) j + (X (S k) - kk)) by lra.
      destruct (Nat.eqb k 0), (Nat.eqb k (M - 2)); ring. }
    rewrite Erc, <- Hp. clear Erc Hp.
    replace (M - 1 - 1)%nat with (M - 2)%nat by lia.
    assert (Hrow : sub k * (X k - kk) + mid k * (X (S k) - kk) + sup k * (X (S (S k)) - kk) = X (S k) - kk).
    { unfold sub, mid, sup, tri_sub, tri_mid, tri_sup. rewrite Hb0, (HX (S k)), (HX k). ring. }
    destruct (Nat.eqb_spec k 0) as [E0|E0]; destruct (Nat.eqb_spec k (M - 2)) as [E1|E1].
    - rewrite E0 in *. replace (S 1) with M in Hrow by lia. rewrite <- E1. lra.
    - rewrite E0 in *. replace (0 + 1)%nat with 1%nat by lia. lra.
    - replace (S (k - 1)) with k by lia. rewrite <- E1. replace (S (S k)) with M in Hrow by lia. lra.
    - replace (S (k - 1)) with k by lia. replace (k + 1)%nat with (S k) by lia. lra. }
  pose proof (thomas_unique (M - 1) sub mid sup rc _ Hpiv Hy (i - 1)%nat ltac:(lia)) as Hu.
  cbv beta in Hu. replace (S (i - 1)) with i in Hu by lia.
  cbv zeta. fold a b. unfold a, b in Hu. fold sub mid sup. fold rc rp. fold xp. lra.
Qed.

Lemma solve_v_dif bc adt aV bV dv Rc Rp : bc_ok bc ->
  pivots_ok (L - 1) (tri_sub adt (fun j => aV j / dv ^ 2) (fun j => bV j / (2 * dv)))
     (v_mid L adt (fun j => aV j / dv ^ 2) (fun j => bV j / (2 * dv))) (tri_sup adt (fun j => aV j / dv ^ 2) (fun j => bV j / (2 * dv))) ->
  Dif Rc Rp -> Dif (solve_v (bc 1) L adt aV bV dv Rc) (solve_v (bc (-1)) L adt aV bV dv Rp).
Proof.
  intros Hbc Hpiv HD. unfold solve_v.
  assert (HY : Dif (bc 1 Rc) (bc (-1) Rp)) by (apply Hbc; intros i j Hi Hj; apply HD; lia).
  set (Yc := bc 1 Rc) in *. set (Yp := bc (-1) Rp) in *.
  set (c := fun j => aV j / dv ^ 2) in *. set (d := fun j => bV j / (2 * dv)) in *.
  apply Hbc. intros i j Hi Hj.
  destruct (inner L j) eqn:E.
  2:{ destruct (Nat.eqb_spec j L); [lia|]. apply HY; lia. }
  apply inner_spec in E.
  set (sub := tri_sub adt c d) in *. set (mid := v_mid L adt c d) in *. set (sup := tri_sup adt c d) in *.
  set (rc := fun k => Rc i (S k) - (if Nat.eqb k 0 then sub 0%nat * Yc i 0%nat else 0)).
  set (rp := fun k => Rp i (S k) - (if Nat.eqb k 0 then sub 0%nat * Yp i 0%nat else 0)).
  pose proof (thomas_solves (L - 1) sub mid sup rp Hpiv) as Hp.
  set (xp := thomas (L - 1) sub mid sup rp) in *.
  assert (Hy : tridiag (L - 1) sub mid sup rc (fun k => xp k + (X i - kk))).
  { intros k Hk. specialize (Hp k Hk).
    assert (Erc : rc k = rp k + (X i - kk) - (if Nat.eqb k 0 then sub 0%nat * (X i - kk) else 0)).
    { unfold rc, rp. pose proof (HD i (S k) ltac:(lia) ltac:(lia)) as D1. pose proof (HY i 0%nat ltac:(lia) ltac:(lia)) as D2.
      fold sub. replace (Rc i (S k)) with (Rp i (S k) + (X i - kk)) by lra.
      replace (sub 0%nat * (X i - kk)) with (sub 0%nat * (Yc i 0%nat - Yp i 0%nat)) by (rewrite D2; reflexivity).
      destruct (Nat.eqb k 0); ring. }
    rewrite Erc, <- Hp. clear Erc Hp. replace (L - 1 - 1)%nat with (L - 2)%nat by lia.
    assert (Hrow : sub k + mid k + (if Nat.eqb k (L - 2) then 0 else sup k) = 1).
    { unfold sub, mid, sup, v_mid, tri_sub, tri_mid, tri_sup. destruct (Nat.eqb k (L - 2)); ring. }
    set (Z := X i - kk) in *.
    assert (Hrow2 : sub k * Z + mid k * Z + (if Nat.eqb k (L - 2) then 0 else sup k * Z) = Z).
    { transitivity ((sub k + mid k + (if Nat.eqb k (L - 2) then 0 else sup k)) * Z); [destruct (Nat.eqb k (L - 2)); ring|].
      rewrite Hrow. ring. }
    destruct (Nat.eqb_spec k 0) as [E0|E0]; destruct (Nat.eqb_spec k (L - 2)) as [E1|E1]; try (rewrite E0 in * ); lra. }
  pose proof (thomas_unique (L - 1) sub mid sup rc _ Hpiv Hy (j - 1)%nat ltac:(lia)) as Hu.
  cbv beta in Hu. fold rc rp. fold xp. lra.
Qed.

Lemma fd_iter_dif n fc fp : (forall V W, Dif V W -> Dif (fc V) (fp W)) ->
  forall V W, Dif V W -> Dif (fd_iter n fc V) (fd_iter n fp W).
Proof. intros H. induction n as [|n IH]; intros V W HD; [exact HD|]. cbn [fd_iter]. apply IH, H, HD. Qed.
End Parity.
