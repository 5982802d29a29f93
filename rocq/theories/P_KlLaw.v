(** First two moments of the simulated (average volatility, average variance): independent of the truncation. *)
From Coq Require Import Reals Lra Lia Arith ZArith.
From Coquelicot Require Import Coquelicot.
From Verif Require Import Base Gauss Sums M_Opt M_Mgf M_Heston M_Ou Spec_Expect P_Expect P_Gmom P_Cir P_Ou P_Kl P_Fejer P_KlSum.
Open Scope R_scope.

Lemma normals_ext n : forall F G v, (forall z, F z = G z) -> normals_expect n F v -> normals_expect n G v.
Proof.
  induction n as [|n IH]; intros F G v E H; cbn in *.
  - intros z. rewrite <- E. apply H.
  - destruct H as (h & H1 & H2). exists h. split; [|exact H2]. intros z. eapply gauss_expect_ext; [|apply H1]. intros y. apply E.
Qed.
Definition qf (n : nat) (a b : nat -> R) (z : nat -> R) : R := rsum n (fun i => a i * z i + b i * (z i ^ 2 - 1)).
Lemma qf_upd n a b z y : qf n a b (upd z n y) = qf n a b z.
Proof. apply rsum_ext. intros i Hi. unfold upd. replace (Nat.eqb i n) with false; [reflexivity|]. symmetry. apply Nat.eqb_neq. lia. Qed.
Lemma upd_eq z n y : upd z n y n = y.
Proof. unfold upd. now rewrite Nat.eqb_refl. Qed.
Lemma qf_mean n a b (k : R) : normals_expect n (fun z => k + qf n a b z) k.
Proof.
  induction n as [|n IH]; [intros z; unfold qf; simpl; ring|].
  exists (fun z => k + qf n a b z). split; [|exact IH]. intros z.
  apply (gauss_expect_ext (fun y => (k + qf n a b z - b n) + a n * y + b n * y ^ 2 + 0 * y ^ 3 + 0 * y ^ 4)).
  { intros y. assert (E : qf (S n) a b (upd z n y) = qf n a b (upd z n y) + (a n * upd z n y n + b n * (upd z n y n ^ 2 - 1))) by reflexivity.
    rewrite E, qf_upd, upd_eq. ring. }
  pose proof (gauss_poly4 (k + qf n a b z - b n) (a n) (b n) 0 0) as G.
  replace (k + qf n a b z - b n + b n + 3 * 0) with (k + qf n a b z) in G by ring. exact G.
Qed.
Lemma qf_cov n a b a' b' (k l d : R) :
  normals_expect n (fun z => (k + qf n a b z) * (l + qf n a' b' z) + d) (k * l + rsum n (fun i => a i * a' i + 2 * (b i * b' i)) + d).
Proof.
  revert d. induction n as [|n IH]; intros d; [intros z; unfold qf; simpl; ring|].
  exists (fun z => (k + qf n a b z) * (l + qf n a' b' z) + (d + (a n * a' n + 2 * (b n * b' n)))). split.
  - intros z. set (X := k + qf n a b z). set (Y := l + qf n a' b' z).
    apply (gauss_expect_ext (fun y => ((X - b n) * (Y - b' n) + d) + ((X - b n) * a' n + (Y - b' n) * a n) * y
       + ((X - b n) * b' n + (Y - b' n) * b n + a n * a' n) * y ^ 2 + (a n * b' n + a' n * b n) * y ^ 3 + b n * b' n * y ^ 4)).
    { intros y. assert (E : forall a b, qf (S n) a b (upd z n y) = qf n a b (upd z n y) + (a n * upd z n y n + b n * (upd z n y n ^ 2 - 1))) by reflexivity.
      rewrite !E, !qf_upd, !upd_eq. unfold X, Y. ring. }
    match goal with |- gauss_expect (fun y => ?c0 + ?c1 * y + ?c2 * y ^ 2 + ?c3 * y ^ 3 + ?c4 * y ^ 4) _ => pose proof (gauss_poly4 c0 c1 c2 c3 c4) as G end.
    match type of G with gauss_expect _ ?v => replace (X * Y + (d + (a n * a' n + 2 * (b n * b' n)))) with v by ring end. exact G.
  - replace (k * l + rsum (S n) (fun i => a i * a' i + 2 * (b i * b' i)) + d)
      with (k * l + rsum n (fun i => a i * a' i + 2 * (b i * b' i)) + (d + (a n * a' n + 2 * (b n * b' n)))) by (cbn [rsum]; ring). apply IH.
Qed.

(** non-negative series *)
Lemma series_ge (a : nat -> R) l n : (forall i, 0 <= a i) -> is_series a l -> rsum n a <= l.
Proof.
  intros Ha H. apply series_rsum in H. apply (is_lim_seq_incr_n _ n) in H.
  apply (is_lim_seq_le (fun _ => rsum n a) (fun k => rsum (k + n) a) (rsum n a) l); [|apply is_lim_seq_const|exact H].
  intros k. rewrite Nat.add_comm, rsum_split. pose proof (rsum_nonneg k (fun i => a (n + i)%nat) (fun i _ => Ha (n + i)%nat)). lra.
Qed.
Lemma series_nonneg (a : nat -> R) l : (forall i, 0 <= a i) -> is_series a l -> 0 <= l.
Proof. intros Ha H. pose proof (series_ge a l 0 Ha H). simpl in *. lra. Qed.
Lemma series_cs (a b c : nat -> R) A B C : (forall i, 0 <= a i) -> (forall i, 0 <= b i) -> (forall i, c i ^ 2 = a i * b i) ->
  is_series a A -> is_series b B -> is_series c C -> 0 < A -> C ^ 2 <= A * B.
Proof.
  intros Ha Hb Hc HA HB HC HAp. set (u := C / A).
  assert (H : 0 <= u ^ 2 * A - 2 * u * C + B).
  { apply (series_nonneg (fun i => u ^ 2 * a i - 2 * u * c i + b i)).
    - intros i. specialize (Ha i). specialize (Hb i). specialize (Hc i).
      destruct (Rle_lt_or_eq_dec 0 (a i) Ha) as [Hp|H0].
      + apply (Rmult_le_reg_l (a i)); [exact Hp|]. replace (a i * (u ^ 2 * a i - 2 * u * c i + b i)) with ((u * a i - c i) ^ 2 - c i ^ 2 + a i * b i) by ring.
        rewrite Hc. pose proof (pow2_ge_0 (u * a i - c i)). lra.
      + rewrite <- H0 in *. assert (c i = 0). { apply Rsqr_0_uniq. unfold Rsqr. nra. } rewrite H. nra.
    - apply (is_series_plus (V := R_NormedModule)); [|exact HB]. apply series_minus; apply series_scal; assumption. }
  unfold u in H. replace ((C / A) ^ 2 * A - 2 * (C / A) * C + B) with (B - C ^ 2 / A) in H by (field; lra).
  apply (Rmult_le_compat_l A) in H; [|lra]. replace (A * (B - C ^ 2 / A)) with (A * B - C ^ 2) in H by (field; lra). lra.
Qed.
Section Pos.
Variables (x : R) (ns : nat). Hypothesis Hx : 0 < x.
Let q_pos n : 0 < x ^ 2 + npi n ^ 2.
Proof. pose proof (pow2_ge_0 (npi n)). pose proof (pow_lt x 2 Hx). lra. Qed.
Lemma t2n_pos n : (0 < n)%nat -> 0 < kl_t2n x n.
Proof. intros H. pose proof (npi_pos n H). unfold kl_t2n. apply Rdiv_lt_0_compat; [|apply q_pos]. apply Rdiv_lt_0_compat; [lra|]. now apply pow_lt. Qed.
Lemma t4_pos n : 0 < kl_t4 x n.
Proof. unfold kl_t4. apply Rdiv_lt_0_compat; [lra|]. apply pow_lt, q_pos. Qed.
Lemma t6n_pos n : (0 < n)%nat -> 0 < kl_t6n x n.
Proof. intros H. pose proof (npi_pos n H). unfold kl_t6n. apply Rdiv_lt_0_compat; [|apply pow_lt, q_pos]. pose proof (pow_lt (npi n) 2 H0). lra. Qed.
Lemma tail_terms term s : (forall n, (0 < n)%nat -> 0 < term x n) -> forall i, 0 <= (if sel s (S (ns + i)) then term x (S (ns + i)) else 0).
Proof. intros Ht i. destruct (sel s (S (ns + i))); [left; apply Ht; lia|lra]. Qed.
Lemma tail_pos term s v : s <> Evens -> (forall n, (0 < n)%nat -> 0 < term x n) -> is_tail term x ns s v -> 0 < v.
Proof.
  intros Hs Ht H. unfold is_tail in H. eapply Rlt_le_trans; [|apply (series_ge _ _ 2 (tail_terms term s Ht) H)].
  cbn [rsum]. rewrite Nat.add_0_r, Nat.add_1_r.
  pose proof (Ht (S ns) ltac:(lia)). pose proof (Ht (S (S ns)) ltac:(lia)).
  destruct s; cbn [sel]; [lra| |congruence].
  rewrite (Nat.odd_succ (S ns)), <- Nat.negb_odd. destruct (Nat.odd (S ns)); cbn [negb]; lra.
Qed.
Lemma tail_nonneg term s v : (forall n, (0 < n)%nat -> 0 < term x n) -> is_tail term x ns s v -> 0 <= v.
Proof. intros Ht H. apply (series_nonneg _ _ (tail_terms term s Ht) H). Qed.
Lemma corr_cs : a4sum x ns Odds ^ 2 <= a2overn2sum x ns Odds * a6n2sum x ns Odds.
Proof.
  assert (P : 0 < a2overn2sum x ns Odds) by (apply (tail_pos kl_t2n Odds); [discriminate|apply t2n_pos|apply a2overn2sum_tail; exact Hx]).
  refine (series_cs _ _ _ _ _ _ _ _ _ (a2overn2sum_tail x ns Odds Hx) (a6n2sum_tail x ns Odds Hx) (a4sum_tail x ns Odds Hx) P).
  - intros i. destruct (sel Odds (S (ns + i))); [left; apply t2n_pos; lia|lra].
  - intros i. destruct (sel Odds (S (ns + i))); [left; apply t6n_pos; lia|lra].
  - intros i. destruct (sel Odds (S (ns + i))); [|ring]. unfold kl_t2n, kl_t4, kl_t6n. pose proof (npi_pos (S (ns + i)) ltac:(lia)). pose proof (q_pos (S (ns + i))).
    field. split; lra.
Qed.
End Pos.

Section Law.
Variables (sig xi rho k th T v0 z0 : R) (ns : nat).
Hypothesis (Hk : 0 < k) (HT : 0 < T).
Let p := mkSv sig xi rho k th.
Let x := k * T.
Let c := xi * sqrt T.
Let vt := ou_vol_step p false T v0 z0.
Let Hx : 0 < x := Rmult_lt_0_compat _ _ Hk HT.
(** normals 0..ns-1 drive the sine terms, ns..ns+3 the tail variables G, P, Q, R *)
Definition kl_random (z : nat -> R) : R * R * R :=
  let '(g, pp, q, r) := kl_tail_vars x ns (z ns) (z (ns + 1)%nat) (z (ns + 2)%nat) (z (ns + 3)%nat) in
  kl_states p false T v0 z0 ns z g pp q r.
Let U z := snd (kl_random z). Let V z := snd (fst (kl_random z)).
Let g_std := sqrt (a2overn2sum x ns Odds). Let p_std := sqrt (a6n2sum x ns Odds). Let q_std := sqrt (a6n2sum x ns Evens).
Let r_std := sqrt (a4sum x ns All).
Let corr := a4sum x ns Odds / (g_std * p_std).
Let g2 : g_std ^ 2 = a2overn2sum x ns Odds /\ 0 < g_std.
Proof.
  assert (P : 0 < a2overn2sum x ns Odds) by (apply (tail_pos x ns kl_t2n Odds); [discriminate|apply t2n_pos, Hx|apply a2overn2sum_tail, Hx]).
  split; [apply pow2_sqrt; lra|now apply sqrt_lt_R0].
Qed.
Let p2 : p_std ^ 2 = a6n2sum x ns Odds /\ 0 < p_std.
Proof.
  assert (P : 0 < a6n2sum x ns Odds) by (apply (tail_pos x ns kl_t6n Odds); [discriminate|apply t6n_pos, Hx|apply a6n2sum_tail, Hx]).
  split; [apply pow2_sqrt; lra|now apply sqrt_lt_R0].
Qed.
Let q2 : q_std ^ 2 = a6n2sum x ns Evens.
Proof. apply pow2_sqrt. apply (tail_nonneg x ns kl_t6n Evens); [apply t6n_pos, Hx|apply a6n2sum_tail, Hx]. Qed.
Let r2 : r_std ^ 2 = a4sum x ns All.
Proof. apply pow2_sqrt. apply (tail_nonneg x ns kl_t4 All); [intros; apply t4_pos, Hx|apply a4sum_tail, Hx]. Qed.
Let corr2 : corr ^ 2 <= 1.
Proof.
  destruct g2 as [G GP], p2 as [P PP]. pose proof (corr_cs x ns Hx) as CSq. unfold corr.
  replace ((a4sum x ns Odds / (g_std * p_std)) ^ 2) with (a4sum x ns Odds ^ 2 / (g_std ^ 2 * p_std ^ 2)) by (field; lra).
  rewrite G, P. pose proof (pow_lt _ 2 GP) as Q1. pose proof (pow_lt _ 2 PP) as Q2. rewrite G in Q1. rewrite P in Q2.
  assert (0 < a2overn2sum x ns Odds * a6n2sum x ns Odds) by now apply Rmult_lt_0_compat.
  apply (Rmult_le_reg_r (a2overn2sum x ns Odds * a6n2sum x ns Odds)); [assumption|]. unfold Rdiv. rewrite Rmult_assoc, Rinv_l by lra. lra.
Qed.
Lemma clip_inactive : clip1 corr = corr.
Proof.
  pose proof corr2. unfold clip1. assert (-1 <= corr <= 1) by (split; nra). rewrite Rmax_left by lra. apply Rmin_left. lra.
Qed.
Let cp := sqrt (1 - corr ^ 2).
Let cp2 : cp ^ 2 = 1 - corr ^ 2.
Proof. apply pow2_sqrt. pose proof corr2. lra. Qed.
(* coefficient sequences *)
Let o (i : nat) (a b : R) : R := if Nat.odd (S i) then a else b.
Definition ext4 (a : nat -> R) (wg wp wq wr : R) (i : nat) : R :=
  if (i <? ns)%nat then a i else if (i =? ns)%nat then wg else if (i =? ns + 1)%nat then wp else if (i =? ns + 2)%nat then wq else wr.
Let aU := ext4 (fun i => 2 * c * o i (kl_an x (S i) / npi (S i)) 0) (2 * c * (cp * g_std)) (2 * c * (corr * g_std)) 0 0.
Let aV := ext4 (fun i => c * o i (v0 + vt) (v0 - vt) * (kl_t2 x (S i) * kl_an x (S i) * npi (S i))) 0 (c * (v0 + vt) * p_std) (c * (v0 - vt) * q_std) 0.
Let bV := ext4 (fun i => / 2 * c ^ 2 * kl_t2 x (S i)) 0 0 0 (/ 2 * c ^ 2 * r_std).
Lemma rsum_ext4 (f : R -> R -> R -> R) a a' b' wg wg' wg'' wp wp' wp'' wq wq' wq'' wr wr' wr'' :
  rsum (ns + 4) (fun i => f (ext4 a wg wp wq wr i) (ext4 a' wg' wp' wq' wr' i) (ext4 b' wg'' wp'' wq'' wr'' i))
  = rsum ns (fun i => f (a i) (a' i) (b' i)) + f wg wg' wg'' + f wp wp' wp'' + f wq wq' wq'' + f wr wr' wr''.
Proof.
  rewrite rsum_split. cbn [rsum].
  replace (rsum ns (fun i => f (ext4 a wg wp wq wr i) (ext4 a' wg' wp' wq' wr' i) (ext4 b' wg'' wp'' wq'' wr'' i))) with (rsum ns (fun i => f (a i) (a' i) (b' i))).
  2:{ apply rsum_ext. intros i Hi. unfold ext4. replace (i <? ns)%nat with true; [reflexivity|]. symmetry. apply Nat.ltb_lt. exact Hi. }
  assert (X : forall a wg wp wq wr, ext4 a wg wp wq wr (ns + 0) = wg /\ ext4 a wg wp wq wr (ns + 1) = wp /\ ext4 a wg wp wq wr (ns + 2) = wq /\ ext4 a wg wp wq wr (ns + 3) = wr).
  { intros. unfold ext4.
    assert (L : forall j, (ns + j <? ns)%nat = false) by (intros; apply Nat.ltb_ge; lia). rewrite !L.
    assert (Q : forall j, (j <> 0)%nat -> (ns + j =? ns)%nat = false) by (intros; apply Nat.eqb_neq; lia).
    assert (Q1 : forall j l, (j <> l)%nat -> (ns + j =? ns + l)%nat = false) by (intros; apply Nat.eqb_neq; lia).
    rewrite (Q 1%nat), (Q 2%nat), (Q 3%nat), (Q1 2%nat 1%nat), (Q1 3%nat 1%nat), (Q1 3%nat 2%nat) by lia. rewrite Nat.add_0_r, !Nat.eqb_refl. auto. }
  destruct (X a wg wp wq wr) as (-> & -> & -> & ->). destruct (X a' wg' wp' wq' wr') as (-> & -> & -> & ->). destruct (X b' wg'' wp'' wq'' wr'') as (-> & -> & -> & ->). ring.
Qed.
Lemma rsum_ext4z (a b z : nat -> R) wg wg' wp wp' wq wq' wr wr' :
  qf (ns + 4) (ext4 a wg wp wq wr) (ext4 b wg' wp' wq' wr') z =
  rsum ns (fun i => a i * z i + b i * (z i ^ 2 - 1)) + (wg * z ns + wg' * (z ns ^ 2 - 1)) + (wp * z (ns + 1)%nat + wp' * (z (ns + 1)%nat ^ 2 - 1))
  + (wq * z (ns + 2)%nat + wq' * (z (ns + 2)%nat ^ 2 - 1)) + (wr * z (ns + 3)%nat + wr' * (z (ns + 3)%nat ^ 2 - 1)).
Proof.
  pose proof (rsum_ext4 (fun u v w => u * w + v * (w ^ 2 - 1)) a b z wg wg' (z ns) wp wp' (z (ns + 1)%nat) wq wq' (z (ns + 2)%nat) wr wr' (z (ns + 3)%nat)) as E.
  cbv beta in E. rewrite <- E. unfold qf. apply rsum_ext. intros i Hi.
  assert (Z : ext4 z (z ns) (z (ns + 1)%nat) (z (ns + 2)%nat) (z (ns + 3)%nat) i = z i).
  { unfold ext4. destruct (i <? ns)%nat eqn:L; [reflexivity|]. apply Nat.ltb_ge in L.
    destruct (i =? ns)%nat eqn:E0; [apply Nat.eqb_eq in E0; now subst|]. destruct (i =? ns + 1)%nat eqn:E1; [apply Nat.eqb_eq in E1; now subst|].
    destruct (i =? ns + 2)%nat eqn:E2; [apply Nat.eqb_eq in E2; now subst|]. apply Nat.eqb_neq in E0, E1, E2. f_equal. lia. }
  now rewrite Z.
Qed.
Let mU := fst (ou_cond p false T v0 vt). Let mV := snd (ou_cond p false T v0 vt).
Lemma U_form z : U z = mU + qf (ns + 4) aU (fun _ => 0) z.
Proof.
  assert (E0 : qf (ns + 4) aU (fun _ => 0) z = qf (ns + 4) aU (ext4 (fun _ => 0) 0 0 0 0) z).
  { apply rsum_ext. intros i _. f_equal. f_equal. unfold ext4. destruct (i <? ns)%nat, (i =? ns)%nat, (i =? ns + 1)%nat, (i =? ns + 2)%nat; reflexivity. }
  rewrite E0. unfold aU. rewrite rsum_ext4z.
  unfold U, kl_random, kl_tail_vars. fold g_std p_std q_std r_std. change (a4sum x ns Odds / (g_std * p_std)) with corr. rewrite clip_inactive. fold cp.
  unfold kl_states, sub_theta. change (v_mr p) with k. change (v_vov p) with xi. fold x c vt. unfold mU.
  destruct (ou_cond p false T v0 vt) as [u v]. cbn [fst snd].
  replace (rsum ns (fun i => 2 * c * o i (kl_an x (S i) / npi (S i)) 0 * z i + 0 * (z i ^ 2 - 1)))
    with (2 * c * rsum ns (fun i => if Nat.odd (S i) then kl_an x (S i) / npi (S i) * z i else 0)).
  2:{ rewrite <- rsum_scal. apply rsum_ext. intros i _. unfold o. destruct (Nat.odd (S i)); ring. }
  ring.
Qed.
Lemma V_form z : V z = mV + qf (ns + 4) aV bV z.
Proof.
  unfold aV, bV. rewrite rsum_ext4z.
  unfold V, kl_random, kl_tail_vars. fold g_std p_std q_std r_std. change (a4sum x ns Odds / (g_std * p_std)) with corr. rewrite clip_inactive. fold cp.
  unfold kl_states, sub_theta. change (v_mr p) with k. change (v_vov p) with xi. fold x c vt. unfold mV.
  destruct (ou_cond p false T v0 vt) as [u v]. cbn [fst snd].
  set (P := rsum ns (fun i => if Nat.odd (S i) then kl_t2 x (S i) * kl_an x (S i) * npi (S i) * z i else 0)).
  set (Q := rsum ns (fun i => if Nat.odd (S i) then 0 else kl_t2 x (S i) * kl_an x (S i) * npi (S i) * z i)).
  set (Z := rsum ns (fun i => kl_t2 x (S i) * (z i ^ 2 - 1))).
  replace (rsum ns (fun i => c * o i (v0 + vt) (v0 - vt) * (kl_t2 x (S i) * kl_an x (S i) * npi (S i)) * z i + / 2 * c ^ 2 * kl_t2 x (S i) * (z i ^ 2 - 1)))
    with (c * (v0 + vt) * P + c * (v0 - vt) * Q + / 2 * c ^ 2 * Z).
  2:{ unfold P, Q, Z. rewrite <- !rsum_scal, <- !rsum_plus. apply rsum_ext. intros i _. unfold o. destruct (Nat.odd (S i)); ring. }
  ring.
Qed.
(* full sums from explicit part + tail *)
Lemma full_sum term f h s : kl_tail f term h x 0 s = kl_tail f term h x ns s + rsum ns (fun i => if sel s (S i) then term x (S i) else 0).
Proof. unfold kl_tail. cbn [rsum]. ring. Qed.
Let an2 i : kl_an x (S i) ^ 2 = kl_t2 x (S i).
Proof. unfold kl_an. apply pow2_sqrt. unfold kl_t2. pose proof (xw_pos x (S i) ltac:(lia)). left. now apply Rdiv_lt_0_compat; [lra|]. Qed.
Theorem kl_law :
  normals_expect (ns + 4) U mU /\ normals_expect (ns + 4) V mV /\
  normals_expect (ns + 4) (fun z => (U z - mU) ^ 2) (4 * c ^ 2 * a2overn2sum x 0 Odds) /\
  normals_expect (ns + 4) (fun z => (U z - mU) * (V z - mV)) (2 * c ^ 2 * (v0 + vt) * a4sum x 0 Odds) /\
  normals_expect (ns + 4) (fun z => (V z - mV) ^ 2)
    (c ^ 2 * ((v0 + vt) ^ 2 * a6n2sum x 0 Odds + (v0 - vt) ^ 2 * a6n2sum x 0 Evens + / 2 * c ^ 2 * a4sum x 0 All)).
Proof.
  pose proof (fun i => xw_pos x (S i) ltac:(lia)) as XW. pose proof (fun i => npi_pos (S i) ltac:(lia)) as NP.
  destruct g2 as [G2 GP], p2 as [P2 PP]. pose proof q2 as Q2. pose proof r2 as R2. pose proof cp2 as CP.
  assert (GPc : corr * g_std * p_std = a4sum x ns Odds) by (unfold corr; field; lra).
  split; [eapply normals_ext; [intros z; symmetry; apply U_form|apply qf_mean]|].
  split; [eapply normals_ext; [intros z; symmetry; apply V_form|apply qf_mean]|].
  split; [|split].
  - replace (4 * c ^ 2 * a2overn2sum x 0 Odds) with (0 * 0 + rsum (ns + 4) (fun i => aU i * aU i + 2 * (0 * 0)) + 0).
    + eapply normals_ext; [|apply (qf_cov (ns + 4) aU (fun _ => 0) aU (fun _ => 0) 0 0 0)]. intros z. rewrite U_form. ring.
    + unfold aU. rewrite (rsum_ext4 (fun u v w => u * v + 2 * (0 * 0)) _ _ (fun _ => 0) _ _ 0 _ _ 0 _ _ 0 _ _ 0).
      unfold a2overn2sum. rewrite (full_sum kl_t2n kl_f2n 4 Odds). fold (a2overn2sum x ns Odds).
      replace (rsum ns (fun i => 2 * c * o i (kl_an x (S i) / npi (S i)) 0 * (2 * c * o i (kl_an x (S i) / npi (S i)) 0) + 2 * (0 * 0)))
        with (4 * c ^ 2 * rsum ns (fun i => if sel Odds (S i) then kl_t2n x (S i) else 0)).
      2:{ rewrite <- rsum_scal. apply rsum_ext. intros i _. unfold o, sel. destruct (Nat.odd (S i)); [|ring].
          replace (2 * c * (kl_an x (S i) / npi (S i)) * (2 * c * (kl_an x (S i) / npi (S i)))) with (4 * c ^ 2 * (kl_an x (S i) ^ 2 / npi (S i) ^ 2)) by (specialize (NP i); field; lra).
          rewrite an2. unfold kl_t2n, kl_t2. specialize (NP i). specialize (XW i). field. split; lra. }
      replace (2 * c * (cp * g_std) * (2 * c * (cp * g_std))) with (4 * c ^ 2 * (cp ^ 2 * g_std ^ 2)) by ring. 
      replace (2 * c * (corr * g_std) * (2 * c * (corr * g_std))) with (4 * c ^ 2 * (corr ^ 2 * g_std ^ 2)) by ring.
      rewrite CP, G2. ring.
  - replace (2 * c ^ 2 * (v0 + vt) * a4sum x 0 Odds) with (0 * 0 + rsum (ns + 4) (fun i => aU i * aV i + 2 * (0 * bV i)) + 0).
    + eapply normals_ext; [|apply (qf_cov (ns + 4) aU (fun _ => 0) aV bV 0 0 0)]. intros z. rewrite U_form, V_form. ring.
    + unfold aU, aV, bV. rewrite (rsum_ext4 (fun u v w => u * v + 2 * (0 * w))).
      unfold a4sum. rewrite (full_sum kl_t4 kl_f4 4 Odds). fold (a4sum x ns Odds).
      match goal with |- context[rsum ns ?f] => replace (rsum ns f) with (2 * c ^ 2 * (v0 + vt) * rsum ns (fun i => if sel Odds (S i) then kl_t4 x (S i) else 0)) end.
      2:{ rewrite <- rsum_scal. apply rsum_ext. intros i _. unfold o, sel. destruct (Nat.odd (S i)); [|ring].
          replace (2 * c * (kl_an x (S i) / npi (S i)) * (c * (v0 + vt) * (kl_t2 x (S i) * kl_an x (S i) * npi (S i))) + 2 * (0 * (/ 2 * c ^ 2 * kl_t2 x (S i))))
            with (2 * c ^ 2 * (v0 + vt) * (kl_an x (S i) ^ 2 * kl_t2 x (S i))) by (specialize (NP i); field; lra).
          rewrite an2. unfold kl_t4, kl_t2. specialize (XW i). field. lra. }
      rewrite <- GPc. ring.
  - match goal with |- normals_expect _ _ ?v => replace v with (0 * 0 + rsum (ns + 4) (fun i => aV i * aV i + 2 * (bV i * bV i)) + 0) end.
    + eapply normals_ext; [|apply (qf_cov (ns + 4) aV bV aV bV 0 0 0)]. intros z. rewrite V_form. ring.
    + unfold aV, bV. rewrite (rsum_ext4 (fun u v w => u * v + 2 * (w * w))).
      unfold a6n2sum, a4sum. rewrite (full_sum kl_t4 kl_f4 4 All), (full_sum kl_t6n kl_f6n 4 Odds), (full_sum kl_t6n kl_f6n 4 Evens).
      fold (a4sum x ns All) (a6n2sum x ns Odds) (a6n2sum x ns Evens).
      match goal with |- context[rsum ns ?f + (_ + _) + _] => replace (rsum ns f) with
        (c ^ 2 * ((v0 + vt) ^ 2 * rsum ns (fun i => if sel Odds (S i) then kl_t6n x (S i) else 0) + (v0 - vt) ^ 2 * rsum ns (fun i => if sel Evens (S i) then kl_t6n x (S i) else 0)
          + / 2 * c ^ 2 * rsum ns (fun i => if sel All (S i) then kl_t4 x (S i) else 0))) end.
      2:{ rewrite <- !rsum_scal, <- !rsum_plus, <- rsum_scal. apply rsum_ext. intros i _. unfold o, sel. rewrite <- (Nat.negb_odd (S i)).
          assert (A3 : (kl_t2 x (S i) * kl_an x (S i) * npi (S i)) ^ 2 = kl_t6n x (S i)).
          { rewrite !Rpow_mult_distr, an2. unfold kl_t6n, kl_t2. specialize (XW i). field. lra. }
          assert (A4 : kl_t2 x (S i) ^ 2 = kl_t4 x (S i)). { unfold kl_t4, kl_t2. specialize (XW i). field. lra. }
          rewrite <- A3, <- A4. destruct (Nat.odd (S i)); cbn [negb]; field. }
      rewrite <- P2, <- Q2, <- R2. field.
Qed.
End Law.
