(** The closed forms of the OUSV Karhunen-Loeve sums are the infinite series they stand for. *)
From Coq Require Import Reals Lra Lia Arith ZArith.
From Coquelicot Require Import Coquelicot.
From Verif Require Import Base Sums M_Ou P_Kl P_Fejer.
Open Scope R_scope.

Lemma sum_n_rsum (a : nat -> R) n : sum_n a n = rsum (S n) a.
Proof. induction n as [|n IH]; [rewrite sum_O; simpl; ring|]. rewrite sum_Sn, IH. reflexivity. Qed.
Lemma series_rsum (a : nat -> R) (l : R) : is_series a l <-> is_lim_seq (fun n => rsum n a) l.
Proof.
  split; intros H.
  - apply is_lim_seq_incr_1. eapply is_lim_seq_ext; [|exact H]. intros n. cbv beta. apply sum_n_rsum.
  - apply is_lim_seq_incr_1 in H. unfold is_series. eapply filterlim_ext; [|exact H]. intros n. cbv beta. symmetry. apply sum_n_rsum.
Qed.
Lemma series_tail (a : nat -> R) l ns : is_series a l -> is_series (fun i => a (ns + i)%nat) (l - rsum ns a).
Proof.
  intros H. apply series_rsum. apply series_rsum in H. apply (is_lim_seq_incr_n _ ns) in H.
  apply (is_lim_seq_ext (fun n => rsum (n + ns) a - rsum ns a)).
  - intros n. rewrite Nat.add_comm, rsum_split. ring.
  - apply is_lim_seq_minus'; [exact H|apply is_lim_seq_const].
Qed.
Lemma series_ext (a b : nat -> R) l : is_series a l -> (forall n, a n = b n) -> is_series b l.
Proof. intros H E. eapply is_series_ext; [|exact H]. exact E. Qed.
Lemma series_ext' (a b : nat -> R) l : (forall n, a n = b n) -> is_series a l -> is_series b l.
Proof. intros E H. eapply is_series_ext; [|exact H]. exact E. Qed.
Lemma series_scal (c : R) (a : nat -> R) l : is_series a l -> is_series (fun n => c * a n) (c * l).
Proof. intros. apply (is_series_scal (V := R_NormedModule) c a l). exact H. Qed.
Lemma series_minus (a b : nat -> R) l m : is_series a l -> is_series b m -> is_series (fun n => a n - b n) (l - m).
Proof. intros. apply (is_series_minus (V := R_NormedModule)); assumption. Qed.
(* put the terms of [a] at the odd positions *)
Lemma rsum_odd_pos (a : nat -> R) n : rsum n (fun i => if Nat.odd i then a (Nat.div2 i) else 0) = rsum (Nat.div2 n) a.
Proof.
  assert (E2 : forall m, rsum (2 * m) (fun i => if Nat.odd i then a (Nat.div2 i) else 0) = rsum m a).
  { induction m as [|m IH]; [reflexivity|]. replace (2 * S m)%nat with (S (S (2 * m))) by lia. cbn [rsum]. rewrite IH.
    assert (O1 : Nat.odd (2 * m) = false) by (rewrite Nat.odd_mul; reflexivity). rewrite O1, Nat.odd_succ, <- Nat.negb_odd, O1. cbn [negb].
    rewrite Nat.div2_succ_double. ring. }
  destruct (Nat.Even_or_Odd n) as [[m ->]|[m ->]].
  - rewrite Nat.div2_double. apply E2.
  - replace (2 * m + 1)%nat with (S (2 * m)) by lia. cbn [rsum]. rewrite E2, Nat.div2_succ_double.
    assert (O1 : Nat.odd (2 * m) = false) by (rewrite Nat.odd_mul; reflexivity). rewrite O1. ring.
Qed.
Lemma series_odd_pos (a : nat -> R) l : is_series a l -> is_series (fun i => if Nat.odd i then a (Nat.div2 i) else 0) l.
Proof.
  intros H. apply series_rsum. apply series_rsum in H.
  apply (is_lim_seq_ext (fun n => rsum (Nat.div2 n) a)); [intros n; symmetry; apply rsum_odd_pos|].
  apply (is_lim_seq_subseq (fun n => rsum n a) l Nat.div2); [|exact H].
  intros P [N HN]. exists (2 * N)%nat. intros n Hn. apply HN. rewrite Nat.div2_div. apply Nat.div_le_lower_bound; lia.
Qed.

(** C1 functions on [0,1] are Lipschitz at 0 *)
Lemma lip_C1 (f f' : R -> R) : (forall s, is_derive f s (f' s)) -> (forall s, ex_derive f' s) ->
  exists L, forall s, 0 <= s <= 1 -> Rabs (f s - f 0) <= L * s.
Proof.
  intros Hf Hc.
  destruct (continuity_ab_maj (fun s => Rabs (f' s)) 0 1 ltac:(lra)) as [m [Hm _]].
  { intros s _. apply (continuity_pt_comp f' Rabs); [|apply Rcontinuity_abs]. apply continuity_pt_filterlim.
    apply (ex_derive_continuous (K := R_AbsRing) (V := R_NormedModule)). apply Hc. }
  exists (Rabs (f' m)). intros s Hs. destruct (Rle_lt_or_eq_dec 0 s) as [H0|<-]; [lra| |].
  - destruct (MVT_cor2 f f' 0 s H0) as (y & Hy & Hy2). { intros; apply is_derive_Reals; apply Hf. }
    rewrite Hy, Rabs_mult, Rminus_0_r, (Rabs_pos_eq s) by lra. apply Rmult_le_compat_r; [lra|]. apply Hm. lra.
  - rewrite Rminus_diag_eq by reflexivity. rewrite Rabs_R0. lra.
Qed.
Lemma fejer_C1 (f f' : R -> R) (c : nat -> R) (v : R) : (forall s, is_derive f s (f' s)) -> (forall s, ex_derive f' s) ->
  (forall n, is_RInt (fun s => f s * cos (npi n * s)) 0 1 (c n)) -> (forall n, 0 <= c (S n)) -> v = f 0 - c 0%nat ->
  is_series (fun n => 2 * c (S n)) v.
Proof. intros Hf Hc HI Hp ->. destruct (lip_C1 f f' Hf Hc) as [L HL]. exact (fejer f c L HL HI Hp). Qed.

Section Forms.
Variable x : R. Hypothesis Hx : 0 < x.
Let Cx := cosh x. Let Sx := sinh x.
Lemma Sx_pos : 0 < Sx.
Proof. unfold Sx, sinh. assert (exp (- x) < exp x) by (apply exp_increasing; lra). lra. Qed.
Lemma CS : Cx ^ 2 = 1 + Sx ^ 2.
Proof. unfold Cx, Sx, cosh, sinh. assert (exp (- x) = / exp x) by apply exp_Ropp. rewrite H. pose proof (exp_pos x). field. lra. Qed.
Let E (s : R) := exp (x * (1 - s)). Let F (s : R) := exp (- (x * (1 - s))).
Let fC (s : R) := (E s + F s) / 2.
Let fS (s : R) := (E s - F s) / 2.
Let q (w : R) := x ^ 2 + w ^ 2.
Let q_pos w : 0 < q w.
Proof. unfold q. pose proof Hx. nra. Qed.
Section Coef.
Variable n : nat.
Let w := npi n.
Let A1 (s : R) := (- x * fS s * cos (w * s) + w * fC s * sin (w * s)) / q w.
Let B1 (s : R) := (- fS s * cos (w * s) - x * (1 - s) * fC s * cos (w * s) + w * (1 - s) * fS s * sin (w * s)).
Let A2 (s : R) := B1 s / q w - 2 * x * (- x * fS s * cos (w * s) + w * fC s * sin (w * s)) / q w ^ 2.
Let A3 (s : R) := (- 2 * (1 - s) * fC s * cos (w * s) - x * (1 - s) ^ 2 * fS s * cos (w * s) + w * (1 - s) ^ 2 * fC s * sin (w * s)) / q w
  - 4 * x * B1 s / q w ^ 2 - 2 * (- x * fS s * cos (w * s) + w * fC s * sin (w * s)) / q w ^ 2
  + 8 * x ^ 2 * (- x * fS s * cos (w * s) + w * fC s * sin (w * s)) / q w ^ 3.
Ltac ends := unfold A1, A2, A3, B1, fC, fS, E, F; replace (x * (1 - 1)) with 0 by ring; replace (x * (1 - 0)) with x by ring;
  rewrite ?Rmult_1_r, ?Rmult_0_r, ?sin_0, ?cos_0, ?Ropp_0, ?exp_0; destruct (npi_cs n) as [CC SS]; fold w in CC, SS; rewrite ?CC, ?SS;
  unfold Cx, Sx, cosh, sinh.
Lemma coefC : is_RInt (fun s => fC s * cos (w * s)) 0 1 (x * Sx / q w).
Proof.
  pose proof (q_pos w) as Q. apply (RI01 A1).
  - intros s. unfold A1, fC, fS, E, F. auto_derive; [auto|]. Req. unfold q. unfold q in Q. unfold Rminus. field. lra.
  - intros s. unfold fC, E, F. auto_derive; auto.
  - ends. field. lra.
Qed.
Lemma coefS : is_RInt (fun s => (1 - s) * fS s * cos (w * s)) 0 1 ((Sx + x * Cx) / q w - 2 * x ^ 2 * Sx / q w ^ 2).
Proof.
  pose proof (q_pos w) as Q. apply (RI01 A2).
  - intros s. unfold A2, B1, fC, fS, E, F. auto_derive; [auto|]. Req. unfold q. unfold q in Q. unfold Rminus. field. lra.
  - intros s. unfold fS, E, F. auto_derive; auto.
  - ends. field. lra.
Qed.
Lemma coefC2 : is_RInt (fun s => (1 - s) ^ 2 * fC s * cos (w * s)) 0 1
  ((2 * Cx + x * Sx) / q w - (6 * x * Sx + 4 * x ^ 2 * Cx) / q w ^ 2 + 8 * x ^ 3 * Sx / q w ^ 3).
Proof.
  pose proof (q_pos w) as Q. apply (RI01 A3).
  - intros s. unfold A3, B1, fC, fS, E, F. auto_derive; [auto|]. Req. unfold q. unfold q in Q. unfold Rminus. field. lra.
  - intros s. unfold fC, E, F. auto_derive; auto.
  - ends. field. lra.
Qed.
End Coef.
Let fC0 : fC 0 = Cx.
Proof. unfold fC, E, F, Cx, cosh. rewrite Rminus_0_r, Rmult_1_r. reflexivity. Qed.
Let fS0 : fS 0 = Sx.
Proof. unfold fS, E, F, Sx, sinh. rewrite Rminus_0_r, Rmult_1_r. reflexivity. Qed.
Let Cpos : 0 < Cx.
Proof. unfold Cx, cosh. pose proof (exp_pos x). pose proof (exp_pos (- x)). lra. Qed.
Let q0 : q (npi 0) = x ^ 2.
Proof. unfold q, npi. simpl. ring. Qed.
Lemma series_t2 : is_series (fun i => kl_t2 x (S i)) (kl_f2 x).
Proof.
  pose proof Sx_pos as HS. pose proof Cpos as HC. pose proof Hx as Hx'.
  apply (series_ext (fun i => / (x * Sx) * (2 * (x * Sx / q (npi (S i)))))).
  2:{ intros i. unfold kl_t2. fold (q (npi (S i))). pose proof (q_pos (npi (S i))). field. lra. }
  replace (kl_f2 x) with (/ (x * Sx) * (Cx - x * Sx / x ^ 2)).
  2:{ unfold kl_f2, tanh. fold Sx Cx. field. lra. }
  apply series_scal. apply (fejer_C1 fC (fun s => - x * fS s) (fun n => x * Sx / q (npi n))).
  - intros s. unfold fC, fS, E, F. auto_derive; [auto|]. Req. unfold Rminus. field.
  - intros s. unfold fS, E, F. auto_derive; auto.
  - intros n. apply coefC.
  - intros n. pose proof (q_pos (npi (S n))). apply Rmult_le_pos; [nra|]. left. now apply Rinv_0_lt_compat.
  - rewrite fC0, q0. reflexivity.
Qed.
Lemma series_t4 : is_series (fun i => kl_t4 x (S i)) (kl_f4 x).
Proof.
  pose proof Sx_pos as HS. pose proof Cpos as HC. pose proof Hx as Hx'. pose proof CS as HCS.
  set (al := (Sx + x * Cx) / (x * Sx)).
  apply (series_ext (fun i => / (x ^ 2 * Sx) * (2 * (2 * x ^ 2 * Sx / q (npi (S i)) ^ 2)))).
  2:{ intros i. unfold kl_t4. fold (q (npi (S i))). pose proof (q_pos (npi (S i))). field. repeat split; lra. }
  replace (kl_f4 x) with (/ (x ^ 2 * Sx) * (al * Cx - Sx - 2 * x ^ 2 * Sx / (x ^ 2) ^ 2)).
  2:{ unfold kl_f4, tanh, al. fold Sx Cx. apply (Rmult_eq_reg_l (x ^ 4 * Sx ^ 2)); [|apply Rgt_not_eq, Rmult_lt_0_compat; apply pow_lt; lra].
      replace (x ^ 4 * Sx ^ 2 * (/ (x ^ 2 * Sx) * ((Sx + x * Cx) / (x * Sx) * Cx - Sx - 2 * x ^ 2 * Sx / (x ^ 2) ^ 2)))
        with (x * Sx * Cx + x ^ 2 * Cx ^ 2 - x ^ 2 * Sx ^ 2 - 2 * Sx ^ 2) by (field; lra).
      rewrite HCS. field. lra. }
  apply series_scal. apply (fejer_C1 (fun s => al * fC s - (1 - s) * fS s) (fun s => - al * x * fS s + fS s + (1 - s) * x * fC s) (fun n => 2 * x ^ 2 * Sx / q (npi n) ^ 2)).
  - intros s. unfold fC, fS, E, F. auto_derive; [auto|]. Req. unfold Rminus. field.
  - intros s. unfold fC, fS, E, F. auto_derive; auto.
  - intros n. pose proof (q_pos (npi n)) as Q.
    eapply RI_ext; [apply RI_plus; [apply (RI_scal al), (coefC n)|apply (RI_scal (-1)), (coefS n)]| |].
    + intros s. cbv beta. ring.
    + unfold al. field. lra.
  - intros n. pose proof (q_pos (npi (S n))). apply Rmult_le_pos; [nra|]. left. apply Rinv_0_lt_compat. nra.
  - cbv beta. rewrite fC0, fS0, q0. ring.
Qed.
Lemma series_t6 : is_series (fun i => kl_t6 x (S i)) (kl_f6 x).
Proof.
  pose proof Sx_pos as HS. pose proof Cpos as HC. pose proof Hx as Hx'. pose proof CS as HCS.
  set (be := (3 * Sx + 2 * x * Cx) / (x * Sx)). set (ga := (be * (Sx + x * Cx) - 2 * Cx - x * Sx) / (x * Sx)).
  apply (series_ext (fun i => / (2 * x ^ 3 * Sx) * (2 * (8 * x ^ 3 * Sx / q (npi (S i)) ^ 3)))).
  2:{ intros i. unfold kl_t6. fold (q (npi (S i))). pose proof (q_pos (npi (S i))). field. repeat split; lra. }
  replace (kl_f6 x) with (/ (2 * x ^ 3 * Sx) * (Cx - be * Sx + ga * Cx - 8 * x ^ 3 * Sx / (x ^ 2) ^ 3)).
  2:{ unfold kl_f6, tanh, ga, be. fold Sx Cx. apply (Rmult_eq_reg_l (2 * x ^ 6 * Sx ^ 3)); [|apply Rgt_not_eq, Rmult_lt_0_compat; [|apply pow_lt; lra]; pose proof (pow_lt x 6 Hx'); lra].
      match goal with |- ?l = _ => replace l with (x ^ 3 * Sx ^ 2 * Cx - x ^ 2 * Sx ^ 2 * (3 * Sx + 2 * x * Cx) + x * Cx * ((3 * Sx + 2 * x * Cx) * (Sx + x * Cx) - x * Sx * (2 * Cx + x * Sx)) - 8 * Sx ^ 3) by (field; lra) end.
      replace (x ^ 3 * Sx ^ 2 * Cx - x ^ 2 * Sx ^ 2 * (3 * Sx + 2 * x * Cx) + x * Cx * ((3 * Sx + 2 * x * Cx) * (Sx + x * Cx) - x * Sx * (2 * Cx + x * Sx)) - 8 * Sx ^ 3)
       with (3 * x ^ 2 * Sx * (Cx ^ 2 - Sx ^ 2) + 3 * x * Sx ^ 2 * Cx + 2 * x ^ 3 * Cx * (Cx ^ 2 - Sx ^ 2) - 8 * Sx ^ 3) by ring.
      rewrite HCS. field. lra. }
  apply series_scal. apply (fejer_C1 (fun s => (1 - s) ^ 2 * fC s - be * ((1 - s) * fS s) + ga * fC s)
    (fun s => - 2 * (1 - s) * fC s - (1 - s) ^ 2 * x * fS s + be * (fS s + (1 - s) * x * fC s) - ga * x * fS s) (fun n => 8 * x ^ 3 * Sx / q (npi n) ^ 3)).
  - intros s. unfold fC, fS, E, F. auto_derive; [auto|]. Req. unfold Rminus. field.
  - intros s. unfold fC, fS, E, F. auto_derive; auto.
  - intros n. pose proof (q_pos (npi n)) as Q.
    eapply RI_ext; [apply RI_plus; [apply RI_plus; [apply (coefC2 n)|apply (RI_scal (- be)), (coefS n)]|apply (RI_scal ga), (coefC n)]| |].
    + intros s. cbv beta. ring.
    + unfold ga, be. field. lra.
  - intros n. pose proof (q_pos (npi (S n))). apply Rmult_le_pos; [pose proof (pow_lt x 3 Hx'); nra|]. left. apply Rinv_0_lt_compat. now apply pow_lt.
  - cbv beta. rewrite fC0, fS0, q0. ring.
Qed.
Lemma series_basel : is_series (fun i => 2 / npi (S i) ^ 2) (1 / 3).
Proof.
  apply (series_ext' (fun i => / 2 * (2 * (if Nat.eqb (S i) 0 then 1 / 3 else 2 / npi (S i) ^ 2)))). { intros i. cbn [Nat.eqb]. Req. field. apply Rgt_not_eq, npi_pos. lia. }
  match goal with |- is_series ?a ?l => replace (is_series a l) with (is_series a (/ 2 * (1 - 1 / 3))) by (f_equal; field) end. apply series_scal.
  apply (fejer_C1 (fun s => (1 - s) ^ 2) (fun s => - 2 * (1 - s)) (fun n => if Nat.eqb n 0 then 1 / 3 else 2 / npi n ^ 2)).
  - intros s. auto_derive; [auto|]. Req. ring.
  - intros s. auto_derive; auto.
  - intros [|n]; cbn [Nat.eqb].
    + apply (RI01 (fun s => - (1 - s) ^ 3 / 3)); [intros s; auto_derive; [auto|]|intros s; auto_derive; auto|field].
      Req. unfold npi. simpl. rewrite !Rmult_0_l, cos_0. field.
    + pose proof (npi_pos (S n) ltac:(lia)) as Hw. set (w := npi (S n)) in *.
      apply (RI01 (fun s => (1 - s) ^ 2 * sin (w * s) / w - 2 * (1 - s) * cos (w * s) / w ^ 2 - 2 * sin (w * s) / w ^ 3)).
      * intros s. auto_derive; [auto|]. Req. field. lra.
      * intros s. auto_derive; auto.
      * rewrite Rmult_1_r, Rmult_0_r, sin_0, cos_0. destruct (npi_cs (S n)) as [_ SS]. fold w in SS. rewrite SS. field. lra.
  - intros n. cbn [Nat.eqb]. pose proof (npi_pos (S n) ltac:(lia)). apply Rmult_le_pos; [lra|]. left. apply Rinv_0_lt_compat. now apply pow_lt.
  - cbn [Nat.eqb]. ring.
Qed.
Lemma series_t2n : is_series (fun i => kl_t2n x (S i)) (kl_f2n x).
Proof.
  pose proof Hx as Hx'. apply (series_ext' (fun i => / x ^ 2 * (2 / npi (S i) ^ 2 - kl_t2 x (S i)))).
  { intros i. unfold kl_t2n, kl_t2. pose proof (npi_pos (S i) ltac:(lia)). pose proof (q_pos (npi (S i))) as Q. unfold q in Q. field. repeat split; lra. }
  replace (kl_f2n x) with (/ x ^ 2 * (1 / 3 - kl_f2 x)). 2:{ unfold kl_f2n, kl_f2. unfold Rdiv. ring. }
  apply series_scal, series_minus; [apply series_basel|apply series_t2].
Qed.
Lemma series_t6n : is_series (fun i => kl_t6n x (S i)) (kl_f6n x).
Proof.
  apply (series_ext' (fun i => 2 * kl_t4 x (S i) - x ^ 2 * kl_t6 x (S i))).
  { intros i. unfold kl_t6n, kl_t4, kl_t6. pose proof (q_pos (npi (S i))) as Q. unfold q in Q. field. lra. }
  unfold kl_f6n. apply series_minus; apply series_scal; [apply series_t4|apply series_t6].
Qed.
End Forms.

(** halving: term(x, 2m) = term(x/2, m) / 2^h *)
Lemma npi_double m : npi (2 * m) = 2 * npi m.
Proof. unfold npi. rewrite mult_INR. simpl. ring. Qed.
Section Tail.
Variables (f : R -> R) (term : R -> nat -> R) (h : nat).
Hypothesis Hs : forall x, 0 < x -> is_series (fun i => term x (S i)) (f x).
Hypothesis Hh : forall x m, 0 < x -> (0 < m)%nat -> term x (2 * m)%nat = term (x / 2) m / 2 ^ h.
Lemma series_evens x : 0 < x -> is_series (fun i => if Nat.even (S i) then term x (S i) else 0) (f (x / 2) / 2 ^ h).
Proof.
  intros Hx. apply (series_ext' (fun i => if Nat.odd i then term (x / 2) (S (Nat.div2 i)) / 2 ^ h else 0)).
  - intros i. rewrite Nat.even_succ. destruct (Nat.odd i) eqn:O; [|reflexivity].
    rewrite <- Hh by (lra || lia). f_equal. apply Nat.odd_spec in O. destruct O as [m ->]. replace (2 * m + 1)%nat with (S (2 * m)) by lia. rewrite Nat.div2_succ_double. lia.
  - apply (series_odd_pos (fun m => term (x / 2) (S m) / 2 ^ h)). apply (series_ext' (fun m => / 2 ^ h * term (x / 2) (S m))); [intros; unfold Rdiv; ring|].
    replace (f (x / 2) / 2 ^ h) with (/ 2 ^ h * f (x / 2)) by (unfold Rdiv; ring). apply series_scal, Hs. lra.
Qed.
Lemma kl_tail_series x ns s : 0 < x -> is_series (fun i => if sel s (S (ns + i)) then term x (S (ns + i)) else 0) (kl_tail f term h x ns s).
Proof.
  intros Hx. unfold kl_tail. apply (series_tail (fun i => if sel s (S i) then term x (S i) else 0)).
  destruct s; cbn [sel].
  - apply Hs; exact Hx.
  - apply (series_ext' (fun i => term x (S i) - (if Nat.even (S i) then term x (S i) else 0))).
    { intros i. rewrite <- Nat.negb_odd. destruct (Nat.odd (S i)); cbn [negb]; ring. }
    apply series_minus; [apply Hs; exact Hx|apply series_evens; exact Hx].
  - apply series_evens; exact Hx.
Qed.
End Tail.
Definition is_tail (term : R -> nat -> R) (x : R) (ns : nat) (s : parity_sel) (v : R) : Prop :=
  is_series (fun i => if sel s (S (ns + i)) then term x (S (ns + i)) else 0) v.
Lemma a2sum_tail x ns s : 0 < x -> is_tail kl_t2 x ns s (a2sum x ns s).
Proof.
  intros Hx. apply (kl_tail_series kl_f2 kl_t2 2); [intros; now apply series_t2| |exact Hx].
  intros y m Hy Hm. unfold kl_t2. rewrite npi_double. pose proof (npi_pos m Hm). field; repeat split; apply Rgt_not_eq; nra.
Qed.
Lemma a2overn2sum_tail x ns s : 0 < x -> is_tail kl_t2n x ns s (a2overn2sum x ns s).
Proof.
  intros Hx. apply (kl_tail_series kl_f2n kl_t2n 4); [intros; now apply series_t2n| |exact Hx].
  intros y m Hy Hm. unfold kl_t2n. rewrite npi_double. pose proof (npi_pos m Hm). field; repeat split; apply Rgt_not_eq; nra.
Qed.
Lemma a4sum_tail x ns s : 0 < x -> is_tail kl_t4 x ns s (a4sum x ns s).
Proof.
  intros Hx. apply (kl_tail_series kl_f4 kl_t4 4); [intros; now apply series_t4| |exact Hx].
  intros y m Hy Hm. unfold kl_t4. rewrite npi_double. pose proof (npi_pos m Hm). field; repeat split; apply Rgt_not_eq; nra.
Qed.
Lemma a6sum_tail x ns s : 0 < x -> is_tail kl_t6 x ns s (a6sum x ns s).
Proof.
  intros Hx. apply (kl_tail_series kl_f6 kl_t6 6); [intros; now apply series_t6| |exact Hx].
  intros y m Hy Hm. unfold kl_t6. rewrite npi_double. pose proof (npi_pos m Hm). field; repeat split; apply Rgt_not_eq; nra.
Qed.
Lemma a6n2sum_tail x ns s : 0 < x -> is_tail kl_t6n x ns s (a6n2sum x ns s).
Proof.
  intros Hx. apply (kl_tail_series kl_f6n kl_t6n 4); [intros; now apply series_t6n| |exact Hx].
  intros y m Hy Hm. unfold kl_t6n. rewrite npi_double. pose proof (npi_pos m Hm). field; repeat split; apply Rgt_not_eq; nra.
Qed.
