(** Newton's iteration in log-price space: one step preserves an invariant and makes progress. *)
From Coq Require Import Reals Lra Lia Psatz ZArith.
From Coquelicot Require Import Coquelicot.
From Verif Require Import Base Gauss P_Black M_Opt P_Bsm P_Impvol P_Newton P_Newton2 P_Newton3.
From Verif Require P_Alloc.
Open Scope R_scope.

Definition lerr (s lk p : R) : R := ln p - ln (cstd s lk).
Definition tiny : R := 4 / 10 ^ 13.
Lemma tiny_val : 0 < tiny < 1 / 10 ^ 12. Proof. unfold tiny. lra. Qed.

Lemma ln_1m d : 0 <= d <= 3 / 10 ^ 13 -> 0 <= - ln (1 - d) <= tiny.
Proof.
  intros Hd. split.
  - enough (ln (1 - d) <= ln 1) by (rewrite ln_1 in *; lra). apply ln_le_R; lra.
  - rewrite <- ln_Rinv by lra. pose proof (exp_ineq1_le tiny) as He. rewrite <- (ln_exp tiny). apply ln_le_R; [apply Rinv_0_lt_compat; lra|].
    apply Rle_trans with (2 := He). apply (Rmult_le_reg_r (1 - d)); [lra|]. rewrite Rinv_l by lra. unfold tiny. nra.
Qed.
(** what the loop computes, up to the relative error d of the Taylor branch *)
Lemma iv_data s lk p : 0 < s -> 0 <= lk -> 0 < p -> exists d, 0 <= d <= 3 / 10 ^ 13 /\
  price_std s lk 1 1 = pv s lk * (1 - d) /\ iv_err s lk p = - (lerr s lk p + - ln (1 - d)) /\ (taylor_zone s lk \/ d = 0).
Proof.
  intros Hs Hl Hp. pose proof (pv_pos s lk Hs) as Pv. pose proof (npdf_pos (dd1 s lk)) as Hn.
  assert (Z : taylor_zone s lk \/ ~ taylor_zone s lk) by (unfold taylor_zone; destruct (Rlt_dec (s / Rmax 1 (lk / s)) (/ 1000)); [now left|now right]).
  assert (H : exists d, 0 <= d <= 3 / 10 ^ 13 /\ price_std s lk 1 1 = pv s lk * (1 - d) /\ (taylor_zone s lk \/ d = 0)).
  { destruct Z as [Z|Z].
    - exists (1 - pvT s lk / pv s lk). rewrite price_std_taylor by assumption. destruct (pvT_rel s lk Hs Hl Z) as [A B]. split; [|split; [field; lra|now left]].
      assert (1 - 3 / 10 ^ 13 <= pvT s lk / pv s lk <= 1); [|lra]. split; apply (Rmult_le_reg_r (pv s lk)); try exact Pv; replace (pvT s lk / pv s lk * pv s lk) with (pvT s lk) by (field; lra); lra.
    - exists 0. rewrite price_std_pv by assumption. split; [lra|]. split; [ring|now right]. }
  destruct H as (d & Hd & E & Zd). exists d. split; [exact Hd|]. split; [exact E|]. split; [|exact Zd].
  unfold iv_err. rewrite E. rewrite (ln_mult (pv s lk) (1 - d)) by lra. unfold lerr. rewrite (cstd_pv s lk Hs), (ln_mult (npdf (dd1 s lk)) (pv s lk)), ln_npdf by assumption.
  assert (Ed : (if Req_EM_T lk 0 then 0 else - lk / s) = - lk / s).
  { destruct (Req_EM_T lk 0) as [->|]; [field; lra | reflexivity]. }
  rewrite Ed. replace (- lk / s + / 2 * s) with (dd1 s lk) by (unfold dd1; field; lra). ring.
Qed.

Definition Inv (lk p s : R) : Prop := 0 < s /\ - (1 / 10 ^ 12) <= lerr s lk p /\ (lerr s lk p < 0 -> near s lk).

Lemma zone_near3 s u lk : 0 < s -> 0 <= lk -> taylor_zone s lk -> 0 < u -> u <= 3 * s -> near u lk.
Proof.
  intros Hs Hl Hz Hu Hu3. apply (near_down (3 * s)); try assumption. unfold near, dd1. set (t := lk / s).
  replace (- lk / (3 * s)) with (- t / 3) by (unfold t; field; lra). assert (Ht : 0 <= t) by (apply Rmult_le_pos; [lra|left; now apply Rinv_0_lt_compat]).
  destruct (zone_cases s lk Hs Hl Hz) as [[A B]|[A B]]; fold t in A, B; (split; [lra|first [left; lra|right; lra]]).
Qed.
Lemma pv_double s lk : 0 < s -> 0 <= lk -> near (2 * s) lk -> 14 / 10 * pv s lk <= pv (2 * s) lk.
Proof.
  intros Hs Hl Hn. pose proof (pv_pos s lk Hs) as P.
  destruct (MVT_R (fun s => pv s lk) (fun s => 1 - dd1 s lk * dd2 s lk * pv s lk / s) s (2 * s) ltac:(lra)) as (c & Hc & E); [intros; apply pv_derive; lra|].
  cbv beta in E. pose proof (pv_slope_near c lk ltac:(lra) Hl (near_down (2 * s) c lk Hl ltac:(lra) ltac:(lra) Hn)) as [A _].
  pose proof (pv_mono s c lk Hl Hs ltac:(lra)) as M.
  assert (Q : pv s lk / (2 * s) <= pv c lk / c). { unfold Rdiv. apply Rmult_le_compat; [lra|left; apply Rinv_0_lt_compat; lra|exact M|]. apply Rinv_le_contravar; lra. }
  assert (Q2 : pv s lk / (2 * s) * s = pv s lk / 2) by (field; lra).
  set (D := 1 - dd1 c lk * dd2 c lk * pv c lk / c) in *. clearbody D. assert (98 / 100 * (pv s lk / (2 * s)) * s <= D * s) by (apply Rmult_le_compat_r; lra).
  replace (2 * s - s) with s in E by ring. lra.
Qed.
(** overshooting is at most threefold *)
Lemma far_positive s u lk p : 0 < s -> 0 <= lk -> taylor_zone s lk -> 3 * s < u -> - (1 / 10 ^ 12) <= lerr s lk p ->
  (u - s) / pv s lk <= lerr s lk p + tiny -> 0 <= lerr u lk p.
Proof.
  intros Hs Hl Hz Hu He Ha. pose proof (zone_near3 s (2 * s) lk Hs Hl Hz ltac:(lra) ltac:(lra)) as N2. pose proof (pv_double s lk Hs Hl N2) as D.
  pose proof (zone_near3 s s lk Hs Hl Hz Hs ltac:(lra)) as [N1 _]. pose proof (pv_le s lk Hs N1) as L. pose proof (pv_pos s lk Hs) as P.
  pose proof (tangent (2 * s) u lk Hl ltac:(lra) ltac:(lra)) as T1. pose proof (tangent s (2 * s) lk Hl Hs ltac:(lra)) as T2.
  replace (2 * s - s) with s in T2 by ring. unfold lerr in *. set (L0 := ln p) in *. set (h0 := ln (cstd s lk)) in *. set (h2 := ln (cstd (2 * s) lk)) in *. set (hu := ln (cstd u lk)) in *.
  set (v := pv s lk) in *. set (w := pv (2 * s) lk) in *. clearbody L0 h0 h2 hu v w. clear N1 N2 Hz.
  assert (B1 : (u - 2 * s) / w <= 10 / 14 * ((u - 2 * s) / v)).
  { replace (10 / 14 * ((u - 2 * s) / v)) with ((u - 2 * s) * / (14 / 10 * v)) by (field; lra). unfold Rdiv. apply Rmult_le_compat_l; [lra|]. apply Rinv_le_contravar; lra. }
  set (a := (u - s) / v) in *. assert (B2 : (u - 2 * s) / v = a - s / v) by (unfold a; field; lra).
  assert (B3 : s / v <= a / 2). { unfold a. replace ((u - s) / v / 2) with ((u - s) / 2 / v) by (field; lra). apply Rmult_le_compat_r; [left; now apply Rinv_0_lt_compat|lra]. }
  assert (B4 : 1 <= a). { unfold a. apply (Rmult_le_reg_r v); [exact P|]. replace ((u - s) / v * v) with (u - s) by (field; lra). lra. }
  clearbody a. pose proof tiny_val. lra.
Qed.
Lemma newton_pos s lk p d : Inv lk p s -> 0 <= lk -> 0 <= d <= 3 / 10 ^ 13 -> (taylor_zone s lk \/ d = 0) ->
  0 <= lerr s lk p + - ln (1 - d) -> let u := s + (lerr s lk p + - ln (1 - d)) * (1 - d) * pv s lk in
  Inv lk p u /\ s <= u /\ lerr u lk p <= lerr s lk p.
Proof.
  intros (Hs & He & Hn) Hl Hd Hz Hpos u. pose proof (pv_pos s lk Hs) as P. pose proof (ln_1m d Hd) as [E0 E1]. pose proof tiny_val as Ht.
  set (eta := - ln (1 - d)) in *. set (a := (lerr s lk p + eta) * (1 - d)) in *.
  assert (Ha : 0 <= a) by (apply Rmult_le_pos; lra). assert (Hu : s <= u). { unfold u. fold a. assert (0 <= a * pv s lk) by (apply Rmult_le_pos; lra). lra. }
  assert (Hua : (u - s) / pv s lk = a) by (unfold u; fold a; field; lra).
  pose proof (tangent s u lk Hl Hs ltac:(lra)) as T. rewrite Hua in T.
  assert (M : lerr u lk p <= lerr s lk p). { unfold lerr. pose proof (lncstd_mono s u lk Hs Hu). lra. }
  assert (Lo : lerr s lk p * d - eta * (1 - d) <= lerr u lk p). { assert (lerr s lk p - a <= lerr u lk p) by (unfold lerr in *; lra). unfold a in *. lra. }
  assert (Lo2 : - (1 / 10 ^ 12) <= lerr u lk p).
  { apply Rle_trans with (2 := Lo). clearbody eta. clear - He Hd E0 E1 Ht. set (e := lerr s lk p) in *. clearbody e. 
    assert (- (1 / 10 ^ 12) * (3 / 10 ^ 13) <= e * d). { destruct (Rle_dec 0 e) as [A|A]; [assert (0 <= e * d) by (apply Rmult_le_pos; lra); lra|]. nra. }
    assert (eta * (1 - d) <= tiny * 1) by (apply Rmult_le_compat; lra). unfold tiny in *. lra. }
  split; [|split; assumption]. split; [lra|]. split; [exact Lo2|]. intros Hneg. destruct Hz as [Hz|Hz].
  - destruct (Rle_dec u (3 * s)) as [A|A]; [apply (zone_near3 s); try assumption; lra|]. exfalso.
    pose proof (far_positive s u lk p Hs Hl Hz ltac:(lra) He) as F. rewrite Hua in F. enough (0 <= lerr u lk p) by lra. apply F.
    unfold a. clearbody eta. clear - Hpos Hd E1. assert ((lerr s lk p + eta) * (1 - d) <= (lerr s lk p + eta) * 1) by (apply Rmult_le_compat_l; lra). lra.
  - destruct (Rlt_dec (lerr s lk p) 0) as [A|A].
    + unfold eta in Hpos. rewrite Hz in Hpos. replace (1 - 0) with 1 in Hpos by ring. rewrite ln_1 in Hpos. lra.
    + exfalso. unfold eta in Lo. rewrite Hz in Lo. replace (1 - 0) with 1 in Lo by ring. rewrite ln_1 in Lo. lra.
Qed.
Lemma newton_neg s lk p d : Inv lk p s -> 0 <= lk -> 0 <= d <= 3 / 10 ^ 13 ->
  lerr s lk p + - ln (1 - d) < 0 -> let u := s + (lerr s lk p + - ln (1 - d)) * (1 - d) * pv s lk in
  Inv lk p u /\ lerr u lk p <= 2 / 10 ^ 12.
Proof.
  intros (Hs & He & Hn) Hl Hd Hneg u. pose proof (pv_pos s lk Hs) as P. pose proof (ln_1m d Hd) as [E0 E1]. pose proof tiny_val as Ht.
  set (eta := - ln (1 - d)) in *. set (a := (lerr s lk p + eta) * (1 - d)) in *. specialize (Hn ltac:(lra)).
  assert (Ha : - (1 / 10 ^ 12) <= a <= 0). { unfold a. clearbody eta. set (e := lerr s lk p) in *. clearbody e. clear - He Hd Hneg E0. nra. }
  pose proof (pv_le s lk Hs (proj1 Hn)) as L.
  assert (Hu : 0 < u <= s). { unfold u. fold a. clearbody a. set (v := pv s lk) in *. clearbody v. clear - Hs Ha P L. nra. }
  assert (Nu : near u lk) by (apply (near_down s); lra || assumption).
  assert (Hua : (u - s) / pv s lk = a) by (unfold u; fold a; field; lra). assert (Hsu : s - u = - a * pv s lk) by (unfold u; fold a; ring).
  pose proof (tangent s u lk Hl Hs ltac:(lra)) as T. rewrite Hua in T. pose proof (tangent u s lk Hl ltac:(lra) Hs) as T2. pose proof (pv_pos u lk ltac:(lra)) as Pu.
  assert (Hw : pv s lk <= 2 * pv u lk).
  { destruct (Req_dec u s) as [Eus|Nus]; [rewrite Eus; lra|]. destruct (MVT_R (fun s => pv s lk) (fun s => 1 - dd1 s lk * dd2 s lk * pv s lk / s) u s ltac:(lra)) as (c & Hc & E); [intros; apply pv_derive; lra|].
    cbv beta in E. pose proof (pv_slope_near c lk ltac:(lra) Hl (near_down s c lk Hl ltac:(lra) ltac:(lra) Hn)) as [_ A].
    set (D := 1 - dd1 c lk * dd2 c lk * pv c lk / c) in *. clearbody D. rewrite Hsu in E. set (v := pv s lk) in *. clearbody v a. assert (D * (- a * v) <= 2 * (1 / 10 ^ 12 * v)).
    { assert (0 <= - a * v) by (apply Rmult_le_pos; lra). apply Rle_trans with (2 * (- a * v)); [apply Rmult_le_compat_r; lra|]. apply Rmult_le_compat_l; [lra|]. apply Rmult_le_compat_r; lra. } lra. }
  assert (Hr : (s - u) / pv u lk <= 2 / 10 ^ 12).
  { rewrite Hsu. apply (Rmult_le_reg_r (pv u lk)); [exact Pu|]. replace (- a * pv s lk / pv u lk * pv u lk) with (- a * pv s lk) by (field; lra).
    apply Rle_trans with (1 / 10 ^ 12 * (2 * pv u lk)); [|lra]. apply Rmult_le_compat; lra. }
  split; [|unfold lerr in *; lra]. split; [lra|]. split; [|intros _; exact Nu].
  assert (Lo : lerr s lk p * d - eta * (1 - d) <= lerr u lk p). { assert (lerr s lk p - a <= lerr u lk p) by (unfold lerr in *; lra). unfold a in *. lra. }
  apply Rle_trans with (2 := Lo). clearbody eta. clear - He Hd E0 E1 Hneg. set (e := lerr s lk p) in *. clearbody e.
  assert (- (1 / 10 ^ 12) * (3 / 10 ^ 13) <= e * d) by nra. assert (eta * (1 - d) <= tiny * 1) by (apply Rmult_le_compat; lra). unfold tiny in *. lra.
Qed.

Definition half_tol : R := / 2 / 10 ^ 10.
(** one pass of the loop *)
Lemma newton_step s lk p : Inv lk p s -> 0 <= lk -> 0 < p -> let u := iv_step s lk p in
  Inv lk p u /\ (lerr s lk p <= half_tol -> lerr u lk p <= half_tol) /\ (half_tol < lerr s lk p -> s + half_tol / 2 * pv s lk <= u /\ lerr u lk p <= lerr s lk p).
Proof.
  intros HI Hl Hp u. pose proof HI as (Hs & He & Hn). destruct (iv_data s lk p Hs Hl Hp) as (d & Hd & Ep & Ee & Hz).
  assert (Eu : u = s + (lerr s lk p + - ln (1 - d)) * (1 - d) * pv s lk) by (unfold u, iv_step; rewrite Ee, Ep; ring).
  pose proof (ln_1m d Hd) as [E0 E1]. pose proof (pv_pos s lk Hs) as P.
  destruct (Rle_dec 0 (lerr s lk p + - ln (1 - d))) as [A|A].
  - destruct (newton_pos s lk p d HI Hl Hd Hz A) as (I & U & M). rewrite <- Eu in I, U, M. split; [exact I|]. split; [intros; lra|].
    intros H. split; [|exact M]. rewrite Eu. apply Rplus_le_compat_l. apply Rmult_le_compat_r; [lra|]. unfold half_tol in *. nra.
  - destruct (newton_neg s lk p d HI Hl Hd ltac:(lra)) as (I & M). rewrite <- Eu in I, M. split; [exact I|]. unfold half_tol. split; [intros; lra|]. intros H. exfalso. lra.
Qed.
Fixpoint iv_iter (n : nat) (lk p s : R) : R := match n with O => s | S n' => iv_iter n' lk p (iv_step s lk p) end.
Lemma iv_iter_S n lk p s : iv_iter (S n) lk p s = iv_step (iv_iter n lk p s) lk p.
Proof. revert s. induction n as [|n IH]; intros s; [reflexivity|]. change (iv_iter (S n) lk p (iv_step s lk p) = iv_step (iv_iter (S n) lk p s) lk p). rewrite IH. reflexivity. Qed.
Lemma iter_inv n lk p s : Inv lk p s -> 0 <= lk -> 0 < p -> Inv lk p (iv_iter n lk p s).
Proof. intros HI Hl Hp. induction n as [|n IH]; [exact HI|]. rewrite iv_iter_S. now apply newton_step. Qed.
Lemma iter_climb n lk p s : Inv lk p s -> 0 <= lk -> 0 < p -> 
  lerr (iv_iter n lk p s) lk p <= half_tol \/ s + INR n * (half_tol / 2 * pv s lk) <= iv_iter n lk p s.
Proof.
  intros HI Hl Hp. pose proof (pv_pos s lk (proj1 HI)) as P. induction n as [|n IH]; [right; cbn; lra|]. rewrite iv_iter_S. pose proof (iter_inv n lk p s HI Hl Hp) as In.
  destruct (newton_step _ lk p In Hl Hp) as (_ & A & B). destruct IH as [IH|IH]; [left; now apply A|].
  destruct (Rle_dec (lerr (iv_iter n lk p s) lk p) half_tol) as [C|C]; [left; now apply A|]. right. destruct (B ltac:(lra)) as [B1 _]. rewrite S_INR.
  assert (Hh : 0 < half_tol / 2) by (unfold half_tol; lra). pose proof (pos_INR n) as Hi.
  assert (0 <= INR n * (half_tol / 2 * pv s lk)) by (apply Rmult_le_pos; [exact Hi|]; apply Rmult_le_pos; lra).
  pose proof (pv_mono s (iv_iter n lk p s) lk Hl (proj1 HI) ltac:(lra)). 
  assert (half_tol / 2 * pv s lk <= half_tol / 2 * pv (iv_iter n lk p s) lk) by (apply Rmult_le_compat_l; lra). lra.
Qed.
Lemma newton_converges lk p s t : Inv lk p s -> 0 <= lk -> 0 < p -> 0 < t -> cstd t lk = p ->
  exists N, forall n, (N <= n)%nat -> Rabs (iv_err (iv_iter n lk p s) lk p) < IMPVOL_TOL.
Proof.
  intros HI Hl Hp Ht Et. pose proof (pv_pos s lk (proj1 HI)) as P. assert (Hh : 0 < half_tol) by (unfold half_tol; lra).
  assert (HN : exists N, lerr (iv_iter N lk p s) lk p <= half_tol).
  { destruct (P_Alloc.INR_archimed (half_tol / 2 * pv s lk) t) as [N HN]; [apply Rmult_lt_0_compat; lra|]. exists N.
    destruct (iter_climb N lk p s HI Hl Hp) as [A|A]; [exact A|]. pose proof (proj1 HI) as Hs.
    assert (B : t <= iv_iter N lk p s) by lra. pose proof (lncstd_mono t (iv_iter N lk p s) lk Ht B) as M. rewrite Et in M. unfold lerr. lra. }
  destruct HN as [N HN]. exists N. intros n Hn. assert (E : lerr (iv_iter n lk p s) lk p <= half_tol).
  { induction Hn as [|n Hn IH]; [exact HN|]. rewrite iv_iter_S. apply newton_step; try assumption. now apply iter_inv. }
  destruct (iter_inv n lk p s HI Hl Hp) as (Hs & He & _). destruct (iv_data (iv_iter n lk p s) lk p Hs Hl Hp) as (d & Hd & _ & Ee & _).
  rewrite Ee, Rabs_Ropp. pose proof (ln_1m d Hd) as [E0 E1]. unfold half_tol, tiny, IMPVOL_TOL in *. apply Rabs_def1; lra.
Qed.
