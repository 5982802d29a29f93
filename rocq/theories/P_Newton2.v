(** The price-to-vega ratio pv: monotone, so that the log-price is concave in volatility; its Taylor substitute. *)
From Coq Require Import Reals Lra Lia Psatz ZArith.
From Coquelicot Require Import Coquelicot.
From Verif Require Import Base Gauss P_Black M_Opt P_Bsm P_Impvol P_Newton.
Open Scope R_scope.

Definition dd1 (s lk : R) : R := - lk / s + s / 2.
Definition dd2 (s lk : R) : R := - lk / s - s / 2.
Definition pv (s lk : R) : R := gn 0 (dd1 s lk) - gn 0 (dd2 s lk).
Lemma dd_diff s lk : dd1 s lk - dd2 s lk = s.
Proof. unfold dd1, dd2. lra. Qed.
Lemma dd1_derive (s lk : R) : 0 < s -> is_derive (fun s => dd1 s lk) s (- dd2 s lk / s).
Proof. intros Hs. unfold dd1, dd2. auto_derive; [lra|]. Req. field. lra. Qed.
Lemma dd2_derive (s lk : R) : 0 < s -> is_derive (fun s => dd2 s lk) s (- dd1 s lk / s).
Proof. intros Hs. unfold dd1, dd2. auto_derive; [lra|]. Req. field. lra. Qed.
Lemma dd2_neg s lk : 0 < s -> 0 <= lk -> dd2 s lk < 0.
Proof. intros Hs Hl. unfold dd2. assert (0 <= lk / s) by (apply Rmult_le_pos; [lra|left; now apply Rinv_0_lt_compat]). unfold Rdiv in *. lra. Qed.
Lemma dd1_incr s u lk : 0 <= lk -> 0 < s -> s <= u -> dd1 s lk <= dd1 u lk.
Proof.
  intros Hl Hs Hu. unfold dd1. assert (lk / u <= lk / s). { unfold Rdiv. apply Rmult_le_compat_l; [exact Hl|]. apply Rinv_le_contravar; assumption. }
  unfold Rdiv in *. lra.
Qed.
Lemma pv_pos s lk : 0 < s -> 0 < pv s lk.
Proof. intros Hs. unfold pv. pose proof (gn_incr 0 (dd2 s lk) (dd1 s lk) ltac:(pose proof (dd_diff s lk); lra)). lra. Qed.
Lemma cstd_pv s lk : 0 < s -> cstd s lk = npdf (dd1 s lk) * pv s lk.
Proof. intros Hs. now rewrite cstd_eq by exact Hs. Qed.
Lemma pv_derive (s lk : R) : 0 < s -> is_derive (fun s => pv s lk) s (1 - dd1 s lk * dd2 s lk * pv s lk / s).
Proof.
  intros Hs. unfold pv at 1.
  eapply is_derive_eq.
  - apply (is_derive_minus_R (fun s => gn 0 (dd1 s lk)) (fun s => gn 0 (dd2 s lk))).
    + apply (is_derive_comp (gn 0) (fun s => dd1 s lk) s _ _ (gn_derive 0 _) (dd1_derive s lk Hs)).
    + apply (is_derive_comp (gn 0) (fun s => dd2 s lk) s _ _ (gn_derive 0 _) (dd2_derive s lk Hs)).
  - transitivity (- dd2 s lk / s * gn 1 (dd1 s lk) - - dd1 s lk / s * gn 1 (dd2 s lk)); [reflexivity|]. rewrite !gn_1. unfold pv.
    pose proof (dd_diff s lk) as Hd. set (a := gn 0 (dd1 s lk)). set (b := gn 0 (dd2 s lk)). clearbody a b. set (x := dd1 s lk) in *. set (y := dd2 s lk) in *. clearbody x y.
    replace x with (y + s) by lra. field. lra.
Qed.
(** g(x) - g(a) <= (x - a)/(1 + a x), a < x <= 0 *)
Lemma g_diff a x : a < x -> x <= 0 -> (gn 0 x - gn 0 a) * (1 + a * x) <= x - a.
Proof.
  intros Hax Hx. assert (Hax0 : forall y, a <= y <= x -> 0 < 1 + a * y) by (intros y Hy; nra).
  pose proof (Hax0 x ltac:(lra)) as H0.
  enough (H : gn 0 x - gn 0 a <= (x - a) / (1 + a * x)).
  { apply (Rmult_le_compat_r (1 + a * x)) in H; [|lra]. replace ((x - a) / (1 + a * x) * (1 + a * x)) with (x - a) in H by (field; lra). exact H. }
  pose proof (nondecreasing_on (fun y => (y - a) / (1 + a * y) - gn 0 y) (fun y => (1 + a ^ 2) / (1 + a * y) ^ 2 - gn 1 y) a x ltac:(lra)) as H.
  cbv beta in H. replace ((a - a) / (1 + a * a)) with 0 in H by (field; specialize (Hax0 a ltac:(lra)); lra).
  enough (0 - gn 0 a <= (x - a) / (1 + a * x) - gn 0 x) by lra. apply H.
  - intros z Hz. specialize (Hax0 z Hz). apply (is_derive_minus_R (fun y => (y - a) / (1 + a * y)) (gn 0)); [|apply gn_derive].
    auto_derive; [lra|]. Req. field. lra.
  - intros z Hz. specialize (Hax0 z Hz). pose proof (g1_upper z ltac:(lra)) as Hg.
    enough (gn 1 z <= (1 + a ^ 2) / (1 + a * z) ^ 2) by lra. assert (P2 : 0 < (1 + a * z) ^ 2) by (apply pow_lt; lra). assert (P3 : 0 < 1 + z ^ 2) by nra.
    apply Rle_trans with (/ (1 + z ^ 2)).
    + apply (Rmult_le_reg_r (1 + z ^ 2)); [exact P3|]. rewrite Rinv_l by lra. exact Hg.
    + apply (Rmult_le_reg_r ((1 + a * z) ^ 2 * (1 + z ^ 2))); [now apply Rmult_lt_0_compat|].
      replace (/ (1 + z ^ 2) * ((1 + a * z) ^ 2 * (1 + z ^ 2))) with ((1 + a * z) ^ 2) by (field; lra).
      replace ((1 + a ^ 2) / (1 + a * z) ^ 2 * ((1 + a * z) ^ 2 * (1 + z ^ 2))) with ((1 + a ^ 2) * (1 + z ^ 2)) by (field; lra). nra.
Qed.
Lemma pv_slope s lk : 0 < s -> 0 <= lk -> 0 <= 1 - dd1 s lk * dd2 s lk * pv s lk / s /\
  (dd1 s lk <= 0 -> pv s lk / s <= 1 - dd1 s lk * dd2 s lk * pv s lk / s <= 1) /\ (0 <= dd1 s lk -> 1 <= 1 - dd1 s lk * dd2 s lk * pv s lk / s).
Proof.
  intros Hs Hl. pose proof (pv_pos s lk Hs) as Hp. pose proof (dd2_neg s lk Hs Hl) as H2. pose proof (dd_diff s lk) as Hd.
  assert (A : dd1 s lk <= 0 -> pv s lk / s <= 1 - dd1 s lk * dd2 s lk * pv s lk / s <= 1).
  { intros H1. pose proof (g_diff (dd2 s lk) (dd1 s lk) ltac:(lra) H1) as G. fold (pv s lk) in G. rewrite Hd in G.
    assert (I : 0 < / s) by (now apply Rinv_0_lt_compat). split.
    - apply (Rmult_le_compat_r (/ s)) in G; [|lra]. rewrite Rinv_r in G by lra. unfold Rdiv. lra.
    - assert (0 <= dd1 s lk * dd2 s lk * pv s lk / s); [|lra]. apply Rmult_le_pos; [|lra]. apply Rmult_le_pos; [nra|lra]. }
  assert (B : 0 <= dd1 s lk -> 1 <= 1 - dd1 s lk * dd2 s lk * pv s lk / s).
  { intros H1. assert (I : 0 < / s) by (now apply Rinv_0_lt_compat). assert (0 <= - (dd1 s lk * dd2 s lk) * pv s lk * / s); [|unfold Rdiv; lra].
    apply Rmult_le_pos; [|lra]. apply Rmult_le_pos; [nra|lra]. }
  split; [|split; assumption]. destruct (Rle_dec (dd1 s lk) 0) as [H1|H1]; [|pose proof (B ltac:(lra)); lra].
  destruct (A H1) as [A1 _]. assert (0 < pv s lk / s) by (now apply Rdiv_lt_0_compat). lra.
Qed.
Lemma pv_mono s u lk : 0 <= lk -> 0 < s -> s <= u -> pv s lk <= pv u lk.
Proof.
  intros Hl Hs Hu. apply (nondecreasing_on (fun s => pv s lk) (fun s => 1 - dd1 s lk * dd2 s lk * pv s lk / s)); [exact Hu| |].
  - intros z Hz. apply pv_derive. lra.
  - intros z Hz. apply pv_slope; lra.
Qed.
(** concavity of the log-price: it lies below its tangents *)
Lemma lncstd_derive (s lk : R) : 0 < s -> is_derive (fun y => ln (cstd y lk)) s (/ pv s lk).
Proof.
  intros Hs. pose proof (cstd_pos s lk Hs) as Hc. pose proof (exp_pos lk) as Hk.
  assert (Hd : is_derive (fun y => cstd y lk) s (npdf (dd1 s lk))).
  { unfold cstd. pose proof (is_derive_black_s s 1 (exp lk) 1 (or_introl eq_refl) Hs ltac:(lra) Hk) as H.
    replace (1 / exp lk) with (exp (- lk)) in H by (rewrite exp_Ropp; field; lra). rewrite ln_exp, Rmult_1_l in H. exact H. }
  assert (Hln : is_derive ln (cstd s lk) (/ cstd s lk)) by (apply is_derive_Reals, derivable_pt_lim_ln, Hc).
  eapply is_derive_eq; [exact (is_derive_comp ln (fun y => cstd y lk) s _ _ Hln Hd)|].
  transitivity (npdf (dd1 s lk) * / cstd s lk); [reflexivity|]. rewrite cstd_pv by exact Hs. pose proof (npdf_pos (dd1 s lk)). pose proof (pv_pos s lk Hs). field. lra.
Qed.
Lemma tangent a b lk : 0 <= lk -> 0 < a -> 0 < b -> ln (cstd b lk) <= ln (cstd a lk) + (b - a) / pv a lk.
Proof.
  intros Hl Ha Hb. pose proof (pv_pos a lk Ha) as Pa. destruct (Rtotal_order a b) as [H|[<-|H]].
  - destruct (MVT_R (fun y => ln (cstd y lk)) (fun y => / pv y lk) a b H) as (c & Hc & E); [intros; apply lncstd_derive; lra|].
    cbv beta in E. assert (/ pv c lk <= / pv a lk) by (apply Rinv_le_contravar; [exact Pa|apply pv_mono; lra]). unfold Rdiv. nra.
  - unfold Rdiv. lra.
  - destruct (MVT_R (fun y => ln (cstd y lk)) (fun y => / pv y lk) b a H) as (c & Hc & E); [intros; apply lncstd_derive; lra|].
    cbv beta in E. assert (/ pv a lk <= / pv c lk) by (apply Rinv_le_contravar; [apply pv_pos; lra|apply pv_mono; lra]). unfold Rdiv. nra.
Qed.
Lemma lncstd_mono a b lk : 0 < a -> a <= b -> ln (cstd a lk) <= ln (cstd b lk).
Proof. intros Ha [H|<-]; [|lra]. left. apply ln_increasing; [now apply cstd_pos|now apply cstd_incr]. Qed.

(** near the origin *)
Definition near (s lk : R) : Prop := dd1 s lk <= / 500 /\ (dd1 s lk <= 0 \/ s <= 1).
Lemma near_down s u lk : 0 <= lk -> 0 < u -> u <= s -> near s lk -> near u lk.
Proof. intros Hl Hu Hus [A B]. pose proof (dd1_incr u s lk Hl Hu Hus). split; [lra|]. destruct B; [left; lra|right; lra]. Qed.
Lemma g0_small x : x <= / 500 -> gn 0 x <= 27 / 10.
Proof.
  intros Hx. apply Rle_trans with (gn 0 (/ 500)); [now apply gn_mono|]. cbn [gn].
  pose proof (npdf_pos (/ 500)) as Hn. pose proof (Phi_lt_1 (/ 500)) as HP. apply (Rmult_le_reg_r (npdf (/ 500))); [exact Hn|].
  replace (Phi (/ 500) / npdf (/ 500) * npdf (/ 500)) with (Phi (/ 500)) by (field; lra).
  enough (H : 1 <= 27 / 10 * npdf (/ 500)) by lra. unfold npdf. pose proof sqrt_2PI_pos as Hq.
  assert (Q : sqrt (2 * PI) <= 26 / 10). { rewrite <- (sqrt_square (26 / 10)) by lra. apply sqrt_le_1_alt. destruct (PI_ineq 2) as [_ HPI]. cbn [Nat.mul Nat.add sum_f_R0] in HPI. unfold tg_alt, PI_tg in HPI. cbn [Nat.mul Nat.add pow INR] in HPI. lra. }
  pose proof (exp_ineq1_le (- (/ 500 * / 500) / 2)) as He.
  apply (Rmult_le_reg_r (sqrt (2 * PI))); [exact Hq|]. replace (27 / 10 * (exp (- (/ 500 * / 500) / 2) / sqrt (2 * PI)) * sqrt (2 * PI)) with (27 / 10 * exp (- (/ 500 * / 500) / 2)) by (field; lra). lra.
Qed.
Lemma g1_small x : x <= / 500 -> gn 1 x <= 101 / 100.
Proof.
  intros Hx. apply Rle_trans with (gn 1 (/ 500)); [now apply gn_mono|]. rewrite gn_1. pose proof (g0_small (/ 500) ltac:(lra)). lra.
Qed.
Lemma pv_le s lk : 0 < s -> dd1 s lk <= / 500 -> pv s lk <= 101 / 100 * s.
Proof.
  intros Hs H1. pose proof (dd_diff s lk) as Hd. destruct (MVT_R (gn 0) (gn 1) (dd2 s lk) (dd1 s lk) ltac:(lra)) as (c & Hc & E); [intros; apply gn_derive|].
  unfold pv. rewrite E, Hd. pose proof (g1_small c ltac:(lra)). apply Rmult_le_compat_r; lra.
Qed.
Lemma pv_slope_near s lk : 0 < s -> 0 <= lk -> near s lk -> 98 / 100 * (pv s lk / s) <= 1 - dd1 s lk * dd2 s lk * pv s lk / s <= 2.
Proof.
  intros Hs Hl [N1 N2]. pose proof (pv_pos s lk Hs) as Hp. pose proof (pv_le s lk Hs N1) as Hle. destruct (pv_slope s lk Hs Hl) as (_ & A & B).
  assert (R1 : pv s lk / s <= 101 / 100). { apply (Rmult_le_reg_r s); [exact Hs|]. replace (pv s lk / s * s) with (pv s lk) by (field; lra). exact Hle. }
  assert (R0 : 0 < pv s lk / s) by (now apply Rdiv_lt_0_compat).
  destruct (Rle_dec (dd1 s lk) 0) as [H1|H1].
  - specialize (A H1). lra.
  - specialize (B ltac:(lra)). split; [lra|]. destruct N2 as [N2|N2]; [lra|]. pose proof (dd_diff s lk) as Hd. pose proof (dd2_neg s lk Hs Hl) as H2.
    replace (dd1 s lk * dd2 s lk * pv s lk / s) with (- (dd1 s lk * (- dd2 s lk) * (pv s lk / s))) by (field; lra).
    assert (dd1 s lk * - dd2 s lk * (pv s lk / s) <= / 500 * 1 * (101 / 100)); [|lra].
    assert (0 <= dd1 s lk * - dd2 s lk) by nra. apply Rmult_le_compat; [assumption|lra| |exact R1]. apply Rmult_le_compat; lra.
Qed.
