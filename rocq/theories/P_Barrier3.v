(** Knock-out calls struck below a lower barrier: the coded price increases with the strike. *)
From Coq Require Import Reals Lra Lia Psatz.
From Coquelicot Require Import Coquelicot.
From Verif Require Import Base Gauss Spec_Opt M_Opt P_Bsm P_Norm P_Black Spec_Barrier P_Barrier P_Barrier2.
Open Scope R_scope.
Lemma black_drop s F K1 K2 : 0 < s -> 0 < F -> 0 < K1 -> K1 < K2 -> exists c, K1 <= c <= K2 /\
  black s F K2 1 - black s F K1 1 = - Phi (ln (F / c) / s - s / 2) * (K2 - K1).
Proof.
  intros Hs HF H1 H2. destruct (MVT_R (fun u => black s F u 1) (fun u => -1 * Phi (1 * (ln (F / u) / s - s / 2))) K1 K2 H2) as (c & Hc & E).
  { intros z Hz. pose proof (is_derive_black_K s F z 1 (or_introl eq_refl) Hs HF ltac:(lra)) as D. eapply is_derive_eq; [exact D|]. ring. }
  exists c. split; [exact Hc|]. rewrite E, Rmult_1_l. ring.
Qed.
Lemma wrong_side m K1 K2 B S T : is_fwd m = false -> intr m = divr m -> 0 < K1 -> K1 < K2 -> 0 < B -> 2 * B <= S -> 0 < sigma m -> 0 < T -> eps <= sigma m * sqrt T ->
  K2 <= B ^ 2 / S * exp (- (sigma m ^ 2 * T / 2)) ->
  bsm_price_barrier m K1 B S T 1 (-1) < bsm_price_barrier m K2 B S T 1 (-1).
Proof.
  intros Hf Hr H1 H12 HB HS Hs HT He HK. set (s := sigma m * sqrt T). assert (Hs' : 0 < s) by (unfold s; apply Rmult_lt_0_compat; [exact Hs|now apply sqrt_lt_R0]).
  assert (PR : 0 < B ^ 2 / S) by (apply Rdiv_lt_0_compat; [apply pow_lt|]; lra).
  assert (MF : forall x, 0 < x -> mF m x T = x). { intros x Hx. unfold mF, FWD. rewrite Hf, Hr. unfold DF. replace ((divr m - divr m) * T) with 0 by ring. try rewrite exp_0. field. }
  assert (E : forall K, 0 < K -> bsm_price_barrier m K B S T 1 (-1) = mD m T * (black s S K 1 - S / B * black s (B ^ 2 / S) K 1)).
  { intros K HK'. unfold bsm_price_barrier, price_barrier, bsm_barrier_params. cbv zeta iota beta. destruct (Rlt_dec 0 (-1)); [lra|]. destruct (Rlt_dec B S); [|lra]. rewrite !Rmult_1_l. destruct (Rlt_dec 0 1); [|lra].
    rewrite !bsm_suboptimal_vanilla, !bsm_price_eq, !MF by lra. rewrite !sigma_std_big by exact He. fold s. rewrite Hr. replace (2 * (divr m - divr m) / sigma m ^ 2 - 1) with (- (1)) by (unfold Rdiv; ring).
    rewrite Rpower_Ropp, Rpower_1 by (apply Rdiv_lt_0_compat; lra). replace (/ (B / S)) with (S / B) by (field; lra). ring. }
  rewrite !E by lra. apply Rmult_lt_compat_l; [apply mD_pos|].
  destruct (black_drop s S K1 K2 Hs' ltac:(lra) H1 H12) as (c & Hc & E1). destruct (black_drop s (B ^ 2 / S) K1 K2 Hs' PR H1 H12) as (d & Hd & E2).
  pose proof (Phi_lt_1 (ln (S / c) / s - s / 2)) as P1. set (p := Phi (ln (S / c) / s - s / 2)) in *.
  assert (P2 : / 2 <= Phi (ln (B ^ 2 / S / d) / s - s / 2)).
  { rewrite <- Phi_0. apply Phi_le. assert (L : s ^ 2 / 2 <= ln (B ^ 2 / S / d)).
    { rewrite <- (ln_exp (s ^ 2 / 2)). apply Rcomplements.ln_le; [apply exp_pos|]. assert (E3 : s ^ 2 = sigma m ^ 2 * T) by (unfold s; replace ((sigma m * sqrt T) ^ 2) with (sigma m ^ 2 * (sqrt T * sqrt T)) by ring; rewrite sqrt_sqrt by lra; reflexivity).
      rewrite exp_Ropp in HK. rewrite E3. set (g := exp (sigma m ^ 2 * T / 2)) in *. assert (Hg : 0 < g) by apply exp_pos.
      apply Rmult_le_reg_r with d; [lra|]. replace (B ^ 2 / S / d * d) with (B ^ 2 / S) by (field; lra). assert (L2 : d <= B ^ 2 / S * / g) by lra. apply Rmult_le_compat_l with (r := g) in L2; [|lra]. replace (g * (B ^ 2 / S * / g)) with (B ^ 2 / S) in L2 by (field; lra). lra. }
    apply Rmult_le_compat_r with (r := / s) in L; [|left; now apply Rinv_0_lt_compat]. replace (s ^ 2 / 2 * / s) with (s / 2) in L by (field; lra). unfold Rdiv in *. lra. }
  set (p2 := Phi (ln (B ^ 2 / S / d) / s - s / 2)) in *.
  assert (P3 : 2 <= S / B). { apply Rmult_le_reg_r with B; [exact HB|]. replace (S / B * B) with S by (field; lra). lra. }
  assert (P4 : 1 <= S / B * p2) by nra. set (ps := S / B) in *. assert (0 < (ps * p2 - p) * (K2 - K1)) by (apply Rmult_lt_0_compat; lra).
  assert (X : black s S K2 1 - ps * black s (B ^ 2 / S) K2 1 - (black s S K1 1 - ps * black s (B ^ 2 / S) K1 1) = (ps * p2 - p) * (K2 - K1)).
  { replace (black s S K2 1) with (black s S K1 1 + - p * (K2 - K1)) by lra. replace (black s (B ^ 2 / S) K2 1) with (black s (B ^ 2 / S) K1 1 + - p2 * (K2 - K1)) by lra. ring. }
  lra.
Qed.
