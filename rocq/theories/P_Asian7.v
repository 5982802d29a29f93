(** Ju's Taylor corrections: second-moment test for baskets and Asian options *)
From Coq Require Import Reals Lra Lia Psatz List Arith.
From Coquelicot Require Import Coquelicot.
From Verif Require Import Base Gauss Sums Spec_Opt Spec_Expect M_Opt M_Heston M_Fd M_Sabr M_Params M_Multi M_Asian Spec_Asian P_Black P_Bsm P_Multi P_Multi2 P_Asian P_Asian2 P_Asian3 P_Asian4 P_Asian6.
Import ListNotations.
Open Scope R_scope.

Lemma ism_ext (f g : R -> R) v : (forall K, 0 < K -> f K = g K) -> implied_second_moment f v -> implied_second_moment g v.
Proof.
  intros H [A B]. assert (forall b x, Rmin (exp (- b)) (exp b) < x < Rmax (exp (- b)) (exp b) -> 2 * f x = 2 * g x) as HE.
  { intros b x Hx. f_equal. apply H. pose proof (exp_pos (- b)). pose proof (exp_pos b). unfold Rmin in Hx. destruct (Rle_dec (exp (- b)) (exp b)); lra. }
  split.
  - intros b Hb. apply (ex_RInt_ext (fun K => 2 * f K)); [intros x Hx; exact (HE b x Hx)|apply A, Hb].
  - apply (is_lim_ext (fun b => RInt (fun K => 2 * f K) (exp (- b)) (exp b))); [|exact B].
    intros b. apply RInt_ext. intros x Hx. exact (HE b x Hx).
Qed.
Lemma ism_unique f u v : implied_second_moment f u -> implied_second_moment f v -> u = v.
Proof. intros [_ A] [_ B]. apply is_lim_unique in A. apply is_lim_unique in B. rewrite A in B. injection B. auto. Qed.

(** ** baskets: the correction leaves the implied second moment at the basket's *)
Lemma ju_basket_second o spot T : let fwd := mk_fwd (bk_m o) spot T in let s := sqrt (ln (1 + mv_var_scaled o fwd T)) in
  0 < mv_m1 o fwd -> eps <= s -> forall corr,
  implied_second_moment (fun K => ju_price o corr K spot T 1 / mk_df (bk_m o) T) (mv_m2 o fwd T).
Proof.
  intros fwd s H1 Hs corr. pose proof eps_pos as He. assert (0 < s) as Hs0 by lra.
  assert (0 < mk_df (bk_m o) T) as Hdf by apply exp_pos.
  set (m1 := mv_m1 o fwd) in *.
  assert (ln (1 + mv_var_scaled o fwd T) = s ^ 2) as El.
  { unfold s in *. rewrite pow2_sqrt; [reflexivity|]. destruct (Rle_dec 0 (ln (1 + mv_var_scaled o fwd T))); [assumption|]. rewrite sqrt_neg_0 in Hs0 by lra. lra. }
  assert (0 < s ^ 2) as Hs2 by (apply pow_lt; exact Hs0).
  assert (0 < 1 + mv_var_scaled o fwd T) as Hq.
  { destruct (Rlt_dec 0 (1 + mv_var_scaled o fwd T)); [assumption|]. exfalso. unfold ln in El. destruct (Rlt_dec 0 (1 + mv_var_scaled o fwd T)); [contradiction|lra]. }
  assert (mv_m2 o fwd T = m1 ^ 2 * exp (s ^ 2)) as Em2.
  { rewrite <- El, exp_ln by exact Hq. unfold mv_var_scaled. fold m1. field. lra. }
  assert (ju_u2 (ln m1 - s ^ 2 / 2) s = mv_m2 o fwd T) as Eu2.
  { unfold ju_u2. rewrite Em2. replace (2 * (ln m1 - s ^ 2 / 2) + 2 * s ^ 2) with (ln m1 + ln m1 + s ^ 2) by field. rewrite !exp_plus, exp_ln by exact H1. ring. }
  assert (ju_u1 (ln m1 - s ^ 2 / 2) s = m1) as Eu1.
  { unfold ju_u1. replace (ln m1 - s ^ 2 / 2 + s ^ 2 / 2) with (ln m1) by field. apply exp_ln, H1. }
  assert (forall K, 0 < K -> bsm_price_formula K m1 s 1 1 0 0 true = ju_base (ln m1 - s ^ 2 / 2) s K) as Eb.
  { intros K HK. rewrite bsm_formula_black. assert (Es : sigma_std s 1 = s) by (unfold sigma_std; rewrite sqrt_1, Rmult_1_r; apply Rmax_left, Hs). rewrite Es.
    unfold black, ju_base. rewrite Eu1. unfold ju_w. rewrite ln_div by assumption.
    replace ((ln m1 - s ^ 2 / 2 - ln K) / s + s) with (1 * ((ln m1 - ln K) / s + s / 2)) by (field; lra).
    replace ((ln m1 - s ^ 2 / 2 - ln K) / s) with (1 * ((ln m1 - ln K) / s - s / 2)) by (field; lra). ring. }
  destruct corr.
  - assert (exists z1 z2 z3, z1 - 2 * z2 + 4 * z3 = 0 /\ forall K, 0 < K -> ju_corr o fwd K T s m1 = ju_D (ln m1 - s ^ 2 / 2) s z1 z2 z3 K) as (z1 & z2 & z3 & Ez & ED).
    { unfold ju_corr. cbv zeta.
      match goal with |- context [?z1 * (npdf (ln (m1 / _) / s - / 2 * s) / s) + ?z2 * (npdf (ln (m1 / _) / s - / 2 * s) / s * (ln (m1 / _) / s - / 2 * s) / s) + ?z3 * (npdf (ln (m1 / _) / s - / 2 * s) / s * ((ln (m1 / _) / s - / 2 * s) ^ 2 - 1) / s ^ 2)] =>
        exists z1, z2, z3 end.
      split.
      - repeat match goal with |- context [rsum (bn o) ?f] => generalize (rsum (bn o) f); intro end. field. lra.
      - intros K HK. unfold ju_D, ju_w. rewrite ln_div by assumption.
        replace ((ln m1 - s ^ 2 / 2 - ln K) / s) with ((ln m1 - ln K) / s - / 2 * s) by (field; lra). reflexivity. }
    pose proof (ju_second (ln m1 - s ^ 2 / 2) s z1 z2 z3 Hs0) as HJ. unfold ju_c in HJ. rewrite Ez, Eu2 in HJ.
    replace (mv_m2 o fwd T * (1 + 2 * 0)) with (mv_m2 o fwd T) in HJ by ring. eapply ism_ext; [|exact HJ].
    intros K HK. unfold ju_price. cbv zeta. fold fwd m1 s. rewrite Eb, ED by exact HK. field. lra.
  - pose proof (ju_second (ln m1 - s ^ 2 / 2) s 0 0 0 Hs0) as HJ. unfold ju_c in HJ. rewrite Eu2 in HJ.
    replace (mv_m2 o fwd T * (1 + 2 * (0 - 2 * 0 + 4 * 0))) with (mv_m2 o fwd T) in HJ by ring. eapply ism_ext; [|exact HJ].
    intros K HK. unfold ju_price. cbv zeta. fold fwd m1 s. rewrite Eb by exact HK. unfold ju_D. field. lra.
Qed.

(** ** Asian: the second moment for every g <> - sigma^2, r = q included *)
Definition tex (a t : R) : R := t * exprel (a * t).
Lemma tex_derive (a t : R) : is_derive (tex a) t (exp (a * t)).
Proof.
  destruct (Req_dec a 0) as [->|Ha].
  - apply (is_derive_ext (fun t => t)); [intros u; unfold tex; rewrite Rmult_0_l, exprel_z; symmetry; apply Rmult_1_r|]. rewrite Rmult_0_l, exp_0. apply (is_derive_id (K := R_AbsRing)).
  - apply (is_derive_ext (fun t => (exp (a * t) - 1) / a)).
    + intros u. Req. unfold tex. destruct (Req_dec u 0) as [->|Hu]; [rewrite Rmult_0_r, exp_0; field; exact Ha|].
      rewrite exprel_nz by (apply Rmult_integral_contrapositive; split; assumption). field. split; assumption.
    + auto_derive; [trivial|]. Req. field. exact Ha.
Qed.
Section Z2.
Variables (g s T : R).
Hypotheses (Hs : 0 < s) (HT : 0 < T) (Hg : g + s ^ 2 <> 0).
Definition M2f (m k : nat) (t : R) : R :=
  match m, k with
  | O, k => exp (mS g s k * t)
  | 1%nat, O => tex g t
  | 1%nat, 1%nat => (exp ((2 * g + s ^ 2) * t) - exp (g * t)) / (g + s ^ 2)
  | 2%nat, O => 2 * (tex (2 * g + s ^ 2) t - tex g t) / (g + s ^ 2)
  | _, _ => 0
  end.
Lemma tex0 a : tex a 0 = 0. Proof. unfold tex. ring. Qed.
Lemma asian_12 n : (n <= 2)%nat -> asian_moment g s T n (M2f n 0 T / T ^ n).
Proof using Hs HT Hg.
  intros Hn.
  apply (asian_moment_lim g s T Hs HT M2f (fun m k => (m + k <= 2)%nat)); [..|lia].
  - reflexivity.
  - intros [|[|m]] [|[|k]] H; try lia; cbn [M2f]; rewrite ?Rmult_0_r, ?tex0; try reflexivity; field; exact Hg.
  - intros [|[|m]] [|[|k]] t H; try lia; cbn [M2f]; unfold mS; cbn [INR].
    + eapply is_derive_eq; [apply (tex_derive g t)|]. Req.
      match goal with |- _ = _ + _ * exp ?e => replace e with (g * t) by field end. field.
    + change (M2f 1 1) with (fun t : R => (exp ((2 * g + s ^ 2) * t) - exp (g * t)) / (g + s ^ 2)). auto_derive; [trivial|]. Req.
      match goal with |- _ = _ + _ * exp ?e => replace e with ((2 * g + s ^ 2) * t) by field end.
      replace (s * (s * 1)) with (s ^ 2) by ring. generalize (exp ((2 * g + s ^ 2) * t)) (exp (g * t)). intros. field. exact Hg.
    + change (M2f 2 0) with (fun t : R => 2 * (tex (2 * g + s ^ 2) t - tex g t) / (g + s ^ 2)).
      pose proof (tex_derive (2 * g + s ^ 2) t) as D1. pose proof (tex_derive g t) as D2.
      set (f1 := tex (2 * g + s ^ 2)) in *. set (f2 := tex g) in *.
      assert (ex_derive f1 t) as X1 by (eexists; exact D1). assert (ex_derive f2 t) as X2 by (eexists; exact D2).
      apply is_derive_unique in D1, D2. clearbody f1 f2.
      auto_derive; [repeat split; assumption|]. change (Derive (fun x : R => f1 x) t) with (Derive f1 t). change (Derive (fun x : R => f2 x) t) with (Derive f2 t).
      rewrite D1, D2. Req. replace (s * (s * 1)) with (s ^ 2) by ring. field. exact Hg.
  - intros m k H. lia.
Qed.
End Z2.
Lemma jua_moments (m : opt) T : 0 < sigma m -> 0 < T -> intr m - divr m + sigma m ^ 2 <> 0 ->
  asian_moment (intr m - divr m) (sigma m) T 1 (jua_u1 m 1 T) /\ asian_moment (intr m - divr m) (sigma m) T 2 (jua_u2 m 1 T).
Proof.
  intros Hs HT Hg. pose proof (asian_12 _ _ T Hs HT Hg 1 ltac:(lia)) as A. pose proof (asian_12 _ _ T Hs HT Hg 2 ltac:(lia)) as B.
  cbn [M2f] in A, B. unfold tex in A, B. split.
  - unfold jua_u1. match type of A with asian_moment _ _ _ _ ?x => replace (1 * exprel ((intr m - divr m) * T)) with x; [exact A|field; lra] end.
  - unfold jua_u2. cbv zeta. match type of B with asian_moment _ _ _ _ ?x => match goal with |- asian_moment _ _ _ _ ?y => replace y with x; [exact B|] end end.
    field. split; [lra|exact Hg].
Qed.
Lemma jua_scale (m : opt) S T : jua_u1 m S T = S * jua_u1 m 1 T /\ jua_u2 m S T = S ^ 2 * jua_u2 m 1 T.
Proof. unfold jua_u1, jua_u2. split; [ring|]. cbv zeta. unfold Rdiv. ring. Qed.
Lemma jua_parity (m : opt) K S T : jua_price m K S T 1 - jua_price m K S T (- (1)) = DF (intr m) T * (jua_u1 m S T - K).
Proof.
  unfold jua_price. destruct (jua_z m T) as [[z1 z2] z3]. cbv zeta. destruct (Req_EM_T 1 1); [|lra]. destruct (Req_EM_T (- (1)) 1); [lra|]. destruct (Req_EM_T (- (1)) (- (1))); [|lra].
  unfold DF. replace (- (intr m * T)) with (- intr m * T) by ring. ring.
Qed.
(** what the correction does to the second moment *)
Definition jua_q (x : R) : R :=
  - (1 / 11340 - 13 * x / 30480 - 17 * x ^ 2 / 226800 + 23 * x ^ 3 / 453600 + 59 * x ^ 4 / 5987520)
  + 2 * (31 / 22680 - 11 * x / 60480 - 37 * x ^ 2 / 151200 - 19 * x ^ 3 / 302400 + 953 * x ^ 4 / 59875200)
  + 4 * (2 / 2835 - x / 60480 - 2 * x ^ 2 / 14175 - 17 * x ^ 3 / 907200 + 13 * x ^ 4 / 1247400).
Lemma jua_second (m : opt) S T : 0 < jua_u1 m S T -> jua_u1 m S T ^ 2 < jua_u2 m S T ->
  implied_second_moment (fun K => jua_price m K S T 1 / DF (intr m) T)
    (jua_u2 m S T * (1 + 2 * (sigma m ^ 6 * T ^ 3 * jua_q ((intr m - divr m) * T)))).
Proof.
  intros H1 H2. set (u1 := jua_u1 m S T) in *. set (u2 := jua_u2 m S T) in *.
  assert (0 < u1 ^ 2) by (apply pow_lt; exact H1). assert (0 < u2) as Hu2 by lra.
  set (m1 := 2 * ln u1 - / 2 * ln u2). set (v1 := ln u2 - 2 * ln u1).
  assert (0 < v1) as Hv. { unfold v1. replace (2 * ln u1) with (ln (u1 ^ 2)) by (rewrite ln_pow by exact H1; cbn [INR]; ring). pose proof (ln_increasing (u1 ^ 2) u2 ltac:(assumption) H2). lra. }
  set (sv := sqrt v1). assert (0 < sv) as Hs by (apply sqrt_lt_R0; exact Hv). assert (sv ^ 2 = v1) as Hsv by (apply pow2_sqrt; lra).
  assert (ju_u2 m1 sv = u2) as E2. { unfold ju_u2. rewrite Hsv. unfold m1, v1. replace (2 * (2 * ln u1 - / 2 * ln u2) + 2 * (ln u2 - 2 * ln u1)) with (ln u2) by field. apply exp_ln, Hu2. }
  assert (ju_u1 m1 sv = u1) as E1. { unfold ju_u1. rewrite Hsv. unfold m1, v1. replace (2 * ln u1 - / 2 * ln u2 + (ln u2 - 2 * ln u1) / 2) with (ln u1) by field. apply exp_ln, H1. }
  destruct (jua_z m T) as [[z1 z2] z3] eqn:Ez.
  assert (ju_c z1 z2 z3 = sigma m ^ 6 * T ^ 3 * jua_q ((intr m - divr m) * T)) as Ec.
  { unfold jua_z in Ez. injection Ez. intros <- <- <-. unfold ju_c, jua_q. field. }
  pose proof (ju_second m1 sv z1 z2 z3 Hs) as HJ. rewrite E2, Ec in HJ.
  eapply ism_ext; [|exact HJ]. intros K HK. unfold jua_price. rewrite Ez. cbv zeta. fold u1 u2 m1 v1 sv. destruct (Req_EM_T 1 1); [|lra].
  pose proof (exp_pos (- (intr m * T))) as Hd. unfold DF. replace (- intr m * T) with (- (intr m * T)) by ring. set (df := exp (- (intr m * T))) in *.
  unfold ju_base, ju_D. rewrite E1. unfold ju_w.
  replace (m1 - ln K) with (- (ln K - m1)) by ring. set (x := ln K - m1).
  replace (npdf (- x / sv)) with (npdf (x / sv)) by (rewrite <- npdf_even; f_equal; field; lra).
  replace ((- x) / sv + sv - sv) with ((- x) / sv) by ring.
  replace (m1 - ln K) with (- x) by (unfold x; ring).
  rewrite <- Hsv. clearbody sv df x. clear Ez Ec HJ. generalize (npdf (x / sv)) (Phi (- x / sv + sv)) (Phi (- x / sv)). intros. field. split; lra.
Qed.
Lemma jua_refuted : exists m S T m2, 0 < sigma m /\ 0 < S /\ 0 < T /\ asian_moment (intr m - divr m) (sigma m) T 2 m2 /\
  0 < jua_u1 m S T /\ jua_u1 m S T ^ 2 < jua_u2 m S T /\
  ~ implied_second_moment (fun K => jua_price m K S T 1 / DF (intr m) T) (S ^ 2 * m2).
Proof.
  set (m := mkOpt 1 0 0 false). exists m, 1, 1, (jua_u2 m 1 1).
  assert (5 / 2 < exp 1) as He.
  { pose proof (P_Gmom.exp_ge_pow 6 1 ltac:(lra) ltac:(lia)) as H. cbn [INR] in H. lra. }
  assert (jua_u1 m 1 1 = 1) as E1. { unfold jua_u1, m; cbn [intr divr]. rewrite Rminus_0_r, Rmult_0_l, exprel_z. ring. }
  assert (jua_u2 m 1 1 = 2 * (exp 1 - 2)) as E2.
  { unfold jua_u2, m; cbn [intr divr sigma]. cbv zeta. replace ((0 - 0) * 1) with 0 by ring. replace ((2 * (0 - 0) + 1 ^ 2) * 1) with 1 by ring.
    rewrite exprel_z, exprel_nz by lra. field. }
  assert (0 < jua_u1 m 1 1) as H1 by (rewrite E1; lra). assert (jua_u1 m 1 1 ^ 2 < jua_u2 m 1 1) as H2 by (rewrite E1, E2; lra).
  split; [cbn; lra|]. split; [lra|]. split; [lra|].
  split; [apply (jua_moments m 1); cbn; lra|]. split; [exact H1|]. split; [exact H2|]. intros HC.
  pose proof (ism_unique _ _ _ HC (jua_second m 1 1 H1 H2)) as E. replace ((intr m - divr m) * 1) with 0 in E by (cbn; ring).
  replace (sigma m) with 1 in E by reflexivity. unfold jua_q in E. rewrite E2 in E. lra.
Qed.
