From Coq Require Import Reals Lra Psatz.
From Coquelicot Require Import Coquelicot.
From Verif Require Import Base Gauss Spec_Opt M_Opt P_Black P_Bsm P_Expect M_Svi Spec_Svi.
Open Scope R_scope.

Lemma hyp_ge m s r : -1 < r < 1 -> Rabs s * sqrt (1 - r ^ 2) <= r * m + sqrt (m ^ 2 + s ^ 2).
Proof.
  intros Hr. set (q := sqrt (1 - r ^ 2)). assert (Q2 : q ^ 2 = 1 - r ^ 2) by (apply pow2_sqrt; nra). assert (Q0 : 0 <= q) by apply sqrt_pos.
  assert (M2 : 0 <= m ^ 2 + s ^ 2) by nra. set (a := Rabs s). assert (A2 : a ^ 2 = s ^ 2) by apply pow2_abs. assert (A0 : 0 <= a) by apply Rabs_pos. clearbody a q.
  enough (a * q - r * m <= sqrt (m ^ 2 + s ^ 2)) by lra. rewrite <- A2 in *.
  destruct (Rle_dec (a * q - r * m) 0) as [N|N]; [pose proof (sqrt_pos (m ^ 2 + a ^ 2)); lra|].
  rewrite <- (sqrt_pow2 (a * q - r * m)) by lra. apply sqrt_le_1_alt. pose proof (pow2_ge_0 (q * m + r * a)). nra.
Qed.
Lemma hyp_eq s r : -1 < r < 1 -> let m := - r * Rabs s / sqrt (1 - r ^ 2) in r * m + sqrt (m ^ 2 + s ^ 2) = Rabs s * sqrt (1 - r ^ 2).
Proof.
  intros Hr m. set (q := sqrt (1 - r ^ 2)) in *. assert (Q2 : q ^ 2 = 1 - r ^ 2) by (apply pow2_sqrt; nra). assert (Q0 : 0 < q) by (apply sqrt_lt_R0; nra).
  rewrite <- (pow2_abs s). set (a := Rabs s) in *. assert (A0 : 0 <= a) by apply Rabs_pos.
  replace (m ^ 2 + a ^ 2) with ((a / q) ^ 2). 2:{ unfold m. replace ((- r * a / q) ^ 2 + a ^ 2) with (a ^ 2 * (r ^ 2 + q ^ 2) / q ^ 2) by (field; lra). replace (r ^ 2 + q ^ 2) with 1 by lra. field. lra. }
  rewrite sqrt_pow2 by (apply Rmult_le_pos; [exact A0|left; now apply Rinv_0_lt_compat]). unfold m.
  replace (r * (- r * a / q) + a / q) with (a * (1 - r ^ 2) / q) by (field; lra). replace (1 - r ^ 2) with (q ^ 2) by lra. field. lra.
Qed.
Lemma svi_min m k : -1 < s_rho m < 1 -> 0 <= s_vov m -> s_sigma m + s_vov m * (Rabs (s_smooth m) * sqrt (1 - s_rho m ^ 2)) <= svi_var m k.
Proof. intros Hr Hv. unfold svi_var. cbv zeta. apply Rplus_le_compat_l, Rmult_le_compat_l; [exact Hv|]. now apply hyp_ge. Qed.
Lemma svi_argmin m : -1 < s_rho m < 1 ->
  svi_var m (s_shift m - s_rho m * Rabs (s_smooth m) / sqrt (1 - s_rho m ^ 2)) = s_sigma m + s_vov m * (Rabs (s_smooth m) * sqrt (1 - s_rho m ^ 2)).
Proof.
  intros Hr. unfold svi_var. cbv zeta. rewrite <- (hyp_eq (s_smooth m) (s_rho m) Hr). cbv zeta.
  replace (s_shift m - s_rho m * Rabs (s_smooth m) / sqrt (1 - s_rho m ^ 2) - s_shift m) with (- s_rho m * Rabs (s_smooth m) / sqrt (1 - s_rho m ^ 2)) by (unfold Rdiv; ring). reflexivity.
Qed.
Lemma sqrt_convex s x y t : 0 <= t <= 1 -> sqrt ((t * x + (1 - t) * y) ^ 2 + s ^ 2) <= t * sqrt (x ^ 2 + s ^ 2) + (1 - t) * sqrt (y ^ 2 + s ^ 2).
Proof.
  intros Ht. assert (X : 0 <= x ^ 2 + s ^ 2) by nra. assert (Y : 0 <= y ^ 2 + s ^ 2) by nra.
  set (a := sqrt (x ^ 2 + s ^ 2)). set (b := sqrt (y ^ 2 + s ^ 2)). assert (A2 : a ^ 2 = x ^ 2 + s ^ 2) by now apply pow2_sqrt. assert (B2 : b ^ 2 = y ^ 2 + s ^ 2) by now apply pow2_sqrt.
  assert (A0 : 0 <= a) by apply sqrt_pos. assert (B0 : 0 <= b) by apply sqrt_pos.
  assert (CS : x * y + s ^ 2 <= a * b).
  { destruct (Rle_dec (x * y + s ^ 2) 0); [pose proof (Rmult_le_pos a b A0 B0); lra|]. apply Rsqr_incr_0_var; [|now apply Rmult_le_pos]. unfold Rsqr.
    replace (a * b * (a * b)) with (a ^ 2 * b ^ 2) by ring. rewrite A2, B2. pose proof (pow2_ge_0 (s * x - s * y)). nra. }
  clearbody a b. rewrite <- (sqrt_pow2 (t * a + (1 - t) * b)) by nra. apply sqrt_le_1_alt.
  replace ((t * a + (1 - t) * b) ^ 2) with (t ^ 2 * a ^ 2 + 2 * (t * (1 - t)) * (a * b) + (1 - t) ^ 2 * b ^ 2) by ring. rewrite A2, B2.
  assert (0 <= t * (1 - t)) by nra. nra.
Qed.
Lemma svi_convex m : 0 <= s_vov m -> convex_fun (svi_var m).
Proof.
  intros Hv x y t Ht. unfold svi_var. cbv zeta. pose proof (sqrt_convex (s_smooth m) (x - s_shift m) (y - s_shift m) t Ht) as H.
  replace (t * (x - s_shift m) + (1 - t) * (y - s_shift m)) with (t * x + (1 - t) * y - s_shift m) in H by ring.
  apply Rmult_le_compat_l with (r := s_vov m) in H; [|exact Hv]. nra.
Qed.
(** wings: distance to the asymptotes *)
Lemma hyp_wing m s : 0 < m -> m <= sqrt (m ^ 2 + s ^ 2) <= m + s ^ 2 / (2 * m).
Proof.
  intros Hm. split.
  - rewrite <- (sqrt_pow2 m) at 1 by lra. apply sqrt_le_1_alt. nra.
  - assert (0 <= s ^ 2 / (2 * m)) by (apply Rmult_le_pos; [nra|left; apply Rinv_0_lt_compat; lra]).
    rewrite <- (sqrt_pow2 (m + s ^ 2 / (2 * m))) by lra. apply sqrt_le_1_alt. replace ((m + s ^ 2 / (2 * m)) ^ 2) with (m ^ 2 + s ^ 2 + (s ^ 2 / (2 * m)) ^ 2) by (field; lra).
    pose proof (pow2_ge_0 (s ^ 2 / (2 * m))). lra.
Qed.
Lemma svi_wings m : 0 <= s_vov m -> forall z, 0 < z ->
  0 <= svi_var m (s_shift m + z) - (s_sigma m + s_vov m * (1 + s_rho m) * z) <= s_vov m * (s_smooth m ^ 2 / (2 * z)) /\
  0 <= svi_var m (s_shift m - z) - (s_sigma m + s_vov m * (1 - s_rho m) * z) <= s_vov m * (s_smooth m ^ 2 / (2 * z)).
Proof.
  intros Hv z Hz. unfold svi_var. cbv zeta. replace (s_shift m + z - s_shift m) with z by ring. replace (s_shift m - z - s_shift m) with (- z) by ring.
  replace ((- z) ^ 2) with (z ^ 2) by ring. pose proof (hyp_wing z (s_smooth m) Hz) as [A B]. set (h := sqrt (z ^ 2 + s_smooth m ^ 2)) in *. set (d := s_smooth m ^ 2 / (2 * z)) in *. clearbody h d. split; nra.
Qed.

(** from Heston *)
Lemma from_heston sigma vov rho mr theta texp r q isf k : 0 < sigma -> 0 < vov -> -1 < rho < 1 -> 0 < mr -> 0 < theta -> 0 < texp ->
  svi_var (svi_from_heston sigma vov rho mr theta texp r q isf) k = gj_smile (gj_w1 mr theta vov rho) (sigma / (mr * theta)) rho (k / texp).
Proof.
  intros Hs Hv Hr Hm Ht HT. unfold svi_var, svi_from_heston, gj_smile, gj_w1. cbn [s_sigma s_vov s_rho s_smooth s_shift].
  set (q2 := 1 - rho ^ 2). assert (Q0 : 0 < q2) by (unfold q2; nra).
  set (E := sqrt ((2 * mr - rho * vov) ^ 2 + vov ^ 2 * q2) - (2 * mr - rho * vov)).
  replace (E * (4 * mr * theta / (vov ^ 2 * q2))) with (4 * mr * theta / (vov ^ 2 * q2) * E) by ring. set (w1 := 4 * mr * theta / (vov ^ 2 * q2) * E).
  set (w2 := sigma / (mr * theta)). assert (W2 : 0 < w2) by (apply Rdiv_lt_0_compat; nra).
  replace ((k - - rho * texp / w2) ^ 2 + (sqrt q2 * texp / w2) ^ 2) with ((texp / w2) ^ 2 * ((w2 * (k / texp) + rho) ^ 2 + q2)).
  2:{ replace ((sqrt q2 * texp / w2) ^ 2) with (sqrt q2 ^ 2 * (texp / w2) ^ 2) by (field; lra). rewrite pow2_sqrt by lra. field. lra. }
  rewrite sqrt_mult by (try apply pow2_ge_0; pose proof (pow2_ge_0 (w2 * (k / texp) + rho)); lra). rewrite sqrt_pow2 by (left; now apply Rdiv_lt_0_compat). set (S := sqrt ((w2 * (k / texp) + rho) ^ 2 + q2)). clearbody S. clearbody w1.
  replace (w1 * q2 / 2) with (w1 * (1 - rho ^ 2) / 2) by reflexivity. field. lra.
Qed.

(** large-maturity Heston: Legendre transforms *)
Lemma bs_max w x : 0 < w -> is_max_on (fun _ => True) (fun u => u * x - bs_cgf w u) ((x + w / 2) ^ 2 / (2 * w)).
Proof.
  intros Hw. unfold bs_cgf. split.
  - exists (x / w + / 2). split; [exact I|]. field. lra.
  - intros u _. apply Rmult_le_reg_r with (2 * w); [lra|]. replace ((x + w / 2) ^ 2 / (2 * w) * (2 * w)) with ((x + w / 2) ^ 2) by (field; lra).
    pose proof (pow2_ge_0 (x + w / 2 - w * u)). nra.
Qed.
Section Heston.
Variables (ka th xi rho : R).
Hypotheses (Hk : 0 < ka) (Ht : 0 < th) (Hx : 0 < xi) (Hr : -1 < rho < 1).
Let q := 1 - rho ^ 2.
Let E := sqrt ((2 * ka - rho * xi) ^ 2 + xi ^ 2 * q).
Let X x := xi / (ka * th) * x + rho.
Let S x := sqrt (X x ^ 2 + q).
Lemma q_pos : 0 < q. Proof using Hr. unfold q. nra. Qed.
Lemma E_sq : E ^ 2 = (2 * ka - rho * xi) ^ 2 + xi ^ 2 * q. Proof using Hr. unfold E. apply pow2_sqrt. pose proof q_pos. pose proof (pow2_ge_0 (2 * ka - rho * xi)). pose proof (pow2_ge_0 xi). pose proof (Rmult_le_pos (xi ^ 2) q). lra. Qed.
Lemma E_gt : Rabs (2 * ka - rho * xi) < E.
Proof using Hr Hx. unfold E. rewrite <- (sqrt_pow2 (Rabs (2 * ka - rho * xi))) by apply Rabs_pos. apply sqrt_lt_1_alt. rewrite pow2_abs. pose proof q_pos. split; [apply pow2_ge_0|]. assert (0 < xi ^ 2) by nra. nra. Qed.
Lemma S_sq x : S x ^ 2 = X x ^ 2 + q. Proof using Hr. unfold S. apply pow2_sqrt. pose proof q_pos. pose proof (pow2_ge_0 (X x)). lra. Qed.
Lemma S_gt x : Rabs (X x) < S x.
Proof using Hr. unfold S. rewrite <- (sqrt_pow2 (Rabs (X x))) by apply Rabs_pos. apply sqrt_lt_1_alt. rewrite pow2_abs. pose proof q_pos. split; [apply pow2_ge_0|]. nra. Qed.
Definition rate x := ka * th / (2 * xi ^ 2 * q) * ((xi - 2 * ka * rho) * X x - 2 * ka * q + E * S x).
Lemma heston_max x : is_max_on (heston_dom ka xi rho) (fun u => u * x - heston_cgf ka th xi rho u) (rate x).
Proof using Hk Ht Hx Hr.
  pose proof q_pos as Q. assert (X2 : 0 < xi ^ 2) by nra. assert (XQ : 0 < xi ^ 2 * q) by now apply Rmult_lt_0_compat. assert (XQ' : 0 < xi * q) by nra. pose proof E_sq as E2. pose proof (S_sq x) as S2. assert (E0 : 0 < E) by (pose proof E_gt; pose proof (Rabs_pos (2 * ka - rho * xi)); lra).
  assert (S0 : 0 < S x) by (pose proof (S_gt x); pose proof (Rabs_pos (X x)); lra).
  assert (A0 : 0 < ka * th) by nra. assert (XE : x = (X x - rho) * (ka * th) / xi) by (unfold X; field; lra).
  set (u0 := (xi - 2 * ka * rho) / (2 * xi * q)). set (h := E / (2 * xi * q)).
  assert (DQ : forall u, (ka - rho * xi * u) ^ 2 + xi ^ 2 * (u - u ^ 2) = xi ^ 2 * q * (h ^ 2 - (u - u0) ^ 2)).
  { intros u. unfold h. replace ((E / (2 * xi * q)) ^ 2) with (E ^ 2 / (2 * xi * q) ^ 2) by (field; lra). rewrite E2. unfold u0, q. field. split; [|lra]. unfold q in Q; lra. }
  assert (V : forall u, u * x - heston_cgf ka th xi rho u = rate x + ka * th / xi * ((u - u0) * X x + sqrt ((ka - rho * xi * u) ^ 2 + xi ^ 2 * (u - u ^ 2)) / xi - h * S x)).
  { intros u. unfold heston_cgf, rate. set (d := sqrt _). clearbody d. rewrite XE at 1. unfold h, u0. set (XX := X x). set (SS := S x). clearbody XX SS. unfold q. field. split; [unfold q in Q; lra|lra]. }
  assert (SQ : sqrt (xi ^ 2 * q) = xi * sqrt q) by (rewrite sqrt_mult by nra; rewrite sqrt_pow2 by lra; reflexivity).
  assert (q2 : sqrt q ^ 2 = q) by (apply pow2_sqrt; lra). assert (sq0 : 0 < sqrt q) by now apply sqrt_lt_R0.
  assert (h0 : 0 < h) by (apply Rdiv_lt_0_compat; [exact E0|]; nra).
  split.
  - exists (u0 + h * X x / S x).
    assert (HD : h ^ 2 - (u0 + h * X x / S x - u0) ^ 2 = (h / S x) ^ 2 * q).
    { replace (h ^ 2 - (u0 + h * X x / S x - u0) ^ 2) with ((h / S x) ^ 2 * (S x ^ 2 - X x ^ 2)) by (field; lra). rewrite S2. ring. }
    split.
    + unfold heston_dom. rewrite DQ, HD. apply Rmult_le_pos; [lra|]. apply Rmult_le_pos; [apply pow2_ge_0|lra].
    + rewrite V, DQ, HD. replace (xi ^ 2 * q * ((h / S x) ^ 2 * q)) with ((xi * q * (h / S x)) ^ 2) by ring.
      rewrite sqrt_pow2. 2:{ apply Rmult_le_pos; [lra|]. left. now apply Rdiv_lt_0_compat. }
      replace ((u0 + h * X x / S x - u0) * X x + xi * q * (h / S x) / xi - h * S x) with (h / S x * (X x ^ 2 + q - S x ^ 2)) by (field; lra). rewrite S2. ring.
  - intros u Hu. unfold heston_dom in Hu. rewrite V. rewrite DQ in *. assert (K : 0 <= h ^ 2 - (u - u0) ^ 2).
    { destruct (Rle_lt_dec 0 (h ^ 2 - (u - u0) ^ 2)) as [|N]; [assumption|]. exfalso. nra. }
    rewrite sqrt_mult by lra. rewrite SQ. set (k := sqrt (h ^ 2 - (u - u0) ^ 2)). assert (K2 : k ^ 2 = h ^ 2 - (u - u0) ^ 2) by now apply pow2_sqrt. assert (K0 : 0 <= k) by apply sqrt_pos.
    replace (xi * sqrt q * k / xi) with (sqrt q * k) by (field; lra). clearbody k.
    assert (CS : (u - u0) * X x + sqrt q * k <= h * S x).
    { apply Rsqr_incr_0_var; [|apply Rmult_le_pos; lra]. unfold Rsqr. replace (h * S x * (h * S x)) with (h ^ 2 * S x ^ 2) by ring. rewrite S2. replace (h ^ 2) with (k ^ 2 + (u - u0) ^ 2) by lra. set (sq := sqrt q) in *. clearbody sq. rewrite <- q2.
      pose proof (pow2_ge_0 ((u - u0) * sq - k * X x)). lra. }
    assert (0 < ka * th / xi) by now apply Rdiv_lt_0_compat. nra.
Qed.
Lemma smile_pos x : 0 < gj_smile (gj_w1 ka th xi rho) (xi / (ka * th)) rho x.
Proof using Hk Ht Hx Hr.
  unfold gj_smile, gj_w1. fold q. fold E. fold (X x). fold (S x). pose proof E_gt as G. pose proof (S_gt x) as SG. pose proof q_pos as Q. apply Rabs_def2 in G, SG.
  apply Rmult_lt_0_compat.
  - apply Rdiv_lt_0_compat; [|lra]. apply Rmult_lt_0_compat; [|lra]. apply Rdiv_lt_0_compat; [nra|]. apply Rmult_lt_0_compat; [nra|exact Q].
  - replace (1 + xi / (ka * th) * rho * x) with (q + rho * X x) by (unfold q, X; field; nra). nra.
Qed.
Lemma smile_rate x : let w := gj_smile (gj_w1 ka th xi rho) (xi / (ka * th)) rho x in (x + w / 2) ^ 2 / (2 * w) = rate x.
Proof using Hk Ht Hx Hr.
  intros w. pose proof (smile_pos x) as W. fold w in W. enough ((x + w / 2) ^ 2 = 2 * w * rate x) by (rewrite H; field; lra).
  pose proof E_gt as G. pose proof (S_gt x) as SG. pose proof q_pos as Q. apply Rabs_def2 in G, SG. pose proof E_sq as E2. pose proof (S_sq x) as S2.
  assert (XE : x = (X x - rho) * (ka * th) / xi) by (unfold X; field; lra).
  assert (WE : w = 2 * (ka * th) / (xi ^ 2 * q) * (E - (2 * ka - rho * xi)) * (q + rho * X x + S x)).
  { unfold w, gj_smile, gj_w1. fold q. fold E. fold (X x). fold (S x). replace (1 + xi / (ka * th) * rho * x) with (q + rho * X x) by (unfold q, X; field; nra). field. split; lra. }
  set (t := S x + X x). set (s := E + (2 * ka - rho * xi)). assert (T0 : 0 < t) by (unfold t; lra). assert (Z0 : 0 < s) by (unfold s; lra).
  assert (TX : X x = (t - q / t) / 2) by (replace (q / t) with (S x - X x) by (replace q with ((S x - X x) * t) by (unfold t; lra); field; lra); unfold t; field).
  assert (TS : S x = (t + q / t) / 2) by (replace (q / t) with (S x - X x) by (replace q with ((S x - X x) * t) by (unfold t; lra); field; lra); unfold t; field).
  assert (ZE : E = (s + xi ^ 2 * q / s) / 2) by (replace (xi ^ 2 * q / s) with (E - (2 * ka - rho * xi)) by (replace (xi ^ 2 * q) with ((E - (2 * ka - rho * xi)) * s) by (unfold s; lra); field; lra); unfold s; field).
  assert (ZK : ka = ((s - xi ^ 2 * q / s) / 2 + rho * xi) / 2) by (replace (xi ^ 2 * q / s) with (E - (2 * ka - rho * xi)) by (replace (xi ^ 2 * q) with ((E - (2 * ka - rho * xi)) * s) by (unfold s; lra); field; lra); unfold s; field).
  assert (a0 : 0 < ka * th) by nra. unfold rate. rewrite WE. rewrite XE at 1. set (a := ka * th) in *. clearbody a. 
  clearbody t s. clear XE WE E2 S2 G SG W. clearbody w. revert TX TS ZE ZK. generalize (X x) (S x) E. intros XX SS EE -> -> -> ZK. rewrite ZK.
  clear - T0 Z0 Q Hx. unfold q in *. field. repeat split; lra.
Qed.
End Heston.
