(** Risk parity: meaning of the returned weights, uniqueness, the original CCD method, Newton's residual. *)
From Coq Require Import Reals Lra Lia Psatz List Arith.
From Coquelicot Require Import Coquelicot.
From Verif Require Import Base Sums M_Params Spec_Alloc M_Alloc P_Alloc.
Import ListNotations.
Open Scope R_scope.

Definition scaled (n : nat) (cor : mat) (sigma : vec) : mat := fun i j => sigma i * cor i j * sigma j.

Lemma port_ext n c d w : (forall i j, (i < n)%nat -> (j < n)%nat -> c i j = d i j) -> port_var n c w = port_var n d w.
Proof. intros H. unfold port_var. apply rsum_ext. intros i Hi. apply rsum_ext. intros j Hj. now rewrite H. Qed.
Lemma share_ext n c d w i : (forall i j, (i < n)%nat -> (j < n)%nat -> c i j = d i j) -> (i < n)%nat -> risk_share n c w i = risk_share n d w i.
Proof. intros H Hi. unfold risk_share. rewrite (port_ext n c d w H). f_equal. apply rsum_ext. intros j Hj. now rewrite H. Qed.
(** share of variance of norm_weights sigma u under sigma cor sigma is the share of u under cor *)
Lemma share_norm n cor sigma u i : (forall j, (j < n)%nat -> 0 < sigma j) -> rsum n (fun j => u j / sigma j) <> 0 -> (i < n)%nat -> 
  risk_share n (scaled n cor sigma) (norm_weights n sigma u) i = risk_share n cor u i.
Proof.
  intros Hs HS Hi. set (S := rsum n (fun j => u j / sigma j)) in *.
  assert (E : forall k, (k < n)%nat -> rsum n (fun j => norm_weights n sigma u k * (scaled n cor sigma k j * norm_weights n sigma u j)) = rsum n (fun j => u k * (cor k j * u j)) / (S * S)).
  { intros k Hk. unfold Rdiv. rewrite <- rsum_scal_r. apply rsum_ext. intros j Hj. unfold norm_weights, scaled. fold S. pose proof (Hs k Hk). pose proof (Hs j Hj). field. repeat split; lra || exact HS. }
  unfold risk_share. rewrite E by exact Hi. unfold port_var. rewrite (rsum_ext n (fun k => rsum n (fun j => norm_weights n sigma u k * (scaled n cor sigma k j * norm_weights n sigma u j))) (fun k => rsum n (fun j => u k * (cor k j * u j)) * / (S * S))) by (intros; now apply E).
  rewrite rsum_scal_r. fold (port_var n cor u).
  destruct (Req_dec (port_var n cor u) 0) as [Z|Z]; [rewrite Z, Rmult_0_l; unfold Rdiv; rewrite Rinv_0; ring|]. field. split; assumption.
Qed.
Lemma norm_sum n sigma u : rsum n (fun j => u j / sigma j) <> 0 -> rsum n (norm_weights n sigma u) = 1.
Proof. intros H. unfold norm_weights. unfold Rdiv at 1. rewrite rsum_scal_r. field. exact H. Qed.

Lemma loop_result n cor bud ls sigma tol : 0 < tol -> forall fuel w r, ccd_loop fuel n cor bud ls sigma tol w = Some r ->
  exists w0, r = norm_weights n sigma (ccd_next n cor bud ls w0) /\ ccd_err n cor bud ls w0 < tol.
Proof.
  intros Ht. induction fuel as [|fuel IH]; intros w r; cbn [ccd_loop]; [discriminate|]. cbv zeta.
  destruct (Rlt_dec (ccd_err n cor bud ls w) tol) as [E|_]; [|apply IH]. intros H. injection H as <-. exists w. split; [reflexivity|exact E].
Qed.
Lemma loop_result' n cor bud ls sigma tol fuel w r : correlation_matrix n cor -> budgets n bud -> long_short n ls -> 0 < tol ->
  ccd_loop fuel n cor bud ls sigma tol w = Some r ->
  exists u, r = norm_weights n sigma u /\ (forall j, (j < n)%nat -> 0 < ls j * u j) /\ port_var n cor u = 1 /\ forall i, (i < n)%nat -> Rabs (risk_share n cor u i - bud i) < tol.
Proof.
  intros Hc Hb Hl Ht H. destruct (loop_result n cor bud ls sigma tol Ht fuel w r H) as (w0 & E & He).
  exists (ccd_next n cor bud ls w0). split; [exact E|]. split; [intros; now apply next_sign|]. pose proof (next_var n cor bud ls Hc Hb Hl w0) as NV. split; [exact NV|].
  intros i Hi. unfold ccd_err in He. cbv zeta in He. rewrite vmax_lt in He by exact Ht. specialize (He i Hi). unfold risk_share. rewrite NV.
  eapply Rle_lt_trans; [right|exact He]. f_equal. f_equal. unfold Rdiv. rewrite Rinv_1, Rmult_1_r. unfold ccd_next. cbv zeta.
  set (w1 := ccd_sweep n cor bud ls w0). set (v := ccd_scale n cor w1). unfold matvec. rewrite <- rsum_scal_r, <- rsum_scal. apply rsum_ext. intros j _. unfold Rdiv. ring.
Qed.
Lemma fit_correct n cor bud ls sigma tol fuel w r : correlation_matrix n cor -> budgets n bud -> long_short n ls -> (forall j, (j < n)%nat -> 0 < sigma j) -> 0 < tol ->
  ccd_loop fuel n cor bud ls sigma tol w = Some r -> rsum n r <> 0 ->
  rsum n r = 1 /\ (forall i, (i < n)%nat -> Rabs (risk_share n (scaled n cor sigma) r i - bud i) < tol) /\
  exists e, (e = 1 \/ e = -1) /\ forall i, (i < n)%nat -> 0 < e * ls i * r i.
Proof.
  intros Hc Hb Hl Hs Ht H N. destruct (loop_result' n cor bud ls sigma tol fuel w r Hc Hb Hl Ht H) as (u & -> & Su & V1 & E).
  set (S := rsum n (fun j => u j / sigma j)).
  assert (NS : S <> 0). { intros Z. apply N. unfold norm_weights. fold S. rewrite Z. unfold Rdiv at 1. rewrite Rinv_0, rsum_scal_r. ring. }
  split; [now apply norm_sum|]. split; [intros i Hi; rewrite share_norm by assumption; now apply E|].
  exists (if Rlt_dec 0 S then 1 else -1). split; [destruct Rlt_dec; auto|]. intros i Hi. unfold norm_weights. fold S. pose proof (Su i Hi) as P. pose proof (Hs i Hi) as Q.
  destruct (Rlt_dec 0 S) as [L|L].
  - replace (1 * ls i * (u i / sigma i / S)) with (ls i * u i / (sigma i * S)) by (field; split; lra). apply Rdiv_lt_0_compat; nra.
  - assert (S < 0) by lra. replace (-1 * ls i * (u i / sigma i / S)) with (ls i * u i / (sigma i * - S)) by (field; split; lra). apply Rdiv_lt_0_compat; nra.
Qed.
(** long only: no hypothesis on the sum, all weights positive *)
Lemma fit_long n cor bud sigma tol fuel w r : correlation_matrix n cor -> budgets n bud -> (forall j, (j < n)%nat -> 0 < sigma j) -> 0 < tol ->
  ccd_loop fuel n cor bud (fun _ => 1) sigma tol w = Some r ->
  rsum n r = 1 /\ (forall i, (i < n)%nat -> 0 < r i) /\ (forall i, (i < n)%nat -> Rabs (risk_share n (scaled n cor sigma) r i - bud i) < tol).
Proof.
  intros Hc Hb Hs Ht H. destruct (loop_result' n cor bud (fun _ => 1) sigma tol fuel w r Hc Hb ltac:(intros ? ?; now left) Ht H) as (u & -> & Su & V1 & E).
  assert (P : 0 < rsum n (fun j => u j / sigma j)).
  { apply rsum_pos; [exact (n_pos n bud Hb)|]. intros j Hj. pose proof (Su j Hj). apply Rdiv_lt_0_compat; [lra|now apply Hs]. }
  split; [apply norm_sum; lra|]. split.
  - intros i Hi. unfold norm_weights. pose proof (Su i Hi). apply Rdiv_lt_0_compat; [|exact P]. apply Rdiv_lt_0_compat; [lra|now apply Hs].
  - intros i Hi. rewrite share_norm by (try assumption; lra). now apply E.
Qed.
(** short only: the returned weights are all positive, i.e. of the sign opposite to the one requested *)
Lemma fit_short n cor bud sigma tol fuel w r : correlation_matrix n cor -> budgets n bud -> (forall j, (j < n)%nat -> 0 < sigma j) -> 0 < tol ->
  ccd_loop fuel n cor bud (fun _ => -1) sigma tol w = Some r -> forall i, (i < n)%nat -> 0 < r i.
Proof.
  intros Hc Hb Hs Ht H. destruct (loop_result' n cor bud (fun _ => -1) sigma tol fuel w r Hc Hb ltac:(intros ? ?; now right) Ht H) as (u & -> & Su & V1 & E).
  assert (P : 0 < rsum n (fun j => - (u j / sigma j))).
  { apply rsum_pos; [exact (n_pos n bud Hb)|]. intros j Hj. pose proof (Su j Hj). replace (- (u j / sigma j)) with ((- u j) / sigma j) by (field; pose proof (Hs j Hj); lra). apply Rdiv_lt_0_compat; [lra|now apply Hs]. }
  rewrite (rsum_ext n _ (fun j => -1 * (u j / sigma j))) in P by (intros; ring). rewrite rsum_scal in P.
  intros i Hi. unfold norm_weights. set (S := rsum n _) in *. pose proof (Su i Hi). pose proof (Hs i Hi).
  replace (u i / sigma i / S) with ((- u i) / (sigma i * - S)) by (field; split; lra). apply Rdiv_lt_0_compat; nra.
Qed.

(** uniqueness *)
Lemma parity_unique_u n c b x y : correlation_matrix n c -> (forall i, (i < n)%nat -> 0 < b i) ->
  (forall i, (i < n)%nat -> 0 < x i /\ x i * matvec n c x i = b i) -> (forall i, (i < n)%nat -> 0 < y i /\ y i * matvec n c y i = b i) ->
  forall i, (i < n)%nat -> x i = y i.
Proof.
  intros (Hs & Hd & lam & L0 & L) Hb Hx Hy.
  assert (Q : port_var n c (fun i => x i - y i) <= 0).
  { rewrite <- quad_port. unfold quad_form. rewrite <- (rsum_0 n). apply rsum_le. intros i Hi. destruct (Hx i Hi) as [X0 X1], (Hy i Hi) as [Y0 Y1]. pose proof (Hb i Hi) as B.
    replace (matvec n c (fun k => x k - y k) i) with (matvec n c x i - matvec n c y i).
    2:{ unfold matvec. rewrite <- rsum_minus. apply rsum_ext. intros; ring. }
    replace (matvec n c x i) with (b i / x i) by (rewrite <- X1; field; lra). replace (matvec n c y i) with (b i / y i) by (rewrite <- Y1; field; lra).
    replace ((x i - y i) * (b i / x i - b i / y i)) with (- (b i * (x i - y i) ^ 2 / (x i * y i))) by (field; lra).
    assert (0 <= b i * (x i - y i) ^ 2 / (x i * y i)); [|lra]. apply Rmult_le_pos; [apply Rmult_le_pos; [lra|apply pow2_ge_0]|]. left. apply Rinv_0_lt_compat. nra. }
  pose proof (L (fun i => x i - y i)) as LL. cbv beta in LL. intros i Hi.
  pose proof (rsum_term n (fun j => (x j - y j) ^ 2) i Hi ltac:(intros; apply pow2_ge_0)) as T. cbv beta in T.
  assert ((x i - y i) ^ 2 <= 0) by nra. nra.
Qed.
Lemma parity_unique n c sigma b x y : correlation_matrix n c -> budgets n b -> (forall i, (i < n)%nat -> 0 < sigma i) ->
  (forall i, (i < n)%nat -> 0 < x i) -> (forall i, (i < n)%nat -> 0 < y i) -> rsum n x = 1 -> rsum n y = 1 ->
  (forall i, (i < n)%nat -> risk_share n (scaled n c sigma) x i = b i) -> (forall i, (i < n)%nat -> risk_share n (scaled n c sigma) y i = b i) ->
  forall i, (i < n)%nat -> x i = y i.
Proof.
  intros Hc Hb Hs Px Py Sx Sy Rx Ry.
  assert (A : forall z, (forall i, (i < n)%nat -> 0 < z i) -> (forall i, (i < n)%nat -> risk_share n (scaled n c sigma) z i = b i) ->
    exists t, 0 < t /\ forall i, (i < n)%nat -> let u := fun j => z j * sigma j / t in 0 < u i /\ u i * matvec n c u i = b i).
  { intros z Pz Rz. set (u := fun j => z j * sigma j).
    assert (Vu : port_var n (scaled n c sigma) z = port_var n c u) by (unfold port_var, scaled, u; apply rsum_ext; intros; apply rsum_ext; intros; ring).
    assert (V0 : 0 < port_var n c u). { apply var_pos with (1 := Hc). exists 0%nat. pose proof (n_pos n b Hb) as N. split; [exact N|]. unfold u. pose proof (Pz 0%nat N). pose proof (Hs 0%nat N). nra. }
    set (t := sqrt (port_var n c u)). assert (T0 : 0 < t) by (apply sqrt_lt_R0, V0). assert (T2 : t * t = port_var n c u) by (apply sqrt_sqrt; lra).
    exists t. split; [exact T0|]. intros i Hi v. split; [unfold v; apply Rdiv_lt_0_compat; [apply Rmult_lt_0_compat; auto|exact T0]|].
    rewrite <- (Rz i Hi). unfold risk_share. rewrite Vu, <- T2. unfold matvec. unfold Rdiv. rewrite <- rsum_scal, <- rsum_scal_r.
    apply rsum_ext. intros j Hj. unfold v, scaled. field. lra. }
  destruct (A x Px Rx) as (s & S0 & Us). destruct (A y Py Ry) as (t & T0 & Ut). cbv zeta in Us, Ut.
  assert (E : forall i, (i < n)%nat -> x i * sigma i / s = y i * sigma i / t).
  { apply (parity_unique_u n c b (fun i => x i * sigma i / s) (fun i => y i * sigma i / t) Hc (proj1 Hb)); [exact Us|exact Ut]. }
  assert (E' : forall i, (i < n)%nat -> x i = s / t * y i).
  { intros i Hi. pose proof (E i Hi) as H. pose proof (Hs i Hi). replace (x i) with (x i * sigma i / s * (s / sigma i)) by (field; lra). rewrite H. field. lra. }
  assert (s / t = 1). { rewrite (rsum_ext n x (fun i => s / t * y i)) in Sx by exact E'. rewrite rsum_scal, Sy in Sx. lra. }
  intros i Hi. rewrite E' by exact Hi. rewrite H. ring.
Qed.

(** ** original CCD *)
Definition occ_inv (n : nat) (cov : mat) (s : vec * vec * R) : Prop :=
  let '(w, cw, vv) := s in (forall j, (j < n)%nat -> cw j = matvec n cov w j) /\ vv = sqrt (port_var n cov w).
Lemma occ_vv n cov w cw : (forall j, (j < n)%nat -> cw j = matvec n cov w j) -> rsum n (fun j => w j * cw j) = port_var n cov w.
Proof. intros H. rewrite <- quad_port. unfold quad_form. apply rsum_ext. intros j Hj. now rewrite H. Qed.
Lemma occ_step_inv n cov bud ls s i : (i < n)%nat -> occ_inv n cov s -> occ_inv n cov (occ_step n cov bud ls s i).
Proof.
  destruct s as [[w cw] vv]. intros Hi [H1 H2]. unfold occ_step. cbv zeta. set (wi := (ls i * _ - _) / _).
  assert (A : forall j, (j < n)%nat -> cw j + cov j i * (wi - w i) = matvec n cov (setv w i wi) j).
  { intros j Hj. rewrite matvec_setv by exact Hi. now rewrite H1. }
  split; [exact A|]. f_equal. now apply (occ_vv n cov (setv w i wi) (fun j => cw j + cov j i * (wi - w i))).
Qed.
Lemma occ_sweep_inv n cov bud ls s : occ_inv n cov s -> occ_inv n cov (occ_sweep n cov bud ls s).
Proof.
  intros H. unfold occ_sweep. assert (A : forall l, (forall i, In i l -> (i < n)%nat) -> forall s, occ_inv n cov s -> occ_inv n cov (fold_left (occ_step n cov bud ls) l s)).
  { induction l as [|i l IH]; intros Hl t Ht; [exact Ht|]. cbn. apply IH; [intros; apply Hl; now right|]. apply occ_step_inv; [apply Hl; now left|exact Ht]. }
  apply A; [|exact H]. intros i Hi. apply in_seq in Hi. lia.
Qed.
Lemma occ_init_inv n cov sigma : occ_inv n cov (occ_init n cov sigma).
Proof. unfold occ_init, occ_inv. cbv zeta. split; [reflexivity|]. f_equal. now apply occ_vv. Qed.
(** each coordinate update solves its quadratic *)
Lemma occ_step_exact n cov bud ls w cw vv i : (i < n)%nat -> occ_inv n cov (w, cw, vv) -> 0 < cov i i -> 0 < vv -> 0 < bud i -> (ls i = 1 \/ ls i = -1) ->
  let '(w', cw', vv') := occ_step n cov bud ls (w, cw, vv) i in
  w' i * matvec n cov w' i = vv * bud i /\ 0 < ls i * w' i /\ forall j, j <> i -> w' j = w j.
Proof.
  intros Hi [H1 H2] Hc Hv Hb Hl. unfold occ_step. cbv zeta. set (a := (cw i - cov i i * w i) / 2). set (k := cov i i) in *.
  assert (B : 0 < k * vv * bud i) by (apply Rmult_lt_0_compat; [now apply Rmult_lt_0_compat|exact Hb]).
  set (q := sqrt (a * a + k * vv * bud i)). assert (Q : q * q = a * a + k * vv * bud i) by (apply sqrt_sqrt; nra). assert (Q0 : 0 < q) by (apply sqrt_lt_R0; nra).
  set (x := (ls i * q - a) / k). assert (L2 : ls i * ls i = 1) by (destruct Hl as [-> | ->]; ring).
  split; [|split].
  - rewrite setv_eq, matvec_setv by exact Hi. rewrite <- H1 by exact Hi. fold k.
    replace (cw i + k * (x - w i)) with (k * x + 2 * a) by (unfold a; field). unfold x.
    replace ((ls i * q - a) / k * (k * ((ls i * q - a) / k) + 2 * a)) with ((ls i * ls i * (q * q) - a * a) / k) by (field; lra). rewrite L2, Q. field. lra.
  - rewrite setv_eq. unfold x. replace (ls i * ((ls i * q - a) / k)) with ((ls i * ls i * q - ls i * a) / k) by (field; lra). rewrite L2. apply Rdiv_lt_0_compat; [|exact Hc].
    assert (Aq : Rabs a < q).
    { destruct (Rlt_le_dec (Rabs a) q) as [|L]; [assumption|exfalso]. pose proof (Rabs_pos a). assert (q * q <= Rabs a * Rabs a) by (apply Rmult_le_compat; lra).
      rewrite <- Rabs_mult, Rabs_right in H0 by (apply Rle_ge; nra). lra. }
    apply Rabs_def2 in Aq. destruct Hl as [-> | ->]; lra.
  - intros j Hj. now apply setv_neq.
Qed.
Lemma occ_result n cov bud ls tol : 0 < tol -> forall fuel s r, occ_inv n cov s -> occ_loop fuel n cov bud ls tol s = Some r ->
  exists w, r = (fun i => w i / rsum n w) /\ forall i, (i < n)%nat -> Rabs (w i * matvec n cov w i / sqrt (port_var n cov w) - bud i) < tol.
Proof.
  intros Ht. induction fuel as [|fuel IH]; intros s r HI; cbn [occ_loop]; [discriminate|].
  pose proof (occ_sweep_inv n cov bud ls s HI) as HS. destruct (occ_sweep n cov bud ls s) as [[w cw] vv]. destruct HS as [H1 H2].
  destruct (Rlt_dec (vmax n (fun i => w i * cw i / vv - bud i)) tol) as [E|_].
  - intros H. injection H as <-. exists w. split; [reflexivity|]. intros i Hi. rewrite vmax_lt in E by exact Ht. specialize (E i Hi). cbv beta in E. rewrite <- H2, <- H1 by exact Hi. exact E.
  - intros H. refine (IH (w, cw, vv) r _ H). split; assumption.
Qed.
Lemma occ_correct n cov bud ls sigma tol r : (0 < n)%nat -> 0 < tol -> INR n * tol < 1 -> rsum n bud = 1 -> (forall i, (i < n)%nat -> 0 <= bud i) ->
  fit_ccd_original n cov bud ls sigma tol = Some r -> rsum n r <> 0 ->
  rsum n r = 1 /\ forall i, (i < n)%nat -> Rabs (risk_share n cov r i - bud i) <= (1 + INR n) * tol / (1 - INR n * tol).
Proof.
  intros Hn Ht Hnt Hb Hb0 H N. destruct (occ_result n cov bud ls tol Ht _ _ _ (occ_init_inv n cov sigma) H) as (w & E & HE).
  assert (Z : rsum n w <> 0). { intros Z. apply N. rewrite E. unfold Rdiv. rewrite rsum_scal_r, Z. ring. }
  split. { rewrite E. unfold Rdiv. rewrite rsum_scal_r. field. exact Z. }
  set (vv := sqrt (port_var n cov w)) in *. set (rc := fun i => w i * matvec n cov w i / vv) in *.
  assert (Src : vv <> 0 -> rsum n rc = vv).
  { intros V. unfold rc, Rdiv. rewrite rsum_scal_r. fold (quad_form n cov w). rewrite quad_port. assert (V2 : vv * vv = port_var n cov w).
    { unfold vv. apply sqrt_sqrt. destruct (Rle_lt_dec 0 (port_var n cov w)) as [|P]; [assumption|]. exfalso. apply V. unfold vv. apply sqrt_neg_0. lra. }
    rewrite <- V2. field. exact V. }
  assert (D : Rabs (rsum n rc - 1) <= INR n * tol).
  { rewrite <- Hb, <- rsum_minus. eapply Rle_trans; [apply rsum_abs|]. rewrite <- rsum_const. apply rsum_le. intros i Hi. left. now apply HE. }
  assert (V0 : vv <> 0).
  { intros V. assert (Z0 : rsum n rc = 0) by (apply rsum_eq0; intros k _; unfold rc, Rdiv; rewrite V, Rinv_0; ring). rewrite Z0 in D.
    replace (0 - 1) with (- (1)) in D by ring. rewrite Rabs_Ropp, Rabs_R1 in D. lra. }
  rewrite (Src V0) in D. apply Rabs_le_between in D.
  assert (Vp : 1 - INR n * tol <= vv) by lra. 
  assert (V2 : vv * vv = port_var n cov w).
  { unfold vv. apply sqrt_sqrt. destruct (Rle_lt_dec 0 (port_var n cov w)) as [|P]; [assumption|]. exfalso. apply V0. unfold vv. apply sqrt_neg_0. lra. }
  intros i Hi. assert (SH : risk_share n cov r i = rc i / vv).
  { rewrite E. unfold risk_share. rewrite port_scal. unfold rc. set (S := rsum n w) in *.
    rewrite (rsum_ext n _ (fun j => w i * / (S * S) * (cov i j * w j))) by (intros; field; exact Z). rewrite rsum_scal. fold (matvec n cov w i). rewrite <- V2. field. repeat split; assumption. }
  rewrite SH. replace (rc i / vv - bud i) with (((rc i - bud i) - bud i * (vv - 1)) / vv) by (field; exact V0).
  assert (Vpos : 0 < vv) by lra. unfold Rdiv at 1. rewrite Rabs_mult, (Rabs_right (/ vv)) by (left; now apply Rinv_0_lt_compat).
  assert (B1 : bud i <= 1) by (rewrite <- Hb; apply (rsum_term n bud i Hi Hb0)). pose proof (Hb0 i Hi). pose proof (HE i Hi) as Hrc. fold (rc i) in Hrc.
  assert (Nm : Rabs (rc i - bud i - bud i * (vv - 1)) <= (1 + INR n) * tol).
  { unfold Rminus at 1. eapply Rle_trans; [apply Rabs_triang|]. rewrite Rabs_Ropp, Rabs_mult, (Rabs_right (bud i)) by lra.
    assert (Rabs (vv - 1) <= INR n * tol) by (apply Rabs_le; lra). pose proof (Rabs_pos (vv - 1)). nra. }
  unfold Rdiv. apply Rmult_le_compat; [apply Rabs_pos|left; now apply Rinv_0_lt_compat|exact Nm|]. apply Rinv_le_contravar; lra.
Qed.

(** ** Newton *)
Lemma newton_jac_derive n cor bud w i j : (i < n)%nat -> (j < n)%nat -> w i <> 0 ->
  is_derive (fun x => newton_val n cor bud (setv w j x) i) (w j) (newton_jac cor bud w i j).
Proof.
  intros Hi Hj Hw. unfold newton_val, newton_jac.
  apply (is_derive_ext (fun x => matvec n cor w i + cor i j * (x - w j) - bud i / setv w j x i)); [intros x; now rewrite matvec_setv|].
  destruct (Nat.eqb_spec i j) as [<-|N].
  - apply (is_derive_ext (fun x => matvec n cor w i + cor i i * (x - w i) - bud i / x)); [intros x; now rewrite setv_eq|]. auto_derive; [exact Hw|]. field. exact Hw.
  - apply (is_derive_ext (fun x => matvec n cor w i + cor i j * (x - w j) - bud i / w i)); [intros x; now rewrite setv_neq|]. auto_derive; [exact I|]. ring.
Qed.
Lemma newton_root n cor bud sigma u : budgets n bud -> (forall i, (i < n)%nat -> 0 < sigma i) -> (forall i, (i < n)%nat -> 0 < u i) ->
  (forall i, (i < n)%nat -> newton_val n cor bud u i = 0) ->
  rsum n (norm_weights n sigma u) = 1 /\ forall i, (i < n)%nat -> risk_share n (scaled n cor sigma) (norm_weights n sigma u) i = bud i.
Proof.
  intros Hb Hs Hu Hz. assert (P : 0 < rsum n (fun j => u j / sigma j)).
  { apply rsum_pos; [exact (n_pos n bud Hb)|]. intros j Hj. apply Rdiv_lt_0_compat; auto. }
  split; [apply norm_sum; lra|]. intros i Hi. rewrite share_norm by (try assumption; lra).
  assert (E : forall k, (k < n)%nat -> rsum n (fun j => u k * (cor k j * u j)) = bud k).
  { intros k Hk. rewrite rsum_scal. pose proof (Hz k Hk) as Z. unfold newton_val, matvec in Z. pose proof (Hu k Hk).
    replace (rsum n (fun j => cor k j * u j)) with (bud k / u k) by lra. field. lra. }
  unfold risk_share. rewrite E by exact Hi. unfold port_var. rewrite (rsum_ext n _ bud) by exact E. destruct Hb as [_ ->]. field.
Qed.
