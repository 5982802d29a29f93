(** Fast of heston_rough_mc.py: the exponential-sum recursions are the frozen Volterra sum. *)
From Coq Require Import Reals List Lra Lia Psatz ZArith.
From Coquelicot Require Import Coquelicot.
From Verif Require Import Base Sums Spec_Cev P_Gamma P_Gamma2 M_Fd M_Opt M_Rough P_Rough M_RoughMc Spec_RoughMc P_RoughMc.
Import ListNotations.
Open Scope R_scope.

Lemma exp_cell (x t a b : R) : x <> 0 -> is_RInt (fun s => exp (- x * (t - s))) a b ((exp (- x * (t - b)) - exp (- x * (t - a))) / x).
Proof.
  intros Hx. replace ((exp (- x * (t - b)) - exp (- x * (t - a))) / x) with (minus (exp (- x * (t - b)) / x) (exp (- x * (t - a)) / x)) by (unfold minus, plus, opp; cbn; field; exact Hx).
  apply (is_RInt_derive (fun s => exp (- x * (t - s)) / x)); intros s _.
  - auto_derive; [exact I|]. Req. replace (- x * (t + - s)) with (- x * (t - s)) by ring. field. exact Hx.
  - apply (ex_derive_continuous (K := R_AbsRing) (V := R_NormedModule)). auto_derive. exact I.
Qed.
Lemma exp_cell_int (x t a b : R) : x <> 0 -> a < b -> cell_integral (fun u => exp (- x * u)) t a b ((exp (- x * (t - b)) - exp (- x * (t - a))) / x).
Proof.
  intros Hx Hab. apply cell_reg; [exact Hab|now apply exp_cell|]. intros s _. apply (ex_derive_continuous (K := R_AbsRing) (V := R_NormedModule)). auto_derive. exact I.
Qed.
Lemma exp_cell_std (x t a b : R) : 0 < x -> a < b -> cell_std (fun u => exp (- x * u)) t a b (exp (- x * (t - b)) * sqrt ((1 - exp (- 2 * x * (b - a))) / (2 * x))).
Proof.
  intros Hx Hab. assert (E : exp (- 2 * x * (b - a)) < 1) by (rewrite <- exp_0; apply exp_increasing; nra).
  assert (Q : 0 <= (1 - exp (- 2 * x * (b - a))) / (2 * x)) by (apply Rlt_le, Rdiv_lt_0_compat; lra).
  split; [apply Rmult_le_pos; [left; apply exp_pos|apply sqrt_pos]|]. rewrite Rpow_mult_distr. replace (sqrt ((1 - exp (- 2 * x * (b - a))) / (2 * x)) ^ 2) with ((1 - exp (- 2 * x * (b - a))) / (2 * x)) by (cbn [pow]; rewrite Rmult_1_r; symmetry; now apply sqrt_sqrt).
  pose proof (exp_cell_int (2 * x) t a b ltac:(lra) Hab) as P.
  replace (exp (- x * (t - b)) ^ 2 * ((1 - exp (- 2 * x * (b - a))) / (2 * x))) with ((exp (- (2 * x) * (t - b)) - exp (- (2 * x) * (t - a))) / (2 * x)).
  2: { replace (- (2 * x) * (t - a)) with (- x * (t - b) + - x * (t - b) + - 2 * x * (b - a)) by ring. replace (- (2 * x) * (t - b)) with (- x * (t - b) + - x * (t - b)) by ring. rewrite !exp_plus. field. lra. }
  unfold cell_integral in *. eapply is_RInt_gen_ext; [|exact P]. apply (Filter_prod _ _ _ (fun x => True) (fun x => True)); [exact I|apply filter_true|]. intros y1 y2 _ _ s _. Req.
  replace (- (2 * x) * (t - s)) with (- x * (t - s) + - x * (t - s)) by ring. rewrite exp_plus. ring.
Qed.
Lemma exp_sum_cell (L : nat) (x w : nat -> R) (t a b : R) : (forall l, (l < L)%nat -> x l <> 0) -> is_RInt (fun s => exp_sum L x w (t - s)) a b (rsum L (fun l => w l * ((exp (- x l * (t - b)) - exp (- x l * (t - a))) / x l))).
Proof.
  induction L; intros H; unfold exp_sum; cbn [rsum].
  - assert (Q := is_RInt_const (V := R_NormedModule) a b 0). change (scal (b - a) 0) with ((b - a) * 0) in Q. rewrite Rmult_0_r in Q. exact Q.
  - apply (is_RInt_plus (V := R_NormedModule)); [apply IHL; intros; apply H; lia|]. apply (is_RInt_scal (V := R_NormedModule) (fun s => exp (- x L * (t - s)))). apply exp_cell. apply H. lia.
Qed.
Lemma exp_sum_cont (L : nat) (x w : nat -> R) (t s : R) : continuous (fun s => exp_sum L x w (t - s)) s.
Proof.
  induction L; unfold exp_sum; cbn [rsum]; [apply continuous_const|]. apply (continuous_plus (V := R_NormedModule)); [exact IHL|].
  apply (ex_derive_continuous (K := R_AbsRing) (V := R_NormedModule)). auto_derive. exact I.
Qed.
Section Fast.
Variable Gam : R -> R.
Hypothesis HG : gamma_function Gam.
Variables (p : rhp) (dt : R) (L : nat) (x w : nat -> R).
Hypothesis (Hdt : 0 < dt) (Hal : rh_alpha p < / 2) (Hx : forall l, (l < L)%nat -> 0 < x l).
Let al := rh_alpha p.
Variables (Z V : nat -> R).
Lemma fast_inv n v H J : (forall i, (i <= n)%nat -> exists H J, fast_state Gam p dt L x w Z i = Some (V i, H, J)) -> fast_state Gam p dt L x w Z n = Some (v, H, J) ->
  (forall i, (i < n)%nat -> 0 <= V i) /\
  forall l, (l < L)%nat -> H l = rsum n (fun k => rm_f p (V k) * (exp (- x l * (INR (n - 1 - k) * dt)) * ((1 - exp (- x l * dt)) / x l))) /\
                           J l = rsum n (fun k => rm_g p (V k) * Z k * (exp (- x l * (INR (n - 1 - k) * dt)) * sqrt ((1 - exp (- 2 * x l * dt)) / (2 * x l)))).
Proof.
  revert v H J. induction n; intros v H J A E.
  - cbn [fast_state] in E. inversion E; subst. split; [intros; lia|]. intros l Hl. split; reflexivity.
  - cbn [fast_state] in E. destruct (A n ltac:(lia)) as (H0 & J0 & E0). rewrite E0 in E. fold al in E. destruct (Rlt_dec al (/ 2)) as [_|]; [|contradiction]. destruct (root_ok (V n)) eqn:R; [|discriminate].
    inversion E; subst H J; clear E. destruct (IHn (V n) H0 J0 ltac:(intros i Hi; apply A; lia) E0) as [I1 I2]. apply root_ok_iff in R. split; [intros i Hi; destruct (Nat.eq_dec i n) as [->|]; [exact R|apply I1; lia]|].
    intros l Hl. destruct (I2 l Hl) as [HH JJ]. pose proof (Hx l Hl) as Px.
    assert (D : forall k, (k < n)%nat -> exp (- x l * (INR (S n - 1 - k) * dt)) = exp (- x l * dt) * exp (- x l * (INR (n - 1 - k) * dt))).
    { intros k Hk. rewrite <- exp_plus. f_equal. replace (S n - 1 - k)%nat with (S (n - 1 - k)) by lia. rewrite S_INR. ring. }
    split; cbn [rsum]; replace (S n - 1 - n)%nat with 0%nat by lia; cbn [INR]; rewrite Rmult_0_l, Rmult_0_r, exp_0.
    + unfold rm_H. rewrite HH. rewrite (rsum_ext n (fun k => rm_f p (V k) * (exp (- x l * (INR (S n - 1 - k) * dt)) * ((1 - exp (- x l * dt)) / x l))) (fun k => exp (- x l * dt) * (rm_f p (V k) * (exp (- x l * (INR (n - 1 - k) * dt)) * ((1 - exp (- x l * dt)) / x l))))) by (intros k Hk; rewrite D by exact Hk; ring).
      rewrite rsum_scal. field. lra.
    + unfold rm_J. rewrite JJ. rewrite (rsum_ext n (fun k => rm_g p (V k) * Z k * (exp (- x l * (INR (S n - 1 - k) * dt)) * sqrt ((1 - exp (- 2 * x l * dt)) / (2 * x l)))) (fun k => exp (- x l * dt) * (rm_g p (V k) * Z k * (exp (- x l * (INR (n - 1 - k) * dt)) * sqrt ((1 - exp (- 2 * x l * dt)) / (2 * x l)))))) by (intros k Hk; rewrite D by exact Hk; ring).
      rewrite rsum_scal. ring.
Qed.
Lemma fast_spec n : (forall i, (i <= n)%nat -> exists H J, fast_state Gam p dt L x w Z i = Some (V i, H, J)) ->
  (forall i, (i < n)%nat -> 0 <= V i) /\
  volterra_fast (rough_kernel Gam al) (/ Gam (1 - al)) L x w dt (rh_sigma p) (fun k => rm_f p (V k)) (fun k => rm_g p (V k)) V Z n.
Proof.
  intros A. destruct n.
  { destruct (A 0%nat ltac:(lia)) as (H & J & E). cbn [fast_state] in E. inversion E. split; [intros; lia|]. exists (fun _ => 0), (fun _ => 0). split; [intros; lia|]. split; [intros; lia|]. cbn [rsum]. lra. }
  destruct (A (S n) ltac:(lia)) as (H1 & J1 & E1). split; [exact (proj1 (fast_inv (S n) _ _ _ A E1))|].
  destruct (A n ltac:(lia)) as (H0 & J0 & E0). destruct (fast_inv n _ _ _ ltac:(intros i Hi; apply A; lia) E0) as [Pos I].
  cbn [fast_state] in E1. rewrite E0 in E1. fold al in E1. destruct (Rlt_dec al (/ 2)) as [Ha|]; [|contradiction]. destruct (root_ok (V n)) eqn:R; [|discriminate].
  assert (Ev := f_equal (fun o => match o with Some (q, _, _) => q | None => 0 end) E1). cbv beta iota zeta in Ev. clear E1.
  pose proof (gam1_pos Gam HG p Hal) as PG. pose proof (gam2 Gam HG p Hal) as G2. cbv zeta in PG, G2. fold al in PG, G2.
  pose (A1 := fun k => rsum L (fun l => w l * (exp (- x l * (INR (n - k) * dt)) * ((1 - exp (- x l * dt)) / x l)))).
  pose (b1 := fun k l => exp (- x l * (INR (n - k) * dt)) * sqrt ((1 - exp (- 2 * x l * dt)) / (2 * x l))).
  exists (fun k => if Nat.eqb k n then Rpower dt (1 - al) / Gam (2 - al) else / Gam (1 - al) * A1 k),
         (fun k => if Nat.eqb k n then Rpower dt (/ 2 - al) / sqrt (1 - 2 * al) / Gam (1 - al) else / Gam (1 - al) * rsum L (fun l => w l * b1 k l)).
  assert (GR : forall k, (k <= n)%nat -> INR (S n) * dt - INR (S k) * dt = INR (n - k) * dt) by (intros k Hk; rewrite !S_INR, minus_INR by lia; ring).
  split; [|split].
  - intros k Hk. assert (k = n) as -> by lia. rewrite Nat.eqb_refl.
    assert (Hk' : (n < S n)%nat) by lia. pose proof (term1_int Gam HG p dt Hdt Hal (S n) n Hk') as T1. destruct (term2_int Gam HG p dt Hdt Hal (S n) n Hk') as [q [Eq T2]]. cbv zeta in T1, T2, Eq. fold al in T1, T2, Eq. unfold rm_grid in *.
    assert (Z0 : INR (S n) * dt - INR (S n) * dt = 0) by ring. assert (H1a : 0 < 1 - al) by (unfold al; lra). assert (H2a : 0 < 1 - 2 * al) by (unfold al; lra).
    split.
    + replace (Rpower dt (1 - al) / Gam (2 - al)) with (1 / Gam (2 - al) * rm_term1 al dt (INR (S n) * dt) (INR (S n) * dt)); [exact T1|].
      unfold rm_term1. rewrite Z0, npow_0 by exact H1a. rewrite npow_1 by lra. rewrite Rplus_0_l. field. rewrite G2. apply Rmult_integral_contrapositive_currified; lra.
    + replace (Rpower dt (/ 2 - al) / sqrt (1 - 2 * al) / Gam (1 - al)) with (1 / Gam (1 - al) * q); [exact T2|].
      unfold rm_term2 in Eq. destruct (Rlt_dec al (/ 2)); [|lra]. assert (Eq' := f_equal (fun o => match o with Some q => q | None => 0 end) Eq). cbv beta iota in Eq'. subst q. rewrite Z0, npow_0 by exact H2a. rewrite npow_1 by lra. rewrite Rplus_0_l, Rminus_0_r.
      rewrite sqrt_div by (try (left; apply exp_pos); lra). replace (sqrt (Rpower dt (1 - 2 * al))) with (Rpower dt (/ 2 - al)).
      2: { symmetry. apply sqrt_lem_1; [left; apply exp_pos|left; apply exp_pos|]. rewrite <- Rpower_plus. f_equal. field. }
      assert (0 < sqrt (1 - 2 * al)) by (apply sqrt_lt_R0; lra). field. lra.
  - intros k Hk. assert (Ek : Nat.eqb k n = false) by (apply Nat.eqb_neq; lia). rewrite Ek.
    assert (Hab : INR k * dt < INR (S k) * dt) by (rewrite S_INR; nra).
    assert (Gk := GR k ltac:(lia)). assert (Gk' : INR (S n) * dt - INR k * dt = INR (n - k) * dt + dt) by (rewrite <- Gk, (S_INR k); ring).
    split.
    + apply cell_scal. apply cell_reg; [exact Hab| |intros; apply exp_sum_cont].
      replace (A1 k) with (rsum L (fun l => w l * ((exp (- x l * (INR (S n) * dt - INR (S k) * dt)) - exp (- x l * (INR (S n) * dt - INR k * dt))) / x l))); [apply exp_sum_cell; intros l Hl; pose proof (Hx l Hl); lra|].
      unfold A1. apply rsum_ext. intros l Hl. pose proof (Hx l Hl). rewrite Gk, Gk'. replace (- x l * (INR (n - k) * dt + dt)) with (- x l * (INR (n - k) * dt) + - x l * dt) by ring. rewrite exp_plus. field. lra.
    + exists (b1 k). split; [reflexivity|]. intros l Hl. unfold b1. pose proof (exp_cell_std (x l) (INR (S n) * dt) (INR k * dt) (INR (S k) * dt) (Hx l Hl) Hab) as Q. rewrite Gk in Q. replace (INR (S k) * dt - INR k * dt) with dt in Q by (rewrite S_INR; ring). exact Q.
  - rewrite <- Ev. cbn [rsum]. rewrite Nat.eqb_refl.
    rewrite (rsum_ext n _ (fun k => / Gam (1 - al) * (rm_f p (V k) * A1 k) + / Gam (1 - al) * (rm_g p (V k) * Z k * rsum L (fun l => w l * b1 k l)))).
    2: { intros k Hk. assert (Ek : Nat.eqb k n = false) by (apply Nat.eqb_neq; lia). rewrite Ek. ring. }
    rewrite rsum_plus, !rsum_scal.
    assert (S1 : rsum L (fun l => w l * exp (- x l * dt) * H0 l) = rsum n (fun k => rm_f p (V k) * A1 k)).
    { rewrite (rsum_ext L _ (fun l => rsum n (fun k => rm_f p (V k) * (w l * (exp (- x l * (INR (n - k) * dt)) * ((1 - exp (- x l * dt)) / x l)))))).
      - rewrite rsum_swap. apply rsum_ext. intros k _. unfold A1. now rewrite rsum_scal.
      - intros l Hl. destruct (I l Hl) as [-> _]. rewrite <- rsum_scal. apply rsum_ext. intros k Hk. replace (n - k)%nat with (S (n - 1 - k)) by lia. rewrite S_INR. replace (- x l * ((INR (n - 1 - k) + 1) * dt)) with (- x l * dt + - x l * (INR (n - 1 - k) * dt)) by ring. rewrite exp_plus. ring. }
    assert (S2 : rsum L (fun l => w l * exp (- x l * dt) * J0 l) = rsum n (fun k => rm_g p (V k) * Z k * rsum L (fun l => w l * b1 k l))).
    { rewrite (rsum_ext L _ (fun l => rsum n (fun k => rm_g p (V k) * Z k * (w l * b1 k l)))).
      - rewrite rsum_swap. apply rsum_ext. intros k _. now rewrite rsum_scal.
      - intros l Hl. destruct (I l Hl) as [_ ->]. rewrite <- rsum_scal. apply rsum_ext. intros k Hk. unfold b1. replace (n - k)%nat with (S (n - 1 - k)) by lia. rewrite S_INR. replace (- x l * ((INR (n - 1 - k) + 1) * dt)) with (- x l * dt + - x l * (INR (n - 1 - k) * dt)) by ring. rewrite exp_plus. ring. }
    rewrite S1, S2. unfold Rdiv. ring.
Qed.
End Fast.
