From Coq Require Import Reals Lra Lia List Psatz.
From Coquelicot Require Import Coquelicot.
From Verif Require Import Base Gauss Sums M_Opt M_Mgf M_Heston M_Ou M_Garch Spec_Opt Spec_Expect Spec_Garch P_Cir P_Expect P_Gmom.
Open Scope R_scope.

Section Avg.
Variables (k th xi : R).
Hypothesis (Hk : k <> 0) (H1 : xi * xi <> k) (H2 : xi * xi <> 2 * k).
Let a1 := xi * xi - k.
Let a2 := xi * xi - 2 * k.
Definition gJ (t v : R) : R := th * t + (v - th) * (1 - exp (- (k * t))) / k.
Definition gW (t v : R) : R :=
  let e := exp (- (k * t)) in let E := exp (a2 * t) in
  - (e * (v - th)) ^ 2 / k ^ 2
  + 2 * E * (2 * k * th * (k * th + a2 * v) + a1 * a2 * v ^ 2) / (a1 * a2) ^ 2
  - xi ^ 2 * (th ^ 2 * (4 * k * (3 - k * t) + (2 * (k * t) - 5) * xi ^ 2) + a2 * v * (2 * th + v)) / (k * a2) ^ 2
  + 2 * e * xi ^ 2 * (2 * th ^ 2 * (k * t * k - (1 + k * t) * xi ^ 2) + v * (2 * k * th * (1 + t * a1) + a1 * v)) / (k * a1) ^ 2.

Lemma gw_a1 : a1 <> 0. Proof using H1. clear - H1. unfold a1. lra. Qed.
Lemma gw_a2 : a2 <> 0. Proof using H2. clear - H2. unfold a2. lra. Qed.

Lemma gJ_eq s0 rho t v : t <> 0 -> fst (garch_avgvar_mv (mkSv s0 xi rho k th) t v) = gJ t v / t.
Proof using Hk.
  intros Ht. unfold garch_avgvar_mv; cbn [v_vov v_mr v_theta fst]. unfold gJ. rewrite exprel_eq by auto. field. auto.
Qed.
Lemma gW_eq s0 rho t v : t <> 0 -> snd (garch_avgvar_mv (mkSv s0 xi rho k th) t v) = gW t v / t ^ 2.
Proof using Hk H1 H2.
  intros Ht. pose proof gw_a1. pose proof gw_a2. unfold garch_avgvar_mv; cbn [v_vov v_mr v_theta snd]. fold a1 a2. unfold gW.
  clearbody a1 a2. generalize (exp (- (k * t))) (exp (a2 * t)). intros e E. field. auto.
Qed.

Definition gm1 (t : R) : R := (1 - exp (- (k * t))) / k.
Lemma gJ_E : garch_expectation k th xi (fun v j => j) (fun t v j => j + gJ t v).
Proof using Hk.
  split; [intros; unfold gJ; rewrite Rmult_0_r, Rmult_0_r, Ropp_0, exp_0; field; exact Hk|].
  exists (fun t v j => th + (v - th) * exp (- (k * t))), (fun t v j => gm1 t), (fun t v j => 0), (fun t v j => 1).
  intros t v j _. unfold gJ, gm1. refine (conj _ (conj _ (conj _ (conj _ _)))).
  - auto_derive; [trivial|]. Req. field. exact Hk.
  - auto_derive; [trivial|]. Req. field. exact Hk.
  - auto_derive; [trivial|]. Req. ring.
  - auto_derive; [trivial|]. Req. ring.
  - field. exact Hk.
Qed.
Definition gWt (t v : R) : R :=
  let e := exp (- (k * t)) in let E := exp (a2 * t) in
  2 * k * (e * (v - th)) ^ 2 / k ^ 2
  + 2 * a2 * E * (2 * k * th * (k * th + a2 * v) + a1 * a2 * v ^ 2) / (a1 * a2) ^ 2
  - xi ^ 2 * (th ^ 2 * (- 4 * k ^ 2 + 2 * k * xi ^ 2)) / (k * a2) ^ 2
  - k * (2 * e * xi ^ 2 * (2 * th ^ 2 * (k * t * k - (1 + k * t) * xi ^ 2) + v * (2 * k * th * (1 + t * a1) + a1 * v)) / (k * a1) ^ 2)
  + 2 * e * xi ^ 2 * (2 * th ^ 2 * (k * k - k * xi ^ 2) + v * (2 * k * th * a1)) / (k * a1) ^ 2.
Definition gWv (t v : R) : R :=
  let e := exp (- (k * t)) in let E := exp (a2 * t) in
  - 2 * e ^ 2 * (v - th) / k ^ 2
  + 2 * E * (2 * k * th * a2 + 2 * a1 * a2 * v) / (a1 * a2) ^ 2
  - xi ^ 2 * (a2 * (2 * th + 2 * v)) / (k * a2) ^ 2
  + 2 * e * xi ^ 2 * (2 * k * th * (1 + t * a1) + 2 * a1 * v) / (k * a1) ^ 2.
Definition gWvv (t : R) : R :=
  let e := exp (- (k * t)) in let E := exp (a2 * t) in
  - 2 * e ^ 2 / k ^ 2 + 4 * E * (a1 * a2) / (a1 * a2) ^ 2 - 2 * xi ^ 2 * a2 / (k * a2) ^ 2 + 4 * e * xi ^ 2 * a1 / (k * a1) ^ 2.
Lemma gW_0 v : gW 0 v = 0.
Proof using Hk H1 H2.
  pose proof gw_a1. pose proof gw_a2. unfold gW. rewrite (Rmult_0_r k), Ropp_0, Rmult_0_r, exp_0.
  unfold a1, a2 in *. field. auto.
Qed.
Lemma gW_t t v : is_derive (fun s => gW s v) t (gWt t v).
Proof using Hk H1 H2.
  pose proof gw_a1. pose proof gw_a2. unfold gW, gWt. clearbody a1 a2. auto_derive; [trivial|]. Req.
  generalize (exp (- (k * t))) (exp (a2 * t)). intros e E. field. auto.
Qed.
Lemma gW_v t v : is_derive (fun s => gW t s) v (gWv t v).
Proof using Hk H1 H2.
  pose proof gw_a1. pose proof gw_a2. unfold gW, gWv. clearbody a1 a2. auto_derive; [trivial|]. Req.
  generalize (exp (- (k * t))) (exp (a2 * t)). intros e E. field. auto.
Qed.
Lemma gW_vv t v : is_derive (fun s => gWv t s) v (gWvv t).
Proof using Hk H1 H2.
  pose proof gw_a1. pose proof gw_a2. unfold gWv, gWvv. clearbody a1 a2. auto_derive; [trivial|]. Req.
  generalize (exp (- (k * t))) (exp (a2 * t)). intros e E. field. auto.
Qed.
Lemma gW_ode t v : gWt t v = k * (th - v) * gWv t v + xi ^ 2 / 2 * v ^ 2 * (gWvv t + 2 * gm1 t ^ 2).
Proof using Hk H1 H2.
  pose proof gw_a1. pose proof gw_a2. unfold gWt, gWv, gWvv, gm1. unfold a1, a2 in *.
  generalize (exp (- (k * t))) (exp ((xi * xi - 2 * k) * t)). intros e E. field. auto.
Qed.
Lemma gJ_t t v : is_derive (fun s => gJ s v) t (th + (v - th) * exp (- (k * t))).
Proof using Hk. unfold gJ. auto_derive; [trivial|]. Req. field. exact Hk. Qed.
Lemma gJ_v t v : is_derive (fun s => gJ t s) v (gm1 t).
Proof using Hk. unfold gJ, gm1. auto_derive; [trivial|]. Req. field. exact Hk. Qed.
Lemma gJ2_E : garch_expectation k th xi (fun v j => j ^ 2) (fun t v j => (j + gJ t v) ^ 2 + gW t v).
Proof using Hk H1 H2.
  split.
  - intros. rewrite gW_0. unfold gJ. rewrite Rmult_0_r, Rmult_0_r, Ropp_0, exp_0. field. exact Hk.
  - exists (fun t v j => 2 * (j + gJ t v) * (th + (v - th) * exp (- (k * t))) + gWt t v),
           (fun t v j => 2 * (j + gJ t v) * gm1 t + gWv t v),
           (fun t v j => 2 * gm1 t ^ 2 + gWvv t), (fun t v j => 2 * (j + gJ t v)).
    intros t v j _. refine (conj _ (conj _ (conj _ (conj _ _)))).
    + apply (g_J2 (fun s => gJ s v) (fun s => gW s v) (fun _ => 0) t _ _ 0 (gJ_t t v) (gW_t t v)). apply (is_derive_const (K := R_AbsRing) (V := R_NormedModule) 0).
    + apply (g_J2 (fun s => gJ t s) (fun s => gW t s) (fun _ => 0) v _ _ 0 (gJ_v t v) (gW_v t v)). apply (is_derive_const (K := R_AbsRing) (V := R_NormedModule) 0).
    + pose proof (gJ_v t v) as A. pose proof (gW_vv t v) as B.
      auto_derive; [split; [exists (gm1 t); exact A|split; [exists (gWvv t); exact B|exact I]]|].
      replace (Derive (fun x => gJ t x) v) with (gm1 t) by (symmetry; exact (is_derive_unique _ _ _ A)).
      replace (Derive (fun x => gWv t x) v) with (gWvv t) by (symmetry; exact (is_derive_unique _ _ _ B)). Req. ring.
    + auto_derive; [trivial|]. Req. ring.
    + rewrite gW_ode. unfold gm1. generalize (gJ t v) (gWv t v) (gWvv t) (exp (- (k * t))). intros. field. exact Hk.
Qed.
End Avg.

Lemma garch_avg s0 xi rho k th : k <> 0 -> xi ^ 2 <> k -> xi ^ 2 <> 2 * k ->
  exists m1 m2 : R -> R -> R,
    garch_expectation k th xi (fun v j => j) (fun t v j => j + m1 t v) /\
    garch_expectation k th xi (fun v j => j ^ 2) (fun t v j => (j + m1 t v) ^ 2 + m2 t v) /\
    forall t v, 0 < t -> garch_avgvar_mv (mkSv s0 xi rho k th) t v = (m1 t v / t, m2 t v / t ^ 2).
Proof.
  intros Hk H1 H2. replace (xi ^ 2) with (xi * xi) in H1, H2 by ring.
  exists (gJ k th), (gW k th xi). split; [apply gJ_E; exact Hk|]. split; [apply gJ2_E; assumption|].
  intros t v Ht. rewrite <- (gJ_eq k th xi Hk s0 rho t v) by lra. rewrite <- (gW_eq k th xi Hk H1 H2 s0 rho t v) by lra.
  apply surjective_pairing.
Qed.
