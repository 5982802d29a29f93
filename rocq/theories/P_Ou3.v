(** OUSV: remaining pieces for the property files. *)
From Coq Require Import Reals Lra Lia List Arith.
From Coquelicot Require Import Coquelicot.
From Verif Require Import Base Gauss Sums M_Opt M_Mgf M_Heston M_Ou Spec_Expect Spec_Ou P_Cir P_Ou P_Ou2.
Open Scope R_scope.

Lemma ou_avgvol_exp s0 xi rho k th : k <> 0 ->
  ou_expectation k th xi (fun s u j => u) (fun t s u j => u + t * ou_avgvol (mkSv s0 xi rho k th) true t s).
Proof.
  intros Hk. pose proof (ou_EU k th xi Hk) as [H0 (ft & fs & fss & fu & fj & H)]. split.
  - intros. rewrite ou_avgvol_eq by exact Hk. apply (H0 s u j).
  - exists ft, fs, fss, fu, fj. intros t s u j Ht. destruct (H t s u j Ht) as (A & B & C & D & E & F).
    split; [|split; [|split; [exact C|split; [|split; [|exact F]]]]].
    + eapply is_derive_ext; [|exact A]. intros; cbv beta. now rewrite ou_avgvol_eq by exact Hk.
    + eapply is_derive_ext; [|exact B]. intros; cbv beta. now rewrite ou_avgvol_eq by exact Hk.
    + eapply is_derive_ext; [|exact D]. intros; cbv beta. now rewrite ou_avgvol_eq by exact Hk.
    + eapply is_derive_ext; [|exact E]. intros; cbv beta. now rewrite ou_avgvol_eq by exact Hk.
Qed.
Lemma ou_avgvar_exp s0 xi rho k th : k <> 0 ->
  ou_expectation k th xi (fun s u j => j) (fun t s u j => j + t * ou_avgvar (mkSv s0 xi rho k th) true t s).
Proof.
  intros Hk. pose proof (ou_EJ k th xi Hk) as [H0 (ft & fs & fss & fu & fj & H)]. split.
  - intros. rewrite ou_avgvar_eq by exact Hk. apply (H0 s u j).
  - exists ft, fs, fss, fu, fj. intros t s u j Ht. destruct (H t s u j Ht) as (A & B & C & D & E & F).
    split; [|split; [|split; [exact C|split; [|split; [|exact F]]]]].
    + eapply is_derive_ext; [|exact A]. intros; cbv beta. now rewrite ou_avgvar_eq by exact Hk.
    + eapply is_derive_ext; [|exact B]. intros; cbv beta. now rewrite ou_avgvar_eq by exact Hk.
    + eapply is_derive_ext; [|exact D]. intros; cbv beta. now rewrite ou_avgvar_eq by exact Hk.
    + eapply is_derive_ext; [|exact E]. intros; cbv beta. now rewrite ou_avgvar_eq by exact Hk.
Qed.
(** one statement for the law of the exact step *)
Lemma ou_step_law s0 xi rho k th : 0 < k -> exists m1 m2 m4 : R -> R -> R,
  ou_expectation k th xi (fun s u j => s) (fun t s u j => m1 t s) /\
  ou_expectation k th xi (fun s u j => s ^ 2) (fun t s u j => m2 t s) /\
  ou_expectation k th xi (fun s u j => s ^ 4) (fun t s u j => m4 t s) /\
  forall T s, 0 <= T -> let step z := ou_vol_step (mkSv s0 xi rho k th) true T s z in
    gauss_expect step (m1 T s) /\ gauss_expect (fun z => step z ^ 2) (m2 T s) /\ gauss_expect (fun z => step z ^ 4) (m4 T s).
Proof.
  intros Hk. exists (oum k th), (fun t s => oum k th t s ^ 2 + ouw k xi t), (fun t s => oum k th t s ^ 4 + 6 * oum k th t s ^ 2 * ouw k xi t + 3 * ouw k xi t ^ 2).
  split; [apply ou_E1; lra|]. split; [apply ou_E2; lra|]. split; [apply ou_E4; lra|]. intros T s HT. apply ou_step_moments; assumption.
Qed.
(** two exact steps = one exact step: a x1 + b x2 is N(0, a^2+b^2), so compare mean and variance of the Gaussian *)
Lemma ou_two_steps s0 xi rho k th S T s : 0 < k -> 0 <= S -> 0 <= T -> let p := mkSv s0 xi rho k th in
  exists m a b c, (forall z1 z2, ou_vol_step p true T (ou_vol_step p true S s z1) z2 = m + a * z1 + b * z2) /\
    (forall z, ou_vol_step p true (S + T) s z = m + c * z) /\ a ^ 2 + b ^ 2 = c ^ 2.
Proof.
  intros Hk HS HT p. set (W t := (1 - exp (- k * t) ^ 2) / (2 * k)).
  exists (oum k th (S + T) s), (exp (- (k * T)) * (xi * sqrt (W S))), (xi * sqrt (W T)), (xi * sqrt (W (S + T))).
  split; [|split].
  - intros z1 z2. unfold p. rewrite !ou_step_form. fold (W S) (W T). rewrite <- (ou_mean_compose k th s S T). unfold oum. ring.
  - intros z. unfold p. rewrite ou_step_form. reflexivity.
  - rewrite !Rpow_mult_distr. rewrite !pow2_sqrt by (unfold W; apply w_nonneg; lra). unfold W.
    replace (- k * (S + T)) with (- k * S + - k * T) by ring. replace (- (k * T)) with (- k * T) by ring. rewrite exp_plus. field. lra.
Qed.
Lemma ou_swap_prop s0 xi rho k th r T dt : 0 < k -> 0 < T -> exists m2 m4 : R -> R -> R,
  ou_expectation k th xi (fun s u j => s ^ 2) (fun t s u j => m2 t s) /\
  ou_expectation k th xi (fun s u j => s ^ 4) (fun t s u j => m4 t s) /\
  (* E[(r - sigma^2/2)^2 - rho xi sigma^2], averaged over [0,T] *)
  is_RInt (fun t => dt * (r ^ 2 - r * m2 t s0 + / 4 * m4 t s0 - rho * xi * m2 t s0) / T) 0 T
    (ou_var_swap (mkSv s0 xi rho k th) r T dt - ou_avgvar (mkSv s0 xi rho k th) true T s0).
Proof.
  intros Hk HT. exists (fun t s => oum k th t s ^ 2 + ouw k xi t), (fun t s => oum k th t s ^ 4 + 6 * oum k th t s ^ 2 * ouw k xi t + 3 * ouw k xi t ^ 2).
  split; [apply ou_E2; lra|]. split; [apply ou_E4; lra|].
  pose proof (ou_swap_int s0 xi rho k th r T Hk) as HI. pose proof (ou_swap_value s0 xi rho k th r T Hk HT dt) as HV.
  match type of HI with is_RInt _ _ _ ?v => set (I := v) in * end.
  replace (ou_var_swap (mkSv s0 xi rho k th) r T dt - ou_avgvar (mkSv s0 xi rho k th) true T s0) with (dt / T * I).
  2:{ apply (Rmult_eq_reg_l T); [|lra]. rewrite HV. field. lra. }
  apply (is_RInt_scal (V := R_NormedModule) _ _ _ (dt / T)) in HI. eapply is_RInt_ext; [|exact HI].
  intros t _. cbv beta. unfold scal; simpl; unfold mult; simpl. field. lra.
Qed.
(** the drift of the log-price is intr - divr; the routine uses intr *)
Lemma ou_swap_div s0 xi rho k th r q T dt : 0 < k -> 0 < T ->
  ou_var_swap (mkSv s0 xi rho k th) r T dt - ou_var_swap (mkSv s0 xi rho k th) (r - q) T dt
  = dt * q * (2 * r - q - ou_avgvar (mkSv s0 xi rho k th) true T s0).
Proof. intros Hk HT. unfold ou_var_swap. cbn [v_sigma v_mr v_theta v_vov v_rho]. ring. Qed.
