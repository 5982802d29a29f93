(** The Riccati function of rough Heston is the one of the affine square-root model with vol-of-vol mr * vov. *)
From Coq Require Import Reals Lra List.
From Coquelicot Require Import Coquelicot.
From Verif Require Import Base Sums Spec_Sde M_Rough P_MgfOde M_Mgf P_Cir2.
Open Scope R_scope.
Lemma rough_riccati p a A B : A 0 = 0 -> B 0 = 0 -> (forall t, 0 <= t -> is_derive B t (rough_F p a (B t))) -> (forall t, 0 <= t -> is_derive A t (rh_mr p * rh_theta p * B t)) ->
  expectation_of (rh_mr p) (rh_theta p) (rh_mr p * rh_vov p) (rh_rho p) (fun x v j => exp (a * x)) (fun t x v j => exp (a * x + A t + v * B t)).
Proof.
  intros A0 B0 HB HA. eapply expectation_ext; [| |apply (affine_backward (rh_mr p) (rh_theta p) (rh_mr p * rh_vov p) (rh_rho p) a 0 0 A B A0 B0 HA)].
  - intros. cbv beta. f_equal. ring.
  - intros. cbv beta. f_equal. ring.
  - intros t Ht. eapply is_derive_eq; [apply (HB t Ht)|]. unfold rough_F. field.
Qed.
Lemma rough_riccati_ex p a : rh_mr p * rh_vov p <> 0 -> 0 < a < 1 -> exists A B, A 0 = 0 /\ B 0 = 0 /\ (forall t, 0 <= t -> is_derive B t (rough_F p a (B t))) /\ (forall t, 0 <= t -> is_derive A t (rh_mr p * rh_theta p * B t)) /\
  forall t, ln (heston_mgf (mkSv (rh_sigma p) (rh_mr p * rh_vov p) (rh_rho p) (rh_mr p) (rh_theta p)) a t) = A t + rh_sigma p * B t.
Proof.
  intros Hv Ha. destruct (heston_affine (rh_mr p) (rh_theta p) (rh_mr p * rh_vov p) (rh_rho p) a Hv Ha) as (A & B & A0 & B0 & E & D).
  exists A, B. split; [exact A0|]. split; [exact B0|]. split; [|split].
  - intros t Ht. destruct (D t Ht) as [D1 _]. eapply is_derive_eq; [exact D1|]. unfold rough_F. field.
  - intros t Ht. exact (proj2 (D t Ht)).
  - intros t. apply E.
Qed.
From Coq Require Import Lia ZArith.
From Verif Require P_CevMc P_Sabr4.
From Verif Require Import Spec_Cev Spec_Rough M_Fd P_Rough P_Rough2 P_Rough3 P_Rough4.
Lemma adam_log_rect Gam p texp u n : gamma_function Gam -> 0 < rh_alpha p < 1 -> (0 < n)%nat -> texp = INR n / 100 ->
  exists h, (forall j, (j <= n)%nat -> nth j (fst (adam_run Gam p u (1 / 100) n)) 0 = h j) /\
  adam_log Gam p texp u = rh_mr p * rh_theta p * rect_sum n (1 / 100) h + rh_sigma p * rect_sum n (1 / 100) (fun m => Rpower (texp - INR m / 100) (- rh_alpha p) / Gam (1 - rh_alpha p) * h m).
Proof.
  intros HG Ha Hn HT. exists (adam_h Gam p u (1 / 100)). split; [intros j Hj; now apply run_h|].
  assert (EI : texp / (1 / 100) = INR n) by (rewrite HT; field).
  assert (EF : n_floor (texp / (1 / 100)) = n). { rewrite EI. unfold n_floor. rewrite Int_part_INR. apply Nat2Z.id. }
  assert (EC : n_ceil (texp / (1 / 100)) = n). { rewrite EI. unfold n_ceil. rewrite INR_IZR_INZ, <- opp_IZR. assert (X : forall z, Int_part (IZR z) = z) by (intros z; unfold Int_part; rewrite <- (tech_up (IZR z) (z + 1)); [ring| |]; rewrite plus_IZR; lra). rewrite X, Z.opp_involutive. apply Nat2Z.id. }
  unfold adam_log. cbv zeta. rewrite EF, EC. unfold rough_Ih, rect_sum.
  assert (G1 : Gam 1 = 1). { exact (P_CevMc.Gam_1 Gam HG). }
  rewrite G1.
  assert (P : forall m, (m < n)%nat -> 0 < texp - INR m * (1 / 100)). { intros m Hm. rewrite HT. apply lt_INR in Hm. lra. }
  rewrite (rsum_ext n (fun m => npow (texp - INR m * (1 / 100)) (1 - 1) * nth m (fst (adam_run Gam p u (1 / 100) n)) 0 * (1 / 100)) (fun m => 1 / 100 * adam_h Gam p u (1 / 100) m)).
  2:{ intros m Hm. rewrite run_h by lia. replace (1 - 1) with 0 by ring. specialize (P m Hm). rewrite P_Sabr4.npow_pos by lra. rewrite Rpower_O by exact P. ring. }
  assert (E2 : rsum n (fun m => npow (texp - INR m * (1 / 100)) (1 - rh_alpha p - 1) * nth m (fst (adam_run Gam p u (1 / 100) n)) 0 * (1 / 100)) / Gam (1 - rh_alpha p)
    = rsum n (fun m => 1 / 100 * (Rpower (texp - INR m / 100) (- rh_alpha p) / Gam (1 - rh_alpha p) * adam_h Gam p u (1 / 100) m))).
  { unfold Rdiv at 1. rewrite Rmult_comm, <- rsum_scal. apply rsum_ext. intros m Hm. rewrite run_h by lia. specialize (P m Hm). rewrite P_Sabr4.npow_pos by lra. replace (1 - rh_alpha p - 1) with (- rh_alpha p) by ring. replace (INR m * (1 / 100)) with (INR m / 100) by (unfold Rdiv; ring). unfold Rdiv. ring. }
  rewrite E2. field.
Qed.
Lemma quad_coef p u l m c : (forall x, l * x ^ 2 + m * x + c = rough_F p u x) -> (rh_vov p * rh_mr p) ^ 2 / 2 = l /\ rh_mr p * (u * rh_rho p * rh_vov p - 1) = m /\ (u ^ 2 - u) / 2 = c.
Proof.
  intros H. pose proof (H 0) as H0. pose proof (H 1) as H1. pose proof (H (-1)) as H2. unfold rough_F in *. split; [|split]; nra.
Qed.
Lemma hyb_small_value Gam p r0 texp u l m c : (forall x, l * x ^ 2 + m * x + c = rough_F p u x) ->
  let a := fst (hyb_a Gam (rh_alpha p) l m c r0) in
  hyb_small Gam p r0 texp u = exp (rh_mr p * rh_theta p * I_1_FPS (rh_alpha p) texp r0 a + rh_sigma p * I_2_FPS Gam (rh_alpha p) texp c r0 a).
Proof. intros H a. destruct (quad_coef p u l m c H) as (E1 & E2 & E3). unfold hyb_small. cbv zeta. rewrite E1, E2, E3. fold a. f_equal. ring. Qed.
Lemma hyb_large_value Gam p n r0 k0 texp u l m c : 0 < texp -> (0 < n)%nat -> (0 < k0)%nat -> (forall x, l * x ^ 2 + m * x + c = rough_F p u x) ->
  let a := fst (hyb_a Gam (rh_alpha p) l m c r0) in let ph := phi_n Gam (rh_alpha p) l m c texp n r0 k0 a n in
  hyb_large Gam p n r0 k0 texp u = exp (rh_mr p * rh_theta p * I_1_PED texp n k0 n (I_1_FPS (rh_alpha p) (INR k0 * texp / INR n) r0 a) ph + rh_sigma p * I_2_PED Gam (rh_alpha p) texp n n ph).
Proof.
  intros Ht Hn Hk H a ph. destruct (quad_coef p u l m c H) as (E1 & E2 & E3). unfold hyb_large. cbv zeta. rewrite E1, E2, E3. fold a. fold ph. f_equal.
  replace (rh_theta p * rh_mr p) with (rh_mr p * rh_theta p) by ring. f_equal. f_equal. f_equal. unfold I_1_FPS. rewrite <- rsum_scal. apply rsum_ext. intros q Hq.
  assert (P : 0 < INR k0 * texp / INR n). { apply lt_INR in Hn. apply lt_INR in Hk. cbn in *. apply Rdiv_lt_0_compat; [apply Rmult_lt_0_compat|]; lra. }
  rewrite !P_Sabr4.npow_pos by exact P. rewrite Rpower_plus, Rpower_1 by exact P. unfold Rdiv. ring.
Qed.
