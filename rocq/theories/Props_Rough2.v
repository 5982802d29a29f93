(** C51 and C52, continued: what the Riccati function and the returned values are (heston_rough.py). *)
From Coq Require Import Reals List Lra Lia.
From Coquelicot Require Import Coquelicot.
From Verif Require Import Base Sums Spec_Cev Spec_Sde M_Fd M_Mgf M_Rough Spec_Rough P_Rough5.
Open Scope R_scope.

(** F is the Riccati function of the square-root model with mean reversion mr, level theta, vol-of-vol mr * vov (the alpha = 1 limit of
    rough Heston): if B' = F(a, B), A' = mr theta B from 0, then exp(a x + A + v B) is the conditional expectation of exp(a X) *)
Theorem C51_riccati : forall p a A B, A 0 = 0 -> B 0 = 0 ->
  (forall t, 0 <= t -> is_derive B t (rough_F p a (B t))) -> (forall t, 0 <= t -> is_derive A t (rh_mr p * rh_theta p * B t)) ->
  expectation_of (rh_mr p) (rh_theta p) (rh_mr p * rh_vov p) (rh_rho p) (fun x v j => exp (a * x)) (fun t x v j => exp (a * x + A t + v * B t)).
Proof. exact rough_riccati. Qed.
Print Assumptions C51_riccati.
(** such A and B exist for 0 < a < 1, and the Heston transform of the package is exp(A + sigma B) *)
Theorem C51_riccati_heston : forall p a, rh_mr p * rh_vov p <> 0 -> 0 < a < 1 -> exists A B, A 0 = 0 /\ B 0 = 0 /\
  (forall t, 0 <= t -> is_derive B t (rough_F p a (B t))) /\ (forall t, 0 <= t -> is_derive A t (rh_mr p * rh_theta p * B t)) /\
  forall t, ln (heston_mgf (mkSv (rh_sigma p) (rh_mr p * rh_vov p) (rh_rho p) (rh_mr p) (rh_theta p)) a t) = A t + rh_sigma p * B t.
Proof. exact rough_riccati_ex. Qed.
Print Assumptions C51_riccati_heston.
(** on a whole number of steps the logarithm of the Adams transform is mr theta I^1 h + sigma I^(1-alpha) h by left rectangle sums *)
Theorem C51_adam_log : forall Gam p texp u n, gamma_function Gam -> 0 < rh_alpha p < 1 -> (0 < n)%nat -> texp = INR n / 100 ->
  exists h, (forall j, (j <= n)%nat -> nth j (fst (adam_run Gam p u (1 / 100) n)) 0 = h j) /\
  adam_log Gam p texp u = rh_mr p * rh_theta p * rect_sum n (1 / 100) h
    + rh_sigma p * rect_sum n (1 / 100) (fun m => Rpower (texp - INR m / 100) (- rh_alpha p) / Gam (1 - rh_alpha p) * h m).
Proof. exact adam_log_rect. Qed.
Print Assumptions C51_adam_log.
Example C51_adam_log_ex : 1 / 4 = INR 25 / 100 /\ 0 < rh_alpha (mkRh (1 / 25) (1 / 3) (- (7 / 10)) (1 / 10) (1 / 3) (62 / 100)) < 1.
Proof. cbn. lra. Qed.
(** the hybrid method computes with the coefficients of F: for every quadratic l x^2 + m x + c equal to F(u, .) *)
Theorem C52_small_value : forall Gam p r0 texp u l m c, (forall x, l * x ^ 2 + m * x + c = rough_F p u x) ->
  let a := fst (hyb_a Gam (rh_alpha p) l m c r0) in
  hyb_small Gam p r0 texp u = exp (rh_mr p * rh_theta p * I_1_FPS (rh_alpha p) texp r0 a + rh_sigma p * I_2_FPS Gam (rh_alpha p) texp c r0 a).
Proof. exact hyb_small_value. Qed.
Print Assumptions C52_small_value.
Theorem C52_large_value : forall Gam p n r0 k0 texp u l m c, 0 < texp -> (0 < n)%nat -> (0 < k0)%nat -> (forall x, l * x ^ 2 + m * x + c = rough_F p u x) ->
  let a := fst (hyb_a Gam (rh_alpha p) l m c r0) in let ph := phi_n Gam (rh_alpha p) l m c texp n r0 k0 a n in
  hyb_large Gam p n r0 k0 texp u
  = exp (rh_mr p * rh_theta p * I_1_PED texp n k0 n (I_1_FPS (rh_alpha p) (INR k0 * texp / INR n) r0 a) ph + rh_sigma p * I_2_PED Gam (rh_alpha p) texp n n ph).
Proof. exact hyb_large_value. Qed.
Print Assumptions C52_large_value.
Example C52_value_ex : forall p u, exists l m c, forall x, l * x ^ 2 + m * x + c = rough_F p u x.
Proof.
  intros p u. exists ((rh_mr p * rh_vov p) ^ 2 / 2), (rh_mr p * (u * rh_rho p * rh_vov p - 1)), (/ 2 * (u ^ 2 - u)). intros x. unfold rough_F. field.
Qed.
