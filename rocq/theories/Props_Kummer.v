(** C81: the 3/2 moment generating function. *)
From Coq Require Import Reals Lra.
From Coquelicot Require Import Coquelicot.
From Verif Require Import Base Spec_Cev P_Gamma2 M_Mgf Spec_Sv32 P_Kummer3.
Open Scope R_scope.
(** for 0 <= u <= 1 the truncated-series transform tends, as more terms are kept and the exponent clip is out of reach, to a solution of the
    backward equation of E(S_T^u)/S_0^u that equals 1 at expiry; v is the variance now (the model's sigma) and t the time to expiry *)
Theorem C81_transform : forall Gam k th xi rho u, gamma_function Gam -> 0 < k -> 0 < th -> 0 < xi -> 0 <= u <= 1 ->
  exists f, pricing_eq32 k th xi rho u f /\ expiry_one f /\ forall v t, 0 < v -> 0 < t ->
    exists cap0, forall cap, cap0 <= cap -> is_lim_seq (fun n => sv32_mgf (fun y => ln (Gam y)) n cap (mkSv v xi rho k th) u t) (f t v).
Proof. exact transform_unit. Qed.
Print Assumptions C81_transform.
Example C81_transform_ex : exists Gam f, gamma_function Gam /\ pricing_eq32 2 1 1 (- (1 / 2)) (1 / 2) f /\ expiry_one f.
Proof.
  destruct gamma_exists as [Gam HG]. destruct (C81_transform Gam 2 1 1 (- (1 / 2)) (1 / 2) HG ltac:(lra) ltac:(lra) ltac:(lra) ltac:(lra)) as (f & A & B & _).
  exists Gam, f. auto.
Qed.
(** for every other real u whose discriminant is not negative, whatever the log-gamma routine returns, the limit solves the same equation *)
Theorem C81_backward_equation : forall loggam k th xi rho u, 0 < k -> 0 < th -> 0 < xi ->
  0 <= (/ 2 + (k - u * rho * xi) / xi ^ 2) ^ 2 + u * (1 - u) / xi ^ 2 ->
  exists f, pricing_eq32 k th xi rho u f /\ forall v t, 0 < v -> 0 < t ->
    exists cap0, forall cap, cap0 <= cap -> is_lim_seq (fun n => sv32_mgf loggam n cap (mkSv v xi rho k th) u t) (f t v).
Proof. exact transform_pde. Qed.
Print Assumptions C81_backward_equation.
Example C81_backward_ex : 0 <= (/ 2 + (2 - 2 * - (1 / 2) * 1) / 1 ^ 2) ^ 2 + 2 * (1 - 2) / 1 ^ 2. Proof. lra. Qed.
