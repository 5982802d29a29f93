(** C75: implied volatility and price from the probability mass at zero. *)
From Coq Require Import Reals Lra.
From Coquelicot Require Import Coquelicot.
From Verif Require Import Base Gauss Spec_Opt M_Opt P_Black P_Qe M_Cev P_Mass.
Open Scope R_scope.
(** ppf is the quantile function of the standard normal at the given mass.  Put per unit of strike: tends to the mass. *)
Theorem C75_put_mass_limit : forall ppf m S T mass, 0 < S -> 0 < T -> Phi (ppf mass) = mass ->
  filterlim (fun K => price_from_mass_zero ppf m K S T (-1) mass / K) (at_right 0) (locally mass).
Proof. exact mass_limit. Qed.
Print Assumptions C75_put_mass_limit.
(** without drift the error is of order log(spot/strike)^(-3/2): every coefficient of the expansion is right *)
Theorem C75_put_mass_rate : forall ppf m S T mass, 0 < S -> 0 < T -> Phi (ppf mass) = mass -> forward m S T = S ->
  exists C k, 0 < k /\ forall K, 0 < K -> K < k ->
    Rabs (price_from_mass_zero ppf m K S T (-1) mass / K - mass) * sqrt (ln (S / K)) ^ 3 <= C.
Proof. exact mass_rate. Qed.
Print Assumptions C75_put_mass_rate.
(** the price is not discounted: with a non-zero rate the limit is not the discounted mass *)
Theorem C75_discount_refuted : forall ppf m S T mass, 0 < S -> 0 < T -> Phi (ppf mass) = mass -> intr m <> 0 ->
  ~ filterlim (fun K => price_from_mass_zero ppf m K S T (-1) mass / K) (at_right 0) (locally (DF (intr m) T * mass)).
Proof. exact mass_discount. Qed.
Print Assumptions C75_discount_refuted.
Definition ex_mass : opt := mkOpt (/ 5) 0 0 false.
Definition ex_ppf (p : R) : R := if Req_EM_T p (Phi (-1)) then -1 else 0.
Example C75_ex : exists C k, 0 < k /\ forall K, 0 < K -> K < k ->
    Rabs (price_from_mass_zero ex_ppf ex_mass K 100 2 (-1) (Phi (-1)) / K - Phi (-1)) * sqrt (ln (100 / K)) ^ 3 <= C.
Proof.
  apply C75_put_mass_rate; try lra.
  - unfold ex_ppf. destruct (Req_EM_T _ _) as [_|N]; [reflexivity|contradiction].
  - unfold forward, ex_mass; cbn [is_fwd intr divr]. replace ((0 - 0) * 2) with 0 by ring. rewrite exp_0. ring.
Qed.
Example C75_ex_refuted : ~ filterlim (fun K => price_from_mass_zero ex_ppf (mkOpt (/ 5) (/ 20) 0 false) K 100 2 (-1) (Phi (-1)) / K) (at_right 0) (locally (DF (/ 20) 2 * Phi (-1))).
Proof. apply (C75_discount_refuted ex_ppf (mkOpt (/ 5) (/ 20) 0 false)); try lra; [|cbn; lra]. unfold ex_ppf. destruct (Req_EM_T _ _) as [_|N]; [reflexivity|contradiction]. Qed.
