(** Specification vocabulary for the multi-asset theorems that refers to the model's records. *)
From Coq Require Import Reals List Arith.
From Verif Require Import Sums Spec_Multi M_Params M_Multi.
Open Scope R_scope.

(** admissible inputs of a spread or two-asset option *)
Definition valid_spread (o : spr) (spot : nat -> R) (T : R) : Prop :=
  0 < sp_s1 o /\ 0 < sp_s2 o /\ -1 < sp_rho o < 1 /\ 0 < T /\ 0 < spot 0%nat /\ 0 < spot 1%nat.
(** volatility of the ratio of the two assets *)
Definition spread_vol (o : spr) : R := sqrt (sp_s1 o ^ 2 - 2 * sp_rho o * sp_s1 o * sp_s2 o + sp_s2 o ^ 2).
(** Bjerksund-Stensland exercise rule: exercise when S1 >= a S2^b / E[S2^b], a = f2 + K, b = f2 / a *)
Definition exercise (f2 s2 T K s1v s2v : R) : R :=
  let a := f2 + K in let b := f2 / a in
  when_le (a * Rpower s2v b / (Rpower f2 b * exp (b * (b - 1) / 2 * (s2 ^ 2 * T)))) s1v.
(** [draws n m Z]: m independent vectors of n normals cut out of one long vector Z *)
Definition draw (n : nat) (Z : nat -> R) (k : nat) : nat -> R := fun i => Z (k * n + i)%nat.
Definition draws (n m : nat) (Z : nat -> R) : list (nat -> R) := map (draw n Z) (seq 0 m).
(** the covariance matrix has the given factor and its diagonal is the squared volatilities *)
Definition ok_basket (o : bsk) (chol : mat) : Prop :=
  factor_of (bn o) chol (ma_cov (bk_ma o)) /\ forall i, (i < bn o)%nat -> ma_cov (bk_ma o) i i = ma_sigma (bk_ma o) i ^ 2.
(** indicator of z above the root x (extended real) *)
Definition exercised (x : xval) (z : R) : R := match x with XNeg => 1 | XPos => 0 | XFin x => when_le x z end.
