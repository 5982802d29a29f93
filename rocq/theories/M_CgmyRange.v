(** Truncation interval of CgmyCos and the prices computed on it, sv_cos.py. *)
From Coq Require Import Reals.
From Verif Require Import M_Opt M_Mgf M_Sabr M_Cos.
Open Scope R_scope.

(** sv_cos.py:524-543 CgmyCos._truncation_range; [junike] is truncation_method == 'junike', [c1] the first
    cumulant and [half] the Junike half-width (M_Cos). Any other truncation_method takes the F&O branch. *)
Definition cgmy_range (junike : bool) (c1 half L Y : R) : R * R :=
  if junike then (c1 - half, c1 + half)
  else if isclose Y (198 / 100) then (-100, 20)
  else (- L * Y, L * Y).
(** sv_cos.py:345-397 CosABC.price as inherited by CgmyCos, through _integration_range (sv_cos.py:185-187);
    [lefloch] is pricing_formula == 'lefloch'; [re], [im] the characteristic function (arbitrary) *)
Definition cgmy_cos_price (m : opt) (junike lefloch : bool) (c1 half L Y : R) (re im : R -> R) (n : nat) (strike spot texp cp : R) : R :=
  let '(a, b) := cgmy_range junike c1 half L Y in
  if lefloch then lefloch_price m re im n a b strike spot texp cp
  else cos_price m re im n a b strike spot texp cp.
