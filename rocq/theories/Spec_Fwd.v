(** Specification vocabulary: what it means for a pricer to honour the is_fwd flag. *)
From Coq Require Import Reals.
From Verif Require Import M_Opt M_Multi.
Open Scope R_scope.

(** the same model, quoting the underlying by its forward price *)
Definition as_forward (m : opt) : opt := mkOpt (sigma m) (intr m) (divr m) true.
(** arguments: strike, spot, texp, cp.  Passing the forward with is_fwd = true gives the price of the spot model *)
Definition honours_is_fwd {A : Type} (price : opt -> R -> R -> R -> R -> A) : Prop :=
  forall m strike spot texp cp, is_fwd m = false -> 0 < strike -> 0 < spot ->
    price (as_forward m) strike (spot * exp ((intr m - divr m) * texp)) texp cp = price m strike spot texp cp.
(** whenever the rates differ, the call or the put is priced differently *)
Definition ignores_is_fwd {A : Type} (price : opt -> R -> R -> R -> R -> A) : Prop :=
  forall m strike spot texp, is_fwd m = false -> intr m <> divr m -> 0 < sigma m -> 0 < strike -> 0 < spot -> 0 < texp ->
    exists cp, (cp = 1 \/ cp = -1) /\
      price (as_forward m) strike (spot * exp ((intr m - divr m) * texp)) texp cp <> price m strike spot texp cp.

(** several assets: rates r, dividends q_i *)
Definition as_forward_n (m : mkt) : mkt := mkMkt (k_r m) (k_q m) true.
Definition forwards (m : mkt) (spot : nat -> R) (texp : R) : nat -> R := fun i => spot i * exp ((k_r m - k_q m i) * texp).
Definition basket_as_forward (o : bsk) : bsk := mkBsk (bk_ma o) (bk_w o) (as_forward_n (bk_m o)).
Definition spread_as_forward (o : spr) : spr := mkSpr (sp_s1 o) (sp_s2 o) (sp_rho o) (as_forward_n (sp_m o)).
