(** Model of the generic finite-difference routines of /repo/pyfeng/opt_abc.py:66-318,
    with Python object identity: objects live in a heap, [copy.copy] allocates a new
    object with the same attributes, attribute assignment mutates the object at an address. *)
From Coq Require Import Reals List.
Import ListNotations.
Open Scope R_scope.

Section Numeric.
  Context {A : Type}.
  (** [pr]: the object's price(strike, spot, texp, cp); [get]/[set]: reading and assigning
      the attribute [sigma]; [dflt] is only returned for a dangling address. *)
  Variables (pr : A -> R -> R -> R -> R -> R) (get : A -> R) (set : A -> R -> A) (dflt : A).

  Definition heap := list A.
  Definition deref (h : heap) (a : nat) : A := nth a h dflt.
  (** copy.copy(self) *)
  Definition copy (h : heap) (a : nat) : heap * nat := (h ++ [deref h a], length h).
  (** model.sigma = x *)
  Fixpoint update (h : heap) (a : nat) (x : A) : heap :=
    match h, a with
    | [], _ => []
    | _ :: t, O => x :: t
    | y :: t, S a' => y :: update t a' x
    end.
  Definition assign (h : heap) (a : nat) (x : R) : heap := update h a (set (deref h a) x).

  (** opt_abc.py:146-159 _delta_shock *)
  Definition delta_shock (spot : R) : R := spot * / 1000.
  (** opt_abc.py:161-180 delta_numeric *)
  Definition delta_numeric (h : heap) (a : nat) (strike spot texp cp : R) : R * heap :=
    let m := deref h a in
    let d := delta_shock spot in
    ((pr m strike (spot + d) texp cp - pr m strike (spot - d) texp cp) / (2 * d), h).
  (** opt_abc.py:182-202 gamma_numeric *)
  Definition gamma_numeric (h : heap) (a : nat) (strike spot texp cp : R) : R * heap :=
    let m := deref h a in
    let d := delta_shock spot in
    ((pr m strike (spot + d) texp cp - 2 * pr m strike spot texp cp
      + pr m strike (spot - d) texp cp) / (d * d), h).
  (** opt_abc.py:204-217 _vega_shock *)
  Definition vega_shock : R := / 1000.
  (** opt_abc.py:219-241 vega_numeric ([x.sigma += d] reads, then assigns) *)
  Definition vega_numeric (h : heap) (a : nat) (strike spot texp cp : R) : R * heap :=
    let d := vega_shock in
    let '(h, model) := copy h a in
    let h := assign h model (get (deref h model) + d) in
    let p_up := pr (deref h model) strike spot texp cp in
    let h := assign h model (get (deref h model) - 2 * d) in
    let p_dn := pr (deref h model) strike spot texp cp in
    ((p_up - p_dn) / (2 * d), h).
  (** opt_abc.py:243-266 volga_numeric *)
  Definition volga_numeric (h : heap) (a : nat) (strike spot texp cp : R) : R * heap :=
    let d := vega_shock in
    let '(h, model) := copy h a in
    let p_0 := pr (deref h model) strike spot texp cp in
    let h := assign h model (get (deref h model) + d) in
    let p_up := pr (deref h model) strike spot texp cp in
    let h := assign h model (get (deref h model) - 2 * d) in
    let p_dn := pr (deref h model) strike spot texp cp in
    ((p_up + p_dn - 2 * p_0) / (d * d), h).
  (** opt_abc.py:268-286 vanna_numeric *)
  Definition vanna_numeric (h : heap) (a : nat) (strike spot texp cp : R) : R * heap :=
    let d := delta_shock spot in
    let '(vega_up, h) := vega_numeric h a strike (spot + d) texp cp in
    let '(vega_dn, h) := vega_numeric h a strike (spot - d) texp cp in
    ((vega_up - vega_dn) / (2 * d), h).
  (** opt_abc.py:288-318 theta_numeric *)
  Definition theta_numeric (h : heap) (a : nat) (strike spot texp cp : R) : R * heap :=
    let m := deref h a in
    let dt := Rmin (1 / (36525 / 10)) texp in
    ((pr m strike spot (texp - dt) cp - pr m strike spot (texp + dt) cp) / (2 * dt), h).

  (** opt_abc.py:84-138 impvol_brentq for one quote.  [fdd] is _fwd_df_divf (forward and
      discount factor); [brentq f a b] is scipy's root finder ([None] = it raises, e.g. no
      sign change).  Every evaluation of [iv_func] assigns [model.sigma]; the last value it
      holds is irrelevant to the caller, the model leaves the one from p_max.
      Result: [None] = exception; inner [None] = NaN. *)
  Variables (fdd : A -> R -> R -> R * R) (brentq : (R -> R) -> R -> R -> option R).
  Definition IV_MAXVOL : R := 9999 / 100.
  Definition IV_TOL : R := / 10 ^ 10.
  Definition impvol_brentq (h : heap) (a : nat) (price strike spot texp cp : R) (setval : bool)
    : option (option R) * heap :=
    let '(fwd, df) := fdd (deref h a) spot texp in
    let kk := strike / fwd in
    let price_std := price / df / fwd in
    let '(h, model) := copy h a in
    let h := assign h model (/ 10 ^ 64) in
    let p_min := pr (deref h model) kk 1 texp cp in
    let h := assign h model IV_MAXVOL in
    let p_max := pr (deref h model) kk 1 texp cp in
    let iv_func s := pr (set (deref h model) s) kk 1 texp cp - price_std in
    let res :=
      if Rlt_dec (Rabs (price_std - p_min)) IV_TOL then Some (Some 0)
      else if Rlt_dec (Rabs (price_std - p_max)) IV_TOL then Some (Some IV_MAXVOL)
      else if Rlt_dec price_std p_min then Some None
      else if Rlt_dec p_max price_std then Some None
      else match brentq iv_func 0 10 with Some s => Some (Some s) | None => None end in
    match res with
    | Some (Some s) => (res, if setval then assign h a s else h)
    | _ => (res, h)
    end.
End Numeric.
