(** Specification vocabulary for parameter classes. *)
From Coq Require Import Reals List String Bool ZArith.
From Verif Require Import M_Params.
Import ListNotations.
Open Scope R_scope.
Open Scope string_scope.

(** ** from_model *)
Definition model_name (c : cls) (n : string) : Prop :=
  exists f, In f (c_fields c) /\ f_name f = n /\ f_init f = true /\ f_num f = false.
Definition numerical_field (c : cls) (f : field) : Prop := In f (c_fields c) /\ f_num f = true.
(** [c] can be built from the parameters of [c']. *)
Definition compatible (c c' : cls) : Prop :=
  (exists t, c_type c = Some t /\ c_type c' = Some t) /\
  NoDup (map f_name (c_fields c)) /\
  (forall n, model_name c n <-> model_name c' n) /\
  (forall f, numerical_field c f -> f_default f <> None).
(** [o] passes the validation of [c] unchanged: any attribute store with the same model
    parameters is accepted, keeping these parameters, and numerical attributes are left alone. *)
Definition admissible (c : cls) (o : store) : Prop :=
  forall s, (forall n, model_name c n -> s n = o n) ->
  exists s', c_post c s = Some s' /\ (forall n, model_name c n -> s' n = o n) /\
             (forall f, numerical_field c f -> s' (f_name f) = s (f_name f)).

(** the documented constraints, as a predicate on attribute values *)
Definition heston_constraints (s v k t r : R) : Prop := 0 < s /\ 0 < v /\ 0 < k /\ 0 < t /\ -1 < r < 1.
Definition heston_attrs (o : store) (s v k t r : R) : Prop :=
  o "sigma" = Some (VR s) /\ o "vov" = Some (VR v) /\ o "mr" = Some (VR k) /\ o "theta" = Some (VR t) /\ o "rho" = Some (VR r).

Definition is_heston (c : cls) : Prop := c = Heston \/ c = HestonMc.
(** ** constructor validation: Heston with keyword arguments sigma, vov, rho, mr and optional theta *)
Definition heston_kw (s v r k : R) (t : option R) : list (string * option val) :=
  [("sigma", Some (VR s)); ("vov", Some (VR v)); ("rho", Some (VR r)); ("mr", Some (VR k))] ++
  match t with Some x => [("theta", Some (VR x))] | None => [] end.
(** "may be built from": each accepted specification *)
Definition idx (n : nat) (P : nat -> nat -> Prop) : Prop := forall i j, (i < n)%nat -> (j < n)%nat -> P i j.
Definition canonical (m : ma) : Prop :=
  idx (ma_n m) (fun i j => ma_cov m i j = ma_sigma m i * ma_sigma m j * ma_cor m i j) /\
  (forall i, (i < ma_n m)%nat -> ma_cor m i i = 1) /\
  idx (ma_n m) (fun i j => ma_cor m i j = ma_cor m j i).

