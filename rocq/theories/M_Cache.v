(** Model of the FFT interpolation cache: /repo/pyfeng/sv_fft.py:49-90, params.py:92-95
    (params_hash) and copy.copy / attribute assignment on model instances. *)
From Coq Require Import Reals List String Bool ZArith.
From Verif Require Import M_Opt.
Import ListNotations.
Open Scope R_scope.
Open Scope string_scope.

Definition params := list (string * R).
(** Python's frozenset equality: same members (True == 1, False == 0 as in Python). *)
Definition same_set {A} (l1 l2 : list A) : Prop := forall x, In x l1 <-> In x l2.
(** A hash of a pair of frozensets is any function that cannot distinguish equal sets. *)
Definition set_hash (H : list string -> list R -> Z) : Prop :=
  forall k1 k2 v1 v2, same_set k1 k2 -> same_set v1 v2 -> H k1 v1 = H k2 v2.

Section Cache.
Variable H : list string -> list R -> Z.
(** the interpolator computed on a cache miss, sv_fft.py:64-84, as a function of the current
    parameters, texp, n_x and x_lim: left abstract *)
Variable compute : params -> R -> Z -> R -> R -> R.

(** params.py:92-95 *)
Definition params_hash (p : params) : Z := H (map fst p) (map snd p).

(** key = (texp, params_hash, n_x, x_lim), sv_fft.py:56 *)
Definition key := (R * Z * Z * R)%type.
Definition key_eqb (a b : key) : bool :=
  let '(t1, h1, n1, x1) := a in let '(t2, h2, n2, x2) := b in
  (if Req_EM_T t1 t2 then true else false) && Z.eqb h1 h2 && Z.eqb n1 n2 && (if Req_EM_T x1 x2 then true else false).
Definition dict := list (key * (R -> R)).
Fixpoint dict_get (d : dict) (k : key) : option (R -> R) :=
  match d with [] => None | (k', v) :: t => if key_eqb k' k then Some v else dict_get t k end.

(** An instance: parameters, grid attributes, and the _fft_cache attribute (absent, or a
    reference into the heap of dicts: copy.copy copies the reference). *)
Record obj := mkObj { o_params : params; o_nx : Z; o_xlim : R; o_cache : option nat }.
Record world := mkWorld { w_objs : list obj; w_heap : list dict }.

Inductive op :=
| New (p : params)                       (* constructor; class attributes n_x = 2^12, x_lim = 200 *)
| SetParam (i : nat) (name : string) (v : R)  (* obj.name = v *)
| SetGrid (i : nat) (nx : Z) (xlim : R)     (* obj.n_x = .., obj.x_lim = .. *)
| Copy (i : nat)                         (* copy.copy(obj) *)
| Price (i : nat) (texp : R).            (* the fft_interp call made by obj.price(.., texp) *)

Fixpoint set_nth {A} (i : nat) (a : A) (l : list A) : list A :=
  match l, i with [], _ => [] | _ :: t, 0%nat => a :: t | b :: t, S j => b :: set_nth j a t end.
Definition set_param (p : params) (name : string) (v : R) : params :=
  map (fun '(n, x) => if String.eqb n name then (n, v) else (n, x)) p.

(** sv_fft.py:56-84 fft_interp *)
Definition fft_interp (w : world) (i : nat) (o : obj) (texp : R) : world * (R -> R) :=
  let k := (texp, params_hash (o_params o), o_nx o, o_xlim o) in
  let fresh := compute (o_params o) texp (o_nx o) (o_xlim o) in
  match o_cache o with
  | None => (* AttributeError: self._fft_cache = {} *)
      (mkWorld (set_nth i (mkObj (o_params o) (o_nx o) (o_xlim o) (Some (List.length (w_heap w)))) (w_objs w))
               (w_heap w ++ [[(k, fresh)]]), fresh)
  | Some r =>
      match dict_get (nth r (w_heap w) []) k with
      | Some sp => (w, sp)
      | None => (mkWorld (w_objs w) (set_nth r ((k, fresh) :: nth r (w_heap w) []) (w_heap w)), fresh)
      end
  end.

(** What one fft_interp call observed: the parameters, arguments and the interpolator used. *)
Record event := mkEv { e_params : params; e_texp : R; e_nx : Z; e_xlim : R; e_interp : R -> R }.

Definition step (w : world) (a : op) : world * list event :=
  match a with
  | New p => (mkWorld (w_objs w ++ [mkObj p 4096%Z 200 None]) (w_heap w), [])
  | SetParam i n v =>
      match nth_error (w_objs w) i with
      | Some o => (mkWorld (set_nth i (mkObj (set_param (o_params o) n v) (o_nx o) (o_xlim o) (o_cache o)) (w_objs w)) (w_heap w), [])
      | None => (w, []) end
  | SetGrid i nx xl =>
      match nth_error (w_objs w) i with
      | Some o => (mkWorld (set_nth i (mkObj (o_params o) nx xl (o_cache o)) (w_objs w)) (w_heap w), [])
      | None => (w, []) end
  | Copy i =>
      match nth_error (w_objs w) i with
      | Some o => (mkWorld (w_objs w ++ [o]) (w_heap w), [])
      | None => (w, []) end
  | Price i texp =>
      match nth_error (w_objs w) i with
      | Some o => let '(w', sp) := fft_interp w i o texp in
                  (w', [mkEv (o_params o) texp (o_nx o) (o_xlim o) sp])
      | None => (w, []) end
  end.
Fixpoint run (w : world) (h : list op) : list event :=
  match h with [] => [] | a :: t => let '(w', e) := step w a in (e ++ run w' t)%list end.
Definition empty : world := mkWorld [] [].
End Cache.

(** sv_fft.py:86-94 FftABC.price given the interpolator (with fwd, df from _fwd_df_divf) *)
Definition fft_price (m : opt) (spline : R -> R) (strike spot texp cp : R) : R :=
  let '(fwd, df, _) := fwd_df_divf m spot texp in
  let kk := strike / fwd in
  df * fwd * ((if Rlt_dec 0 cp then 1 else kk) - sqrt kk * spline (- ln kk)).
(** sv_fft.py:34-47 price_simpson has the same form, [int_val] = the Simpson sum / pi *)
Definition simpson_price (m : opt) (int_val : R -> R) (strike spot texp cp : R) : R :=
  let '(fwd, df, _) := fwd_df_divf m spot texp in
  let kk := strike / fwd in
  df * fwd * ((if Rlt_dec 0 cp then 1 else kk) - sqrt kk / PI * int_val (ln kk)).
(** Bsm.params_kw as name/value pairs *)
Definition bsm_params (m : opt) : params :=
  [("sigma", sigma m); ("intr", intr m); ("divr", divr m); ("is_fwd", if is_fwd m then 1 else 0)].
