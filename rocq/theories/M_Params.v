(** Model of /repo/pyfeng/params.py: dataclass fields, params_kw, from_model, constructor
    validation, multi-asset canonicalisation. *)
From Coq Require Import Reals List String Bool ZArith.
Import ListNotations.
Open Scope R_scope.
Open Scope string_scope.

(** Attribute values: float, bool, None. *)
Inductive val := VR (r : R) | VB (b : bool) | VNone.

(** dataclasses.Field: name, init, kw_only, metadata kind = 'numerical', default. *)
Record field := mkField { f_name : string; f_init : bool; f_kw : bool; f_num : bool; f_default : option val }.
(** The attribute store of an instance; [None] = attribute not set. *)
Definition store := string -> option val.
(** A class: its [model_type] ClassVar (if any), fields, and [__post_init__]
    ([None] = it raises). *)
Record cls := mkCls { c_type : option string; c_fields : list field; c_post : store -> option store }.

(** params.py:58-59 _is_model *)
Definition is_model (f : field) : bool := f_init f && negb (f_num f).
(** params.py:60-62 _params_kw: positional fields first, keyword-only last *)
Definition params_kw (c : cls) (o : store) : list (string * option val) :=
  map (fun f => (f_name f, o (f_name f))) (filter (fun f => is_model f && negb (f_kw f)) (c_fields c)) ++
  map (fun f => (f_name f, o (f_name f))) (filter (fun f => is_model f && f_kw f) (c_fields c)).

Fixpoint lookup {A} (l : list (string * A)) (n : string) : option A :=
  match l with [] => None | (m, v) :: t => if String.eqb m n then Some v else lookup t n end.
Definition find_field (fs : list field) (n : string) : option field :=
  find (fun f => String.eqb (f_name f) n) fs.

(** The __init__ generated by @dataclass, called with keyword arguments: an unexpected
    name or a missing argument without default raises TypeError. *)
Definition kw_ok (fs : list field) (kw : list (string * option val)) : bool :=
  forallb (fun '(n, _) => existsb (fun f => String.eqb (f_name f) n && f_init f) fs) kw &&
  forallb (fun f => if f_init f then
                      match lookup kw (f_name f), f_default f with None, None => false | _, _ => true end
                    else true) fs.
Definition init_store (fs : list field) (kw : list (string * option val)) : store :=
  fun n => match find_field fs n with
           | None => None
           | Some f => if f_init f then
                         match lookup kw n with Some v => v | None => f_default f end
                       else f_default f
           end.
Definition construct (c : cls) (kw : list (string * option val)) : option store :=
  if kw_ok (c_fields c) kw then c_post c (init_store (c_fields c) kw) else None.

(** params.py:147-178 from_model; [inst] = isinstance(other, cls) *)
Definition from_model (c : cls) (inst : bool) (c' : cls) (other : store) : option store :=
  match c_type c, c_type c' with
  | Some t, Some t' => if String.eqb t t' then construct c (params_kw c' other) else None
  | _, _ => if inst then construct c (params_kw c' other) else None
  end.

(** ** concrete parameter classes *)
Definition upd (o : store) (n : string) (v : val) : store := fun k => if String.eqb k n then Some v else o k.
Definition getR (o : store) (n : string) : option R := match o n with Some (VR r) => Some r | _ => None end.

(** params.py:66-80 BaseParams fields; kw-only intr, divr, is_fwd *)
Definition base_kw : list field :=
  [mkField "intr" true true false (Some (VR 0)); mkField "divr" true true false (Some (VR 0));
   mkField "is_fwd" true true false (Some (VB false))].
(** params.py:255-276 SvParams: sigma, vov, rho, mr, theta *)
Definition sv_fields : list field :=
  mkField "sigma" true false false None :: base_kw ++
  [mkField "vov" true false false (Some (VR (/ 100))); mkField "rho" true false false (Some (VR 0));
   mkField "mr" true false false (Some (VR (/ 100))); mkField "theta" true false false (Some VNone)].
(** sv_abc.py:13-20: numerical fields added by the Monte-Carlo base class *)
Definition mc_num : list field :=
  [mkField "n_path" true true true (Some (VR 10000)); mkField "dt" true true true (Some (VR (/ 20)));
   mkField "rn_seed" true true true (Some VNone); mkField "antithetic" true true true (Some (VB true))].

(** params.py:270-275 SvParams.__post_init__ *)
Definition sv_post (o : store) : option store :=
  match o "theta" with
  | Some VNone => match o "sigma" with Some v => Some (upd o "theta" v) | None => None end
  | _ => Some o
  end.
(** params.py:295-307 HestonParams.__post_init__ (comparing None with a float raises) *)
Definition heston_valid (o : store) : bool :=
  match getR o "sigma", getR o "vov", getR o "mr", getR o "theta", getR o "rho" with
  | Some s, Some v, Some k, Some t, Some r =>
      if Rle_dec s 0 then false else if Rle_dec v 0 then false else if Rle_dec k 0 then false
      else if Rle_dec t 0 then false
      else if Rlt_dec (-1) r then if Rlt_dec r 1 then true else false else false
  | _, _, _, _, _ => false
  end.
Definition heston_post (o : store) : option store :=
  match sv_post o with Some o' => if heston_valid o' then Some o' else None | None => None end.
Definition Heston : cls := mkCls (Some "Heston") sv_fields heston_post.
(** a Heston Monte-Carlo class: same model type, extra numerical fields *)
Definition HestonMc : cls := mkCls (Some "Heston") (sv_fields ++ mc_num) heston_post.
(** params.py:316-340 HestonCevParams *)
Definition hestoncev_post (o : store) : option store :=
  match heston_post o with
  | Some o' => match getR o' "beta" with Some b => if Rlt_dec 0 b then Some o' else None | None => None end
  | None => None end.
Definition HestonCev : cls := mkCls (Some "HestonCev") (sv_fields ++ [mkField "beta" true false false (Some (VR 1))]) hestoncev_post.

(** params.py:217-222 CevParams.__post_init__ *)
Definition cev_accepts (beta : R) : bool :=
  if Rlt_dec 0 beta then if Req_EM_T beta 1 then false else true else false.
(** params.py:412-422 VarGammaParams.__post_init__: value of _mgf1_correction, None = ValueError *)
Definition vg_post (sigma nu theta : R) : option R :=
  let arg := 1 - theta * nu - / 2 * sigma ^ 2 * nu in
  if Rle_dec arg 0 then None else Some (- ln arg).
(** params.py:508-517 NigParams.__post_init__ *)
Definition nig_post (sigma nu theta : R) : option R :=
  let arg := 1 - 2 * theta * nu - sigma ^ 2 * nu in
  if Rle_dec arg 0 then None else Some (1 - sqrt arg).
(** params.py:648-671 CgmyParams.__post_init__ (acceptance) *)
Definition cgmy_accepts (C G M Y : R) : bool :=
  if Rle_dec C 0 then false else if Rle_dec G 0 then false else if Rle_dec M 1 then false
  else if Rle_dec 2 Y then false else true.
(** params.py:698-701 SpreadParams.__post_init__ *)
Definition spread_accepts (sigma : list R) : bool := Nat.eqb (List.length sigma) 2.

(** params.py:451-468 / 540-552 to_sv_param (VG guard: cond > 1 raises; NIG has none) *)
Definition to_sv_param (sigma theta nu : R) : R * R * R :=
  let vov := sqrt nu in
  let cond := nu * (2 * theta + sigma ^ 2) in
  let c := 1 - sqrt (1 - cond) in
  let denom := sqrt (c ^ 2 + sigma ^ 2 * nu) in
  (denom / vov, c / denom, vov).
Definition vg_to_sv_param (sigma theta nu : R) : option (R * R * R) :=
  if Rlt_dec 1 (nu * (2 * theta + sigma ^ 2)) then None else Some (to_sv_param sigma theta nu).
(** params.py:470-476 / 554-560 to_orig_param: (sigma, theta, nu) *)
Definition to_orig_param (sigma_bs rho vov : R) : R * R * R :=
  (sqrt (1 - rho ^ 2) * sigma_bs, rho * sigma_bs / vov - / 2 * sigma_bs ^ 2, vov ^ 2).

(** ** MaParams, params.py:708-830.  Matrices are functions on indices below [n]. *)
Definition mat := nat -> nat -> R.
Definition vec := nat -> R.
Record ma := mkMa { ma_n : nat; ma_sigma : vec; ma_rho : option R; ma_cor : mat; ma_cov : mat }.
(** np.atleast_1d(sigma) with its length; cov/cor come with their shape (rows, cols) *)
Definition shaped := (mat * (nat * nat))%type.
Definition n_given {A B C} (a : option A) (b : option B) (c : option C) : nat :=
  ((match a with Some _ => 1 | None => 0 end) + (match b with Some _ => 1 | None => 0 end)
   + (match c with Some _ => 1 | None => 0 end))%nat.
Definition shape_ok (n : nat) (s : nat * nat) : bool := Nat.eqb (fst s) n && Nat.eqb (snd s) n.
(** params.py:757-808.  Shape of [cov_m] is used for the diagonal when sigma is None (the
    diagonal of a rectangular array has min(rows, cols) entries).  cholesky and weight are
    not modelled. *)
Definition ma_post (sigma : option (vec * nat)) (rho : option R) (cor cov : option shaped) : option ma :=
  if Nat.ltb 1 (n_given rho cor cov) then None else
  match (match sigma with
         | Some s => Some s
         | None => match cov with
                   | Some (c, (r, k)) => Some (fun i => sqrt (c i i), Nat.min r k)
                   | None => None
                   end
         end) with
  | None => None
  | Some (sg, n) =>
    match cov with
    | Some (c, sh) =>
      if shape_ok n sh then
        let sg' := fun i => sqrt (c i i) in
        let cor' := fun i j => c i j / (sg' i * sg' j) in
        Some (mkMa n sg' (if Nat.eqb n 2 then Some (cor' 0%nat 1%nat) else None) cor' c)
      else None
    | None =>
      match cor with
      | Some (c, sh) =>
        if shape_ok n sh then
          Some (mkMa n sg (if Nat.eqb n 2 then Some (c 0%nat 1%nat) else None) c (fun i j => sg j * c i j * sg i))
        else None
      | None =>
        let r := match rho with Some r => r | None => 0 end in
        let c := fun i j => r * 1 + (1 - r) * (if Nat.eqb i j then 1 else 0) in
        Some (mkMa n sg rho c (fun i j => sg j * c i j * sg i))
      end
    end
  end.
(** params.py:823-833 params_kw: sigma and cov_m only *)
Definition ma_roundtrip (m : ma) : option ma :=
  ma_post (Some (ma_sigma m, ma_n m)) None None (Some (ma_cov m, (ma_n m, ma_n m))).

(** ** BsmDisp and from_model (bsm.py:497-548).  BsmDisp is not decorated with @dataclass, so
    dataclasses.fields sees only the inherited sigma, intr, divr, is_fwd, and getattr(o,"sigma")
    goes through the property (sigma_disp*beta).  Its __init__ has beta=1, pivot=0 defaults. *)
Record disp_obj := mkDispObj { dp_sigma_disp : R; dp_beta : R; dp_pivot : R; dp_intr : R; dp_divr : R; dp_isf : bool }.
(** bsm.py:542-544 *)
Definition disp_getattr_sigma (o : disp_obj) : R := dp_sigma_disp o * dp_beta o.
(** bsm.py:527-548 __init__ (the sigma setter stores into sigma_disp) *)
Definition disp_init (sigma beta pivot intr divr : R) (isf : bool) : disp_obj := mkDispObj sigma beta pivot intr divr isf.
(** params.py:178 cls( **other.params_kw()) *)
Definition disp_from_model (o : disp_obj) : disp_obj :=
  disp_init (disp_getattr_sigma o) 1 0 (dp_intr o) (dp_divr o) (dp_isf o).
