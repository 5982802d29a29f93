(** HestonMcAndersen2008.vol_paths (heston_mc.py:783-812), one path. *)
From Coq Require Import Reals Arith.
From Verif Require Import M_Opt M_Mgf M_Heston M_HestonMc M_HestonMc2.
Open Scope R_scope.

(** heston_mc.py:783-812 the step of each scheme: [dt], current variance, the variate of the step (0, 1, 4: standard normal; 2: non-central
    chi-square; 3: standard gamma).  None = ValueError *)
Definition hv_step (p : svp) (scheme : nat) : option (R -> R -> R -> R) :=
  let c := heston_cir p in
  match scheme with
  | 0%nat => Some (cir_euler c false)
  | 1%nat => Some (cir_euler c true)
  | 2%nat => Some (fun dt v x => let '(scale, _, _) := cir_ncx2_args c dt v in scale * x)
  | 3%nat => Some (fun dt v g => let '(scale, _, _) := cir_pois_gamma_args c dt v in scale * g)
  | 4%nat => Some (fun dt v z => qe_var (cir_mean c dt v) (cir_var c dt v) z)
  | _ => None
  end.
(** heston_mc.py:788-810 var_path[i]; [dts i] = np.diff(tobs, prepend=0)[i] *)
Fixpoint hv_entry (st : R -> R -> R -> R) (dts : nat -> R) (v0 : R) (draws : nat -> R) (i : nat) : R :=
  match i with O => v0 | S j => st (dts j) (hv_entry st dts v0 draws j) (draws j) end.
Definition hv_paths (p : svp) (scheme : nat) (dts draws : nat -> R) : option (nat -> R) :=
  match hv_step p scheme with Some st => Some (hv_entry st dts (v_sigma p) draws) | None => None end.
