(** Heston simulation: realised variance of the log-return (heston_mc.py HestonMcABC.return_var_realized), one path. *)
From Coq Require Import Reals List Arith.
From Verif Require Import Base Sums M_Opt M_Mgf M_Heston M_Mc M_HestonMc.
Import ListNotations.
Open Scope R_scope.

(** heston_mc.py:160 tmp *)
Definition hmc_tmp (p : svp) : R := v_rho p / v_vov p * v_mr p - / 2.
(** heston_mc.py:163-176, one pass of the loop body: [corr] = correct_martingale, [pv] = extra.get('pois_avgvar_v'),
    [qe] = extra.get('qe_m_corr', 0.0), [z] the normal of draw_log_return *)
Definition hmc_rv_inc (m : opt) (p : svp) (corr cond : bool) (dt var_0 var_t avgvar : R) (pv : option R) (qe z : R) : R :=
  (if corr then match pv with Some e => (hmc_tmp p * dt) ^ 2 * e | None => 0 end else 0) +
  (if cond then hmc_cond_log_return_var m p dt var_0 var_t avgvar
   else (hmc_ln_m m p dt var_0 var_t avgvar + sqrt (hmc_ln_var p dt avgvar) * z + (if corr then qe else 0)) ^ 2).
(** heston_mc.py:162-178 the loop; [step i dt var] = (var_t, avgvar, pois_avgvar_v, qe_m_corr) *)
Fixpoint hmc_rv_loop (m : opt) (p : svp) (corr cond : bool) (step : nat -> R -> R -> R * R * option R * R) (z : nat -> R)
    (i : nat) (dts : list R) (var acc : R) : R :=
  match dts with
  | [] => acc
  | d :: t => let '(v, a, pv, qe) := step i d var in
              hmc_rv_loop m p corr cond step z (S i) t v (acc + hmc_rv_inc m p corr cond d var v a pv qe (z i))
  end.
(** heston_mc.py:143-181 return_var_realized; the observation times are sv_abc.py:56-71 tobs *)
Definition hmc_return_var (m : opt) (p : svp) (corr cond : bool) (step : nat -> R -> R -> R * R * option R * R) (z : nat -> R)
    (dt : option R) (texp : R) : R :=
  hmc_rv_loop m p corr cond step z 0 (diff_from 0 (tobs dt texp)) (v_sigma p) 0 / texp.
(** heston_mc.py:872-878 as a step of that loop; [draws i] = (Poisson, standard gamma) variates of step i *)
Definition poistd_rv_step (ive : R -> R -> R) (c : cir) (draws : nat -> R * R) (i : nat) (dt var_0 : R) : R * R * option R * R :=
  let '(vt, av, ev) := poistd_step ive c dt var_0 (fst (draws i)) (snd (draws i)) in (vt, av, Some ev, 0).
(** heston_mc.py:858-870 HestonMcChoiKwok2023PoisTd.vol_paths: entry i of the variance path *)
Fixpoint poistd_vol_path (c : cir) (dts : nat -> R) (var_0 : R) (draws : nat -> R * R) (i : nat) : R :=
  match i with
  | O => var_0
  | S j => let '(scale, _, _) := cir_pois_gamma_args c (dts j) (poistd_vol_path c dts var_0 draws j) in scale * snd (draws j)
  end.
