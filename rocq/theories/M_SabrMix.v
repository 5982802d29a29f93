(** Conditioning nodes of the SABR mixtures: sabr_int.py:80-167.  [zw], [zw0], [zw1] list scipy's Gauss-Hermite nodes and weights
    (roots_hermitenorm); None = the call raises. *)
From Coq Require Import Reals List.
From Verif Require Import Sums M_Opt M_Fd M_Sabr M_Dist.
Import ListNotations.
Open Scope R_scope.

(** sabr_int.py:105-113 SabrUncorrChoiWu2021.cond_spot_sigma: (fwd_ratio, vol_ratio, weight); None = AssertionError (rho) *)
Definition uncorr_nodes (p : sabrp) (texp : R) (zw : list (R * R)) : option (list (R * R * R)) :=
  if isclose (b_rho p) 0 then
    let vovn := b_vov p * sqrt texp in
    let '(m1, var_scaled, _, _) := avgvar_mvsk vovn in
    match ln_from_mv m1 var_scaled 1 with
    | Some d => Some (map (fun xw => (1, sqrt (fst xw), snd xw)) (ln_quad d zw))
    | None => None
    end
  else None.

(** sabr_int.py:158-165 the forward ratio; None = UnboundLocalError (the ValueError is built but not raised) *)
Definition mixchoi_fwd (p : sabrp) (alpha texp sig_t avgvar : R) : option R :=
  let rho_alpha := b_rho p * alpha in
  if isclose (b_beta p) 0 then Some (1 + rho_alpha / b_vov p * (sig_t - 1))
  else if Rlt_dec 0 (b_beta p) then
    Some (Rmax (exp (rho_alpha * ((sig_t - 1) / b_vov p - / 2 * rho_alpha * texp * avgvar))) (/ 10 ^ 20))
  else None.
(** sabr_int.py:139-140 sln_lam *)
Definition sln_lam : R := 5 / 6.
(** sabr_int.py:153-154 the inner rule at the outer node zhat *)
Definition mixchoi_inner (vovn zhat : R) (zw1 : list (R * R)) : list (R * R) :=
  let '(m1, var_scaled, _, _) := cond_avgvar_mvsk vovn zhat in ln_quad (ln_fit2 m1 var_scaled sln_lam) zw1.
(** a list of results, None as soon as one of them is *)
Fixpoint all_some {A} (l : list (option A)) : option (list A) :=
  match l with
  | [] => Some []
  | None :: _ => None
  | Some a :: r => match all_some r with Some r' => Some (a :: r') | None => None end
  end.
(** sabr_int.py:143-167 SabrMixtureChoi.cond_spot_sigma, row by row *)
Definition mixchoi_nodes (p : sabrp) (texp fwd : R) (zw0 zw1 : list (R * R)) : option (list (R * R * R)) :=
  let alpha := sabr_alpha p fwd in let vovn := sabr_vovn p texp in let rhoc := sqrt (1 - b_rho p ^ 2) in
  let outer := combine (ln_quad (mkLn vovn 1 1) zw0) (map fst zw0) in
  all_some (flat_map (fun o => let '(sig_t, w0, zhat) := o in
    map (fun xw => let '(avgvar, w2) := xw in
                   match mixchoi_fwd p alpha texp sig_t avgvar with Some f => Some (f, rhoc * sqrt avgvar, w0 * w2) | None => None end)
        (mixchoi_inner vovn zhat zw1)) outer).

(** sabr_int.py:22-53 price of the two classes *)
Definition uncorr_price (cevp : R -> opt -> R -> R -> R -> R -> R) (mo : opt) (p : sabrp) (cf : bool) (zw : list (R * R)) (strike spot texp cp : R) : option R :=
  match uncorr_nodes p texp zw with Some l => sabr_mix_price cevp mo p cf (fun _ => l) strike spot texp cp | None => None end.
Definition mixchoi_price (cevp : R -> opt -> R -> R -> R -> R -> R) (mo : opt) (p : sabrp) (cf : bool) (zw0 zw1 : list (R * R)) (strike spot texp cp : R) : option R :=
  match mixchoi_nodes p texp (forward mo spot texp) zw0 zw1 with Some l => sabr_mix_price cevp mo p cf (fun _ => l) strike spot texp cp | None => None end.
