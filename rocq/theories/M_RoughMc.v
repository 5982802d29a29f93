(** Model of pyfeng/heston_rough_mc.py: Monte-Carlo for the rough Heston model with kernel t^(-alpha).
    Simplifications: exact real numbers for floats; one simulated path (numpy works on all paths in parallel, entry by entry);
    None stands for a path with a NaN or infinite entry (numpy carries it on to every later value); scipy.special.gamma is a parameter;
    the Gauss rules of scipy are parameters; the normal draws are parameters. *)
From Coq Require Import Reals List ZArith.
From Verif Require Import Base Sums M_Fd M_Opt M_Rough.
Import ListNotations.
Open Scope R_scope.

(** heston_rough_mc.py:123-136 f *)
Definition rm_f (p : rhp) (v : R) : R := rh_mr p * (rh_theta p - v).
(** heston_rough_mc.py:138-152 g, for v >= 0 (np.sqrt gives NaN otherwise: see the guards below) *)
Definition rm_g (p : rhp) (v : R) : R := rh_vov p * sqrt v.
(** heston_rough_mc.py:154-169 random_normals: the two draws from a pair of independent normals *)
Definition rm_normals (p : rhp) (z1 z2 : R) : R * R := (z1, rh_rho p * z1 + sqrt (1 - rh_rho p ^ 2) * z2).
(** heston_rough_mc.py:81-82 configure: dt and tgrid = linspace(0, texp, n_ts+1) *)
Definition rm_dt (texp : R) (n : nat) : R := texp / INR n.
Definition rm_grid (dt : R) (i : nat) : R := INR i * dt.
(** heston_rough_mc.py:171-190 term_1 *)
Definition rm_term1 (al dt tn tk : R) : R := npow (tn - tk + dt) (1 - al) - npow (tn - tk) (1 - al).
(** heston_rough_mc.py:192-214 term_2.  For alpha >= 1/2 the value at t_k = t_n is not finite: 0.0 ** (1 - 2 alpha) is inf, or 0/0 at alpha = 1/2 *)
Definition rm_term2 (al dt tn tk : R) : option R :=
  if Rlt_dec al (/ 2) then Some (sqrt ((npow (tn - tk + dt) (1 - 2 * al) - npow (tn - tk) (1 - 2 * al)) / (1 - 2 * al)))
  else if Req_EM_T al (/ 2) then None
  else if Req_EM_T tn tk then None
  else Some (sqrt ((npow (tn - tk + dt) (1 - 2 * al) - npow (tn - tk) (1 - 2 * al)) / (1 - 2 * al))).
(** sum of a list of terms, None if any of them is not finite *)
Fixpoint osum (n : nat) (t : nat -> option R) : option R :=
  match n with
  | O => Some 0
  | S m => match osum m t, t m with Some a, Some b => Some (a + b) | _, _ => None end
  end.
Definition root_ok (v : R) : bool := if Rle_dec 0 v then true else false.
(** heston_rough_mc.py:216-252 ModifiedEM: the value at t_(i+1) from V_t[0..i] *)
Definition em_next (Gam : R -> R) (p : rhp) (dt : R) (i : nat) (V : nat -> R) (Z : nat -> R) : option R :=
  let al := rh_alpha p in
  let tn := rm_grid dt (S i) in
  let sf := rsum (S i) (fun k => rm_f p (V k) * rm_term1 al dt tn (rm_grid dt (S k))) in
  match osum (S i) (fun k => if root_ok (V k) then match rm_term2 al dt tn (rm_grid dt (S k)) with Some w => Some (rm_g p (V k) * w * Z k) | None => None end else None) with
  | Some sg => Some (rh_sigma p + 1 / Gam (2 - al) * sf + 1 / Gam (1 - al) * sg)
  | None => None
  end.
Fixpoint em_path (Gam : R -> R) (p : rhp) (dt : R) (Z : nat -> R) (n : nat) : option (list R) :=
  match n with
  | O => Some [rh_sigma p]
  | S i => match em_path Gam p dt Z i with
           | Some V => match em_next Gam p dt i (fun k => nth k V 0) Z with Some v => Some (V ++ [v]) | None => None end
           | None => None
           end
  end.
(** heston_rough_mc.py:254-291 get_num_nodes, as numpy floats before use *)
Definition rm_nodes (texp dt err_tol scale : R) : R * R * R * R * R :=
  let ceil x := IZR (- Int_part (- x)) in
  (scale * Rmax (ceil (ln texp)) 0 + 1, scale * ceil (ln (ln (1 / err_tol) / dt)), scale * ceil (ln (1 / err_tol)),
   scale * ceil (ln (1 / err_tol)), scale * ceil (ln (1 / err_tol / dt))).
(** heston_rough_mc.py:293-319 GaussJacobiQuad: node and weight from the rule's node s, weight w *)
Definition rm_jacobi (Gam : R -> R) (al M : R) (q : R * R) : R * R :=
  (Rpower 2 (- M - 1) * (fst q + 1), Rpower 2 ((- M - 1) * al) * snd q / Gam al).
(** heston_rough_mc.py:321-352 GaussLegendreQuad *)
Definition rm_legendre (Gam : R -> R) (al j : R) (q : R * R) : R * R :=
  let s := Rpower 2 (j - 1) * (fst q + 3) in
  (s, Rpower s (al - 1) * snd q * Rpower 2 (j - 1) / Gam al).
(** heston_rough_mc.py:354-391 get_nodes_weights: all (node, weight) pairs; M, N cut to integers with int(), qj, qs, ql the base rules *)
Definition rm_all_nodes (Gam : R -> R) (al : R) (M N : nat) (qj qs ql : list (R * R)) : list (R * R) :=
  map (rm_jacobi Gam al (INR M)) qj ++
  flat_map (fun i => map (rm_legendre Gam al (INR i - INR M)) qs) (seq 0 M) ++
  flat_map (fun j => map (rm_legendre Gam al (INR j)) ql) (seq 0 (S N)).
(** heston_rough_mc.py:393-418 H_N, one node x *)
Definition rm_H (p : rhp) (dt x h v : R) : R := 1 / x * (1 - exp (- x * dt)) * rm_f p v + exp (- x * dt) * h.
(** heston_rough_mc.py:420-456 J_N, one node x *)
Definition rm_J (p : rhp) (dt x j v z : R) : R := sqrt ((1 - exp (- 2 * x * dt)) / (2 * x)) * (rm_g p v * z) + exp (- x * dt) * j.
(** heston_rough_mc.py:458-509 Fast: state (V_t[i], H_t, J_t) after i steps; L nodes x l with weights w l *)
Fixpoint fast_state (Gam : R -> R) (p : rhp) (dt : R) (L : nat) (x w : nat -> R) (Z : nat -> R) (n : nat) : option (R * (nat -> R) * (nat -> R)) :=
  match n with
  | O => Some (rh_sigma p, fun _ => 0, fun _ => 0)
  | S i =>
    match fast_state Gam p dt L x w Z i with
    | None => None
    | Some (v, H, J) =>
      let al := rh_alpha p in
      if Rlt_dec al (/ 2) then
      if root_ok v then
        let v' := rh_sigma p + Rpower dt (1 - al) / Gam (2 - al) * rm_f p v
                  + 1 / Gam (1 - al) * rsum L (fun l => w l * exp (- x l * dt) * H l)
                  + Rpower dt (/ 2 - al) / sqrt (1 - 2 * al) / Gam (1 - al) * rm_g p v * Z i
                  + 1 / Gam (1 - al) * rsum L (fun l => w l * exp (- x l * dt) * J l) in
        Some (v', fun l => rm_H p dt (x l) (H l) v, fun l => rm_J p dt (x l) (J l) v (Z i))
      else None
      else None
    end
  end.
(** heston_rough_mc.py:511-529 eta_j *)
Definition rm_eta (al texp : R) (N : nat) (j : nat) : R :=
  INR j * Rpower (INR N) (- (1 / 5)) / texp * Rpower (sqrt 10 * al / (2 + al)) (2 / 5).
(** heston_rough_mc.py:531-556 c_j_gamma_j, entry j = 0 .. N-1 *)
Definition rm_c (Gam : R -> R) (al texp : R) (N j : nat) : R :=
  (npow (rm_eta al texp N (S j)) al - npow (rm_eta al texp N j) al) / Gam (1 - al) / Gam (1 + al).
Definition rm_gam (al texp : R) (N j : nat) : R :=
  (npow (rm_eta al texp N (S j)) (al + 1) - npow (rm_eta al texp N j) (al + 1)) / (npow (rm_eta al texp N (S j)) al - npow (rm_eta al texp N j) al)
  * al / (1 + al).
(** heston_rough_mc.py:558-588 V_tJ, one factor *)
Definition rm_V_tJ (p : rhp) (dt gj u v z : R) : R := (1 - gj * dt) * u + (- rh_mr p * v * dt + rm_g p v * sqrt dt * z).
(** heston_rough_mc.py:615 number of factors *)
Definition rm_n_exp (n : nat) : nat := n_ceil (Rpower (INR n) (5 / 4)).
(** heston_rough_mc.py:590-628 MultifactorApprox: state (V_t[i], V_tj) after i steps *)
Fixpoint mf_state (Gam : R -> R) (p : rhp) (texp dt : R) (N : nat) (Z : nat -> R) (n : nat) : option (R * (nat -> R)) :=
  match n with
  | O => Some (rh_sigma p, fun _ => 0)
  | S i =>
    match mf_state Gam p texp dt N Z i with
    | None => None
    | Some (v, U) =>
      if root_ok v then
        let c := rm_c Gam (rh_alpha p) texp N in
        let g := rm_gam (rh_alpha p) texp N in
        let U' := fun j => rm_V_tJ p dt (g j) (U j) v (Z i) in
        Some (rh_sigma p + rh_mr p * rh_theta p * rsum N (fun j => c j / g j * (1 - exp (- g j * rm_grid dt (S i)))) + rsum N (fun j => c j * U' j), U')
      else None
    end
  end.
(** heston_rough_mc.py:630-680 price: log-price after i of the n_ts - 1 loop steps, for V >= 0 *)
Fixpoint rm_logprice (intr spot dt : R) (V W : nat -> R) (i : nat) : R :=
  match i with
  | O => ln spot
  | S k => rm_logprice intr spot dt V W k + (intr - / 2 * V k * dt + sqrt (V k * dt) * W k)
  end.
(** discounted payoff of one path: the last row of S_t has index n_ts - 1 *)
Definition rm_payoff (intr texp spot : R) (n : nat) (V W : nat -> R) (strike cp : R) : R :=
  exp (- texp * intr) * Rmax 0 (cp * (exp (rm_logprice intr spot (rm_dt texp n) V W (n - 1)) - strike)).
(** heston_rough_mc.py:682-740 cond_spot_sigma: forward, and per path the conditional forward and volatility; np.trapezoid on tgrid *)
Definition rm_forward (intr divr texp spot : R) : R := spot / exp (- texp * intr) * exp (- texp * divr).
Definition rm_trapz (dt : R) (n : nat) (V : nat -> R) : R := rsum n (fun i => (V i + V (S i)) / 2 * dt).
Definition rm_cond_fwd (p : rhp) (intr divr texp spot : R) (n : nat) (V Z : nat -> R) : R :=
  let dt := rm_dt texp n in
  rm_forward intr divr texp spot *
  exp (intr * texp + rh_rho p * rsum n (fun i => sqrt (V i * dt) * Z i) - / 2 * rh_rho p ^ 2 * rm_trapz dt n V).
Definition rm_cond_sigma (p : rhp) (texp : R) (n : nat) (V : nat -> R) : R :=
  sqrt ((1 - rh_rho p ^ 2) * rm_trapz (rm_dt texp n) n V / texp).
(** correct_fwd=True: all paths scaled by lambda_ *)
Definition rm_mean (l : list R) : R := lsum l / INR (length l).
Definition rm_scaled (intr divr texp spot : R) (cf : list R) : list R :=
  map (fun c => rm_forward intr divr texp spot * exp (intr * texp) / rm_mean cf * c) cf.
(** heston_rough_mc.py:742-780 priceCMC for an array of strikes, given the conditional forwards and volatilities of all paths; base_model is
    Bsm(vol, intr, divr, is_fwd) (sv_abc.py:53-54).  With a scalar strike np.mean(price_, axis=1) fails: None *)
Definition rm_price_cmc (intr divr : R) (isf : bool) (texp : R) (cf : list (R * R)) (strikes : option (list R)) (cp : R) : option (list R) :=
  match strikes with
  | None => None
  | Some ks => Some (map (fun k => rm_mean (map (fun q => bsm_price (mkOpt (snd q) intr divr isf) k (fst q) texp cp) cf)) ks)
  end.
