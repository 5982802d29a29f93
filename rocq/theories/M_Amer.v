(** American put by the QD+ approximation, american.py. AmerLi2010QdPlus itself cannot be built with a sigma
    (its only base is OptABC, which has no constructor taking fields); the methods are modelled as they run on
    an instance of a class combining it with BsmParams. [bdd] is what spopt.newton returns for exer_bdd. *)
From Coq Require Import Reals.
From Verif Require Import Gauss M_Opt.
Open Scope R_scope.

(** american.py:40-42 and 84-86, 140-142: nn_m1, mm, hh, qqd_sqrt, qqd_prime *)
Definition am_nn (m : opt) : R := 2 * (intr m - divr m) / sigma m ^ 2 - 1.
Definition am_mm (m : opt) : R := 2 * intr m / sigma m ^ 2.
Definition am_hh (m : opt) (T : R) : R := 1 - exp (- intr m * T).
Definition am_sqrt (m : opt) (T : R) : R := sqrt (am_nn m ^ 2 + 4 * am_mm m / am_hh m T).
Definition am_prime (m : opt) (T : R) : R := am_mm m / (am_hh m T ^ 2 * am_sqrt m T).
(** american.py:94 and 146: the common part of qqd_c0 and c0 at the boundary [sb] *)
Definition am_c0 (m : opt) (K sb T cp : R) : R :=
  let p := bsm_price m K sb T cp in
  let theta := bsm_theta m K sb T cp in
  let df := exp (- intr m * T) in
  am_mm m / am_sqrt m T * (df / am_hh m T - theta / intr m / (K - sb - p) - df * am_prime m T / am_sqrt m T).
(** american.py:64-99 AmerLi2010QdPlus.zero_func *)
Definition am_zero (m : opt) (K sb T cp : R) : R :=
  let '(fwd, df, divf) := fwd_df_divf m sb T in
  let s := sigma_std (sigma m) T in
  let d1 := ln (fwd / K) / s + / 2 * s in
  let c := am_c0 m K sb T cp - / 2 * (am_nn m + am_sqrt m T) in
  (1 - divf * Phi (- d1)) * sb + c * (K - sb - bsm_price m K sb T cp).
(** american.py:25-47 AmerLi2010QdPlus.exer_bdd_ig *)
Definition am_qinf (m : opt) : R := - / 2 * (am_nn m + sqrt (am_nn m ^ 2 + 4 * am_mm m)).
Definition am_sinf (m : opt) (K : R) : R := K / (1 - 1 / am_qinf m).
Definition am_s0 (m : opt) (K : R) : R := K * Rmin 1 (intr m / Rmax (divr m) eps).
Definition am_bdd_ig (m : opt) (K T : R) : R :=
  let theta := K / (am_sinf m K - K) * ((intr m - divr m) * T - 2 * sigma m * sqrt T) in
  am_sinf m K + (am_s0 m K - am_sinf m K) * exp (- theta).
(** american.py:116-155 AmerLi2010QdPlus.price (cp < 0), one spot *)
Definition am_cont (m : opt) (bdd K S T cp : R) : R :=
  let df := exp (- intr m * T) in
  let qqd := - / 2 * (am_nn m + am_sqrt m T) in
  let c0 := am_c0 m K bdd T cp in
  let b := - df * am_mm m * am_prime m T / (2 * am_sqrt m T) in
  let log := ln (S / bdd) in
  bsm_price m K S T cp + (K - bdd - bsm_price m K bdd T cp) / (1 - log * (c0 + b * log)) * exp (qqd * log).
Definition am_price (m : opt) (bdd K S T cp : R) : R :=
  if Rle_dec S bdd then K - S else am_cont m bdd K S T cp.
(** american.py:101-114 AmerLi2010QdPlus.integrand at time [u] before expiry, [B] = exer_bdd(strike, u) *)
Definition am_integrand (m : opt) (B K S T u : R) : R :=
  let '(fwd, df, divf) := fwd_df_divf m S (T - u) in
  let s := sigma_std (sigma m) (T - u) in
  let d1 := ln (fwd / B) / s in
  let d2 := d1 - / 2 * s in
  let d1 := d1 + / 2 * s in
  intr m * K * df * Phi (- d2) - divr m * S * divf * Phi (- d1).
