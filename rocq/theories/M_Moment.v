(** Moments from a moment generating function: mgf2mom.py; Gram-Charlier coefficients: util.py. Complex numbers are
    pairs (re, im); the mgf is any function of a complex argument. *)
From Coq Require Import Reals List Arith Bool.
From Verif Require Import Sums M_Opt M_Sabr.
Import ListNotations.
Open Scope R_scope.

Definition cre (z : R * R) : R := fst z.
Definition cmul (z w : R * R) : R * R := (fst z * fst w - snd z * snd w, fst z * snd w + snd z * fst w).
(** r e^(i t) *)
Definition cpolar (r t : R) : R * R := (r * cos t, r * sin t).

(** mgf2mom.py:37-40 radius *)
Definition mm_radius (n l : nat) : R := Rpower 10 (- 11 / (2 * INR n * INR l)).
(** mgf2mom.py:42-69 moment_raw *)
Definition mm_raw (mgf : R * R -> R * R) (n l : nat) (alpha : R) : R :=
  let rho := alpha * mm_radius n l in
  let part3 := lsum (map (fun k => cre (cmul (mgf (cpolar rho (PI * INR k / INR (n * l)))) (cpolar 1 (- PI * INR k / INR l)))) (seq 1 (n * l - 1))) in
  INR (fact n) / (2 * INR n * INR l * rho ^ n) * (cre (mgf (rho, 0)) + (-1) ^ n * cre (mgf (- rho, 0)) + 2 * part3).
(** mgf2mom.py:71-91 _run: the values of orders 1, ..., n. [prev] holds the last two values *)
Fixpoint mm_tail (mgf : R * R -> R * R) (l i m : nat) (a b : R) : list R :=
  match m with
  | O => []
  | S m' => let v := mm_raw mgf i l (INR (i - 1) * a / b) in v :: mm_tail mgf l (S i) m' b v
  end.
Definition mm_run (mgf : R * R -> R * R) (l n : nat) (m1 m2 : R) : list R :=
  let a1 := 2 * m1 / m2 in
  let o1 := mm_raw mgf 1 l a1 in let o2 := mm_raw mgf 2 l a1 in o1 :: o2 :: mm_tail mgf l 3 (n - 2) o1 o2.
(** mgf2mom.py:93-101 _check_replace (the warning is not modelled) *)
Definition mm_replace (out : list R) (idx : nat) (v : R) : list R := firstn idx out ++ v :: skipn (S idx) out.
(** mgf2mom.py:103-139 moments *)
Definition mm_moments (mgf : R * R -> R * R) (l : nat) (mean var : option R) (n0 : nat) : list R :=
  let n := Nat.max n0 2 in
  let m1 := match mean with Some m => m | None => mm_raw mgf 1 2 1 end in
  let m2 := match var with Some v => v + m1 ^ 2 | None => mm_raw mgf 2 1 (1 / m1) end in
  let out := mm_run mgf l n m1 m2 in
  let out := match mean with Some m => mm_replace out 0 m | None => out end in
  match var with Some v => mm_replace out 1 (v + nth 0 out 0 ^ 2) | None => out end.
(** mgf2mom.py:141-182 cumulants; [clog] is numpy's complex logarithm *)
Definition mm_cumulants (clog : R * R -> R * R) (mgf : R * R -> R * R) (l : nat) (mean var : option R) (n0 : nat) : list R :=
  let n := Nat.max n0 2 in
  let cgf := fun u => clog (mgf u) in
  let k1 := match mean with Some m => m | None => mm_raw cgf 1 2 1 end in
  let k2 := match var with Some v => v | None => mm_raw cgf 2 1 (1 / k1) end in
  let out := mm_run cgf l n k1 k2 in
  let out := match mean with Some m => mm_replace out 0 m | None => out end in
  match var with Some v => mm_replace out 1 v | None => out end.

(** statsmodels.stats.moment_helpers.cum2mc (external; imported by util.py:3): central moments from cumulants,
    mc_n = sum_{k <= n-2} binom(n-1, k) kappa_{n-k} mc_k, mc_0 = 1, mc_1 replaced by kappa_1 on output. kappa n is the n-th cumulant *)
Fixpoint c2m_list (kappa : nat -> R) (n : nat) : list R := (* mc_0, ..., mc_n *)
  match n with
  | O => [1]
  | S O => [1; 0]
  | S m => let p := c2m_list kappa m in
           p ++ [lsum (map (fun k => Binomial.C m k * kappa (S m - k)%nat * nth k p 0) (seq 0 m))]
  end.
Definition c2m (kappa : nat -> R) (n : nat) : R := match n with S O => kappa 1%nat | _ => nth n (c2m_list kappa n) 0 end.
(** util.py:130-192 StatFuncs.gramcharA_coefs: the (k+1)-th coefficient c[k]; cumul n is the n-th cumulant *)
Definition gc_std (cumul : nat -> R) (sigma : R) (n : nat) : R := if Nat.leb n 2 then 0 else (/ sigma) ^ n * cumul n.
Definition gc_coef (cumul : nat -> R) (sigma : R) (k : nat) : R := / INR (fact (S k)) * c2m (gc_std cumul sigma) (S k).
