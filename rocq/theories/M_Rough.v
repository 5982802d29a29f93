(** Model of pyfeng/heston_rough.py: the two Riccati solvers of RoughHestonABC (fractional Adams method and fast hybrid method).
    Simplifications: exact real numbers for floats; the transform argument u is real (the code also accepts complex arrays);
    scipy.special.gamma is a parameter Gam, exp(gammaln a - gammaln b) is Gam a / Gam b (both positive arguments). *)
From Coq Require Import Reals List ZArith.
From Verif Require Import Base Sums M_Fd.
Import ListNotations.
Open Scope R_scope.

(** params.py:361-370 RoughHestonParams *)
Record rhp := mkRh { rh_sigma : R; rh_vov : R; rh_rho : R; rh_mr : R; rh_theta : R; rh_alpha : R }.

(** heston_rough.py:17-34 a_j_kp1; pow(0, .) is npow *)
Definition a_j_kp1 (Gam : R -> R) (al : R) (k : nat) (delta : R) (j : nat) : R :=
  if Nat.eqb j 0 then Rpower delta al * (npow (INR k) (al + 1) - (INR k - al) * npow (INR k + 1) al) / Gam (al + 2)
  else if Nat.eqb j (k + 1) then Rpower delta al / Gam (al + 2)
  else Rpower delta al * (npow (INR k - INR j + 2) (al + 1) + npow (INR k - INR j) (al + 1) - 2 * npow (INR k - INR j + 1) (al + 1)) / Gam (al + 2).
(** heston_rough.py:36-42 b_j_kp1 *)
Definition b_j_kp1 (Gam : R -> R) (al : R) (k : nat) (delta : R) (j : nat) : R :=
  Rpower delta al * (npow (INR k - INR j + 1) al - npow (INR k - INR j) al) / Gam (al + 1).
(** heston_rough.py:44-62 a_kp1, b_kp1: arrays of length k+1 *)
Definition a_kp1 (Gam : R -> R) (al : R) (k : nat) (delta : R) : list R := map (a_j_kp1 Gam al k delta) (seq 0 (k + 1)).
Definition b_kp1 (Gam : R -> R) (al : R) (k : nat) (delta : R) : list R := map (b_j_kp1 Gam al k delta) (seq 0 (k + 1)).
(** np.dot of two one-dimensional arrays of equal length *)
Definition ndot (x y : list R) : R := lsum (map (fun q => fst q * snd q) (combine x y)).

(** heston_rough.py:64-73 F *)
Definition rough_F (p : rhp) (a x : R) : R :=
  / 2 * (a ^ 2 - a) + rh_mr p * (a * rh_rho p * rh_vov p - 1) * x + (rh_mr p * rh_vov p) ^ 2 * x ^ 2 / 2.
(** heston_rough.py:75-87 Ih: left rectangle sum over np.arange(0, t, delta), with n = number of grid points (hh indexed by the grid) *)
Definition rough_Ih (Gam : R -> R) (delta r t : R) (n : nat) (hh : list R) : R :=
  rsum n (fun m => npow (t - INR m * delta) (r - 1) * nth m hh 0 * delta) / Gam r.

(** heston_rough.py:108-117, the two arrays h_hat and F_a_h_hat filled up to index j *)
Fixpoint adam_run (Gam : R -> R) (p : rhp) (u delta : R) (j : nat) : list R * list R :=
  match j with
  | O => ([0], [rough_F p u 0])
  | S i =>
      let '(h, Fs) := adam_run Gam p u delta i in
      let Fnew := rough_F p u (nth i h 0) in
      let hp := ndot (b_kp1 Gam (rh_alpha p) i delta) Fs in
      let hnew := ndot (a_kp1 Gam (rh_alpha p) i delta) Fs + a_j_kp1 Gam (rh_alpha p) j delta (j + 1) * rough_F p u hp in
      (h ++ [hnew], Fs ++ [Fnew])
  end.
(** int(texp/delta) and the length of np.arange(0, texp, delta), texp >= 0 *)
Definition n_floor (x : R) : nat := Z.to_nat (Int_part x).
Definition n_ceil (x : R) : nat := Z.to_nat (- Int_part (- x)).
(** heston_rough.py:103, 118: delta = 1/100; LL[i] *)
Definition adam_log (Gam : R -> R) (p : rhp) (texp u : R) : R :=
  let delta := 1 / 100 in
  let h := fst (adam_run Gam p u delta (n_floor (texp / delta))) in
  rh_theta p * rh_mr p * rough_Ih Gam delta 1 texp (n_ceil (texp / delta)) h
  + rh_sigma p * rough_Ih Gam delta (1 - rh_alpha p) texp (n_ceil (texp / delta)) h.
(** heston_rough.py:106-120: LL = uu is the caller's array; entry i is read, then overwritten by the logarithm.
    Result: (returned array, the caller's array after the call) *)
Definition logp_mgf_adam (Gam : R -> R) (p : rhp) (uu : list R) (texp : R) : list R * list R :=
  let LL := map (adam_log Gam p texp) uu in (map exp LL, LL).

(** ** Fast hybrid method *)
(** heston_rough.py:126-138 a: arrays a and a_2 filled up to index i (index 0 and 1 initialised before the loop);
    np.sum(a[:i] * a[i-1::-1]) is the sum over l < i of a[l] * a[i-1-l] *)
Fixpoint hyb_a (Gam : R -> R) (al lambd mu nu : R) (i : nat) : list R * list R :=
  match i with
  | O => ([0], [0])
  | S O => ([0; nu / Gam (al + 1)], [0; 0])
  | S (S q as m) =>
      let '(a, a2) := hyb_a Gam al lambd mu nu m in
      let ai := (lambd * nth m a2 0 + mu * nth m a 0) * (Gam (al * INR m + 1) / Gam (al * INR m + al + 1)) in
      let a2i := rsum (S m) (fun l => nth l a 0 * nth (m - l) a 0) in
      (a ++ [ai], a2 ++ [a2i])
  end.
(** heston_rough.py:126-138: entry i of the array a (the entries do not change as the array grows, see C52_series_lagged) *)
Definition hyb_coef (Gam : R -> R) (al lambd mu nu : R) (i : nat) : R := nth i (fst (hyb_a Gam al lambd mu nu i)) 0.
(** heston_rough.py:140-147 I_1_FPS *)
Definition I_1_FPS (al t : R) (r0 : nat) (a : list R) : R :=
  t * rsum r0 (fun q => let i := S q in nth i a 0 * npow t (al * INR i) / (al * INR i + 1)).
(** heston_rough.py:149-157 I_2_FPS: indices 2 .. r_0 *)
Definition I_2_FPS (Gam : R -> R) (al t nu : R) (r0 : nat) (a : list R) : R :=
  npow t (1 - al) * (nu * npow t al
    + rsum (r0 - 1) (fun q => let i := S (S q) in
        nth i a 0 * npow t (INR i * al) * (Gam (al * INR i) / Gam (al * INR i - al)) / ((1 - 1 / INR i) * (al * INR i + 1 - al)))).
(** heston_rough.py:159-167 phi_t *)
Definition phi_t (al t : R) (r0 : nat) (a : list R) : R := rsum r0 (fun q => nth (S q) a 0 * npow t (al * INR (S q))).
(** heston_rough.py:184-188 c and c_alpha *)
Definition hyb_c (al : R) (l : nat) : R := npow (INR l + 1) al - npow (INR l) al.
Definition hyb_c_alpha (al : R) (l : nat) : R := npow (INR l + 1) (1 - al) - npow (INR l) (1 - al).
(** heston_rough.py:169-182 phi_n: entries up to index i; tgrid j = self.t[j] = j texp / n (np.linspace) *)
Fixpoint phi_n (Gam : R -> R) (al lambd mu nu texp : R) (n r0 k0 : nat) (a : list R) (i : nat) : list R :=
  match i with
  | O => [0]
  | S m =>
      let ph := phi_n Gam al lambd mu nu texp n r0 k0 a m in
      let v := if Nat.leb i k0 then phi_t al (INR i * texp / INR n) r0 a
               else npow (texp / INR n) al * (nu * npow (INR i) al
                     + rsum m (fun q => let j := S q in hyb_c al (i - j - 1) * nth j ph 0 * (lambd * nth j ph 0 + mu))) / Gam (al + 1) in
      ph ++ [v]
  end.
(** heston_rough.py:190-198 I_1_PED *)
Definition I_1_PED (texp : R) (n k0 k : nat) (I1 : R) (ph : list R) : R :=
  I1 + rsum (k - k0) (fun q => nth (k0 + q) ph 0) * texp / INR n + (nth k ph 0 - nth k0 ph 0) * texp / (2 * INR n).
(** heston_rough.py:200-208 I_2_PED: pow(c_alpha, 1 - alpha) *)
Definition I_2_PED (Gam : R -> R) (al texp : R) (n k : nat) (ph : list R) : R :=
  npow (texp / INR n) (1 - al) * rsum (k - 1) (fun q => let i := S q in npow (hyb_c_alpha al (k - i - 1)) (1 - al) * nth i ph 0) / Gam (2 - al).

(** heston_rough.py:233-250, the value written for one argument u when texp <= 0.9 * 0.22 *)
Definition hyb_small (Gam : R -> R) (p : rhp) (r0 : nat) (texp u : R) : R :=
  let lambd := (rh_vov p * rh_mr p) ^ 2 / 2 in
  let nu := (u ^ 2 - u) / 2 in
  let mu := rh_mr p * (u * rh_rho p * rh_vov p - 1) in
  let a := fst (hyb_a Gam (rh_alpha p) lambd mu nu r0) in
  exp (rh_theta p * rh_mr p * I_1_FPS (rh_alpha p) texp r0 a + rh_sigma p * I_2_FPS Gam (rh_alpha p) texp nu r0 a).
(** heston_rough.py:251-267, the value computed for one argument u otherwise *)
Definition hyb_large (Gam : R -> R) (p : rhp) (n r0 k0 : nat) (texp u : R) : R :=
  let al := rh_alpha p in
  let lambd := (rh_vov p * rh_mr p) ^ 2 / 2 in
  let nu := (u ^ 2 - u) / 2 in
  let mu := rh_mr p * (u * rh_rho p * rh_vov p - 1) in
  let a := fst (hyb_a Gam al lambd mu nu r0) in
  let ph := phi_n Gam al lambd mu nu texp n r0 k0 a n in
  let I1 := rsum r0 (fun q => let i := S q in npow (INR k0 * texp / INR n) (al * INR i + 1) * nth i a 0 / (al * INR i + 1)) in
  exp (rh_theta p * rh_mr p * I_1_PED texp n k0 n I1 ph + rh_sigma p * I_2_PED Gam al texp n n ph).
(** list assignment l[i] = v *)
Fixpoint set_nth (l : list R) (i : nat) (v : R) : list R :=
  match l, i with [], _ => [] | _ :: t, O => v :: t | x :: t, S j => x :: set_nth t j v end.
(** heston_rough.py:256-267: the inner loop reuses the name i, so that LL[i] is LL[r_0] after it; LL is the caller's array uu.
    None = IndexError. The function f is the value computed for one argument. *)
Fixpoint hyb_loop (f : R -> R) (r0 : nat) (todo : list nat) (LL : list R) : option (list R) :=
  match todo with
  | [] => Some LL
  | i :: rest => if Nat.ltb r0 (length LL) then hyb_loop f r0 rest (set_nth LL r0 (f (nth i LL 0))) else None
  end.
(** heston_rough.py:210-268 logp_mgf_hybrid with r_0 and n = 128 as parameters (the code's constants are 250 and 128);
    the returned array is the caller's array after the call *)
Definition logp_mgf_hybrid (Gam : R -> R) (p : rhp) (n r0 : nat) (uu : list R) (texp : R) : option (list R) :=
  let k0 := n_floor (INR n * (9 / 10) * (22 / 100) / texp) in
  if Rle_dec texp (9 / 10 * (22 / 100)) then Some (map (hyb_small Gam p r0 texp) uu)
  else hyb_loop (hyb_large Gam p n r0 k0 texp) r0 (seq 0 (length uu)) uu.
(** heston_rough.py:269-279 logp_mgf: (returned array, caller's array after the call); None = exception *)
Definition rough_logp_mgf (Gam : R -> R) (p : rhp) (method n r0 : nat) (uu : list R) (texp : R) : option (list R * list R) :=
  if Nat.eqb method 1 then Some (logp_mgf_adam Gam p uu texp)
  else if Nat.eqb method 2 then option_map (fun l => (l, l)) (logp_mgf_hybrid Gam p n r0 uu texp)
  else None.
