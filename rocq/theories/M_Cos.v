(** Fourier-cosine pricing, sv_cos.py. One strike at a time; the characteristic function at the
    frequencies is given by its real and imaginary parts [re], [im] (arbitrary). *)
From Coq Require Import Reals List.
From Verif Require Import M_Opt M_Mgf Sums.
Import ListNotations.
Open Scope R_scope.

(** sv_cos.py:189-206 CosABC._chi *)
Definition cos_chi (u a c d : R) : R :=
  let num := cos (u * (d - a)) * exp d - cos (u * (c - a)) * exp c in
  let num := num + u * (sin (u * (d - a)) * exp d - sin (u * (c - a)) * exp c) in
  num / (1 + u ^ 2).
(** sv_cos.py:208-223 CosABC._psi *)
Definition cos_psi (k : nat) (u a c d : R) : R :=
  if Nat.eqb k 0 then d - c else (sin (u * (d - a)) - sin (u * (c - a))) / u.
(** sv_cos.py:225-229 CosABC._cos_grid *)
Definition cos_u (a b : R) (k : nat) : R := INR k * PI / (b - a).
(** sv_cos.py:231-241 CosABC._density_coefficients: real part of cf(u) exp(-i u a), halved at k=0 *)
Definition cos_A (re im : R -> R) (u : nat -> R) (a : R) (k : nat) : R :=
  let v := re (u k) * cos (u k * a) + im (u k) * sin (u k * a) in
  if Nat.eqb k 0 then v * / 2 else v.
(** sv_cos.py:243-276 CosABC._vanilla_payoff_coefficients (entry k of one strike row) *)
Definition cos_w (kk a b : R) (cp : R) (u : nat -> R) (k : nat) : R :=
  let z := clip (ln kk) a b in
  if Rlt_dec 0 cp then 2 / (b - a) * (cos_chi (u k) a z b - kk * cos_psi k (u k) a z b)
  else 2 / (b - a) * (kk * cos_psi k (u k) a a z - cos_chi (u k) a a z).
(** sv_cos.py:345-397 CosABC.price, 'fang-oosterlee' branch, given the interval *)
Definition cos_price (m : opt) (re im : R -> R) (n : nat) (a b : R) (strike spot texp cp : R) : R :=
  let '(fwd, df, _) := fwd_df_divf m spot texp in
  let u := cos_u a b in
  df * fwd * rsum n (fun k => cos_w (strike / fwd) a b cp u k * cos_A re im u a k).
(** sv_cos.py:278-343 CosABC._price_lefloch *)
Definition lefloch_price (m : opt) (re im : R -> R) (n : nat) (a b : R) (strike spot texp cp : R) : R :=
  let '(fwd, df, _) := fwd_df_divf m spot texp in
  let u := cos_u a b in
  let lk := ln (strike / fwd) in
  let z := clip lk a b in
  let kk := strike / fwd in
  let w_put k := 2 / (b - a) * (kk * cos_psi k (u k) a a z - cos_chi (u k) a a z) in
  let put_cos := df * fwd * rsum n (fun k => w_put k * cos_A re im u a k) in
  let put_price := if Rlt_dec lk a then 0 else if Rlt_dec b lk then df * Rmax (strike - fwd) 0 else put_cos in
  let call_price := put_price + df * (fwd - strike) in
  if Rlt_dec 0 cp then call_price else put_price.

(** sv_cos.py:158-183 CosABC._truncation_range 'fang-oosterlee' *)
Definition cos_range (L c1 c2 c4 : R) : R * R :=
  let half := L * sqrt (Rabs c2 + sqrt (Rabs c4)) in (c1 - half, c1 + half).

(** HestonCos (sv_cos.py:547-743): instance = market data + [svp] + optional L *)
Definition hcos_default_L (texp : R) : R := Rmax 10 (3 * texp + 2).
Definition hcos_L (L : option R) (texp : R) : R := match L with None => hcos_default_L texp | Some l => l end.
Definition hcos_sigma_h (p : svp) : R := sqrt (v_theta p + v_sigma p * v_vov p).
(** sv_cos.py:643-661 HestonCos._integration_range (F&O mode); [c1] = logp_mv(texp)[0] *)
Definition hcos_range (m : opt) (p : svp) (L : option R) (c1 strike spot texp : R) : R * R :=
  let '(fwd, _, _) := fwd_df_divf m spot texp in
  let half := hcos_L L texp * hcos_sigma_h p in
  let x := ln (fwd / strike) in
  (x + c1 - half, x + c1 + half).
(** sv_cos.py:663-743 HestonCos.price, F&O branch (texp > 0, n_cos >= 1) *)
Definition hcos_price (m : opt) (p : svp) (L : option R) (c1 : R) (re im : R -> R) (n : nat) (strike spot texp cp : R) : R :=
  let '(fwd, df, _) := fwd_df_divf m spot texp in
  let '(a, b) := hcos_range m p L c1 strike spot texp in
  let half := hcos_L L texp * hcos_sigma_h p in
  let width := 2 * half in
  let u k := INR k * PI / width in
  let kk := strike / fwd in
  let z := clip (ln kk) a b in
  let w k := if Rlt_dec 0 cp then 2 / width * (cos_chi (u k) a z b - kk * cos_psi k (u k) a z b)
             else 2 / width * (kk * cos_psi k (u k) a a z - cos_chi (u k) a a z) in
  df * fwd * rsum n (fun k => w k * cos_A re im u a k).

(** sv_cos.py:112-156 CosABC._junike_half_width. [mgf s] = None when logp_mgf(s).real is not a finite
    positive number; [grid] = np.logspace(-2, 2, 40). The boolean says whether the loop left by [break]. *)
Fixpoint lmin (l : list R) : option R :=
  match l with
  | [] => None
  | x :: t => match lmin t with None => Some x | Some y => Some (Rmin x y) end
  end.
Fixpoint filter_map {A B} (f : A -> option B) (l : list A) : list B :=
  match l with [] => [] | a :: t => match f a with Some b => b :: filter_map f t | None => filter_map f t end end.
Definition junike_upper (mgf : R -> option R) (grid : list R) (c1 w : R) : R :=
  match lmin (filter_map (fun s => match mgf s with Some M => Some (ln M - s * (c1 + w)) | None => None end) grid) with
  | Some e => exp e | None => 1 end.
Definition junike_lower (mgf : R -> option R) (grid : list R) (c1 w : R) : R :=
  match lmin (filter_map (fun s => match mgf (- s) with Some M => Some (ln M + s * (c1 - w)) | None => None end) grid) with
  | Some e => exp e | None => 1 end.
Fixpoint junike_loop (mgf : R -> option R) (grid : list R) (epsj c1 c2 c4 : R) (n : nat) (L w : R) : R * bool :=
  match n with
  | O => (w, false)
  | S n' =>
    let w := L * sqrt (Rabs c2 + sqrt (Rabs c4)) in
    if Rle_dec (Rmax 0 (junike_upper mgf grid c1 w + junike_lower mgf grid c1 w)) epsj then (w, true)
    else junike_loop mgf grid epsj c1 c2 c4 n' (Rmin (L * (125 / 100)) 30) w
  end.
Definition junike_half_width (mgf : R -> option R) (grid : list R) (epsj c1 c2 c4 : R) : R * bool :=
  junike_loop mgf grid epsj c1 c2 c4 15 12 0.
