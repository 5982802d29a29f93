(** Distributions and quadrature: disthelper.py, quad.py. Arrays of distribution parameters are modelled one element
    at a time; scipy's Gauss nodes enter as lists of (node, weight). *)
From Coq Require Import Reals List Arith Bool.
From Verif Require Import Gauss Sums M_Opt M_Sabr.
Import ListNotations.
Open Scope R_scope.

(** ** disthelper.py:5-22 DistLognormal (lam = None is not modelled: the attribute always holds a number) *)
Record lnd := mkLn { ln_sig : R; ln_lam : R; ln_mu : R }.
(** disthelper.py:41-52 mvsk: mean, scaled variance, skewness, excess kurtosis *)
Definition ln_mvsk (d : lnd) : R * R * R * R :=
  let ww := exp (ln_sig d ^ 2) - 1 in
  (ln_mu d, ln_lam d ^ 2 * ww, sqrt ww * (ww + 3), ww * (16 + ww * (15 + ww * (6 + ww)))).
(** disthelper.py:54-65 (also 238-249, 396-407, 563-574) mc4 from mvsk with scaled variance *)
Definition mc4_of (mvsk : R * R * R * R) : R * R * R * R :=
  let '(m1, vs, s, k) := mvsk in let mc2 := vs * m1 ^ 2 in (m1, mc2, s * (mc2 * sqrt mc2), (k + 3) * mc2 ^ 2).
(** np.arccosh for x >= 1 *)
Definition arccosh (x : R) : R := ln (x + sqrt (x ^ 2 - 1)).
(** disthelper.py:67-95 fit, the assignments: with two moments (or lam given) / with three moments *)
Definition ln_fit2 (mean vs lam : R) : lnd := mkLn (sqrt (ln (1 + vs / lam ^ 2))) lam mean.
Definition ln_fit3 (mean vs s : R) : lnd :=
  let sw := 2 * sinh (arccosh (1 + / 2 * s ^ 2) / 6) in mkLn (sqrt (ln (1 + sw ^ 2))) (sqrt vs / sw) mean.
(** disthelper.py:67-103 fit: None = ValueError. The old self.lam is [lam0]. *)
Definition ln_fit (lam0 : R) (validate : bool) (mvs : list R) (lam : option R) : option lnd :=
  match mvs with
  | mean :: vs :: rest =>
      let two := match rest, lam with [], _ => true | _, Some _ => true | _, None => false end in
      let d := if two then ln_fit2 mean vs (match lam with Some l => l | None => lam0 end) else ln_fit3 mean vs (hd 0 rest) in
      let '(m, v, s, _) := ln_mvsk d in
      if validate
      then if isclose mean m && isclose vs v && (two || isclose (hd 0 rest) s) then Some d else None
      else Some d
  | _ => None
  end.
(** disthelper.py:24-39 from_mv *)
Definition ln_from_mv (mean vs lam : R) : option lnd := ln_fit 1 false [mean; vs] (Some lam).
(** disthelper.py:105-161 quad, on the Hermite nodes and weights [zw]: list of (x, w) *)
Definition ln_quad (d : lnd) (zw : list (R * R)) : list (R * R) :=
  let wt := map (fun p => (fst p, snd p * (exp (- ln_sig d ^ 2 / 8) / exp (/ 2 * ln_sig d * fst p)))) zw in
  let tot := lsum (map snd wt) in
  map (fun p => (ln_mu d * (1 - ln_lam d + ln_lam d * exp (/ 2 * ln_sig d * fst p) ^ 2), snd p / tot)) wt.
(** disthelper.py:163-180 draw, from one standard normal *)
Definition ln_draw (d : lnd) (z : R) : R := ln_mu d * (1 - ln_lam d + ln_lam d * exp (ln_sig d * z - / 2 * ln_sig d ^ 2)).

(** ** disthelper.py:183-260 DistGamma *)
Record gmd := mkGm { gm_shape : R; gm_rate : R }.
Definition gm_mvsk (d : gmd) : R * R * R * R :=
  (gm_shape d / gm_rate d, 1 / gm_shape d, 2 / sqrt (gm_shape d), 6 / gm_shape d).
Definition gm_fit (mean vs : R) : gmd := mkGm (1 / vs) (1 / (vs * mean)).
(** disthelper.py:271-295 quad on the generalized Laguerre nodes [xw]; w_sum is their total weight *)
Definition gm_quad (d : gmd) (xw : list (R * R)) : list (R * R) :=
  let tot := lsum (map snd xw) in map (fun p => (fst p / gm_rate d, snd p / tot)) xw.

(** ** disthelper.py:316-418 DistInvGauss *)
Record igd := mkIg { ig_mu : R; ig_lam : R }.
Definition ig_mvsk (d : igd) : R * R * R * R :=
  (ig_mu d, ig_mu d / ig_lam d, 3 * sqrt (ig_mu d / ig_lam d), 15 * ig_mu d / ig_lam d).
Definition ig_fit (mean vs : R) : igd := mkIg mean (mean / vs).
(** disthelper.py:358-381 from_gig *)
Definition ig_from_gig (gm dl : R) : igd := mkIg (dl / gm) (dl ^ 2).
(** disthelper.py:449-461: the node at z (before the multiplication by mu) *)
Definition ig_node (fac z : R) : R :=
  let y := z ^ 2 * fac in let x := 1 + y + Rabs z * sqrt (fac * (2 + y)) in
  if Rlt_dec z 0 then 1 / x else x.
(** disthelper.py:433-465 quad *)
Definition ig_quad (d : igd) (zw : list (R * R)) : list (R * R) :=
  let fac := / 2 * ig_mu d / ig_lam d in let wsum := lsum (map snd zw) in
  map (fun p => (ig_node fac (fst p) * ig_mu d, snd p * (2 / (wsum * (1 + ig_node fac (fst p)))))) zw.

(** ** disthelper.py:486-574 DistGig; [kve p q] is scipy's exponentially scaled Bessel K *)
Record gigd := mkGig { gg_gamma : R; gg_delta : R; gg_p : R }.
Definition gig_mnc (kve : R -> R -> R) (d : gigd) (r : nat) : R :=
  let q := gg_gamma d * gg_delta d in (gg_delta d / gg_gamma d) ^ r * kve (gg_p d + INR r) q / kve (gg_p d) q.
Definition gig_mvsk (kve : R -> R -> R) (d : gigd) : R * R * R * R :=
  let m1 := gig_mnc kve d 1 in let m2 := gig_mnc kve d 2 in let m3 := gig_mnc kve d 3 in let m4 := gig_mnc kve d 4 in
  let var := m2 - m1 ^ 2 in
  let mc3 := m3 - 3 * m2 * m1 + 2 * m1 ^ 3 in
  let mc4 := m4 - 4 * m3 * m1 + 6 * m2 * m1 ^ 2 - 3 * m1 ^ 4 in
  (m1, var / m1 ^ 2, mc3 / (var * sqrt var), mc4 / var ^ 2 - 3).
(** disthelper.py:588-593 the function whose root is searched *)
Definition gig_cv2_err (kve : R -> R -> R) (p vs eta : R) : R :=
  let kp := kve p eta in let r1 := kve (p + 1) eta / kp in let r2 := kve (p + 2) eta / kp in (r2 - r1 ^ 2) / r1 ^ 2 - vs.
(** disthelper.py:576-602 fit, given the root eta found by brentq *)
Definition gig_fit_at (kve : R -> R -> R) (p mean eta : R) : gigd :=
  let r1 := kve (p + 1) eta / kve p eta in let rho := mean / r1 in mkGig (sqrt (eta / rho)) (sqrt (eta * rho)) p.
(** disthelper.py:617-655 quad *)
Definition gig_quad (kve : R -> R -> R) (d : gigd) (correct : bool) (zw : list (R * R)) : list (R * R) :=
  let xw := map (fun p => (fst p, snd p * Rpower (fst p) (gg_p d + / 2))) (ig_quad (mkIg (gg_delta d / gg_gamma d) (gg_delta d ^ 2)) zw) in
  if correct then let tot := lsum (map snd xw) in map (fun p => (fst p, snd p / tot)) xw
  else let ratio := Rpower (gg_gamma d / gg_delta d) (gg_p d) / gg_delta d / sqrt (2 / PI) / kve (gg_p d) (gg_gamma d * gg_delta d) in
       map (fun p => (fst p, snd p * ratio)) xw.

(** ** disthelper.py:658-726 DistGh: parameters, plus the quadrature cached when n_quad was last set *)
Record ghd := mkGh { gh_mu : R; gh_beta : R; gh_gamma : R; gh_delta : R; gh_p : R; gh_quad : list (R * R) }.
Definition gh_mixer (d : ghd) : gigd := mkGig (gh_gamma d) (gh_delta d) (gh_p d).
(** disthelper.py:692-707 the n_quad setter ([herm n] are scipy's Hermite nodes) *)
Definition gh_set_nquad (kve : R -> R -> R) (herm : nat -> list (R * R)) (d : ghd) (n : nat) : ghd :=
  mkGh (gh_mu d) (gh_beta d) (gh_gamma d) (gh_delta d) (gh_p d) (gig_quad kve (gh_mixer d) false (herm n)).
Definition gh_new kve herm (mu beta gm dl p : R) (n : nat) : ghd := gh_set_nquad kve herm (mkGh mu beta gm dl p []) n.
(** plain attribute assignments *)
Inductive gh_op := SetMu (x : R) | SetBeta (x : R) | SetGamma (x : R) | SetDelta (x : R) | SetP (x : R) | SetN (n : nat).
Definition gh_step kve herm (d : ghd) (o : gh_op) : ghd :=
  match o with
  | SetMu x => mkGh x (gh_beta d) (gh_gamma d) (gh_delta d) (gh_p d) (gh_quad d)
  | SetBeta x => mkGh (gh_mu d) x (gh_gamma d) (gh_delta d) (gh_p d) (gh_quad d)
  | SetGamma x => mkGh (gh_mu d) (gh_beta d) x (gh_delta d) (gh_p d) (gh_quad d)
  | SetDelta x => mkGh (gh_mu d) (gh_beta d) (gh_gamma d) x (gh_p d) (gh_quad d)
  | SetP x => mkGh (gh_mu d) (gh_beta d) (gh_gamma d) (gh_delta d) x (gh_quad d)
  | SetN n => gh_set_nquad kve herm d n
  end.
(** disthelper.py:747-779 mvsk, from the mixer's raw moments *)
Definition gh_mvsk_of (mu beta m1 m2 m3 m4 : R) : R * R * R * R :=
  let mc2W := m2 - m1 ^ 2 in
  let mc3W := m3 - 3 * m2 * m1 + 2 * m1 ^ 3 in
  let mc4W := m4 - 4 * m3 * m1 + 6 * m2 * m1 ^ 2 - 3 * m1 ^ 4 in
  let mean := mu + beta * m1 in
  let mc2 := m1 + beta ^ 2 * mc2W in
  let mc3 := 3 * beta * mc2W + beta ^ 3 * mc3W in
  let mc4 := 3 * m2 + 6 * beta ^ 2 * (m3 - 2 * m1 * m2 + m1 ^ 3) + beta ^ 4 * mc4W in
  (mean, mc2, mc3 / (mc2 * sqrt mc2), mc4 / mc2 ^ 2 - 3).
Definition gh_mvsk kve (d : ghd) : R * R * R * R :=
  let m := gig_mnc kve (gh_mixer d) in gh_mvsk_of (gh_mu d) (gh_beta d) (m 1%nat) (m 2%nat) (m 3%nat) (m 4%nat).
(** disthelper.py:781-804 mvsk_quad *)
Definition dotw (xw : list (R * R)) (f : R -> R) : R := lsum (map (fun p => snd p * f (fst p)) xw).
Definition gh_mvsk_quad (d : ghd) : R * R * R * R :=
  let a x := gh_mu d + gh_beta d * x in
  let mean := dotw (gh_quad d) a in
  let c x := a x - mean in
  let mc2 := dotw (gh_quad d) (fun x => c x ^ 2 + x) in
  let mc3 := dotw (gh_quad d) (fun x => c x ^ 3 + 3 * c x * x) in
  let mc4 := dotw (gh_quad d) (fun x => c x ^ 4 + 6 * c x ^ 2 * x + 3 * x ^ 2) in
  (mean, mc2, mc3 / (mc2 * sqrt mc2), mc4 / mc2 ^ 2 - 3).
(** disthelper.py:816-832 cdf (and the inner cdf_f of ppf, 848-849) *)
Definition gh_cdf (d : ghd) (y : R) : R := dotw (gh_quad d) (fun x => Phi ((y - gh_mu d - gh_beta d * x) / sqrt x)).
(** disthelper.py:834-856 ppf: the bracket handed to brentq; m1 and std are recomputed from the cached quadrature *)
Definition gh_ppf_m1 (d : ghd) : R := gh_mu d + gh_beta d * dotw (gh_quad d) (fun x => x).
Definition gh_ppf_std (d : ghd) : R :=
  let e := dotw (gh_quad d) (fun x => x) in
  sqrt (Rmax (e + gh_beta d ^ 2 * (dotw (gh_quad d) (fun x => x ^ 2) - e ^ 2)) (/ 10 ^ 30)).
Fixpoint gh_expand (d : ghd) (q : R) (factors : list R) (b : R * R) : R * R :=
  match factors with
  | [] => b
  | f :: fs => if Rlt_dec (gh_cdf d (fst b)) q then
                 if Rlt_dec q (gh_cdf d (snd b)) then b
                 else gh_expand d q fs (gh_ppf_m1 d - f * gh_ppf_std d, gh_ppf_m1 d + f * gh_ppf_std d)
               else gh_expand d q fs (gh_ppf_m1 d - f * gh_ppf_std d, gh_ppf_m1 d + f * gh_ppf_std d)
  end.
Definition gh_bracket (d : ghd) (q : R) : R * R :=
  gh_expand d q [50; 100; 200; 500] (gh_ppf_m1 d - 20 * gh_ppf_std d, gh_ppf_m1 d + 20 * gh_ppf_std d).
(** disthelper.py:876-883 DistNig: the mixer is an inverse Gaussian, whose own quadrature fills the cache *)
Definition nig_set_nquad (herm : nat -> list (R * R)) (d : ghd) (n : nat) : ghd :=
  mkGh (gh_mu d) (gh_beta d) (gh_gamma d) (gh_delta d) (- / 2) (ig_quad (ig_from_gig (gh_gamma d) (gh_delta d)) (herm n)).
(** disthelper.py:888-911 DistNig.mvsk, with alpha = sqrt(gamma^2 + beta^2) (710-712) *)
Definition nig_mvsk (mu beta gm dl : R) : R * R * R * R :=
  let alpha := sqrt (gm ^ 2 + beta ^ 2) in
  (mu + dl * beta / gm, dl * alpha ^ 2 / gm ^ 3, 3 * beta / (alpha * sqrt (dl * gm)), 3 * (1 + 4 * beta ^ 2 / alpha ^ 2) / (dl * gm)).

(** ** quad.py:5-9 GHQ on scipy's nodes *)
Definition ghq (zw : list (R * R)) (loc scale : R) : list (R * R) :=
  let tot := lsum (map snd zw) in map (fun p => (scale * fst p + loc, snd p / tot)) zw.
(** ** quad.py:12-64 NdGHQ; tabs is the list of per-dimension (z, w/sqrt(2 pi)) tables *)
(** quad.py:23-24 powers = cumulative products from the right, with a final 1 *)
Fixpoint nd_powers (sizes : list nat) : list nat := match sizes with [] => [1%nat] | s :: t => (s * hd 1 (nd_powers t))%nat :: nd_powers t end.
Definition nd_total (sizes : list nat) : nat := hd 1%nat (nd_powers sizes).
(** quad.py:36-38 index_n: (ind mod powers[k]) / powers[k+1] *)
Fixpoint nd_index (pw : list nat) (ind : nat) : list nat :=
  match pw with p :: ((q :: _) as t) => ((ind mod p) / q)%nat :: nd_index t ind | _ => [] end.
(** quad.py:40-42 indeces *)
Definition nd_indeces (sizes : list nat) : list (list nat) := map (nd_index (nd_powers sizes)) (seq 0 (nd_total sizes)).
(** quad.py:59-63 z_vec_weight(ind) *)
Fixpoint nd_pick (tabs : list (list (R * R))) (ix : list nat) : list R * R :=
  match tabs, ix with
  | t :: ts, i :: is => let '(zs, w) := nd_pick ts is in (fst (nth i t (0, 0)) :: zs, snd (nth i t (0, 0)) * w)
  | _, _ => ([], 1)
  end.
Definition nd_at (tabs : list (list (R * R))) (ind : nat) : list R * R := nd_pick tabs (nd_index (nd_powers (map (@length _) tabs)) ind).
(** np.repeat(l, n): each element n times; np.tile(l, n): the whole sequence n times *)
Definition np_repeat {A} (l : list A) (n : nat) : list A := flat_map (fun x => repeat x n) l.
Definition np_tile {A} (l : list A) (n : nat) : list A := concat (repeat l n).
(** quad.py:46-57 z_vec_weight(None): columns (z_vec, weight) are built from the last dimension backwards *)
Fixpoint nd_table (tabs : list (list (R * R))) : list (list R * R) :=
  match tabs with
  | [] => []
  | [t] => map (fun zw => ([fst zw], snd zw)) t
  | t :: ts => let cols := nd_table ts in
      map (fun p => (fst (fst p) :: fst (snd p), snd (fst p) * snd (snd p)))
          (combine (np_repeat t (length cols)) (np_tile cols (length t)))
  end.
