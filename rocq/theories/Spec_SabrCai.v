(** Specification vocabulary for the conditional average variance of SABR: sigma_v = exp(B_v - v/2) (so d sigma = sigma dB), A_v = int_0^v sigma^2,
    with v = vov^2 t.  For fixed lam, e^(-lam/A) has time derivative sigma^2 lam / A^2 e^(-lam/A) = sigma^2 lam d^2/d lam^2 e^(-lam/A); hence
    h(v, s, lam) = E[e^(-lam/A_v); sigma_v in ds]/ds solves the forward equation below. *)
From Coq Require Import Reals.
From Coquelicot Require Import Coquelicot.
From Verif Require Import Spec_NsvhQuad.
Open Scope R_scope.
Definition vol_density (v s : R) : R := exp (- (ln s + v / 2) ^ 2 / (2 * v)) / (s * sqrt (2 * PI * v)).
Definition invA_forward (h : R -> R -> R -> R) (v s lam : R) : Prop :=
  exists h_v h_ll h_ss, is_derive (fun v => h v s lam) v h_v /\ deriv2 (fun l => h v s l) lam h_ll /\
    deriv2 (fun s => s ^ 2 * h v s lam) s h_ss /\ h_v = s ^ 2 * lam * h_ll + / 2 * h_ss.
