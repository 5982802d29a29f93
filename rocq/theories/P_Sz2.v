(** The integrand of the Schobel-Zhu price in polar form: the Gil-Pelaez inversion. *)
From Coq Require Import Reals Lra.
From Coquelicot Require Import Coquelicot.
From Verif Require Import Base M_Opt M_Mgf M_Sz.
Open Scope R_scope.

Lemma sz_polar (o : cops) (p : svp) (kk T phi r1 t1 r2 t2 : R) : (forall y, c_exp o (Cmult Ci (RtoC y)) = (cos y, sin y)) -> phi <> 0 ->
  sz_f1 o p phi T = (r1 * cos t1, r1 * sin t1) -> sz_f2 o p phi T = (r2 * cos t2, r2 * sin t2) ->
  sz_integrand o p kk T phi = (r1 * sin (t1 - phi * ln kk) - kk * r2 * sin (t2 - phi * ln kk)) / phi.
Proof.
  intros He Hp E1 E2. unfold sz_integrand. rewrite E1, E2.
  assert (A : (- Ci * RtoC phi * RtoC (ln kk))%C = Cmult Ci (RtoC (- (phi * ln kk)))).
  { unfold Cmult, Copp, Ci, RtoC. cbn [fst snd]. apply f_equal2; ring. }
  rewrite A, He, cos_neg, sin_neg, !sin_minus.
  unfold Cdiv, Cinv, Cmult, Cminus, Cplus, Copp, Ci, RtoC, Re. cbn [fst snd]. field. repeat (split; [nra|]); try nra; try assumption.
Qed.
