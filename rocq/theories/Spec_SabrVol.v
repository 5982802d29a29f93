(** Vocabulary of C89-C92: which base models are covered, admissible mixture nodes, the nodes of the outer rule. *)
From Coq Require Import Reals List.
From Verif Require Import Sums M_Opt M_Fd M_Sabr M_Dist.
Import ListNotations.
Open Scope R_scope.
(** the base beta is absent, equal to beta, or clearly different from it *)
Definition base_ok (p : sabrp) (base : option R) : Prop := match base with None => True | Some b => b = b_beta p \/ isclose (b_beta p) b = false end.
(** mixture nodes (forward ratio, volatility ratio, weight): positive forwards, non-zero volatilities, positive weights adding up to one *)
Definition nodes_ok (l : list (R * R * R)) : Prop := l <> [] /\ (forall f v w, In (f, v, w) l -> 0 < f /\ v <> 0 /\ 0 < w) /\ lsum (map (fun '(f, v, w) => w) l) = 1.
(** averages over nodes *)
Definition avg_forward (l : list (R * R * R)) : R := lsum (map (fun x => fst (fst x) * snd x) l).
Definition avg_variance (l : list (R * R * R)) : R := lsum (map (fun x => snd (fst x) ^ 2 * snd x) l).
Definition total_weight (l : list (R * R * R)) : R := lsum (map snd l).
(** beta values the correlated mixture supports *)
Definition supported (b : R) : Prop := isclose b 0 = true \/ 0 < b.
(** average of g(zhat) over the outer rule: lognormal terminal volatility with standard deviation vovn *)
Definition outer_avg (vovn : R) (zw0 : list (R * R)) (g : R -> R) : R :=
  lsum (map (fun x => snd (fst x) * g (snd x)) (combine (ln_quad (mkLn vovn 1 1) zw0) (map fst zw0))).
(** conditional mean of the average variance given the terminal volatility exp(vovn zhat) (C35) *)
Definition cond_mean (vovn zhat : R) : R := fst (fst (fst (cond_avgvar_mvsk vovn zhat))).
