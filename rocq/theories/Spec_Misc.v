(** Specification vocabulary: confluent hypergeometric series; textbook moments of sampled laws. *)
From Coq Require Import Reals.
Open Scope R_scope.

(** rising factorial a (a+1) ... (a+k-1), and the k-th term of 1F1(a; b; x) *)
Fixpoint rising (a : R) (k : nat) : R := match k with O => 1 | S k' => rising a k' * (a + INR k') end.
Definition hyp_term (a b x : R) (k : nat) : R := rising a k / rising b k * x ^ k / INR (fact k).
(** inverse Gaussian IG(mu, lam); [factor] times a standard gamma of the given shape: mean and variance *)
Definition ig_mean_var (mu lam : R) : R * R := (mu, mu ^ 3 / lam).
Definition gamma_mean_var (factor shape : R) : R * R := (factor * shape, factor ^ 2 * shape).
