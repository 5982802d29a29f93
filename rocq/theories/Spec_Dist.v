(** Specification vocabulary: expectation on the positive half-line against a density, textbook densities,
    the modified Bessel function of the second kind, and the textbook properties of Gauss quadrature rules. *)
From Coq Require Import Reals List.
From Coquelicot Require Import Coquelicot.
From Verif Require Import Sums Spec_Expect Spec_Misc.
Import ListNotations.
Open Scope R_scope.

(** "the integral over (0, infinity) of f exists and equals v" (both limits independent) *)
Definition half_line (f : R -> R) (v : R) : Prop := is_RInt_gen (V := R_NormedModule) f (at_right 0) (Rbar_locally p_infty) v.
(** "E[f(X)] = v" for X > 0 with the given density *)
Definition pos_expect (dens f : R -> R) (v : R) : Prop := half_line (fun x => f x * dens x) v.
Definition is_density (dens : R -> R) : Prop := (forall x, 0 < x -> 0 <= dens x) /\ half_line dens 1.

(** gamma density up to the constant c = rate^shape / Gamma(shape) *)
Definition gamma_density (c shape rate x : R) : R := c * Rpower x (shape - 1) * exp (- rate * x).
(** inverse Gaussian density *)
Definition ig_density (mu lam x : R) : R :=
  sqrt (lam / (2 * PI * x ^ 3)) * exp (- (lam * (x - mu) ^ 2) / (2 * mu ^ 2 * x)).
(** K_p(q) = 1/2 int_0^infinity x^(p-1) exp(-q (x + 1/x)/2) dx *)
Definition bessel_K (p q v : R) : Prop := half_line (fun x => / 2 * Rpower x (p - 1) * exp (- q * (x + / x) / 2)) v.
(** generalized inverse Gaussian density, with kp = K_p(gamma delta) *)
Definition gig_density (gm dl p kp x : R) : R :=
  Rpower (gm / dl) p / (2 * kp) * Rpower x (p - 1) * exp (- (gm ^ 2 * x + dl ^ 2 / x) / 2).

(** moments of a standard normal: E[Z^(2k)] = 1 * 3 * ... * (2k-1) *)
Fixpoint odd_product (k : nat) : R := match k with O => 1 | S j => odd_product j * (2 * INR j + 1) end.
(** an n-point rule of nodes and positive weights, symmetric about 0, that integrates even powers of
    degree <= 2n-1 against the normal law exactly up to its total mass (Gauss-Hermite) *)
Definition rule_sum (f : R -> R) (zw : list (R * R)) : R := lsum (map (fun p => snd p * f (fst p)) zw).
Definition symmetric_rule (zw : list (R * R)) : Prop := forall f, rule_sum (fun z => f (- z)) zw = rule_sum f zw.
Definition positive_rule (zw : list (R * R)) : Prop := zw <> [] /\ List.Forall (fun p => 0 < snd p) zw.
Definition hermite_rule (n : nat) (zw : list (R * R)) : Prop :=
  positive_rule zw /\ symmetric_rule zw /\
  forall k, (2 * k <= 2 * n - 1)%nat -> rule_sum (fun z => z ^ (2 * k)) zw = odd_product k * rule_sum (fun _ => 1) zw.
(** an n-point rule exact to degree 2n-1 for the gamma law of shape s and rate 1 (generalized Gauss-Laguerre) *)
Definition laguerre_rule (n : nat) (s : R) (xw : list (R * R)) : Prop :=
  positive_rule xw /\ forall k, (k <= 2 * n - 1)%nat -> rule_sum (fun x => x ^ k) xw = rising s k * rule_sum (fun _ => 1) xw.

(** normal variance-mean mixture: given W = x, Y is normal with mean mu + beta x and variance x.
    "E[f(Y)] = v" when W has the given density, and when W takes the values x with weights w *)
Definition nvm_cond (mu beta : R) (f : R -> R) (x v : R) : Prop := gauss_expect (fun z => f (mu + beta * x + sqrt x * z)) v.
Definition nvm_expect (dens : R -> R) (mu beta : R) (f : R -> R) (v : R) : Prop :=
  exists g, (forall x, 0 < x -> nvm_cond mu beta f x (g x)) /\ pos_expect dens g v.
Definition nvm_sum (xw : list (R * R)) (mu beta : R) (f : R -> R) (v : R) : Prop :=
  exists g, (forall x w, In (x, w) xw -> nvm_cond mu beta f x (g x)) /\ v = rule_sum g xw.
(** the iterated (tensor) sum of F over one rule per coordinate *)
Fixpoint tensor_sum (tabs : list (list (R * R))) (F : list R -> R) : R :=
  match tabs with [] => F [] | t :: ts => rule_sum (fun z => tensor_sum ts (fun zs => F (z :: zs))) t end.
(** Horner value of digits in mixed radix *)
Fixpoint mixed_radix (sizes ix : list nat) : nat :=
  match sizes, ix with s :: ss, i :: is => (i * fold_right Nat.mul 1 ss + mixed_radix ss is)%nat | _, _ => 0%nat end.
