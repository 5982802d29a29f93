(** Property theorems C41 and C42: N-dimensional quadrature (quad.py), moments from transforms (mgf2mom.py), util.py. *)
From Coq Require Import Reals Lra Arith Lia List.
From Coquelicot Require Import Coquelicot.
From Verif Require Import Gauss Sums Spec_Opt Spec_Expect Spec_Misc Spec_Dist Spec_Moment M_Opt M_Sabr M_Dist M_Moment P_Dist P_Dist5 P_Nd P_Moment.
Import ListNotations.
Open Scope R_scope.

(** *** C41: NdGHQ *)
(** The full table has prod(sizes) rows and row ind is what z_vec_weight(ind) returns. *)
Theorem C41_table_by_index : forall tabs d, tabs <> [] -> List.Forall (fun t => t <> []) tabs ->
  let total := fold_right Nat.mul 1%nat (map (@length _) tabs) in
  length (nd_table tabs) = total /\ forall ind, (ind < total)%nat -> nth ind (nd_table tabs) d = nd_at tabs ind.
Proof.
  intros tabs d N P total. unfold total. rewrite <- nd_total_prod. split; [now apply nd_table_length|]. intros ind H. now apply nd_table_nth.
Qed.
Print Assumptions C41_table_by_index.
(** index_n is a bijection between 0 .. total-1 and the digit vectors; its inverse is the mixed-radix value. *)
Theorem C41_index_bijection : forall sizes,
  (forall ind, List.Forall (fun s => (0 < s)%nat) sizes -> (ind < fold_right Nat.mul 1 sizes)%nat ->
     Forall2 (fun i s => (i < s)%nat) (nd_index (nd_powers sizes) ind) sizes /\ mixed_radix sizes (nd_index (nd_powers sizes) ind) = ind) /\
  (forall ix, Forall2 (fun i s => (i < s)%nat) ix sizes ->
     (mixed_radix sizes ix < fold_right Nat.mul 1 sizes)%nat /\ nd_index (nd_powers sizes) (mixed_radix sizes ix) = ix).
Proof. intros sizes. rewrite <- nd_total_prod. split; [intros; now apply nd_index_value|intros; now apply mixed_radix_value]. Qed.
Print Assumptions C41_index_bijection.
(** Summing any function over the table is the iterated sum over the one-dimensional rules, so products factorise. *)
Theorem C41_tensor_sum : forall tabs F, tabs <> [] -> lsum (map (fun p => snd p * F (fst p)) (nd_table tabs)) = tensor_sum tabs F.
Proof. exact nd_table_sum. Qed.
Print Assumptions C41_tensor_sum.
Theorem C41_product : forall tabs fs, tabs <> [] -> length fs = length tabs ->
  lsum (map (fun p => snd p * prod_at fs (fst p)) (nd_table tabs)) = fold_right Rmult 1 (map (fun p => rule_sum (fst p) (snd p)) (combine fs tabs)).
Proof. intros tabs fs N L. rewrite nd_table_sum by exact N. now apply tensor_prod. Qed.
Print Assumptions C41_product.
(** One dimension: exact normal moments to degree 2n-1, for any location and scale (GHQ). *)
Theorem C41_ghq_exact : forall n zw loc scale k, hermite_rule n zw -> (k <= 2 * n - 1)%nat ->
  gauss_expect (fun z => (loc + scale * z) ^ k) (rule_sum (fun x => x ^ k) (ghq zw loc scale)).
Proof. exact ghq_moment. Qed.
Print Assumptions C41_ghq_exact.
Theorem C41_axis_exact : forall n zw k, hermite_rule n zw -> rule_sum (fun _ => 1) zw = 1 -> (k <= 2 * n - 1)%nat ->
  gauss_expect (fun z => z ^ k) (rule_sum (fun z => z ^ k) zw).
Proof. exact hermite_moment. Qed.
Print Assumptions C41_axis_exact.
Example C41_ex : nd_index (nd_powers [3; 4; 5]%nat) 47 = [2; 1; 2]%nat /\ nd_total [3; 4; 5]%nat = 60%nat. Proof. split; reflexivity. Qed.
Example C41_ex_rule : hermite_rule 2 gh2 /\ rule_sum (fun _ => 1) gh2 = 1.
Proof. split; [exact gh2_rule|]. unfold rule_sum, gh2. cbn. lra. Qed.

(** *** C42: Mgf2Mom *)
(** For an analytic transform with Taylor coefficients a_j, the order-n value is exactly n! times the sum of the aliased
    coefficients a_(n + 2 n l i) (alpha^(2 n l) / 10^11)^i. *)
Theorem C42_moment_raw : forall mgf a n l alpha, (1 <= n)%nat -> (1 <= l)%nat -> alpha <> 0 ->
  real_series_on a (alpha * mm_radius n l) mgf ->
  mm_raw mgf n l alpha = INR (fact n) * Series (fun i => a (n + 2 * n * l * i)%nat * (alpha ^ (2 * n * l * i) * / 10 ^ (11 * i))).
Proof.
  intros mgf a n l alpha Hn Hl Ha HM. rewrite (mm_raw_series mgf a n l alpha Hn Hl Ha HM). f_equal. apply Series_ext. intros i. f_equal. now apply rho_pow.
Qed.
Print Assumptions C42_moment_raw.
(** Hence the error against the true value n! a_n is of relative order 1e-11 whenever the aliased coefficients stay bounded. *)
Theorem C42_moment_error : forall mgf a n l alpha B, (1 <= n)%nat -> (1 <= l)%nat -> alpha <> 0 ->
  real_series_on a (alpha * mm_radius n l) mgf -> 0 <= B ->
  (forall i, (1 <= i)%nat -> Rabs (a (n + 2 * n * l * i)%nat * alpha ^ (2 * n * l * i)) <= B) ->
  Rabs (mm_raw mgf n l alpha - INR (fact n) * a n) <= INR (fact n) * B * (/ 10 ^ 11 / (1 - / 10 ^ 11)).
Proof. exact mm_raw_error. Qed.
Print Assumptions C42_moment_error.
(** moments(n) and cumulants(n): supplied mean and variance are returned exactly, every other entry of order k is moment_raw
    of order k for some alpha; fewer than two is promoted to two. *)
Theorem C42_moments : forall mgf l mean var n0, let n := Nat.max n0 2 in let out := mm_moments mgf l mean var n0 in
  length out = n /\
  (forall m, mean = Some m -> nth 0 out 0 = m) /\
  (forall v, var = Some v -> nth 1 out 0 = v + nth 0 out 0 ^ 2) /\
  forall k, (k < n)%nat -> (k = 0%nat -> mean = None) -> (k = 1%nat -> var = None) -> exists al, nth k out 0 = mm_raw mgf (S k) l al.
Proof. exact mm_moments_spec. Qed.
Print Assumptions C42_moments.
Theorem C42_cumulants : forall clog mgf l mean var n0, let n := Nat.max n0 2 in let out := mm_cumulants clog mgf l mean var n0 in
  length out = n /\
  (forall m, mean = Some m -> nth 0 out 0 = m) /\
  (forall v, var = Some v -> nth 1 out 0 = v) /\
  forall k, (k < n)%nat -> (k = 0%nat -> mean = None) -> (k = 1%nat -> var = None) -> exists al, nth k out 0 = mm_raw (fun u => clog (mgf u)) (S k) l al.
Proof. exact mm_cumulants_spec. Qed.
Print Assumptions C42_cumulants.
(** Gram-Charlier coefficients: as a formal power series C with constant term 1, C' = K' C where K is the series of the
    standardised cumulants of order three and above, i.e. C = exp K. *)
Theorem C42_gram_charlier : forall cumul sigma n, sigma <> 0 ->
  let c := fun j => match j with O => 1 | S k => gc_coef cumul sigma k end in
  let k := fun j => if Nat.leb j 2 then 0 else cumul j / (sigma ^ j * INR (fact j)) in
  PS_derive c n = PS_mult (PS_derive k) c n.
Proof. exact gc_ode. Qed.
Print Assumptions C42_gram_charlier.
(** The docstring's formula c[k] = cumul_(k+1) / ((k+1)! sigma^(k+1)) holds up to k = 4 and fails at k = 5 for every skewed law. *)
Theorem C42_gram_charlier_doc : forall cumul sigma, sigma <> 0 ->
  gc_coef cumul sigma 0 = 0 /\ gc_coef cumul sigma 1 = 0 /\
  (forall k, (2 <= k <= 4)%nat -> gc_coef cumul sigma k = cumul (S k) / (INR (fact (S k)) * sigma ^ S k)).
Proof.
  intros cumul sigma Hs. destruct (gc_values cumul sigma Hs) as (A & B & C & D & E & _). split; [exact A|]. split; [exact B|].
  intros k Hk. assert (k = 2 \/ k = 3 \/ k = 4)%nat as [-> | [-> | ->]] by lia.
  - rewrite C. f_equal. f_equal. cbn. ring.
  - rewrite D. f_equal. f_equal. cbn. ring.
  - rewrite E. f_equal. f_equal. cbn. ring.
Qed.
Print Assumptions C42_gram_charlier_doc.
Theorem C42_gram_charlier_doc_refuted : forall cumul sigma, sigma <> 0 -> cumul 3%nat <> 0 ->
  gc_coef cumul sigma 5 <> cumul 6%nat / (INR (fact 6) * sigma ^ 6).
Proof.
  intros cumul sigma Hs Hk E. destruct (gc_values cumul sigma Hs) as (_ & _ & _ & _ & _ & F). rewrite F in E. replace (INR (fact 6)) with 720 in E by (cbn; ring).
  assert (P : sigma ^ 6 <> 0) by (apply pow_nonzero; exact Hs). set (s := sigma ^ 6) in *. clearbody s.
  assert (Z : 10 * cumul 3%nat ^ 2 = 0). { apply (f_equal (fun x => x * (720 * s))) in E. replace ((cumul 6%nat + 10 * cumul 3%nat ^ 2) / (720 * s) * (720 * s)) with (cumul 6%nat + 10 * cumul 3%nat ^ 2) in E by (field; exact P). replace (cumul 6%nat / (720 * s) * (720 * s)) with (cumul 6%nat) in E by (field; exact P). lra. }
  assert (0 < cumul 3%nat ^ 2) by (apply pow2_gt_0; exact Hk). lra.
Qed.
Print Assumptions C42_gram_charlier_doc_refuted.
(** MathFuncs.powrel (and logrel, at a = 0) is the average of t^(a-1) over [1, 1+x]. *)
Theorem C42_powrel_average : forall x a, -1 < x -> x * powrel x a = RInt (fun t => Rpower t (a - 1)) 1 (1 + x) /\ logrel x = powrel x 0.
Proof.
  intros x a Hx. split; [exact (powrel_avg x a Hx)|]. unfold logrel, powrel. destruct (Req_EM_T x 0); [reflexivity|]. destruct (Req_EM_T 0 0); [reflexivity|congruence].
Qed.
Print Assumptions C42_powrel_average.
Example C42_ex : real_series_on lin_coef (1 * mm_radius 1 1) (fun z => (1 + fst z / 2, snd z / 2)) /\ INR (fact 1) * lin_coef 1 = / 2.
Proof. split; [apply lin_series|cbn; lra]. Qed.
