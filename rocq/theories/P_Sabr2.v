(** C35: conditional moments of the average variance solve the Fokker-Planck system. *)
From Coq Require Import Reals Lra Lia List Psatz.
From Coquelicot Require Import Coquelicot.
From Verif Require Import Base Gauss Sums M_Opt M_Mgf M_Heston M_Fd M_Sabr Spec_Expect Spec_Sabr P_Expect P_Sabr.
Open Scope R_scope.

Lemma cond_bridge (v z : R) : 0 < v ->
  exists h, (forall s, 0 <= s <= 1 ->
               gauss_expect (fun y => exp (2 * v * (s * (z + v / 2) + sqrt (s * (1 - s)) * y) - v ^ 2 * s)) (h s)) /\
            is_RInt h 0 1 (mfn_exact z v * exp (v * z)).
Proof.
  intros Hv. exists (fun s => exp (2 * v * s * z + 2 * v ^ 2 * s * (1 - s))). split; [|apply bridge_mean, Hv].
  intros s Hs. assert (Hq : 0 <= s * (1 - s)) by (apply Rmult_le_pos; lra).
  pose proof (gauss_expect_scal _ _ (exp (2 * v * (s * (z + v / 2)) - v ^ 2 * s)) (gauss_mgf (2 * v * sqrt (s * (1 - s))))) as G.
  replace (exp (2 * v * s * z + 2 * v ^ 2 * s * (1 - s)))
    with (exp (2 * v * (s * (z + v / 2)) - v ^ 2 * s) * exp (2 * v * sqrt (s * (1 - s)) * (2 * v * sqrt (s * (1 - s))) / 2)).
  - apply gauss_expect_ext with (2 := G). intros y. cbv beta. rewrite <- exp_plus. f_equal. ring.
  - rewrite <- exp_plus. f_equal.
    replace (2 * v * sqrt (s * (1 - s)) * (2 * v * sqrt (s * (1 - s))) / 2) with (2 * v ^ 2 * (sqrt (s * (1 - s)) * sqrt (s * (1 - s)))) by field.
    rewrite sqrt_sqrt by assumption. field.
Qed.

Lemma is_derive_eq (f : R -> R) (x l l' : R) : is_derive f x l -> l = l' -> is_derive f x l'.
Proof. intros H <-. exact H. Qed.
(** heat kernel and the building blocks, q = a^2 t *)
Definition hk (q x : R) : R := npdf (x / sqrt q) / sqrt q.
Definition Ek (k q x : R) : R := exp (k ^ 2 * q / 2) * (Phi ((k * q - x) / sqrt q) - Phi ((- k * q - x) / sqrt q)).

Lemma npdf_A (k q x : R) : 0 < q -> exp (k ^ 2 * q / 2) * npdf ((k * q - x) / sqrt q) = exp (k * x) * npdf (x / sqrt q).
Proof.
  intros Hq. assert (Hs := sqrt_lt_R0 q Hq). assert (Hss : sqrt q * sqrt q = q) by (apply sqrt_sqrt; lra).
  unfold npdf, Rdiv. rewrite <- !Rmult_assoc, <- !exp_plus. f_equal. f_equal.
  set (u := sqrt q) in *. rewrite <- Hss. field. lra.
Qed.
Lemma d_Ek_x (k q x : R) : 0 < q -> is_derive (Ek k q) x (- hk q x * (exp (k * x) - exp (- (k * x)))).
Proof.
  intros Hq. assert (Hs := sqrt_lt_R0 q Hq). unfold Ek.
  assert (D1 := is_derive_Phi_comp (fun x => (k * q - x) / sqrt q) x (- / sqrt q)).
  assert (D2 := is_derive_Phi_comp (fun x => (- k * q - x) / sqrt q) x (- / sqrt q)).
  assert (A1 : is_derive (fun x : R => (k * q - x) / sqrt q) x (- / sqrt q)) by (auto_derive; [lra|Req; field; lra]).
  assert (A2 : is_derive (fun x : R => (- k * q - x) / sqrt q) x (- / sqrt q)) by (auto_derive; [lra|Req; field; lra]).
  specialize (D1 A1). specialize (D2 A2).
  pose proof (is_derive_scal _ x (exp (k ^ 2 * q / 2)) _ (is_derive_minus _ _ x _ _ D1 D2)) as D.
  replace (- hk q x * (exp (k * x) - exp (- (k * x)))) with
    (exp (k ^ 2 * q / 2) * (- / sqrt q * npdf ((k * q - x) / sqrt q) - - / sqrt q * npdf ((- k * q - x) / sqrt q))); [exact D|].
  pose proof (npdf_A k q x Hq) as N1. pose proof (npdf_A (- k) q x Hq) as N2.
  replace ((- k) ^ 2) with (k ^ 2) in N2 by ring. replace (- k * x) with (- (k * x)) in N2 by ring.
  unfold hk.
  transitivity (- / sqrt q * (exp (k ^ 2 * q / 2) * npdf ((k * q - x) / sqrt q) - exp (k ^ 2 * q / 2) * npdf ((- k * q - x) / sqrt q))); [ring|].
  rewrite N1, N2. field. lra.
Qed.
Lemma d_hk_x (q x : R) : 0 < q -> is_derive (hk q) x (- (x / q) * hk q x).
Proof.
  intros Hq. assert (Hs := sqrt_lt_R0 q Hq). assert (Hss : sqrt q * sqrt q = q) by (apply sqrt_sqrt; lra).
  unfold hk, npdf. auto_derive; [pose proof sqrt_2PI_pos; lra|]. Req.
  set (E := exp _). replace (exp (- (x / sqrt q * (x / sqrt q)) / 2)) with E by (unfold E; f_equal; field; lra).
  set (u := sqrt q) in *. pose proof sqrt_2PI_pos. rewrite <- Hss. field. lra.
Qed.
Lemma d_Ek_q (k q x : R) : 0 < q -> is_derive (fun q => Ek k q x) q
  (k ^ 2 / 2 * Ek k q x + hk q x * ((k + x / q) / 2 * exp (k * x) - (- k + x / q) / 2 * exp (- (k * x)))).
Proof.
  intros Hq. assert (Hs := sqrt_lt_R0 q Hq). assert (Hss : sqrt q * sqrt q = q) by (apply sqrt_sqrt; lra). unfold Ek.
  assert (A : forall c : R, is_derive (fun q : R => (c * q - x) / sqrt q) q ((c + x / q) / (2 * sqrt q))).
  { intros c. auto_derive; [split; [exact Hq|split; [lra|exact I]]|]. Req. set (u := sqrt q) in *. rewrite <- Hss. field. lra. }
  assert (D1 := is_derive_Phi_comp (fun q => (k * q - x) / sqrt q) q _ (A k)).
  assert (D2 := is_derive_Phi_comp (fun q => (- k * q - x) / sqrt q) q _ (A (- k))).
  assert (De : is_derive (fun q : R => exp (k ^ 2 * q / 2)) q (k ^ 2 / 2 * exp (k ^ 2 * q / 2))) by (auto_derive; [exact I|Req; replace (k * (k * 1) * q * / 2) with (k ^ 2 * q / 2) by (simpl; field); field]).
  pose proof (is_derive_mult (fun q : R => exp (k ^ 2 * q / 2)) _ q _ _ De (is_derive_minus _ _ q _ _ D1 D2) Rmult_comm) as D.
  apply (is_derive_eq _ _ _ _ D); clear D.
  pose proof (npdf_A k q x Hq) as N1. pose proof (npdf_A (- k) q x Hq) as N2.
  replace ((- k) ^ 2) with (k ^ 2) in N2 by ring. replace (- k * x) with (- (k * x)) in N2 by ring.
  change (k ^ 2 / 2 * exp (k ^ 2 * q / 2) * (Phi ((k * q - x) / sqrt q) - Phi ((- k * q - x) / sqrt q))
    + exp (k ^ 2 * q / 2) * ((k + x / q) / (2 * sqrt q) * npdf ((k * q - x) / sqrt q) - (- k + x / q) / (2 * sqrt q) * npdf ((- k * q - x) / sqrt q))
    = k ^ 2 / 2 * (exp (k ^ 2 * q / 2) * (Phi ((k * q - x) / sqrt q) - Phi ((- k * q - x) / sqrt q)))
      + hk q x * ((k + x / q) / 2 * exp (k * x) - (- k + x / q) / 2 * exp (- (k * x)))).
  transitivity (k ^ 2 / 2 * exp (k ^ 2 * q / 2) * (Phi ((k * q - x) / sqrt q) - Phi ((- k * q - x) / sqrt q))
    + ((k + x / q) / (2 * sqrt q) * (exp (k ^ 2 * q / 2) * npdf ((k * q - x) / sqrt q))
       - (- k + x / q) / (2 * sqrt q) * (exp (k ^ 2 * q / 2) * npdf ((- k * q - x) / sqrt q)))); [ring|].
  rewrite N1, N2. unfold hk. field. lra.
Qed.
(** finite combinations sum c * exp(j x) * Ek k *)
Import ListNotations.
Definition tv (b : R * nat * nat) (q x : R) : R := let '(c, j, k) := b in c * (exp (INR j * x) * Ek (INR k) q x).
Definition sh (k : nat) (x : R) : R := exp (INR k * x) - exp (- (INR k * x)).
Definition ch2 (k : nat) (x : R) : R := exp (INR k * x) + exp (- (INR k * x)).
Definition tvx (b : R * nat * nat) (q x : R) : R :=
  let '(c, j, k) := b in c * (INR j * (exp (INR j * x) * Ek (INR k) q x) - exp (INR j * x) * (hk q x * sh k x)).
Definition tvxx (b : R * nat * nat) (q x : R) : R :=
  let '(c, j, k) := b in
  c * (INR j ^ 2 * (exp (INR j * x) * Ek (INR k) q x) - 2 * INR j * exp (INR j * x) * (hk q x * sh k x)
       + exp (INR j * x) * (x / q * hk q x * sh k x - INR k * hk q x * ch2 k x)).
Definition tvq (b : R * nat * nat) (q x : R) : R :=
  let '(c, j, k) := b in
  c * (exp (INR j * x) * (INR k ^ 2 / 2 * Ek (INR k) q x
        + hk q x * ((INR k + x / q) / 2 * exp (INR k * x) - (- INR k + x / q) / 2 * exp (- (INR k * x))))).
Lemma d_tv_x (b : R * nat * nat) (q x : R) : 0 < q -> is_derive (tv b q) x (tvx b q x).
Proof.
  intros Hq. destruct b as [[c j] k]. pose proof (d_Ek_x (INR k) q x Hq) as D. unfold tv, tvx, sh.
  auto_derive; [eexists; exact D|].
  replace (Derive (fun x0 : R => Ek (INR k) q x0) x) with (- hk q x * (exp (INR k * x) - exp (- (INR k * x)))) by (symmetry; apply is_derive_unique, D).
  Req. ring.
Qed.
Lemma d_tvx_x (b : R * nat * nat) (q x : R) : 0 < q -> is_derive (tvx b q) x (tvxx b q x).
Proof.
  intros Hq. destruct b as [[c j] k]. pose proof (d_Ek_x (INR k) q x Hq) as D. pose proof (d_hk_x q x Hq) as Dh. unfold tvx, tvxx, sh, ch2.
  auto_derive; [split; [eexists; exact D|first [eexists; exact Dh | split; [eexists; exact Dh|exact I]]]|].
  replace (Derive (fun x0 : R => Ek (INR k) q x0) x) with (- hk q x * (exp (INR k * x) - exp (- (INR k * x)))) by (symmetry; apply is_derive_unique, D).
  replace (Derive (fun x0 : R => hk q x0) x) with (- (x / q) * hk q x) by (symmetry; apply is_derive_unique, Dh).
  Req. ring.
Qed.
Lemma d_tv_q (b : R * nat * nat) (q x : R) : 0 < q -> is_derive (fun q => tv b q x) q (tvq b q x).
Proof.
  intros Hq. destruct b as [[c j] k]. pose proof (d_Ek_q (INR k) q x Hq) as D. unfold tv, tvq.
  eapply is_derive_eq; [apply (is_derive_scal _ q c), (is_derive_scal _ q (exp (INR j * x))), D|]. reflexivity.
Qed.
(** linear combinations *)
Definition lc (F : R * nat * nat -> R -> R -> R) (l : list (R * nat * nat)) (q x : R) : R := lsum (map (fun b => F b q x) l).
Lemma d_lc (F F' : R * nat * nat -> R -> R) (l : list (R * nat * nat)) (x : R) :
  (forall b, is_derive (F b) x (F' b x)) -> is_derive (fun y => lsum (map (fun b => F b y) l)) x (lsum (map (fun b => F' b x) l)).
Proof.
  intros H. induction l as [|b l IH]; cbn [map lsum fold_right].
  - apply @is_derive_const.
  - apply @is_derive_plus; [apply H|exact IH].
Qed.
Definition tms (n : nat) : list (R * nat * nat) :=
  match n with
  | 1%nat => [(/ 2, 1%nat, 1%nat)]
  | 2%nat => [(/ 4, 2%nat, 2%nat); (- / 4, 3%nat, 1%nat); (- / 4, 1%nat, 1%nat)]
  | 3%nat => [(/ 16, 3%nat, 3%nat); (- / 8, 4%nat, 2%nat); (- / 8, 2%nat, 2%nat); (/ 16, 5%nat, 1%nat); (3 / 16, 3%nat, 1%nat); (/ 16, 1%nat, 1%nat)]
  | _ => [(/ 96, 4%nat, 4%nat); (- / 32, 5%nat, 3%nat); (- / 32, 3%nat, 3%nat); (3 / 96, 6%nat, 2%nat); (8 / 96, 4%nat, 2%nat); (3 / 96, 2%nat, 2%nat);
          (- / 96, 7%nat, 1%nat); (- (6) / 96, 5%nat, 1%nat); (- (6) / 96, 3%nat, 1%nat); (- / 96, 1%nat, 1%nat)]
  end.
Definition Hn (n : nat) (q x : R) : R := match n with O => hk q x | _ => lc tv (tms n) q x end.
Lemma tv_heat (c : R) (j k : nat) (q x : R) : 0 < q ->
  tvq (c, j, k) q x - / 2 * tvxx (c, j, k) q x
  = c * (exp x ^ j * ((INR k ^ 2 - INR j ^ 2) / 2 * Ek (INR k) q x
         + hk q x * (INR k * (exp x ^ k + / exp x ^ k) + INR j * (exp x ^ k - / exp x ^ k)))).
Proof. intros Hq. unfold tvq, tvxx, sh, ch2. rewrite exp_Ropp, !exp_n. pose proof (exp_pos x). field. split; [apply pow_nonzero; lra|lra]. Qed.
Lemma heat_sum (l : list (R * nat * nat)) (q x : R) : 0 < q ->
  lc tvq l q x - / 2 * lc tvxx l q x = lc (fun b q x => tvq b q x - / 2 * tvxx b q x) l q x.
Proof. intros Hq. unfold lc, lsum. induction l; cbn [map fold_right]; [ring|]. rewrite <- IHl. ring. Qed.
Lemma Hn_heat (n : nat) (q x : R) : (1 <= n <= 4)%nat -> 0 < q ->
  lc tvq (tms n) q x = / 2 * lc tvxx (tms n) q x + INR n * exp (2 * x) * Hn (n - 1) q x.
Proof.
  intros Hn0 Hq. apply (Rplus_eq_reg_r (- / 2 * lc tvxx (tms n) q x)).
  transitivity (lc tvq (tms n) q x - / 2 * lc tvxx (tms n) q x); [ring|]. rewrite heat_sum by exact Hq.
  transitivity (INR n * exp (2 * x) * Hn (n - 1) q x); [|ring].
  replace (2 * x) with (INR 2 * x) by (simpl; ring). rewrite exp_n.
  assert (n = 1 \/ n = 2 \/ n = 3 \/ n = 4)%nat as [->|[->|[->| ->]]] by lia;
    cbn [Nat.sub Hn tms]; unfold lc; cbn [map lsum fold_right]; unfold lsum; cbn [fold_right]; cbv beta; rewrite !(tv_heat) by exact Hq; unfold tv; rewrite ?exp_n;
    pose proof (exp_pos x) as Hw; generalize dependent (exp x); intros w Hw; cbn [INR];
    try generalize (Ek 1 q x); try generalize (Ek (1 + 1) q x); try generalize (Ek (1 + 1 + 1) q x); try generalize (Ek (1 + 1 + 1 + 1) q x); intros; field; lra.
Qed.
(** the raw moments of the routine, exact branch, by order *)
Definition cond_raw (n : nat) (v z : R) : R :=
  let e := exp (v * z) in
  let '(m1, n2, n3, n4) := cond_mnc mfn_exact v z in
  match n with 0%nat => 1 | 1%nat => m1 * e | 2%nat => n2 * e ^ 2 | 3%nat => n3 * e ^ 3 | _ => n4 * e ^ 4 end.
Definition lndens (q x : R) : R := exp (- (x + q / 2) ^ 2 / (2 * q)) / sqrt (2 * PI * q).
Lemma lndens_hk (q x : R) : 0 < q -> lndens q x = exp (- x / 2 - q / 8) * hk q x.
Proof.
  intros Hq. assert (Hs := sqrt_lt_R0 q Hq). assert (Hss : sqrt q * sqrt q = q) by (apply sqrt_sqrt; lra). pose proof PI_RGT_0.
  unfold lndens, hk, npdf. rewrite (sqrt_mult (2 * PI) q) by lra.
  replace (- (x + q / 2) ^ 2 / (2 * q)) with ((- x / 2 - q / 8) + - (x / sqrt q * (x / sqrt q)) / 2).
  - rewrite exp_plus. pose proof sqrt_2PI_pos. field. lra.
  - set (u := sqrt q) in *. rewrite <- Hss. field. lra.
Qed.
Lemma hk_mfn (k : nat) (q x : R) : 0 < q -> (0 < k)%nat ->
  hk q x * mfn_exact (x / sqrt q) (INR k * sqrt q) = Ek (INR k) q x / (2 * INR k * q).
Proof.
  intros Hq Hk. assert (Hs := sqrt_lt_R0 q Hq). assert (Hss : sqrt q * sqrt q = q) by (apply sqrt_sqrt; lra).
  assert (Hki : 0 < INR k) by (apply lt_0_INR; lia).
  unfold hk. replace (npdf (x / sqrt q) / sqrt q * mfn_exact (x / sqrt q) (INR k * sqrt q))
    with (npdf (x / sqrt q) * mfn_exact (x / sqrt q) (INR k * sqrt q) / sqrt q) by (field; lra).
  rewrite npdf_mfn. unfold Ek.
  replace ((INR k * q - x) / sqrt q) with (INR k * sqrt q - x / sqrt q).
  2: { set (u := sqrt q) in *. rewrite <- Hss. field. lra. }
  replace ((- INR k * q - x) / sqrt q) with (- (INR k * sqrt q) - x / sqrt q).
  2: { set (u := sqrt q) in *. rewrite <- Hss. field. lra. }
  replace ((INR k * sqrt q) ^ 2 / 2) with (INR k ^ 2 * q / 2) by (rewrite Rpow_mult_distr, pow2_sqrt by lra; reflexivity).
  generalize (exp (INR k ^ 2 * q / 2)) (Phi (INR k * sqrt q - x / sqrt q) - Phi (- (INR k * sqrt q) - x / sqrt q)). intros e D.
  set (u := sqrt q) in *. rewrite <- Hss. field. lra.
Qed.
Lemma raw_Hn (n : nat) (q x : R) : (n <= 4)%nat -> 0 < q -> hk q x * (q ^ n * cond_raw n (sqrt q) (x / sqrt q)) = Hn n q x.
Proof.
  intros Hn0 Hq. assert (Hs := sqrt_lt_R0 q Hq). assert (Hss : sqrt q ^ 2 = q) by (apply pow2_sqrt; lra).
  destruct n as [|n]; [unfold cond_raw, cond_mnc; cbn [Hn]; ring|].
  assert (E : forall k, (0 < k)%nat -> hk q x * mfn_exact (x / sqrt q) (INR k * sqrt q) = Ek (INR k) q x / (2 * INR k * q)) by (intros; apply hk_mfn; assumption).
  pose proof (E 1%nat ltac:(lia)) as E1. pose proof (E 2%nat ltac:(lia)) as E2. pose proof (E 3%nat ltac:(lia)) as E3. pose proof (E 4%nat ltac:(lia)) as E4. clear E.
  unfold cond_raw, cond_mnc, cosh_z. cbv zeta. replace (sqrt q * (x / sqrt q)) with x by (field; lra).
  assert (S6 : sqrt q ^ 6 = q ^ 3) by (transitivity ((sqrt q ^ 2) ^ 3); [ring|rewrite Hss; reflexivity]).
  assert (S4 : sqrt q ^ 4 = q ^ 2) by (transitivity ((sqrt q ^ 2) ^ 2); [ring|rewrite Hss; reflexivity]). rewrite S6, S4, !Hss.
  replace (mfn_exact (x / sqrt q) (sqrt q)) with (mfn_exact (x / sqrt q) (INR 1 * sqrt q)) by (f_equal; simpl; ring).
  replace (mfn_exact (x / sqrt q) (2 * sqrt q)) with (mfn_exact (x / sqrt q) (INR 2 * sqrt q)) by (f_equal; simpl; ring).
  replace (mfn_exact (x / sqrt q) (3 * sqrt q)) with (mfn_exact (x / sqrt q) (INR 3 * sqrt q)) by (f_equal; simpl; ring).
  replace (mfn_exact (x / sqrt q) (4 * sqrt q)) with (mfn_exact (x / sqrt q) (INR 4 * sqrt q)) by (f_equal; simpl; ring).
  revert E1 E2 E3 E4.
  generalize (mfn_exact (x / sqrt q) (INR 1 * sqrt q)) (mfn_exact (x / sqrt q) (INR 2 * sqrt q))
    (mfn_exact (x / sqrt q) (INR 3 * sqrt q)) (mfn_exact (x / sqrt q) (INR 4 * sqrt q)). intros M1 M2 M3 M4 E1 E2 E3 E4.
  assert (n = 0 \/ n = 1 \/ n = 2 \/ n = 3)%nat as [->|[->|[->| ->]]] by lia;
    cbn [Hn tms]; unfold lc, lsum; cbn [map fold_right]; unfold tv; rewrite !exp_n; pose proof (exp_pos x) as Hw;
    revert E1 E2 E3 E4; generalize (Ek (INR 1) q x) (Ek (INR 2) q x) (Ek (INR 3) q x) (Ek (INR 4) q x); intros K1 K2 K3 K4 E1 E2 E3 E4;
    generalize dependent (exp x); intros w Hw; generalize dependent (hk q x); intros h E1 E2 E3 E4;
    simpl in E1, E2, E3, E4;
    assert (F1 : K1 = 2 * q * (h * M1)) by (rewrite E1; field; lra);
    assert (F2 : K2 = 4 * q * (h * M2)) by (rewrite E2; field; lra);
    assert (F3 : K3 = 6 * q * (h * M3)) by (rewrite E3; field; lra);
    assert (F4 : K4 = 8 * q * (h * M4)) by (rewrite E4; field; lra); rewrite ?F1, ?F2, ?F3, ?F4; field; lra.
Qed.

Lemma cond_density_link (a t x : R) (n : nat) : 0 < a -> 0 < t -> (n <= 4)%nat ->
  lndens (a ^ 2 * t) x * (t ^ n * cond_raw n (a * sqrt t) (x / (a * sqrt t)))
  = exp (- x / 2 - a ^ 2 * t / 8) / (a ^ 2) ^ n * Hn n (a ^ 2 * t) x.
Proof.
  intros Ha Ht Hn0. assert (Hq : 0 < a ^ 2 * t) by (apply Rmult_lt_0_compat; [apply pow_lt|]; lra).
  assert (Es : sqrt (a ^ 2 * t) = a * sqrt t) by (rewrite sqrt_mult by (try apply pow_le; lra); rewrite sqrt_pow2 by lra; reflexivity).
  rewrite lndens_hk by exact Hq. rewrite <- (raw_Hn n (a ^ 2 * t) x Hn0 Hq). rewrite Es, Rpow_mult_distr.
  generalize (hk (a ^ 2 * t) x) (cond_raw n (a * sqrt t) (x / (a * sqrt t))) (t ^ n). intros. field. apply pow_nonzero, pow_nonzero. lra.
Qed.
Lemma Ek_small (k q x : R) : 0 < q -> 0 <= k -> Rabs (Ek k q x) <= exp (k ^ 2 * q / 2) * (2 * k * sqrt q).
Proof.
  intros Hq Hk. assert (Hs := sqrt_lt_R0 q Hq). assert (Hss : sqrt q * sqrt q = q) by (apply sqrt_sqrt; lra). unfold Ek.
  rewrite Rabs_mult, (Rabs_right (exp _)) by (left; apply exp_pos). apply Rmult_le_compat_l; [left; apply exp_pos|].
  set (A := (k * q - x) / sqrt q). set (B := (- k * q - x) / sqrt q).
  assert (HAB : A - B = 2 * k * sqrt q) by (unfold A, B; set (u := sqrt q) in *; rewrite <- Hss; field; lra).
  assert (0 <= k * sqrt q) by (apply Rmult_le_pos; lra).
  destruct (MVT_gen Phi B A npdf) as (c & Hc & E).
  - intros; apply is_derive_Phi.
  - intros; apply continuity_Phi.
  - rewrite E, HAB. rewrite Rabs_mult, (Rabs_right (2 * k * sqrt q)) by lra.
    rewrite Rabs_right by (left; apply npdf_pos).
    assert (npdf c <= 1).
    { unfold npdf. apply Rle_div_l; [apply sqrt_2PI_pos|]. rewrite Rmult_1_l.
      assert (exp (- (c * c) / 2) <= 1).
      { apply Rle_trans with (exp 0); [|rewrite exp_0; lra]. destruct (Req_dec (- (c * c) / 2) 0) as [->|]; [lra|left; apply exp_increasing; nra]. }
      assert (1 <= sqrt (2 * PI)) by (apply Rle_trans with (sqrt 1); [rewrite sqrt_1; lra|apply sqrt_le_1_alt; pose proof PI2_1; unfold PI2 in *; lra]). lra. }
    nra.
Qed.

(** limits as t -> 0+ *)
Lemma sqrt_at0 : filterlim sqrt (at_right 0) (locally 0).
Proof.
  intros P [e He]. exists (mkposreal (e ^ 2) (pow_lt _ 2 (cond_pos e))). intros y Hy Hy0. apply He. unfold ball, AbsRing_ball in *. cbn in *.
  unfold AbsRing_ball, abs, minus, plus, opp in *. cbn in *. rewrite Ropp_0, Rplus_0_r in *.
  rewrite Rabs_right in Hy by lra. rewrite Rabs_right by (apply Rle_ge, sqrt_pos).
  rewrite <- (sqrt_pow2 e) by (left; apply (cond_pos e)). apply sqrt_lt_1_alt. split; [lra|]. exact Hy.
Qed.
Lemma Ek_lim0 (k a x : R) : 0 < a -> 0 <= k -> filterlim (fun t => Ek k (a ^ 2 * t) x) (at_right 0) (locally 0).
Proof.
  intros Ha Hk. apply filterlim_locally. intros e.
  set (M := exp (k ^ 2 * a ^ 2 / 2) * (2 * k * a) + 1).
  assert (HM : 0 < M). { unfold M. assert (0 <= exp (k ^ 2 * a ^ 2 / 2) * (2 * k * a)); [|lra]. apply Rmult_le_pos; [left; apply exp_pos|nra]. }
  assert (Hd : 0 < Rmin 1 ((e / M) ^ 2)). { apply Rmin_glb_lt; [lra|]. apply pow_lt, Rdiv_lt_0_compat; [apply cond_pos|exact HM]. }
  exists (mkposreal _ Hd). intros t Ht Ht0. change (Rabs (t - 0) < Rmin 1 ((e / M) ^ 2)) in Ht. change (Rabs (Ek k (a ^ 2 * t) x - 0) < e).
  rewrite Rminus_0_r in *. rewrite (Rabs_right t) in Ht by lra.
  assert (Ht1 : t < 1) by (eapply Rlt_le_trans; [exact Ht|apply Rmin_l]). assert (Ht2 : t < (e / M) ^ 2) by (eapply Rlt_le_trans; [exact Ht|apply Rmin_r]).
  assert (Hq : 0 < a ^ 2 * t) by (apply Rmult_lt_0_compat; [apply pow_lt|]; lra).
  eapply Rle_lt_trans; [apply Ek_small; assumption|].
  assert (Es : sqrt (a ^ 2 * t) = a * sqrt t) by (rewrite sqrt_mult by (try apply pow_le; lra); rewrite sqrt_pow2 by lra; reflexivity).
  rewrite Es. assert (Hst : sqrt t < e / M).
  { rewrite <- (sqrt_pow2 (e / M)). - apply sqrt_lt_1_alt. lra. - left; apply Rdiv_lt_0_compat; [apply cond_pos|exact HM]. }
  assert (Hss := sqrt_lt_R0 t Ht0).
  apply Rle_lt_trans with (exp (k ^ 2 * a ^ 2 / 2) * (2 * k * a) * sqrt t).
  - replace (exp (k ^ 2 * (a ^ 2 * t) / 2) * (2 * k * (a * sqrt t))) with (exp (k ^ 2 * (a ^ 2 * t) / 2) * (2 * k * a) * sqrt t) by ring. apply Rmult_le_compat_r; [lra|].
    apply Rmult_le_compat_r; [nra|]. destruct (Req_dec k 0) as [->|Hk0].
    + apply Req_le. f_equal. field.
    + left. apply exp_increasing. assert (0 < k ^ 2) by (apply pow_lt; lra). assert (0 < a ^ 2) by (apply pow_lt; lra).
      assert (0 < k ^ 2 * a ^ 2 * (1 - t)) by (repeat apply Rmult_lt_0_compat; lra). nra.
  - apply Rle_lt_trans with (M * sqrt t); [apply Rmult_le_compat_r; [lra|unfold M; lra]|].
    apply Rlt_le_trans with (M * (e / M)); [apply Rmult_lt_compat_l; lra|]. apply Req_le. field. lra.
Qed.
Lemma lc_lim0 (l : list (R * nat * nat)) (a x : R) : 0 < a -> filterlim (fun t => lc tv l (a ^ 2 * t) x) (at_right 0) (locally 0).
Proof.
  intros Ha. unfold lc, lsum. induction l as [|[[c j] k] l IH]; cbn [map fold_right].
  - apply filterlim_const.
  - replace (locally 0) with (locally (plus (scal c (scal (exp (INR j * x)) 0)) 0)).
    2: { f_equal. unfold plus, scal; cbn. unfold mult; cbn. ring. }
    eapply (filterlim_comp_2 (F := at_right 0) (G := locally (scal c (scal (exp (INR j * x)) 0))) (H := locally 0)
             (fun t => tv (c, j, k) (a ^ 2 * t) x) _ plus).
    + unfold tv. apply (filterlim_comp _ _ _ _ (fun y => scal c y) _ (locally (scal (exp (INR j * x)) 0))); [|apply (filterlim_scal_r (V := R_NormedModule))].
      apply (filterlim_comp _ _ _ _ (fun y => scal (exp (INR j * x)) y) _ (locally 0)); [|apply (filterlim_scal_r (V := R_NormedModule))].
      apply Ek_lim0; [exact Ha|apply pos_INR].
    + exact IH.
    + apply (filterlim_plus (V := R_NormedModule)).
Qed.
Definition Gn (a : R) (n : nat) (t x : R) : R := lndens (a ^ 2 * t) x * (t ^ n * cond_raw n (a * sqrt t) (x / (a * sqrt t))).
Definition pf (a : R) (n : nat) (t x : R) : R := exp (- x / 2 - a ^ 2 * t / 8) / (a ^ 2) ^ n.
Lemma d_pf_t (a : R) (n : nat) (t x : R) : is_derive (fun y : R => pf a n y x) t (- (a ^ 2 / 8) * pf a n t x).
Proof.
  unfold pf, Rdiv. generalize (/ (a ^ 2) ^ n) (a ^ 2). intros c b. auto_derive; [exact I|]. Req.
  match goal with |- ?L = _ => match L with context [exp ?e] => replace e with (- x * / 2 - b * t * / 8) by ring end end. ring.
Qed.
Lemma d_pf_x (a : R) (n : nat) (t x : R) : is_derive (fun y : R => pf a n t y) x (- (/ 2) * pf a n t x).
Proof.
  unfold pf, Rdiv. generalize (/ (a ^ 2) ^ n) (a ^ 2). intros c b. auto_derive; [exact I|]. Req.
  match goal with |- ?L = _ => match L with context [exp ?e] => replace e with (- x * / 2 - b * t * / 8) by ring end end. ring.
Qed.
Lemma d_lc_x (l : list (R * nat * nat)) (q x : R) : 0 < q -> is_derive (lc tv l q) x (lc tvx l q x).
Proof. intros Hq. unfold lc. apply (d_lc (fun b => tv b q) (fun b => tvx b q)). intros b. apply d_tv_x, Hq. Qed.
Lemma d_lc_xx (l : list (R * nat * nat)) (q x : R) : 0 < q -> is_derive (lc tvx l q) x (lc tvxx l q x).
Proof. intros Hq. unfold lc. apply (d_lc (fun b => tvx b q) (fun b => tvxx b q)). intros b. apply d_tvx_x, Hq. Qed.
Lemma d_lc_q (l : list (R * nat * nat)) (q x : R) : 0 < q -> is_derive (fun q => lc tv l q x) q (lc tvq l q x).
Proof. intros Hq. unfold lc. apply (d_lc (fun b q => tv b q x) (fun b q => tvq b q x)). intros b. apply d_tv_q, Hq. Qed.

Lemma cond_fokker_planck (a : R) : 0 < a -> weighted_densities a 4 (Gn a).
Proof.
  intros Ha. assert (Ha2 : 0 < a ^ 2) by (apply pow_lt; lra).
  assert (Link : forall n t x, (n <= 4)%nat -> 0 < t -> Gn a n t x = pf a n t x * Hn n (a ^ 2 * t) x).
  { intros n t x Hn0 Ht. apply cond_density_link; assumption. }
  split; [|split].
  - intros t x Ht. unfold Gn, cond_raw. destruct (cond_mnc _ _ _) as [[[? ?] ?] ?]. cbv zeta. unfold lndens. rewrite pow_O, !Rmult_1_r. reflexivity.
  - intros n x Hn0.
    apply (filterlim_ext_loc (fun t => pf a n t x * lc tv (tms n) (a ^ 2 * t) x)).
    { exists (mkposreal 1 Rlt_0_1). intros t _ Ht. rewrite Link by (try lia; assumption). destruct n; [lia|reflexivity]. }
    replace (locally 0) with (locally (mult (pf a n 0 x) 0)).
    2: { f_equal. unfold mult; cbn. ring. }
    eapply (filterlim_comp_2 (F := at_right 0) (G := locally (pf a n 0 x)) (H := locally 0) (fun t => pf a n t x) (fun t => lc tv (tms n) (a ^ 2 * t) x) mult).
    + apply (filterlim_filter_le_1 (F := locally 0) (G := at_right 0) (H := locally (pf a n 0 x)) (fun t => pf a n t x)).
      { intros P [e He]. exists e. intros y Hy _. apply He, Hy. }
      apply (ex_derive_continuous (K := R_AbsRing) (V := R_NormedModule) (fun t => pf a n t x) 0). unfold pf. auto_derive. exact I.
    + apply lc_lim0, Ha.
    + apply (filterlim_mult (K := R_AbsRing)).
  - exists (fun n t x => a ^ 2 * (pf a n t x * (lc tvq (tms n) (a ^ 2 * t) x - / 8 * lc tv (tms n) (a ^ 2 * t) x))),
      (fun n t x => pf a n t x * (lc tvx (tms n) (a ^ 2 * t) x - / 2 * lc tv (tms n) (a ^ 2 * t) x)),
      (fun n t x => pf a n t x * (lc tvxx (tms n) (a ^ 2 * t) x - lc tvx (tms n) (a ^ 2 * t) x + / 4 * lc tv (tms n) (a ^ 2 * t) x)).
    intros n t x Hn0 Ht. assert (Hq : 0 < a ^ 2 * t) by (apply Rmult_lt_0_compat; lra).
    assert (Hne : (a ^ 2) ^ n <> 0) by (apply pow_nonzero; lra).
    assert (HL : forall s y, 0 < s -> Gn a n s y = pf a n s y * lc tv (tms n) (a ^ 2 * s) y).
    { intros s y Hs. rewrite Link by (try lia; assumption). destruct n; [lia|reflexivity]. }
    split; [|split; [|split]].
    + apply (is_derive_ext_loc (fun y => pf a n y x * lc tv (tms n) (a ^ 2 * y) x)).
      { exists (mkposreal t Ht). intros y Hy. symmetry. apply HL. change (Rabs (y - t) < t) in Hy. apply Rabs_def2 in Hy. lra. }
      pose proof (d_lc_q (tms n) (a ^ 2 * t) x Hq) as D.
      assert (Dc : is_derive (fun y : R => lc tv (tms n) (a ^ 2 * y) x) t (a ^ 2 * lc tvq (tms n) (a ^ 2 * t) x)).
      { apply (is_derive_comp (fun q => lc tv (tms n) q x) (fun y => a ^ 2 * y) t); [exact D|].
        eapply is_derive_eq; [apply (is_derive_scal (fun y : R => y) t (a ^ 2) 1), @is_derive_id|]. apply Rmult_1_r. }
      pose proof (d_pf_t a n t x) as Dp.
      eapply is_derive_eq; [apply (is_derive_mult _ _ t _ _ Dp Dc Rmult_comm)|]. unfold plus, mult; cbn. unfold mult; cbn. field.
    + apply (is_derive_ext (fun y => pf a n t y * lc tv (tms n) (a ^ 2 * t) y)); [intros; symmetry; apply HL, Ht|].
      pose proof (d_lc_x (tms n) (a ^ 2 * t) x Hq) as D.
      pose proof (d_pf_x a n t x) as Dp.
      eapply is_derive_eq; [apply (is_derive_mult _ _ x _ _ Dp D Rmult_comm)|]. unfold plus, mult; cbn. unfold mult; cbn. ring.
    + pose proof (d_lc_x (tms n) (a ^ 2 * t) x Hq) as D. pose proof (d_lc_xx (tms n) (a ^ 2 * t) x Hq) as D2.
      pose proof (d_pf_x a n t x) as Dp.
      assert (Ds : is_derive (fun y : R => lc tvx (tms n) (a ^ 2 * t) y - / 2 * lc tv (tms n) (a ^ 2 * t) y) x
                     (lc tvxx (tms n) (a ^ 2 * t) x - / 2 * lc tvx (tms n) (a ^ 2 * t) x)).
      { apply (is_derive_minus (V := R_NormedModule)); [exact D2|]. apply (is_derive_scal (fun y => lc tv (tms n) (a ^ 2 * t) y)). exact D. }
      eapply is_derive_eq; [apply (is_derive_mult _ _ x _ _ Dp Ds Rmult_comm)|]. unfold plus, mult; cbn. unfold mult; cbn. field.
    + rewrite (Hn_heat n (a ^ 2 * t) x) by (try lia; exact Hq). rewrite Link by (try lia; exact Ht).
      assert (Ep : pf a (n - 1) t x = a ^ 2 * pf a n t x).
      { unfold pf. destruct n; [lia|]. replace (S n - 1)%nat with n by lia. cbn [pow] in Hne |- *. change (a * (a * 1)) with (a ^ 2) in *. field.
        split; [apply pow_nonzero; lra|lra]. }
      rewrite Ep. generalize (pf a n t x) (lc tvxx (tms n) (a ^ 2 * t) x) (lc tvx (tms n) (a ^ 2 * t) x) (lc tv (tms n) (a ^ 2 * t) x) (Hn (n - 1) (a ^ 2 * t) x) (exp (2 * x)).
      intros. field.
Qed.
Lemma cond_mnc_branch (v z : R) : / 100 < v ->
  cond_avgvar_mnc v z = (cond_raw 1 v z, cond_raw 2 v z, cond_raw 3 v z, cond_raw 4 v z).
Proof.
  intros Hv. unfold cond_avgvar_mnc, cond_raw, cond_mnc, cond_avgvar_mfn.
  repeat match goal with |- context [Rlt_dec (/ 100) (Rabs ?y)] => destruct (Rlt_dec (/ 100) (Rabs y)) as [_|N]; [|exfalso; apply N; rewrite Rabs_right; lra] end.
  reflexivity.
Qed.
Lemma sqrt_mult_alt' (x y : R) : 0 <= y -> sqrt (x * y) = sqrt x * sqrt y.
Proof. intros Hy. rewrite Rmult_comm, sqrt_mult_alt by exact Hy. ring. Qed.
Lemma tuple4_inj (a b c d a' b' c' d' : R) : (a, b, c, d) = (a', b', c', d') -> a = a' /\ b = b' /\ c = c' /\ d = d'.
Proof. intros H. injection H. intros -> -> -> ->. repeat split. Qed.
(** mean, var/mean^2, skewness, excess kurtosis of the raw moments, vovn >= 0.1 *)
Lemma cond_mvsk_stats (v z : R) : / 10 <= v -> forall m s k sk,
  cond_avgvar_mvsk v z = (m, s, sk, k) ->
  m = cond_raw 1 v z /\ s = var_of_raw (cond_raw 1 v z) (cond_raw 2 v z) / cond_raw 1 v z ^ 2 /\
  sk = skew_of_raw (cond_raw 1 v z) (cond_raw 2 v z) (cond_raw 3 v z) /\
  k = exkurt_of_raw (cond_raw 1 v z) (cond_raw 2 v z) (cond_raw 3 v z) (cond_raw 4 v z).
Proof.
  intros Hv m s k sk E. unfold cond_avgvar_mvsk, cond_mnc, cond_avgvar_mfn in E.
  repeat match type of E with context [Rlt_dec (/ 100) (Rabs ?y)] => destruct (Rlt_dec (/ 100) (Rabs y)) as [_|N] in E; [|exfalso; apply N; rewrite Rabs_right; lra] end.
  cbv zeta in E. destruct (Rlt_dec (v ^ 2) (/ 100)) as [N|_]; [exfalso; nra|].
  apply tuple4_inj in E. destruct E as (<- & <- & <- & <-). unfold cond_raw, cond_mnc in *. cbv zeta in *. set (e := exp (v * z)) in *. set (c := cosh_z v z) in *.
  assert (He : 0 < e) by apply exp_pos.
  assert (HM : 0 < mfn_exact z v).
  { unfold mfn_exact. apply Rmult_lt_0_compat; [|apply exp_pos]. apply Rmult_lt_0_compat.
    - apply Rdiv_lt_0_compat; [apply sqrt_lt_R0; pose proof PI_RGT_0; lra|lra].
    - assert (Phi (- Rabs z - v) < Phi (- Rabs z + v)) by (apply Phi_incr; lra). lra. }
  revert HM. generalize (mfn_exact z v) (mfn_exact z (2 * v)) (mfn_exact z (3 * v)) (mfn_exact z (4 * v)). intros M1 M2 M3 M4 HM.
  set (n2 := (M2 - M1 * c) / v ^ 2) in *. set (n3 := (3 * M3 - 8 * M2 * c + M1 * (4 * c ^ 2 + 1)) / (8 * v ^ 4)) in *.
  set (n4 := (2 * M4 - 9 * M3 * c + M2 * (12 * c ^ 2 + 2) - M1 * c * (4 * c ^ 2 + 3)) / (24 * v ^ 6)) in *. clearbody n2 n3 n4 c e.
  unfold skew_of_raw, exkurt_of_raw, var_of_raw in *.
  replace (n2 * e ^ 2 - (M1 * e) ^ 2) with ((n2 - M1 ^ 2) * e ^ 2) by ring.
  assert (Es : sqrt ((n2 - M1 ^ 2) * e ^ 2) = sqrt (n2 - M1 ^ 2) * e).
  { rewrite sqrt_mult_alt' by (apply pow_le; lra). rewrite sqrt_pow2 by lra. reflexivity. }
  rewrite Es. split; [reflexivity|]. split; [field; lra|].
  destruct (Rle_lt_dec (n2 - M1 ^ 2) 0) as [Hd|Hd].
  - rewrite (sqrt_neg_0 (n2 - M1 ^ 2) Hd). split.
    + rewrite Rmult_0_r, Rmult_0_l, pow_i by lia. unfold Rdiv. rewrite Rinv_0. ring.
    + destruct (Req_dec (n2 - M1 ^ 2) 0) as [E0|N0]; [|field; split; [lra|exact N0]].
      rewrite !E0, Rmult_0_l, pow_i by lia. unfold Rdiv. rewrite Rinv_0. ring.
  - assert (Hq : 0 < sqrt (n2 - M1 ^ 2)) by (apply sqrt_lt_R0; exact Hd).
    assert (Hqq : sqrt (n2 - M1 ^ 2) * sqrt (n2 - M1 ^ 2) = n2 - M1 ^ 2) by (apply sqrt_sqrt; lra).
    set (u := sqrt (n2 - M1 ^ 2)) in *. split.
    + replace ((u * e) ^ 3) with ((n2 - M1 ^ 2) * u * e ^ 3) by (rewrite <- Hqq; ring). field. lra.
    + field. lra.
Qed.
