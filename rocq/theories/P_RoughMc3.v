(** The diffusion weights of Fast are larger than the standard deviation of the exponential-sum kernel. *)
From Coq Require Import Reals List Lra Lia Psatz ZArith.
From Coquelicot Require Import Coquelicot.
From Verif Require Import Base Sums Spec_RoughMc P_RoughMc P_RoughMc2.
Open Scope R_scope.
Section L2.
Variables a b : R.
Hypothesis Hab : a < b.
Definition cont_f (f : R -> R) : Prop := forall s, continuous f s.
Lemma ex_c f : cont_f f -> forall u v, ex_RInt f u v.
Proof. intros H u v. apply (ex_RInt_continuous (V := R_CompleteNormedModule)). intros s _. apply H. Qed.
Lemma cont_mul f g : cont_f f -> cont_f g -> cont_f (fun s => f s * g s).
Proof. intros F G s. apply (continuous_mult (K := R_AbsRing)); [apply F|apply G]. Qed.
Lemma cont_lin f g (k : R) : cont_f f -> cont_f g -> cont_f (fun s => f s + k * g s).
Proof. intros F G s. apply (continuous_plus (V := R_NormedModule)); [apply F|]. apply (continuous_scal_r (V := R_NormedModule) k). apply G. Qed.
Definition ip (f g : R -> R) : R := RInt (fun s => f s * g s) a b.
Lemma ip_lin f g (k : R) : cont_f f -> cont_f g -> ip (fun s => f s + k * g s) (fun s => f s + k * g s) = ip f f + 2 * k * ip f g + k ^ 2 * ip g g.
Proof.
  intros F G. unfold ip. pose proof (ex_c _ (cont_mul f f F F) a b) as E1. pose proof (ex_c _ (cont_mul f g F G) a b) as E2. pose proof (ex_c _ (cont_mul g g G G) a b) as E3.
  assert (Q : is_RInt (fun s => f s * f s + (2 * k) * (f s * g s) + k ^ 2 * (g s * g s)) a b (RInt (fun s => f s * f s) a b + 2 * k * RInt (fun s => f s * g s) a b + k ^ 2 * RInt (fun s => g s * g s) a b)).
  { apply (is_RInt_plus (V := R_NormedModule)); [apply (is_RInt_plus (V := R_NormedModule))|].
    - now apply (RInt_correct (V := R_CompleteNormedModule)).
    - apply (is_RInt_scal (V := R_NormedModule) (fun s => f s * g s)). now apply (RInt_correct (V := R_CompleteNormedModule)).
    - apply (is_RInt_scal (V := R_NormedModule) (fun s => g s * g s)). now apply (RInt_correct (V := R_CompleteNormedModule)). }
  rewrite <- (is_RInt_unique _ _ _ _ Q). apply RInt_ext. intros s _. Req. ring.
Qed.
Lemma ip_pos f : cont_f f -> 0 <= ip f f.
Proof. intros F. apply RInt_ge_0; [lra|now apply ex_c, cont_mul|]. intros s _. nra. Qed.
(** strictly positive when f vanishes at one point at most *)
Lemma ip_pos_strict f (s0 : R) : cont_f f -> (forall s, s <> s0 -> f s <> 0) -> 0 < ip f f.
Proof.
  intros F N. unfold ip. set (m := (a + b) / 2).
  assert (C : forall u v, u < v -> (forall s, u < s < v -> s <> s0) -> 0 < RInt (fun s => f s * f s) u v).
  { intros u v Huv H. apply RInt_gt_0; [exact Huv| |intros s _; apply (cont_mul f f F F)]. intros s Hs. specialize (N s (H s Hs)). nra. }
  assert (P : forall u v, u < v -> 0 <= RInt (fun s => f s * f s) u v).
  { intros u v Huv. apply RInt_ge_0; [lra|now apply ex_c, cont_mul|]. intros s _. nra. }
  assert (Am : a < m < b) by (unfold m; lra).
  rewrite <- (RInt_Chasles (V := R_CompleteNormedModule) (fun s => f s * f s) a m b) by now apply ex_c, cont_mul.
  change (0 < RInt (fun s => f s * f s) a m + RInt (fun s => f s * f s) m b).
  pose proof (P a m ltac:(lra)). pose proof (P m b ltac:(lra)).
  destruct (Rle_dec m s0).
  - assert (0 < RInt (fun s => f s * f s) a m); [|lra]. apply C; [lra|]. intros s Hs. lra.
  - assert (0 < RInt (fun s => f s * f s) m b); [|lra]. apply C; [lra|]. intros s Hs. lra.
Qed.
Lemma cs f g : cont_f f -> cont_f g -> 0 < ip g g -> ip f g ^ 2 <= ip f f * ip g g.
Proof.
  intros F G P. pose proof (ip_pos (fun s => f s + (- (ip f g / ip g g)) * g s) ltac:(now apply cont_lin)) as Q. rewrite ip_lin in Q by assumption.
  replace (ip f f + 2 * - (ip f g / ip g g) * ip f g + (- (ip f g / ip g g)) ^ 2 * ip g g) with ((ip f f * ip g g - ip f g ^ 2) / ip g g) in Q by (field; lra).
  apply (Rmult_le_compat_r (ip g g)) in Q; [|lra]. rewrite Rmult_0_l in Q. unfold Rdiv in Q. rewrite Rmult_assoc, Rinv_l, Rmult_1_r in Q by lra. lra.
Qed.
Lemma cs_strict f g : cont_f f -> cont_f g -> 0 < ip g g -> (forall k, exists s0, forall s, s <> s0 -> f s + k * g s <> 0) -> ip f g ^ 2 < ip f f * ip g g.
Proof.
  intros F G P N. destruct (N (- (ip f g / ip g g))) as [s0 N0]. pose proof (ip_pos_strict (fun s => f s + (- (ip f g / ip g g)) * g s) s0 ltac:(now apply cont_lin) N0) as Q. rewrite ip_lin in Q by assumption.
  replace (ip f f + 2 * - (ip f g / ip g g) * ip f g + (- (ip f g / ip g g)) ^ 2 * ip g g) with ((ip f f * ip g g - ip f g ^ 2) / ip g g) in Q by (field; lra).
  apply (Rmult_lt_compat_r (ip g g)) in Q; [|lra]. rewrite Rmult_0_l in Q. unfold Rdiv in Q. rewrite Rmult_assoc, Rinv_l, Rmult_1_r in Q by lra. lra.
Qed.
Lemma tri f g (k : R) : cont_f f -> cont_f g -> 0 < ip g g -> 0 <= k -> ip (fun s => f s + k * g s) (fun s => f s + k * g s) <= (sqrt (ip f f) + k * sqrt (ip g g)) ^ 2.
Proof.
  intros F G P K. rewrite ip_lin by assumption. pose proof (cs f g F G P) as C. pose proof (ip_pos f F) as PF.
  assert (Q : ip f g <= sqrt (ip f f) * sqrt (ip g g)). { rewrite <- sqrt_mult by lra. apply Rle_trans with (Rabs (ip f g)); [apply Rle_abs|]. rewrite <- sqrt_Rsqr_abs. apply sqrt_le_1_alt. unfold Rsqr. lra. }
  pose proof (sqrt_sqrt (ip f f) PF). pose proof (sqrt_sqrt (ip g g) (Rlt_le _ _ P)). nra.
Qed.
Lemma tri_strict f g (k : R) : cont_f f -> cont_f g -> 0 < ip g g -> 0 < k -> (forall k, exists s0, forall s, s <> s0 -> f s + k * g s <> 0) ->
  ip (fun s => f s + k * g s) (fun s => f s + k * g s) < (sqrt (ip f f) + k * sqrt (ip g g)) ^ 2.
Proof.
  intros F G P K N. rewrite ip_lin by assumption. pose proof (cs_strict f g F G P N) as C. pose proof (ip_pos f F) as PF.
  assert (Q : ip f g < sqrt (ip f f) * sqrt (ip g g)). { rewrite <- sqrt_mult by lra. apply Rle_lt_trans with (Rabs (ip f g)); [apply Rle_abs|]. rewrite <- sqrt_Rsqr_abs. apply sqrt_lt_1_alt. unfold Rsqr. split; [nra|lra]. }
  pose proof (sqrt_sqrt (ip f f) PF). pose proof (sqrt_sqrt (ip g g) (Rlt_le _ _ P)). nra.
Qed.
Variable t : R.
Definition ef (x s : R) : R := exp (- x * (t - s)).
Lemma ef_c x : cont_f (ef x). Proof. intros s. unfold ef. apply (ex_derive_continuous (K := R_AbsRing) (V := R_NormedModule)). auto_derive. exact I. Qed.
Lemma ef_pos x : 0 < ip (ef x) (ef x).
Proof. apply (ip_pos_strict (ef x) a (ef_c x)). intros s _. apply Rgt_not_eq. apply exp_pos. Qed.
Lemma es_c L x w : cont_f (fun s => exp_sum L x w (t - s)). Proof. intros s. apply exp_sum_cont. Qed.
Lemma es_S L x w s : exp_sum (S L) x w (t - s) = exp_sum L x w (t - s) + w L * ef (x L) s. Proof. reflexivity. Qed.
Lemma ip_ext f g : (forall s, f s = g s) -> ip f f = ip g g.
Proof. intros H. unfold ip. apply RInt_ext. intros s _. now rewrite !H. Qed.
Lemma sum_tri L x w : (forall l, (l < L)%nat -> 0 <= w l) -> sqrt (ip (fun s => exp_sum L x w (t - s)) (fun s => exp_sum L x w (t - s))) <= rsum L (fun l => w l * sqrt (ip (ef (x l)) (ef (x l)))).
Proof.
  induction L; intros H.
  - cbn [rsum]. rewrite (ip_ext _ (fun _ => 0)) by reflexivity. unfold ip. rewrite RInt_const. change (sqrt ((b - a) * (0 * 0)) <= 0). rewrite Rmult_0_l, Rmult_0_r, sqrt_0. lra.
  - cbn [rsum]. rewrite (ip_ext _ (fun s => exp_sum L x w (t - s) + w L * ef (x L) s)) by (intros; apply es_S).
    apply Rle_trans with (sqrt ((sqrt (ip (fun s => exp_sum L x w (t - s)) (fun s => exp_sum L x w (t - s))) + w L * sqrt (ip (ef (x L)) (ef (x L)))) ^ 2)).
    + apply sqrt_le_1_alt. apply (tri (fun s => exp_sum L x w (t - s)) (ef (x L))); [apply es_c|apply ef_c|apply ef_pos|apply H; lia].
    + rewrite sqrt_pow2. 2: { apply Rplus_le_le_0_compat; [apply sqrt_pos|]. apply Rmult_le_pos; [apply H; lia|apply sqrt_pos]. }
      apply Rplus_le_compat_r. apply IHL. intros. apply H. lia.
Qed.
Lemma sum_tri_strict L x w : (forall l, (l < S (S L))%nat -> 0 <= w l) -> 0 < w 0%nat -> 0 < w 1%nat -> x 0%nat <> x 1%nat ->
  sqrt (ip (fun s => exp_sum (S (S L)) x w (t - s)) (fun s => exp_sum (S (S L)) x w (t - s))) < rsum (S (S L)) (fun l => w l * sqrt (ip (ef (x l)) (ef (x l)))).
Proof.
  intros H W0 W1 D. induction L.
  - rewrite (ip_ext _ (fun s => w 0%nat * ef (x 0%nat) s + w 1%nat * ef (x 1%nat) s)) by (intros; unfold exp_sum; cbn [rsum]; unfold ef; ring). cbn [rsum].
    assert (C0 : cont_f (fun s => w 0%nat * ef (x 0%nat) s)) by (intros s; apply (continuous_scal_r (V := R_NormedModule) (w 0%nat)), ef_c).
    apply Rlt_le_trans with (sqrt ((sqrt (ip (fun s => w 0%nat * ef (x 0%nat) s) (fun s => w 0%nat * ef (x 0%nat) s)) + w 1%nat * sqrt (ip (ef (x 1%nat)) (ef (x 1%nat)))) ^ 2)).
    + apply sqrt_lt_1_alt. split; [apply ip_pos, cont_lin; [exact C0|apply ef_c]|]. apply (tri_strict (fun s => w 0%nat * ef (x 0%nat) s) (ef (x 1%nat))); [exact C0|apply ef_c|apply ef_pos|exact W1|].
      intros k. (* w0 e^{-x0 u} + k e^{-x1 u} = 0 has at most one root *)
      destruct (Rlt_dec k 0) as [K|K].
      * exists (t - ln (w 0%nat / - k) / (x 0%nat - x 1%nat)). intros s Hs E. apply Hs. unfold ef in E.
        assert (Q : exp ((x 0%nat - x 1%nat) * (t - s)) = w 0%nat / - k).
        { replace ((x 0%nat - x 1%nat) * (t - s)) with (- x 1%nat * (t - s) - - x 0%nat * (t - s)) by ring. unfold Rminus at 1. rewrite exp_plus, exp_Ropp. pose proof (exp_pos (- x 0%nat * (t - s))). pose proof (exp_pos (- x 1%nat * (t - s))).
          apply Rmult_eq_reg_r with (exp (- x 0%nat * (t - s)) * - k); [|apply Rmult_integral_contrapositive_currified; lra].
          replace (exp (- x 1%nat * (t - s)) * / exp (- x 0%nat * (t - s)) * (exp (- x 0%nat * (t - s)) * - k)) with (exp (- x 1%nat * (t - s)) * - k) by (field; lra).
          replace (w 0%nat / - k * (exp (- x 0%nat * (t - s)) * - k)) with (w 0%nat * exp (- x 0%nat * (t - s))) by (field; lra). lra. }
        apply (f_equal ln) in Q. rewrite ln_exp in Q. rewrite <- Q. field. lra.
      * exists 0. intros s _. pose proof (exp_pos (- x 0%nat * (t - s))). pose proof (exp_pos (- x 1%nat * (t - s))). unfold ef. assert (0 < w 0%nat * exp (- x 0%nat * (t - s))) by (apply Rmult_lt_0_compat; lra). assert (0 <= k * exp (- x 1%nat * (t - s))) by (apply Rmult_le_pos; lra). lra.
    + rewrite sqrt_pow2. 2: { apply Rplus_le_le_0_compat; [apply sqrt_pos|]. apply Rmult_le_pos; [lra|apply sqrt_pos]. }
      apply Rplus_le_compat_r. rewrite Rplus_0_l. right.
      replace (ip (fun s => w 0%nat * ef (x 0%nat) s) (fun s => w 0%nat * ef (x 0%nat) s)) with (w 0%nat ^ 2 * ip (ef (x 0%nat)) (ef (x 0%nat))).
      * rewrite sqrt_mult by (try apply pow2_ge_0; left; apply ef_pos). rewrite sqrt_pow2 by lra. reflexivity.
      * unfold ip. rewrite <- (RInt_scal (V := R_CompleteNormedModule)) by (apply ex_c, cont_mul; apply ef_c). apply RInt_ext. intros s _. change (w 0%nat ^ 2 * (ef (x 0%nat) s * ef (x 0%nat) s) = w 0%nat * ef (x 0%nat) s * (w 0%nat * ef (x 0%nat) s)). ring.
  - set (M := S (S L)) in *. change (S (S (S L))) with (S M) in *. cbn [rsum]. rewrite (ip_ext _ (fun s => exp_sum M x w (t - s) + w M * ef (x M) s)) by (intros; apply es_S).
    apply Rle_lt_trans with (sqrt ((sqrt (ip (fun s => exp_sum M x w (t - s)) (fun s => exp_sum M x w (t - s))) + w M * sqrt (ip (ef (x M)) (ef (x M)))) ^ 2)).
    + apply sqrt_le_1_alt. apply (tri (fun s => exp_sum M x w (t - s)) (ef (x M))); [apply es_c|apply ef_c|apply ef_pos|apply H; lia].
    + rewrite sqrt_pow2. 2: { apply Rplus_le_le_0_compat; [apply sqrt_pos|]. apply Rmult_le_pos; [apply H; lia|apply sqrt_pos]. }
      apply Rplus_lt_compat_r. apply IHL. intros. apply H. lia.
Qed.
(** from cells back to integrals *)
Lemma cell_eq h v : cont_f (fun s => h (t - s)) -> cell_integral h t a b v -> v = RInt (fun s => h (t - s)) a b.
Proof.
  intros C H. assert (Q : cell_integral h t a b (RInt (fun s => h (t - s)) a b)) by (apply cell_reg; [exact Hab|apply (RInt_correct (V := R_CompleteNormedModule)), ex_c, C|intros; apply C]).
  unfold cell_integral in *. rewrite <- (is_RInt_gen_unique _ _ H). symmetry. symmetry. apply is_RInt_gen_unique. exact Q.
Qed.
Lemma std_eq x v : cell_std (fun u => exp (- x * u)) t a b v -> v = sqrt (ip (ef x) (ef x)).
Proof.
  intros [P C]. apply cell_eq in C.
  - replace (ip (ef x) (ef x)) with (v ^ 2); [symmetry; now apply sqrt_pow2|]. rewrite C. unfold ip. apply RInt_ext. intros s _. unfold ef. Req. ring.
  - intros s. apply (ex_derive_continuous (K := R_AbsRing) (V := R_NormedModule)). auto_derive. exact I.
Qed.
Lemma std_sum_eq L x w v : cell_std (fun u => exp_sum L x w u) t a b v -> v = sqrt (ip (fun s => exp_sum L x w (t - s)) (fun s => exp_sum L x w (t - s))).
Proof.
  intros [P C]. apply cell_eq in C.
  - replace (ip (fun s => exp_sum L x w (t - s)) (fun s => exp_sum L x w (t - s))) with (v ^ 2); [symmetry; now apply sqrt_pow2|]. rewrite C. unfold ip. apply RInt_ext. intros s _. Req. ring.
  - intros s. apply (continuous_ext (fun s => exp_sum L x w (t - s) * exp_sum L x w (t - s))); [intros; Req; ring|]. apply cont_mul; apply es_c.
Qed.
Lemma std_exists L x w : exists v, cell_std (fun u => exp_sum L x w u) t a b v.
Proof.
  exists (sqrt (ip (fun s => exp_sum L x w (t - s)) (fun s => exp_sum L x w (t - s)))). split; [apply sqrt_pos|].
  replace (sqrt (ip (fun s => exp_sum L x w (t - s)) (fun s => exp_sum L x w (t - s))) ^ 2) with (ip (fun s => exp_sum L x w (t - s)) (fun s => exp_sum L x w (t - s))) by (cbn [pow]; rewrite Rmult_1_r; symmetry; apply sqrt_sqrt, ip_pos, es_c).
  assert (C : cont_f (fun s => exp_sum L x w (t - s) ^ 2)) by (intros s; apply (continuous_ext (fun s => exp_sum L x w (t - s) * exp_sum L x w (t - s))); [intros; Req; ring|apply cont_mul; apply es_c]).
  apply (cell_reg (fun u => exp_sum L x w u ^ 2)); [exact Hab| |intros; apply C]. unfold ip.
  rewrite (RInt_ext _ (fun s => exp_sum L x w (t - s) ^ 2)) by (intros; Req; ring). apply (RInt_correct (V := R_CompleteNormedModule)), ex_c, C.
Qed.
End L2.
Lemma fast_overdispersed : forall L x w t a b (bl : nat -> R) q, a < b -> (forall l, (l < L)%nat -> 0 <= w l) ->
  (forall l, (l < L)%nat -> cell_std (fun u => exp (- x l * u)) t a b (bl l)) -> cell_std (fun u => exp_sum L x w u) t a b q ->
  q <= rsum L (fun l => w l * bl l) /\ ((2 <= L)%nat -> 0 < w 0%nat -> 0 < w 1%nat -> x 0%nat <> x 1%nat -> q < rsum L (fun l => w l * bl l)).
Proof.
  intros L x w t a b bl q Hab Hw Hb Hq. rewrite (std_sum_eq a b Hab t L x w q Hq). rewrite (rsum_ext L (fun l => w l * bl l) (fun l => w l * sqrt (ip a b (ef t (x l)) (ef t (x l))))) by (intros l Hl; now rewrite (std_eq a b Hab t (x l) (bl l) (Hb l Hl))).
  split; [now apply sum_tri|]. intros H2 W0 W1 D. destruct L as [|[|L]]; try lia. now apply sum_tri_strict.
Qed.
