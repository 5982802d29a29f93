(** N-dimensional Gauss-Hermite tables. *)
From Coq Require Import Reals Lra Lia List Psatz Bool Arith.
From Coquelicot Require Import Coquelicot.
From Verif Require Import Base Gauss Sums M_Opt M_Sabr M_Dist Spec_Opt Spec_Expect Spec_Misc Spec_Dist P_Black P_Expect P_Gmom P_Gmom2 P_Dist.
Import ListNotations.
Open Scope R_scope.

Lemma nd_total_prod sizes : nd_total sizes = fold_right Nat.mul 1%nat sizes.
Proof. unfold nd_total. induction sizes as [|s t IH]; [reflexivity|]. cbn [nd_powers hd fold_right]. now rewrite IH. Qed.
Lemma nd_powers_cons s t : nd_powers (s :: t) = (s * nd_total t)%nat :: nd_powers t. Proof. reflexivity. Qed.
Lemma nd_powers_ne t : exists q r, nd_powers t = q :: r /\ q = nd_total t.
Proof. destruct t; cbn; do 2 eexists; split; reflexivity. Qed.
Lemma nd_index_cons s t ind : nd_index (nd_powers (s :: t)) ind = ((ind mod (s * nd_total t)) / nd_total t)%nat :: nd_index (nd_powers t) ind.
Proof. rewrite nd_powers_cons. destruct (nd_powers_ne t) as (q & r & E & Eq). rewrite E. cbn [nd_index]. now rewrite Eq. Qed.
Lemma nd_index_length sizes ind : length (nd_index (nd_powers sizes) ind) = length sizes.
Proof. induction sizes as [|s t IH]; [reflexivity|]. rewrite nd_index_cons. cbn [length]. now rewrite IH. Qed.
Lemma total_pos sizes : List.Forall (fun s => (0 < s)%nat) sizes -> (0 < nd_total sizes)%nat.
Proof. rewrite nd_total_prod. induction 1; cbn; [lia|nia]. Qed.
Lemma nd_index_shift t : List.Forall (fun s => (0 < s)%nat) t -> forall i j, nd_index (nd_powers t) (i * nd_total t + j) = nd_index (nd_powers t) j.
Proof.
  induction t as [|s t IH]; intros P i j; [reflexivity|]. inversion P; subst. pose proof (total_pos t H2). rewrite !nd_index_cons. f_equal.
  - f_equal. rewrite (nd_total_prod (s :: t)). cbn [fold_right]. rewrite <- nd_total_prod. rewrite Nat.add_comm. apply Nat.mod_add. nia.
  - rewrite <- (IH H2 (i * s)%nat j). f_equal. rewrite (nd_total_prod (s :: t)). cbn [fold_right]. rewrite <- nd_total_prod. ring.
Qed.
Lemma nd_index_split s t i j : List.Forall (fun s => (0 < s)%nat) (s :: t) -> (i < s)%nat -> (j < nd_total t)%nat ->
  nd_index (nd_powers (s :: t)) (i * nd_total t + j) = i :: nd_index (nd_powers t) j.
Proof.
  intros P Hi Hj. inversion P; subst. rewrite nd_index_cons, (nd_index_shift t H2). f_equal.
  rewrite Nat.mod_small by nia. rewrite Nat.div_add_l by lia. rewrite Nat.div_small by lia. lia.
Qed.
Lemma nd_index_value sizes ind : List.Forall (fun s => (0 < s)%nat) sizes -> (ind < nd_total sizes)%nat ->
  Forall2 (fun i s => (i < s)%nat) (nd_index (nd_powers sizes) ind) sizes /\ mixed_radix sizes (nd_index (nd_powers sizes) ind) = ind.
Proof.
  revert ind. induction sizes as [|s t IH]; intros ind P H.
  - cbn in *. split; [constructor|lia].
  - inversion P; subst. pose proof (total_pos t H3) as T. set (N := nd_total t) in *. rewrite nd_total_prod in H. cbn [fold_right] in H. rewrite <- nd_total_prod in H. fold N in H.
    assert (E : ind = (ind / N * N + ind mod N)%nat) by (rewrite Nat.mul_comm; apply Nat.div_mod; lia).
    assert (Hi : (ind / N < s)%nat) by (apply Nat.div_lt_upper_bound; lia). assert (Hj : (ind mod N < N)%nat) by (apply Nat.mod_upper_bound; lia).
    pose proof (nd_index_split s t _ _ P Hi Hj) as X. fold N in X. rewrite <- E in X. rewrite X. destruct (IH _ H3 Hj) as [A B]. split; [constructor; assumption|]. cbn [mixed_radix]. rewrite B, <- nd_total_prod. fold N. lia.
Qed.
Lemma mixed_radix_value sizes ix : Forall2 (fun i s => (i < s)%nat) ix sizes -> (mixed_radix sizes ix < nd_total sizes)%nat /\ nd_index (nd_powers sizes) (mixed_radix sizes ix) = ix.
Proof.
  intros H. assert (P : List.Forall (fun s => (0 < s)%nat) sizes) by (induction H; constructor; [lia|assumption]).
  induction H as [|i s is ss Hi HR IH]; [cbn; split; [lia|reflexivity]|]. inversion P; subst. destruct (IH H2) as [A B]. cbn [mixed_radix]. rewrite <- nd_total_prod. split.
  - rewrite (nd_total_prod (s :: ss)). cbn [fold_right]. rewrite <- nd_total_prod. nia.
  - rewrite (nd_index_split s ss _ _ P Hi A), B. reflexivity.
Qed.
(** the table built by repeat/tile *)
Lemma combine_block {A B} (a : A) (l : list B) : combine (repeat a (length l)) l = map (fun b => (a, b)) l.
Proof. induction l; cbn; [reflexivity|]. now rewrite IHl. Qed.
Lemma combine_app_eq {A B} (l1 l2 : list A) (m1 m2 : list B) : length l1 = length m1 -> combine (l1 ++ l2) (m1 ++ m2) = combine l1 m1 ++ combine l2 m2.
Proof. revert m1. induction l1; intros [|b m1] H; cbn in *; try discriminate; [reflexivity|]. f_equal. apply IHl1. lia. Qed.
Lemma combine_rep_tile {A B} (t : list A) (cols : list B) : combine (np_repeat t (length cols)) (np_tile cols (length t)) = flat_map (fun a => map (fun b => (a, b)) cols) t.
Proof.
  unfold np_repeat, np_tile. induction t as [|a t IH]; [reflexivity|]. cbn [flat_map length repeat concat].
  rewrite combine_app_eq by (now rewrite repeat_length). rewrite combine_block, IH. reflexivity.
Qed.
Lemma nd_table_cons t ts : ts <> [] -> nd_table (t :: ts) = flat_map (fun zw => map (fun c => (fst zw :: fst c, snd zw * snd c)) (nd_table ts)) t.
Proof.
  intros N. destruct ts as [|u us]; [congruence|]. cbn [nd_table]. cbv zeta. set (cols := match us with [] => _ | _ => _ end). rewrite combine_rep_tile.
  clear. induction t as [|a t IH]; [reflexivity|]. cbn [flat_map]. rewrite map_app, IH, map_map. reflexivity.
Qed.
Lemma flat_map_const_length {A B} (f : A -> list B) n l : (forall a, length (f a) = n) -> length (flat_map f l) = (length l * n)%nat.
Proof. intros H. induction l; cbn; [reflexivity|]. rewrite app_length, H, IHl. reflexivity. Qed.
Lemma nd_table_length tabs : tabs <> [] -> length (nd_table tabs) = nd_total (map (@length _) tabs).
Proof.
  rewrite nd_total_prod. induction tabs as [|t ts IH]; intros N; [congruence|]. destruct ts as [|u us].
  - cbn. rewrite map_length. lia.
  - rewrite nd_table_cons by discriminate. rewrite (flat_map_const_length _ (length (nd_table (u :: us)))) by (intros; now rewrite map_length). rewrite IH by discriminate. reflexivity.
Qed.
Lemma nth_flat_map {A B} (f : A -> list B) (n : nat) (l : list A) (da : A) (db : B) i j : (forall a, length (f a) = n) -> (i < length l)%nat -> (j < n)%nat ->
  nth (i * n + j) (flat_map f l) db = nth j (f (nth i l da)) db.
Proof.
  intros H. revert i. induction l as [|a l IH]; intros i Hi Hj; cbn in Hi; [lia|]. cbn [flat_map]. destruct i.
  - rewrite app_nth1 by (rewrite H; lia). reflexivity.
  - rewrite app_nth2 by (rewrite H; lia). rewrite H. replace (S i * n + j - n)%nat with (i * n + j)%nat by lia. cbn [nth]. apply IH; lia.
Qed.
Lemma nd_table_nth tabs ind d : tabs <> [] -> List.Forall (fun t => t <> []) tabs -> (ind < nd_total (map (@length _) tabs))%nat -> nth ind (nd_table tabs) d = nd_at tabs ind.
Proof.
  revert ind. induction tabs as [|t ts IH]; intros ind N P H; [congruence|]. unfold nd_at. cbn [map].
  assert (PS : List.Forall (fun s => (0 < s)%nat) (map (@length _) (t :: ts))).
  { clear -P. induction P; constructor; [destruct x; cbn; [congruence|lia]|assumption]. }
  inversion P; subst. destruct ts as [|u us].
  - cbn [map nd_table]. cbn [map] in H. rewrite nd_total_prod in H. cbn [fold_right] in H.
    rewrite nd_index_cons. replace (nd_total []) with 1%nat by reflexivity. rewrite Nat.div_1_r, Nat.mod_small by lia. cbn [nd_pick].
    rewrite (nth_indep _ d ((fun zw : R * R => ([fst zw], snd zw)) (0, 0))) by (rewrite map_length; lia). rewrite (map_nth (fun zw : R * R => ([fst zw], snd zw))). f_equal. ring.
  - set (N' := nd_total (map (@length _) (u :: us))). pose proof (nd_table_length (u :: us) ltac:(discriminate)) as L. fold N' in L.
    assert (NP : (0 < N')%nat) by (apply total_pos; now inversion PS).
    rewrite nd_total_prod in H. cbn [map fold_right] in H. change (length u * fold_right Nat.mul 1 (map (@length _) us))%nat with (fold_right Nat.mul 1%nat (map (@length (R * R)) (u :: us))) in H. rewrite <- nd_total_prod in H. fold N' in H.
    assert (E : ind = (ind / N' * N' + ind mod N')%nat) by (rewrite Nat.mul_comm; apply Nat.div_mod; lia).
    assert (Hi : (ind / N' < length t)%nat) by (apply Nat.div_lt_upper_bound; lia). assert (Hj : (ind mod N' < N')%nat) by (apply Nat.mod_upper_bound; lia).
    set (i := (ind / N')%nat) in *. set (j := (ind mod N')%nat) in *. clearbody i j. subst ind. cbn [map] in PS.
    change (length u :: map (@length _) us) with (map (@length (R * R)) (u :: us)) in *. pose proof (nd_index_split (length t) _ i j PS Hi Hj) as X. fold N' in X. cbn [map] in X |- *. rewrite X. clear X.
    rewrite nd_table_cons by discriminate. rewrite (nth_flat_map _ N' t (0, 0)); [|intros; now rewrite map_length|exact Hi|exact Hj].
    rewrite (nth_indep _ d ((fun c => (fst (nth i t (0, 0)) :: fst c, snd (nth i t (0, 0)) * snd c)) d)) by (rewrite map_length; lia). rewrite (map_nth (fun c => (fst (nth i t (0, 0)) :: fst c, snd (nth i t (0, 0)) * snd c))).
    rewrite (IH j ltac:(discriminate) H3 Hj). change (length u :: map (@length (R * R)) us) with (map (@length (R * R)) (u :: us)).
    change (nd_pick (t :: u :: us) (i :: nd_index (nd_powers (map (@length _) (u :: us))) j)) with (let '(zs, w) := nd_at (u :: us) j in (fst (nth i t (0, 0)) :: zs, snd (nth i t (0, 0)) * w)).
    destruct (nd_at (u :: us) j) as [zs w]. reflexivity.
Qed.
(** sums over the table *)
Lemma nd_table_sum tabs F : tabs <> [] -> lsum (map (fun p => snd p * F (fst p)) (nd_table tabs)) = tensor_sum tabs F.
Proof.
  revert F. induction tabs as [|t ts IH]; intros F N; [congruence|]. destruct ts as [|u us].
  - cbn [nd_table tensor_sum]. rewrite map_map. reflexivity.
  - rewrite nd_table_cons by discriminate. change (tensor_sum (t :: u :: us) F) with (rule_sum (fun z => tensor_sum (u :: us) (fun zs => F (z :: zs))) t).
    set (cols := nd_table (u :: us)) in *. induction t as [|[z w] t IHt]; [reflexivity|]. cbn [flat_map]. rewrite map_app, lsum_app.
    rewrite IHt by discriminate. change (rule_sum (fun z0 => tensor_sum (u :: us) (fun zs => F (z0 :: zs))) ((z, w) :: t)) with (w * tensor_sum (u :: us) (fun zs => F (z :: zs)) + rule_sum (fun z0 => tensor_sum (u :: us) (fun zs => F (z0 :: zs))) t).
    f_equal. rewrite map_map. cbn [fst snd]. rewrite <- (IH (fun zs => F (z :: zs))) by discriminate. rewrite <- lsum_map_scal. apply lsum_map_ext. intros [zs v] _. cbn [fst snd]. ring.
Qed.
(** products and Gaussian moments *)
Fixpoint prod_at (fs : list (R -> R)) (zs : list R) : R := match fs, zs with f :: fs, z :: zs => f z * prod_at fs zs | _, _ => 1 end.
Lemma tensor_prod tabs fs : length fs = length tabs -> tensor_sum tabs (prod_at fs) = fold_right Rmult 1 (map (fun p => rule_sum (fst p) (snd p)) (combine fs tabs)).
Proof.
  revert fs. induction tabs as [|t ts IH]; intros [|f fs] H; cbn in H; try discriminate; [reflexivity|]. cbn [tensor_sum prod_at combine map fold_right fst snd].
  rewrite <- (IH fs) by lia. rewrite (rule_sum_ext _ (fun z => tensor_sum ts (prod_at fs) * f z)).
  - rewrite (rule_sum_scal (tensor_sum ts (prod_at fs)) f). ring.
  - intros z. clear. set (k := f z). clearbody k. rewrite Rmult_comm.
    assert (G : forall l F, tensor_sum l (fun zs => k * F zs) = k * tensor_sum l F).
    { induction l as [|a l IHl]; intros F; [reflexivity|]. cbn [tensor_sum]. rewrite <- rule_sum_scal. apply rule_sum_ext. intros. apply IHl. }
    apply G.
Qed.
Lemma hermite_moment n zw k : hermite_rule n zw -> rule_sum (fun _ => 1) zw = 1 -> (k <= 2 * n - 1)%nat -> gauss_expect (fun z => z ^ k) (rule_sum (fun z => z ^ k) zw).
Proof.
  intros (P & S & H) M Hk. destruct (Nat.Even_or_Odd k) as [[j ->]|[j ->]].
  - rewrite H, M, Rmult_1_r by lia. apply gauss_even_moment.
  - assert (Z : rule_sum (fun z => z ^ (2 * j + 1)) zw = 0).
    { pose proof (S (fun z => z ^ (2 * j + 1))) as E. rewrite (rule_sum_ext _ (fun z => (-1) * z ^ (2 * j + 1))) in E.
      - rewrite (rule_sum_scal (-1) (fun z => z ^ (2 * j + 1))) in E. lra.
      - intros z. rewrite !pow_add, !pow_mult. replace ((- z) ^ 2) with (z ^ 2) by ring. ring. }
    rewrite Z. apply gauss_sym. { intros x. apply ex_derive_continuous_R. auto_derive. trivial. }
    eapply gauss_expect_ext; [|apply (gauss_expect_const 0)]. intros z. cbv beta. rewrite !pow_add, !pow_mult. replace ((- z) ^ 2) with (z ^ 2) by ring. cbn [pow]. field.
Qed.
Lemma ghq_rule zw loc scale f : rule_sum (fun _ => 1) zw <> 0 -> rule_sum f (ghq zw loc scale) = rule_sum (fun z => f (scale * z + loc)) zw / rule_sum (fun _ => 1) zw.
Proof.
  intros _. unfold ghq. cbv zeta. rewrite rule_sum_one. unfold rule_sum. rewrite map_map. cbn [fst snd]. unfold Rdiv. rewrite Rmult_comm, <- lsum_map_scal. apply lsum_map_ext. intros. ring.
Qed.
Lemma ghq_moment n zw loc scale k : hermite_rule n zw -> (k <= 2 * n - 1)%nat ->
  gauss_expect (fun z => (loc + scale * z) ^ k) (rule_sum (fun x => x ^ k) (ghq zw loc scale)).
Proof.
  intros HR Hk. pose proof (rule_sum_pos (fun _ => 1) zw (proj1 HR) ltac:(intros; lra)) as M. rewrite ghq_rule by lra. set (c := rule_sum (fun _ => 1) zw) in *.
  set (nz := map (fun p => (fst p, snd p * / c)) zw).
  assert (R1 : forall f, rule_sum f nz = rule_sum f zw / c). { intros f. unfold nz. rewrite (rule_sum_map (fun z => z) (fun _ => / c)). rewrite (rule_sum_scal (/ c) f). unfold Rdiv. apply Rmult_comm. }
  assert (HN : hermite_rule n nz).
  { destruct HR as ((NE & P) & S & H). split; [split|split].
    - unfold nz. destruct zw; [congruence|discriminate].
    - unfold nz. apply Forall_map. eapply Forall_impl; [|exact P]. intros a Ha. cbn. apply Rmult_lt_0_compat; [exact Ha|now apply Rinv_0_lt_compat].
    - intros f. rewrite (R1 (fun z => f (- z))), (R1 f), (S f). reflexivity.
    - intros j Hj. rewrite !R1, (H j Hj). fold c. unfold Rdiv. ring. }
  assert (M1 : rule_sum (fun _ => 1) nz = 1) by (rewrite R1; fold c; field; lra).
  rewrite <- (R1 (fun z => (scale * z + loc) ^ k)).
  (* binomial expansion *)
  assert (B : forall m f, (forall z, f z = sum_f_R0 (fun i => (Binomial.C k i * scale ^ i * loc ^ (k - i)) * z ^ i) m) -> (m <= k)%nat -> gauss_expect f (rule_sum f nz)).
  { induction m; intros f Hf Hm.
    - eapply gauss_expect_ext; [intros z; symmetry; apply Hf|]. rewrite (rule_sum_ext f _ nz Hf). cbn [sum_f_R0].
      rewrite (rule_sum_scal (Binomial.C k 0 * scale ^ 0 * loc ^ (k - 0)) (fun z => z ^ 0)). apply gauss_expect_scal. apply (hermite_moment n nz 0 HN M1). lia.
    - eapply gauss_expect_ext; [intros z; symmetry; apply Hf|]. rewrite (rule_sum_ext f _ nz Hf). cbn [sum_f_R0]. set (g := fun z => sum_f_R0 (fun i => Binomial.C k i * scale ^ i * loc ^ (k - i) * z ^ i) m).
      change (gauss_expect (fun z => g z + Binomial.C k (S m) * scale ^ S m * loc ^ (k - S m) * z ^ S m) (rule_sum (fun z => g z + Binomial.C k (S m) * scale ^ S m * loc ^ (k - S m) * z ^ S m) nz)).
      rewrite (rule_sum_plus g), (rule_sum_scal (Binomial.C k (S m) * scale ^ S m * loc ^ (k - S m)) (fun z => z ^ S m)). apply gauss_expect_plus.
      + apply IHm; [reflexivity|lia].
      + apply gauss_expect_scal. apply (hermite_moment n nz (S m) HN M1). lia. }
  eapply gauss_expect_ext; [|apply (B k (fun z => (scale * z + loc) ^ k)); [|lia]].
  - intros z. cbv beta. f_equal. ring.
  - intros z. rewrite binomial. apply sum_eq. intros i Hi. rewrite Rpow_mult_distr. ring.
Qed.
