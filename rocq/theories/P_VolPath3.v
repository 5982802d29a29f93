(** Joint law of the simulated volatility path; Simpson averages; the conditional SABR forward. *)
From Coq Require Import Reals Lra Lia List.
From Coquelicot Require Import Coquelicot.
From Verif Require Import Base Sums M_Opt M_Mgf M_Ou M_Sabr M_Mc M_Fd M_VolPath Spec_VolPath P_VolPath P_VolPath2.
Import ListNotations.
Open Scope R_scope.

Definition bmA (t0 : R) (us : list R) (i k : nat) : R := if Nat.leb k i then sqrt (nth k (diff_from t0 us) 0) else 0.
Lemma bmf_nth : forall us zs t0 b i, length zs = length us -> (i < length us)%nat ->
  nth i (bmf t0 b us zs) 0 = b + rsum (length us) (fun k => bmA t0 us i k * nth k zs 0).
Proof.
  induction us as [|u us IH]; intros zs t0 b i L Hi; [cbn in Hi; lia|]. destruct zs as [|z zs]; [discriminate|]. injection L as L. rewrite bmf_cons.
  change (length (u :: us)) with (S (length us)) in *. rewrite rsum_shift. change (nth 0 (z :: zs) 0) with z.
  replace (bmA t0 (u :: us) i 0) with (sqrt (u - t0)) by reflexivity.
  destruct i as [|i].
  - cbn [nth]. rewrite rsum_eq0 by (intros k _; unfold bmA; cbn [Nat.leb]; ring). ring.
  - cbn [nth]. rewrite IH by (try assumption; lia). rewrite (Rmult_comm (sqrt _) z), <- Rplus_assoc. f_equal.
Qed.
Lemma grid_nth : forall us t0 i, grid_from t0 us -> (i < length us)%nat -> t0 <= nth i us 0.
Proof.
  induction us as [|u us IH]; intros t0 i H Hi; [cbn in Hi; lia|]. destruct H as [A B]. destruct i as [|i]; [exact A|]. cbn [nth]. cbn in Hi.
  specialize (IH u i B ltac:(lia)). lra.
Qed.
Lemma grid_mono : forall us t0 i j, grid_from t0 us -> (i <= j)%nat -> (j < length us)%nat -> nth i us 0 <= nth j us 0.
Proof.
  induction us as [|u us IH]; intros t0 i j H Hij Hj; [cbn in Hj; lia|]. destruct H as [A B]. cbn in Hj. destruct i as [|i], j as [|j]; try lia; cbn [nth]; [lra| |].
  - apply grid_nth; [exact B|lia].
  - apply (IH u i j B); lia.
Qed.
Lemma bm_cov : forall us t0 i j, grid_from t0 us -> (i <= j)%nat -> (j < length us)%nat -> rsum (length us) (fun k => bmA t0 us i k * bmA t0 us j k) = nth i us 0 - t0.
Proof.
  induction us as [|u us IH]; intros t0 i j H Hij Hj; [cbn in Hj; lia|]. destruct H as [A B]. change (length (u :: us)) with (S (length us)) in *. rewrite rsum_shift.
  replace (bmA t0 (u :: us) i 0) with (sqrt (u - t0)) by reflexivity. replace (bmA t0 (u :: us) j 0) with (sqrt (u - t0)) by reflexivity. rewrite sqrt_sqrt by lra.
  destruct i as [|i].
  - rewrite rsum_eq0 by (intros k _; unfold bmA at 1; cbn [Nat.leb]; ring). cbn [nth]. ring.
  - destruct j as [|j]; [lia|]. cbn [nth]. specialize (IH u i j B ltac:(lia) ltac:(lia)).
    replace (rsum (length us) (fun k => bmA t0 (u :: us) (S i) (S k) * bmA t0 (u :: us) (S j) (S k))) with (rsum (length us) (fun k => bmA u us i k * bmA u us j k)) by reflexivity.
    rewrite IH. ring.
Qed.
Lemma bm_cov_min us t0 i j : grid_from t0 us -> (i < length us)%nat -> (j < length us)%nat -> rsum (length us) (fun k => bmA t0 us i k * bmA t0 us j k) = Rmin (nth i us 0) (nth j us 0) - t0.
Proof.
  intros G Hi Hj. destruct (Nat.le_ge_cases i j) as [L|L].
  - rewrite bm_cov by assumption. rewrite Rmin_left; [reflexivity|]. apply (grid_mono us t0); assumption.
  - rewrite (rsum_ext _ _ (fun k => bmA t0 us j k * bmA t0 us i k)) by (intros; ring). rewrite bm_cov by assumption. rewrite Rmin_right; [reflexivity|]. apply (grid_mono us t0); assumption.
Qed.
Lemma nth_map2 (f : R -> R -> R) : forall l m i, (i < length l)%nat -> (i < length m)%nat -> nth i (map2 f l m) 0 = f (nth i l 0) (nth i m 0).
Proof. induction l as [|a l IH]; intros [|b m] i H1 H2; cbn in H1, H2; try lia. rewrite map2_cons. destruct i; [reflexivity|]. cbn [nth]. apply IH; lia. Qed.
Lemma len_bmf : forall us zs t0 b, length zs = length us -> length (bmf t0 b us zs) = length us.
Proof. induction us as [|u us IH]; intros [|z zs] t0 b L; try discriminate; [reflexivity|]. injection L as L. rewrite bmf_cons. cbn [length]. rewrite IH by assumption. reflexivity. Qed.
Lemma nth_mapR (f : R -> R) l i : (i < length l)%nat -> nth i (map f l) 0 = f (nth i l 0).
Proof. intros H. rewrite (nth_indep _ 0 (f 0)) by (rewrite map_length; exact H). apply map_nth. Qed.
Lemma grid_image (f : R -> R) : (forall x y, x <= y -> f x <= f y) -> forall ts t0, grid_from t0 ts -> grid_from (f t0) (map f ts).
Proof. intros Hf. induction ts as [|t ts IH]; intros t0 H; [exact I|]. destruct H as [A B]. split; [apply Hf, A|apply IH, B]. Qed.
Lemma ou_law p ts : 0 < v_mr p -> grid_from 0 ts ->
  gauss_family (length ts) (fun i zs => nth (S i) (ou_vol_paths p ts zs) 0)
    (fun i => v_theta p + (v_sigma p - v_theta p) * exp (- v_mr p * nth i ts 0))
    (fun i j => v_vov p ^ 2 / (2 * v_mr p) * (exp (- v_mr p * Rabs (nth i ts 0 - nth j ts 0)) - exp (- v_mr p * (nth i ts 0 + nth j ts 0)))).
Proof.
  intros Hm G. set (mr := v_mr p) in *. set (f := fun t => exp (mr * t) ^ 2 - 1). set (us := map f ts).
  assert (Lu : length us = length ts) by (unfold us; apply map_length).
  assert (Hf : forall x y, x <= y -> f x <= f y).
  { intros x y H. unfold f. assert (A : exp (mr * x) <= exp (mr * y)) by (apply exp_le; apply Rmult_le_compat_l; lra). assert (0 < exp (mr * x)) by apply exp_pos. pose proof (pow_incr (exp (mr * x)) (exp (mr * y)) 2 ltac:(lra)). lra. }
  assert (GU : grid_from 0 us). { pose proof (grid_image f Hf ts 0 G) as X. replace (f 0) with 0 in X; [exact X|]. unfold f. rewrite Rmult_0_r, exp_0. ring. }
  assert (Hs : 0 < sqrt (2 * mr)) by (apply sqrt_lt_R0; lra).
  exists (fun i k => v_vov p / sqrt (2 * mr) * exp (- mr * nth i ts 0) * bmA 0 us i k). split.
  - intros i zs Hi L. unfold ou_vol_paths. cbv zeta. cbn [nth]. rewrite map_map. fold mr.
    change (bm_path (map (fun x => exp (mr * x) ^ 2 - 1) ts) zs) with (bmf 0 0 us zs).
    rewrite nth_map2 by (rewrite ?len_bmf, ?map_length; lia). rewrite bmf_nth by lia. rewrite nth_mapR by exact Hi. rewrite Lu.
    rewrite (rsum_ext (length ts) (fun k => v_vov p / sqrt (2 * mr) * exp (- mr * nth i ts 0) * bmA 0 us i k * nth k zs 0) (fun k => (v_vov p / sqrt (2 * mr) * exp (- mr * nth i ts 0)) * (bmA 0 us i k * nth k zs 0))) by (intros; ring).
    rewrite rsum_scal. set (Sm := rsum _ _). clearbody Sm. replace (- mr * nth i ts 0) with (- (mr * nth i ts 0)) by ring. rewrite exp_Ropp. field. split; first [apply Rgt_not_eq, exp_pos|lra].
  - intros i j Hi Hj.
    rewrite (rsum_ext _ _ (fun k => (v_vov p / sqrt (2 * mr) * exp (- mr * nth i ts 0) * (v_vov p / sqrt (2 * mr) * exp (- mr * nth j ts 0))) * (bmA 0 us i k * bmA 0 us j k))) by (intros; ring).
    rewrite rsum_scal. rewrite <- Lu. rewrite bm_cov_min by (try assumption; lia). unfold us. rewrite !nth_mapR by assumption. fold us.
    set (a := nth i ts 0). set (b := nth j ts 0).
    transitivity (v_vov p ^ 2 / (sqrt (2 * mr) * sqrt (2 * mr)) * (exp (- mr * a) * exp (- mr * b) * Rmin (f a) (f b))); [field; lra|].
    rewrite sqrt_sqrt by lra. f_equal. unfold f.
    assert (X : forall a b, a <= b -> exp (- mr * a) * exp (- mr * b) * (exp (mr * a) ^ 2 - 1) = exp (- mr * (b - a)) - exp (- mr * (a + b))).
    { intros u v _. replace (exp (- mr * (v - u))) with (exp (- mr * u) * exp (- mr * v) * (exp (mr * u) * exp (mr * u))) by (rewrite <- !exp_plus; f_equal; ring).
      replace (exp (- mr * (u + v))) with (exp (- mr * u) * exp (- mr * v)) by (rewrite <- exp_plus; f_equal; ring). ring. }
    destruct (Rle_lt_dec a b) as [H|H].
    + rewrite Rmin_left by (apply (Hf a b H)). rewrite X by exact H. rewrite Rabs_minus_sym, Rabs_right by lra. reflexivity.
    + rewrite Rmin_right by (apply (Hf b a); lra). rewrite (Rmult_comm (exp (- mr * a))), X by lra. rewrite Rabs_right by lra. f_equal; f_equal; ring.
Qed.
(** ** Simpson averages along the path *)
Lemma len_iterate step : forall ts zs t v, length zs = length ts -> length (iterate step t v ts zs) = length ts.
Proof. induction ts as [|t ts IH]; intros [|z zs] t0 v L; try discriminate; [reflexivity|]. injection L as L. cbn [iterate length]. cbv zeta. rewrite IH by assumption. reflexivity. Qed.
Lemma simps_avg_cubic a b c d n : (0 < n)%nat -> Nat.even n = true ->
  is_RInt (fun x => a + b * x + c * x ^ 2 + d * x ^ 3) 0 1 (simps (map (fun i => let x := INR i / INR n in a + b * x + c * x ^ 2 + d * x ^ 3) (seq 0 (S n))) / INR n).
Proof.
  intros Hn He. assert (N : 0 < INR n) by (apply lt_0_INR; exact Hn).
  assert (E : simps (map (fun i => let x := INR i / INR n in a + b * x + c * x ^ 2 + d * x ^ 3) (seq 0 (S n))) = INR n * (a + b / 2 + c / 3 + d / 4)).
  { unfold simps. rewrite map_length, seq_length. rewrite Nat.even_succ, <- Nat.negb_even, He. cbn [negb].
    apply Nat.even_spec in He. destruct He as [m Em].
    rewrite (map_ext _ (fun i => a + b / INR n * INR i + c / INR n ^ 2 * INR i ^ 2 + d / INR n ^ 3 * INR i ^ 3)) by (intros i; cbv zeta; field; lra).
    pose proof (simp13_cubic a (b / INR n) (c / INR n ^ 2) (d / INR n ^ 3) m 0) as S. cbv zeta in S. cbv beta in S. rewrite <- Em in S. rewrite S. rewrite Nat.add_0_l. change (INR 0) with 0. field. lra. }
  rewrite E. replace (INR n * (a + b / 2 + c / 3 + d / 4) / INR n) with ((a * 1 + b * 1 ^ 2 / 2 + c * 1 ^ 3 / 3 + d * 1 ^ 4 / 4) - (a * 0 + b * 0 ^ 2 / 2 + c * 0 ^ 3 / 3 + d * 0 ^ 4 / 4)) by (field; lra).
  apply (is_RInt_derive (V := R_CompleteNormedModule) (fun x => a * x + b * x ^ 2 / 2 + c * x ^ 3 / 3 + d * x ^ 4 / 4)).
  - intros x _. auto_derive; [exact I|]. Req. field.
  - intros x _. apply ex_derive_continuous_R. auto_derive. exact I.
Qed.
Lemma ou_full_facts p ts zs : 0 < v_mr p -> grid_from 0 ts -> ts <> [] -> length zs = length ts ->
  let path := v_sigma p :: iterate (ou_vol_step p true) 0 (v_sigma p) ts zs in
  let '(s, v, u) := ou_full p ts zs in
  s = last path 0 /\ u ^ 2 <= v /\ (forall lo hi, List.Forall (fun x => lo <= x <= hi) path -> lo <= u <= hi).
Proof.
  intros Hm G Hne L path. unfold ou_full. rewrite (ou_paths_steps p ts zs Hm G). fold path. cbv zeta.
  assert (Lp : length path = S (length ts)) by (unfold path; cbn [length]; rewrite len_iterate by assumption; reflexivity).
  assert (L2 : (2 <= length path)%nat) by (rewrite Lp; destruct ts; [easy|cbn; lia]).
  assert (I : INR (length ts) = INR (length path) - 1) by (rewrite Lp, S_INR; ring). rewrite I.
  split; [reflexivity|]. split; [apply simps_jensen; exact L2|]. intros lo hi H. apply simps_bounds; assumption.
Qed.
Lemma sabr_cond_volpath p mu T s0 ts zs F : T <> 0 -> let path := fst (sabr_vol_paths p mu ts zs) in let av := simps (map (fun x => x ^ 2) path) / INR (length ts) in
  sabr_alpha p F = s0 ->
  let '(f, v, w) := sabr_volpath_cond p mu T s0 ts zs in
  (f + (if isclose (b_beta p) 0 then 1 else 0), v) = sabr_cond_spot_sigma p T F (last path 0) (av * T) /\ w = snd (sabr_vol_paths p mu ts zs).
Proof.
  intros HT path av Ha. unfold sabr_volpath_cond, sabr_cond_spot_sigma. cbv zeta. fold path. fold av. rewrite Ha.
  replace (av * T / T) with av by (field; exact HT). split; [|reflexivity]. f_equal. destruct (isclose (b_beta p) 0); ring.
Qed.
(** all values of the simulated path are positive and its average variance too *)
Lemma sabr_path_pos p mu ts zs : List.Forall (fun x => 0 < x) (fst (sabr_vol_paths p mu ts zs)).
Proof. unfold sabr_vol_paths. cbv zeta. cbn [fst]. rewrite Forall_map. apply Forall_forall. intros. apply exp_pos. Qed.
