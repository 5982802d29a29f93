(** Volatility paths: step by step, law, change of measure. *)
From Coq Require Import Reals Lra Lia List.
From Coquelicot Require Import Coquelicot.
From Verif Require Import Base Sums M_Opt M_Mgf M_Ou M_Sabr M_Mc M_Fd M_VolPath Spec_VolPath P_VolPath.
Import ListNotations.
Open Scope R_scope.

Definition bmf (t0 b : R) (ts zs : list R) : list R := cum_from b (map2 (fun d z => z * sqrt d) (diff_from t0 ts) zs).
Lemma bmf_cons t0 b t ts z zs : bmf t0 b (t :: ts) (z :: zs) = (b + z * sqrt (t - t0)) :: bmf t (b + z * sqrt (t - t0)) ts zs.
Proof. reflexivity. Qed.
Lemma bmf_nil t0 b ts : bmf t0 b ts [] = [].
Proof. unfold bmf, map2. rewrite combine_nil. reflexivity. Qed.
Lemma map2_cons {A B C} (f : A -> B -> C) a l b m : map2 f (a :: l) (b :: m) = f a b :: map2 f l m.
Proof. reflexivity. Qed.
(** ** OU: the time-changed path is the exact step repeated *)
Lemma ou_bmf mr vov th x0 : 0 < mr -> forall ts zs t0 b, grid_from t0 ts -> let K := vov / sqrt (2 * mr) in
  map2 (fun b e => th + (x0 + K * b) / e) (bmf (exp (mr * t0) ^ 2 - 1) b (map (fun e => e ^ 2 - 1) (map (fun t => exp (mr * t)) ts)) zs) (map (fun t => exp (mr * t)) ts)
  = iterate (fun d v z => (v - th) * exp (- mr * d) + vov * sqrt ((1 - exp (- mr * d) ^ 2) / (2 * mr)) * z + th) t0 (th + (x0 + K * b) / exp (mr * t0)) ts zs.
Proof.
  intros Hm. induction ts as [|t ts IH]; intros zs t0 b H K; [reflexivity|]. destruct zs as [|z zs]; [unfold map; rewrite bmf_nil; reflexivity|].
  destruct H as [H0 H]. cbn [map]. rewrite bmf_cons, map2_cons. cbn [iterate].
  set (b' := b + z * sqrt (exp (mr * t) ^ 2 - 1 - (exp (mr * t0) ^ 2 - 1))).
  assert (E0 : 0 < exp (mr * t0)) by apply exp_pos. assert (E1 : 0 < exp (mr * t)) by apply exp_pos. assert (Hs : 0 < sqrt (2 * mr)) by (apply sqrt_lt_R0; lra).
  assert (ED : exp (- mr * (t - t0)) = exp (mr * t0) / exp (mr * t)).
  { replace (- mr * (t - t0)) with (mr * t0 + - (mr * t)) by ring. rewrite exp_plus, exp_Ropp. reflexivity. }
  assert (LE : exp (mr * t0) <= exp (mr * t)) by (apply exp_le; apply Rmult_le_compat_l; lra).
  assert (SQ : sqrt (exp (mr * t) ^ 2 - 1 - (exp (mr * t0) ^ 2 - 1)) = exp (mr * t) * (sqrt ((1 - exp (- mr * (t - t0)) ^ 2) / (2 * mr)) * sqrt (2 * mr))).
  { assert (0 <= 1 - exp (- mr * (t - t0)) ^ 2).
    { assert (exp (- mr * (t - t0)) <= 1) by (rewrite ED; apply Rle_div_l; lra). assert (0 < exp (- mr * (t - t0))) by apply exp_pos. nra. }
    rewrite <- sqrt_mult by (try lra; apply Rdiv_le_0_compat; lra).
    rewrite <- (sqrt_pow2 (exp (mr * t))) at 2 by lra. assert (P1 : 0 <= (1 - exp (- mr * (t - t0)) ^ 2) / (2 * mr) * (2 * mr)) by (apply Rmult_le_pos; [apply Rdiv_le_0_compat; lra|lra]).
    rewrite <- sqrt_mult; [|apply pow2_ge_0|exact P1]. f_equal. rewrite ED. field. lra. }
  assert (V : th + (x0 + K * b') / exp (mr * t) = (th + (x0 + K * b) / exp (mr * t0) - th) * exp (- mr * (t - t0)) + vov * sqrt ((1 - exp (- mr * (t - t0)) ^ 2) / (2 * mr)) * z + th).
  { unfold b'. rewrite SQ. set (r := sqrt ((1 - exp (- mr * (t - t0)) ^ 2) / (2 * mr))). clearbody r. rewrite ED. unfold K. set (q := sqrt (2 * mr)) in *. clearbody q. field. lra. }
  rewrite <- V. f_equal. apply IH. exact H.
Qed.
Lemma iterate_ext f g : (forall d v z, f d v z = g d v z) -> forall ts zs t v, iterate f t v ts zs = iterate g t v ts zs.
Proof. intros H. induction ts as [|t ts IH]; intros [|z zs] t0 v; cbn [iterate]; try reflexivity. cbv zeta. rewrite H, IH. reflexivity. Qed.
Lemma ou_paths_steps p ts zs : 0 < v_mr p -> grid_from 0 ts -> ou_vol_paths p ts zs = v_sigma p :: iterate (ou_vol_step p true) 0 (v_sigma p) ts zs.
Proof.
  intros Hm G. unfold ou_vol_paths. f_equal.
  rewrite (iterate_ext (ou_vol_step p true) (fun d v z => (v - v_theta p) * exp (- v_mr p * d) + v_vov p * sqrt ((1 - exp (- v_mr p * d) ^ 2) / (2 * v_mr p)) * z + v_theta p)) by (intros; reflexivity).
  pose proof (ou_bmf (v_mr p) (v_vov p) (v_theta p) (v_sigma p - v_theta p) Hm ts zs 0 0 G) as E. cbv zeta in E.
  rewrite Rmult_0_r, exp_0 in E. replace (1 ^ 2 - 1) with 0 in E by ring.
  replace (v_theta p + (v_sigma p - v_theta p + v_vov p / sqrt (2 * v_mr p) * 0) / 1) with (v_sigma p) in E by (rewrite Rmult_0_r; field). exact E.
Qed.
(** ** SABR: exact steps, and the change of measure *)
Lemma sabr_bmf vov T : 0 < T -> forall ts zs t0 b, grid_from t0 ts ->
  map exp (map2 (fun b s => vov * sqrt T * (b + (0 - / 2 * (vov * sqrt T)) * s)) (bmf (t0 / T) b (map (fun t => t / T) ts) zs) (map (fun t => t / T) ts))
  = iterate (fun d v z => v * exp (vov * sqrt d * (z - vov * sqrt d / 2))) t0 (exp (vov * sqrt T * (b + (0 - / 2 * (vov * sqrt T)) * (t0 / T)))) ts zs.
Proof.
  intros HT. induction ts as [|t ts IH]; intros zs t0 b H; [reflexivity|]. destruct zs as [|z zs]; [unfold map at 3; rewrite bmf_nil; reflexivity|].
  destruct H as [H0 H]. cbn [map]. rewrite bmf_cons, map2_cons. cbn [iterate map].
  set (b' := b + z * sqrt (t / T - t0 / T)).
  assert (SQ : sqrt T * sqrt (t / T - t0 / T) = sqrt (t - t0)).
  { rewrite <- sqrt_mult by (try lra; replace (t / T - t0 / T) with ((t - t0) / T) by (field; lra); apply Rdiv_le_0_compat; lra). f_equal. field. lra. }
  assert (V : exp (vov * sqrt T * (b' + (0 - / 2 * (vov * sqrt T)) * (t / T))) = exp (vov * sqrt T * (b + (0 - / 2 * (vov * sqrt T)) * (t0 / T))) * exp (vov * sqrt (t - t0) * (z - vov * sqrt (t - t0) / 2))).
  { rewrite <- exp_plus. f_equal. unfold b'.
    transitivity (vov * sqrt T * (b + (0 - / 2 * (vov * sqrt T)) * (t0 / T)) + (vov * z * (sqrt T * sqrt (t / T - t0 / T)) - vov ^ 2 * (sqrt T * sqrt T) * ((t - t0) / T) / 2)); [field; lra|].
    rewrite SQ, sqrt_sqrt by lra. replace (vov * sqrt (t - t0) * (z - vov * sqrt (t - t0) / 2)) with (vov * z * sqrt (t - t0) - vov ^ 2 * (sqrt (t - t0) * sqrt (t - t0)) / 2) by field.
    rewrite sqrt_sqrt by lra. field. lra. }
  rewrite <- V. f_equal. apply IH. exact H.
Qed.
Lemma last_default (l : list R) d d' : l <> [] -> last l d = last l d'.
Proof. induction l as [|a [|b r] IH]; intros H; [easy|reflexivity|]. cbn [last] in *. apply IH. discriminate. Qed.
Lemma last_cons (a : R) l d d' : l <> [] -> last (a :: l) d = last l d'.
Proof. intros H. rewrite <- (last_default l d d' H). destruct l; [easy|reflexivity]. Qed.
Lemma grid_last : forall ts t0, grid_from t0 ts -> t0 <= last ts t0.
Proof.
  induction ts as [|t ts IH]; intros t0 H; [cbn; lra|]. destruct H as [H0 H]. specialize (IH t H). destruct ts as [|u r]; [exact H0|].
  change (last (t :: u :: r) t0) with (last (u :: r) t0). rewrite (last_default (u :: r) t0 t) by discriminate. lra.
Qed.
Lemma sabr_paths_steps p ts zs : grid_from 0 ts -> 0 < last ts 0 ->
  sabr_vol_paths p 0 ts zs = (1 :: iterate (fun d v z => v * sabr_vol_step p d z) 0 1 ts zs, 0).
Proof.
  intros G HT. unfold sabr_vol_paths. cbv zeta. destruct (Req_EM_T 0 0) as [_|N]; [|easy]. f_equal. cbn [map]. rewrite exp_0. f_equal.
  pose proof (sabr_bmf (b_vov p) (last ts 0) HT ts zs 0 0 G) as E. replace (0 / last ts 0) with 0 in E by (field; lra).
  replace (b_vov p * sqrt (last ts 0) * (0 + (0 - / 2 * (b_vov p * sqrt (last ts 0))) * 0)) with 0 in E by ring. rewrite exp_0 in E. exact E.
Qed.
(** shifting the normals by mu sqrt(dt) *)
Definition shift (mu : R) (ds zs : list R) : list R := map2 (fun d z => z + mu * sqrt d) ds zs.
Lemma bmf_shift mu : forall ts zs t0 b c, grid_from t0 ts ->
  bmf t0 (b + mu * c) ts (shift mu (diff_from t0 ts) zs) = map2 (fun b s => b + mu * (s - t0 + c)) (bmf t0 b ts zs) ts.
Proof.
  induction ts as [|t ts IH]; intros zs t0 b c H; [reflexivity|]. destruct zs as [|z zs]; [unfold shift, map2; rewrite combine_nil; cbn [map]; rewrite !bmf_nil; reflexivity|].
  destruct H as [H0 H]. cbn [diff_from]. unfold shift. rewrite map2_cons. fold (shift mu (diff_from t ts) zs). rewrite !bmf_cons, map2_cons.
  assert (S : sqrt (t - t0) * sqrt (t - t0) = t - t0) by (apply sqrt_sqrt; lra).
  assert (E : b + mu * c + (z + mu * sqrt (t - t0)) * sqrt (t - t0) = b + z * sqrt (t - t0) + mu * (t - t0 + c)).
  { transitivity (b + mu * c + z * sqrt (t - t0) + mu * (sqrt (t - t0) * sqrt (t - t0))); [ring|]. rewrite S. ring. }
  rewrite E. f_equal. rewrite IH by exact H. unfold map2. apply map_ext. intros [x y]. cbn [fst snd]. ring.
Qed.
Lemma shift_weight mu : forall ts zs t0 b, grid_from t0 ts -> length zs = length ts -> 
  - / 2 * lsum (map (fun z => z ^ 2) (shift mu (diff_from t0 ts) zs)) = - / 2 * lsum (map (fun z => z ^ 2) zs) - mu * (last (bmf t0 b ts zs) b - b) - / 2 * mu ^ 2 * (last ts t0 - t0).
Proof.
  induction ts as [|t ts IH]; intros zs t0 b H L; destruct zs as [|z zs]; try discriminate; [cbn; ring|].
  destruct H as [H0 H]. injection L as L. cbn [diff_from]. unfold shift. rewrite map2_cons. fold (shift mu (diff_from t ts) zs). rewrite bmf_cons. cbn [map].
  specialize (IH zs t (b + z * sqrt (t - t0)) H L). set (b' := b + z * sqrt (t - t0)) in *.
  assert (LB : last (b' :: bmf t b' ts zs) b = last (bmf t b' ts zs) b').
  { destruct ts as [|u r]; destruct zs as [|y q]; try discriminate; [reflexivity|]. rewrite bmf_cons. apply last_cons. discriminate. }
  assert (LT : last (t :: ts) t0 = last ts t). { destruct ts as [|u r]; [reflexivity|]. apply last_cons. discriminate. }
  rewrite LB, LT. assert (LC : forall x l, lsum (x :: l) = x + lsum l) by reflexivity. rewrite !LC, !Rmult_plus_distr_l, IH.
  assert (S : sqrt (t - t0) * sqrt (t - t0) = t - t0) by (apply sqrt_sqrt; lra).
  replace ((z + mu * sqrt (t - t0)) ^ 2) with (z ^ 2 + 2 * mu * z * sqrt (t - t0) + mu ^ 2 * (sqrt (t - t0) * sqrt (t - t0))) by ring. rewrite S. unfold b'. field.
Qed.
Lemma grid_scale T : 0 < T -> forall ts t0, grid_from t0 ts -> grid_from (t0 / T) (map (fun t => t / T) ts).
Proof. intros HT. induction ts as [|t ts IH]; intros t0 H; [exact I|]. destruct H as [A B]. split; [|apply IH, B]. apply Rmult_le_compat_r; [left; apply Rinv_0_lt_compat, HT|exact A]. Qed.
Lemma map2_shift v mu : forall bs us, map2 (fun b s => v * (b + (mu - / 2 * v) * s)) bs us
  = map2 (fun b s => v * (b + (0 - / 2 * v) * s)) (map2 (fun b s => b + mu * (s - 0 + 0)) bs us) us.
Proof. induction bs as [|b bs IH]; intros [|u us]; try reflexivity. rewrite !map2_cons, IH. f_equal. ring. Qed.
Lemma sabr_measure p mu ts zs : grid_from 0 ts -> 0 < last ts 0 -> length zs = length ts ->
  let zs' := shift mu (map (fun d => d / last ts 0) (diff_from 0 ts)) zs in
  fst (sabr_vol_paths p mu ts zs) = fst (sabr_vol_paths p 0 ts zs') /\ exp (snd (sabr_vol_paths p mu ts zs)) * gauss_weight zs = gauss_weight zs'.
Proof.
  intros G HT L zs'. set (T := last ts 0) in *. set (us := map (fun t => t / T) ts).
  assert (GU : grid_from 0 us) by (replace 0 with (0 / T) by (field; lra); apply grid_scale; assumption).
  assert (D : map (fun d => d / T) (diff_from 0 ts) = diff_from 0 us).
  { assert (X : forall l x, map (fun d => d / T) (diff_from x l) = diff_from (x / T) (map (fun t => t / T) l)).
    { induction l as [|y l IH]; intros x; [reflexivity|]. cbn [diff_from map]. rewrite IH. f_equal. field. lra. }
    rewrite X. unfold us. f_equal. field. lra. }
  unfold zs'. rewrite D. pose proof (bmf_shift mu us zs 0 0 0 GU) as E. rewrite Rmult_0_r, Rplus_0_r in E.
  assert (Hne : ts <> []) by (intros ->; unfold T in HT; cbn in HT; lra).
  assert (LU : last us 0 = 1). { unfold us. rewrite (last_map (fun t => t / T)) by exact Hne. fold T. field. lra. }
  split.
  - unfold sabr_vol_paths. cbv zeta. fold T. fold us. cbn [fst]. f_equal. f_equal.
    change (bm_path us (shift mu (diff_from 0 us) zs)) with (bmf 0 0 us (shift mu (diff_from 0 us) zs)). rewrite E.
    change (bm_path us zs) with (bmf 0 0 us zs). apply map2_shift.
  - assert (W := shift_weight mu us zs 0 0 GU). unfold gauss_weight. rewrite W by (unfold us; rewrite map_length; exact L). rewrite LU.
    unfold sabr_vol_paths. cbv zeta. fold T. fold us. cbn [snd]. change (bm_path us zs) with (bmf 0 0 us zs).
    rewrite <- exp_plus. f_equal. destruct (Req_EM_T mu 0) as [->|N]; ring.
Qed.
