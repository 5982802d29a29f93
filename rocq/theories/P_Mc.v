(** Proofs about the Monte-Carlo machinery (M_Mc.v). *)
From Coq Require Import Reals Lra Lia List ZArith Psatz.
From Coquelicot Require Import Coquelicot.
From Verif Require Import Base Gauss Sums P_Black Spec_Opt M_Opt M_Mgf M_Mc P_Bsm.
Import ListNotations.
Open Scope R_scope.

(** ** tobs *)
Lemma ceilZ_spec x : IZR (ceilZ x) - 1 < x <= IZR (ceilZ x).
Proof.
  unfold ceilZ. destruct (base_Int_part (- x)) as [A B]. rewrite opp_IZR. lra.
Qed.

Lemma tobs_split d T : 0 < d -> 0 < T ->
  exists (n : nat) (h : R), (1 <= n)%nat /\ 0 < h <= d /\ INR n * h = T /\ INR (n - 1) * d < T /\
    tobs (Some d) T = map (fun i => INR i * h) (seq 1 n).
Proof.
  intros Hd HT. unfold tobs. destruct (Rle_dec T d) as [H|H].
  - exists 1%nat, T. cbn. rewrite ?Rmult_1_l, ?Rmult_0_l. repeat split; try lra; try lia.
  - pose proof (ceilZ_spec (T / d)) as [A B].
    assert (P : 1 < T / d). { apply (Rmult_lt_reg_r d); [lra|]. unfold Rdiv. rewrite Rmult_assoc, Rinv_l by lra. lra. }
    set (c := ceilZ (T / d)) in *.
    assert (Hc : (1 < c)%Z). { apply lt_IZR. lra. }
    assert (En : INR (Z.to_nat c) = IZR c). { rewrite INR_IZR_INZ, Z2Nat.id by lia. reflexivity. }
    exists (Z.to_nat c), (T / IZR c). rewrite En.
    assert (Pc : 0 < IZR c) by (apply (IZR_lt 0); lia).
    assert (TE : T = T / d * d) by (field; lra).
    split; [lia|]. split.
    { split; [apply Rdiv_lt_0_compat; lra|]. apply (Rmult_le_reg_r (IZR c)); [lra|].
      replace (T / IZR c * IZR c) with T by (field; lra). rewrite TE, Rmult_comm. apply Rmult_le_compat_l; lra. }
    split; [field; lra|]. split.
    { rewrite minus_INR by lia. rewrite En. cbn [INR]. rewrite TE. apply Rmult_lt_compat_r; lra. }
    apply map_ext. intros i. field. lra.
Qed.

Lemma diff_grid h s n : diff_from (INR s * h) (map (fun i => INR i * h) (seq (S s) n)) = repeat h n.
Proof.
  revert s. induction n; intros s; [reflexivity|]. cbn [seq map diff_from repeat]. rewrite IHn. f_equal.
  rewrite S_INR. ring.
Qed.

Lemma last_grid h n d : (1 <= n)%nat -> last (map (fun i => INR i * h) (seq 1 n)) d = INR n * h.
Proof.
  intros H. destruct n; [lia|]. rewrite seq_S, map_app. cbn [map]. rewrite last_last. now rewrite Nat.add_comm, Nat.add_1_r.
Qed.

Lemma tobs_last dt T d0 : (forall d, dt = Some d -> 0 < d) -> 0 < T -> last (tobs dt T) d0 = T.
Proof.
  intros Hd HT. destruct dt as [d|]; [|reflexivity].
  destruct (tobs_split d T (Hd d eq_refl) HT) as (n & h & H1 & H2 & H3 & H4 & ->). now rewrite last_grid.
Qed.

Lemma tobs_diff d T : 0 < d -> 0 < T ->
  exists (n : nat) (h : R), (1 <= n)%nat /\ 0 < h <= d /\ INR n * h = T /\ diff_from 0 (tobs (Some d) T) = repeat h n.
Proof.
  intros Hd HT. destruct (tobs_split d T Hd HT) as (n & h & H1 & H2 & H3 & H4 & E).
  exists n, h. repeat split; try tauto. rewrite E. replace 0 with (INR 0 * h) by (cbn; ring). apply diff_grid.
Qed.

Lemma diff_from_sum x l d : l <> [] -> lsum (diff_from x l) = last l d - x.
Proof.
  revert x. induction l as [|y t IH]; intros x H; [easy|]. cbn [diff_from lsum fold_right].
  destruct t as [|z t]; [cbn; ring|]. change (fold_right Rplus 0 (diff_from y (z :: t))) with (lsum (diff_from y (z :: t))).
  rewrite IH by easy. change (last (y :: z :: t) d) with (last (z :: t) d). ring.
Qed.

(** ** antithetic draws *)
Lemma interleave_length f l : length (interleave f l) = (2 * length l)%nat.
Proof. unfold interleave. induction l; cbn; [reflexivity|]. cbn in IHl. rewrite IHl. lia. Qed.
Lemma interleave_nth f l i d : (i < length l)%nat ->
  nth (2 * i) (interleave f l) d = nth i l d /\ nth (2 * i + 1) (interleave f l) d = f (nth i l d).
Proof.
  revert i. induction l as [|x t IH]; intros i H; cbn in H; [lia|].
  destruct i; [cbn; split; reflexivity|].
  replace (2 * S i)%nat with (S (S (2 * i))) by lia. replace (S (S (2 * i)) + 1)%nat with (S (S (2 * i + 1))) by lia.
  cbn [interleave flat_map app nth]. apply IH. lia.
Qed.
Lemma draws_length z n : length (draws z n) = n.
Proof. unfold draws. now rewrite map_length, seq_length. Qed.
Lemma draws_nth z n i d : (i < n)%nat -> nth i (draws z n) d = z i.
Proof. intros H. unfold draws. rewrite (nth_indep _ d (z 0%nat)) by (now rewrite map_length, seq_length). rewrite map_nth, seq_nth by lia. f_equal. Qed.

Lemma half_even n : Nat.Even n -> (2 * (n / 2) = n)%nat.
Proof. intros [k ->]. replace (2 * k)%nat with (k * 2)%nat by lia. rewrite Nat.div_mul by lia. lia. Qed.
Lemma half_odd n : Nat.Odd n -> (2 * (n / 2) = n - 1)%nat.
Proof. intros [k ->]. replace (2 * k + 1)%nat with (1 + k * 2)%nat by lia. rewrite Nat.div_add by lia. cbn. lia. Qed.

Lemma rv_normal_length b n z : length (rv_normal b n z) = (if b then 2 * (n / 2) else n)%nat.
Proof. unfold rv_normal. destruct b; [rewrite interleave_length|]; now rewrite draws_length. Qed.
Lemma rv_uniform_length b n z : length (rv_uniform b n z) = (if b then 2 * (n / 2) else n)%nat.
Proof. unfold rv_uniform. destruct b; [rewrite interleave_length|]; now rewrite draws_length. Qed.

Lemma lsum_interleave_pow f (g : R -> R) l : lsum (map g (interleave f l)) = lsum (map (fun z => g z + g (f z)) l).
Proof. unfold interleave. induction l; [reflexivity|]. cbn [flat_map app map lsum fold_right]. unfold lsum in IHl. rewrite IHl. ring. Qed.

Lemma rv_normal_odd_fun (g : R -> R) n z : (forall x, g (- x) = - g x) -> lsum (map g (rv_normal true n z)) = 0.
Proof.
  intros H. unfold rv_normal. rewrite lsum_interleave_pow.
  rewrite (lsum_map_ext _ (fun _ => 0)). 2:{ intros a _. rewrite H. ring. } rewrite lsum_map_const. ring.
Qed.
Lemma rv_uniform_mean n u : (2 <= n)%nat -> lmean (rv_uniform true n u) = / 2.
Proof.
  intros H. unfold lmean. rewrite rv_uniform_length. unfold rv_uniform.
  assert (E : lsum (interleave (fun x => 1 - x) (draws u (n / 2))) = INR (n / 2)).
  { rewrite <- (map_id (interleave _ _)), lsum_interleave_pow.
    rewrite (lsum_map_ext _ (fun _ => 1)). 2:{ intros a _. cbv beta. lra. }
    rewrite lsum_map_const, draws_length. ring. }
  rewrite E, mult_INR. cbn [INR].
  assert (0 < INR (n / 2)). { apply lt_0_INR. apply Nat.div_str_pos. lia. } field. lra.
Qed.
Lemma rv_uniform_range n u b : (forall i, 0 <= u i <= 1) -> List.Forall (fun x => 0 <= x <= 1) (rv_uniform b n u).
Proof.
  intros H. apply Forall_forall. intros x. unfold rv_uniform. destruct b; unfold interleave, draws; intros Hx.
  - apply in_flat_map in Hx. destruct Hx as (y & Hy & Hx). apply in_map_iff in Hy. destruct Hy as (i & <- & _).
    pose proof (H i). cbn in Hx. destruct Hx as [<-|[<-|[]]]; lra.
  - apply in_map_iff in Hx. destruct Hx as (i & <- & _). apply H.
Qed.

(** ** _bm_incr *)
Lemma bm_row_length g nh j d : length (bm_row g nh j d) = (2 * nh)%nat.
Proof. unfold bm_row. rewrite app_length, !map_length, seq_length. lia. Qed.
Lemma bm_rows_length g nh j dts : length (concat (bm_rows g nh j dts)) = (length dts * (2 * nh))%nat.
Proof. revert j. induction dts; intros j; [reflexivity|]. cbn [bm_rows concat]. rewrite app_length, IHdts, bm_row_length. cbn [length]. lia. Qed.
Lemma diff_from_length x l : length (diff_from x l) = length l.
Proof. revert x. induction l; intros; cbn; auto. Qed.

Lemma chunks_rows n rows : (0 < n)%nat -> List.Forall (fun r => length r = n) rows -> chunks (length rows) n (concat rows) = rows.
Proof.
  intros Hn. induction rows as [|r t IH]; intros H; [reflexivity|]. inversion H; subst. cbn [length chunks concat].
  destruct (r ++ concat t) eqn:E. { apply (f_equal (@length R)) in E. rewrite app_length in E. cbn in E. lia. }
  rewrite <- E. rewrite firstn_app, firstn_all, Nat.sub_diag, firstn_O, app_nil_r. f_equal.
  rewrite skipn_app, skipn_all, Nat.sub_diag. cbn [skipn app]. now apply IH.
Qed.
Lemma bm_rows_forall g nh j dts : List.Forall (fun r => length r = (2 * nh)%nat) (bm_rows g nh j dts).
Proof. revert j. induction dts; intros j; cbn; constructor; auto. apply bm_row_length. Qed.
Lemma bm_rows_len g nh j dts : length (bm_rows g nh j dts) = length dts.
Proof. revert j. induction dts; intros j; cbn; auto. Qed.

Lemma bm_incr_even n g tobs : Nat.Even n -> (0 < n)%nat ->
  bm_incr true n g tobs false = Some (bm_rows g (n / 2) 0 (diff_from 0 tobs)).
Proof.
  intros He Hn. unfold bm_incr, reshape. rewrite bm_rows_length, diff_from_length, half_even by exact He.
  replace (Nat.eqb n 0) with false by (symmetry; apply Nat.eqb_neq; lia).
  rewrite Nat.mod_mul, Nat.eqb_refl, Nat.div_mul by lia. f_equal.
  replace (length tobs) with (length (bm_rows g (n / 2) 0 (diff_from 0 tobs))) by (rewrite bm_rows_len; apply diff_from_length).
  apply chunks_rows; [exact Hn|].
  pose proof (bm_rows_forall g (n / 2) 0 (diff_from 0 tobs)) as F. rewrite half_even in F by exact He. exact F.
Qed.
Lemma bm_rows_nth g nh j dts k : (k < length dts)%nat ->
  nth k (bm_rows g nh j dts) [] = bm_row g nh (j + k) (nth k dts 0).
Proof.
  revert j k. induction dts as [|d t IH]; intros j k H; cbn in H; [lia|]. destruct k; cbn [bm_rows nth].
  - now rewrite Nat.add_0_r.
  - rewrite IH by lia. f_equal. lia.
Qed.
Lemma bm_row_nth g nh j d i : (i < nh)%nat ->
  nth i (bm_row g nh j d) 0 = g i j * sqrt d /\ nth (nh + i) (bm_row g nh j d) 0 = - (g i j * sqrt d).
Proof.
  intros H. unfold bm_row. set (r := map _ _).
  assert (L : length r = nh) by (unfold r; now rewrite map_length, seq_length).
  assert (N : nth i r 0 = g i j * sqrt d).
  { unfold r. rewrite (nth_indep _ 0 (g 0%nat j * sqrt d)) by (now rewrite map_length, seq_length).
    rewrite (map_nth (fun i => g i j * sqrt d)), seq_nth by lia. reflexivity. }
  split.
  - rewrite app_nth1 by lia. exact N.
  - rewrite app_nth2 by lia. rewrite L. replace (nh + i - nh)%nat with i by lia.
    rewrite <- Ropp_0, map_nth, N. reflexivity.
Qed.
Lemma bm_incr_none_mod n g tobs c : Nat.Odd n -> ~ Nat.divide n (length tobs) -> bm_incr true n g tobs c = None.
Proof.
  intros Ho Hd. unfold bm_incr, reshape. rewrite bm_rows_length, diff_from_length, half_odd by exact Ho.
  destruct (Nat.eqb_spec n 0); [reflexivity|].
  replace (Nat.eqb _ 0) with false; [reflexivity|]. symmetry. apply Nat.eqb_neq. intros E.
  apply Nat.mod_divide in E; [|lia].
  apply Hd. apply (Nat.gauss n (n - 1)).
  - now rewrite Nat.mul_comm.
  - apply Nat.bezout_1_gcd. exists 1%nat, 1%nat. lia.
Qed.

(** cumulative sums *)
Lemma zip_plus_nth a b i : length a = length b -> nth i (zip_plus a b) 0 = nth i a 0 + nth i b 0.
Proof.
  revert b i. induction a as [|x a IH]; intros [|y b] i H; cbn in H; try lia.
  - destruct i; cbn; ring.
  - destruct i; cbn; [reflexivity|]. apply IH. lia.
Qed.
Lemma zip_plus_length a b : length a = length b -> length (zip_plus a b) = length a.
Proof. revert b. induction a as [|x a IH]; intros [|y b] H; cbn in *; try lia. rewrite IH; lia. Qed.
Lemma cumsum_rows_nth n acc rows k i : length acc = n -> List.Forall (fun r => length r = n) rows -> (k < length rows)%nat ->
  nth i (nth k (cumsum_rows acc rows) []) 0 = nth i acc 0 + rsum (S k) (fun j => nth i (nth j rows []) 0).
Proof.
  revert acc k. induction rows as [|r t IH]; intros acc k Ha Hf Hk; cbn in Hk; [lia|]. inversion Hf; subst.
  cbn [cumsum_rows]. destruct k.
  - cbn [nth rsum]. rewrite zip_plus_nth by congruence. ring.
  - cbn [nth]. rewrite IH; [|now rewrite zip_plus_length by congruence|assumption|lia].
    rewrite (rsum_shift (S k)). cbn [nth]. rewrite zip_plus_nth by congruence. ring.
Qed.
Lemma cumsum_nth n rows k i : List.Forall (fun r => length r = n) rows -> (k < length rows)%nat ->
  nth i (nth k (cumsum rows) []) 0 = rsum (S k) (fun j => nth i (nth j rows []) 0).
Proof.
  intros Hf Hk. destruct rows as [|r t]; cbn in Hk; [lia|]. inversion Hf; subst. cbn [cumsum]. destruct k.
  - cbn. ring.
  - cbn [nth]. rewrite (cumsum_rows_nth (length r)) by (auto; lia). rewrite (rsum_shift (S k)). reflexivity.
Qed.
Lemma bm_incr_cum n g tobs k i : Nat.Even n -> (0 < n)%nat -> (k < length tobs)%nat ->
  match bm_incr true n g tobs true, bm_incr true n g tobs false with
  | Some c, Some r => length c = length tobs /\ nth i (nth k c []) 0 = rsum (S k) (fun j => nth i (nth j r []) 0)
  | _, _ => False end.
Proof.
  intros He Hn Hk. pose proof (bm_incr_even n g tobs He Hn) as E. rewrite E.
  unfold bm_incr in *. destruct (reshape _ _) as [rows|]; [|discriminate]. injection E as E. subst rows.
  split.
  - assert (L : forall acc rows, length (cumsum_rows acc rows) = length rows) by (intros acc rows; revert acc; induction rows; intros; cbn; auto).
    rewrite <- (diff_from_length 0 tobs), <- (bm_rows_len g (n/2) 0). destruct (bm_rows _ _ _ _); cbn; auto.
  - apply (cumsum_nth (2 * (n / 2))); [apply bm_rows_forall|]. now rewrite bm_rows_len, diff_from_length.
Qed.

(** ** conditional MC / mixture prices *)
Definition wsum (samples : list (R * R * R)) (h : R -> R -> R) : R := lsum (map (fun '(f, s, w) => h f s * w) samples).

Lemma mF_scale m c S T : mF m (c * S) T = c * mF m S T.
Proof. unfold mF, FWD. destruct (is_fwd m); ring. Qed.
Lemma mF_set m s S T : mF (set_sigma m s) S T = mF m S T. Proof. reflexivity. Qed.

Lemma wprice_parity m sg (fc : R -> R) samples K S T : S <> 0 ->
  S * lsum (map (fun '(f, s, w) => bsm_price (set_sigma m (sg * s)) (K / S) (fc f) T 1 * w) samples) -
  S * lsum (map (fun '(f, s, w) => bsm_price (set_sigma m (sg * s)) (K / S) (fc f) T (-1) * w) samples) =
  DF (intr m) T * (FWD (intr m) (divr m) (is_fwd m) S T * lsum (map (fun '(f, _, w) => fc f * w) samples) -
                   K * lsum (map (fun '(_, _, w) => w) samples)).
Proof.
  intros HS. rewrite <- Rmult_minus_distr_l, <- lsum_map_minus.
  rewrite (lsum_map_ext _ (fun x => DF (intr m) T * (mF m 1 T * (let '(f, _, w) := x in fc f * w) - K / S * (let '(_, _, w) := x in w)))).
  2:{ intros [[f s] w] _. rewrite <- Rmult_minus_distr_r, bsm_parity. cbn [intr divr is_fwd set_sigma].
      fold (mF m (fc f) T). replace (fc f) with (fc f * 1) at 1 by ring. rewrite mF_scale. ring. }
  rewrite lsum_map_scal, lsum_map_minus, !lsum_map_scal. fold (mF m S T).
  assert (EF : mF m S T = S * mF m 1 T) by (rewrite <- mF_scale; f_equal; ring). rewrite EF.
  set (A := lsum _). set (B := lsum _). field. exact HS.
Qed.

Lemma wprice_bounds m sg (fc : R -> R) samples K S T cp : 0 < S -> 0 < K -> call_or_put cp ->
  List.Forall (fun '(f, _, w) => 0 < fc f /\ 0 <= w) samples ->
  lsum (map (fun '(_, _, w) => w) samples) = 1 -> lsum (map (fun '(f, _, w) => fc f * w) samples) = 1 ->
  let P := S * lsum (map (fun '(f, s, w) => bsm_price (set_sigma m (sg * s)) (K / S) (fc f) T cp * w) samples) in
  DF (intr m) T * payoff cp K (FWD (intr m) (divr m) (is_fwd m) S T) <= P
  /\ P <= DF (intr m) T * (if Rlt_dec 0 cp then FWD (intr m) (divr m) (is_fwd m) S T else K).
Proof.
  intros HS HK Hcp Hall Hw Hf P.
  pose proof (exp_pos (- (intr m * T))) as HD. fold (DF (intr m) T) in HD. set (D := DF (intr m) T) in *.
  fold (mF m S T). assert (EF : mF m S T = S * mF m 1 T). { rewrite <- mF_scale. f_equal. ring. }
  rewrite Forall_forall in Hall.
  assert (HkS : 0 < K / S) by (apply Rdiv_lt_0_compat; lra).
  assert (lin : forall a b, S * lsum (map (fun '(f, s, w) => (a * (mF m 1 T * fc f) + b) * w) samples) = S * (a * mF m 1 T + b)).
  { intros a b. f_equal. rewrite (lsum_map_ext _ (fun x => a * mF m 1 T * (let '(f, _, w) := x in fc f * w) + b * (let '(_, _, w) := x in w))).
    2:{ intros [[f s] w] _. ring. } rewrite lsum_map_plus, !lsum_map_scal, Hw, Hf. ring. }
  assert (B : forall f s w, In (f, s, w) samples ->
      D * payoff cp (K / S) (mF m 1 T * fc f) < bsm_price (set_sigma m (sg * s)) (K / S) (fc f) T cp
      < D * (if Rlt_dec 0 cp then mF m 1 T * fc f else K / S)).
  { intros f s w Hi. specialize (Hall _ Hi). cbn in Hall.
    pose proof (bsm_bounds (set_sigma m (sg * s)) (K / S) (fc f) T cp Hcp HkS (proj1 Hall)) as Bb.
    cbn [intr divr is_fwd set_sigma] in Bb. fold (mF m (fc f) T) in Bb.
    replace (mF m (fc f) T) with (mF m 1 T * fc f) in Bb. 2:{ rewrite <- (Rmult_1_r (fc f)) at 2. rewrite mF_scale. ring. }
    exact Bb. }
  assert (LE : forall h, (forall f s w, In (f, s, w) samples -> h f s <= bsm_price (set_sigma m (sg * s)) (K / S) (fc f) T cp) ->
     S * lsum (map (fun '(f, s, w) => h f s * w) samples) <= P).
  { intros h Hh. apply Rmult_le_compat_l; [lra|]. apply lsum_map_le. intros [[f s] w] Hi.
    pose proof (Hall _ Hi) as [_ Hw0]. apply Rmult_le_compat_r; [exact Hw0|]. now apply (Hh f s w). }
  assert (GE : forall h, (forall f s w, In (f, s, w) samples -> bsm_price (set_sigma m (sg * s)) (K / S) (fc f) T cp <= h f s) ->
     P <= S * lsum (map (fun '(f, s, w) => h f s * w) samples)).
  { intros h Hh. apply Rmult_le_compat_l; [lra|]. apply lsum_map_le. intros [[f s] w] Hi.
    pose proof (Hall _ Hi) as [_ Hw0]. apply Rmult_le_compat_r; [exact Hw0|]. now apply (Hh f s w). }
  split.
  - unfold payoff. rewrite <- RmaxRmult by lra. apply Rmax_lub.
    + replace (D * (cp * (mF m S T - K))) with (S * (D * cp * mF m 1 T + - (D * cp * (K / S)))). 2:{ rewrite EF. field. lra. }
      rewrite <- lin. apply (LE (fun f s => D * cp * (mF m 1 T * fc f) + - (D * cp * (K / S)))). intros f s w Hi.
      destruct (B f s w Hi) as [B1 _]. eapply Rle_trans; [|left; exact B1]. unfold payoff.
      replace (D * cp * (mF m 1 T * fc f) + - (D * cp * (K / S))) with (D * (cp * (mF m 1 T * fc f - K / S))) by ring.
      apply Rmult_le_compat_l; [lra|]. apply Rmax_l.
    + replace (D * 0) with (S * (0 * mF m 1 T + 0)) by ring. rewrite <- lin.
      apply (LE (fun f s => 0 * (mF m 1 T * fc f) + 0)). intros f s w Hi.
      destruct (B f s w Hi) as [B1 _]. eapply Rle_trans; [|left; exact B1].
      replace (0 * (mF m 1 T * fc f) + 0) with (D * 0) by ring. apply Rmult_le_compat_l; [lra|]. apply Rmax_r.
  - destruct (Rlt_dec 0 cp).
    + replace (D * mF m S T) with (S * (D * mF m 1 T + 0)) by (rewrite EF; ring). rewrite <- lin.
      apply (GE (fun f s => D * (mF m 1 T * fc f) + 0)). intros f s w Hi. destruct (B f s w Hi) as [_ B1]. lra.
    + replace (D * K) with (S * (0 * mF m 1 T + D * (K / S))) by (field; lra). rewrite <- lin.
      apply (GE (fun f s => 0 * (mF m 1 T * fc f) + D * (K / S))). intros f s w Hi. destruct (B f s w Hi) as [_ B1]. lra.
Qed.

(** conditional MC = mixture with equal weights *)
Definition eqw (samples : list (R * R)) : list (R * R * R) := map (fun '(f, s) => (f, s, / INR (length samples))) samples.
Lemma eqw_sum (samples : list (R * R)) (h : R -> R -> R) :
  lsum (map (fun '(f, s, w) => h f s * w) (eqw samples)) = lmean (map (fun '(f, s) => h f s) samples).
Proof.
  unfold eqw, lmean. rewrite map_length. rewrite map_map. unfold Rdiv.
  rewrite (lsum_map_ext _ (fun x => / INR (length samples) * (let '(f, s) := x in h f s))). 2:{ intros [f s] _. ring. }
  rewrite lsum_map_scal. ring.
Qed.
Lemma eqw_mass samples : samples <> [] -> lsum (map (fun '(_, _, w) => w) (eqw samples)) = 1.
Proof.
  intros H. unfold eqw. rewrite map_map.
  rewrite (lsum_map_ext _ (fun _ => / INR (length samples))). 2:{ now intros [f s] _. }
  rewrite lsum_map_const. apply Rinv_r. apply not_0_INR. destruct samples; cbn; [easy|lia].
Qed.

Lemma lmean_fst_pos samples : samples <> [] -> List.Forall (fun x => 0 < fst x) samples -> 0 < lmean (map (@fst R R) samples).
Proof.
  intros H Ha. unfold lmean. apply Rdiv_lt_0_compat.
  - destruct Ha as [|x l Hx Hl]; [easy|]. cbn. apply Rplus_lt_le_0_compat; [exact Hx|].
    apply (lsum_map_nonneg (@fst R R) l). intros a Ha. rewrite Forall_forall in Hl. left. now apply Hl.
  - apply lt_0_INR. rewrite map_length. destruct samples; cbn; [easy|lia].
Qed.

Lemma cond_mc_as_eqw m c sg samples K S T cp :
  cond_mc_price m c sg samples K S T cp =
  S * lsum (map (fun '(f, s, w) => bsm_price (set_sigma m (sg * s)) (K / S) (if c then f / lmean (map fst samples) else f) T cp * w) (eqw samples)).
Proof.
  unfold cond_mc_price.
  rewrite (eqw_sum samples (fun f s => bsm_price (set_sigma m (sg * s)) (K / S) (if c then f / lmean (map fst samples) else f) T cp)).
  reflexivity.
Qed.
Lemma lmean_map_fst samples : lmean (map (fun '(f, s) => f) samples) = lmean (map (@fst R R) samples).
Proof. reflexivity. Qed.

Lemma cond_mc_parity m (c : bool) sg samples K S T : samples <> [] -> S <> 0 ->
  (c = true -> lmean (map fst samples) <> 0) ->
  cond_mc_price m c sg samples K S T 1 - cond_mc_price m c sg samples K S T (-1) =
  DF (intr m) T * (FWD (intr m) (divr m) (is_fwd m) S T * (if c then 1 else lmean (map fst samples)) - K).
Proof.
  intros Hn HS Hc. rewrite !cond_mc_as_eqw.
  rewrite (wprice_parity m sg (fun f => if c then f / lmean (map fst samples) else f) _ K S T HS), eqw_mass by exact Hn.
  rewrite (eqw_sum samples (fun f _ => if c then f / lmean (map fst samples) else f)).
  destruct c.
  - replace (lmean (map (fun '(f, _) => f / lmean (map fst samples)) samples)) with 1; [now rewrite !Rmult_1_r|].
    unfold lmean at 1. rewrite map_length.
    rewrite (lsum_map_ext _ (fun x => / lmean (map fst samples) * fst x)). 2:{ intros [f s] _. cbn. unfold Rdiv. ring. }
    rewrite lsum_map_scal. unfold lmean. unfold lmean in Hc. rewrite map_length in *. specialize (Hc eq_refl).
    assert (INR (length samples) <> 0). { apply not_0_INR. destruct samples; cbn; [easy|lia]. }
    assert (lsum (map fst samples) <> 0). { intros E. apply Hc. rewrite E. unfold Rdiv. ring. }
    field. auto.
  - now rewrite lmean_map_fst, Rmult_1_r.
Qed.

Lemma cond_mc_bounds m sg samples K S T cp : samples <> [] -> 0 < S -> 0 < K -> call_or_put cp ->
  List.Forall (fun x => 0 < fst x) samples ->
  let P := cond_mc_price m true sg samples K S T cp in
  DF (intr m) T * payoff cp K (FWD (intr m) (divr m) (is_fwd m) S T) <= P
  /\ P <= DF (intr m) T * (if Rlt_dec 0 cp then FWD (intr m) (divr m) (is_fwd m) S T else K).
Proof.
  intros Hn HS HK Hcp Ha P. unfold P. rewrite cond_mc_as_eqw. cbn [negb].
  pose proof (lmean_fst_pos samples Hn Ha) as Hm.
  apply (wprice_bounds m sg (fun f => f / lmean (map fst samples))); auto.
  - unfold eqw. apply Forall_forall. intros [[f s] w] Hi. apply in_map_iff in Hi. destruct Hi as ([f' s'] & E & Hi). injection E as -> -> <-.
    rewrite Forall_forall in Ha. specialize (Ha _ Hi). cbn in Ha. split; [apply Rdiv_lt_0_compat; lra|].
    left. apply Rinv_0_lt_compat, lt_0_INR. destruct samples; cbn; [easy|lia].
  - now apply eqw_mass.
  - rewrite (eqw_sum samples (fun f _ => f / lmean (map fst samples))).
    unfold lmean at 1. rewrite map_length.
    rewrite (lsum_map_ext _ (fun x => / lmean (map fst samples) * fst x)). 2:{ intros [f s] _. cbn. unfold Rdiv. ring. }
    rewrite lsum_map_scal. unfold lmean in *. rewrite map_length in *.
    assert (0 < INR (length samples)). { apply lt_0_INR. destruct samples; cbn; [easy|lia]. }
    assert (lsum (map fst samples) <> 0). { intros E. rewrite E in Hm. unfold Rdiv in Hm. rewrite Rmult_0_l in Hm. lra. }
    field. lra.
Qed.

Definition mix_mass (samples : list (R * R * R)) := lsum (map (fun '(_, _, w) => w) samples).
Definition mix_fwd (samples : list (R * R * R)) := lsum (map (fun '(f, _, w) => f * w) samples).

Lemma mixture_parity m (c : bool) sg samples K S T : S <> 0 -> (c = true -> mix_fwd samples <> 0) ->
  mixture_price m c sg samples K S T 1 - mixture_price m c sg samples K S T (-1) =
  DF (intr m) T * (FWD (intr m) (divr m) (is_fwd m) S T * (if c then 1 else mix_fwd samples) - K * mix_mass samples).
Proof.
  intros HS Hc. unfold mixture_price. fold (mix_fwd samples).
  rewrite (wprice_parity m sg (fun f => if c then f / mix_fwd samples else f) _ K S T HS). fold (mix_mass samples).
  destruct c; [|reflexivity]. replace (lsum _) with 1; [reflexivity|]. symmetry.
  rewrite (lsum_map_ext _ (fun x => / mix_fwd samples * (let '(f, _, w) := x in f * w))). 2:{ intros [[f s] w] _. unfold Rdiv. ring. }
  rewrite lsum_map_scal. fold (mix_fwd samples). apply Rinv_l. auto.
Qed.
Lemma mixture_bounds m sg samples K S T cp : 0 < S -> 0 < K -> call_or_put cp ->
  List.Forall (fun '(f, _, w) => 0 < f /\ 0 < w) samples -> mix_mass samples = 1 ->
  let P := mixture_price m true sg samples K S T cp in
  DF (intr m) T * payoff cp K (FWD (intr m) (divr m) (is_fwd m) S T) <= P
  /\ P <= DF (intr m) T * (if Rlt_dec 0 cp then FWD (intr m) (divr m) (is_fwd m) S T else K).
Proof.
  intros HS HK Hcp Ha Hm P. unfold P, mixture_price. fold (mix_fwd samples).
  assert (Hf : 0 < mix_fwd samples).
  { unfold mix_fwd. destruct Ha as [|[[f s] w] l Hx Hl]. { unfold mix_mass in Hm. cbn in Hm. lra. }
    cbn. apply Rplus_lt_le_0_compat; [apply Rmult_lt_0_compat; tauto|].
    apply (lsum_map_nonneg (fun '(f, _, w) => f * w)). intros [[f' s'] w'] Hi. rewrite Forall_forall in Hl. specialize (Hl _ Hi). cbn in Hl.
    apply Rmult_le_pos; lra. }
  apply (wprice_bounds m sg (fun f => f / mix_fwd samples)); auto.
  - eapply Forall_impl; [|exact Ha]. intros [[f s] w] [A B]. split; [apply Rdiv_lt_0_compat|]; lra.
  - rewrite (lsum_map_ext _ (fun x => / mix_fwd samples * (let '(f, _, w) := x in f * w))). 2:{ intros [[f s] w] _. unfold Rdiv. ring. }
    rewrite lsum_map_scal. fold (mix_fwd samples). apply Rinv_l. lra.
Qed.

(** VarGammaQuad / ExpNigQuad *)
Lemma subo_quad_parity m o nodes K S T : 0 < S ->
  lsum (map (fun '(x, w) => w * exp ((s_theta o + / 2 * s_sigma o ^ 2) * x)) nodes) <> 0 ->
  subo_quad_price m o nodes K S T 1 - subo_quad_price m o nodes K S T (-1) =
  DF (intr m) T * (FWD (intr m) (divr m) (is_fwd m) S T - K * lsum (map snd nodes)).
Proof.
  intros HS Hn. unfold subo_quad_price. rewrite fdd_eq. set (F := mF m S T). assert (HF : 0 < F) by now apply mF_pos.
  set (om := - T / s_nu o * s_corr o). set (ratio := fun x => exp (om + (s_theta o + / 2 * s_sigma o ^ 2) * x)).
  set (N := lsum (map (fun '(x, w) => w * exp (om + (s_theta o + / 2 * s_sigma o ^ 2) * x)) nodes)).
  assert (HN : N <> 0).
  { intros E. apply Hn. apply (Rmult_eq_reg_l (exp om)); [|pose proof (exp_pos om); lra]. rewrite Rmult_0_r, <- E.
    unfold N. rewrite <- lsum_map_scal. apply lsum_map_ext. intros [x w] _. rewrite exp_plus. ring. }
  rewrite <- Rmult_minus_distr_l, <- lsum_map_minus. fold (mD m T). f_equal.
  rewrite (lsum_map_ext _ (fun x => F / N * (let '(x, w) := x in w * ratio x) - K * snd x)).
  - rewrite lsum_map_minus, !lsum_map_scal. change (lsum (map (fun '(x, w) => w * ratio x) nodes)) with N.
    fold F. fold (mF m S T). fold F. field. exact HN.
  - intros [x w] _. cbn [snd]. rewrite <- !Rmult_minus_distr_l.
    change (bsm_price_formula (K / F) (exp (om + (s_theta o + / 2 * s_sigma o ^ 2) * x) / N) (s_sigma o * sqrt (x / T)) T 1 0 0 false)
      with (bsm_price (mkOpt (s_sigma o * sqrt (x / T)) 0 0 false) (K / F) (ratio x / N) T 1).
    change (bsm_price_formula (K / F) (exp (om + (s_theta o + / 2 * s_sigma o ^ 2) * x) / N) (s_sigma o * sqrt (x / T)) T (-1) 0 0 false)
      with (bsm_price (mkOpt (s_sigma o * sqrt (x / T)) 0 0 false) (K / F) (ratio x / N) T (-1)).
    rewrite bsm_parity. unfold DF, FWD. cbn [intr divr is_fwd].
    replace (- (0 * T)) with 0 by ring. replace ((0 - 0) * T) with 0 by ring. rewrite exp_0. field. split; [exact HN || lra|exact HN || lra].
Qed.

(** ** Heston conditional spot/sigma against the stepwise simulation *)
Lemma hmc_loop_sum m p step i dts var acc corr :
  let '(v, a, c) := hmc_loop step i dts var acc corr in
  let '(M, V, C) := hmc_sum m p step i dts var in
  M = v_rho p / v_vov p * ((v - var) + v_mr p * ((a - acc) - v_theta p * lsum dts)) + (intr m - divr m) * lsum dts - / 2 * (a - acc)
  /\ V = (1 - v_rho p ^ 2) * (a - acc) /\ C = c - corr.
Proof.
  revert i var acc corr. induction dts as [|d t IH]; intros i var acc corr.
  - cbn. repeat split; ring.
  - cbn [hmc_loop hmc_sum]. destruct (step i d var) as [[v a] c].
    specialize (IH (S i) v (acc + a * d) (corr + c)).
    destruct (hmc_loop step (S i) t v (acc + a * d) (corr + c)) as [[v2 a2] c2].
    destruct (hmc_sum m p step (S i) t v) as [[M V] C]. destruct IH as (-> & -> & ->).
    cbn [lsum fold_right]. unfold hmc_ln_m, hmc_ln_var. unfold lsum. repeat split; ring.
Qed.

Lemma hmc_consistent m p step dts T v0 : 0 < v0 -> T <> 0 -> lsum dts = T -> v_vov p <> 0 ->
  let '(sc, sg) := hmc_cond_spot_sigma p step dts T v0 in
  let '(M, V, C) := hmc_sum m p step 0 dts v0 in
  ln sc + (intr m - divr m) * T = M + / 2 * V + C /\
  (0 <= V / T -> v0 * sg ^ 2 * T = V).
Proof.
  intros H0 HT HL Hv. unfold hmc_cond_spot_sigma. pose proof (hmc_loop_sum m p step 0 dts v0 0 0) as HS.
  destruct (hmc_loop step 0 dts v0 0 0) as [[v a] c]. destruct (hmc_sum m p step 0 dts v0) as [[M V] C].
  destruct HS as (EM & EV & EC). rewrite ln_exp. split.
  - rewrite EM, EV, EC, HL. field. auto.
  - intros HV. rewrite pow2_sqrt.
    + rewrite EV. field. lra.
    + replace ((1 - v_rho p ^ 2) / v0 * (a / T)) with (V / T / v0). 2:{ rewrite EV. field. lra. }
      apply Rmult_le_pos; [exact HV|]. left. now apply Rinv_0_lt_compat.
Qed.
