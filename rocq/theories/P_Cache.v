(** Proofs about M_Cache.v. *)
From Coq Require Import Reals List String Bool ZArith Lia Lra.
From Verif Require Import Base Spec_Opt M_Opt P_Bsm P_Black M_Cache.
Import ListNotations.
Open Scope R_scope.
Open Scope string_scope.

Section Pf.
Variable H : list string -> list R -> Z.
Variable compute : params -> R -> Z -> R -> R -> R.

Lemma key_eqb_eq k1 k2 : key_eqb k1 k2 = true <-> k1 = k2.
Proof.
  destruct k1 as [[[t1 h1] n1] x1], k2 as [[[t2 h2] n2] x2]. unfold key_eqb.
  destruct (Req_EM_T t1 t2), (Z.eqb_spec h1 h2), (Z.eqb_spec n1 n2), (Req_EM_T x1 x2); simpl; split; intros E;
    try discriminate; try (subst; reflexivity); injection E; intros; subst; contradiction.
Qed.
Lemma dict_get_In d k v : dict_get d k = Some v -> In (k, v) d.
Proof.
  induction d as [|[k' v'] t IH]; simpl; [discriminate|]. destruct (key_eqb k' k) eqn:E; [|auto].
  intros [= ->]. apply key_eqb_eq in E. subst. now left.
Qed.
Lemma set_nth_In {A} i (a : A) l x : In x (set_nth i a l) -> x = a \/ In x l.
Proof.
  revert i; induction l as [|b t IH]; intros [|i]; simpl; try tauto.
  - intros [->|Hx]; auto.
  - intros [->|Hx]; auto. destruct (IH _ Hx); auto.
Qed.

(** Every cache entry was computed for some recorded event. *)
Definition explained (ev : list event) (k : key) (f : R -> R) : Prop :=
  exists p t n x, k = (t, params_hash H p, n, x) /\ f = compute p t n x /\
    exists e, In e ev /\ e_params e = p /\ e_interp e = compute p t n x.
Definition heap_inv (hp : list dict) (seen : list params) : Prop :=
  forall d k f, In d hp -> In (k, f) d ->
    exists p t n x, k = (t, params_hash H p, n, x) /\ f = compute p t n x /\ In p seen.

Lemma step_inv w a seen : heap_inv (w_heap w) seen ->
  let '(w', e) := step H compute w a in heap_inv (w_heap w') (seen ++ map e_params e).
Proof.
  intros Hi. destruct a as [p|i n v|i n x|i|i t]; simpl; try (rewrite app_nil_r; exact Hi).
  - destruct (nth_error _ _); simpl; rewrite app_nil_r; exact Hi.
  - destruct (nth_error _ _); simpl; rewrite app_nil_r; exact Hi.
  - destruct (nth_error _ _); simpl; rewrite app_nil_r; exact Hi.
  - destruct (nth_error _ _) as [o|]; [|simpl; rewrite app_nil_r; exact Hi].
    unfold fft_interp. destruct (o_cache o) as [r|].
    + destruct (dict_get _ _) as [sp|] eqn:E; simpl.
      * intros d k f Hd Hk. destruct (Hi d k f Hd Hk) as (p & t' & n & x & ? & ? & ?).
        exists p, t', n, x. rewrite in_app_iff. auto.
      * intros d k f Hd Hk. apply set_nth_In in Hd. destruct Hd as [->|Hd].
        -- destruct Hk as [Hk|Hk].
           ++ injection Hk as <- <-. exists (o_params o), t, (o_nx o), (o_xlim o). rewrite in_app_iff. simpl. auto.
           ++ destruct (le_lt_dec (List.length (w_heap w)) r) as [Hr|Hr].
              ** rewrite nth_overflow in Hk by exact Hr. destruct Hk.
              ** destruct (Hi _ k f (nth_In _ _ Hr) Hk) as (p & t' & n & x & ? & ? & ?).
                 exists p, t', n, x. rewrite in_app_iff. auto.
        -- destruct (Hi d k f Hd Hk) as (p & t' & n & x & ? & ? & ?). exists p, t', n, x. rewrite in_app_iff. auto.
    + simpl. intros d k f Hd Hk. apply in_app_iff in Hd. destruct Hd as [Hd|[<-|[]]].
      * destruct (Hi d k f Hd Hk) as (p & t' & n & x & ? & ? & ?). exists p, t', n, x. rewrite in_app_iff. auto.
      * destruct Hk as [Hk|[]]. injection Hk as <- <-. exists (o_params o), t, (o_nx o), (o_xlim o).
        rewrite in_app_iff. simpl. auto.
Qed.
(** the event of one step is fresh if the hash separates the parameters seen so far from the current ones *)
Lemma step_fresh w a seen : heap_inv (w_heap w) seen ->
  let '(w', e) := step H compute w a in
  forall x, In x e -> (forall p, In p seen -> params_hash H p = params_hash H (e_params x) -> p = e_params x) ->
  e_interp x = compute (e_params x) (e_texp x) (e_nx x) (e_xlim x).
Proof.
  intros Hi. destruct a as [p|i n v|i n x|i|i t]; simpl; try (intros ? []).
  - destruct (nth_error _ _); simpl; intros ? [].
  - destruct (nth_error _ _); simpl; intros ? [].
  - destruct (nth_error _ _); simpl; intros ? [].
  - destruct (nth_error _ _) as [o|]; [|intros ? []].
    unfold fft_interp. destruct (o_cache o) as [r|]; [destruct (dict_get _ _) as [sp|] eqn:E|];
      intros e [<-|[]]; simpl; intros Hinj; try reflexivity.
    apply dict_get_In in E. destruct (le_lt_dec (List.length (w_heap w)) r) as [Hr|Hr].
    { rewrite nth_overflow in E by exact Hr. destruct E. }
    destruct (Hi _ _ _ (nth_In _ _ Hr) E) as (p & t' & n & x & Ek & -> & Hp).
    injection Ek as -> Eh -> ->. rewrite (Hinj p Hp (eq_sym Eh)). reflexivity.
Qed.
Lemma run_fresh h : forall w seen, heap_inv (w_heap w) seen ->
  (forall p e, In p (seen ++ map e_params (run H compute w h)) -> In e (run H compute w h) ->
     params_hash H p = params_hash H (e_params e) -> p = e_params e) ->
  forall e, In e (run H compute w h) -> e_interp e = compute (e_params e) (e_texp e) (e_nx e) (e_xlim e).
Proof.
  induction h as [|a t IH]; simpl; intros w seen Hi Hinj; [intros ? []|].
  pose proof (step_inv w a seen Hi) as Hi'. pose proof (step_fresh w a seen Hi) as Hf.
  destruct (step H compute w a) as [w' e0]. intros e He. apply in_app_iff in He. destruct He as [He|He].
  - apply Hf; [exact He|]. intros p Hp. apply Hinj; [apply in_app_iff; now left|apply in_app_iff; now left].
  - apply (IH w' (seen ++ map e_params e0)%list Hi'); [|exact He].
    intros p e' Hp He'. apply Hinj.
    + rewrite map_app, app_assoc. exact Hp.
    + apply in_app_iff. now right.
Qed.
Lemma cache_coherent h :
  (forall e1 e2, In e1 (run H compute empty h) -> In e2 (run H compute empty h) ->
     params_hash H (e_params e1) = params_hash H (e_params e2) -> e_params e1 = e_params e2) ->
  forall e, In e (run H compute empty h) -> e_interp e = compute (e_params e) (e_texp e) (e_nx e) (e_xlim e).
Proof.
  intros Hinj. apply (run_fresh h empty []).
  - intros d k f [].
  - simpl. intros p e Hp He. apply in_map_iff in Hp. destruct Hp as (e1 & <- & H1). now apply Hinj.
Qed.

(** refutation: any history that visits [p], prices, permutes the values, prices again *)
Lemma cache_stale (m1 m2 : opt) (T : R) : set_hash H ->
  same_set (map snd (bsm_params m1)) (map snd (bsm_params m2)) ->
  let h := [New (bsm_params m1); Price 0 T; SetParam 0 "sigma" (sigma m2); SetParam 0 "intr" (intr m2);
            SetParam 0 "divr" (divr m2); SetParam 0 "is_fwd" (if is_fwd m2 then 1 else 0); Price 0 T] in
  exists e1 e2, run H compute empty h = [e1; e2] /\ e_params e2 = bsm_params m2 /\ e_texp e2 = T /\
    e_interp e2 = compute (bsm_params m1) T 4096%Z 200.
Proof.
  intros Hset Hs h. unfold h. simpl run. unfold fft_interp, step; simpl.
  assert (Eh : params_hash H (bsm_params m1) = params_hash H (bsm_params m2)).
  { unfold params_hash. apply Hset; [|exact Hs]. intro x. reflexivity. }
  unfold params_hash in Eh |- *; simpl in Eh |- *. rewrite Eh.
  destruct (Req_EM_T T T) as [_|N]; [|contradiction]. rewrite Z.eqb_refl.
  destruct (Req_EM_T 200 200) as [_|N]; [|lra]. simpl.
  eexists. eexists. split; [reflexivity|]. repeat split.
Qed.
(** the same through copy.copy: the copy shares the dict *)
Lemma cache_stale_copy (m1 m2 : opt) (T : R) : set_hash H ->
  same_set (map snd (bsm_params m1)) (map snd (bsm_params m2)) ->
  let h := [New (bsm_params m1); Price 0 T; Copy 0; SetParam 1 "sigma" (sigma m2); SetParam 1 "intr" (intr m2);
            SetParam 1 "divr" (divr m2); SetParam 1 "is_fwd" (if is_fwd m2 then 1 else 0); Price 1 T] in
  exists e1 e2, run H compute empty h = [e1; e2] /\ e_params e2 = bsm_params m2 /\ e_texp e2 = T /\
    e_interp e2 = compute (bsm_params m1) T 4096%Z 200.
Proof.
  intros Hset Hs h. unfold h. simpl run. unfold fft_interp, step; simpl.
  assert (Eh : params_hash H (bsm_params m1) = params_hash H (bsm_params m2)).
  { unfold params_hash. apply Hset; [|exact Hs]. intro x. reflexivity. }
  unfold params_hash in Eh |- *; simpl in Eh |- *. rewrite Eh.
  destruct (Req_EM_T T T) as [_|N]; [|contradiction]. rewrite Z.eqb_refl.
  destruct (Req_EM_T 200 200) as [_|N]; [|lra]. simpl.
  eexists. eexists. split; [reflexivity|]. repeat split.
Qed.
End Pf.

(** Parity of the FFT price holds for whatever interpolator is used, stale or not. *)
Lemma fft_parity m sp K S T : 0 < S -> fft_price m sp K S T 1 - fft_price m sp K S T (-1) = DF (intr m) T * (FWD (intr m) (divr m) (is_fwd m) S T - K).
Proof.
  intros HS. unfold fft_price. rewrite (fdd_eq m S T). pose proof (mF_pos m S T HS) as HF.
  destruct (Rlt_dec 0 1); [|lra]. destruct (Rlt_dec 0 (-1)); [lra|].
  change (FWD (intr m) (divr m) (is_fwd m) S T) with (mF m S T). change (DF (intr m) T) with (mD m T). field. lra.
Qed.
Lemma simpson_parity m sp K S T : 0 < S -> simpson_price m sp K S T 1 - simpson_price m sp K S T (-1) = DF (intr m) T * (FWD (intr m) (divr m) (is_fwd m) S T - K).
Proof.
  intros HS. unfold simpson_price. rewrite (fdd_eq m S T). pose proof (mF_pos m S T HS) as HF.
  destruct (Rlt_dec 0 1); [|lra]. destruct (Rlt_dec 0 (-1)); [lra|].
  change (FWD (intr m) (divr m) (is_fwd m) S T) with (mF m S T). change (DF (intr m) T) with (mD m T). pose proof PI_RGT_0. field. repeat split; lra.
Qed.

(** An interpolator is exact for Black-Scholes when the FFT price with it is the closed form. *)
Definition bsm_exact (compute : params -> R -> Z -> R -> R -> R) : Prop :=
  forall m K S T cp, call_or_put cp -> 0 < K -> 0 < S -> 0 < T -> 0 < sigma m ->
  fft_price m (compute (bsm_params m) T 4096%Z 200) K S T cp = bsm_price m K S T cp.
(** BsmFft: sigma = 20%, intr = 5% priced, then set sigma = 5%, intr = 20%: the second price
    is not the Black-Scholes price although the interpolator is exact. *)
Lemma fft_stale_price H compute : set_hash H -> bsm_exact compute ->
  exists m1 m2 h e1 e2, 0 < sigma m1 /\ 0 < sigma m2 /\ run H compute empty h = [e1; e2] /\ e_params e2 = bsm_params m2 /\
    e_texp e2 = 1 /\ fft_price m2 (e_interp e2) 100 100 1 1 <> bsm_price m2 100 100 1 1.
Proof.
  intros Hs He. set (m1 := mkOpt (/ 5) (/ 20) 0 true). set (m2 := mkOpt (/ 20) (/ 5) 0 true).
  assert (Hss : same_set (map snd (bsm_params m1)) (map snd (bsm_params m2))) by (intro x; simpl; tauto).
  destruct (cache_stale H compute m1 m2 1 Hs Hss) as (e1 & e2 & E1 & E2 & E4 & E3). exists m1, m2. eexists. exists e1, e2.
  split; [simpl; lra|]. split; [simpl; lra|]. split; [exact E1|]. split; [exact E2|].
  split; [exact E4|].
  rewrite E3.
  (* with the interpolator of m1, the price under m2 is the price of m1 rescaled by the discount factors *)
  assert (A : fft_price m2 (compute (bsm_params m1) 1 4096%Z 200) 100 100 1 1
              = exp (- / 5) / exp (- / 20) * bsm_price m1 100 100 1 1).
  { rewrite <- (He m1 100 100 1 1) by (simpl; try lra; now left).
    unfold fft_price, fwd_df_divf, m1, m2; simpl. replace (- / 5 * 1) with (- / 5) by ring. replace (- / 20 * 1) with (- / 20) by ring.
    field. pose proof (exp_pos (- / 20)). lra. }
  rewrite A. set (m3 := mkOpt (/ 20) (/ 20) 0 true).
  assert (B : bsm_price m2 100 100 1 1 = exp (- / 5) / exp (- / 20) * bsm_price m3 100 100 1 1).
  { rewrite !bsm_price_eq. unfold mD, mF, FWD, DF; simpl. rewrite !Rmult_1_r. field. pose proof (exp_pos (- / 20)). lra. }
  rewrite B. intros C. apply Rmult_eq_reg_l in C.
  - assert (D : bsm_price (set_sigma m1 (/ 20)) 100 100 1 1 < bsm_price (set_sigma m1 (/ 5)) 100 100 1 1).
    { apply bsm_mono_sigma; rewrite ?sqrt_1; try lra; try (now left).
      - unfold eps. simpl. lra.
      - unfold eps. simpl. lra. }
    change (set_sigma m1 (/ 20)) with m3 in D. change (set_sigma m1 (/ 5)) with m1 in D. lra.
  - pose proof (exp_pos (- / 5)). pose proof (exp_pos (- / 20)). apply Rgt_not_eq. apply Rdiv_lt_0_compat; lra.
Qed.
(** exact interpolators exist *)
Definition exact_interp (p : params) (T : R) (n : Z) (x y : R) : R :=
  (1 - black (sigma_std (snd (nth 0 p ("", 0))) T) 1 (exp (- y)) 1) / sqrt (exp (- y)).
Lemma exact_interp_ok : bsm_exact exact_interp.
Proof.
  intros m K S T cp Hcp HK HS HT Hs. unfold fft_price. rewrite (fdd_eq m S T), bsm_price_eq.
  pose proof (mF_pos m S T HS) as HF. set (F := mF m S T) in *. unfold exact_interp, bsm_params; simpl.
  assert (Hk : 0 < K / F) by (apply Rdiv_lt_0_compat; lra).
  rewrite Ropp_involutive, exp_ln by exact Hk. pose proof (sqrt_lt_R0 _ Hk).
  assert (Hb : forall c, black (sigma_std (sigma m) T) F K c = F * black (sigma_std (sigma m) T) 1 (K / F) c).
  { intro c. rewrite <- black_homog by lra. f_equal; field; lra. }
  rewrite Hb. pose proof (black_parity (sigma_std (sigma m) T) 1 (K / F)) as P.
  destruct Hcp as [-> | ->].
  - destruct (Rlt_dec 0 1); [|lra]. field. lra.
  - destruct (Rlt_dec 0 (-1)); [lra|].
    replace (black (sigma_std (sigma m) T) 1 (K / F) (-1)) with (black (sigma_std (sigma m) T) 1 (K / F) 1 - (1 - K / F)) by lra.
    field. lra.
Qed.
