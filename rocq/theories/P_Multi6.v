(** The exercise-boundary root finder of BsmBasket1Bm for baskets (log branch). *)
From Coq Require Import Reals Lra Lia Psatz List Arith Bool.
From Coquelicot Require Import Coquelicot.
From Verif Require Import Base Gauss Sums Spec_Opt Spec_Expect Spec_Multi M_Opt M_Params M_Fd M_Sabr M_Multi Spec_Multi2 P_Black P_Bsm P_Norm P_Expect P_KlLaw P_Sabr2 P_Conv P_Conv2 P_Multi P_Multi2 P_Multi3 P_Multi5.
Import ListNotations.
Open Scope R_scope.

Lemma exp_ge1 t : 1 + t <= exp t. Proof. apply exp_ineq1_le. Qed.
Lemma ln_le' x y : 0 < x -> x <= y -> ln x <= ln y.
Proof. intros Hx [H|H]; [left; apply ln_increasing; assumption|right; now rewrite H]. Qed.

Section Newton.
  Variables (n : nat) (fac std : vec) (lo hi : R).
  Hypotheses (Hn : (0 < n)%nat) (Hf : forall i, (i < n)%nat -> 0 < fac i) (Hlo : 0 < lo) (Hs : forall i, (i < n)%nat -> lo <= std i <= hi).
  Let Y := ysum n fac std.
  Let g x := dysum n fac std x / Y x.
  Lemma Y_pos x : 0 < Y x.
  Proof using Hn Hf. apply rsum_pos; [exact Hn|]. intros i Hi. apply Rmult_lt_0_compat; [apply Hf, Hi|apply exp_pos]. Qed.
  Lemma g_range x : lo <= g x <= hi.
  Proof using Hn Hf Hs.
    pose proof (Y_pos x) as P. unfold g. split.
    - apply Rmult_le_reg_r with (Y x); [exact P|]. replace (dysum n fac std x / Y x * Y x) with (dysum n fac std x) by (field; lra).
      unfold Y, ysum. rewrite <- rsum_scal. apply rsum_le. intros i Hi. apply Rmult_le_compat_r; [|apply Hs, Hi]. apply Rmult_le_pos; [left; apply Hf, Hi|left; apply exp_pos].
    - apply Rmult_le_reg_r with (Y x); [exact P|]. replace (dysum n fac std x / Y x * Y x) with (dysum n fac std x) by (field; lra).
      unfold Y, ysum. rewrite <- rsum_scal. apply rsum_le. intros i Hi. apply Rmult_le_compat_r; [|apply Hs, Hi]. apply Rmult_le_pos; [left; apply Hf, Hi|left; apply exp_pos].
  Qed.
  Lemma tangent x y : ln (Y x) + g x * (y - x) <= ln (Y y).
  Proof using Hn Hf.
    pose proof (Y_pos x) as P. pose proof (Y_pos y) as Q. set (m := g x * (y - x)).
    assert (H : exp m * Y x <= Y y).
    { apply Rle_trans with (rsum n (fun i => exp m * ((1 - m) * (fac i * exp (std i * x)) + (y - x) * (std i * (fac i * exp (std i * x)))))).
      - right. rewrite rsum_scal. f_equal. rewrite rsum_plus, !rsum_scal. change (rsum n (fun k => fac k * exp (std k * x))) with (Y x).
        change (rsum n (fun k => std k * (fac k * exp (std k * x)))) with (dysum n fac std x). unfold m, g. field. lra.
      - apply rsum_le. intros i Hi. pose proof (Hf i Hi) as Fi. pose proof (exp_pos m). pose proof (exp_pos (std i * x)).
        replace (std i * y) with (std i * x + (m + (std i * (y - x) - m))) by ring. rewrite !exp_plus.
        pose proof (exp_ge1 (std i * (y - x) - m)) as E.
        replace (exp m * ((1 - m) * (fac i * exp (std i * x)) + (y - x) * (std i * (fac i * exp (std i * x))))) with (exp m * (fac i * exp (std i * x)) * (1 + (std i * (y - x) - m))) by ring.
        replace (fac i * (exp (std i * x) * (exp m * exp (std i * (y - x) - m)))) with (exp m * (fac i * exp (std i * x)) * exp (std i * (y - x) - m)) by ring.
        apply Rmult_le_compat_l; [|exact E]. apply Rmult_le_pos; [lra|]. apply Rmult_le_pos; lra. }
    apply ln_le' in H; [|apply Rmult_lt_0_compat; [apply exp_pos|exact P]]. rewrite ln_mult, ln_exp in H by (try apply exp_pos; exact P). lra.
  Qed.
  Let q := 1 - lo / hi.
  Lemma hi_pos : 0 < hi /\ 0 <= q < 1.
  Proof using Hn Hlo Hs.
    destruct (Hs 0%nat Hn) as [A B]. assert (H : 0 < hi) by lra. split; [exact H|]. unfold q. split.
    - assert (lo / hi <= 1); [|lra]. apply Rmult_le_reg_r with hi; [exact H|]. replace (lo / hi * hi) with lo by (field; lra). lra.
    - assert (0 < lo / hi) by (apply Rdiv_lt_0_compat; lra). lra.
  Qed.
  Lemma step_res K x : 0 < K -> 0 <= root_y n fac std true K (root_step n fac std true K x) /\
    (0 <= root_y n fac std true K x -> root_step n fac std true K x <= x /\
      root_y n fac std true K (root_step n fac std true K x) <= q * root_y n fac std true K x).
  Proof using Hn Hf Hlo Hs.
    intros HK. unfold root_step, root_dy. fold (Y x). fold (g x). set (y := root_y n fac std true K x).
    assert (Ey : forall z, root_y n fac std true K z = ln (Y z) - ln K) by (intros z; unfold root_y; destruct (Rlt_dec 0 K); [reflexivity|lra]).
    set (x' := x - y / g x). destruct (g_range x) as [G1 G2]. assert (Gp : 0 < g x) by lra. destruct hi_pos as [Hh Hq].
    assert (E : g x * (x' - x) = - y) by (unfold x'; field; lra).
    split.
    - rewrite Ey. pose proof (tangent x x') as Tn. rewrite E in Tn. unfold y in Tn. rewrite Ey in Tn. lra.
    - intros Hy. assert (Hd : 0 <= y / g x) by (apply Rmult_le_pos; [exact Hy|left; apply Rinv_0_lt_compat, Gp]). split; [unfold x'; lra|].
      rewrite Ey. pose proof (tangent x' x) as Tn. destruct (g_range x') as [G1' G2'].
      replace (x - x') with (y / g x) in Tn by (unfold x'; ring).
      assert (Hle : lo / hi * y <= g x' * (y / g x)).
      { apply Rle_trans with (lo * (y / g x)); [|apply Rmult_le_compat_r; assumption].
        replace (lo / hi * y) with (lo * (y * / hi)) by (unfold Rdiv; ring). unfold Rdiv. apply Rmult_le_compat_l; [lra|]. apply Rmult_le_compat_l; [exact Hy|].
        apply Rinv_le_contravar; assumption. }
      assert (Hy2 : ln (Y x) = y + ln K) by (unfold y; rewrite Ey; ring). unfold q. lra.
  Qed.

  Lemma max_abs_ge l y : In y l -> Rabs y <= max_abs l.
  Proof using.
    induction l as [|a l IH]; [easy|]. unfold max_abs in *. cbn [fold_right]. intros [->|H]; [apply Rmax_l|]. apply Rle_trans with (2 := Rmax_r _ _). now apply IH.
  Qed.
  Definition good (b : R) (kx : R * R) : Prop := 0 < fst kx /\ 0 <= root_y n fac std true (fst kx) (snd kx) <= b.
  Lemma loop_good fuel : forall l b, 0 <= b -> List.Forall (good b) l ->
    map fst (root_loop fuel n fac std true l) = map fst l /\ List.Forall (good (Rmax IMPVOL_TOL (q ^ fuel * b))) (root_loop fuel n fac std true l).
  Proof using Hn Hf Hlo Hs.
    destruct hi_pos as [Hh Hq].
    induction fuel as [|fu IH]; intros l b Hb HG.
    - cbn [root_loop pow]. split; [reflexivity|]. eapply List.Forall_impl; [|exact HG]. intros kx [A [B C]]. split; [exact A|]. split; [exact B|].
      rewrite Rmult_1_l. apply Rle_trans with (2 := Rmax_r _ _). exact C.
    - cbn [root_loop]. set (l' := map (fun kx => (fst kx, root_step n fac std true (fst kx) (snd kx))) l).
      assert (Hfst : map fst l' = map fst l) by (unfold l'; rewrite map_map; reflexivity).
      destruct Rlt_dec as [Hbrk|Hbrk].
      + split; [exact Hfst|]. apply Forall_forall. intros kx' Hin. unfold l' in Hin. apply in_map_iff in Hin. destruct Hin as [kx [E Hin]].
        pose proof (proj1 (Forall_forall _ _) HG kx Hin) as [A [B C]]. subst kx'. unfold good. cbn [fst snd].
        destruct (step_res (fst kx) (snd kx) A) as [S1 S2]. destruct (S2 B) as [_ S3]. split; [exact A|]. split; [exact S1|].
        apply Rle_trans with (2 := Rmax_l _ _).
        assert (M : Rabs (root_y n fac std true (fst kx) (snd kx)) < IMPVOL_TOL).
        { eapply Rle_lt_trans; [|exact Hbrk]. apply max_abs_ge. apply (in_map (fun kx => root_y n fac std true (fst kx) (snd kx))), Hin. }
        rewrite Rabs_right in M by lra. nra.
      + assert (HG' : List.Forall (good (q * b)) l').
        { apply Forall_forall. intros kx' Hin. unfold l' in Hin. apply in_map_iff in Hin. destruct Hin as [kx [E Hin]].
          pose proof (proj1 (Forall_forall _ _) HG kx Hin) as [A [B C]]. subst kx'. unfold good. cbn [fst snd].
          destruct (step_res (fst kx) (snd kx) A) as [S1 S2]. destruct (S2 B) as [_ S3]. split; [exact A|]. split; [exact S1|]. nra. }
        destruct (IH l' (q * b) ltac:(nra) HG') as [I1 I2]. split; [now rewrite I1|].
        replace (q ^ S fu * b) with (q ^ fu * (q * b)) by (cbn [pow]; ring). exact I2.
  Qed.

  Lemma fold_min_P (P : R -> Prop) x l : P x -> (forall c, In c l -> P c) -> P (fold_right Rmin x l).
  Proof using.
    intros Hx. induction l as [|a l IH]; intros H; cbn [fold_right]; [exact Hx|]. unfold Rmin. destruct Rle_dec; [apply H; now left|apply IH; intros; apply H; now right].
  Qed.
  Lemma fold_min_le x l c : In c l -> fold_right Rmin x l <= c.
  Proof using.
    induction l as [|a l IH]; [easy|]. intros [->|H]; cbn [fold_right]; [apply Rmin_l|]. apply Rle_trans with (1 := Rmin_r _ _). now apply IH.
  Qed.
  Lemma init_good K : 0 < K -> good (ln (INR n)) (K, root_init n fac std true K).
  Proof using Hn Hf Hlo Hs.
    intros HK. unfold good. cbn [fst snd]. split; [exact HK|].
    assert (Ey : forall z, root_y n fac std true K z = ln (Y z) - ln K) by (intros z; unfold root_y; destruct (Rlt_dec 0 K); [reflexivity|lra]).
    assert (Hc : forall i, (i < n)%nat -> fac i * exp (std i * (ln (K / fac i) / std i)) = K).
    { intros i Hi. pose proof (Hf i Hi). pose proof (Hs i Hi). replace (std i * (ln (K / fac i) / std i)) with (ln (K / fac i)) by (field; lra).
      rewrite exp_ln by (apply Rdiv_lt_0_compat; assumption). field. lra. }
    assert (Hge : K <= Y (root_init n fac std true K)).
    { unfold root_init. apply (fold_min_P (fun x => K <= Y x)).
      - set (x := (K - rsum n fac) / rsum n (fun i => fac i * std i)).
        assert (Hd : 0 < rsum n (fun i => fac i * std i)). { apply rsum_pos; [exact Hn|]. intros i Hi. pose proof (Hs i Hi). apply Rmult_lt_0_compat; [apply Hf, Hi|lra]. }
        apply Rle_trans with (rsum n (fun i => fac i + x * (fac i * std i))).
        + right. rewrite rsum_plus, rsum_scal. change (rsum n (fun k => fac k)) with (rsum n fac). unfold x. field. lra.
        + unfold Y, ysum. apply rsum_le. intros i Hi. pose proof (exp_ge1 (std i * x)). pose proof (Hf i Hi). nra.
      - intros c Hin. apply in_map_iff in Hin. destruct Hin as [i [<- Hi]]. apply in_seq in Hi. assert (Hi' : (i < n)%nat) by lia.
        rewrite <- (Hc i Hi') at 1. unfold Y, ysum. set (c := ln (K / fac i) / std i).
        clear - Hi' Hf. revert Hf. generalize n as k, Hi'. clear Hi'. intros k. induction k as [|k IH]; intros Hi Hf; [lia|]. cbn [rsum].
        destruct (Nat.eq_dec i k) as [->|Hne].
        + assert (0 <= rsum k (fun i => fac i * exp (std i * c))) by (apply rsum_nonneg; intros j Hj; apply Rmult_le_pos; [left; apply Hf; lia|left; apply exp_pos]). lra.
        + specialize (IH ltac:(lia) ltac:(intros; apply Hf; lia)). assert (0 <= fac k * exp (std k * c)) by (apply Rmult_le_pos; [left; apply Hf; lia|left; apply exp_pos]). lra. }
    rewrite Ey. pose proof (Y_pos (root_init n fac std true K)) as P. split.
    - pose proof (ln_le' K _ HK Hge). lra.
    - assert (Hle : Y (root_init n fac std true K) <= INR n * K).
      { rewrite <- rsum_const. unfold Y, ysum. apply rsum_le. intros i Hi. rewrite <- (Hc i Hi) at 2. apply Rmult_le_compat_l; [left; apply Hf, Hi|]. apply exp_le.
        apply Rmult_le_compat_l; [pose proof (Hs i Hi); lra|]. unfold root_init. apply fold_min_le. apply (in_map (fun i => ln (K / fac i) / std i)). apply in_seq. lia. }
      apply ln_le' in Hle; [|exact P]. rewrite ln_mult in Hle by (try exact HK; apply lt_0_INR; exact Hn). lra.
  Qed.
  Lemma all_pos_true : all_pos n fac = true.
  Proof using Hf Hn. unfold all_pos. apply forallb_forall. intros i Hi. apply in_seq in Hi. destruct Rlt_dec as [|C]; [reflexivity|]. exfalso. apply C, Hf. lia. Qed.
  Lemma in_range_K K : in_range n fac std K = true -> 0 < K.
  Proof using Hf Hn.
    unfold in_range, root_lo. destruct Rle_dec as [|C]; [discriminate|]. intros _.
    assert (0 < rsum n (fun i => fac i / exp (9 * std i))). { apply rsum_pos; [exact Hn|]. intros i Hi. apply Rdiv_lt_0_compat; [apply Hf, Hi|apply exp_pos]. }
    lra.
  Qed.
  (** every finite boundary returned has residual ln B(x) - ln K in [0, max(tol, (1 - lo/hi)^32 ln n)] *)
  Lemma root_basket strikes : exists res, root n fac std strikes = Some res /\
    (forall K, In K strikes -> exists x, In (K, x) res) /\
    (forall K x, In (K, x) res -> In K strikes /\
       match x with
       | XFin x => 0 < K /\ 0 <= ln (Y x / K) <= Rmax IMPVOL_TOL (q ^ 32 * ln (INR n))
       | XNeg => K <= Y (- (9))
       | XPos => Y 9 <= K
       end).
  Proof using Hn Hf Hlo Hs.
    unfold root.
    replace (forallb (fun i => if Rle_dec 0 (fac i * std i) then true else false) (seq 0 n)) with true.
    2:{ symmetry. apply forallb_forall. intros i Hi. apply in_seq in Hi. destruct Rle_dec as [|C]; [reflexivity|]. exfalso. apply C.
        assert (Hi' : (i < n)%nat) by lia. pose proof (Hf i Hi'). pose proof (Hs i Hi'). apply Rmult_le_pos; lra. }
    eexists. split; [reflexivity|]. rewrite all_pos_true. cbv zeta.
    set (live := filter (in_range n fac std) strikes). set (dead := filter (fun k => negb (in_range n fac std k)) strikes).
    set (init := map (fun k => (k, root_init n fac std true k)) live).
    assert (HG : List.Forall (good (ln (INR n))) init).
    { apply Forall_forall. intros kx Hin. unfold init in Hin. apply in_map_iff in Hin. destruct Hin as [k [<- Hk]]. apply init_good. unfold live in Hk. apply filter_In in Hk. apply in_range_K, Hk. }
    assert (Hln : 0 <= ln (INR n)). { rewrite <- ln_1. apply ln_le'; [lra|]. change 1 with (INR 1). apply le_INR. lia. }
    destruct (loop_good 32 init _ Hln HG) as [L1 L2].
    set (sol := root_loop 32 n fac std true init) in *. unfold init in L1. rewrite map_map in L1. cbn [fst] in L1. rewrite map_id in L1.
    split.
    - intros K HK. destruct (in_range n fac std K) eqn:E.
      + assert (Hl : In K live) by (apply filter_In; split; assumption). rewrite <- L1 in Hl. apply in_map_iff in Hl. destruct Hl as [kx [E' Hin]].
        exists (XFin (snd kx)). apply in_or_app. right. apply in_map_iff. exists kx. split; [now rewrite E'|exact Hin].
      + exists (if Rle_dec (root_hi n fac std K) 0 then XPos else XNeg). apply in_or_app. left. apply in_map_iff. exists K. split; [reflexivity|].
        apply filter_In. split; [exact HK|now rewrite E].
    - intros K x Hin. apply in_app_or in Hin. destruct Hin as [Hin|Hin]; apply in_map_iff in Hin.
      + destruct Hin as [k [E Hk]]. unfold dead in Hk. apply filter_In in Hk. destruct Hk as [Hk Hr]. injection E as -> <-. split; [exact Hk|].
        unfold in_range in Hr. destruct (Rle_dec 0 (root_lo n fac std K)) as [A|A].
        * assert (Elo : K <= Y (- (9))).
          { unfold root_lo in A. rewrite (rsum_ext n (fun i => fac i / exp (9 * std i)) (fun i => fac i * exp (std i * - (9)))) in A; [unfold Y, ysum; lra|].
            intros i _. unfold Rdiv. rewrite <- exp_Ropp. do 2 f_equal. ring. }
          destruct Rle_dec as [B|B]; [|exact Elo].
          assert (Ehi : Y 9 <= K).
          { unfold root_hi in B. rewrite (rsum_ext n (fun i => fac i * exp (9 * std i)) (fun i => fac i * exp (std i * 9))) in B; [unfold Y, ysum; lra|]. intros i _. do 2 f_equal. ring. }
          exact Ehi.
        * destruct (Rle_dec (root_hi n fac std K) 0) as [B|B]; [|discriminate].
          unfold root_hi in B. rewrite (rsum_ext n (fun i => fac i * exp (9 * std i)) (fun i => fac i * exp (std i * 9))) in B; [unfold Y, ysum; lra|]. intros i _. do 2 f_equal. ring.
      + destruct Hin as [kx [E Hin]]. injection E as <- <-. pose proof (proj1 (Forall_forall _ _) L2 kx Hin) as [G1 G2].
        split. { assert (Hl : In (fst kx) live) by (rewrite <- L1; apply in_map, Hin). unfold live in Hl. apply filter_In in Hl. apply Hl. }
        split; [exact G1|]. unfold Rdiv. rewrite ln_mult, ln_Rinv by (try apply Rinv_0_lt_compat; try exact G1; apply Y_pos).
        unfold root_y in G2. fold (Y (snd kx)) in G2. destruct (Rlt_dec 0 (fst kx)); [|lra]. lra.
  Qed.
End Newton.
Lemma root_raises n fac std strikes : root n fac std strikes = None <-> exists i, (i < n)%nat /\ fac i * std i < 0.
Proof.
  unfold root. destruct (forallb _ _) eqn:E.
  - split; [discriminate|]. intros [i [Hi Hl]]. rewrite forallb_forall in E. specialize (E i ltac:(apply in_seq; lia)). destruct Rle_dec; [lra|discriminate].
  - split; [intros _|reflexivity]. destruct (existsb (fun i => if Rle_dec 0 (fac i * std i) then false else true) (seq 0 n)) eqn:X.
    + apply existsb_exists in X. destruct X as [i [Hi Hx]]. apply in_seq in Hi. exists i. split; [lia|]. destruct Rle_dec; [discriminate|lra].
    + exfalso. assert (forallb (fun i => if Rle_dec 0 (fac i * std i) then true else false) (seq 0 n) = true); [|congruence].
      apply forallb_forall. intros i Hi. destruct Rle_dec as [|C]; [reflexivity|]. exfalso.
      assert (existsb (fun i => if Rle_dec 0 (fac i * std i) then false else true) (seq 0 n) = true); [|congruence].
      apply existsb_exists. exists i. split; [exact Hi|]. destruct Rle_dec; [contradiction|reflexivity].
Qed.
