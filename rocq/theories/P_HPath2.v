(** The Poisson-gamma path has the exact mean and second moment at every date of every grid. *)
From Coq Require Import Reals Lra Lia Arith FunctionalExtensionality.
From Coquelicot Require Import Coquelicot.
From Verif Require Import Base Sums M_Opt M_Mgf M_Heston M_HestonMc M_HestonMc2 Spec_Dist Spec_Cev Spec_CevMc Spec_HestonMc Spec_Expect Spec_HPath P_Cir P_Cir2 P_HestonMc P_HestonMc2 P_HestonMc3 P_HestonMc5 P_HestonRv M_HPath P_HPath.
Open Scope R_scope.

Lemma hv_shift st : forall n d v w, hv_entry st d v w (S n) = hv_entry st (fun j => d (S j)) (st (d 0%nat) v (w 0%nat)) (fun j => w (S j)) n.
Proof. induction n as [|n IH]; intros d v w; [reflexivity|]. change (hv_entry st d v w (S (S n))) with (st (d (S n)) (hv_entry st d v w (S n)) (w (S n))). rewrite IH. reflexivity. Qed.
Lemma rsum_shift1 n (f : nat -> R) : rsum (S n) f = f 0%nat + rsum n (fun j => f (S j)).
Proof. induction n as [|n IH]; [cbn [rsum]; ring|]. change (rsum (S (S n)) f) with (rsum (S n) f + f (S n)). rewrite IH. cbn [rsum]. ring. Qed.

Section Pg.
Variable Gam : R -> R.
Hypothesis HG : gamma_function Gam.
Variables (p : svp) (dts : nat -> R).
Hypothesis (Hx : 0 < v_vov p) (Hk : 0 < v_mr p) (Ht : 0 < v_theta p) (Hd : forall i, 0 < dts i).
Let c := heston_cir p.
Let sc j := fst (fst (cir_pois_gamma_args c (dts j) 0)).
Let sh j := snd (fst (cir_pois_gamma_args c (dts j) 0)).
Let it j v := snd (cir_pois_gamma_args c (dts j) v).
Let st := fun dt v g => let '(scale, _, _) := cir_pois_gamma_args c dt v in scale * g.
Let ent i n v w := hv_entry st (fun j => dts (i + j)%nat) v (fun j => w (i + j)%nat) n.
Let T i n := rsum n (fun j => dts (i + j)%nat).
Lemma ent_step i n v w g : ent i (S n) v (upd w i g) = ent (S i) n (sc i * g) w.
Proof.
  unfold ent. rewrite hv_shift. rewrite Nat.add_0_r. unfold upd at 1. rewrite Nat.eqb_refl.
  replace (fun j => dts (i + S j)%nat) with (fun j => dts (S i + j)%nat) by (apply functional_extensionality; intros j; f_equal; lia).
  replace (fun j => upd w i g (i + S j)%nat) with (fun j => w (S i + j)%nat); [reflexivity|].
  apply functional_extensionality; intros j. unfold upd. destruct (Nat.eqb_spec (i + S j) i); [lia|]. f_equal. lia.
Qed.
Lemma sc_pos j : 0 < sc j.
Proof. unfold sc. cbn [cir_pois_gamma_args fst]. apply Rmult_lt_0_compat; [|lra]. apply Rdiv_lt_0_compat; [apply exp_pos|apply phi_pos; [exact Hx|exact Hk|apply Hd]]. Qed.
Lemma sh_pos j : 0 < sh j.
Proof. unfold sh. cbn [cir_pois_gamma_args fst snd]. unfold c, heston_cir. cbn [c_mr c_theta c_xi]. apply Rdiv_lt_0_compat; [|lra]. apply Rdiv_lt_0_compat; [nra|apply pow_lt, Hx]. Qed.
Lemma pgpath_ext sc' sh' it' n i v F G x : (forall w, F w = G w) -> pgpath_expect Gam sc' sh' it' n i v F x -> pgpath_expect Gam sc' sh' it' n i v G x.
Proof. intros E H. replace G with F; [exact H|]. apply functional_extensionality. exact E. Qed.
Lemma pg_quad : forall n i v a b q, 0 < v -> pgpath_expect Gam sc sh it n i v (fun w => a + b * ent i n v w + q * ent i n v w ^ 2)
  (a + b * cir_mean c (T i n) v + q * (cir_mean c (T i n) v ^ 2 + cir_var c (T i n) v)).
Proof.
  assert (Kc : c_mr c <> 0) by (unfold c, heston_cir; cbn [c_mr]; lra).
  induction n as [|n IH]; intros i v a b q Hv.
  - cbn [pgpath_expect]. intros w. unfold ent, T. cbn [hv_entry rsum]. unfold cir_mean, cir_var. cbv zeta. rewrite Rmult_0_r, Ropp_0, exp_0. ring.
  - cbn [pgpath_expect]. set (T' := T (S i) n).
    set (be := exp (- (c_mr c * T'))). set (al := c_theta c * (1 - be)). set (ga := cir_var c T' 0). set (de := cir_var c T' 1 - cir_var c T' 0).
    assert (Lin : forall y, cir_var c T' y = ga + de * y) by (intros y; unfold ga, de, cir_var; cbv zeta; ring).
    assert (Mn : forall y, cir_mean c T' y = al + be * y) by (intros y; unfold cir_mean; fold be; unfold al; ring).
    set (s := sc i). set (P := a + b * al + q * (al ^ 2 + ga)). set (Q := b * be + q * (2 * al * be + de)). set (R2 := q * be ^ 2).
    set (mu := it i v).
    exists (fun g => P + (Q * s) * g + (R2 * s ^ 2) * g ^ 2), (fun k => P + (Q * s) * (sh i + INR k) + (R2 * s ^ 2) * ((sh i + INR k) * (sh i + INR k + 1))).
    split; [|split].
    + intros g Hg. assert (Y : 0 < s * g) by (apply Rmult_lt_0_compat; [apply sc_pos|exact Hg]).
      pose proof (IH (S i) (s * g) a b q Y) as H. fold T' in H. rewrite Mn, Lin in H.
      replace (P + Q * s * g + R2 * s ^ 2 * g ^ 2) with (a + b * (al + be * (s * g)) + q * ((al + be * (s * g)) ^ 2 + (ga + de * (s * g)))) by (unfold P, Q, R2; ring).
      eapply pgpath_ext; [|exact H]. intros w. cbv beta. rewrite ent_step. reflexivity.
    + intros k. pose proof (sh_pos i). pose proof (pos_INR k). apply (gam_quad Gam HG); [lra|]. intros x _. ring.
    + pose proof (pois_quad mu (P + Q * s * sh i + R2 * s ^ 2 * (sh i * (sh i + 1))) (Q * s + R2 * s ^ 2 * (2 * sh i + 1)) (R2 * s ^ 2)
        (fun k => P + (Q * s) * (sh i + INR k) + (R2 * s ^ 2) * ((sh i + INR k) * (sh i + INR k + 1)))) as H.
      specialize (H ltac:(intros k; cbv beta; ring)).
      assert (TS : T i (S n) = dts i + T').
      { unfold T', T. rewrite rsum_shift1, Nat.add_0_r. f_equal. f_equal. apply functional_extensionality; intros j; f_equal; lia. }
      assert (E1 : s * (sh i + mu) = cir_mean c (dts i) v) by (exact (rv_M1 p (dts i) Hx Hk (Hd i) v)).
      assert (E2 : s ^ 2 * (sh i + 2 * mu) = cir_var c (dts i) v) by (exact (rv_VV p (dts i) Hx Hk (Hd i) v)).
      rewrite TS, <- cir_mean_compose, (cir_var_compose c T' (dts i)) by exact Kc. fold be. rewrite Mn, Lin, <- E1, <- E2.
      match type of H with pois_expect _ _ ?X => match goal with |- pois_expect _ _ ?Y => replace Y with X; [exact H|] end end.
      unfold P, Q, R2. ring.
Qed.
End Pg.
Lemma hv_pg_moments Gam p dts n : gamma_function Gam -> 0 < v_sigma p -> 0 < v_vov p -> 0 < v_mr p -> 0 < v_theta p -> (forall i, 0 < dts i) ->
  let args j v := cir_pois_gamma_args (heston_cir p) (dts j) v in
  let E F x := pgpath_expect Gam (fun j => fst (fst (args j 0))) (fun j => snd (fst (args j 0))) (fun j v => snd (args j v)) n 0 (v_sigma p) F x in
  exists path, (forall w, hv_paths p 3 dts w = Some (path w)) /\
    E (fun w => path w n) (cir_mean (heston_cir p) (rsum n dts) (v_sigma p)) /\
    E (fun w => path w n ^ 2) (cir_mean (heston_cir p) (rsum n dts) (v_sigma p) ^ 2 + cir_var (heston_cir p) (rsum n dts) (v_sigma p)).
Proof.
  intros HG Hs Hx Hk Ht Hd args E. eexists. split; [intros z; unfold hv_paths; cbn [hv_step]; reflexivity|]. split.
  - pose proof (pg_quad Gam HG p dts Hx Hk Ht Hd n 0 (v_sigma p) 0 1 0 Hs) as H. rewrite Rmult_0_l, Rplus_0_l, Rplus_0_r, Rmult_1_l in H. eapply pgpath_ext; [|exact H]. intros z. cbv beta. change (fun j => dts (0 + j)%nat) with dts. change (fun j => z (0 + j)%nat) with z. ring.
  - pose proof (pg_quad Gam HG p dts Hx Hk Ht Hd n 0 (v_sigma p) 0 0 1 Hs) as H. rewrite Rmult_0_l, !Rplus_0_l, Rmult_1_l in H. eapply pgpath_ext; [|exact H]. intros z. cbv beta. change (fun j => dts (0 + j)%nat) with dts. change (fun j => z (0 + j)%nat) with z. ring.
Qed.
(** scheme 2 with twice the gamma draws (chi-square draws) gives the paths of scheme 3 *)
Lemma hv_ncx2 p dts g i path path' : hv_paths p 2 dts (fun k => 2 * g k) = Some path -> hv_paths p 3 dts g = Some path' -> path i = path' i.
Proof.
  unfold hv_paths. cbn [hv_step]. intros E E'. inversion E; inversion E'; subst; clear E E'. induction i as [|i IH]; [reflexivity|].
  cbn [hv_entry]. cbv beta iota zeta delta [cir_pois_gamma_args cir_ncx2_args]. ring.
Qed.
