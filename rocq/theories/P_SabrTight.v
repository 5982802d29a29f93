(** Consequences added after mutation testing: series branch of the P correction, symmetries of the Lorig expansion, the Cai-Song-Chen draw. *)
From Coq Require Import Reals Lra Lia List.
From Coquelicot Require Import Coquelicot.
From Verif Require Import Base Sums M_Opt M_Fd M_Sabr M_SabrVol M_SabrCai.
Open Scope R_scope.

(** near eta = 1 the series branch has the exact derivative up to the relative error (e / num^2)^2 *)
Lemma gg_series rho rc eta t sk : rho ^ 2 + rc ^ 2 = 1 -> Rabs (eta * eta - 1) <= / 10 ^ 6 ->
  let e := eta * eta - 1 in let num := rho + (eta - rc) * t in let Qd := (eta + rc) + 2 * rho * t + (eta - rc) * t ^ 2 in
  num <> 0 -> Qd <> 0 -> num ^ 2 + e <> 0 ->
  is_derive (fun u => p_gg rho rc eta u sk) t (/ (1 + t ^ 2) - eta / Qd * (1 - (e / num ^ 2) ^ 2)).
Proof.
  intros Hc He e num Qd Hn HQ Hs.
  assert (E : eta / Qd = eta * (eta - rc) / (num ^ 2 + e)).
  { assert (X : (eta - rc) * Qd = num ^ 2 + e) by (unfold Qd, num, e; replace (eta * eta - 1) with (eta * eta - (rho ^ 2 + rc ^ 2)) by (rewrite Hc; ring); ring).
    rewrite <- X in Hs |- *. field. split; [exact HQ|]. intros Z. apply Hs. rewrite Z. ring. }
  rewrite E.
  assert (D : forall u, p_gg rho rc eta u sk = atan u + eta / (rho + (eta - rc) * u) * (1 - e / (rho + (eta - rc) * u) ^ 2 / 3)).
  { intros u. unfold p_gg. cbv zeta. fold e. apply Rabs_le_between in He. fold e in He. destruct (Rlt_dec (/ 10 ^ 6) e); [lra|]. destruct (Rlt_dec e (- / 10 ^ 6)); [lra|]. reflexivity. }
  apply (is_derive_ext (fun u => atan u + eta / (rho + (eta - rc) * u) * (1 - e / (rho + (eta - rc) * u) ^ 2 / 3))); [intros u; symmetry; apply D|].
  apply is_derive_eq with (/ (1 + t ^ 2) + (- (eta * (eta - rc)) / num ^ 2 + eta * (eta - rc) * e / num ^ 4)).
  - apply is_derive_plus_R; [apply is_derive_eq with (/ (1 + t²)); [apply is_derive_atan|unfold Rsqr; f_equal; ring]|]. fold num. unfold num in *. clearbody e. auto_derive; [repeat split; try assumption; apply Rmult_integral_contrapositive; split; [assumption|rewrite Rmult_1_r; assumption]|]. Req. field. exact Hn.
  - pose proof (pow2_ge_0 t). field. repeat split; try assumption; lra.
Qed.
(** ** Lorig *)
Lemma lorig_scale bc rho vov s0 k T order lv (c : R) : c <> 0 -> s0 <> 0 ->
  lorig_vol_at bc rho (c * vov) (c * s0) k (T / c ^ 2) order lv = c * lorig_vol_at bc rho vov s0 k T order lv.
Proof. intros Hc Hs. unfold lorig_vol_at. destruct order as [|[|[|n]]]; cbv zeta; field; auto. Qed.
Lemma lorig_sign bc rho vov s0 k T order lv : s0 <> 0 -> lorig_vol_at bc (- rho) (- vov) s0 k T order lv = lorig_vol_at bc rho vov s0 k T order lv.
Proof. intros Hs. unfold lorig_vol_at. destruct order as [|[|[|n]]]; cbv zeta; field; auto. Qed.
Lemma lorig_smile_sym vov s0 k T order lv : s0 <> 0 -> lorig_vol_at 0 0 vov s0 (- k) T order lv = lorig_vol_at 0 0 vov s0 k T order lv.
Proof. intros Hs. unfold lorig_vol_at. destruct order as [|[|[|n]]]; cbv zeta; field; auto. Qed.
(** ** Cai, Song and Chen *)
Lemma draw_solves root m n m_inv ss uu : let f := (fun x => inv_laplace m n m_inv ss x - uu) in f (root f) = 0 -> root f <> 0 ->
  inv_laplace m n m_inv ss (1 / draw_cond_avgvar root m n m_inv ss uu) = uu.
Proof.
  intros f E Hn. unfold draw_cond_avgvar. fold f. set (r := root f) in *. unfold f in E.
  replace (1 / (1 / r)) with r by (field; exact Hn). lra.
Qed.
Lemma cai_scale ratio av s c : cai_states_step ratio av (c * s) = (c * fst (cai_states_step ratio av s), c ^ 2 * snd (cai_states_step ratio av s)) /\ cai_states_step ratio av 1 = (ratio, av).
Proof. unfold cai_states_step. cbn [fst snd]. split; f_equal; ring. Qed.
