(** CIR / Heston moments restated on the coded functions. *)
From Coq Require Import Reals Lra Lia List.
From Coquelicot Require Import Coquelicot.
From Verif Require Import Base Sums M_Opt M_Mgf M_Heston Spec_Sde P_Cir P_Cir2.
Open Scope R_scope.

Lemma backward_lin k th xi rho (a b c : R) f g : backward_equation k th xi rho f -> backward_equation k th xi rho g ->
  backward_equation k th xi rho (fun t x v j => a + b * f t x v j + c * g t x v j).
Proof.
  intros (ft & fx & fxx & fv & fvv & fxv & fj & Hf) (gt & gx & gxx & gv & gvv & gxv & gj & Hg).
  exists (fun t x v j => b * ft t x v j + c * gt t x v j), (fun t x v j => b * fx t x v j + c * gx t x v j),
   (fun t x v j => b * fxx t x v j + c * gxx t x v j), (fun t x v j => b * fv t x v j + c * gv t x v j),
   (fun t x v j => b * fvv t x v j + c * gvv t x v j), (fun t x v j => b * fxv t x v j + c * gxv t x v j),
   (fun t x v j => b * fj t x v j + c * gj t x v j).
  intros t x v j Ht. destruct (Hf t x v j Ht) as (F1 & F2 & F3 & F4 & F5 & F6 & F7 & F8).
  destruct (Hg t x v j Ht) as (G1 & G2 & G3 & G4 & G5 & G6 & G7 & G8).
  assert (L : forall (A B : R -> R) (s d e a' : R), is_derive A s d -> is_derive B s e -> is_derive (fun y => a' + b * A y + c * B y) s (b * d + c * e)).
  { intros A B s d e a' HA HB. auto_derive.
    - split; [exists d; exact HA|]. split; [exists e; exact HB|exact I].
    - replace (Derive (fun x => A x) s) with d by (symmetry; exact (is_derive_unique _ _ _ HA)).
      replace (Derive (fun x => B x) s) with e by (symmetry; exact (is_derive_unique _ _ _ HB)). Req; ring. }
  assert (L0 : forall (A B : R -> R) (s d e : R), is_derive A s d -> is_derive B s e -> is_derive (fun y => b * A y + c * B y) s (b * d + c * e)).
  { intros A B s d e HA HB. apply (is_derive_ext (fun y => 0 + b * A y + c * B y)); [intros; Req; ring|]. now apply L. }
  split; [now apply L|]. split; [now apply L|]. split; [now apply L0|]. split; [now apply L|]. split; [now apply L0|].
  split; [now apply L0|]. split; [now apply L|]. rewrite F8, G8. ring.
Qed.
Lemma expectation_lin k th xi rho (a b c : R) F G f g : expectation_of k th xi rho F f -> expectation_of k th xi rho G g ->
  expectation_of k th xi rho (fun x v j => a + b * F x v j + c * G x v j) (fun t x v j => a + b * f t x v j + c * g t x v j).
Proof.
  intros [H1 H2] [H3 H4]. split; [|now apply backward_lin]. intros. now rewrite H1, H3.
Qed.

Section On.
Variables (k th xi rho : R).
Hypothesis Hk : k <> 0.
Let c := mkCir xi k th.
Let hp (v : R) := mkSv v xi rho k th.
Lemma avg_var_all t v : t ^ 2 * cir_avg_var c t v = wJ k th xi t v.
Proof.
  destruct (Req_dec t 0) as [->|H]; [|now apply cir_avg_var_eq].
  unfold wJ. rewrite !Rmult_0_r, Ropp_0, exp_0. cbv zeta. field. exact Hk.
Qed.
Lemma avg_c3_all t v : t ^ 3 * cir_avg_c3_full c t v = cJ3 k th xi t v.
Proof.
  destruct (Req_dec t 0) as [->|H]; [|now apply cir_avg_c3_eq].
  unfold cJ3. rewrite !Rmult_0_r, Ropp_0, exp_0. cbv zeta. field. exact Hk.
Qed.
Lemma logp_var_all t v : xi <> 0 -> heston_logp_var (hp v) t = wX k th xi rho t v.
Proof.
  intros Hx. destruct (Req_dec t 0) as [->|H]; [|now apply logp_var_eq].
  unfold wX, mJ, wJ, cXJ, heston_logp_var. rewrite !Rmult_0_r, Ropp_0, exp_0. cbv zeta. field. auto.
Qed.

Lemma c_exp_V : expectation_of k th xi rho (fun x v j => v) (fun t x v j => cir_mean c t v).
Proof. exact (exp_V k th xi rho). Qed.
Lemma c_exp_V2 : expectation_of k th xi rho (fun x v j => v ^ 2) (fun t x v j => cir_mean c t v ^ 2 + cir_var c t v).
Proof. eapply expectation_ext; [| |exact (exp_V2 k th xi rho Hk)]; [reflexivity|]. intros. unfold c at 2. rewrite cir_var_eq by exact Hk. reflexivity. Qed.
Lemma c_exp_J : expectation_of k th xi rho (fun x v j => j) (fun t x v j => j + t * cir_avg_mean c t v).
Proof. eapply expectation_ext; [| |exact (exp_J k th xi rho Hk)]; [reflexivity|]. intros. unfold c. now rewrite cir_avg_mean_eq by exact Hk. Qed.
Lemma c_exp_J2 : expectation_of k th xi rho (fun x v j => j ^ 2) (fun t x v j => (j + t * cir_avg_mean c t v) ^ 2 + t ^ 2 * cir_avg_var c t v).
Proof. eapply expectation_ext; [| |exact (exp_J2 k th xi rho Hk)]; [reflexivity|]. intros. unfold c at 1. rewrite cir_avg_mean_eq by exact Hk. now rewrite avg_var_all. Qed.
Lemma c_exp_J3 : expectation_of k th xi rho (fun x v j => j ^ 3)
  (fun t x v j => (j + t * cir_avg_mean c t v) ^ 3 + 3 * (j + t * cir_avg_mean c t v) * (t ^ 2 * cir_avg_var c t v) + t ^ 3 * cir_avg_c3_full c t v).
Proof. eapply expectation_ext; [| |exact (exp_J3 k th xi rho Hk)]; [reflexivity|]. intros. unfold c at 1 2. rewrite cir_avg_mean_eq by exact Hk. now rewrite avg_var_all, avg_c3_all. Qed.
Lemma c_exp_X : expectation_of k th xi rho (fun x v j => x) (fun t x v j => x + heston_logp_mean (hp v) t).
Proof. eapply expectation_ext; [| |exact (exp_X k th xi rho Hk)]; [reflexivity|]. intros. unfold hp. rewrite logp_mean_eq by exact Hk. ring. Qed.
Lemma c_exp_X2 : xi <> 0 -> expectation_of k th xi rho (fun x v j => x ^ 2) (fun t x v j => (x + heston_logp_mean (hp v) t) ^ 2 + heston_logp_var (hp v) t).
Proof. intros Hx. eapply expectation_ext; [| |exact (exp_X2 k th xi rho Hk)]; [reflexivity|]. intros. rewrite logp_var_all by exact Hx. unfold hp. rewrite logp_mean_eq by exact Hk. cbv beta. f_equal. f_equal. ring. Qed.
End On.

(** conditional second moment of the log-return over one interval *)
Lemma ret_second (p : svp) mu dt : v_mr p <> 0 -> v_vov p <> 0 -> 
  exists f, expectation_of (v_mr p) (v_theta p) (v_vov p) (v_rho p) (fun x v j => (x + mu * dt) ^ 2) f /\
   forall v j, f dt 0 v j = (let pv := mkSv v (v_vov p) (v_rho p) (v_mr p) (v_theta p) in
     heston_logp_var pv dt + (heston_logp_mean pv dt + mu * dt) ^ 2).
Proof.
  intros Hk Hx. destruct p as [v0 xi rho k th]. cbn [v_mr v_theta v_vov v_rho] in *.
  eexists. split.
  - eapply expectation_ext; [| |exact (expectation_lin _ _ _ _ ((mu * dt) ^ 2) (2 * (mu * dt)) 1 _ _ _ _ (c_exp_X k th xi rho Hk) (c_exp_X2 k th xi rho Hk Hx))];
      [intros; cbv beta; ring|reflexivity].
  - intros v j. cbv beta. ring.
Qed.

Lemma var_swap_expect (p : svp) (r q T : R) (n : nat) :
  0 < v_mr p -> v_vov p <> 0 -> 0 < T -> (0 < n)%nat ->
  let dt := T / INR n in
  let E_of := expectation_of (v_mr p) (v_theta p) (v_vov p) (v_rho p) in
  exists second total : R -> R -> R -> R -> R,
    E_of (fun x v j => (x + (r - q) * dt) ^ 2) second /\
    E_of (fun x v j => second dt 0 v 0) total /\
    heston_var_swap p r q T dt = / T * rsum n (fun i => total (INR i * dt) 0 (v_sigma p) 0).
Proof.
  intros Hk Hx HT Hn dt E_of.
  destruct (ret_second p (r - q) dt ltac:(lra) Hx) as (f & Hf & Ef).
  destruct (var_swap_sum p r q T n Hk Hx HT Hn) as (a0 & a1 & a2 & Hq & HS). fold dt in Hq, HS.
  exists f, (fun t x v j => a0 + a1 * cir_mean (heston_cir p) t v + a2 * (cir_mean (heston_cir p) t v ^ 2 + cir_var (heston_cir p) t v)).
  split; [exact Hf|]. split; [|exact HS]. unfold E_of.
  eapply expectation_ext; [| |exact (expectation_lin _ _ _ _ a0 a1 a2 _ _ _ _ (c_exp_V (v_mr p) (v_theta p) (v_vov p) (v_rho p)) (c_exp_V2 (v_mr p) (v_theta p) (v_vov p) (v_rho p) ltac:(lra)))];
    [|reflexivity].
  intros x v j. rewrite Ef. symmetry. apply Hq.
Qed.
