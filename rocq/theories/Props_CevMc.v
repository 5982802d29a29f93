(** C73: the CEV Monte-Carlo simulation. *)
From Coq Require Import Reals List Lra.
From Coquelicot Require Import Coquelicot.
From Verif Require Import Sums Spec_Opt Spec_Cev Spec_Dist Spec_Recip Spec_CevMc M_Opt M_Cev P_CevMc3 P_Gamma2 P_Ncx3.
Import ListNotations.
Open Scope R_scope.

(** One step has exactly the law reported by cdf: let u g n be the probability that the simulated price exceeds K when the first gamma draw is g
    and the Poisson draw is n (so the second gamma draw has shape n + 1); averaged over the Poisson draw and over the first gamma draw it is cdf(K). *)
Theorem C73_step_law : forall Gam cdf sf pdf, gamma_function Gam -> ncx2_routines Gam cdf sf pdf -> forall beta m S T K u,
  beta < 1 -> sigma m <> 0 -> 0 < S -> 0 < T -> is_fwd m = false -> 0 < K ->
  (forall g n, 0 < g -> pos_expect (gamma_pdf Gam (INR n + 1)) (fun x => above K (cevmc_step beta m g (fun _ => x) S T)) (u g n)) ->
  pos_expect (gamma_pdf Gam (1 / (2 * (1 - beta)))) (fun g => Series (fun n => pois (cevmc_lam beta m g S T) n * u g n)) (cev_cdf cdf sf beta m K S T 1).
Proof. intros Gam cdf sf pdf HG HR beta m S T K u Hb Hs HS HT Hf HK Hu. rewrite (mc_cdf Gam HG beta m S T Hb Hs HS HT Hf cdf sf pdf K HR HK). exact (mc_law Gam HG beta m S T Hb Hs HS HT K u HK Hu). Qed.
Print Assumptions C73_step_law.
(** such conditional probabilities exist *)
Theorem C73_step_cond : forall Gam beta m S T K, gamma_function Gam -> beta < 1 -> sigma m <> 0 -> 0 < S -> 0 < T -> 0 < K ->
  exists u, forall g n, 0 < g -> pos_expect (gamma_pdf Gam (INR n + 1)) (fun x => above K (cevmc_step beta m g (fun _ => x) S T)) (u g n).
Proof. intros Gam beta m S T K HG Hb Hs HS HT HK. eexists. intros g n _. exact (mc_cond Gam HG beta m S T Hb Hs HS HT g K n HK). Qed.
Print Assumptions C73_step_cond.
(** the step hits zero with probability mass_zero *)
Theorem C73_step_mass : forall Gam gcdf gsf, gamma_function Gam -> gamma_routines Gam gcdf gsf -> forall beta m S T pg,
  beta < 1 -> sigma m <> 0 -> 0 < S -> 0 < T -> is_fwd m = false -> (forall l, 0 < l -> 0 < pg l) ->
  pos_expect (gamma_pdf Gam (1 / (2 * (1 - beta)))) (fun g => 1 - above 0 (cevmc_step beta m g pg S T)) (cev_mass_zero gsf beta m S T).
Proof. intros Gam gcdf gsf HG HR beta m S T pg Hb Hs HS HT Hf Hp. exact (mc_zero Gam HG beta m S T Hb Hs HS HT Hf pg gcdf gsf HR Hp). Qed.
Print Assumptions C73_step_mass.
(** paths never become negative, and once at zero stay there *)
Theorem C73_path : forall beta m s1 s2 S, 0 <= S -> 0 <= cevmc_path beta m s1 S /\
  (cevmc_path beta m s1 S = 0 -> cevmc_path beta m (s1 ++ s2) S = 0) /\ cevmc_path beta m (s1 ++ s2) S = cevmc_path beta m s2 (cevmc_path beta m s1 S).
Proof. intros beta m s1 s2 S HS. split; [now apply mc_path_nonneg|]. split; [apply mc_path_absorb|apply mc_path_app]. Qed.
Print Assumptions C73_path.
(** prices from the simulated terminal values: parity with the sample mean as the forward, the zero-strike call is the discounted sample mean,
    and the put is at least the discounted strike times the simulated mass at zero *)
Theorem C73_price : forall m l K T, l <> [] -> (forall s, In s l -> 0 <= s) ->
  cevmc_price m l K T 1 - cevmc_price m l K T (-1) = DF (intr m) T * (lmean l - K) /\
  cevmc_price m l 0 T 1 = DF (intr m) T * lmean l /\
  (0 < K -> DF (intr m) T * K * cevmc_mass_zero l <= cevmc_price m l K T (-1) <= DF (intr m) T * K).
Proof. intros m l K T Hl Hp. split; [now apply mc_parity|]. split; [now apply mc_call_0|]. intros HK. now apply mc_price_put. Qed.
Print Assumptions C73_price.

Example C73_ex : exists Gam cdf sf pdf u v, gamma_function Gam /\ ncx2_routines Gam cdf sf pdf /\ let m := mkOpt 2 (/ 20) (/ 10) false in
  (forall g n, 0 < g -> pos_expect (gamma_pdf Gam (INR n + 1)) (fun x => above 90 (cevmc_step (/ 2) m g (fun _ => x) 100 1)) (u g n)) /\
  pos_expect (gamma_pdf Gam (1 / (2 * (1 - / 2)))) (fun g => Series (fun n => pois (cevmc_lam (/ 2) m g 100 1) n * u g n)) v.
Proof.
  destruct gamma_exists as [Gam HG]. destruct (ncx2_exists Gam HG) as (cdf & sf & pdf & HR). set (m := mkOpt 2 (/ 20) (/ 10) false).
  destruct (C73_step_cond Gam (/ 2) m 100 1 90 HG) as [u Hu]; try (unfold m; cbn; lra).
  exists Gam, cdf, sf, pdf, u, (cev_cdf cdf sf (/ 2) m 90 100 1 1). split; [exact HG|]. split; [exact HR|]. split; [exact Hu|].
  apply (C73_step_law Gam cdf sf pdf HG HR (/ 2) m 100 1 90 u); try (unfold m; cbn; lra); try reflexivity; exact Hu.
Qed.
Example C73_price_ex : cevmc_price (mkOpt 1 0 0 false) [0; 3] 1 1 1 = 1.
Proof. unfold cevmc_price. cbn [intr map lsum fold_right length INR]. replace (- 0 * 1) with 0 by ring. rewrite exp_0. unfold lsum. cbn. rewrite (Rmax_right (1 * (0 - 1))), (Rmax_left (1 * (3 - 1))) by lra. lra. Qed.
