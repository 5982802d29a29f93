(** Small-volatility expansions of the conditional average-variance statistics (generated coefficient lists, checked here). *)
From Coq Require Import Reals Lra Lia Arith ZArith List Psatz.
From Coquelicot Require Import Coquelicot.
From Verif Require Import Base Gauss Sums Spec_Expect M_Sabr P_Herm P_Jet.
Open Scope R_scope.
Fixpoint zfact (n : nat) : Z := match n with O => 1%Z | S k => (Z.of_nat (S k) * zfact k)%Z end.
Lemma zfact_eq n : INR (fact n) = IZR (zfact n).
Proof.
  induction n as [|n IH]; [reflexivity|]. rewrite fact_simpl, mult_INR, IH, INR_IZR_INZ, <- mult_IZR. reflexivity.
Qed.
Lemma fc0 : INR (fact 0) = 1.
Proof. rewrite zfact_eq. reflexivity. Qed.
Lemma fc1 : INR (fact 1) = 1.
Proof. rewrite zfact_eq. reflexivity. Qed.
Lemma fc2 : INR (fact 2) = 2.
Proof. rewrite zfact_eq. reflexivity. Qed.
Lemma fc3 : INR (fact 3) = 6.
Proof. rewrite zfact_eq. reflexivity. Qed.
Lemma fc4 : INR (fact 4) = 24.
Proof. rewrite zfact_eq. reflexivity. Qed.
Lemma fc5 : INR (fact 5) = 120.
Proof. rewrite zfact_eq. reflexivity. Qed.
Lemma fc6 : INR (fact 6) = 720.
Proof. rewrite zfact_eq. reflexivity. Qed.
Lemma fc7 : INR (fact 7) = 5040.
Proof. rewrite zfact_eq. reflexivity. Qed.
Lemma fc8 : INR (fact 8) = 40320.
Proof. rewrite zfact_eq. reflexivity. Qed.
Lemma fc9 : INR (fact 9) = 362880.
Proof. rewrite zfact_eq. reflexivity. Qed.
Lemma fc10 : INR (fact 10) = 3628800.
Proof. rewrite zfact_eq. reflexivity. Qed.
Lemma fc11 : INR (fact 11) = 39916800.
Proof. rewrite zfact_eq. reflexivity. Qed.
Lemma fc12 : INR (fact 12) = 479001600.
Proof. rewrite zfact_eq. reflexivity. Qed.
Lemma fc13 : INR (fact 13) = 6227020800.
Proof. rewrite zfact_eq. reflexivity. Qed.
Lemma fc14 : INR (fact 14) = 87178291200.
Proof. rewrite zfact_eq. reflexivity. Qed.
Lemma fc15 : INR (fact 15) = 1307674368000.
Proof. rewrite zfact_eq. reflexivity. Qed.
Ltac fcs := rewrite ?fc0, ?fc1, ?fc2, ?fc3, ?fc4, ?fc5, ?fc6, ?fc7, ?fc8, ?fc9, ?fc10, ?fc11, ?fc12, ?fc13, ?fc14, ?fc15.
Lemma he0 z : He 0 z = 1.
Proof. cbn [He]. field. Qed.
Lemma he1 z : He 1 z = 1 * z ^ 1.
Proof. cbn [He]. field. Qed.
Lemma he2 z : He 2 z = - (1) + 1 * z ^ 2.
Proof. rewrite He_SS, he1, he0, INR_IZR_INZ. cbn [Z.of_nat Pos.of_succ_nat Pos.succ]. ring. Qed.
Lemma he3 z : He 3 z = - (3 * z ^ 1) + 1 * z ^ 3.
Proof. rewrite He_SS, he2, he1, INR_IZR_INZ. cbn [Z.of_nat Pos.of_succ_nat Pos.succ]. ring. Qed.
Lemma he4 z : He 4 z = 3 - 6 * z ^ 2 + 1 * z ^ 4.
Proof. rewrite He_SS, he3, he2, INR_IZR_INZ. cbn [Z.of_nat Pos.of_succ_nat Pos.succ]. ring. Qed.
Lemma he5 z : He 5 z = 15 * z ^ 1 - 10 * z ^ 3 + 1 * z ^ 5.
Proof. rewrite He_SS, he4, he3, INR_IZR_INZ. cbn [Z.of_nat Pos.of_succ_nat Pos.succ]. ring. Qed.
Lemma he6 z : He 6 z = - (15) + 45 * z ^ 2 - 15 * z ^ 4 + 1 * z ^ 6.
Proof. rewrite He_SS, he5, he4, INR_IZR_INZ. cbn [Z.of_nat Pos.of_succ_nat Pos.succ]. ring. Qed.
Lemma he7 z : He 7 z = - (105 * z ^ 1) + 105 * z ^ 3 - 21 * z ^ 5 + 1 * z ^ 7.
Proof. rewrite He_SS, he6, he5, INR_IZR_INZ. cbn [Z.of_nat Pos.of_succ_nat Pos.succ]. ring. Qed.
Lemma he8 z : He 8 z = 105 - 420 * z ^ 2 + 210 * z ^ 4 - 28 * z ^ 6 + 1 * z ^ 8.
Proof. rewrite He_SS, he7, he6, INR_IZR_INZ. cbn [Z.of_nat Pos.of_succ_nat Pos.succ]. ring. Qed.
Lemma he9 z : He 9 z = 945 * z ^ 1 - 1260 * z ^ 3 + 378 * z ^ 5 - 36 * z ^ 7 + 1 * z ^ 9.
Proof. rewrite He_SS, he8, he7, INR_IZR_INZ. cbn [Z.of_nat Pos.of_succ_nat Pos.succ]. ring. Qed.
Lemma he10 z : He 10 z = - (945) + 4725 * z ^ 2 - 3150 * z ^ 4 + 630 * z ^ 6 - 45 * z ^ 8 + 1 * z ^ 10.
Proof. rewrite He_SS, he9, he8, INR_IZR_INZ. cbn [Z.of_nat Pos.of_succ_nat Pos.succ]. ring. Qed.
Lemma he11 z : He 11 z = - (10395 * z ^ 1) + 17325 * z ^ 3 - 6930 * z ^ 5 + 990 * z ^ 7 - 55 * z ^ 9 + 1 * z ^ 11.
Proof. rewrite He_SS, he10, he9, INR_IZR_INZ. cbn [Z.of_nat Pos.of_succ_nat Pos.succ]. ring. Qed.
Lemma he12 z : He 12 z = 10395 - 62370 * z ^ 2 + 51975 * z ^ 4 - 13860 * z ^ 6 + 1485 * z ^ 8 - 66 * z ^ 10 + 1 * z ^ 12.
Proof. rewrite He_SS, he11, he10, INR_IZR_INZ. cbn [Z.of_nat Pos.of_succ_nat Pos.succ]. ring. Qed.
Lemma he13 z : He 13 z = 135135 * z ^ 1 - 270270 * z ^ 3 + 135135 * z ^ 5 - 25740 * z ^ 7 + 2145 * z ^ 9 - 78 * z ^ 11 + 1 * z ^ 13.
Proof. rewrite He_SS, he12, he11, INR_IZR_INZ. cbn [Z.of_nat Pos.of_succ_nat Pos.succ]. ring. Qed.
Lemma he14 z : He 14 z = - (135135) + 945945 * z ^ 2 - 945945 * z ^ 4 + 315315 * z ^ 6 - 45045 * z ^ 8 + 3003 * z ^ 10 - 91 * z ^ 12 + 1 * z ^ 14.
Proof. rewrite He_SS, he13, he12, INR_IZR_INZ. cbn [Z.of_nat Pos.of_succ_nat Pos.succ]. ring. Qed.
Ltac hes := rewrite ?he0, ?he2, ?he4, ?he6, ?he8, ?he10, ?he12, ?he14.
Ltac each := let i := fresh "i" in let H := fresh "H" in intros i H;
  do 8 (try (destruct i as [|i]; [clear H; unfold cv, nthf; cbn [rsum Nat.sub Nat.mul Nat.add nth]; try fcs; try hes; field|])); lia.
Section J.
Variable z : R.
Lemma jM1 : jets 8 (fun v => mfn_exact z v) (nthf ((1) :: (1 / 3 + 1 / 6 * z ^ 2) :: (1 / 15 + 1 / 30 * z ^ 2 + 1 / 120 * z ^ 4) :: (1 / 105 + 1 / 210 * z ^ 2 + 1 / 840 * z ^ 4 + 1 / 5040 * z ^ 6) :: (1 / 945 + 1 / 1890 * z ^ 2 + 1 / 7560 * z ^ 4 + 1 / 45360 * z ^ 6 + 1 / 362880 * z ^ 8) :: (1 / 10395 + 1 / 20790 * z ^ 2 + 1 / 83160 * z ^ 4 + 1 / 498960 * z ^ 6 + 1 / 3991680 * z ^ 8 + 1 / 39916800 * z ^ 10) :: (1 / 135135 + 1 / 270270 * z ^ 2 + 1 / 1081080 * z ^ 4 + 1 / 6486480 * z ^ 6 + 1 / 51891840 * z ^ 8 + 1 / 518918400 * z ^ 10 + 1 / 6227020800 * z ^ 12) :: (1 / 2027025 + 1 / 4054050 * z ^ 2 + 1 / 16216200 * z ^ 4 + 1 / 97297200 * z ^ 6 + 1 / 778377600 * z ^ 8 + 1 / 7783776000 * z ^ 10 + 1 / 93405312000 * z ^ 12 + 1 / 1307674368000 * z ^ 14) :: nil)).
Proof. eapply jets_ext; [| |apply (jets_mfn 8 z)]; [intros; cbv beta; try reflexivity; try ring|each]. Qed.
Lemma jM2 : jets 8 (fun v => mfn_exact z (2 * v)) (nthf ((1) :: (4 / 3 + 2 / 3 * z ^ 2) :: (16 / 15 + 8 / 15 * z ^ 2 + 2 / 15 * z ^ 4) :: (64 / 105 + 32 / 105 * z ^ 2 + 8 / 105 * z ^ 4 + 4 / 315 * z ^ 6) :: (256 / 945 + 128 / 945 * z ^ 2 + 32 / 945 * z ^ 4 + 16 / 2835 * z ^ 6 + 2 / 2835 * z ^ 8) :: (1024 / 10395 + 512 / 10395 * z ^ 2 + 128 / 10395 * z ^ 4 + 64 / 31185 * z ^ 6 + 8 / 31185 * z ^ 8 + 4 / 155925 * z ^ 10) :: (4096 / 135135 + 2048 / 135135 * z ^ 2 + 512 / 135135 * z ^ 4 + 256 / 405405 * z ^ 6 + 32 / 405405 * z ^ 8 + 16 / 2027025 * z ^ 10 + 4 / 6081075 * z ^ 12) :: (16384 / 2027025 + 8192 / 2027025 * z ^ 2 + 2048 / 2027025 * z ^ 4 + 1024 / 6081075 * z ^ 6 + 128 / 6081075 * z ^ 8 + 64 / 30405375 * z ^ 10 + 16 / 91216125 * z ^ 12 + 8 / 638512875 * z ^ 14) :: nil)).
Proof. eapply jets_ext; [| |apply (jets_scale_arg 8 _ _ 2 ltac:(lra) jM1)]; [intros; cbv beta; try reflexivity; try ring|each]. Qed.
Lemma jM3 : jets 8 (fun v => mfn_exact z (3 * v)) (nthf ((1) :: (3 + 3 / 2 * z ^ 2) :: (27 / 5 + 27 / 10 * z ^ 2 + 27 / 40 * z ^ 4) :: (243 / 35 + 243 / 70 * z ^ 2 + 243 / 280 * z ^ 4 + 81 / 560 * z ^ 6) :: (243 / 35 + 243 / 70 * z ^ 2 + 243 / 280 * z ^ 4 + 81 / 560 * z ^ 6 + 81 / 4480 * z ^ 8) :: (2187 / 385 + 2187 / 770 * z ^ 2 + 2187 / 3080 * z ^ 4 + 729 / 6160 * z ^ 6 + 729 / 49280 * z ^ 8 + 729 / 492800 * z ^ 10) :: (19683 / 5005 + 19683 / 10010 * z ^ 2 + 19683 / 40040 * z ^ 4 + 6561 / 80080 * z ^ 6 + 6561 / 640640 * z ^ 8 + 6561 / 6406400 * z ^ 10 + 2187 / 25625600 * z ^ 12) :: (59049 / 25025 + 59049 / 50050 * z ^ 2 + 59049 / 200200 * z ^ 4 + 19683 / 400400 * z ^ 6 + 19683 / 3203200 * z ^ 8 + 19683 / 32032000 * z ^ 10 + 6561 / 128128000 * z ^ 12 + 6561 / 1793792000 * z ^ 14) :: nil)).
Proof. eapply jets_ext; [| |apply (jets_scale_arg 8 _ _ 3 ltac:(lra) jM1)]; [intros; cbv beta; try reflexivity; try ring|each]. Qed.
Lemma jM4 : jets 8 (fun v => mfn_exact z (4 * v)) (nthf ((1) :: (16 / 3 + 8 / 3 * z ^ 2) :: (256 / 15 + 128 / 15 * z ^ 2 + 32 / 15 * z ^ 4) :: (4096 / 105 + 2048 / 105 * z ^ 2 + 512 / 105 * z ^ 4 + 256 / 315 * z ^ 6) :: (65536 / 945 + 32768 / 945 * z ^ 2 + 8192 / 945 * z ^ 4 + 4096 / 2835 * z ^ 6 + 512 / 2835 * z ^ 8) :: (1048576 / 10395 + 524288 / 10395 * z ^ 2 + 131072 / 10395 * z ^ 4 + 65536 / 31185 * z ^ 6 + 8192 / 31185 * z ^ 8 + 4096 / 155925 * z ^ 10) :: (16777216 / 135135 + 8388608 / 135135 * z ^ 2 + 2097152 / 135135 * z ^ 4 + 1048576 / 405405 * z ^ 6 + 131072 / 405405 * z ^ 8 + 65536 / 2027025 * z ^ 10 + 16384 / 6081075 * z ^ 12) :: (268435456 / 2027025 + 134217728 / 2027025 * z ^ 2 + 33554432 / 2027025 * z ^ 4 + 16777216 / 6081075 * z ^ 6 + 2097152 / 6081075 * z ^ 8 + 1048576 / 30405375 * z ^ 10 + 262144 / 91216125 * z ^ 12 + 131072 / 638512875 * z ^ 14) :: nil)).
Proof. eapply jets_ext; [| |apply (jets_scale_arg 8 _ _ 4 ltac:(lra) jM1)]; [intros; cbv beta; try reflexivity; try ring|each]. Qed.
Lemma jc : jets 8 (fun v => cosh_z v z) (nthf ((1) :: (1 / 2 * z ^ 2) :: (1 / 24 * z ^ 4) :: (1 / 720 * z ^ 6) :: (1 / 40320 * z ^ 8) :: (1 / 3628800 * z ^ 10) :: (1 / 479001600 * z ^ 12) :: (1 / 87178291200 * z ^ 14) :: nil)).
Proof. eapply jets_ext; [| |apply (jets_cosh 8 z)]; [intros; cbv beta; try reflexivity; try ring|each]. Qed.
Lemma jc2 : jets 8 (fun v => cosh_z v z ^ 2) (nthf ((1) :: (1 * z ^ 2) :: (1 / 3 * z ^ 4) :: (2 / 45 * z ^ 6) :: (1 / 315 * z ^ 8) :: (2 / 14175 * z ^ 10) :: (2 / 467775 * z ^ 12) :: (4 / 42567525 * z ^ 14) :: nil)).
Proof. eapply jets_ext; [| |apply (jets_mult 8 _ _ _ _ jc jc)]; [intros; cbv beta; try reflexivity; try ring|each]. Qed.
Lemma jM1c : jets 8 (fun v => mfn_exact z v * cosh_z v z) (nthf ((1) :: (1 / 3 + 2 / 3 * z ^ 2) :: (1 / 15 + 1 / 5 * z ^ 2 + 2 / 15 * z ^ 4) :: (1 / 105 + 4 / 105 * z ^ 2 + 2 / 63 * z ^ 4 + 4 / 315 * z ^ 6) :: (1 / 945 + 1 / 189 * z ^ 2 + 1 / 189 * z ^ 4 + 1 / 405 * z ^ 6 + 2 / 2835 * z ^ 8) :: (1 / 10395 + 2 / 3465 * z ^ 2 + 1 / 1485 * z ^ 4 + 8 / 22275 * z ^ 6 + 2 / 17325 * z ^ 8 + 4 / 155925 * z ^ 10) :: (1 / 135135 + 1 / 19305 * z ^ 2 + 4 / 57915 * z ^ 4 + 4 / 96525 * z ^ 6 + 2 / 135135 * z ^ 8 + 2 / 552825 * z ^ 10 + 4 / 6081075 * z ^ 12) :: (1 / 2027025 + 8 / 2027025 * z ^ 2 + 4 / 675675 * z ^ 4 + 8 / 2027025 * z ^ 6 + 2 / 1289925 * z ^ 8 + 8 / 19348875 * z ^ 10 + 4 / 49116375 * z ^ 12 + 8 / 638512875 * z ^ 14) :: nil)).
Proof. eapply jets_ext; [| |apply (jets_mult 8 _ _ _ _ jM1 jc)]; [intros; cbv beta; try reflexivity; try ring|each]. Qed.
Lemma jM2c : jets 8 (fun v => mfn_exact z (2 * v) * cosh_z v z) (nthf ((1) :: (4 / 3 + 7 / 6 * z ^ 2) :: (16 / 15 + 6 / 5 * z ^ 2 + 61 / 120 * z ^ 4) :: (64 / 105 + 88 / 105 * z ^ 2 + 251 / 630 * z ^ 4 + 547 / 5040 * z ^ 6) :: (256 / 945 + 416 / 945 * z ^ 2 + 218 / 945 * z ^ 4 + 769 / 11340 * z ^ 6 + 703 / 51840 * z ^ 8) :: (1024 / 10395 + 128 / 693 * z ^ 2 + 1096 / 10395 * z ^ 4 + 5171 / 155925 * z ^ 6 + 11687 / 1663200 * z ^ 8 + 44287 / 39916800 * z ^ 10) :: (4096 / 135135 + 8704 / 135135 * z ^ 2 + 16096 / 405405 * z ^ 4 + 8972 / 675675 * z ^ 6 + 16031 / 5405400 * z ^ 8 + 190987 / 389188800 * z ^ 10 + 398581 / 6227020800 * z ^ 12) :: (16384 / 2027025 + 38912 / 2027025 * z ^ 2 + 8576 / 675675 * z ^ 4 + 9104 / 2027025 * z ^ 6 + 5977 / 5675670 * z ^ 8 + 619669 / 3405402000 * z ^ 10 + 4035631 / 163459296000 * z ^ 12 + 512461 / 186810624000 * z ^ 14) :: nil)).
Proof. eapply jets_ext; [| |apply (jets_mult 8 _ _ _ _ jM2 jc)]; [intros; cbv beta; try reflexivity; try ring|each]. Qed.
Lemma jM3c : jets 8 (fun v => mfn_exact z (3 * v) * cosh_z v z) (nthf ((1) :: (3 + 2 * z ^ 2) :: (27 / 5 + 21 / 5 * z ^ 2 + 22 / 15 * z ^ 4) :: (243 / 35 + 216 / 35 * z ^ 2 + 82 / 35 * z ^ 4 + 172 / 315 * z ^ 6) :: (243 / 35 + 243 / 35 * z ^ 2 + 99 / 35 * z ^ 4 + 73 / 105 * z ^ 6 + 38 / 315 * z ^ 8) :: (2187 / 385 + 486 / 77 * z ^ 2 + 1053 / 385 * z ^ 4 + 1356 / 1925 * z ^ 6 + 734 / 5775 * z ^ 8 + 2732 / 155925 * z ^ 10) :: (19683 / 5005 + 2187 / 455 * z ^ 2 + 11016 / 5005 * z ^ 4 + 14796 / 25025 * z ^ 6 + 2766 / 25025 * z ^ 8 + 10622 / 675675 * z ^ 10 + 10924 / 6081075 * z ^ 12) :: (59049 / 25025 + 78732 / 25025 * z ^ 2 + 2916 / 1925 * z ^ 4 + 1512 / 3575 * z ^ 6 + 2862 / 35035 * z ^ 8 + 31424 / 2627625 * z ^ 10 + 99524 / 70945875 * z ^ 12 + 2648 / 19348875 * z ^ 14) :: nil)).
Proof. eapply jets_ext; [| |apply (jets_mult 8 _ _ _ _ jM3 jc)]; [intros; cbv beta; try reflexivity; try ring|each]. Qed.
Lemma jA3 : jets 8 (fun v => 4 * cosh_z v z ^ 2 + 1) (nthf ((5) :: (4 * z ^ 2) :: (4 / 3 * z ^ 4) :: (8 / 45 * z ^ 6) :: (4 / 315 * z ^ 8) :: (8 / 14175 * z ^ 10) :: (8 / 467775 * z ^ 12) :: (16 / 42567525 * z ^ 14) :: nil)).
Proof. eapply jets_ext; [| |apply (jets_plus 8 _ _ _ _ (jets_scal 8 4 _ _ jc2) (jets_const 7 1))]; [intros; cbv beta; try reflexivity; try ring|each]. Qed.
Lemma jA4 : jets 8 (fun v => 12 * cosh_z v z ^ 2 + 2) (nthf ((14) :: (12 * z ^ 2) :: (4 * z ^ 4) :: (8 / 15 * z ^ 6) :: (4 / 105 * z ^ 8) :: (8 / 4725 * z ^ 10) :: (8 / 155925 * z ^ 12) :: (16 / 14189175 * z ^ 14) :: nil)).
Proof. eapply jets_ext; [| |apply (jets_plus 8 _ _ _ _ (jets_scal 8 12 _ _ jc2) (jets_const 7 2))]; [intros; cbv beta; try reflexivity; try ring|each]. Qed.
Lemma jA5 : jets 8 (fun v => 4 * cosh_z v z ^ 2 + 3) (nthf ((7) :: (4 * z ^ 2) :: (4 / 3 * z ^ 4) :: (8 / 45 * z ^ 6) :: (4 / 315 * z ^ 8) :: (8 / 14175 * z ^ 10) :: (8 / 467775 * z ^ 12) :: (16 / 42567525 * z ^ 14) :: nil)).
Proof. eapply jets_ext; [| |apply (jets_plus 8 _ _ _ _ (jets_scal 8 4 _ _ jc2) (jets_const 7 3))]; [intros; cbv beta; try reflexivity; try ring|each]. Qed.
Lemma jM1A3 : jets 8 (fun v => mfn_exact z v * (4 * cosh_z v z ^ 2 + 1)) (nthf ((5) :: (5 / 3 + 29 / 6 * z ^ 2) :: (1 / 3 + 3 / 2 * z ^ 2 + 49 / 24 * z ^ 4) :: (1 / 21 + 61 / 210 * z ^ 2 + 1471 / 2520 * z ^ 4 + 2189 / 5040 * z ^ 6) :: (1 / 189 + 11 / 270 * z ^ 2 + 821 / 7560 * z ^ 4 + 985 / 9072 * z ^ 6 + 3937 / 72576 * z ^ 8) :: (1 / 2079 + 31 / 6930 * z ^ 2 + 1237 / 83160 * z ^ 4 + 6679 / 356400 * z ^ 6 + 78739 / 6652800 * z ^ 8 + 25307 / 5702400 * z ^ 10) :: (1 / 27027 + 109 / 270270 * z ^ 2 + 149 / 92664 * z ^ 4 + 26459 / 10810800 * z ^ 6 + 18043 / 9609600 * z ^ 8 + 265723 / 311351040 * z ^ 10 + 63773 / 249080832 * z ^ 12) :: (1 / 405405 + 5 / 162162 * z ^ 2 + 31 / 216216 * z ^ 4 + 8303 / 32432400 * z ^ 6 + 420737 / 1816214400 * z ^ 8 + 6775883 / 54486432000 * z ^ 10 + 28697843 / 653837184000 * z ^ 12 + 14348909 / 1307674368000 * z ^ 14) :: nil)).
Proof. eapply jets_ext; [| |apply (jets_mult 8 _ _ _ _ jM1 jA3)]; [intros; cbv beta; try reflexivity; try ring|each]. Qed.
Lemma jM2A4 : jets 8 (fun v => mfn_exact z (2 * v) * (12 * cosh_z v z ^ 2 + 2)) (nthf ((14) :: (56 / 3 + 64 / 3 * z ^ 2) :: (224 / 15 + 352 / 15 * z ^ 2 + 208 / 15 * z ^ 4) :: (128 / 15 + 256 / 15 * z ^ 2 + 64 / 5 * z ^ 4 + 224 / 45 * z ^ 6) :: (512 / 135 + 8704 / 945 * z ^ 2 + 7936 / 945 * z ^ 4 + 2176 / 567 * z ^ 6 + 3088 / 2835 * z ^ 8) :: (2048 / 1485 + 8192 / 2079 * z ^ 2 + 44032 / 10395 * z ^ 4 + 346624 / 155925 * z ^ 6 + 110912 / 155925 * z ^ 8 + 24608 / 155925 * z ^ 10) :: (8192 / 19305 + 188416 / 135135 * z ^ 2 + 77824 / 45045 * z ^ 4 + 2074624 / 2027025 * z ^ 6 + 147712 / 405405 * z ^ 8 + 180352 / 2027025 * z ^ 10 + 14048 / 868725 * z ^ 12) :: (32768 / 289575 + 65536 / 155925 * z ^ 2 + 1196032 / 2027025 * z ^ 4 + 2367488 / 6081075 * z ^ 6 + 6495232 / 42567525 * z ^ 8 + 8654336 / 212837625 * z ^ 10 + 5112704 / 638512875 * z ^ 12 + 786496 / 638512875 * z ^ 14) :: nil)).
Proof. eapply jets_ext; [| |apply (jets_mult 8 _ _ _ _ jM2 jA4)]; [intros; cbv beta; try reflexivity; try ring|each]. Qed.
Lemma jM1A5 : jets 8 (fun v => mfn_exact z v * cosh_z v z * (4 * cosh_z v z ^ 2 + 3)) (nthf ((7) :: (7 / 3 + 26 / 3 * z ^ 2) :: (7 / 15 + 41 / 15 * z ^ 2 + 74 / 15 * z ^ 4) :: (1 / 15 + 8 / 15 * z ^ 2 + 22 / 15 * z ^ 4 + 76 / 45 * z ^ 6) :: (1 / 135 + 71 / 945 * z ^ 2 + 263 / 945 * z ^ 4 + 1333 / 2835 * z ^ 6 + 1034 / 2835 * z ^ 8) :: (1 / 1485 + 86 / 10395 * z ^ 2 + 401 / 10395 * z ^ 4 + 2692 / 31185 * z ^ 6 + 2894 / 31185 * z ^ 8 + 8212 / 155925 * z ^ 10) :: (1 / 19305 + 101 / 135135 * z ^ 2 + 568 / 135135 * z ^ 4 + 4756 / 405405 * z ^ 6 + 32866 / 2027025 * z ^ 8 + 1642 / 135135 * z ^ 10 + 4684 / 868725 * z ^ 12) :: (1 / 289575 + 116 / 2027025 * z ^ 2 + 764 / 2027025 * z ^ 4 + 1096 / 868725 * z ^ 6 + 8266 / 3869775 * z ^ 8 + 426304 / 212837625 * z ^ 10 + 721276 / 638512875 * z ^ 12 + 20168 / 49116375 * z ^ 14) :: nil)).
Proof. eapply jets_ext; [| |apply (jets_mult 8 _ _ _ _ jM1c jA5)]; [intros; cbv beta; try reflexivity; try ring|each]. Qed.
Lemma jX2 : jets 8 (fun v => mfn_exact z (2 * v) - mfn_exact z v * cosh_z v z) (nthf ((0) :: (1) :: (1 + 1 / 3 * z ^ 2) :: (3 / 5 + 4 / 15 * z ^ 2 + 2 / 45 * z ^ 4) :: (17 / 63 + 41 / 315 * z ^ 2 + 1 / 35 * z ^ 4 + 1 / 315 * z ^ 6) :: (31 / 315 + 46 / 945 * z ^ 2 + 11 / 945 * z ^ 4 + 8 / 4725 * z ^ 6 + 2 / 14175 * z ^ 8) :: (1 / 33 + 157 / 10395 * z ^ 2 + 116 / 31185 * z ^ 4 + 92 / 155925 * z ^ 6 + 2 / 31185 * z ^ 8 + 2 / 467775 * z ^ 10) :: (5461 / 675675 + 248 / 61425 * z ^ 2 + 2036 / 2027025 * z ^ 4 + 40 / 243243 * z ^ 6 + 166 / 8513505 * z ^ 8 + 8 / 4729725 * z ^ 10 + 4 / 42567525 * z ^ 12) :: nil)).
Proof. eapply jets_ext; [| |apply (jets_minus 8 _ _ _ _ jM2 jM1c)]; [intros; cbv beta; try reflexivity; try ring|each]. Qed.
Lemma jX3 : jets 8 (fun v => 3 * mfn_exact z (3 * v) - 8 * mfn_exact z (2 * v) * cosh_z v z + mfn_exact z v * (4 * cosh_z v z ^ 2 + 1)) (nthf ((0) :: (0) :: (8) :: (16 + 4 * z ^ 2) :: (56 / 3 + 104 / 15 * z ^ 2 + 13 / 15 * z ^ 4) :: (1024 / 63 + 148 / 21 * z ^ 2 + 82 / 63 * z ^ 4 + 41 / 378 * z ^ 6) :: (104 / 9 + 1696 / 315 * z ^ 2 + 73 / 63 * z ^ 4 + 671 / 4725 * z ^ 6 + 671 / 75600 * z ^ 8) :: (3472 / 495 + 1676 / 495 * z ^ 2 + 8144 / 10395 * z ^ 4 + 6973 / 62370 * z ^ 6 + 73 / 7128 * z ^ 8 + 73 / 142560 * z ^ 10) :: nil)).
Proof. eapply jets_ext; [| |apply (jets_plus 8 _ _ _ _ (jets_minus 8 _ _ _ _ (jets_scal 8 3 _ _ jM3) (jets_scal 8 8 _ _ jM2c)) jM1A3)]; [intros; cbv beta; try reflexivity; try ring|each]. Qed.
Lemma jX4 : jets 8 (fun v => 2 * mfn_exact z (4 * v) - 9 * mfn_exact z (3 * v) * cosh_z v z + mfn_exact z (2 * v) * (12 * cosh_z v z ^ 2 + 2) - mfn_exact z v * cosh_z v z * (4 * cosh_z v z ^ 2 + 3)) (nthf ((0) :: (0) :: (0) :: (24) :: (80 + 16 * z ^ 2) :: (152 + 48 * z ^ 2 + 24 / 5 * z ^ 4) :: (640 / 3 + 576 / 7 * z ^ 2 + 272 / 21 * z ^ 4 + 272 / 315 * z ^ 6) :: (3656 / 15 + 1568 / 15 * z ^ 2 + 1264 / 63 * z ^ 4 + 1984 / 945 * z ^ 6 + 496 / 4725 * z ^ 8) :: nil)).
Proof. eapply jets_ext; [| |apply (jets_minus 8 _ _ _ _ (jets_plus 8 _ _ _ _ (jets_minus 8 _ _ _ _ (jets_scal 8 2 _ _ jM4) (jets_scal 8 9 _ _ jM3c)) jM2A4) jM1A5)]; [intros; cbv beta; try reflexivity; try ring|each]. Qed.
Definition q1 (v : R) : R := mfn_exact z v.
Definition q2 (v : R) : R := snd (fst (fst (cond_mnc mfn_exact v z))).
Definition q3 (v : R) : R := snd (fst (cond_mnc mfn_exact v z)).
Definition q4 (v : R) : R := snd (cond_mnc mfn_exact v z).
Lemma jq20 : jets 7 (fun v => q2 v) (nthf ((1) :: (1 + 1 / 3 * z ^ 2) :: (3 / 5 + 4 / 15 * z ^ 2 + 2 / 45 * z ^ 4) :: (17 / 63 + 41 / 315 * z ^ 2 + 1 / 35 * z ^ 4 + 1 / 315 * z ^ 6) :: (31 / 315 + 46 / 945 * z ^ 2 + 11 / 945 * z ^ 4 + 8 / 4725 * z ^ 6 + 2 / 14175 * z ^ 8) :: (1 / 33 + 157 / 10395 * z ^ 2 + 116 / 31185 * z ^ 4 + 92 / 155925 * z ^ 6 + 2 / 31185 * z ^ 8 + 2 / 467775 * z ^ 10) :: (5461 / 675675 + 248 / 61425 * z ^ 2 + 2036 / 2027025 * z ^ 4 + 40 / 243243 * z ^ 6 + 166 / 8513505 * z ^ 8 + 8 / 4729725 * z ^ 10 + 4 / 42567525 * z ^ 12) :: nil)).
Proof. eapply jets_ext; [| |exact (jets_scal 7 1 _ _ (jets_shift' 7 _ _ jX2 ltac:(cbv beta; unfold nthf; cbn [nth]; reflexivity)))]; [intros v Hv; unfold q2, q3, q4, cond_mnc; cbn [fst snd]; cbv zeta; field; lra|each]. Qed.
Lemma jq30 : jets 6 (fun v => q3 v) (nthf ((1) :: (2 + 1 / 2 * z ^ 2) :: (7 / 3 + 13 / 15 * z ^ 2 + 13 / 120 * z ^ 4) :: (128 / 63 + 37 / 42 * z ^ 2 + 41 / 252 * z ^ 4 + 41 / 3024 * z ^ 6) :: (13 / 9 + 212 / 315 * z ^ 2 + 73 / 504 * z ^ 4 + 671 / 37800 * z ^ 6 + 671 / 604800 * z ^ 8) :: (434 / 495 + 419 / 990 * z ^ 2 + 1018 / 10395 * z ^ 4 + 6973 / 498960 * z ^ 6 + 73 / 57024 * z ^ 8 + 73 / 1140480 * z ^ 10) :: nil)).
Proof. eapply jets_ext; [| |exact (jets_scal 6 (/ 8) _ _ (jets_shift' 6 _ _ (jets_shift' 7 _ _ jX3 ltac:(cbv beta; unfold nthf; cbn [nth]; reflexivity)) ltac:(cbv beta; unfold nthf; cbn [nth]; reflexivity)))]; [intros v Hv; unfold q2, q3, q4, cond_mnc; cbn [fst snd]; cbv zeta; field; lra|each]. Qed.
Lemma jq40 : jets 5 (fun v => q4 v) (nthf ((1) :: (10 / 3 + 2 / 3 * z ^ 2) :: (19 / 3 + 2 * z ^ 2 + 1 / 5 * z ^ 4) :: (80 / 9 + 24 / 7 * z ^ 2 + 34 / 63 * z ^ 4 + 34 / 945 * z ^ 6) :: (457 / 45 + 196 / 45 * z ^ 2 + 158 / 189 * z ^ 4 + 248 / 2835 * z ^ 6 + 62 / 14175 * z ^ 8) :: nil)).
Proof. eapply jets_ext; [| |exact (jets_scal 5 (/ 24) _ _ (jets_shift' 5 _ _ (jets_shift' 6 _ _ (jets_shift' 7 _ _ jX4 ltac:(cbv beta; unfold nthf; cbn [nth]; reflexivity)) ltac:(cbv beta; unfold nthf; cbn [nth]; reflexivity)) ltac:(cbv beta; unfold nthf; cbn [nth]; reflexivity)))]; [intros v Hv; unfold q2, q3, q4, cond_mnc; cbn [fst snd]; cbv zeta; field; lra|each]. Qed.
Lemma jq1 : jets 5 q1 (nthf ((1) :: (1 / 3 + 1 / 6 * z ^ 2) :: (1 / 15 + 1 / 30 * z ^ 2 + 1 / 120 * z ^ 4) :: (1 / 105 + 1 / 210 * z ^ 2 + 1 / 840 * z ^ 4 + 1 / 5040 * z ^ 6) :: (1 / 945 + 1 / 1890 * z ^ 2 + 1 / 7560 * z ^ 4 + 1 / 45360 * z ^ 6 + 1 / 362880 * z ^ 8) :: nil)).
Proof. eapply jets_ext; [| |exact (jets_shorten 5 _ _ (jets_shorten 6 _ _ (jets_shorten 7 _ _ jM1)))]; [intros; reflexivity|each]. Qed.
Lemma jq2 : jets 5 q2 (nthf ((1) :: (1 + 1 / 3 * z ^ 2) :: (3 / 5 + 4 / 15 * z ^ 2 + 2 / 45 * z ^ 4) :: (17 / 63 + 41 / 315 * z ^ 2 + 1 / 35 * z ^ 4 + 1 / 315 * z ^ 6) :: (31 / 315 + 46 / 945 * z ^ 2 + 11 / 945 * z ^ 4 + 8 / 4725 * z ^ 6 + 2 / 14175 * z ^ 8) :: nil)).
Proof. eapply jets_ext; [| |exact (jets_shorten 5 _ _ (jets_shorten 6 _ _ jq20))]; [intros; reflexivity|each]. Qed.
Lemma jq3 : jets 5 q3 (nthf ((1) :: (2 + 1 / 2 * z ^ 2) :: (7 / 3 + 13 / 15 * z ^ 2 + 13 / 120 * z ^ 4) :: (128 / 63 + 37 / 42 * z ^ 2 + 41 / 252 * z ^ 4 + 41 / 3024 * z ^ 6) :: (13 / 9 + 212 / 315 * z ^ 2 + 73 / 504 * z ^ 4 + 671 / 37800 * z ^ 6 + 671 / 604800 * z ^ 8) :: nil)).
Proof. eapply jets_ext; [| |exact (jets_shorten 5 _ _ jq30)]; [intros; reflexivity|each]. Qed.
Lemma jq4 : jets 5 q4 (nthf ((1) :: (10 / 3 + 2 / 3 * z ^ 2) :: (19 / 3 + 2 * z ^ 2 + 1 / 5 * z ^ 4) :: (80 / 9 + 24 / 7 * z ^ 2 + 34 / 63 * z ^ 4 + 34 / 945 * z ^ 6) :: (457 / 45 + 196 / 45 * z ^ 2 + 158 / 189 * z ^ 4 + 248 / 2835 * z ^ 6 + 62 / 14175 * z ^ 8) :: nil)).
Proof. exact jq40. Qed.
Lemma jq11 : jets 5 (fun v => q1 v ^ 2) (nthf ((1) :: (2 / 3 + 1 / 3 * z ^ 2) :: (11 / 45 + 8 / 45 * z ^ 2 + 2 / 45 * z ^ 4) :: (4 / 63 + 17 / 315 * z ^ 2 + 2 / 105 * z ^ 4 + 1 / 315 * z ^ 6) :: (61 / 4725 + 8 / 675 * z ^ 2 + 23 / 4725 * z ^ 4 + 16 / 14175 * z ^ 6 + 2 / 14175 * z ^ 8) :: nil)).
Proof. eapply jets_ext; [| |apply (jets_mult 5 _ _ _ _ jq1 jq1)]; [intros; cbv beta; try reflexivity; try ring|each]. Qed.
Lemma jq12 : jets 5 (fun v => q1 v * q2 v) (nthf ((1) :: (4 / 3 + 1 / 2 * z ^ 2) :: (1 + 26 / 45 * z ^ 2 + 13 / 120 * z ^ 4) :: (172 / 315 + 239 / 630 * z ^ 2 + 41 / 378 * z ^ 4 + 41 / 3024 * z ^ 6) :: (1129 / 4725 + 866 / 4725 * z ^ 2 + 263 / 4200 * z ^ 4 + 671 / 56700 * z ^ 6 + 671 / 604800 * z ^ 8) :: nil)).
Proof. eapply jets_ext; [| |apply (jets_mult 5 _ _ _ _ jq1 jq2)]; [intros; cbv beta; try reflexivity; try ring|each]. Qed.
Lemma jq13 : jets 5 (fun v => q1 v * q3 v) (nthf ((1) :: (7 / 3 + 2 / 3 * z ^ 2) :: (46 / 15 + 7 / 5 * z ^ 2 + 1 / 5 * z ^ 4) :: (62 / 21 + 524 / 315 * z ^ 2 + 17 / 45 * z ^ 4 + 34 / 945 * z ^ 6) :: (2171 / 945 + 6878 / 4725 * z ^ 2 + 128 / 315 * z ^ 4 + 124 / 2025 * z ^ 6 + 62 / 14175 * z ^ 8) :: nil)).
Proof. eapply jets_ext; [| |apply (jets_mult 5 _ _ _ _ jq1 jq3)]; [intros; cbv beta; try reflexivity; try ring|each]. Qed.
Lemma jq111 : jets 5 (fun v => q1 v ^ 3) (nthf ((1) :: (1 + 1 / 2 * z ^ 2) :: (8 / 15 + 13 / 30 * z ^ 2 + 13 / 120 * z ^ 4) :: (188 / 945 + 64 / 315 * z ^ 2 + 41 / 504 * z ^ 4 + 41 / 3024 * z ^ 6) :: (13 / 225 + 106 / 1575 * z ^ 2 + 53 / 1575 * z ^ 4 + 671 / 75600 * z ^ 6 + 671 / 604800 * z ^ 8) :: nil)).
Proof. eapply jets_ext; [| |apply (jets_mult 5 _ _ _ _ jq1 jq11)]; [intros; cbv beta; try reflexivity; try ring|each]. Qed.
Lemma jq112 : jets 5 (fun v => q1 v ^ 2 * q2 v) (nthf ((1) :: (5 / 3 + 2 / 3 * z ^ 2) :: (68 / 45 + 1 * z ^ 2 + 1 / 5 * z ^ 4) :: (44 / 45 + 776 / 945 * z ^ 2 + 17 / 63 * z ^ 4 + 34 / 945 * z ^ 6) :: (2369 / 4725 + 2288 / 4725 * z ^ 2 + 2848 / 14175 * z ^ 4 + 124 / 2835 * z ^ 6 + 62 / 14175 * z ^ 8) :: nil)).
Proof. eapply jets_ext; [| |apply (jets_mult 5 _ _ _ _ jq11 jq2)]; [intros; cbv beta; try reflexivity; try ring|each]. Qed.
Lemma jq1111 : jets 5 (fun v => q1 v ^ 4) (nthf ((1) :: (4 / 3 + 2 / 3 * z ^ 2) :: (14 / 15 + 4 / 5 * z ^ 2 + 1 / 5 * z ^ 4) :: (428 / 945 + 32 / 63 * z ^ 2 + 68 / 315 * z ^ 4 + 34 / 945 * z ^ 6) :: (2413 / 14175 + 3188 / 14175 * z ^ 2 + 28 / 225 * z ^ 4 + 496 / 14175 * z ^ 6 + 62 / 14175 * z ^ 8) :: nil)).
Proof. eapply jets_ext; [| |apply (jets_mult 5 _ _ _ _ jq11 jq11)]; [intros; cbv beta; try reflexivity; try ring|each]. Qed.
Lemma jmu2 : jets 5 (fun v => q2 v - q1 v ^ 2) (nthf ((0) :: (1 / 3) :: (16 / 45 + 4 / 45 * z ^ 2) :: (13 / 63 + 8 / 105 * z ^ 2 + 1 / 105 * z ^ 4) :: (404 / 4725 + 58 / 1575 * z ^ 2 + 32 / 4725 * z ^ 4 + 8 / 14175 * z ^ 6) :: nil)).
Proof. eapply jets_ext; [| |apply (jets_minus 5 _ _ _ _ jq2 jq11)]; [intros; cbv beta; try reflexivity; try ring|each]. Qed.
Lemma jmu3 : jets 5 (fun v => q3 v - 3 * q1 v * q2 v + 2 * q1 v ^ 3) (nthf ((0) :: (0) :: (2 / 5) :: (748 / 945 + 47 / 315 * z ^ 2) :: (1328 / 1575 + 58 / 225 * z ^ 2 + 17 / 700 * z ^ 4) :: nil)).
Proof. eapply jets_ext; [| |apply (jets_plus 5 _ _ _ _ (jets_minus 5 _ _ _ _ jq3 (jets_scal 5 3 _ _ jq12)) (jets_scal 5 2 _ _ jq111))]; [intros; cbv beta; try reflexivity; try ring|each]. Qed.
Lemma jmu4 : jets 5 (fun v => q4 v - 4 * q1 v * q3 v + 6 * q1 v ^ 2 * q2 v - 3 * q1 v ^ 4) (nthf ((0) :: (0) :: (1 / 3) :: (100 / 63 + 8 / 45 * z ^ 2) :: (2338 / 675 + 3608 / 4725 * z ^ 2 + 202 / 4725 * z ^ 4) :: nil)).
Proof. eapply jets_ext; [| |apply (jets_minus 5 _ _ _ _ (jets_plus 5 _ _ _ _ (jets_minus 5 _ _ _ _ jq4 (jets_scal 5 4 _ _ jq13)) (jets_scal 5 6 _ _ jq112)) (jets_scal 5 3 _ _ jq1111))]; [intros; cbv beta; try reflexivity; try ring|each]. Qed.
End J.
