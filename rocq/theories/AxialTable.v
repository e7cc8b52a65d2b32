(** The coefficients of the expansion, entry by entry (generated), and the table of the code. *)
From Coq Require Import Reals ZArith Lra Lia.
From Verif Require Import Base BaseFacts Vec GeomModel FieldModel Axial3DModel HarmonicFacts.
Local Open Scope R_scope.

Lemma H_0_0 s : H 0 0 s = 1/1 * s^0.
Proof. unfold H. cbn. field. Qed.
Lemma H_1_1 s : H 1 1 s = 1/1 * s^1.
Proof. unfold H. cbn. field. Qed.
Lemma H_2_0 s : H 2 0 s =  - 1/2 * s^0 + 3/4 * s^2.
Proof. rewrite H_SS. cbn [shift]. rewrite H_1_1. rewrite H_0_0. rewrite !S_INR. cbn [INR]. field. Qed.
Lemma H_2_2 s : H 2 2 s = 3/4 * s^2.
Proof. rewrite H_SS. cbn [shift]. rewrite H_1_1. rewrite (H_high 1 3) by lia. rewrite (H_high 0 2) by lia. rewrite !S_INR. cbn [INR]. field. Qed.
Lemma H_3_1 s : H 3 1 s =  - 3/2 * s^1 + 15/8 * s^3.
Proof. rewrite H_SS. cbn [shift]. rewrite H_2_0. rewrite H_2_2. rewrite H_1_1. rewrite !S_INR. cbn [INR]. field. Qed.
Lemma H_3_3 s : H 3 3 s = 5/8 * s^3.
Proof. rewrite H_SS. cbn [shift]. rewrite H_2_2. rewrite (H_high 2 4) by lia. rewrite (H_high 1 3) by lia. rewrite !S_INR. cbn [INR]. field. Qed.
Lemma H_4_0 s : H 4 0 s = 3/8 * s^0 - 15/8 * s^2 + 105/64 * s^4.
Proof. rewrite H_SS. cbn [shift]. rewrite H_3_1. rewrite H_2_0. rewrite !S_INR. cbn [INR]. field. Qed.
Lemma H_4_2 s : H 4 2 s =  - 15/8 * s^2 + 35/16 * s^4.
Proof. rewrite H_SS. cbn [shift]. rewrite H_3_1. rewrite H_3_3. rewrite H_2_2. rewrite !S_INR. cbn [INR]. field. Qed.
Lemma H_4_4 s : H 4 4 s = 35/64 * s^4.
Proof. rewrite H_SS. cbn [shift]. rewrite H_3_3. rewrite (H_high 3 5) by lia. rewrite (H_high 2 4) by lia. rewrite !S_INR. cbn [INR]. field. Qed.
Lemma H_5_1 s : H 5 1 s = 15/8 * s^1 - 105/16 * s^3 + 315/64 * s^5.
Proof. rewrite H_SS. cbn [shift]. rewrite H_4_0. rewrite H_4_2. rewrite H_3_1. rewrite !S_INR. cbn [INR]. field. Qed.
Lemma H_5_3 s : H 5 3 s =  - 35/16 * s^3 + 315/128 * s^5.
Proof. rewrite H_SS. cbn [shift]. rewrite H_4_2. rewrite H_4_4. rewrite H_3_3. rewrite !S_INR. cbn [INR]. field. Qed.
Lemma H_5_5 s : H 5 5 s = 63/128 * s^5.
Proof. rewrite H_SS. cbn [shift]. rewrite H_4_4. rewrite (H_high 4 6) by lia. rewrite (H_high 3 5) by lia. rewrite !S_INR. cbn [INR]. field. Qed.
Lemma H_6_0 s : H 6 0 s =  - 5/16 * s^0 + 105/32 * s^2 - 945/128 * s^4 + 1155/256 * s^6.
Proof. rewrite H_SS. cbn [shift]. rewrite H_5_1. rewrite H_4_0. rewrite !S_INR. cbn [INR]. field. Qed.
Lemma H_6_2 s : H 6 2 s = 105/32 * s^2 - 315/32 * s^4 + 3465/512 * s^6.
Proof. rewrite H_SS. cbn [shift]. rewrite H_5_1. rewrite H_5_3. rewrite H_4_2. rewrite !S_INR. cbn [INR]. field. Qed.
Lemma H_6_4 s : H 6 4 s =  - 315/128 * s^4 + 693/256 * s^6.
Proof. rewrite H_SS. cbn [shift]. rewrite H_5_3. rewrite H_5_5. rewrite H_4_4. rewrite !S_INR. cbn [INR]. field. Qed.
Lemma H_6_6 s : H 6 6 s = 231/512 * s^6.
Proof. rewrite H_SS. cbn [shift]. rewrite H_5_5. rewrite (H_high 5 7) by lia. rewrite (H_high 4 6) by lia. rewrite !S_INR. cbn [INR]. field. Qed.
Lemma H_7_1 s : H 7 1 s =  - 35/16 * s^1 + 945/64 * s^3 - 3465/128 * s^5 + 15015/1024 * s^7.
Proof. rewrite H_SS. cbn [shift]. rewrite H_6_0. rewrite H_6_2. rewrite H_5_1. rewrite !S_INR. cbn [INR]. field. Qed.
Lemma H_7_3 s : H 7 3 s = 315/64 * s^3 - 3465/256 * s^5 + 9009/1024 * s^7.
Proof. rewrite H_SS. cbn [shift]. rewrite H_6_2. rewrite H_6_4. rewrite H_5_3. rewrite !S_INR. cbn [INR]. field. Qed.
Lemma H_7_5 s : H 7 5 s =  - 693/256 * s^5 + 3003/1024 * s^7.
Proof. rewrite H_SS. cbn [shift]. rewrite H_6_4. rewrite H_6_6. rewrite H_5_5. rewrite !S_INR. cbn [INR]. field. Qed.
Lemma H_7_7 s : H 7 7 s = 429/1024 * s^7.
Proof. rewrite H_SS. cbn [shift]. rewrite H_6_6. rewrite (H_high 6 8) by lia. rewrite (H_high 5 7) by lia. rewrite !S_INR. cbn [INR]. field. Qed.
Lemma H_8_0 s : H 8 0 s = 35/128 * s^0 - 315/64 * s^2 + 10395/512 * s^4 - 15015/512 * s^6 + 225225/16384 * s^8.
Proof. rewrite H_SS. cbn [shift]. rewrite H_7_1. rewrite H_6_0. rewrite !S_INR. cbn [INR]. field. Qed.
Lemma H_8_2 s : H 8 2 s =  - 315/64 * s^2 + 3465/128 * s^4 - 45045/1024 * s^6 + 45045/2048 * s^8.
Proof. rewrite H_SS. cbn [shift]. rewrite H_7_1. rewrite H_7_3. rewrite H_6_2. rewrite !S_INR. cbn [INR]. field. Qed.
Lemma H_8_4 s : H 8 4 s = 3465/512 * s^4 - 9009/512 * s^6 + 45045/4096 * s^8.
Proof. rewrite H_SS. cbn [shift]. rewrite H_7_3. rewrite H_7_5. rewrite H_6_4. rewrite !S_INR. cbn [INR]. field. Qed.
Lemma H_8_6 s : H 8 6 s =  - 3003/1024 * s^6 + 6435/2048 * s^8.
Proof. rewrite H_SS. cbn [shift]. rewrite H_7_5. rewrite H_7_7. rewrite H_6_6. rewrite !S_INR. cbn [INR]. field. Qed.
Lemma H_8_8 s : H 8 8 s = 6435/16384 * s^8.
Proof. rewrite H_SS. cbn [shift]. rewrite H_7_7. rewrite (H_high 7 9) by lia. rewrite (H_high 6 8) by lia. rewrite !S_INR. cbn [INR]. field. Qed.
Lemma H_9_1 s : H 9 1 s = 315/128 * s^1 - 3465/128 * s^3 + 45045/512 * s^5 - 225225/2048 * s^7 + 765765/16384 * s^9.
Proof. rewrite H_SS. cbn [shift]. rewrite H_8_0. rewrite H_8_2. rewrite H_7_1. rewrite !S_INR. cbn [INR]. field. Qed.
Lemma H_9_3 s : H 9 3 s =  - 1155/128 * s^3 + 45045/1024 * s^5 - 135135/2048 * s^7 + 255255/8192 * s^9.
Proof. rewrite H_SS. cbn [shift]. rewrite H_8_2. rewrite H_8_4. rewrite H_7_3. rewrite !S_INR. cbn [INR]. field. Qed.
Lemma H_9_5 s : H 9 5 s = 9009/1024 * s^5 - 45045/2048 * s^7 + 109395/8192 * s^9.
Proof. rewrite H_SS. cbn [shift]. rewrite H_8_4. rewrite H_8_6. rewrite H_7_5. rewrite !S_INR. cbn [INR]. field. Qed.
Lemma H_9_7 s : H 9 7 s =  - 6435/2048 * s^7 + 109395/32768 * s^9.
Proof. rewrite H_SS. cbn [shift]. rewrite H_8_6. rewrite H_8_8. rewrite H_7_7. rewrite !S_INR. cbn [INR]. field. Qed.
Lemma H_9_9 s : H 9 9 s = 12155/32768 * s^9.
Proof. rewrite H_SS. cbn [shift]. rewrite H_8_8. rewrite (H_high 8 10) by lia. rewrite (H_high 7 9) by lia. rewrite !S_INR. cbn [INR]. field. Qed.
Lemma H_10_0 s : H 10 0 s =  - 63/256 * s^0 + 3465/512 * s^2 - 45045/1024 * s^4 + 225225/2048 * s^6 - 3828825/32768 * s^8 + 2909907/65536 * s^10.
Proof. rewrite H_SS. cbn [shift]. rewrite H_9_1. rewrite H_8_0. rewrite !S_INR. cbn [INR]. field. Qed.
Lemma H_10_2 s : H 10 2 s = 3465/512 * s^2 - 15015/256 * s^4 + 675675/4096 * s^6 - 765765/4096 * s^8 + 4849845/65536 * s^10.
Proof. rewrite H_SS. cbn [shift]. rewrite H_9_1. rewrite H_9_3. rewrite H_8_2. rewrite !S_INR. cbn [INR]. field. Qed.
Lemma H_10_4 s : H 10 4 s =  - 15015/1024 * s^4 + 135135/2048 * s^6 - 765765/8192 * s^8 + 692835/16384 * s^10.
Proof. rewrite H_SS. cbn [shift]. rewrite H_9_3. rewrite H_9_5. rewrite H_8_4. rewrite !S_INR. cbn [INR]. field. Qed.
Lemma H_10_6 s : H 10 6 s = 45045/4096 * s^6 - 109395/4096 * s^8 + 2078505/131072 * s^10.
Proof. rewrite H_SS. cbn [shift]. rewrite H_9_5. rewrite H_9_7. rewrite H_8_6. rewrite !S_INR. cbn [INR]. field. Qed.
Lemma H_10_8 s : H 10 8 s =  - 109395/32768 * s^8 + 230945/65536 * s^10.
Proof. rewrite H_SS. cbn [shift]. rewrite H_9_7. rewrite H_9_9. rewrite H_8_8. rewrite !S_INR. cbn [INR]. field. Qed.
Lemma H_10_10 s : H 10 10 s = 46189/131072 * s^10.
Proof. rewrite H_SS. cbn [shift]. rewrite H_9_9. rewrite (H_high 9 11) by lia. rewrite (H_high 8 10) by lia. rewrite !S_INR. cbn [INR]. field. Qed.
Lemma H_11_1 s : H 11 1 s =  - 693/256 * s^1 + 45045/1024 * s^3 - 225225/1024 * s^5 + 3828825/8192 * s^7 - 14549535/32768 * s^9 + 20369349/131072 * s^11.
Proof. rewrite H_SS. cbn [shift]. rewrite H_10_0. rewrite H_10_2. rewrite H_9_1. rewrite !S_INR. cbn [INR]. field. Qed.
Lemma H_11_3 s : H 11 3 s = 15015/1024 * s^3 - 225225/2048 * s^5 + 2297295/8192 * s^7 - 4849845/16384 * s^9 + 14549535/131072 * s^11.
Proof. rewrite H_SS. cbn [shift]. rewrite H_10_2. rewrite H_10_4. rewrite H_9_3. rewrite !S_INR. cbn [INR]. field. Qed.
Lemma H_11_5 s : H 11 5 s =  - 45045/2048 * s^5 + 765765/8192 * s^7 - 2078505/16384 * s^9 + 14549535/262144 * s^11.
Proof. rewrite H_SS. cbn [shift]. rewrite H_10_4. rewrite H_10_6. rewrite H_9_5. rewrite !S_INR. cbn [INR]. field. Qed.
Lemma H_11_7 s : H 11 7 s = 109395/8192 * s^7 - 2078505/65536 * s^9 + 4849845/262144 * s^11.
Proof. rewrite H_SS. cbn [shift]. rewrite H_10_6. rewrite H_10_8. rewrite H_9_7. rewrite !S_INR. cbn [INR]. field. Qed.
Lemma H_11_9 s : H 11 9 s =  - 230945/65536 * s^9 + 969969/262144 * s^11.
Proof. rewrite H_SS. cbn [shift]. rewrite H_10_8. rewrite H_10_10. rewrite H_9_9. rewrite !S_INR. cbn [INR]. field. Qed.
Lemma H_11_11 s : H 11 11 s = 88179/262144 * s^11.
Proof. rewrite H_SS. cbn [shift]. rewrite H_10_10. rewrite (H_high 10 12) by lia. rewrite (H_high 9 11) by lia. rewrite !S_INR. cbn [INR]. field. Qed.
Lemma H_12_0 s : H 12 0 s = 231/1024 * s^0 - 9009/1024 * s^2 + 675675/8192 * s^4 - 1276275/4096 * s^6 + 72747675/131072 * s^8 - 61108047/131072 * s^10 + 156165009/1048576 * s^12.
Proof. rewrite H_SS. cbn [shift]. rewrite H_11_1. rewrite H_10_0. rewrite !S_INR. cbn [INR]. field. Qed.
Lemma H_12_2 s : H 12 2 s =  - 9009/1024 * s^2 + 225225/2048 * s^4 - 3828825/8192 * s^6 + 14549535/16384 * s^8 - 101846745/131072 * s^10 + 66927861/262144 * s^12.
Proof. rewrite H_SS. cbn [shift]. rewrite H_11_1. rewrite H_11_3. rewrite H_10_2. rewrite !S_INR. cbn [INR]. field. Qed.
Lemma H_12_4 s : H 12 4 s = 225225/8192 * s^4 - 765765/4096 * s^6 + 14549535/32768 * s^8 - 14549535/32768 * s^10 + 334639305/2097152 * s^12.
Proof. rewrite H_SS. cbn [shift]. rewrite H_11_3. rewrite H_11_5. rewrite H_10_4. rewrite !S_INR. cbn [INR]. field. Qed.
Lemma H_12_6 s : H 12 6 s =  - 255255/8192 * s^6 + 2078505/16384 * s^8 - 43648605/262144 * s^10 + 37182145/524288 * s^12.
Proof. rewrite H_SS. cbn [shift]. rewrite H_11_5. rewrite H_11_7. rewrite H_10_6. rewrite !S_INR. cbn [INR]. field. Qed.
Lemma H_12_8 s : H 12 8 s = 2078505/131072 * s^8 - 4849845/131072 * s^10 + 22309287/1048576 * s^12.
Proof. rewrite H_SS. cbn [shift]. rewrite H_11_7. rewrite H_11_9. rewrite H_10_8. rewrite !S_INR. cbn [INR]. field. Qed.
Lemma H_12_10 s : H 12 10 s =  - 969969/262144 * s^10 + 2028117/524288 * s^12.
Proof. rewrite H_SS. cbn [shift]. rewrite H_11_9. rewrite H_11_11. rewrite H_10_10. rewrite !S_INR. cbn [INR]. field. Qed.
Lemma H_12_12 s : H 12 12 s = 676039/2097152 * s^12.
Proof. rewrite H_SS. cbn [shift]. rewrite H_11_11. rewrite (H_high 11 13) by lia. rewrite (H_high 10 12) by lia. rewrite !S_INR. cbn [INR]. field. Qed.
Lemma H_13_1 s : H 13 1 s = 3003/1024 * s^1 - 135135/2048 * s^3 + 3828825/8192 * s^5 - 24249225/16384 * s^7 + 305540235/131072 * s^9 - 468495027/262144 * s^11 + 557732175/1048576 * s^13.
Proof. rewrite H_SS. cbn [shift]. rewrite H_12_0. rewrite H_12_2. rewrite H_11_1. rewrite !S_INR. cbn [INR]. field. Qed.
Lemma H_13_3 s : H 13 3 s =  - 45045/2048 * s^3 + 3828825/16384 * s^5 - 14549535/16384 * s^7 + 101846745/65536 * s^9 - 334639305/262144 * s^11 + 1673196525/4194304 * s^13.
Proof. rewrite H_SS. cbn [shift]. rewrite H_12_2. rewrite H_12_4. rewrite H_11_3. rewrite !S_INR. cbn [INR]. field. Qed.
Lemma H_13_5 s : H 13 5 s = 765765/16384 * s^5 - 4849845/16384 * s^7 + 43648605/65536 * s^9 - 334639305/524288 * s^11 + 929553625/4194304 * s^13.
Proof. rewrite H_SS. cbn [shift]. rewrite H_12_4. rewrite H_12_6. rewrite H_11_5. rewrite !S_INR. cbn [INR]. field. Qed.
Lemma H_13_7 s : H 13 7 s =  - 692835/16384 * s^7 + 43648605/262144 * s^9 - 111546435/524288 * s^11 + 185910725/2097152 * s^13.
Proof. rewrite H_SS. cbn [shift]. rewrite H_12_6. rewrite H_12_8. rewrite H_11_7. rewrite !S_INR. cbn [INR]. field. Qed.
Lemma H_13_9 s : H 13 9 s = 4849845/262144 * s^9 - 22309287/524288 * s^11 + 50702925/2097152 * s^13.
Proof. rewrite H_SS. cbn [shift]. rewrite H_12_8. rewrite H_12_10. rewrite H_11_9. rewrite !S_INR. cbn [INR]. field. Qed.
Lemma H_13_11 s : H 13 11 s =  - 2028117/524288 * s^11 + 16900975/4194304 * s^13.
Proof. rewrite H_SS. cbn [shift]. rewrite H_12_10. rewrite H_12_12. rewrite H_11_11. rewrite !S_INR. cbn [INR]. field. Qed.
Lemma H_13_13 s : H 13 13 s = 1300075/4194304 * s^13.
Proof. rewrite H_SS. cbn [shift]. rewrite H_12_12. rewrite (H_high 12 14) by lia. rewrite (H_high 11 13) by lia. rewrite !S_INR. cbn [INR]. field. Qed.

Lemma fact_R n : INR (fact (S n)) = (INR n + 1) * INR (fact n).
Proof. rewrite fact_simpl, mult_INR, S_INR. reflexivity. Qed.

Lemma fact_0 : INR (fact 0) = 1. Proof. reflexivity. Qed.
Lemma fact_1 : INR (fact 1) = 1. Proof. rewrite fact_R, fact_0. rewrite ?S_INR. cbn [INR]. lra. Qed.
Lemma fact_2 : INR (fact 2) = 2. Proof. rewrite fact_R, fact_1. rewrite ?S_INR. cbn [INR]. lra. Qed.
Lemma fact_3 : INR (fact 3) = 6. Proof. rewrite fact_R, fact_2. rewrite ?S_INR. cbn [INR]. lra. Qed.
Lemma fact_4 : INR (fact 4) = 24. Proof. rewrite fact_R, fact_3. rewrite ?S_INR. cbn [INR]. lra. Qed.
Lemma fact_5 : INR (fact 5) = 120. Proof. rewrite fact_R, fact_4. rewrite ?S_INR. cbn [INR]. lra. Qed.
Lemma fact_6 : INR (fact 6) = 720. Proof. rewrite fact_R, fact_5. rewrite ?S_INR. cbn [INR]. lra. Qed.
Lemma fact_7 : INR (fact 7) = 5040. Proof. rewrite fact_R, fact_6. rewrite ?S_INR. cbn [INR]. lra. Qed.
Lemma fact_8 : INR (fact 8) = 40320. Proof. rewrite fact_R, fact_7. rewrite ?S_INR. cbn [INR]. lra. Qed.
Lemma fact_9 : INR (fact 9) = 362880. Proof. rewrite fact_R, fact_8. rewrite ?S_INR. cbn [INR]. lra. Qed.
Lemma fact_10 : INR (fact 10) = 3628800. Proof. rewrite fact_R, fact_9. rewrite ?S_INR. cbn [INR]. lra. Qed.
Lemma fact_11 : INR (fact 11) = 39916800. Proof. rewrite fact_R, fact_10. rewrite ?S_INR. cbn [INR]. lra. Qed.
Lemma fact_12 : INR (fact 12) = 479001600. Proof. rewrite fact_R, fact_11. rewrite ?S_INR. cbn [INR]. lra. Qed.
Lemma fact_13 : INR (fact 13) = 6227020800. Proof. rewrite fact_R, fact_12. rewrite ?S_INR. cbn [INR]. lra. Qed.

(** The base values as functions of s = 1 / sqrt (p^2 + 1), times 1/2 for m = 0. *)
Definition base (nu m : nat) (s : R) : R :=
  let p2 := / s ^ 2 - 1 in nth m (nth nu (output_base p2 (p2 ^ 2) (p2 ^ 3) (p2 ^ 4) (p2 ^ 5) (p2 ^ 6) (p2 ^ 7) (/ s)) []) 0.
Ltac nz := repeat split; try assumption; try (intros Hz; ring_simplify in Hz; lra).

Lemma base_0_0 s : s <> 0 -> base 0 0 s * (1/2) = INR (fact 0) * H 0 0 s / 4.
Proof. intros Hs. rewrite H_0_0, fact_0. unfold base, output_base. cbn [nth]. field; nz. Qed.
Lemma base_0_1 s : s <> 0 -> base 0 1 s = INR (fact 1) * H 1 1 s / 4.
Proof. intros Hs. rewrite H_1_1, fact_1. unfold base, output_base. cbn [nth]. field; nz. Qed.
Lemma base_0_2 s : s <> 0 -> base 0 2 s = INR (fact 2) * H 2 2 s / 4.
Proof. intros Hs. rewrite H_2_2, fact_2. unfold base, output_base. cbn [nth]. field; nz. Qed.
Lemma base_0_3 s : s <> 0 -> base 0 3 s = INR (fact 3) * H 3 3 s / 4.
Proof. intros Hs. rewrite H_3_3, fact_3. unfold base, output_base. cbn [nth]. field; nz. Qed.
Lemma base_0_4 s : s <> 0 -> base 0 4 s = INR (fact 4) * H 4 4 s / 4.
Proof. intros Hs. rewrite H_4_4, fact_4. unfold base, output_base. cbn [nth]. field; nz. Qed.
Lemma base_0_5 s : s <> 0 -> base 0 5 s = INR (fact 5) * H 5 5 s / 4.
Proof. intros Hs. rewrite H_5_5, fact_5. unfold base, output_base. cbn [nth]. field; nz. Qed.
Lemma base_0_6 s : s <> 0 -> base 0 6 s = INR (fact 6) * H 6 6 s / 4.
Proof. intros Hs. rewrite H_6_6, fact_6. unfold base, output_base. cbn [nth]. field; nz. Qed.
Lemma base_0_7 s : s <> 0 -> base 0 7 s = INR (fact 7) * H 7 7 s / 4.
Proof. intros Hs. rewrite H_7_7, fact_7. unfold base, output_base. cbn [nth]. field; nz. Qed.
Lemma base_1_0 s : s <> 0 -> base 1 0 s * (1/2) = INR (fact 2) * H 2 0 s / 4.
Proof. intros Hs. rewrite H_2_0, fact_2. unfold base, output_base. cbn [nth]. field; nz. Qed.
Lemma base_1_1 s : s <> 0 -> base 1 1 s = INR (fact 3) * H 3 1 s / 4.
Proof. intros Hs. rewrite H_3_1, fact_3. unfold base, output_base. cbn [nth]. field; nz. Qed.
Lemma base_1_2 s : s <> 0 -> base 1 2 s = INR (fact 4) * H 4 2 s / 4.
Proof. intros Hs. rewrite H_4_2, fact_4. unfold base, output_base. cbn [nth]. field; nz. Qed.
Lemma base_1_3 s : s <> 0 -> base 1 3 s = INR (fact 5) * H 5 3 s / 4.
Proof. intros Hs. rewrite H_5_3, fact_5. unfold base, output_base. cbn [nth]. field; nz. Qed.
Lemma base_1_4 s : s <> 0 -> base 1 4 s = INR (fact 6) * H 6 4 s / 4.
Proof. intros Hs. rewrite H_6_4, fact_6. unfold base, output_base. cbn [nth]. field; nz. Qed.
Lemma base_1_5 s : s <> 0 -> base 1 5 s = INR (fact 7) * H 7 5 s / 4.
Proof. intros Hs. rewrite H_7_5, fact_7. unfold base, output_base. cbn [nth]. field; nz. Qed.
Lemma base_1_6 s : s <> 0 -> base 1 6 s = INR (fact 8) * H 8 6 s / 4.
Proof. intros Hs. rewrite H_8_6, fact_8. unfold base, output_base. cbn [nth]. field; nz. Qed.
Lemma base_1_7 s : s <> 0 -> base 1 7 s = INR (fact 9) * H 9 7 s / 4.
Proof. intros Hs. rewrite H_9_7, fact_9. unfold base, output_base. cbn [nth]. field; nz. Qed.
Lemma base_2_0 s : s <> 0 -> base 2 0 s * (1/2) = INR (fact 4) * H 4 0 s / 4.
Proof. intros Hs. rewrite H_4_0, fact_4. unfold base, output_base. cbn [nth]. field; nz. Qed.
Lemma base_2_1 s : s <> 0 -> base 2 1 s = INR (fact 5) * H 5 1 s / 4.
Proof. intros Hs. rewrite H_5_1, fact_5. unfold base, output_base. cbn [nth]. field; nz. Qed.
Lemma base_2_2 s : s <> 0 -> base 2 2 s = INR (fact 6) * H 6 2 s / 4.
Proof. intros Hs. rewrite H_6_2, fact_6. unfold base, output_base. cbn [nth]. field; nz. Qed.
Lemma base_2_3 s : s <> 0 -> base 2 3 s = INR (fact 7) * H 7 3 s / 4.
Proof. intros Hs. rewrite H_7_3, fact_7. unfold base, output_base. cbn [nth]. field; nz. Qed.
Lemma base_2_4 s : s <> 0 -> base 2 4 s = INR (fact 8) * H 8 4 s / 4.
Proof. intros Hs. rewrite H_8_4, fact_8. unfold base, output_base. cbn [nth]. field; nz. Qed.
Lemma base_2_5 s : s <> 0 -> base 2 5 s = INR (fact 9) * H 9 5 s / 4.
Proof. intros Hs. rewrite H_9_5, fact_9. unfold base, output_base. cbn [nth]. field; nz. Qed.
Lemma base_2_6 s : s <> 0 -> base 2 6 s = INR (fact 10) * H 10 6 s / 4.
Proof. intros Hs. rewrite H_10_6, fact_10. unfold base, output_base. cbn [nth]. field; nz. Qed.
Lemma base_2_7 s : s <> 0 -> base 2 7 s = INR (fact 11) * H 11 7 s / 4.
Proof. intros Hs. rewrite H_11_7, fact_11. unfold base, output_base. cbn [nth]. field; nz. Qed.
Lemma base_3_0 s : s <> 0 -> base 3 0 s * (1/2) = INR (fact 6) * H 6 0 s / 4.
Proof. intros Hs. rewrite H_6_0, fact_6. unfold base, output_base. cbn [nth]. field; nz. Qed.
Lemma base_3_1 s : s <> 0 -> base 3 1 s = INR (fact 7) * H 7 1 s / 4.
Proof. intros Hs. rewrite H_7_1, fact_7. unfold base, output_base. cbn [nth]. field; nz. Qed.
Lemma base_3_2 s : s <> 0 -> base 3 2 s = INR (fact 8) * H 8 2 s / 4.
Proof. intros Hs. rewrite H_8_2, fact_8. unfold base, output_base. cbn [nth]. field; nz. Qed.
Lemma base_3_3 s : s <> 0 -> base 3 3 s = INR (fact 9) * H 9 3 s / 4.
Proof. intros Hs. rewrite H_9_3, fact_9. unfold base, output_base. cbn [nth]. field; nz. Qed.
Lemma base_3_4 s : s <> 0 -> base 3 4 s = INR (fact 10) * H 10 4 s / 4.
Proof. intros Hs. rewrite H_10_4, fact_10. unfold base, output_base. cbn [nth]. field; nz. Qed.
Lemma base_3_5 s : s <> 0 -> base 3 5 s = INR (fact 11) * H 11 5 s / 4.
Proof. intros Hs. rewrite H_11_5, fact_11. unfold base, output_base. cbn [nth]. field; nz. Qed.
Lemma base_3_6 s : s <> 0 -> base 3 6 s = INR (fact 12) * H 12 6 s / 4.
Proof. intros Hs. rewrite H_12_6, fact_12. unfold base, output_base. cbn [nth]. field; nz. Qed.
Lemma base_3_7 s : s <> 0 -> base 3 7 s = INR (fact 13) * H 13 7 s / 4.
Proof. intros Hs. rewrite H_13_7, fact_13. unfold base, output_base. cbn [nth]. field; nz. Qed.

Lemma base_value nu m s : (nu < NU_MAX)%nat -> (m < M_MAX)%nat -> s <> 0 ->
  base nu m s * (if (m =? 0)%nat then 1 / 2 else 1) = INR (fact (2 * nu + m)) * H (2 * nu + m) m s / 4.
Proof.
  unfold NU_MAX, M_MAX. intros Hn Hm Hs.
  destruct nu as [|nu]; [destruct m as [|m]; [change (2 * 0 + 0)%nat with 0%nat; cbn [Nat.eqb]; exact (base_0_0 s Hs)|]; destruct m as [|m]; [change (2 * 0 + 1)%nat with 1%nat; cbn [Nat.eqb]; rewrite Rmult_1_r; exact (base_0_1 s Hs)|]; destruct m as [|m]; [change (2 * 0 + 2)%nat with 2%nat; cbn [Nat.eqb]; rewrite Rmult_1_r; exact (base_0_2 s Hs)|]; destruct m as [|m]; [change (2 * 0 + 3)%nat with 3%nat; cbn [Nat.eqb]; rewrite Rmult_1_r; exact (base_0_3 s Hs)|]; destruct m as [|m]; [change (2 * 0 + 4)%nat with 4%nat; cbn [Nat.eqb]; rewrite Rmult_1_r; exact (base_0_4 s Hs)|]; destruct m as [|m]; [change (2 * 0 + 5)%nat with 5%nat; cbn [Nat.eqb]; rewrite Rmult_1_r; exact (base_0_5 s Hs)|]; destruct m as [|m]; [change (2 * 0 + 6)%nat with 6%nat; cbn [Nat.eqb]; rewrite Rmult_1_r; exact (base_0_6 s Hs)|]; destruct m as [|m]; [change (2 * 0 + 7)%nat with 7%nat; cbn [Nat.eqb]; rewrite Rmult_1_r; exact (base_0_7 s Hs)|]; lia|].
  destruct nu as [|nu]; [destruct m as [|m]; [change (2 * 1 + 0)%nat with 2%nat; cbn [Nat.eqb]; exact (base_1_0 s Hs)|]; destruct m as [|m]; [change (2 * 1 + 1)%nat with 3%nat; cbn [Nat.eqb]; rewrite Rmult_1_r; exact (base_1_1 s Hs)|]; destruct m as [|m]; [change (2 * 1 + 2)%nat with 4%nat; cbn [Nat.eqb]; rewrite Rmult_1_r; exact (base_1_2 s Hs)|]; destruct m as [|m]; [change (2 * 1 + 3)%nat with 5%nat; cbn [Nat.eqb]; rewrite Rmult_1_r; exact (base_1_3 s Hs)|]; destruct m as [|m]; [change (2 * 1 + 4)%nat with 6%nat; cbn [Nat.eqb]; rewrite Rmult_1_r; exact (base_1_4 s Hs)|]; destruct m as [|m]; [change (2 * 1 + 5)%nat with 7%nat; cbn [Nat.eqb]; rewrite Rmult_1_r; exact (base_1_5 s Hs)|]; destruct m as [|m]; [change (2 * 1 + 6)%nat with 8%nat; cbn [Nat.eqb]; rewrite Rmult_1_r; exact (base_1_6 s Hs)|]; destruct m as [|m]; [change (2 * 1 + 7)%nat with 9%nat; cbn [Nat.eqb]; rewrite Rmult_1_r; exact (base_1_7 s Hs)|]; lia|].
  destruct nu as [|nu]; [destruct m as [|m]; [change (2 * 2 + 0)%nat with 4%nat; cbn [Nat.eqb]; exact (base_2_0 s Hs)|]; destruct m as [|m]; [change (2 * 2 + 1)%nat with 5%nat; cbn [Nat.eqb]; rewrite Rmult_1_r; exact (base_2_1 s Hs)|]; destruct m as [|m]; [change (2 * 2 + 2)%nat with 6%nat; cbn [Nat.eqb]; rewrite Rmult_1_r; exact (base_2_2 s Hs)|]; destruct m as [|m]; [change (2 * 2 + 3)%nat with 7%nat; cbn [Nat.eqb]; rewrite Rmult_1_r; exact (base_2_3 s Hs)|]; destruct m as [|m]; [change (2 * 2 + 4)%nat with 8%nat; cbn [Nat.eqb]; rewrite Rmult_1_r; exact (base_2_4 s Hs)|]; destruct m as [|m]; [change (2 * 2 + 5)%nat with 9%nat; cbn [Nat.eqb]; rewrite Rmult_1_r; exact (base_2_5 s Hs)|]; destruct m as [|m]; [change (2 * 2 + 6)%nat with 10%nat; cbn [Nat.eqb]; rewrite Rmult_1_r; exact (base_2_6 s Hs)|]; destruct m as [|m]; [change (2 * 2 + 7)%nat with 11%nat; cbn [Nat.eqb]; rewrite Rmult_1_r; exact (base_2_7 s Hs)|]; lia|].
  destruct nu as [|nu]; [destruct m as [|m]; [change (2 * 3 + 0)%nat with 6%nat; cbn [Nat.eqb]; exact (base_3_0 s Hs)|]; destruct m as [|m]; [change (2 * 3 + 1)%nat with 7%nat; cbn [Nat.eqb]; rewrite Rmult_1_r; exact (base_3_1 s Hs)|]; destruct m as [|m]; [change (2 * 3 + 2)%nat with 8%nat; cbn [Nat.eqb]; rewrite Rmult_1_r; exact (base_3_2 s Hs)|]; destruct m as [|m]; [change (2 * 3 + 3)%nat with 9%nat; cbn [Nat.eqb]; rewrite Rmult_1_r; exact (base_3_3 s Hs)|]; destruct m as [|m]; [change (2 * 3 + 4)%nat with 10%nat; cbn [Nat.eqb]; rewrite Rmult_1_r; exact (base_3_4 s Hs)|]; destruct m as [|m]; [change (2 * 3 + 5)%nat with 11%nat; cbn [Nat.eqb]; rewrite Rmult_1_r; exact (base_3_5 s Hs)|]; destruct m as [|m]; [change (2 * 3 + 6)%nat with 12%nat; cbn [Nat.eqb]; rewrite Rmult_1_r; exact (base_3_6 s Hs)|]; destruct m as [|m]; [change (2 * 3 + 7)%nat with 13%nat; cbn [Nat.eqb]; rewrite Rmult_1_r; exact (base_3_7 s Hs)|]; lia|]. lia.
Qed.
Lemma factorial_value nu m : (nu < NU_MAX)%nat -> (m < M_MAX)%nat ->
  Rabs (nth m (nth nu factorial_table []) 0 * INR (fact (2 * nu + m)) - 1) <= 1e-15.
Proof.
  unfold NU_MAX, M_MAX. intros Hn Hm.
  destruct nu as [|nu]; [destruct m as [|m]; [change (2 * 0 + 0)%nat with 0%nat; rewrite fact_0; unfold factorial_table; cbn [nth]; apply Rabs_le; lra|]; destruct m as [|m]; [change (2 * 0 + 1)%nat with 1%nat; rewrite fact_1; unfold factorial_table; cbn [nth]; apply Rabs_le; lra|]; destruct m as [|m]; [change (2 * 0 + 2)%nat with 2%nat; rewrite fact_2; unfold factorial_table; cbn [nth]; apply Rabs_le; lra|]; destruct m as [|m]; [change (2 * 0 + 3)%nat with 3%nat; rewrite fact_3; unfold factorial_table; cbn [nth]; apply Rabs_le; lra|]; destruct m as [|m]; [change (2 * 0 + 4)%nat with 4%nat; rewrite fact_4; unfold factorial_table; cbn [nth]; apply Rabs_le; lra|]; destruct m as [|m]; [change (2 * 0 + 5)%nat with 5%nat; rewrite fact_5; unfold factorial_table; cbn [nth]; apply Rabs_le; lra|]; destruct m as [|m]; [change (2 * 0 + 6)%nat with 6%nat; rewrite fact_6; unfold factorial_table; cbn [nth]; apply Rabs_le; lra|]; destruct m as [|m]; [change (2 * 0 + 7)%nat with 7%nat; rewrite fact_7; unfold factorial_table; cbn [nth]; apply Rabs_le; lra|]; lia|].
  destruct nu as [|nu]; [destruct m as [|m]; [change (2 * 1 + 0)%nat with 2%nat; rewrite fact_2; unfold factorial_table; cbn [nth]; apply Rabs_le; lra|]; destruct m as [|m]; [change (2 * 1 + 1)%nat with 3%nat; rewrite fact_3; unfold factorial_table; cbn [nth]; apply Rabs_le; lra|]; destruct m as [|m]; [change (2 * 1 + 2)%nat with 4%nat; rewrite fact_4; unfold factorial_table; cbn [nth]; apply Rabs_le; lra|]; destruct m as [|m]; [change (2 * 1 + 3)%nat with 5%nat; rewrite fact_5; unfold factorial_table; cbn [nth]; apply Rabs_le; lra|]; destruct m as [|m]; [change (2 * 1 + 4)%nat with 6%nat; rewrite fact_6; unfold factorial_table; cbn [nth]; apply Rabs_le; lra|]; destruct m as [|m]; [change (2 * 1 + 5)%nat with 7%nat; rewrite fact_7; unfold factorial_table; cbn [nth]; apply Rabs_le; lra|]; destruct m as [|m]; [change (2 * 1 + 6)%nat with 8%nat; rewrite fact_8; unfold factorial_table; cbn [nth]; apply Rabs_le; lra|]; destruct m as [|m]; [change (2 * 1 + 7)%nat with 9%nat; rewrite fact_9; unfold factorial_table; cbn [nth]; apply Rabs_le; lra|]; lia|].
  destruct nu as [|nu]; [destruct m as [|m]; [change (2 * 2 + 0)%nat with 4%nat; rewrite fact_4; unfold factorial_table; cbn [nth]; apply Rabs_le; lra|]; destruct m as [|m]; [change (2 * 2 + 1)%nat with 5%nat; rewrite fact_5; unfold factorial_table; cbn [nth]; apply Rabs_le; lra|]; destruct m as [|m]; [change (2 * 2 + 2)%nat with 6%nat; rewrite fact_6; unfold factorial_table; cbn [nth]; apply Rabs_le; lra|]; destruct m as [|m]; [change (2 * 2 + 3)%nat with 7%nat; rewrite fact_7; unfold factorial_table; cbn [nth]; apply Rabs_le; lra|]; destruct m as [|m]; [change (2 * 2 + 4)%nat with 8%nat; rewrite fact_8; unfold factorial_table; cbn [nth]; apply Rabs_le; lra|]; destruct m as [|m]; [change (2 * 2 + 5)%nat with 9%nat; rewrite fact_9; unfold factorial_table; cbn [nth]; apply Rabs_le; lra|]; destruct m as [|m]; [change (2 * 2 + 6)%nat with 10%nat; rewrite fact_10; unfold factorial_table; cbn [nth]; apply Rabs_le; lra|]; destruct m as [|m]; [change (2 * 2 + 7)%nat with 11%nat; rewrite fact_11; unfold factorial_table; cbn [nth]; apply Rabs_le; lra|]; lia|].
  destruct nu as [|nu]; [destruct m as [|m]; [change (2 * 3 + 0)%nat with 6%nat; rewrite fact_6; unfold factorial_table; cbn [nth]; apply Rabs_le; lra|]; destruct m as [|m]; [change (2 * 3 + 1)%nat with 7%nat; rewrite fact_7; unfold factorial_table; cbn [nth]; apply Rabs_le; lra|]; destruct m as [|m]; [change (2 * 3 + 2)%nat with 8%nat; rewrite fact_8; unfold factorial_table; cbn [nth]; apply Rabs_le; lra|]; destruct m as [|m]; [change (2 * 3 + 3)%nat with 9%nat; rewrite fact_9; unfold factorial_table; cbn [nth]; apply Rabs_le; lra|]; destruct m as [|m]; [change (2 * 3 + 4)%nat with 10%nat; rewrite fact_10; unfold factorial_table; cbn [nth]; apply Rabs_le; lra|]; destruct m as [|m]; [change (2 * 3 + 5)%nat with 11%nat; rewrite fact_11; unfold factorial_table; cbn [nth]; apply Rabs_le; lra|]; destruct m as [|m]; [change (2 * 3 + 6)%nat with 12%nat; rewrite fact_12; unfold factorial_table; cbn [nth]; apply Rabs_le; lra|]; destruct m as [|m]; [change (2 * 3 + 7)%nat with 13%nat; rewrite fact_13; unfold factorial_table; cbn [nth]; apply Rabs_le; lra|]; lia|]. lia.
Qed.

