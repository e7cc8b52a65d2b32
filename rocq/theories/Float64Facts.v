(** Facts about float64 bit patterns and the order of points. *)
From Coq Require Import Sorted.
From Verif Require Import Base Float64 BaseFacts.
Local Open Scope Z_scope.

(** Lexicographic key of a point: z first, then y, then x. *)
Definition pt_key (p : point) : Z * Z * Z := (f64_key (pz p), f64_key (py p), f64_key (px p)).

Definition key_lt (a b : Z * Z * Z) : Prop :=
  let '(az, ay, ax) := a in let '(bz, by_, bx) := b in
  az < bz \/ (az = bz /\ (ay < by_ \/ (ay = by_ /\ ax < bx))).

Lemma pt_eqb_key p q : pt_eqb p q = true <-> pt_key p = pt_key q.
Proof.
  unfold pt_eqb, f64_eqb, pt_key. rewrite !andb_true_iff, !Z.eqb_eq. split.
  - intros [[-> ->] ->]; reflexivity.
  - intros H; injection H as -> -> ->; auto.
Qed.

Lemma pt_eqb_refl p : pt_eqb p p = true.
Proof. apply pt_eqb_key; reflexivity. Qed.
Lemma pt_eqb_sym p q : pt_eqb p q = pt_eqb q p.
Proof.
  destruct (pt_eqb p q) eqn:E; destruct (pt_eqb q p) eqn:F; try reflexivity.
  - apply pt_eqb_key in E. symmetry in E. apply pt_eqb_key in E. congruence.
  - apply pt_eqb_key in F. symmetry in F. apply pt_eqb_key in F. congruence.
Qed.
Lemma pt_eqb_trans p q r : pt_eqb p q = true -> pt_eqb q r = true -> pt_eqb p r = true.
Proof. rewrite !pt_eqb_key; congruence. Qed.

Lemma pt_leb_key p q : pt_leb p q = true <-> key_lt (pt_key p) (pt_key q) \/ pt_key p = pt_key q.
Proof.
  unfold pt_leb, f64_ltb, pt_key, key_lt.
  generalize (f64_key (px p)) (f64_key (px q)) (f64_key (py p)) (f64_key (py q))
             (f64_key (pz p)) (f64_key (pz q)). intros a b c d e f.
  destruct (Z.ltb_spec e f); [intuition|].
  destruct (Z.ltb_spec f e). { split; [discriminate|]. intros [?|E]; [lia|injection E; lia]. }
  destruct (Z.ltb_spec c d). { split; [intros _|reflexivity]. left; lia. }
  destruct (Z.ltb_spec d c). { split; [discriminate|]. intros [?|E]; [lia|injection E; lia]. }
  assert (e = f) by lia. assert (c = d) by lia. subst.
  destruct (Z.ltb_spec b a); simpl; split; intros Hx; try discriminate; try reflexivity.
  - destruct Hx as [?|E]; [lia|injection E; lia].
  - destruct (Z.eq_dec a b) as [->|]; [right; reflexivity|left; lia].
Qed.

Lemma key_lt_trans a b c : key_lt a b -> key_lt b c -> key_lt a c.
Proof. destruct a as [[? ?] ?], b as [[? ?] ?], c as [[? ?] ?]; simpl; lia. Qed.
Lemma key_lt_irrefl a : ~ key_lt a a.
Proof. destruct a as [[? ?] ?]; simpl; lia. Qed.
Lemma key_lt_total a b : key_lt a b \/ a = b \/ key_lt b a.
Proof.
  destruct a as [[a1 a2] a3], b as [[b1 b2] b3]; simpl.
  destruct (Z.eq_dec a1 b1) as [->|]; [|lia].
  destruct (Z.eq_dec a2 b2) as [->|]; [|lia].
  destruct (Z.eq_dec a3 b3) as [->|]; [right; left; reflexivity|lia].
Qed.

Lemma pt_leb_total p q : pt_leb p q = true \/ pt_leb q p = true.
Proof.
  rewrite !pt_leb_key. destruct (key_lt_total (pt_key p) (pt_key q)) as [H|[H|H]]; intuition.
Qed.
Lemma pt_leb_trans p q r : pt_leb p q = true -> pt_leb q r = true -> pt_leb p r = true.
Proof.
  rewrite !pt_leb_key. intros [H|H] [K|K].
  - left; eapply key_lt_trans; eauto.
  - left; rewrite <- K; assumption.
  - left; rewrite H; assumption.
  - right; congruence.
Qed.

(** Truncation clears exactly the low 16 bits. *)
Lemma f64_trunc_sub b : f64_bits b -> f64_trunc b = b - b mod 65536.
Proof.
  intros [H0 H1]. unfold f64_trunc.
  assert (E : 0xFFFFFFFFFFFF0000 = Z.ldiff (Z.ones 64) (Z.ones 16)) by reflexivity.
  rewrite E.
  assert (Z.land b (Z.ldiff (Z.ones 64) (Z.ones 16)) = Z.ldiff b (Z.ones 16)) as ->.
  { apply Z.bits_inj'; intros n Hn.
    rewrite Z.land_spec, !Z.ldiff_spec.
    destruct (Z.ltb_spec n 64).
    - rewrite (Z.ones_spec_low 64) by lia. reflexivity.
    - rewrite (Z.ones_spec_high 64) by lia. simpl. rewrite andb_false_r.
      assert (Z.testbit b n = false) as ->; [|reflexivity].
      destruct (Z.eq_dec b 0) as [->|]; [apply Z.bits_0|].
      apply Z.bits_above_log2; [lia|]. apply Z.log2_lt_pow2; [lia|].
      eapply Z.lt_le_trans; [exact H1|]. unfold two64. apply Z.pow_le_mono_r; lia. }
  rewrite Z.ldiff_ones_r by lia. rewrite Z.shiftr_div_pow2, Z.shiftl_mul_pow2 by lia.
  change (2 ^ 16) with 65536. pose proof (Z.div_mod b 65536 ltac:(lia)). lia.
Qed.

Lemma f64_trunc_bits b : f64_bits b -> f64_bits (f64_trunc b).
Proof.
  intros H. rewrite f64_trunc_sub by assumption. unfold f64_bits in *.
  pose proof (Z.mod_pos_bound b 65536 ltac:(lia)).
  pose proof (Z.mod_le b 65536). lia.
Qed.

Lemma f64_trunc_idem b : f64_trunc (f64_trunc b) = f64_trunc b.
Proof. unfold f64_trunc. rewrite <- Z.land_assoc. reflexivity. Qed.

(** The sign is kept and the magnitude decreases by less than 2^16 units in the last place. *)
Lemma f64_trunc_key b : f64_bits b ->
  0 <= f64_key b /\ 0 <= f64_key b - f64_key (f64_trunc b) < 65536 \/
  f64_key b <= 0 /\ 0 <= f64_key (f64_trunc b) - f64_key b < 65536.
Proof.
  intros H. pose proof (f64_trunc_bits b H) as H'. rewrite f64_trunc_sub in * by assumption.
  pose proof (Z.mod_pos_bound b 65536 ltac:(lia)) as Hm.
  pose proof (Z.div_mod b 65536 ltac:(lia)) as Hd.
  unfold f64_key, f64_bits, two63, two64 in *.
  destruct (Z.ltb_spec b (2 ^ 63)) as [Hb|Hb].
  - left. destruct (Z.ltb_spec (b - b mod 65536) (2 ^ 63)); lia.
  - right. destruct (Z.ltb_spec (b - b mod 65536) (2 ^ 63)) as [Hc|Hc]; [|lia].
    exfalso. assert (2 ^ 63 = 65536 * 2 ^ 47) by reflexivity. lia.
Qed.

Lemma f64_trunc_nonan b : f64_bits b -> f64_is_nan b = false -> f64_is_nan (f64_trunc b) = false.
Proof.
  intros H Hn. unfold f64_is_nan in *. rewrite Z.ltb_ge in *.
  rewrite f64_trunc_sub by assumption.
  pose proof (Z.mod_pos_bound b 65536 ltac:(lia)) as Hm.
  pose proof (Z.div_mod b 65536 ltac:(lia)) as Hd.
  unfold f64_mag, f64_bits, two63, two64 in *.
  destruct (Z.ltb_spec b (2 ^ 63)) as [Hb|Hb];
  destruct (Z.ltb_spec (b - b mod 65536) (2 ^ 63)) as [Hc|Hc]; try lia.
Qed.

Lemma pt_trunc_idem p : pt_trunc (pt_trunc p) = pt_trunc p.
Proof. destruct p as [[x y] z]; unfold pt_trunc, px, py, pz; simpl; rewrite !f64_trunc_idem; reflexivity. Qed.

Definition pt_lt (p q : point) : Prop := key_lt (pt_key p) (pt_key q).

(** Two strictly sorted point lists with the same points (as values) are equal as values. *)
Lemma strict_sorted_unique l m :
  StronglySorted key_lt l -> StronglySorted key_lt m ->
  (forall k, In k l <-> In k m) -> l = m.
Proof.
  revert m; induction l as [|a l IH]; intros [|b m] Hl Hm H.
  - reflexivity.
  - exfalso. apply (proj2 (H b)); left; reflexivity.
  - exfalso. apply (proj1 (H a)); left; reflexivity.
  - inversion Hl as [|? ? Hl1 Hl2]; inversion Hm as [|? ? Hm1 Hm2]; subst.
    rewrite Forall_forall in Hl2, Hm2.
    assert (a = b).
    { destruct (proj1 (H a) (or_introl eq_refl)) as [->|Ha]; [reflexivity|].
      destruct (proj2 (H b) (or_introl eq_refl)) as [->|Hb]; [reflexivity|].
      exfalso. apply (key_lt_irrefl a). eapply key_lt_trans; [apply Hl2, Hb|apply Hm2, Ha]. }
    subst b. f_equal. apply IH; try assumption.
    intros k; specialize (H k); simpl in H. split; intros Hk.
    + destruct (proj1 H (or_intror Hk)) as [<-|]; [|assumption].
      exfalso. apply (key_lt_irrefl a), Hl2, Hk.
    + destruct (proj2 H (or_intror Hk)) as [<-|]; [|assumption].
      exfalso. apply (key_lt_irrefl a), Hm2, Hk.
Qed.
