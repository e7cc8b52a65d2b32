(** Facts about path discretisation (C17). *)
From Coq Require Import Reals Lra Lia Permutation Sorted.
From Verif Require Import Base BaseFacts Vec GeomModel QuadModel KronrodFacts PathModel PathSpec.
Local Open Scope R_scope.

Lemma linspace_length u0 u1 n : length (linspace_open u0 u1 n) = n.
Proof. unfold linspace_open, arange. rewrite map_length, seq_length. reflexivity. Qed.
Lemma linspace_nth u0 u1 n i d : (i < n)%nat ->
  nth i (linspace_open u0 u1 n) d = u0 + INR i * ((u1 - u0) / INR n).
Proof.
  intros H. unfold linspace_open. set (f := fun i : nat => u0 + INR i * ((u1 - u0) / INR n)).
  rewrite nth_indep with (d' := f 0%nat)
    by (rewrite map_length; unfold arange; rewrite seq_length; assumption).
  rewrite (map_nth f). unfold arange. rewrite seq_nth by assumption. reflexivity.
Qed.

(** What one run of the sections loop delivers. *)
Record disc_ok (nf : nat) (cnt : R -> R -> nat) (points us : list R) : Prop := {
  do_len : exists m, length us = (nf * m + 1)%nat;
  do_hd : nth 0 us 0 = nth 0 points 0;
  do_last : last us 0 = last points 0;
  do_step : forall i, (S i < length us)%nat -> exists k, (S k < length points)%nat /\
              nth k points 0 < nth (S k) points 0 /\
              nth (S i) us 0 - nth i us 0 =
                (nth (S k) points 0 - nth k points 0) / INR (nf * cnt (nth k points 0) (nth (S k) points 0));
  do_in : forall b, In b points -> In b us;
  do_sec : forall k, (S k < length points)%nat -> nth k points 0 < nth (S k) points 0 ->
             let n := cnt (nth k points 0) (nth (S k) points 0) in
             exists s, (nf * s + nf * n < length us)%nat /\
               forall j, (j <= nf * n)%nat ->
                 nth (nf * s + j) us 0 =
                 nth k points 0 + INR j * ((nth (S k) points 0 - nth k points 0) / INR (nf * n)) }.

Lemma last_cons2 {A} (a b : A) l d : last (a :: b :: l) d = last (b :: l) d.
Proof. reflexivity. Qed.
Lemma last_app_ne {A} (l l' : list A) d : l' <> [] -> last (l ++ l') d = last l' d.
Proof.
  intros H. induction l as [|a l IH]; [reflexivity|]. simpl app.
  destruct (l ++ l')%list eqn:E; [destruct l; [simpl in E; congruence|discriminate]|].
  rewrite last_cons2. rewrite IH. reflexivity.
Qed.

Lemma discretize_sections_cons ms msf nf u0 u1 rest :
  discretize_sections ms msf nf (u0 :: u1 :: rest) =
  if Req_EM_T u0 u1 then discretize_sections ms msf nf (u1 :: rest)
  else n <- section_count ms msf u0 u1 ;;
       l <- discretize_sections ms msf nf (u1 :: rest) ;;
       Ok (linspace_open u0 u1 (nf * n) ++ l)%list.
Proof. reflexivity. Qed.

Lemma disc_sections_ok ms msf nf (cnt : R -> R -> nat) : (1 <= nf)%nat ->
  (forall a b, a < b -> section_count ms msf a b = Ok (cnt a b)) ->
  (forall a b, (1 <= cnt a b)%nat) ->
  forall points, points <> [] -> weakly_increasing points ->
  exists l, discretize_sections ms msf nf points = Ok l /\
    disc_ok nf cnt points (l ++ [last points 0])%list.
Proof.
  intros Hnf Hc Hc1 points. induction points as [|u0 rest IH]; [congruence|]. intros _ Hw.
  destruct rest as [|u1 rest].
  - exists []. split; [reflexivity|]. simpl. constructor.
    + exists 0%nat. simpl. lia.
    + reflexivity.
    + reflexivity.
    + simpl. intros; lia.
    + auto.
    + simpl. intros; lia.
  - assert (Hw' : weakly_increasing (u1 :: rest)).
    { intros i Hi. apply (Hw (S i)). simpl in *. lia. }
    destruct (IH ltac:(discriminate) Hw') as (l & El & Hl).
    assert (H01 : u0 <= u1) by (apply (Hw 0%nat); simpl; lia).
    rewrite last_cons2.
    rewrite discretize_sections_cons. destruct (Req_EM_T u0 u1) as [E|E].
    + exists l. split; [exact El|]. subst u1. destruct Hl as [A B C D F G]. constructor; auto.
      * intros i Hi. destruct (D i Hi) as (k & Hk & K1 & K2). exists (S k). split; [simpl in *; lia|]. auto.
      * intros b [<-|Hb]; apply F; [left; reflexivity|assumption].
      * intros k Hk Hlt. destruct k as [|k]; [simpl in Hlt; lra|].
        apply (G k); [simpl in *; lia|exact Hlt].
    + assert (Hlt : u0 < u1) by lra.
      rewrite (Hc _ _ Hlt). cbn [bind]. rewrite El. cbn [bind].
      set (n := cnt u0 u1). assert (Hn : (1 <= n)%nat) by apply Hc1.
      set (N := (nf * n)%nat). assert (HN : (1 <= N)%nat) by (unfold N; nia).
      assert (HNR : 0 < INR N) by (apply lt_0_INR; lia).
      eexists. split; [reflexivity|]. rewrite <- app_assoc.
      set (us := (l ++ [last (u1 :: rest) 0])%list) in *.
      destruct Hl as [A B C D F G].
      assert (Hus : us <> []) by (unfold us; destruct l; discriminate).
      assert (Hlus : (1 <= length us)%nat) by (destruct us; [congruence|simpl; lia]).
      assert (Hfst : forall j, (j <= N)%nat ->
                nth j (linspace_open u0 u1 N ++ us) 0 = u0 + INR j * ((u1 - u0) / INR N)).
      { intros j Hj. destruct (Nat.eq_dec j N) as [->|Hne].
        - rewrite app_nth2 by (rewrite linspace_length; lia). rewrite linspace_length, Nat.sub_diag, B.
          simpl. field. lra.
        - rewrite app_nth1 by (rewrite linspace_length; lia). apply linspace_nth. lia. }
      assert (Hsnd : forall j, nth (N + j) (linspace_open u0 u1 N ++ us) 0 = nth j us 0).
      { intros j. rewrite app_nth2 by (rewrite linspace_length; lia). rewrite linspace_length. f_equal. lia. }
      constructor.
      * destruct A as [m Hm]. exists (n + m)%nat. rewrite app_length, linspace_length, Hm. unfold N. ring.
      * rewrite (Hfst 0%nat) by lia. simpl. ring.
      * rewrite last_app_ne by assumption. exact C.
      * intros i Hi. rewrite app_length, linspace_length in Hi.
        destruct (le_lt_dec N i) as [Hge|Hl2].
        -- destruct (D (i - N)%nat ltac:(lia)) as (k & Hk & K1 & K2). exists (S k).
           split; [simpl in *; lia|]. split; [exact K1|].
           replace (S i) with (N + S (i - N))%nat by lia. rewrite Hsnd.
           replace i with (N + (i - N))%nat at 2 by lia. rewrite Hsnd. exact K2.
        -- exists 0%nat. split; [simpl; lia|]. split; [exact Hlt|].
           rewrite (Hfst (S i)), (Hfst i) by lia. cbn [nth]. fold n. fold N. rewrite S_INR. field. lra.
      * intros b [<-|Hb]; apply in_app_iff.
        -- left. unfold linspace_open. apply in_map_iff. exists 0%nat. split; [simpl; ring|].
           unfold arange. apply in_seq. lia.
        -- right. apply F. exact Hb.
      * intros k Hk Hkl. destruct k as [|k].
        -- cbn [nth] in *. fold n. exists 0%nat. rewrite app_length, linspace_length.
           split; [fold N; lia|]. intros j Hj. rewrite Nat.mul_0_r. apply Hfst. exact Hj.
        -- cbn [nth] in Hkl. destruct (G k ltac:(simpl in *; lia) Hkl) as (s & Hs & Hj).
           cbv zeta. change (nth (S k) (u0 :: u1 :: rest) 0) with (nth k (u1 :: rest) 0).
           change (nth (S (S k)) (u0 :: u1 :: rest) 0) with (nth (S k) (u1 :: rest) 0).
           exists (n + s)%nat. rewrite app_length, linspace_length. split; [unfold N; nia|].
           intros j Hjl. rewrite <- Hj by exact Hjl.
           replace (nf * (n + s) + j)%nat with (N + (nf * s + j))%nat by (unfold N; ring).
           apply Hsnd.
Qed.

Lemma Rceil_ge x : x <= IZR (Rceil x).
Proof.
  unfold Rceil. destruct (base_Int_part (- x)) as [H _]. rewrite opp_IZR. lra.
Qed.
Lemma Rceil_lt x : IZR (Rceil x) < x + 1.
Proof.
  unfold Rceil. destruct (base_Int_part (- x)) as [_ H]. rewrite opp_IZR. lra.
Qed.

Lemma Req0_false x : x <> 0 -> Req0 x = false.
Proof. intros H. unfold Req0. destruct (Req_EM_T x 0); congruence. Qed.
Lemma Rdiv_py_ok x y : y <> 0 -> Rdiv_py x y = Ok (x / y).
Proof. intros H. unfold Rdiv_py. rewrite Req0_false by assumption. reflexivity. Qed.

Definition size_count (ms : R) (a b : R) : nat := Z.to_nat (Z.max (Rceil ((b - a) / ms)) 3).
Lemma size_count_3 ms a b : (3 <= size_count ms a b)%nat.
Proof. unfold size_count. lia. Qed.
Lemma size_count_size ms a b : 0 < ms -> b - a <= ms * INR (size_count ms a b).
Proof.
  intros Hm. unfold size_count. rewrite INR_IZR_INZ, Z2Nat.id by lia.
  assert (H : (b - a) / ms <= IZR (Z.max (Rceil ((b - a) / ms)) 3)).
  { apply Rle_trans with (IZR (Rceil ((b - a) / ms))); [apply Rceil_ge|]. apply IZR_le. lia. }
  apply (Rmult_le_compat_l ms) in H; [|lra]. replace (ms * ((b - a) / ms)) with (b - a) in H by (field; lra).
  exact H.
Qed.
Definition factor_count (f : Z) : nat := Z.to_nat (3 * Z.max f 1).

Lemma discretize_size L bps ms msf nf : (1 <= nf)%nat -> 0 < ms ->
  weakly_increasing (0 :: bps ++ [L])%list ->
  exists us, discretize_path L bps (Some ms) msf nf = Ok us /\
    disc_ok nf (size_count ms) (0 :: bps ++ [L])%list us.
Proof.
  intros Hnf Hms Hw.
  destruct (disc_sections_ok (Some ms) msf nf (size_count ms) Hnf) with (points := (0 :: bps ++ [L])%list)
    as (l & El & Hl); auto.
  - intros a b _. unfold section_count. rewrite Rdiv_py_ok by lra. reflexivity.
  - intros a b. pose proof (size_count_3 ms a b). lia.
  - discriminate.
  - unfold discretize_path. cbn [py_assert bind]. rewrite El. cbn [bind]. eexists. split; [reflexivity|].
    assert (E : last (0 :: bps ++ [L])%list 0 = L).
    { change (0 :: bps ++ [L])%list with ((0 :: bps) ++ [L])%list. apply last_app_ne. discriminate. }
    rewrite E in Hl. exact Hl.
Qed.
Lemma discretize_factor L bps f nf : (1 <= nf)%nat ->
  weakly_increasing (0 :: bps ++ [L])%list ->
  exists us, discretize_path L bps None (Some f) nf = Ok us /\
    disc_ok nf (fun _ _ => factor_count f) (0 :: bps ++ [L])%list us.
Proof.
  intros Hnf Hw.
  destruct (disc_sections_ok None (Some f) nf (fun _ _ => factor_count f) Hnf) with (points := (0 :: bps ++ [L])%list)
    as (l & El & Hl); auto.
  - intros a b. unfold factor_count. lia.
  - discriminate.
  - unfold discretize_path. cbn [py_assert bind]. rewrite El. cbn [bind]. eexists. split; [reflexivity|].
    assert (E : last (0 :: bps ++ [L])%list 0 = L).
    { change (0 :: bps ++ [L])%list with ((0 :: bps) ++ [L])%list. apply last_app_ne. discriminate. }
    rewrite E in Hl. exact Hl.
Qed.

Lemma nth_error_of_nth {A} (l : list A) i d x : (i < length l)%nat -> nth i l d = x -> nth_error l i = Some x.
Proof. intros H <-. apply nth_error_nth'. exact H. Qed.

Lemma disc_good nf (cnt : R -> R -> nat) (L : R) (bps us : list R) max_step : (1 <= nf)%nat ->
  (forall a b, 3 <= cnt a b)%nat ->
  (forall k, (S k < length (0%R :: bps ++ [L]))%nat -> 
     let p := nth k (0 :: bps ++ [L])%list 0 in let q := nth (S k) (0 :: bps ++ [L])%list 0 in
     p < q -> q - p <= max_step * INR (nf * cnt p q)) ->
  disc_ok nf cnt (0 :: bps ++ [L])%list us -> good_samples L bps us nf max_step.
Proof.
  intros Hnf H3 Hm [A B C D F G].
  assert (Hpos : forall a b, 0 < INR (nf * cnt a b)) by (intros a b; apply lt_0_INR; specialize (H3 a b); nia).
  constructor; auto.
  - rewrite C. change (0 :: bps ++ [L])%list with ((0 :: bps) ++ [L])%list. apply last_app_ne. discriminate.
  - intros i Hi. destruct (D i Hi) as (k & Hk & Hlt & E).
    set (p := nth k (0 :: bps ++ [L])%list 0) in *. set (q := nth (S k) (0 :: bps ++ [L])%list 0) in *.
    assert (0 < (q - p) / INR (nf * cnt p q)).
    { apply Rmult_lt_0_compat; [lra|]. apply Rinv_0_lt_compat. apply Hpos. }
    lra.
  - intros i Hi. destruct (D i Hi) as (k & Hk & Hlt & E).
    specialize (Hm k Hk). cbv zeta in Hm.
    set (p := nth k (0 :: bps ++ [L])%list 0) in *. set (q := nth (S k) (0 :: bps ++ [L])%list 0) in *.
    specialize (Hm Hlt). rewrite E. specialize (Hpos p q).
    apply Rmult_le_reg_r with (INR (nf * cnt p q)); [assumption|].
    replace ((q - p) / INR (nf * cnt p q) * INR (nf * cnt p q)) with (q - p) by (field; lra). exact Hm.
  - intros b Hb. apply F. right. apply in_app_iff. left. exact Hb.
  - intros k p q Hp Hq Hlt.
    assert (Hk : (S k < length (0%R :: bps ++ [L]))%nat) by (apply nth_error_Some; congruence).
    apply nth_error_nth with (d := 0) in Hp. apply nth_error_nth with (d := 0) in Hq.
    specialize (G k Hk). rewrite Hp, Hq in G. destruct (G Hlt) as (s & Hs & Hj).
    set (n := cnt p q) in *. exists s, n. split; [apply H3|]. 
    assert (HN : 0 < INR (nf * n)) by apply Hpos.
    split; (eapply nth_error_of_nth with (d := 0); [nia|]).
    + replace (nf * s)%nat with (nf * s + 0)%nat by lia. rewrite Hj by lia. simpl. ring.
    + replace (nf * (s + n))%nat with (nf * s + nf * n)%nat by ring. rewrite Hj by lia. field. lra.
Qed.

Lemma discretize_size_good L bps ms msf nf : (1 <= nf)%nat -> 0 < ms ->
  weakly_increasing (0 :: bps ++ [L])%list ->
  exists us, discretize_path L bps (Some ms) msf nf = Ok us /\ good_samples L bps us nf (ms / INR nf).
Proof.
  intros Hnf Hms Hw. destruct (discretize_size L bps ms msf nf Hnf Hms Hw) as (us & E & H).
  exists us. split; [exact E|]. apply disc_good with (cnt := size_count ms); auto using size_count_3.
  intros k Hk p q Hlt. rewrite mult_INR. 
  replace (ms / INR nf * (INR nf * INR (size_count ms p q))) with (ms * INR (size_count ms p q))
    by (field; apply not_0_INR; lia).
  apply size_count_size. exact Hms.
Qed.
Lemma discretize_factor_good L bps f nf : (1 <= nf)%nat ->
  weakly_increasing (0 :: bps ++ [L])%list ->
  exists us, discretize_path L bps None (Some f) nf = Ok us /\
    good_samples L bps us nf (L / INR (3 * nf)).
Proof.
  intros Hnf Hw. destruct (discretize_factor L bps f nf Hnf Hw) as (us & E & H).
  exists us. split; [exact E|]. apply disc_good with (cnt := fun _ _ => factor_count f); auto.
  { intros _ _. unfold factor_count. lia. }
  intros k Hk p q Hlt.
  assert (Hmono : forall i j, (i <= j < length (0%R :: bps ++ [L]))%nat ->
            nth i (0 :: bps ++ [L])%list 0 <= nth j (0 :: bps ++ [L])%list 0).
  { intros i j [Hij Hj]. induction Hij as [|j Hij IH]; [lra|].
    eapply Rle_trans; [apply IH; lia|]. apply Hw. lia. }
  assert (P0 : 0 <= p) by (apply (Hmono 0%nat k); lia).
  assert (QL : q <= L).
  { assert (HL : nth (S (length bps)) (0 :: bps ++ [L])%list 0 = L).
    { simpl. rewrite app_nth2, Nat.sub_diag by lia. reflexivity. }
    rewrite <- HL. apply Hmono. simpl in *. rewrite app_length in *. simpl in *. lia. }
  assert (F3 : (3 <= factor_count f)%nat) by (unfold factor_count; lia).
  apply le_INR in F3.
  assert (0 < INR nf) by (apply lt_0_INR; lia).
  rewrite !mult_INR. replace (L / (INR 3 * INR nf) * (INR nf * INR (factor_count f)))
    with (L * (INR (factor_count f) / INR 3)) by (simpl; field; lra).
  assert (1 <= INR (factor_count f) / INR 3).
  { apply Rmult_le_reg_r with (INR 3); [simpl; lra|]. simpl in *. lra. }
  nra.
Qed.
