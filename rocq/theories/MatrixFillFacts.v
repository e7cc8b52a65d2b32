(** The influence matrix after all threads have finished (C32). *)
From Verif Require Import Base BaseFacts ThreadModel ThreadFacts.

Lemma pair_eqb_spec a b : pair_eqb a b = true <-> a = b.
Proof.
  destruct a as [a1 a2], b as [b1 b2]. unfold pair_eqb; simpl. rewrite andb_true_iff, !Nat.eqb_eq.
  split; [intros [-> ->]; reflexivity|intros E; injection E as -> ->; auto].
Qed.

Lemma NoDup_app' {A} (l m : list A) : NoDup l -> NoDup m -> (forall a, In a l -> In a m -> False) -> NoDup (l ++ m).
Proof.
  induction l as [|a l IH]; intros Hl Hm H; simpl; [exact Hm|]. inversion Hl; subst. constructor.
  - intros K. apply in_app_iff in K. destruct K as [K|K]; [contradiction|]. apply (H a); simpl; auto.
  - apply IH; [assumption|assumption|]. intros b Hb. apply H. right. exact Hb.
Qed.

Section Fill.
  Context {V : Type} (zero : V) (plus : V -> V -> V).
  Notation run := (run_alone pair_eqb).
  Notation value := (fold_left (cell_value plus)).

  Lemma run_cell a ops : forall rest r (m : memory (nat * nat) V), exists r' m',
    run (flat_map (cell_code plus a) ops ++ rest) r m = run rest r' m' /\
    m' a = value ops (m a) /\ forall b, b <> a -> m' b = m b.
  Proof.
    induction ops as [|o ops IH]; intros rest r m.
    - exists r, m. split; [reflexivity|]. split; reflexivity.
    - cbn [flat_map]. rewrite <- app_assoc. destruct o as [x|x]; cbn [cell_code app run_alone].
      + destruct (IH rest r (put pair_eqb m a x)) as (r' & m' & E & Ea & Eb). exists r', m'. split; [exact E|].
        rewrite (put_same pair_eqb pair_eqb_spec) in Ea. split; [exact Ea|]. intros b Hb. rewrite (Eb b Hb).
        apply (put_other pair_eqb pair_eqb_spec). exact Hb.
      + destruct (IH rest (m a) (put pair_eqb m a (plus (m a) x))) as (r' & m' & E & Ea & Eb). exists r', m'. split; [exact E|].
        rewrite (put_same pair_eqb pair_eqb_spec) in Ea. split; [exact Ea|]. intros b Hb. rewrite (Eb b Hb).
        apply (put_other pair_eqb pair_eqb_spec). exact Hb.
  Qed.

  Lemma touches_cell a (ops : list (cellop V)) b : touches (flat_map (cell_code plus a) ops) b -> b = a.
  Proof.
    unfold touches. intros H. apply in_map_iff in H. destruct H as (i & <- & Hi). apply in_flat_map in Hi.
    destruct Hi as (o & _ & Ho). destruct o; simpl in Ho; [destruct Ho as [<-|[]]|destruct Ho as [<-|[<-|[]]]]; reflexivity.
  Qed.

  (** A list of cells with different addresses. *)
  Definition cells_code (cells : list ((nat * nat) * list (cellop V))) : list (instr (nat * nat) V) :=
    flat_map (fun c => flat_map (cell_code plus (fst c)) (snd c)) cells.
  Lemma touches_cells cells b : touches (cells_code cells) b -> In b (map fst cells).
  Proof.
    unfold touches, cells_code. intros H. apply in_map_iff in H. destruct H as (i & <- & Hi). apply in_flat_map in Hi.
    destruct Hi as (c & Hc & Hi).
    assert (T : touches (flat_map (cell_code plus (fst c)) (snd c)) (address i)) by (unfold touches; apply in_map; exact Hi).
    apply touches_cell in T. rewrite T. apply in_map. exact Hc.
  Qed.
  Lemma run_cells cells : NoDup (map fst cells) -> forall r (m : memory (nat * nat) V) a ops, In (a, ops) cells ->
    run (cells_code cells) r m a = value ops (m a).
  Proof.
    induction cells as [|[b bo] cells IH]; intros Hn r m a ops Hi; [destruct Hi|].
    inversion Hn as [|? ? Hb Hn']; subst. unfold cells_code; cbn [flat_map fst snd].
    destruct (run_cell b bo (cells_code cells) r m) as (r' & m' & E & Ea & Eb).
    change (flat_map (fun c => flat_map (cell_code plus (fst c)) (snd c)) cells) with (cells_code cells). rewrite E.
    destruct Hi as [Hi|Hi].
    - injection Hi as -> ->. rewrite (run_alone_other pair_eqb pair_eqb_spec); [exact Ea|].
      intros T. apply touches_cells in T. contradiction.
    - rewrite (IH Hn' r' m' a ops Hi). rewrite Eb; [reflexivity|]. intros ->. apply Hb. apply in_map_iff. exists (b, ops). auto.
  Qed.

  Definition row_cells (ops : nat -> nat -> list (cellop V)) N lo n : list ((nat * nat) * list (cellop V)) :=
    flat_map (fun i => map (fun j => ((i, j), ops i j)) (seq 0 N)) (seq lo n).
  Lemma fill_rows_cells ops N lo hi : fill_rows plus ops N lo hi = cells_code (row_cells ops N lo (S hi - lo)).
  Proof.
    unfold fill_rows, cells_code, row_cells. generalize (seq lo (S hi - lo)). intros rows.
    induction rows as [|i rows IH]; simpl; [reflexivity|]. rewrite flat_map_app, IH. f_equal.
    generalize (seq 0 N). intros cols. induction cols as [|j cols IHc]; simpl; [reflexivity|]. rewrite IHc. reflexivity.
  Qed.
  Lemma row_cells_In ops N lo n a o : In (a, o) (row_cells ops N lo n) <->
    lo <= fst a < lo + n /\ snd a < N /\ o = ops (fst a) (snd a).
  Proof.
    unfold row_cells. rewrite in_flat_map. split.
    - intros (i & Hi & H). apply in_seq in Hi. apply in_map_iff in H. destruct H as (j & E & Hj). apply in_seq in Hj.
      injection E as <- <-. simpl. repeat split; lia.
    - intros (H1 & H2 & ->). exists (fst a). split; [apply in_seq; lia|]. apply in_map_iff. exists (snd a).
      split; [destruct a; reflexivity|]. apply in_seq. lia.
  Qed.
  Lemma row_cells_NoDup ops N lo n : NoDup (map fst (row_cells ops N lo n)).
  Proof.
    revert lo. induction n as [|n IH]; intros lo; [constructor|]. unfold row_cells. cbn [seq flat_map]. rewrite map_app.
    apply NoDup_app'.
    - rewrite map_map. simpl. apply FinFun.Injective_map_NoDup; [|apply seq_NoDup]. intros x y E. injection E as ->. reflexivity.
    - apply IH.
    - intros a Ha Hb. rewrite map_map in Ha. apply in_map_iff in Ha. destruct Ha as (j & <- & _).
      apply in_map_iff in Hb. destruct Hb as ([b o] & E & Hb). simpl in E. subst b. apply (row_cells_In ops N (S lo) n) in Hb. simpl in Hb. lia.
  Qed.

  Lemma fill_rows_run ops N lo hi r m i j : lo <= i <= hi -> j < N ->
    run (fill_rows plus ops N lo hi) r m (i, j) = value (ops i j) (m (i, j)).
  Proof.
    intros Hi Hj. rewrite fill_rows_cells. apply run_cells; [apply row_cells_NoDup|]. apply row_cells_In. cbn [fst snd]. split; [lia|]. split; [lia|reflexivity].
  Qed.
  Lemma fill_rows_touches ops N lo hi a : touches (fill_rows plus ops N lo hi) a -> lo <= fst a <= hi /\ snd a < N.
  Proof.
    rewrite fill_rows_cells. intros T. apply touches_cells in T. apply in_map_iff in T. destruct T as ([b o] & <- & H).
    apply row_cells_In in H. cbn [fst snd]. lia.
  Qed.

  (** The code of the thread for the rows [p]. *)
  Definition thread_code strict ops N p : list (instr (nat * nat) V) :=
    match fill_thread plus strict ops N p with Ok c => c | Err _ => [] end.
  Lemma last_seq s k : last (seq s (S k)) 0 = s + k.
  Proof.
    revert s. induction k as [|k IH]; intros s; [simpl; lia|]. change (seq s (S (S k))) with (s :: seq (S s) (S k)).
    change (last (s :: seq (S s) (S k)) 0) with (last (seq (S s) (S k)) 0). rewrite IH. lia.
  Qed.
  Lemma thread_code_eq strict ops N s k : s + S k <= N ->
    thread_code strict ops N (seq s (S k)) = if strict && (k =? 0) then [] else fill_rows plus ops N s (s + k).
  Proof.
    intros H. unfold thread_code, fill_thread. cbn [seq]. change (s :: seq (S s) k) with (seq s (S k)). rewrite last_seq.
    replace (s <? N) with true by (symmetry; apply Nat.ltb_lt; lia).
    replace (s + k <? N) with true by (symmetry; apply Nat.ltb_lt; lia). cbn [andb].
    destruct strict.
    - destruct k as [|k]; cbn [andb Nat.eqb].
      + rewrite Nat.add_0_r, Nat.ltb_irrefl. reflexivity.
      + replace (s <? s + S k) with true by (symmetry; apply Nat.ltb_lt; lia). reflexivity.
    - replace (s <=? s + k) with true by (symmetry; apply Nat.leb_le; lia). reflexivity.
  Qed.
  Lemma thread_code_touches strict ops N p a s : p = seq s (length p) -> s + length p <= N ->
    touches (thread_code strict ops N p) a -> s <= fst a < s + length p.
  Proof.
    intros Ep Hl T. destruct (length p) as [|k] eqn:L.
    - destruct p; [|discriminate]. destruct T.
    - rewrite Ep, thread_code_eq in T by exact Hl. destruct (strict && (k =? 0)); [destruct T|].
      apply fill_rows_touches in T. lia.
  Qed.

  Lemma threads_nth strict ops N args i t : nth_error (fill_threads zero plus strict ops N args) i = Some t ->
    exists p, nth_error args i = Some p /\ code t = thread_code strict ops N p /\ reg t = zero.
  Proof.
    unfold fill_threads. intros H. rewrite nth_error_map in H. destruct (nth_error args i) as [p|]; [|discriminate].
    injection H as <-. exists p. repeat split; reflexivity.
  Qed.
  Lemma chunk_order N n args i j p q s s' : (0 < n)%Z -> array_split (seq 0 N) n = Ok args -> i < j ->
    nth_error args i = Some p -> nth_error args j = Some q ->
    s = list_sum (firstn i (section_sizes N (Z.to_nat n))) -> s' = list_sum (firstn j (section_sizes N (Z.to_nat n))) ->
    s + length p <= s'.
  Proof.
    intros Hn E Hij Hp Hq -> ->. destruct (split_arange N n args i p Hn E Hp) as (s & -> & _ & _ & T). rewrite <- T.
    set (ss := section_sizes N (Z.to_nat n)). replace j with (S i + (j - S i)) by lia.
    clear. generalize (j - S i). intros d. revert i. induction ss as [|x xs IH]; intros i.
    - rewrite !firstn_nil. lia.
    - change (S i + d) with (S (i + d)). cbn [firstn list_sum fold_right]. destruct i.
      + simpl. lia.
      + specialize (IH i). unfold list_sum in IH. change (S i + d) with (S (i + d)) in *. lia.
  Qed.
  Lemma fill_separate strict ops N n args : (0 < n)%Z -> array_split (seq 0 N) n = Ok args ->
    separate (fill_threads zero plus strict ops N args).
  Proof.
    intros Hn E i j ti tj a Nij Hi Hj Ti Tj.
    destruct (threads_nth _ _ _ _ _ _ Hi) as (p & Hp & Cp & _). destruct (threads_nth _ _ _ _ _ _ Hj) as (q & Hq & Cq & _).
    rewrite Cp in Ti. rewrite Cq in Tj.
    destruct (split_arange N n args i p Hn E Hp) as (s & Es & Ep & Lp & _).
    destruct (split_arange N n args j q Hn E Hq) as (s' & Es' & Eq & Lq & _).
    apply (thread_code_touches strict ops N p a s Ep Lp) in Ti. apply (thread_code_touches strict ops N q a s' Eq Lq) in Tj.
    destruct (Nat.lt_trichotomy i j) as [L|[L|L]]; [|contradiction|].
    - pose proof (chunk_order N n args i j p q s s' Hn E L Hp Hq Es Es'). lia.
    - pose proof (chunk_order N n args j i q p s' s Hn E L Hq Hp Es' Es). lia.
  Qed.

  (** The piece containing row [r]. *)
  Lemma row_piece N n args r : (0 < n)%Z -> array_split (seq 0 N) n = Ok args -> r < N ->
    exists k p s, nth_error args k = Some p /\ p = seq s (length p) /\ s + length p <= N /\ s <= r < s + length p.
  Proof.
    intros Hn E Hr. destruct (array_split_ok (seq 0 N) n Hn) as (args' & E' & _ & C & _). rewrite E in E'. injection E' as <-.
    assert (I : In r (concat args)) by (rewrite C; apply in_seq; lia).
    apply in_concat in I. destruct I as (p & Hp & Hrp). apply In_nth_error in Hp. destruct Hp as [k Hk].
    destruct (split_arange N n args k p Hn E Hk) as (s & _ & Ep & Lp & _). exists k, p, s. repeat split; auto.
    - rewrite Ep in Hrp. apply in_seq in Hrp. lia.
    - rewrite Ep in Hrp. apply in_seq in Hrp. lia.
  Qed.

  Lemma final_cell strict ops N n args sched m' ts' k p r c : (0 < n)%Z -> array_split (seq 0 N) n = Ok args ->
    run_schedule pair_eqb sched (fun _ => zero, fill_threads zero plus strict ops N args) = (m', ts') ->
    all_finished (m', ts') -> nth_error args k = Some p -> In r p ->
    m' (r, c) = run (thread_code strict ops N p) zero (fun _ => zero) (r, c).
  Proof.
    intros Hn E Hrun Hf Hk Hr.
    assert (Ht : nth_error (fill_threads zero plus strict ops N args) k = Some (mkthread zero (thread_code strict ops N p))).
    { unfold fill_threads. rewrite nth_error_map, Hk. reflexivity. }
    rewrite (schedule_alone pair_eqb pair_eqb_spec sched _ _ m' ts' (fill_separate strict ops N n args Hn E) Hrun Hf k _ (r, c) Ht); [reflexivity|].
    intros j tj Nj Hj T. destruct (threads_nth _ _ _ _ _ _ Hj) as (q & Hq & Cq & _). rewrite Cq in T.
    destruct (split_arange N n args k p Hn E Hk) as (s & Es & Ep & Lp & _).
    destruct (split_arange N n args j q Hn E Hq) as (s' & Es' & Eq & Lq & _).
    rewrite Ep in Hr. apply in_seq in Hr.
    apply (thread_code_touches strict ops N q (r, c) s' Eq Lq) in T. simpl in T.
    destruct (Nat.lt_trichotomy k j) as [L|[L|L]]; [|congruence|].
    - pose proof (chunk_order N n args k j p q s s' Hn E L Hk Hq Es Es'). lia.
    - pose proof (chunk_order N n args j k q p s' s Hn E L Hq Hk Es' Es). lia.
  Qed.
End Fill.
