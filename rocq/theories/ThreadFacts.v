(** Facts about the interleaving machine, array_split and matrix filling (C31, C32). *)
From Verif Require Import Base BaseFacts ThreadModel.

Section MachineFacts.
  Context {A V : Type} (A_eqb : A -> A -> bool) (A_eqb_spec : forall a b, A_eqb a b = true <-> a = b).
  Definition touches (c : list (instr A V)) (a : A) : Prop := In a (map address c).
  Definition separate (ts : list (thread A V)) : Prop :=
    forall i j ti tj a, i <> j -> nth_error ts i = Some ti -> nth_error ts j = Some tj ->
      touches (code ti) a -> ~ touches (code tj) a.

  Lemma put_same m a (v : V) : put A_eqb m a v a = v.
  Proof. unfold put. rewrite (proj2 (A_eqb_spec a a)) by reflexivity. reflexivity. Qed.
  Lemma put_other m a b (v : V) : b <> a -> put A_eqb m a v b = m b.
  Proof.
    intros H. unfold put. destruct (A_eqb b a) eqn:E; [|reflexivity]. apply A_eqb_spec in E. congruence.
  Qed.

  (** Running alone only depends on the memory touched. *)
  Lemma run_alone_agree c : forall r (m m' : memory A V) a, (forall b, touches c b \/ b = a -> m b = m' b) ->
    run_alone A_eqb c r m a = run_alone A_eqb c r m' a.
  Proof.
    induction c as [|i c IH]; intros r m m' a H; [apply H; auto|].
    destruct i as [b|b g]; cbn [run_alone].
    - rewrite (H b) by (left; left; reflexivity). apply IH. intros b' Hb'. apply H. unfold touches in *; simpl. tauto.
    - apply IH. intros b' Hb'. unfold put. destruct (A_eqb b' b); [reflexivity|]. apply H. unfold touches in *; simpl. tauto.
  Qed.
  Lemma run_alone_other c : forall r (m : memory A V) a, ~ touches c a -> run_alone A_eqb c r m a = m a.
  Proof.
    induction c as [|i c IH]; intros r m a H; [reflexivity|].
    unfold touches in H; simpl in H. destruct i as [b|b g]; cbn [run_alone]; rewrite IH by (unfold touches; tauto).
    - reflexivity.
    - apply put_other. simpl in H. intros E. apply H. left. auto.
  Qed.

  Lemma nth_error_upd2 {B} (l : list B) i x j :
    nth_error (upd l i x) j = if (j =? i)%nat then match nth_error l i with Some _ => Some x | None => None end else nth_error l j.
  Proof.
    revert i j. induction l as [|b l IH]; intros i j; destruct i, j; simpl; try reflexivity.
    - destruct (j =? i)%nat; reflexivity.
    - apply IH.
  Qed.

  Lemma sched_step_threads m ts i m1 ts1 : sched_step A_eqb (m, ts) i = (m1, ts1) ->
    forall j tj, nth_error ts j = Some tj -> exists tj1, nth_error ts1 j = Some tj1 /\
      (forall a, touches (code tj1) a -> touches (code tj) a) /\
      (j = i -> m1 = fst (thread_step A_eqb m tj) /\ tj1 = snd (thread_step A_eqb m tj)) /\ (j <> i -> tj1 = tj).
  Proof.
    unfold sched_step; cbn [fst snd]. intros H j tj Hj. destruct (nth_error ts i) as [t|] eqn:Hi.
    - destruct (thread_step A_eqb m t) as [m2 t2] eqn:E. injection H as <- <-.
      rewrite nth_error_upd2, Hi. destruct (Nat.eqb_spec j i) as [->|N].
      + rewrite Hi in Hj. injection Hj as <-. exists t2. split; [reflexivity|]. split; [|split].
        * intros a Ha. unfold thread_step in E. unfold touches in *. destruct (code t) as [|[b|b g] c] eqn:Ec; injection E as <- <-; simpl in *.
          -- rewrite Ec in Ha. exact Ha.
          -- right. exact Ha.
          -- right. exact Ha.
        * intros _. rewrite E. auto.
        * intros K. congruence.
      + exists tj. split; [exact Hj|]. split; [auto|]. split; [intros; contradiction|auto].
    - injection H as <- <-. exists tj. split; [exact Hj|]. split; [auto|]. split; [intros ->; congruence|auto].
  Qed.
  Lemma sched_step_length (m : memory A V) ts i : length (snd (sched_step A_eqb (m, ts) i)) = length ts.
  Proof.
    unfold sched_step; cbn [fst snd]. destruct (nth_error ts i); [|reflexivity].
    destruct thread_step. simpl. apply upd_length.
  Qed.
  Lemma sched_step_memory m ts i m1 ts1 a : sched_step A_eqb (m, ts) i = (m1, ts1) ->
    (forall t, nth_error ts i = Some t -> ~ touches (code t) a) -> m1 a = m a.
  Proof.
    unfold sched_step; cbn [fst snd]. intros H Ha. destruct (nth_error ts i) as [t|] eqn:Hi.
    - specialize (Ha t eq_refl). unfold thread_step, touches in *. destruct (code t) as [|[b|b g] c]; injection H as <- <-; try reflexivity.
      apply put_other. simpl in Ha. intros E. apply Ha. left. auto.
    - injection H as <- <-. reflexivity.
  Qed.

  (** Whatever the schedule, an address touched by no thread but [i] ends with the value which
      thread [i] gives it when it runs alone. *)
  Theorem schedule_alone sched : forall m ts m' ts', separate ts ->
    run_schedule A_eqb sched (m, ts) = (m', ts') -> all_finished (m', ts') ->
    forall i t a, nth_error ts i = Some t ->
      (forall j tj, j <> i -> nth_error ts j = Some tj -> ~ touches (code tj) a) ->
      m' a = run_alone A_eqb (code t) (reg t) m a.
  Proof.
    induction sched as [|k sched IH]; intros m ts m' ts' Hs H Hf i t a Hi Ha.
    - injection H as <- <-. unfold all_finished in Hf; cbn [snd] in Hf. rewrite Forall_forall in Hf.
      rewrite (Hf t) by (eapply nth_error_In; eassumption). reflexivity.
    - unfold run_schedule in H; cbn [fold_left] in H.
      destruct (sched_step A_eqb (m, ts) k) as [m1 ts1] eqn:E.
      pose proof (sched_step_threads m ts k m1 ts1 E) as S.
      assert (Back : forall j tj1, nth_error ts1 j = Some tj1 -> exists tj, nth_error ts j = Some tj /\ (forall b, touches (code tj1) b -> touches (code tj) b)).
      { intros j tj1 Hj. destruct (nth_error ts j) as [tj|] eqn:Hj'.
        - destruct (S j tj Hj') as (tj2 & Hj2 & K & _). rewrite Hj in Hj2. injection Hj2 as <-. exists tj. auto.
        - exfalso. apply nth_error_None in Hj'. pose proof (sched_step_length m ts k) as L. rewrite E in L. simpl in L.
          assert (nth_error ts1 j = None) by (apply nth_error_None; lia). congruence. }
      assert (Hs1 : separate ts1).
      { intros p q tp tq b Npq Hp Hq Tp Tq. destruct (Back p tp Hp) as (tp0 & Hp0 & Kp). destruct (Back q tq Hq) as (tq0 & Hq0 & Kq).
        exact (Hs p q tp0 tq0 b Npq Hp0 Hq0 (Kp b Tp) (Kq b Tq)). }
      destruct (S i t Hi) as (t1 & Hi1 & Ki & Keq & Kne).
      assert (Ha1 : forall j tj, j <> i -> nth_error ts1 j = Some tj -> ~ touches (code tj) a).
      { intros j tj Nj Hj T. destruct (Back j tj Hj) as (tj0 & Hj0 & K). exact (Ha j tj0 Nj Hj0 (K a T)). }
      rewrite (IH m1 ts1 m' ts' Hs1 H Hf i t1 a Hi1 Ha1).
      destruct (Nat.eq_dec i k) as [->|N].
      + destruct (Keq eq_refl) as [-> ->]. unfold thread_step. destruct (code t) as [|[b|b g] c] eqn:Ec; cbn [fst snd code reg run_alone].
        * rewrite Ec. reflexivity.
        * reflexivity.
        * reflexivity.
      + rewrite (Kne N). apply run_alone_agree. intros b Hb. apply (sched_step_memory m ts k m1 ts1 b E).
        intros tk Hk Tk. destruct Hb as [Tb| ->].
        * exact (Hs i k t tk b N Hi Hk Tb Tk).
        * exact (Ha k tk (not_eq_sym N) Hk Tk).
  Qed.
End MachineFacts.

(** A schedule that finishes all threads exists. *)
Section Finish.
  Context {A V : Type} (A_eqb : A -> A -> bool).
  Lemma step_lengths (m : memory A V) ts i : forall m1 ts1, sched_step A_eqb (m, ts) i = (m1, ts1) -> 
    forall j, option_map (fun t => length (code t)) (nth_error ts1 j) =
      option_map (fun t => (if Nat.eqb j i then pred (length (code t)) else length (code t))) (nth_error ts j).
  Proof.
    intros m1 ts1 H j. unfold sched_step in H; cbn [fst snd] in H. destruct (nth_error ts i) as [t|] eqn:Hi.
    - destruct (thread_step A_eqb m t) as [m2 t2] eqn:E. injection H as <- <-.
      rewrite nth_error_upd2, Hi. destruct (Nat.eqb_spec j i) as [->|N]; [|destruct (nth_error ts j); reflexivity].
      rewrite Hi. simpl. f_equal. unfold thread_step in E. destruct (code t) as [|[b|b g] c] eqn:Ec; injection E as <- <-; cbn; rewrite ?Ec; reflexivity.
    - injection H as <- <-. destruct (Nat.eqb_spec j i) as [->|N]; [rewrite Hi; reflexivity|destruct (nth_error ts j); reflexivity].
  Qed.
  Lemma run_lengths n i : forall (m : memory A V) ts m1 ts1, run_schedule A_eqb (repeat i n) (m, ts) = (m1, ts1) ->
    forall j, option_map (fun t => length (code t)) (nth_error ts1 j) =
      option_map (fun t => (if Nat.eqb j i then length (code t) - n else length (code t))) (nth_error ts j).
  Proof.
    induction n as [|n IH]; intros m ts m1 ts1 H j.
    - injection H as <- <-. destruct (nth_error ts j); simpl; [|reflexivity]. destruct (Nat.eqb j i); f_equal; lia.
    - unfold run_schedule in H; cbn [repeat fold_left] in H.
      destruct (sched_step A_eqb (m, ts) i) as [m2 ts2] eqn:E.
      rewrite (IH m2 ts2 m1 ts1 H j). pose proof (step_lengths m ts i m2 ts2 E j) as L.
      destruct (nth_error ts2 j), (nth_error ts j); simpl in *; try discriminate; [|reflexivity].
      injection L as L. destruct (Nat.eqb j i); f_equal; lia.
  Qed.
  Lemma finishing_schedule (m : memory A V) ts : exists sched, all_finished (run_schedule A_eqb sched (m, ts)).
  Proof.
    assert (G : forall k, k <= length ts -> exists sched m1 ts1, run_schedule A_eqb sched (m, ts) = (m1, ts1) /\ length ts1 = length ts /\
      forall j t, j < k -> nth_error ts1 j = Some t -> code t = []).
    { induction k as [|k IH]; intros Hk.
      - exists [], m, ts. split; [reflexivity|]. split; [reflexivity|]. intros; lia.
      - destruct (IH ltac:(lia)) as (sched & m1 & ts1 & E & L & D).
        destruct (nth_error ts1 k) as [t|] eqn:Ht; [|apply nth_error_None in Ht; lia].
        destruct (run_schedule A_eqb (repeat k (length (code t))) (m1, ts1)) as [m2 ts2] eqn:E2.
        exists (sched ++ repeat k (length (code t))), m2, ts2. split; [|split].
        + unfold run_schedule in *. rewrite fold_left_app, E. exact E2.
        + rewrite <- L. clear - E2. revert m1 ts1 E2. induction (length (code t)) as [|n IHn]; intros m1 ts1 E2.
          * injection E2 as <- <-. reflexivity.
          * unfold run_schedule in E2; cbn [repeat fold_left] in E2. pose proof (sched_step_length A_eqb m1 ts1 k) as Ls.
            destruct (sched_step A_eqb (m1, ts1) k) as [m3 ts3]. simpl in Ls. rewrite <- Ls. apply (IHn m3 ts3). exact E2.
        + intros j t' Hj Ht'. pose proof (run_lengths _ _ _ _ _ _ E2 j) as R. rewrite Ht' in R. simpl in R.
          destruct (nth_error ts1 j) as [t1|] eqn:Hj1; [|discriminate]. simpl in R. injection R as R.
          destruct (Nat.eqb_spec j k) as [->|N].
          * rewrite Ht in Hj1. injection Hj1 as <-. rewrite Nat.sub_diag in R. destruct (code t'); [reflexivity|discriminate].
          * rewrite (D j t1 ltac:(lia) Hj1) in R. destruct (code t'); [reflexivity|discriminate]. }
    destruct (G (length ts) (le_n _)) as (sched & m1 & ts1 & E & L & D). exists sched. rewrite E. unfold all_finished; cbn [snd].
    apply Forall_forall. intros t Ht. apply In_nth_error in Ht. destruct Ht as [j Hj]. apply (D j t); [|exact Hj].
    rewrite <- L. apply nth_error_Some. congruence.
  Qed.
End Finish.

(** ** array_split *)
Lemma split_sizes_length {A} sizes : forall l : list A, length (split_sizes l sizes) = length sizes.
Proof. induction sizes as [|s ss IH]; intros l; simpl; [reflexivity|]. f_equal. apply IH. Qed.
Lemma split_sizes_concat {A} sizes : forall l : list A, length l <= list_sum sizes -> concat (split_sizes l sizes) = l.
Proof.
  induction sizes as [|s ss IH]; intros l H; simpl in *.
  - destruct l; [reflexivity|simpl in H; lia].
  - rewrite IH; [apply firstn_skipn|]. rewrite skipn_length. lia.
Qed.
Lemma skipn_skipn' {A} a : forall b (l : list A), skipn a (skipn b l) = skipn (b + a) l.
Proof.
  intros b. induction b as [|b IH]; intros l; [reflexivity|]. destruct l; [destruct a; reflexivity|]. simpl. apply IH.
Qed.
Lemma split_sizes_nth {A} sizes : forall (l : list A) i p, nth_error (split_sizes l sizes) i = Some p ->
  exists s, nth_error sizes i = Some s /\ p = firstn s (skipn (list_sum (firstn i sizes)) l).
Proof.
  induction sizes as [|s ss IH]; intros l i p H; [destruct i; discriminate|]. destruct i; simpl in H.
  - injection H as <-. exists s. split; reflexivity.
  - destruct (IH _ _ _ H) as (s' & E & ->). exists s'. split; [exact E|]. cbn [firstn list_sum fold_right].
    rewrite skipn_skipn'. reflexivity.
Qed.
Lemma list_sum_repeat x n : list_sum (repeat x n) = x * n.
Proof. induction n; simpl; lia. Qed.
Lemma section_sizes_sum total n : 0 < n -> list_sum (section_sizes total n) = total.
Proof.
  intros H. unfold section_sizes. rewrite list_sum_app, !list_sum_repeat.
  pose proof (Nat.div_mod total n ltac:(lia)). pose proof (Nat.mod_upper_bound total n ltac:(lia)). nia.
Qed.
Lemma section_sizes_length total n : 0 < n -> length (section_sizes total n) = n.
Proof.
  intros H. unfold section_sizes. rewrite app_length, !repeat_length. pose proof (Nat.mod_upper_bound total n ltac:(lia)). lia.
Qed.
Lemma section_sizes_In total n s : In s (section_sizes total n) -> s = total / n \/ s = S (total / n).
Proof. unfold section_sizes. intros H. apply in_app_iff in H. destruct H as [H|H]; apply repeat_spec in H; auto. Qed.

Lemma array_split_ok {A} (l : list A) n : (0 < n)%Z -> exists args, array_split l n = Ok args /\
  length args = Z.to_nat n /\ concat args = l /\
  forall p, In p args -> length p = length l / Z.to_nat n \/ length p = S (length l / Z.to_nat n).
Proof.
  intros H. unfold array_split. destruct (Z.leb_spec n 0); [lia|]. eexists. split; [reflexivity|].
  assert (P : 0 < Z.to_nat n) by lia.
  split; [rewrite split_sizes_length; apply section_sizes_length; exact P|].
  split; [apply split_sizes_concat; rewrite section_sizes_sum; lia|].
  intros p Hp. apply In_nth_error in Hp. destruct Hp as [i Hi]. apply split_sizes_nth in Hi. destruct Hi as (s & Es & ->).
  assert (Ls : s <= length l - list_sum (firstn i (section_sizes (length l) (Z.to_nat n)))).
  { pose proof (section_sizes_sum (length l) (Z.to_nat n) P) as T. rewrite <- (firstn_skipn i (section_sizes _ _)) in T at 1.
    rewrite list_sum_app in T. 
    assert (G : s <= list_sum (skipn i (section_sizes (length l) (Z.to_nat n)))).
    { clear - Es. revert i Es. induction (section_sizes (length l) (Z.to_nat n)) as [|x xs IH]; intros i Es; [destruct i; discriminate|].
      destruct i; simpl in *; [injection Es as ->; lia|]. apply IH. exact Es. }
    lia. }
  rewrite firstn_length, skipn_length, Nat.min_l by exact Ls.
  apply nth_error_In in Es. apply section_sizes_In in Es. exact Es.
Qed.

(** The piece with number [i] of [arange N]. *)
Lemma split_arange N n args i p : (0 < n)%Z -> array_split (seq 0 N) n = Ok args -> nth_error args i = Some p ->
  exists s, s = list_sum (firstn i (section_sizes N (Z.to_nat n))) /\ p = seq s (length p) /\ s + length p <= N /\
    list_sum (firstn (S i) (section_sizes N (Z.to_nat n))) = s + length p.
Proof.
  intros Hn E Hi. unfold array_split in E. destruct (Z.leb_spec n 0); [lia|]. injection E as <-. rewrite seq_length in Hi.
  destruct (split_sizes_nth _ _ _ _ Hi) as (k & Ek & Ep).
  set (ss := section_sizes N (Z.to_nat n)) in *. set (s := list_sum (firstn i ss)) in *.
  pose proof (section_sizes_sum N (Z.to_nat n) ltac:(lia)) as T. fold ss in T.
  assert (T2 : list_sum (firstn (S i) ss) = s + k).
  { unfold s. clear - Ek. revert i Ek. induction ss as [|x xs IH]; intros i Ek; [destruct i; discriminate|].
    destruct i; cbn [nth_error] in Ek; [injection Ek as ->; simpl; lia|].
    change (firstn (S (S i)) (x :: xs)) with (x :: firstn (S i) xs). change (firstn (S i) (x :: xs)) with (x :: firstn i xs).
    cbn [list_sum fold_right]. specialize (IH i Ek). unfold list_sum in IH. lia. }
  assert (T3 : s + k <= N).
  { rewrite <- T2, <- T. rewrite <- (firstn_skipn (S i) ss) at 2. rewrite list_sum_app. lia. }
  assert (Q : forall d a b, firstn a (skipn d (seq b N)) = seq (b + d) a \/ N < d + a).
  { intros d a b. destruct (le_lt_dec (d + a) N) as [L|L]; [left|right; exact L].
    replace N with (d + (a + (N - d - a))) by lia. rewrite seq_app, skipn_app, skipn_all2 by (rewrite seq_length; lia).
    rewrite seq_length, Nat.sub_diag. cbn [app skipn]. rewrite seq_app, firstn_app, firstn_all2 by (rewrite seq_length; lia).
    rewrite seq_length, Nat.sub_diag, firstn_O, app_nil_r. reflexivity. }
  destruct (Q s k 0) as [Q'|Q']; [|lia]. rewrite Q' in Ep. simpl in Ep.
  assert (Lp : length p = k) by (rewrite Ep; apply seq_length).
  exists s. split; [reflexivity|]. rewrite Lp. split; [exact Ep|]. split; [exact T3|exact T2].
Qed.

(** ** split_collect *)
Section Collect.
  Context {X Y : Type} (f : list X -> result Y) (zeros0 : Y) (args : list (list X)).
  Definition piece_result (p : list X) : Y := match f p with Ok v => v | Err _ => zeros0 end.
  Lemma combine_seq_nth {B} (ys : list B) : forall s k,
    nth_error (combine (seq s (length ys)) ys) k = option_map (fun y => (s + k, y)) (nth_error ys k).
  Proof.
    induction ys as [|y ys IHy]; intros s k; [destruct k; reflexivity|]. destruct k; simpl; [f_equal; f_equal; lia|].
    rewrite IHy. destruct (nth_error ys k); simpl; [|reflexivity]. f_equal. f_equal. lia.
  Qed.
  Lemma collect_nth i : nth_error (collect_threads f zeros0 args) i =
    option_map (fun p => mkthread zeros0 (collect_code f i p)) (nth_error args i).
  Proof. unfold collect_threads. rewrite nth_error_map, combine_seq_nth. destruct (nth_error args i); reflexivity. Qed.
  Lemma collect_touches i t a : nth_error (collect_threads f zeros0 args) i = Some t -> touches (code t) a -> a = i.
  Proof.
    rewrite collect_nth. destruct (nth_error args i) as [p|]; [|discriminate]. intros H. injection H as <-.
    unfold touches, collect_code; cbn [code]. destruct (f p); simpl; [intros [<-|[]]; reflexivity|intros []].
  Qed.
  Lemma collect_separate : separate (collect_threads f zeros0 args).
  Proof.
    intros i j ti tj a Nij Hi Hj Ti Tj. apply (collect_touches i ti a Hi) in Ti. apply (collect_touches j tj a Hj) in Tj. congruence.
  Qed.
  Lemma collect_cell sched m' ts' i p :
    run_schedule Nat.eqb sched (fun _ => zeros0, collect_threads f zeros0 args) = (m', ts') -> all_finished (m', ts') ->
    nth_error args i = Some p -> m' i = piece_result p.
  Proof.
    intros R Hf Hp. pose proof (collect_nth i) as Ht. rewrite Hp in Ht. cbn [option_map] in Ht.
    rewrite (schedule_alone Nat.eqb Nat.eqb_eq sched _ _ m' ts' collect_separate R Hf i _ i Ht).
    - cbn [code reg]. unfold collect_code, piece_result. destruct (f p); [|reflexivity]. simpl. unfold put. rewrite Nat.eqb_refl. reflexivity.
    - intros j tj Nj Hj Tj. apply (collect_touches j tj i Hj) in Tj. congruence.
  Qed.
  Lemma map_seq_nth {B C} (g : nat -> C) (h : B -> C) : forall ys s,
    (forall i p, nth_error ys i = Some p -> g (s + i) = h p) -> map g (seq s (length ys)) = map h ys.
  Proof.
    induction ys as [|y ys IH]; intros s Hs; [reflexivity|]. simpl. f_equal.
    - rewrite <- (Hs 0 y eq_refl). f_equal. lia.
    - apply IH. intros i p Hi. rewrite <- (Hs (S i) p Hi). f_equal. lia.
  Qed.
  Lemma collect_results sched : let final := run_schedule Nat.eqb sched (fun _ => zeros0, collect_threads f zeros0 args) in
    all_finished final -> map (fst final) (seq 0 (length args)) = map piece_result args.
  Proof.
    intros final Hf. destruct final as [m' ts'] eqn:R. cbn [fst]. apply map_seq_nth. intros i p Hp.
    exact (collect_cell sched m' ts' i p R Hf Hp).
  Qed.
End Collect.
