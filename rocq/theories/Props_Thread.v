(** Property theorems about parallel work distribution: C31, C32. *)
From Verif Require Import Base BaseFacts ThreadModel ThreadFacts MatrixFillFacts.

(** ** C31 Parallel work distribution *)
(** Under every schedule that lets all threads finish, split_collect returns the list of [f] applied
    to consecutive pieces of the input, in order; the pieces make up the input, do not depend on
    the schedule, and their sizes differ by at most one.  A piece on which [f] raises yields the
    placeholder (the exception is lost). *)
Theorem C31_any_schedule {X Y} (f : list X -> result Y) zeros0 l threads : (0 < threads)%Z ->
  exists pieces, concat pieces = l /\ length pieces = Z.to_nat threads /\
    (forall p q, In p pieces -> In q pieces -> length p <= S (length q)) /\
    forall sched results, collected false f zeros0 l threads sched results ->
      results = Ok (map (fun p => match f p with Ok v => v | Err _ => zeros0 end) pieces).
Proof.
  intros Hn. destruct (array_split_ok l threads Hn) as (args & E & L & C & S).
  exists args. split; [exact C|]. split; [exact L|]. split.
  { intros p q Hp Hq. apply S in Hp. apply S in Hq. lia. }
  intros sched results H. unfold collected in H. rewrite E in H. destruct H as (Hf & ->). f_equal.
  exact (collect_results f zeros0 args sched Hf).
Qed.
Print Assumptions C31_any_schedule.

(** For work done element by element the concatenated results are what a sequential run gives,
    with and without DEBUG, for every number of threads and every schedule. *)
Theorem C31_same_as_sequential {X Z} (g : X -> Z) zeros0 debug l threads sched results :
  (0 < threads)%Z ->
  collected debug (fun piece => Ok (map g piece)) zeros0 l threads sched results ->
  exists rs, results = Ok rs /\ concat rs = map g l.
Proof.
  intros Hn H. destruct debug.
  - simpl in H. exists [map g l]. split; [exact H|]. simpl. apply app_nil_r.
  - destruct (C31_any_schedule (fun piece => Ok (map g piece)) zeros0 l threads Hn) as (pieces & C & _ & _ & K).
    rewrite (K _ _ H). eexists. split; [reflexivity|]. rewrite <- C. symmetry. apply concat_map.
Qed.
Print Assumptions C31_same_as_sequential.

(** Some schedule finishes, and the default number of threads is positive. *)
Theorem C31_finishes {X Y} (f : list X -> result Y) zeros0 l threads : (0 < threads)%Z ->
  exists sched r, collected false f zeros0 l threads sched r.
Proof.
  intros Hn. destruct (array_split_ok l threads Hn) as (args & E & _).
  destruct (finishing_schedule Nat.eqb (fun _ => zeros0) (collect_threads f zeros0 args)) as [s Hs].
  exists s. unfold collected. rewrite E. eexists. split; [exact Hs|reflexivity].
Qed.
Print Assumptions C31_finishes.
Theorem C31_default_threads cpus : exists n, get_number_of_threads None cpus = Ok n /\ (0 < n)%Z.
Proof.
  unfold get_number_of_threads. destruct cpus as [c|]; [|exists 1%Z; split; [reflexivity|lia]].
  destruct (Nat.leb_spec c 1); [exists 1%Z; split; [reflexivity|lia]|].
  eexists. split; [reflexivity|]. assert (0 < c / 2) by (apply Nat.div_str_pos; lia). lia.
Qed.
Print Assumptions C31_default_threads.

(** ** C32 Every matrix row is computed *)
(** The value a cell has when its operations are applied, in order, to zero. *)
Definition cell_result {V} (zero : V) (plus : V -> V -> V) (ops : list (cellop V)) : V :=
  fold_left (cell_value plus) ops zero.

(** Three dimensions: whatever the number of threads and the schedule, every cell has its full value. *)
Theorem C32_three_d_complete {V} (zero : V) plus ops diagonal N threads sched M :
  (0 < threads)%Z -> matrix_built zero plus true ops diagonal N threads sched M ->
  forall i j, i < N -> j < N -> M i j = cell_result zero plus (ops i j).
Proof.
  intros Hn H i j Hi Hj. unfold matrix_built in H. destruct (array_split (seq 0 N) threads) as [args|e] eqn:E; [|destruct H].
  destruct H as (Hf & HM). rewrite HM. cbn [negb andb].
  destruct (row_piece N threads args i Hn E Hi) as (k & p & s & Hk & Ep & Lp & Hr).
  cbn [negb] in Hf, HM |- *.
  destruct (run_schedule pair_eqb sched (fun _ => zero, fill_threads zero plus false ops N args)) as [m' ts'] eqn:R.
  cbn [fst]. rewrite (final_cell zero plus false ops N threads args sched m' ts' k p i j Hn E R Hf Hk).
  2: { rewrite Ep. apply in_seq. lia. }
  destruct (length p) as [|n] eqn:L; [lia|]. rewrite Ep, thread_code_eq by exact Lp. cbn [andb].
  rewrite fill_rows_run by lia. reflexivity.
Qed.
Print Assumptions C32_three_d_complete.

(** Each row is written by exactly one thread. *)
Theorem C32_three_d_one_thread_per_row {V} (zero : V) plus ops N threads args :
  (0 < threads)%Z -> (forall i j, ops i j <> []) -> array_split (seq 0 N) threads = Ok args ->
  forall r, r < N -> exists k, forall k' t c, c < N ->
    nth_error (fill_threads zero plus false ops N args) k' = Some t -> (touches (code t) (r, c) <-> k' = k).
Proof.
  intros Hn Hops E r Hr. destruct (row_piece N threads args r Hn E Hr) as (k & p & s & Hk & Ep & Lp & Hrow).
  exists k.
  assert (T : forall t c, c < N -> nth_error (fill_threads zero plus false ops N args) k = Some t -> touches (code t) (r, c)).
  { intros t c Hc Ht. destruct (threads_nth zero plus _ _ _ _ _ _ Ht) as (q & Hq & Cq & _). rewrite Hk in Hq. injection Hq as <-.
    rewrite Cq. destruct (length p) as [|n] eqn:L; [lia|]. rewrite Ep, thread_code_eq by exact Lp. cbn [andb].
    unfold touches, fill_rows. specialize (Hops r c). destruct (ops r c) as [|o os] eqn:Eo; [congruence|].
    apply in_map_iff. exists (match o with Assign x => IStore (r, c) (fun _ => x) | Accum x => ILoad (r, c) end).
    split; [destruct o; reflexivity|]. apply in_flat_map. exists r. split; [apply in_seq; lia|].
    apply in_flat_map. exists c. split; [apply in_seq; lia|]. apply in_flat_map. exists o. rewrite Eo. split; [left; reflexivity|].
    destruct o; simpl; auto. }
  intros k' t c Hc Ht. split; [|intros ->; exact (T t c Hc Ht)].
  intros Tc. destruct (Nat.eq_dec k' k) as [|Nk]; [assumption|]. exfalso.
  destruct (nth_error (fill_threads zero plus false ops N args) k) as [t0|] eqn:H0.
  - exact (fill_separate zero plus false ops N threads args Hn E k' k t t0 (r, c) Nk Ht H0 Tc (T t0 c Hc eq_refl)).
  - unfold fill_threads in H0. rewrite nth_error_map, Hk in H0. discriminate.
Qed.
Print Assumptions C32_three_d_one_thread_per_row.

(** Radial symmetry: complete when every thread gets at least two rows; the diagonal always is. *)
Theorem C32_radial_complete_partial {V} (zero : V) plus ops diagonal N threads sched M :
  (0 < threads)%Z -> 2 * Z.to_nat threads <= N ->
  matrix_built zero plus false ops diagonal N threads sched M ->
  forall i j, i < N -> j < N -> M i j = if (i =? j)%nat then diagonal i else cell_result zero plus (ops i j).
Proof.
  intros Hn HN H i j Hi Hj. unfold matrix_built in H. destruct (array_split (seq 0 N) threads) as [args|e] eqn:E; [|destruct H].
  destruct H as (Hf & HM). rewrite HM. replace (i <? N) with true by (symmetry; apply Nat.ltb_lt; exact Hi). cbn [negb andb].
  destruct (i =? j); cbn [andb]; [reflexivity|].
  destruct (row_piece N threads args i Hn E Hi) as (k & p & s & Hk & Ep & Lp & Hr).
  cbn [negb] in Hf, HM |- *.
  destruct (run_schedule pair_eqb sched (fun _ => zero, fill_threads zero plus true ops N args)) as [m' ts'] eqn:R.
  cbn [fst]. rewrite (final_cell zero plus true ops N threads args sched m' ts' k p i j Hn E R Hf Hk).
  2: { rewrite Ep. apply in_seq. lia. }
  destruct (array_split_ok (seq 0 N) threads Hn) as (args' & E' & _ & _ & Sz). rewrite E in E'. injection E' as <-.
  assert (2 <= length p).
  { specialize (Sz p (nth_error_In _ _ Hk)). rewrite seq_length in Sz.
    assert (2 <= N / Z.to_nat threads) by (apply Nat.div_le_lower_bound; lia). lia. }
  destruct (length p) as [|[|n]] eqn:L; [lia|lia|]. rewrite Ep, thread_code_eq by exact Lp. cbn [andb Nat.eqb].
  rewrite fill_rows_run by lia. reflexivity.
Qed.
Print Assumptions C32_radial_complete_partial.

(** With fewer rows some row stays zero outside the diagonal, under every schedule. *)
Theorem C32_radial_refuted {V} (zero : V) plus ops diagonal N threads :
  1 <= N < 2 * Z.to_nat threads ->
  exists r, r < N /\ forall sched M, matrix_built zero plus false ops diagonal N threads sched M ->
    forall j, j <> r -> M r j = zero.
Proof.
  intros HN. assert (Hn : (0 < threads)%Z) by lia.
  destruct (array_split_ok (seq 0 N) threads Hn) as (args & E & La & C & Sz). rewrite seq_length in Sz.
  (* there is a piece with one row *)
  assert (Hone : exists p, In p args /\ length p = 1).
  { destruct (Nat.eq_dec (N / Z.to_nat threads) 1) as [D|D].
    - (* the last piece has one element *)
      set (n := Z.to_nat threads) in *.
      assert (Hlast : n - 1 < length args) by lia. apply nth_error_Some in Hlast.
      destruct (nth_error args (n - 1)) as [p|] eqn:Hp; [|congruence]. exists p. split; [eapply nth_error_In; exact Hp|].
      destruct (split_arange N threads args (n - 1) p Hn E Hp) as (s & Es & _ & _ & T). fold n in Es, T.
      assert (Hs : nth_error (section_sizes N n) (n - 1) = Some 1).
      { unfold section_sizes. pose proof (Nat.mod_upper_bound N n ltac:(lia)).
        rewrite nth_error_app2 by (rewrite repeat_length; lia). rewrite repeat_length.
        rewrite nth_error_repeat by lia. congruence. }
      assert (Q : forall ss i x, nth_error ss i = Some x -> list_sum (firstn (S i) ss) = list_sum (firstn i ss) + x).
      { clear. induction ss as [|y ys IH]; intros i x H; [destruct i; discriminate|]. destruct i; cbn [nth_error] in H.
        - injection H as ->. simpl. lia.
        - change (firstn (S (S i)) (y :: ys)) with (y :: firstn (S i) ys). change (firstn (S i) (y :: ys)) with (y :: firstn i ys).
          specialize (IH i x H). unfold list_sum in *. cbn [fold_right]. lia. }
      rewrite (Q _ _ _ Hs), <- Es in T. lia.
    - assert (N / Z.to_nat threads = 0).
      { assert (N / Z.to_nat threads < 2) by (apply Nat.div_lt_upper_bound; lia). lia. }
      assert (I : In 0 (concat args)) by (rewrite C; apply in_seq; lia). apply in_concat in I.
      destruct I as (p & Hp & H0). exists p. split; [exact Hp|]. specialize (Sz p Hp). destruct p; [destruct H0|]. simpl in *. lia. }
  destruct Hone as (p & Hp & L1). apply In_nth_error in Hp. destruct Hp as [k Hk].
  destruct (split_arange N threads args k p Hn E Hk) as (s & _ & Ep & Lp & _). rewrite L1 in Ep, Lp.
  exists s. split; [lia|]. intros sched M H j Hj. unfold matrix_built in H. rewrite E in H. destruct H as (Hf & HM).
  rewrite HM. replace (s =? j) with false by (symmetry; apply Nat.eqb_neq; congruence). cbn [negb andb].
  cbn [negb] in Hf.
  destruct (run_schedule pair_eqb sched (fun _ => zero, fill_threads zero plus true ops N args)) as [m' ts'] eqn:R.
  cbn [fst]. rewrite (final_cell zero plus true ops N threads args sched m' ts' k p s j Hn E R Hf Hk).
  2: { rewrite Ep. apply in_seq. lia. }
  rewrite Ep, thread_code_eq by exact Lp. reflexivity.
Qed.
Print Assumptions C32_radial_refuted.

(** Both kernels touch every cell, and matrices are built by some schedule. *)
Example C32_nonvacuous : 
  (forall i j, radial_ops 8 (fun i j k => i + j + k) i j <> []) /\
  (forall i j, three_d_ops 12 (fun i => i =? 0) (fun i j => 2 <=? j) (fun i j k => k) (fun i j => 1) (fun i => 2) 3 i j <> []) /\
  (exists sched M, matrix_built 0 plus true (radial_ops 8 (fun i j k => i + j + k)) (fun i => 7) 5 3 sched M) /\
  (exists sched M, matrix_built 0 plus false (radial_ops 8 (fun i j k => i + j + k)) (fun i => 7) 5 2 sched M) /\
  2 * Z.to_nat 2 <= 5 /\ 1 <= 5 < 2 * Z.to_nat 3.
Proof.
  split; [intros i j; discriminate|]. split.
  { intros i j. unfold three_d_ops. destruct (i =? 0), (i =? j), (2 <=? j); simpl; discriminate. }
  assert (G : forall three_d n, (0 < n)%Z -> exists sched M, matrix_built 0 plus three_d (radial_ops 8 (fun i j k => i + j + k)) (fun i => 7) 5 n sched M).
  { intros three_d n Hn. destruct (array_split_ok (seq 0 5) n Hn) as (args & E & _).
    destruct (finishing_schedule pair_eqb (fun _ : nat * nat => 0) (fill_threads 0 plus (negb three_d) (radial_ops 8 (fun i j k => i + j + k)) 5 args)) as [s Hs].
    exists s. unfold matrix_built. rewrite E. eexists. split; [exact Hs|]. intros i j. reflexivity. }
  split; [apply G; lia|]. split; [apply G; lia|]. lia.
Qed.
