(** Threads (traceon/util.py:33-76, traceon/solver.py:146-183) as an interleaving machine.
    A thread is a list of atomic memory operations with one register: a read-modify-write such as
    [matrix\[i*N+j\] += x] is a load followed by a store, and other threads may run in between.
    The scheduler is an arbitrary list of thread numbers.  The memory is sequentially consistent:
    the threads of this code never share an address, see [ThreadFacts]. *)
From Verif Require Import Base.

Section Machine.
  Context {A V : Type} (A_eqb : A -> A -> bool).
  (** [ILoad a]: register := memory a.  [IStore a g]: memory a := g register. *)
  Inductive instr := ILoad (a : A) | IStore (a : A) (g : V -> V).
  Definition memory := A -> V.
  Record thread := mkthread { reg : V; code : list instr }.
  Definition put (m : memory) (a : A) (v : V) : memory := fun b => if A_eqb b a then v else m b.
  (** One atomic operation of one thread. *)
  Definition thread_step (m : memory) (t : thread) : memory * thread :=
    match code t with
    | [] => (m, t)
    | ILoad a :: c => (m, mkthread (m a) c)
    | IStore a g :: c => (put m a (g (reg t)), mkthread (reg t) c)
    end.
  (** The scheduler lets thread [i] do its next operation. *)
  Definition sched_step (st : memory * list thread) (i : nat) : memory * list thread :=
    match nth_error (snd st) i with
    | None => st
    | Some t => let '(m', t') := thread_step (fst st) t in (m', upd (snd st) i t')
    end.
  Definition run_schedule (sched : list nat) (st : memory * list thread) : memory * list thread :=
    fold_left sched_step sched st.
  (** [t.start()] for every thread and [t.join()] for every thread: all have finished. *)
  Definition all_finished (st : memory * list thread) : Prop := Forall (fun t => code t = []) (snd st).
  (** The same code executed alone. *)
  Fixpoint run_alone (c : list instr) (r : V) (m : memory) : memory :=
    match c with
    | [] => m
    | ILoad a :: c' => run_alone c' (m a) m
    | IStore a g :: c' => run_alone c' r (put m a (g r))
    end.
  Definition address (i : instr) : A := match i with ILoad a => a | IStore a _ => a end.
End Machine.
Arguments instr : clear implicits.
Arguments thread : clear implicits.
Arguments memory : clear implicits.

(** util.py:33-52 get_number_of_threads.  [env] is TRACEON_THREADS ([Some None] when it is not an
    integer), [cpus] the number of available processors if it is known. *)
Definition get_number_of_threads (env : option (option Z)) (cpus : option nat) : result Z :=
  match env with
  | Some (Some n) => Ok n
  | Some None => Err ValueError
  | None => match cpus with
            | None => Ok 1%Z
            | Some c => if (c <=? 1)%nat then Ok 1%Z else Ok (Z.of_nat (c / 2))
            end
  end.

(** [np.array_split(array, n)]: the first [length mod n] pieces have one element more. *)
Fixpoint split_sizes {A} (l : list A) (sizes : list nat) : list (list A) :=
  match sizes with
  | [] => []
  | s :: ss => firstn s l :: split_sizes (skipn s l) ss
  end.
Definition section_sizes (total n : nat) : list nat :=
  repeat (S (total / n)) (total mod n) ++ repeat (total / n) (n - total mod n).
Definition array_split {A} (l : list A) (n : Z) : result (list (list A)) :=
  if (n <=? 0)%Z then Err ValueError
  else Ok (split_sizes l (section_sizes (length l) (Z.to_nat n))).

(** util.py:54-76 split_collect.  Thread [i] stores [f(args\[i\])] in [results\[i\]]; a thread in
    which [f] raises dies without storing anything. *)
Section SplitCollect.
  Context {X Y : Type}.
  Definition collect_code (f : list X -> result Y) (i : nat) (arg : list X) : list (instr nat Y) :=
    match f arg with Ok v => [IStore i (fun _ => v)] | Err _ => [] end.
  Definition collect_threads (f : list X -> result Y) (zeros0 : Y) (args : list (list X)) : list (thread nat Y) :=
    map (fun '(i, arg) => mkthread zeros0 (collect_code f i arg)) (combine (seq 0 (length args)) args).
  (** [zeros0] is [np.zeros(0)]. [collected debug sched … results] : the list [results] is returned
      when the scheduler runs the threads in the order [sched]. *)
  Definition collected (debug : bool) (f : list X -> result Y) (zeros0 : Y) (l : list X) (threads : Z)
      (sched : list nat) (results : result (list Y)) : Prop :=
    if debug then results = (v <- f l ;; Ok [v])
    else match array_split l threads with
         | Err e => results = Err e
         | Ok args =>
             let final := run_schedule Nat.eqb sched (fun _ => zeros0, collect_threads f zeros0 args) in
             all_finished final /\ results = Ok (map (fst final) (seq 0 (length args)))
         end.
End SplitCollect.

(** ** The influence matrix *)
Section Matrix.
  Context {V : Type} (zero : V) (plus : V -> V -> V).
  (** A cell is either assigned ([matrix\[..\] = x]) or incremented ([matrix\[..\] += x]). *)
  Inductive cellop := Assign (x : V) | Accum (x : V).
  Definition cell_code (a : nat * nat) (o : cellop) : list (instr (nat * nat) V) :=
    match o with
    | Assign x => [IStore a (fun _ => x)]
    | Accum x => [ILoad a; IStore a (fun r => plus r x)]
    end.
  Definition cell_value (v : V) (o : cellop) : V := match o with Assign x => x | Accum x => plus v x end.

  (** The rows filled by one call: radial.c:263-309, tracing.c:296-361; [ops i j] are the
      operations on cell (i, j), in order. *)
  Definition fill_rows (ops : nat -> nat -> list cellop) (N lo hi : nat) : list (instr (nat * nat) V) :=
    flat_map (fun i => flat_map (fun j => flat_map (cell_code (i, j)) (ops i j)) (seq 0 N)) (seq lo (S hi - lo)).

  (** radial.c:275-303: one increment per quadrature point, for both kinds of row. *)
  Definition radial_ops (nquad : nat) (kernel : nat -> nat -> nat -> V) (i j : nat) : list cellop :=
    map (fun k => Accum (kernel i j k)) (seq 0 nquad).
  (** tracing.c:302-355.  [flux i]: row of a dielectric or magnetizable element; [far i j]: the
      distance test; the kernel values are parameters. *)
  Definition three_d_ops (nquad : nat) (flux : nat -> bool) (far : nat -> nat -> bool)
      (kernel : nat -> nat -> nat -> V) (near : nat -> nat -> V) (self : nat -> V) (minus_one : V)
      (i j : nat) : list cellop :=
    if flux i then
      if (i =? j)%nat then [Assign minus_one]
      else if far i j then map (fun k => Accum (kernel i j k)) (seq 0 nquad)
      else [Assign (near i j)]
    else
      (if (i =? j)%nat then [Assign (self i)] else []) ++
      (if negb (i =? j)%nat && far i j then map (fun k => Accum (kernel i j k)) (seq 0 nquad)
       else [Assign (near i j)]).

  (** solver.py:156-161 fill_matrix_rows with backend/__init__.py:571-582 (radial, [start < end])
      and 596-606 (3D, [start <= end]): an exception ends the thread. *)
  Definition fill_thread (strict : bool) (ops : nat -> nat -> list cellop) (N : nat) (rows : list nat) : result (list (instr (nat * nat) V)) :=
    match rows with
    | [] => Err IndexError
    | lo :: _ =>
        let hi := last rows 0%nat in
        _ <- py_assert ((lo <? N) && (hi <? N) && (if strict then lo <? hi else lo <=? hi))%nat ;;
        Ok (fill_rows ops N lo hi)
    end.
  Definition pair_eqb (a b : nat * nat) : bool := (fst a =? fst b)%nat && (snd a =? snd b)%nat.
  Definition fill_threads (strict : bool) (ops : nat -> nat -> list cellop) (N : nat) (args : list (list nat)) : list (thread (nat * nat) V) :=
    map (fun rows => mkthread zero (match fill_thread strict ops N rows with Ok c => c | Err _ => [] end)) args.

  (** solver.py:146-183 get_matrix up to the final finiteness check. [diagonal i] is the value the
      radial solver stores in [matrix\[i, i\]] afterwards. *)
  Definition matrix_built (three_d : bool) (ops : nat -> nat -> list cellop) (diagonal : nat -> V) (N : nat) (threads : Z)
      (sched : list nat) (M : nat -> nat -> V) : Prop :=
    match array_split (seq 0 N) threads with
    | Err _ => False
    | Ok args =>
        let final := run_schedule pair_eqb sched (fun _ => zero, fill_threads (negb three_d) ops N args) in
        all_finished final /\
        forall i j, M i j = if negb three_d && (i =? j)%nat && (i <? N)%nat then diagonal i else fst final (i, j)
    end.
End Matrix.
Arguments cellop : clear implicits.
