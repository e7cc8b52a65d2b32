(** Exceptions as values, and the numpy/Python list primitives used by the models.
    Nothing here is specific to Traceon; each primitive states the numpy/Python
    construct it stands for. *)
From Coq Require Export String.
From Coq Require Export ZArith Arith Lia Bool List.
Export ListNotations.
Open Scope nat_scope.

(** Python exceptions that the modelled code can raise. [OutOfFuel] is not an
    exception of the code: it marks a [while] loop whose fuel ran out, and the
    theorems exclude it. *)
Inductive exn :=
  | IndexError | KeyError | ValueError | TypeError | AttributeError
  | AssertionError | NameError | RuntimeError | OutOfFuel.

Inductive result (A : Type) :=
  | Ok (a : A)
  | Err (e : exn).
Arguments Ok {A} a.
Arguments Err {A} e.

Definition bind {A B} (r : result A) (f : A -> result B) : result B :=
  match r with Ok a => f a | Err e => Err e end.
Declare Scope result_scope.
Notation "x <- r ;; k" := (bind r (fun x => k))
  (at level 61, r at next level, right associativity) : result_scope.
Notation "' p <- r ;; k" := (bind r (fun x => match x with p => k end))
  (at level 61, p pattern, r at next level, right associativity) : result_scope.
Open Scope result_scope.

(** [assert b] of Python. *)
Definition py_assert (b : bool) : result unit :=
  if b then Ok tt else Err AssertionError.

(** A list comprehension / loop whose body may raise: left to right. *)
Fixpoint mapM {A B} (f : A -> result B) (l : list A) : result (list B) :=
  match l with
  | [] => Ok []
  | a :: t => b <- f a ;; bs <- mapM f t ;; Ok (b :: bs)
  end.

(** [arr\[i\]] with a non-negative index. *)
Definition np_get {A} (l : list A) (i : nat) : result A :=
  match nth_error l i with Some a => Ok a | None => Err IndexError end.

(** Integer-array ("fancy") indexing [arr\[idx\]]. *)
Definition np_take {A} (l : list A) (idx : list nat) : result (list A) :=
  mapM (np_get l) idx.

(** [arr\[i\] = x]. *)
Fixpoint upd {A} (l : list A) (i : nat) (x : A) : list A :=
  match l, i with
  | [], _ => []
  | _ :: t, O => x :: t
  | a :: t, S j => a :: upd t j x
  end.
Definition np_set {A} (l : list A) (i : nat) (x : A) : result (list A) :=
  if i <? length l then Ok (upd l i x) else Err IndexError.

(** [arr\[idx\] = vals]: numpy assigns element by element, the last one wins. *)
Fixpoint np_put {A} (l : list A) (idx : list nat) (vals : list A) : result (list A) :=
  match idx, vals with
  | i :: idx', v :: vals' => l' <- np_set l i v ;; np_put l' idx' vals'
  | [], [] => Ok l
  | _, _ => Err ValueError       (* shapes do not match *)
  end.

(** Boolean masks: [arr\[mask\]]. *)
Fixpoint mask {A} (l : list A) (m : list bool) : list A :=
  match l, m with
  | a :: l', b :: m' => if b then a :: mask l' m' else mask l' m'
  | _, _ => []
  end.

Definition b2n (b : bool) : nat := if b then 1 else 0.

(** [np.cumsum] of booleans (inclusive). *)
Fixpoint cumsum_from (acc : nat) (m : list bool) : list nat :=
  match m with
  | [] => []
  | b :: t => let acc' := acc + b2n b in acc' :: cumsum_from acc' t
  end.
Definition cumsum := cumsum_from 0.

(** Pointwise combination of two arrays of equal length. *)
Fixpoint map2 {A B C} (f : A -> B -> C) (l : list A) (m : list B) : list C :=
  match l, m with
  | a :: l', b :: m' => f a b :: map2 f l' m'
  | _, _ => []
  end.

(** Membership test on a list of nat. *)
Definition memb (x : nat) (l : list nat) : bool := existsb (Nat.eqb x) l.

(** [np.unique] of a 1-D integer array: sorted, without duplicates. *)
Fixpoint insert_nat (x : nat) (l : list nat) : list nat :=
  match l with
  | [] => [x]
  | y :: t => if x <? y then x :: l else if x =? y then l else y :: insert_nat x t
  end.
Definition np_unique (l : list nat) : list nat := fold_right insert_nat [] l.

(** [np.arange(n)]. *)
Definition arange (n : nat) : list nat := seq 0 n.

(** Stable sort by a boolean "less or equal" (Python's [sorted], numpy's
    [lexsort]): insertion sort; the result of a stable sort is unique. *)
Section Sort.
  Context {A : Type} (le : A -> A -> bool).
  Fixpoint insert (x : A) (l : list A) : list A :=
    match l with
    | [] => [x]
    | y :: t => if le x y then x :: l else y :: insert x t
    end.
  Definition isort (l : list A) : list A := fold_right insert [] l.
End Sort.
