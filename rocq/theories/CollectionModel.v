(** Collections of paths and surfaces: + and += (traceon/geometry.py).  Paths and surfaces are opaque objects
    (type [A]); collections are mutable objects living in a heap. *)
From Verif Require Import Base.

(** What a list handed to the constructor of a collection can contain: a path/surface, or (a programming error) a list. *)
Inductive item (A : Type) := Elem (a : A) | Nested (l : list A).
Arguments Elem {A} a. Arguments Nested {A} l.
(** Python values of interest: a path/surface, a reference to a collection object, or None. *)
Inductive value (A : Type) := One (a : A) | Ref (r : nat) | PyNone.
Arguments One {A} a. Arguments Ref {A} r. Arguments PyNone {A}.
(** The collection objects by reference: the [paths] ([surfaces]) attribute. *)
Definition heap (A : Type) := list (list A).

(** geometry.py:752-755, 1325-1328 [PathCollection.__init__], [SurfaceCollection.__init__] *)
Definition new_collection {A} (h : heap A) (items : list (item A)) : result (heap A * value A) :=
  l <- mapM (fun x => match x with Elem a => Ok a | Nested _ => Err AssertionError end) items ;;
  Ok (h ++ [l], Ref (length h)).

(** geometry.py:674-689 (Path.__add__) and 791-799 (PathCollection.__add__); other operands: NotImplemented, a TypeError *)
Definition path_add {A} (h : heap A) (x y : value A) : result (heap A * value A) :=
  match x, y with
  | One a, One b => new_collection h [Elem a; Elem b]
  | One a, Ref r => l <- np_get h r ;; new_collection h [Elem a; Nested l]
  | Ref r, One b => l <- np_get h r ;; new_collection h (map Elem l ++ [Elem b])
  | Ref r, Ref s => l <- np_get h r ;; m <- np_get h s ;; new_collection h (map Elem l ++ map Elem m)
  | _, _ => Err TypeError
  end.
(** geometry.py:1276-1284 (Surface.__add__) and 1355-1363 (SurfaceCollection.__add__) *)
Definition surface_add {A} (h : heap A) (x y : value A) : result (heap A * value A) :=
  match x, y with
  | One a, One b => new_collection h [Elem a; Elem b]
  | One a, Ref r => l <- np_get h r ;; new_collection h (Elem a :: map Elem l)
  | Ref r, One b => l <- np_get h r ;; new_collection h (map Elem l ++ [Elem b])
  | Ref r, Ref s => l <- np_get h r ;; m <- np_get h s ;; new_collection h (map Elem l ++ map Elem m)
  | _, _ => Err TypeError
  end.

(** geometry.py:801-808, 1365-1372 [__iadd__] called on a collection: mutates the object and returns None. *)
Definition collection_iadd {A} (h : heap A) (r : nat) (y : value A) : result (heap A * value A) :=
  l <- np_get h r ;;
  match y with
  | One b => h' <- np_set h r (l ++ [b]) ;; Ok (h', PyNone)
  | Ref s => m <- np_get h s ;; h' <- np_set h r (l ++ m) ;; Ok (h', PyNone)
  | PyNone => Err AssertionError
  end.
(** The value of [x] after the Python statement [x += y]: the result of [__iadd__] when the class has it, else of [__add__]. *)
Definition augmented_add {A} (add : heap A -> value A -> value A -> result (heap A * value A)) (h : heap A) (x y : value A) : result (heap A * value A) :=
  match x with Ref r => collection_iadd h r y | _ => add h x y end.

(** Expressions built from objects and +, with any bracketing. *)
Inductive expr (A : Type) := Leaf (a : A) | Add (e1 e2 : expr A).
Arguments Leaf {A} a. Arguments Add {A} e1 e2.
Fixpoint eval {A} (add : heap A -> value A -> value A -> result (heap A * value A)) (h : heap A) (e : expr A) : result (heap A * value A) :=
  match e with
  | Leaf a => Ok (h, One a)
  | Add e1 e2 => '(h1, x) <- eval add h e1 ;; '(h2, y) <- eval add h1 e2 ;; add h2 x y
  end.
Fixpoint leaves {A} (e : expr A) : list A := match e with Leaf a => [a] | Add e1 e2 => leaves e1 ++ leaves e2 end.

(** The objects a value stands for. *)
Definition contents {A} (h : heap A) (x : value A) : option (list A) :=
  match x with One a => Some [a] | Ref r => nth_error h r | PyNone => None end.
(** [self] is a single path on the left of a collection somewhere in the expression. *)
Fixpoint path_plus_collection {A} (e : expr A) : bool :=
  match e with
  | Leaf _ => false
  | Add e1 e2 => match e1, e2 with Leaf _, Add _ _ => true | _, _ => path_plus_collection e1 || path_plus_collection e2 end
  end.
