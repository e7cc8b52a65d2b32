(** Memory, numpy arrays and C pointers, as far as traceon/backend/__init__.py and the C backend use them.

    A buffer is a block of memory owned by numpy; an array is a view of a buffer: a base address, a shape, strides and
    a dtype.  Offsets and strides are counted in items, not bytes (all items of a buffer have one dtype; views that
    reinterpret the dtype are not modelled, nor are misaligned arrays).  Items are reals.
    A C access outside the buffer its pointer points into, or with another item type, is a [Fault]. *)
From Coq Require Import Reals.
From Verif Require Import Base.
Local Open Scope Z_scope.

Inductive dtype := Float64 | Int64 | UInt8.
Definition dtype_eqb (a b : dtype) : bool := match a, b with Float64, Float64 | Int64, Int64 | UInt8, UInt8 => true | _, _ => false end.

Record buffer := mkbuffer { b_type : dtype; b_cells : list R }.
Definition heap := list buffer.
Record ptr := mkptr { p_buffer : nat; p_offset : Z }.
Record ndarray := mkarray { nd_base : ptr; nd_shape : list nat; nd_strides : list Z; nd_dtype : dtype }.

(** What a call does: it returns, raises a Python exception, calls the C function exit, or accesses memory it may not. *)
Inductive outcome (A : Type) := Done (a : A) (h : heap) | Raises (e : exn) | Exits | Fault.
Arguments Done {A} a h.
Arguments Raises {A} e.
Arguments Exits {A}.
Arguments Fault {A}.
Definition M (A : Type) := heap -> outcome A.
Definition ret {A} (a : A) : M A := fun h => Done a h.
Definition bnd {A B} (m : M A) (f : A -> M B) : M B := fun h =>
  match m h with Done a h' => f a h' | Raises e => Raises e | Exits => Exits | Fault => Fault end.
Definition raise {A} (e : exn) : M A := fun _ => Raises e.
Definition c_exit {A} : M A := fun _ => Exits.
Declare Scope mem_scope.
Delimit Scope mem_scope with mem.
Notation "x <~ m ;; k" := (bnd m (fun x => k)) (at level 61, m at next level, right associativity) : mem_scope.
Notation "m ;;; k" := (bnd m (fun _ => k)) (at level 61, right associativity) : mem_scope.
Open Scope mem_scope.
Definition assertM (b : bool) : M unit := if b then ret tt else raise AssertionError.

(** *p with p = q + i in C *)
Definition load (t : dtype) (p : ptr) (i : Z) : M R := fun h =>
  match nth_error h (p_buffer p) with
  | Some b =>
      if dtype_eqb t (b_type b) && (0 <=? p_offset p + i) then
        match nth_error (b_cells b) (Z.to_nat (p_offset p + i)) with Some x => Done x h | None => Fault end
      else Fault
  | None => Fault
  end.
(** *p = v *)
Definition store (t : dtype) (p : ptr) (i : Z) (v : R) : M unit := fun h =>
  match nth_error h (p_buffer p) with
  | Some b =>
      if dtype_eqb t (b_type b) && (0 <=? p_offset p + i) && (p_offset p + i <? Z.of_nat (length (b_cells b))) then
        Done tt (upd h (p_buffer p) (mkbuffer (b_type b) (upd (b_cells b) (Z.to_nat (p_offset p + i)) v)))
      else Fault
  | None => Fault
  end.
(** reading and writing doubles at a natural index; [+=] *)
Definition ld (p : ptr) (i : nat) : M R := load Float64 p (Z.of_nat i).
Definition st (p : ptr) (i : nat) (v : R) : M unit := store Float64 p (Z.of_nat i) v.
Definition st_add (p : ptr) (i : nat) (v : R) : M unit := x <~ ld p i ;; st p i (x + v)%R.
Definition shift (p : ptr) (n : nat) : ptr := mkptr (p_buffer p) (p_offset p + Z.of_nat n).

(** for(int i = 0; i < n; i++), with local variables [acc] *)
Fixpoint loop_from {A} (i n : nat) (body : nat -> A -> M A) (acc : A) : M A :=
  match n with O => ret acc | S n' => a <~ body i acc ;; loop_from (S i) n' body a end.
Definition loop {A} (n : nat) (acc : A) (body : nat -> A -> M A) : M A := loop_from 0 n body acc.
Definition for_each (n : nat) (body : nat -> M unit) : M unit := loop n tt (fun i _ => body i).

(** ** numpy *)
Definition size (shape : list nat) : nat := fold_right Nat.mul 1%nat shape.
Fixpoint dot (strides : list Z) (idx : list nat) : Z :=
  match strides, idx with s :: ss, i :: ii => s * Z.of_nat i + dot ss ii | _, _ => 0 end.
Definition address (a : ndarray) (idx : list nat) : Z := p_offset (nd_base a) + dot (nd_strides a) idx.
(** all indices of an array of the given shape, the last one running fastest *)
Fixpoint indices (shape : list nat) : list (list nat) :=
  match shape with [] => [[]] | d :: s => flat_map (fun i => map (cons i) (indices s)) (arange d) end.
(** a\[idx\] *)
Definition item (h : heap) (a : ndarray) (idx : list nat) : R :=
  match nth_error h (p_buffer (nd_base a)) with Some b => nth (Z.to_nat (address a idx)) (b_cells b) 0%R | None => 0%R end.
(** the items of an array in the order of [indices] *)
Definition contents (h : heap) (a : ndarray) : list R := map (item h a) (indices (nd_shape a)).
(** What numpy guarantees of an array: every index of its shape addresses an item of its buffer. *)
Definition array_ok (h : heap) (a : ndarray) : Prop :=
  length (nd_strides a) = length (nd_shape a) /\
  exists b, nth_error h (p_buffer (nd_base a)) = Some b /\ b_type b = nd_dtype a /\
    forall idx, In idx (indices (nd_shape a)) -> 0 <= address a idx < Z.of_nat (length (b_cells b)).

(** the flag C_CONTIGUOUS *)
Fixpoint c_contiguous (shape : list nat) (strides : list Z) : bool :=
  match shape, strides with
  | [], [] => true
  | d :: sh, s :: ss => c_contiguous sh ss && ((d =? 1)%nat || (s =? Z.of_nat (size sh)))
  | _, _ => false
  end.
Definition is_contiguous (a : ndarray) : bool := (size (nd_shape a) =? 0)%nat || c_contiguous (nd_shape a) (nd_strides a).
Fixpoint c_strides (shape : list nat) : list Z := match shape with [] => [] | d :: sh => Z.of_nat (size sh) :: c_strides sh end.
(** a new array with the given items *)
Definition new_array (shape : list nat) (t : dtype) (cells : list R) : M ndarray := fun h =>
  Done (mkarray (mkptr (length h) 0) shape (c_strides shape) t) (h ++ [mkbuffer t cells]).
Definition np_zeros (shape : list nat) : M ndarray := new_array shape Float64 (repeat 0%R (size shape)).
(** a.astype(np.float64), which always copies *)
Definition astype_float (a : ndarray) : M ndarray := fun h => new_array (nd_shape a) Float64 (contents h a) h.
(** len(a); TypeError for a 0-dimensional array *)
Definition py_len (a : ndarray) : M nat := match nd_shape a with [] => raise TypeError | n :: _ => ret n end.
Fixpoint shape_eqb (a b : list nat) : bool :=
  match a, b with [], [] => true | x :: a', y :: b' => (x =? y)%nat && shape_eqb a' b' | _, _ => false end.
Definition has_shape (a : ndarray) (s : list nat) : bool := shape_eqb (nd_shape a) s.

(** ** Passing arrays to C *)
(** backend/__init__.py:196-200 ensure_contiguous_aligned; DEBUG is False (line 17) *)
Definition ensure_contiguous_aligned (a : ndarray) : M ndarray := fun h =>
  if is_contiguous a then Done a h else new_array (nd_shape a) (nd_dtype a) (contents h a) h.
(** backend/__init__.py:67-73 arr(ndim=..., shape=..., dtype=...), v2 and v3: what the array must look like *)
Inductive param := ByDim (ndim : nat) (t : dtype) | ByShape (s : list nat) (t : dtype).
Definition accepts (p : param) (a : ndarray) : bool :=
  match p with
  | ByDim n t => (length (nd_shape a) =? n)%nat && dtype_eqb t (nd_dtype a)
  | ByShape s t => has_shape a s && dtype_eqb t (nd_dtype a)
  end.
Definition v2 : param := ByShape [2%nat] Float64.
Definition v3 : param := ByShape [3%nat] Float64.
Definition arr (n : nat) : param := ByDim n Float64.
(** backend/__init__.py:206-216: an argument that is an array is made contiguous and then checked by ndpointer; the
    ArgumentError of ctypes is rendered as a TypeError *)
Definition pass (p : param) (a : ndarray) : M ptr :=
  a' <~ ensure_contiguous_aligned a ;; if accepts p a' then ret (nd_base a') else raise TypeError.
