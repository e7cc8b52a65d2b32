(** float64 values as 64-bit patterns (integers in [0, 2^64)).  Only the
    operations that the mesh code applies to coordinates as data are modelled:
    comparison, equality and clearing mantissa bits. *)
From Verif Require Import Base.
Local Open Scope Z_scope.

Definition f64 := Z.
Definition two63 : Z := 2 ^ 63.
Definition two64 : Z := 2 ^ 64.

(** A bit pattern. *)
Definition f64_bits (b : f64) : Prop := 0 <= b < two64.

(** Exponent and mantissa fields without the sign. *)
Definition f64_mag (b : f64) : Z := if b <? two63 then b else b - two63.

Definition f64_inf : Z := 0x7FF0000000000000.
Definition f64_is_nan (b : f64) : bool := f64_inf <? f64_mag b.

(** The IEEE order of non-NaN values is the order of this sign-magnitude key;
    +0 and -0 have the same key. *)
Definition f64_key (b : f64) : Z := if b <? two63 then b else - (b - two63).

Definition f64_eqb (a b : f64) : bool := f64_key a =? f64_key b.
Definition f64_ltb (a b : f64) : bool := f64_key a <? f64_key b.

(** mesher.py:234  [points_copy.view(np.uint64)\[:\] &= np.uint64(0xFFFFFFFFFFFF0000)] *)
Definition f64_trunc (b : f64) : f64 := Z.land b 0xFFFFFFFFFFFF0000.

(** A point: three coordinates x, y, z. *)
Definition point := (f64 * f64 * f64)%type.
Definition px (p : point) : f64 := fst (fst p).
Definition py (p : point) : f64 := snd (fst p).
Definition pz (p : point) : f64 := snd p.

Definition pt_trunc (p : point) : point := (f64_trunc (px p), f64_trunc (py p), f64_trunc (pz p)).

(** mesher.py:241  [np.all(points_sorted\[1:\] == points_sorted\[:-1\], axis=1)] for one pair *)
Definition pt_eqb (p q : point) : bool :=
  f64_eqb (px p) (px q) && f64_eqb (py p) (py q) && f64_eqb (pz p) (pz q).

(** mesher.py:237  [np.lexsort(points_copy.T)]: the last key (z) is the primary one. *)
Definition pt_leb (p q : point) : bool :=
  if f64_ltb (pz p) (pz q) then true else
  if f64_ltb (pz q) (pz p) then false else
  if f64_ltb (py p) (py q) then true else
  if f64_ltb (py q) (py p) then false else
  negb (f64_ltb (px q) (px p)).

Definition pt_bits (p : point) : Prop := f64_bits (px p) /\ f64_bits (py p) /\ f64_bits (pz p).
Definition pt_nonan (p : point) : bool :=
  negb (f64_is_nan (px p)) && negb (f64_is_nan (py p)) && negb (f64_is_nan (pz p)).
