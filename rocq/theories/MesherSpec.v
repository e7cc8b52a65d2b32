(** Specification of a triangulation of a parameter rectangle, independent of the mesher. *)
From Coq Require Import Reals List.
Import ListNotations.
Local Open Scope R_scope.

(** a point of the parameter plane and a triangle in it *)
Definition ppoint : Type := R * R.
Definition ptri : Type := ppoint * ppoint * ppoint.

(** twice the signed area of the triangle a, b, p, positive when they turn from the v-axis to the u-axis *)
Definition turn (a b p : ppoint) : R := (snd b - snd a) * (fst p - fst a) - (fst b - fst a) * (snd p - snd a).
Definition tri_closed (t : ptri) (p : ppoint) : Prop :=
  let '(a, b, c) := t in 0 <= turn a b p /\ 0 <= turn b c p /\ 0 <= turn c a p.
Definition tri_interior (t : ptri) (p : ppoint) : Prop :=
  let '(a, b, c) := t in 0 < turn a b p /\ 0 < turn b c p /\ 0 < turn c a p.

(** all triangles are non-degenerate and turn the same way *)
Definition oriented (T : list ptri) : Prop := Forall (fun t => let '(a, b, c) := t in 0 < turn a b c) T.
(** no two triangles overlap *)
Definition no_overlap (T : list ptri) : Prop :=
  ForallOrdPairs (fun t t' => forall p, ~ (tri_interior t p /\ tri_interior t' p)) T.
(** the triangles stay in the rectangle [ua,ub] x [va,vb] *)
Definition inside (ua ub va vb : R) (T : list ptri) : Prop :=
  Forall (fun t => forall p, tri_closed t p -> ua <= fst p <= ub /\ va <= snd p <= vb) T.
(** every point of the rectangle lies in a triangle *)
Definition covers (ua ub va vb : R) (T : list ptri) : Prop :=
  forall u v, ua <= u <= ub -> va <= v <= vb -> exists t, In t T /\ tri_closed t (u, v).

(** the corners of the triangle of indices [k] are the points of the surface [S] at the corners of
    the parameter triangle [t] *)
Definition corner_is {A B} (S : R -> R -> A) (ok : B -> A) (pts : list B) (p : ppoint) (k : nat) : Prop :=
  exists x, nth_error pts k = Some x /\ S (fst p) (snd p) = ok x.
Definition tri_on {A B} (S : R -> R -> A) (ok : B -> A) (pts : list B) (t : ptri) (k : nat * nat * nat) : Prop :=
  let '(a, b, c) := t in let '(ka, kb, kc) := k in
  corner_is S ok pts a ka /\ corner_is S ok pts b kb /\ corner_is S ok pts c kc.

(** corner [p] of the parameter triangle [t] got the point index [x] in the triangle of indices [k] *)
Definition corner_of (t : ptri) (k : nat * nat * nat) (p : ppoint) (x : nat) : Prop :=
  let '(a, b, c) := t in let '(ka, kb, kc) := k in (p = a /\ x = ka) \/ (p = b /\ x = kb) \/ (p = c /\ x = kc).
(** triangles meeting in a point of the parameter rectangle use the same point *)
Definition welded (T : list ptri) (tris : list (nat * nat * nat)) : Prop :=
  forall t k t' k' p x x', In (t, k) (combine T tris) -> In (t', k') (combine T tris) ->
    corner_of t k p x -> corner_of t' k' p x' -> x = x'.

(** no corner of a triangle lies strictly inside an edge of a triangle *)
Definition corner (t : ptri) (p : ppoint) : Prop := let '(a, b, c) := t in p = a \/ p = b \/ p = c.
Definition edge (t : ptri) (p q : ppoint) : Prop :=
  let '(a, b, c) := t in (p = a /\ q = b) \/ (p = b /\ q = c) \/ (p = c /\ q = a).
Definition conforming (T : list ptri) : Prop :=
  forall t t' p q x s, In t T -> In t' T -> edge t p q -> corner t' x -> 0 < s < 1 ->
    x <> ((1 - s) * fst p + s * fst q, (1 - s) * snd p + s * snd q).
