(** Small specifications used in the statements of the mesh theorems. *)
From Coq Require Import Relations.
From Verif Require Import Base Float64 OrientModel MeshModel.

(** Elements [i] and [j] have a vertex in common. *)
Definition share_vertex (els : list row) (i j : nat) : Prop :=
  exists a b v, nth_error els i = Some a /\ nth_error els j = Some b /\ In v a /\ In v b.

(** Linked by a chain of elements with common vertices. *)
Definition connected (els : list row) : nat -> nat -> Prop :=
  clos_refl_trans nat (share_vertex els).

(** ** Well-formed meshes *)
Definition pt_ok (p : point) : Prop := pt_bits p /\ pt_nonan p = true.

(** An index array over [n] points whose rows have one of the widths [ws]. *)
Definition arr_ok (ws : list nat) (n : nat) (a : arr2) : Prop :=
  (arows a <> [] -> In (aw a) ws) /\
  forall r, In r (arows a) -> length r = aw a /\ forall i, In i r -> i < n.

Definition groups_ok (n : nat) (d : dict) : Prop :=
  NoDup (dkeys d) /\ forall name v i, In (name, v) d -> In i v -> i < n.

(** What a caller has to supply: indices inside the arrays, lines of 2 or 4 points,
    triangles of 3 points, coordinates that are numbers. *)
Record input_ok (points : list point) (lines triangles : arr2) (pl pt : dict) : Prop := {
  in_points : Forall pt_ok points;
  in_lines : arr_ok [2; 4] (length points) lines;
  in_triangles : arr_ok [3] (length points) triangles;
  in_pl : groups_ok (length (arows lines)) pl;
  in_pt : groups_ok (length (arows triangles)) pt
}.

Definition mesh_ok (m : mesh) : Prop :=
  input_ok (m_points m) (m_lines m) (m_triangles m) (m_plines m) (m_ptriangles m).

(** ** Where elements are *)
(** [r'] in [pts'] has, vertex by vertex, the coordinates of [r] in [pts] with the low
    16 mantissa bits cleared (equality of floats). *)
Definition same_place (pts : list point) (r : row) (pts' : list point) (r' : row) : Prop :=
  Forall2 (fun i i' => exists p p', nth_error pts i = Some p /\ nth_error pts' i' = Some p' /\
                                    pt_eqb p' (pt_trunc p) = true) r r'.

(** The same line traversed backwards, the same triangle seen from the other side. *)
Definition reversed_line (r : row) : row :=
  match r with [a; b] => [b; a] | [a; b; c; d] => [b; a; d; c] | _ => r end.
Definition reversed_triangle (r : row) : row :=
  match r with [a; b; c] => [a; c; b] | _ => r end.

Definition same_line (pts : list point) (r : row) (pts' : list point) (r' : row) : Prop :=
  same_place pts r pts' r' \/ same_place pts (reversed_line r) pts' r'.
Definition same_triangle (pts : list point) (r : row) (pts' : list point) (r' : row) : Prop :=
  same_place pts r pts' r' \/ same_place pts (reversed_triangle r) pts' r'.

(** The triangle passes the area test (area >= 1e-12). *)
Definition survives (o : oracles) (pts : list point) (r : row) : bool :=
  match map (nth_error pts) (firstn 3 r) with
  | [Some a; Some b; Some c] => negb (o_degenerate o a b c)
  | _ => true
  end.

(** The survivors among the members of a triangle group. *)
Definition survivors (o : oracles) (pts : list point) (tris : list row) (v : list nat) : list nat :=
  filter (fun i => match nth_error tris i with Some r => survives o pts r | None => false end) v.

(** Position among the elements that satisfy [f] of element [i] of [rs]: how many such
    elements come before it. *)
Definition rank (f : row -> bool) (rs : list row) (i : nat) : nat := length (filter f (firstn i rs)).

(** The new positions of the surviving members of a triangle group. *)
Definition kept_positions (o : oracles) (m : mesh) (v : list nat) : list nat :=
  map (rank (survives o (m_points m)) (arows (m_triangles m)))
      (survivors o (m_points m) (arows (m_triangles m)) v).

(** One group after the other, where either may be absent. *)
Definition both (a b : option (list nat)) : option (list nat) :=
  match a, b with
  | Some x, Some y => Some (x ++ y)%list
  | Some x, None => Some x
  | None, b => b
  end.

(** Element arrays of the same order, or one of them empty. *)
Definition compatible (a b : arr2) : Prop := arows a = [] \/ arows b = [] \/ aw a = aw b.

(** Two point arrays with equal coordinates (as floats), in the same order. *)
Definition same_points (ps qs : list point) : Prop := Forall2 (fun p q => pt_eqb p q = true) ps qs.

(** The mesh without anything. *)
Definition empty_mesh : mesh := mkmesh [] no_lines no_triangles [] [].

(** ** Directions *)
(** No two different lines start in the same vertex and no two end in the same vertex:
    lines that meet are directed head to tail. *)
Definition head_to_tail (els : list row) : Prop :=
  forall i j a b s c d t, i <> j ->
    nth_error els i = Some (a :: b :: s) -> nth_error els j = Some (c :: d :: t) ->
    a <> c /\ b <> d.

(** How many line ends are at vertex [v]. *)
Definition degree (els : list row) (v : nat) : nat :=
  count_occ Nat.eq_dec (concat (map (firstn 2) els)) v.

(** The directed edges of a triangle. *)
Definition directed_edge (r : row) (a b : nat) : Prop :=
  match r with
  | [x; y; z] => (a = x /\ b = y) \/ (a = y /\ b = z) \/ (a = z /\ b = x)
  | _ => False
  end.

(** No two different triangles traverse a common edge in the same direction. *)
Definition opposite_edges (els : list row) : Prop :=
  forall i j r s a b, i <> j -> nth_error els i = Some r -> nth_error els j = Some s ->
    directed_edge r a b -> ~ directed_edge s a b.

(** Elements [i] and [j] have an edge in common. *)
Definition share_edge (els : list row) (i j : nat) : Prop :=
  exists r s a b, nth_error els i = Some r /\ nth_error els j = Some s /\
    directed_edge r a b /\ (directed_edge s a b \/ directed_edge s b a).

Definition edge_connected (els : list row) : nat -> nat -> Prop :=
  clos_refl_trans nat (share_edge els).

Definition proper_triangle (r : row) : Prop :=
  exists x y z, r = [x; y; z] /\ x <> y /\ y <> z /\ x <> z.

(** What the floating point comparison of two triangles has to report: -1 without a common
    edge, 1 when a common edge is traversed in opposite directions, 0 when it is traversed in
    the same direction. *)
Definition compares_edges (o : oracles) (pts : list point) (r s : row) : Prop :=
  ((forall a b, directed_edge r a b -> ~ directed_edge s a b /\ ~ directed_edge s b a) ->
     o_tri_equal o pts r s = (-1)%Z) /\
  (forall a b, directed_edge r a b -> directed_edge s b a -> o_tri_equal o pts r s = 1%Z) /\
  (forall a b, directed_edge r a b -> directed_edge s a b -> o_tri_equal o pts r s = 0%Z).

Definition comparison_ok (o : oracles) (pts : list point) (els : list row) : Prop :=
  forall r s r' s', In r els -> In s els -> (r' = r \/ r' = reversed_triangle r) ->
    (s' = s \/ s' = reversed_triangle s) -> compares_edges o pts r' s'.

(** The point order of a constructed mesh: by z, then y, then x. *)
Definition before_zyx (p q : point) : Prop :=
  f64_ltb (pz p) (pz q) = true \/
  (f64_eqb (pz p) (pz q) = true /\
     (f64_ltb (py p) (py q) = true \/
      (f64_eqb (py p) (py q) = true /\ f64_ltb (px p) (px q) = true))).
