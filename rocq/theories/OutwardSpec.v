(** Specifications for C11: closed loops and surfaces, enclosed area and volume. *)
From Coq Require Import Reals Permutation.
From Verif Require Import Base OrientModel MeshSpec Vec GeomModel.
Local Open Scope R_scope.

(** Start and end vertex of a line. *)
Definition line_start (r : row) : nat := match r with a :: _ => a | _ => 0%nat end.
Definition line_end (r : row) : nat := match r with _ :: b :: _ => b | _ => 0%nat end.

(** A closed directed polygon (or several): every vertex is left as often as it is entered. *)
Definition closed_loop (els : list row) : Prop :=
  Permutation (map line_start els) (map line_end els).

(** Oriented area in the (x, z) plane by the shoelace formula. *)
Definition signed_area (pos : nat -> vec3) (els : list row) : R :=
  Rsum (map (fun r => (vx (pos (line_start r)) * vz (pos (line_end r))
                       - vx (pos (line_end r)) * vz (pos (line_start r))) / 2) els).

(** A line in the plane y = 0 with two different ends. *)
Definition planar_line (pos : nat -> vec3) (r : row) : Prop :=
  vy (pos (line_start r)) = 0 /\ vy (pos (line_end r)) = 0 /\
  pos (line_start r) <> pos (line_end r).

(** The (x, z) normal of the line from [a] to [b] (not normalised). *)
Definition line_normal (a b : vec3) : R * R := (vz b - vz a, - (vx b - vx a)).

(** The line's normal points away from [c]. *)
Definition line_away (pos : nat -> vec3) (c : vec3) (r : row) : Prop :=
  let a := pos (line_start r) in
  let '(nx, nz) := line_normal a (pos (line_end r)) in
  0 < nx * (vx a - vx c) + nz * (vz a - vz c).
Definition line_towards (pos : nat -> vec3) (c : vec3) (r : row) : Prop :=
  let a := pos (line_start r) in
  let '(nx, nz) := line_normal a (pos (line_end r)) in
  nx * (vx a - vx c) + nz * (vz a - vz c) < 0.

(** The three directed edges of a triangle. *)
Definition tri_edges (r : row) : list (nat * nat) :=
  match r with [a; b; c] => [(a, b); (b, c); (c, a)] | _ => [] end.
Definition swap_edge (e : nat * nat) : nat * nat := (snd e, fst e).
(** A closed oriented surface: every edge is traversed as often in one direction as in the other. *)
Definition closed_surface (els : list row) : Prop :=
  Permutation (flat_map tri_edges els) (map swap_edge (flat_map tri_edges els)).

(** Oriented volume: the sum of the oriented tetrahedra spanned with the origin. *)
Definition det3 (a b c : vec3) : R := dot a (cross b c).
Definition tri_det (pos : nat -> vec3) (c : vec3) (r : row) : R :=
  match r with
  | [i; j; k] => det3 (vsub (pos i) c) (vsub (pos j) c) (vsub (pos k) c)
  | _ => 0
  end.
Definition signed_volume (pos : nat -> vec3) (els : list row) : R :=
  Rsum (map (fun r => tri_det pos vzero r / 6) els).

Definition proper_area (pos : nat -> vec3) (r : row) : Prop :=
  match r with [i; j; k] => triangle_area (pos i) (pos j) (pos k) <> 0 | _ => False end.

(** The right-handed normal of the triangle points away from (towards) [c]. *)
Definition tri_side (pos : nat -> vec3) (c : vec3) (r : row) : R :=
  match r with
  | [i; j; k] => dot (normal_3d (pos i) (pos j) (pos k)) (vsub (pos i) c)
  | _ => 0
  end.
