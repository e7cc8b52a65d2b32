(** The comparison of two triangles (backend/triangle.c:185-274) over the reals: what [o_tri_equal] of
    OrientModel stands for.  The assertion of normalize_3d is not modelled. *)
From Coq Require Import Reals.
From Verif Require Import Base OrientModel Vec GeomModel TriangleModel.
Local Open Scope R_scope.

(** The last element that satisfies a test: the effect of an assignment in a loop without break. *)
Definition last_such {T} (p : T -> bool) (l : list T) : option T := fold_left (fun acc x => if p x then Some x else acc) l None.

(** [common_index1], [common_index2] (triangle.c:213-226); all pairs in the order of the two loops *)
Definition index_pairs (n : nat) : list (nat * nat) := list_prod (arange n) (arange n).
Definition common_indices (t1 t2 : row) : option (nat * nat) :=
  last_such (fun ij => (nth (fst ij) t1 0 =? nth (snd ij) t2 0)%nat) (index_pairs 3).
(** triangle.c:233-249: the vertices other than the common one, and the unit edges to them *)
Definition others (t : row) (i : nat) : list nat := map (fun k => nth k t 0%nat) (filter (fun k => negb (k =? i)%nat) (arange 3)).
Definition unit_edges (pos : nat -> vec3) (t : row) (i : nat) : list vec3 := map (fun u => normalize_3d (vsub (pos u) (pos (nth i t 0%nat)))) (others t i).
(** triangle.c:256-264 [fabs(d - 1.0) < 1e-14] *)
Definition same_edge (e1 e2 : vec3) : bool := if Rlt_dec (Rabs (dot e1 e2 - 1)) (1 / 10 ^ 14) then true else false.
Definition common_edge (edges1 edges2 : list vec3) : option vec3 :=
  option_map (fun ij => nth (fst ij) edges1 vzero) (last_such (fun ij => same_edge (nth (fst ij) edges1 vzero) (nth (snd ij) edges2 vzero)) (index_pairs 2)).
(** [mid1], [normal1] (triangle.c:205-211) *)
Definition row_mid (pos : nat -> vec3) (t : row) : vec3 :=
  let '(a, b, c) := tri_corners pos t in V3 ((vx a + vx b + vx c) / 3) ((vy a + vy b + vy c) / 3) ((vz a + vz b + vz c) / 3).
Definition row_normal (pos : nat -> vec3) (t : row) : vec3 := let '(a, b, c) := tri_corners pos t in normal_3d a b c.

(** triangle.c:185-274 triangle_orientation_is_equal *)
Definition triangle_orientation_is_equal (pos : nat -> vec3) (t1 t2 : row) : Z :=
  match common_indices t1 t2 with
  | None => -1
  | Some (i, j) =>
      let v := pos (nth i t1 0%nat) in
      match common_edge (unit_edges pos t1 i) (map (fun u => normalize_3d (vsub (pos u) v)) (others t2 j)) with
      | None => -1
      | Some e =>
          let dot1 := dot (cross (vsub (row_mid pos t1) v) e) (row_normal pos t1) in
          let dot2 := dot (cross e (vsub (row_mid pos t2) v)) (row_normal pos t2) in
          if Bool.eqb (Rgt0 dot1) (Rgt0 dot2) then 1 else 0
      end
  end.
