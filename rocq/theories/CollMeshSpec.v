(** Small specifications for meshes of collections. *)
From Verif Require Import Base Float64 OrientModel MeshModel MeshSpec CollMeshModel.

(** Does the (optional) name [n] equal [nm]? *)
Definition named (n : option string) (nm : string) : bool := match n with Some s => String.eqb s nm | None => false end.

(** Members with their names and numbers of elements, numbered through from [start]: the numbers of the elements
    of the members called [nm], or nothing when no member has that name. *)
Fixpoint members_named (nm : string) (start : nat) (l : list (option string * nat)) : option (list nat) :=
  match l with
  | [] => None
  | (n, k) :: l => both (if named n nm then Some (seq start k) else None) (members_named nm (start + k) l)
  end.

Fixpoint total (l : list (option string * nat)) : nat := match l with [] => 0 | (_, k) :: l => k + total l end.

(** The area test sees only the coordinates (as floats) and not the order of the last two corners. *)
Definition area_of_coordinates (o : oracles) : Prop :=
  (forall a b c, o_degenerate o a c b = o_degenerate o a b c) /\
  (forall a b c a' b' c', pt_eqb a a' = true -> pt_eqb b b' = true -> pt_eqb c c' = true -> o_degenerate o a b c = o_degenerate o a' b' c').

(** The triangles of a surface with an area of at least 1e-12, before and after the coordinates are rounded. *)
Definition kept_triangles (o : oracles) (x : member) : list row :=
  filter (fun r => survives o (mb_points x) r && survives o (map pt_trunc (mb_points x)) r) (arows (mb_elements x)).
