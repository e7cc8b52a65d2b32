(** Meshing paths, surfaces and collections of them: which elements and names the mesh gets
    (traceon/geometry.py, traceon/mesher.py). *)
From Verif Require Import Base Float64 OrientModel MeshModel.

(** What one path or surface contributes: the points and elements its discretisation
    produced (geometry.py:715-730, mesher.py:1036-1061; modelled in PathModel and MesherModel) and its name
    attribute.  The discretisation itself is arbitrary here. *)
Record member := mkmember { mb_points : list point; mb_elements : arr2; mb_name : option string }.

Inductive kind := Paths | Surfaces.

(** [name = self.name if name is None else name], geometry.py:735, 775, 1313, 1348 *)
Definition name_or (name attribute : option string) : option string :=
  match name with None => attribute | Some n => Some n end.

(** geometry.py:737-741, mesher.py:1066-1069: all elements under the name, or no group at all *)
Definition one_group (name : option string) (n : nat) : dict :=
  match name with None => [] | Some nm => [(nm, arange n)] end.

(** geometry.py:735-743 end of Path.mesh; geometry.py:1313-1314 Surface.mesh with
    mesher.py:1066-1071 end of _mesh *)
Definition member_mesh (o : oracles) (k : kind) (x : member) (name : option string) (ens : bool) : result mesh :=
  let name := name_or name (mb_name x) in
  let group := one_group name (length (arows (mb_elements x))) in
  match k with
  | Paths => new_mesh o (mb_points x) (mb_elements x) no_triangles group [] ens
  | Surfaces => new_mesh o (mb_points x) no_lines (mb_elements x) [] group ens
  end.

(** geometry.py:777-781, 1350-1353: [for p in self.paths: mesh = mesh + p.mesh(...)] *)
Fixpoint sum_members (o : oracles) (k : kind) (xs : list member) (name : option string) (ens : bool) (acc : mesh)
    : result mesh :=
  match xs with
  | [] => Ok acc
  | x :: xs => m <- member_mesh o k x name ens ;; acc <- mesh_add o acc m ;; sum_members o k xs name ens acc
  end.

(** geometry.py:771-781 PathCollection.mesh, 1344-1355 SurfaceCollection.mesh.  [cname] is the name attribute
    of the collection.  The mesh size arguments act on the discretisation of the members only. *)
Definition collection_mesh (o : oracles) (k : kind) (xs : list member) (cname name : option string) (ens : bool) : result mesh :=
  m <- new_mesh o [] no_lines no_triangles [] [] true ;;
  sum_members o k xs (name_or name cname) ens m.

(** geometry.py:761-766, 1334-1339 name setter of a collection: also names the members. *)
Definition set_collection_name (xs : list member) (name : option string) : list member :=
  map (fun x => mkmember (mb_points x) (mb_elements x) name) xs.
