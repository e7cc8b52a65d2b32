(** Connectivity and orientation of elements (traceon/mesher.py:611-815). *)
From Verif Require Import Base Float64.

(** An element: its vertex indices (2 or 4 for lines, 3 or 6 for triangles). *)
Definition row := list nat.

(** The results of the floating point tests used by the mesh code.  The mesh
    theorems hold for every value of these functions; what the tests compute is
    modelled over the reals in OutwardModel.v / TriangleModel.v. *)
Record oracles := {
  (** backend/__init__.py:621-625, mesher.py:213-214: area of the triangle < 1e-12 *)
  o_degenerate : point -> point -> point -> bool;
  (** backend/triangle.c:183-273 triangle_orientation_is_equal: -1, 0 or 1 *)
  o_tri_equal : list point -> row -> row -> Z;
  (** mesher.py:676-690 *)
  o_tri_outwards : list point -> list row -> bool;
  (** mesher.py:692-700 *)
  o_line_outwards : list point -> list row -> bool;
  (** unspecified contents of [np.empty] (mesher.py:248) *)
  o_junk : nat -> nat
}.

(** mesher.py:615-627 _compute_vertex_to_indices: a dict vertex -> list of element
    indices, as an association list in insertion order. *)
Definition vmap := list (nat * list nat).

Fixpoint vmap_get (m : vmap) (v : nat) : option (list nat) :=
  match m with
  | [] => None
  | (k, l) :: t => if k =? v then Some l else vmap_get t v
  end.

(** mesher.py:622-625: create the entry if missing, then append. *)
Fixpoint vmap_add (m : vmap) (v index : nat) : vmap :=
  match m with
  | [] => [(v, [index])]
  | (k, l) :: t => if k =? v then (k, l ++ [index]) :: t else (k, l) :: vmap_add t v index
  end.

Definition vmap_add_element (m : vmap) (index : nat) (el : row) : vmap :=
  fold_left (fun m v => vmap_add m v index) el m.

Fixpoint compute_vertex_to_indices_from (m : vmap) (index : nat) (els : list row) : vmap :=
  match els with
  | [] => m
  | el :: t => compute_vertex_to_indices_from (vmap_add_element m index el) (S index) t
  end.
Definition compute_vertex_to_indices (els : list row) : vmap :=
  compute_vertex_to_indices_from [] 0 els.

(** mesher.py:629-637 _get_element_neighbours *)
Definition get_element_neighbours (el : row) (m : vmap) : list nat :=
  flat_map (fun v => match vmap_get m v with Some l => l | None => [] end) el.

(** mesher.py:655-658: the two inner [for] loops' body for one vertex. [None] is
    the label -1. The Python list [queue] is popped and appended at its end; here
    the end is the head of the list. *)
Fixpoint label_neighbours (elements : list row) (comp : nat) (ns : list nat)
    (labels : list (option nat)) (queue : list row)
    : result (list (option nat) * list row) :=
  match ns with
  | [] => Ok (labels, queue)
  | n :: ns' =>
      l <- np_get labels n ;;
      match l with
      | Some _ => label_neighbours elements comp ns' labels queue
      | None =>
          labels' <- np_set labels n (Some comp) ;;
          e <- np_get elements n ;;
          label_neighbours elements comp ns' labels' (e :: queue)
      end
  end.

(** mesher.py:654 [for v in current: for neighbor in vertex_to_indices\[v\]] *)
Fixpoint label_vertices (elements : list row) (m : vmap) (comp : nat) (vs : row)
    (labels : list (option nat)) (queue : list row)
    : result (list (option nat) * list row) :=
  match vs with
  | [] => Ok (labels, queue)
  | v :: vs' =>
      match vmap_get m v with
      | None => Err KeyError
      | Some ns =>
          '(labels', queue') <- label_neighbours elements comp ns labels queue ;;
          label_vertices elements m comp vs' labels' queue'
      end
  end.

(** mesher.py:652-658 [while queue] *)
Fixpoint label_loop (fuel : nat) (elements : list row) (m : vmap) (comp : nat)
    (labels : list (option nat)) (queue : list row) : result (list (option nat)) :=
  match fuel with
  | O => Err OutOfFuel
  | S fuel' =>
      match queue with
      | [] => Ok labels
      | current :: rest =>
          '(labels', queue') <- label_vertices elements m comp current labels rest ;;
          label_loop fuel' elements m comp labels' queue'
      end
  end.

(** mesher.py:647-659 [for i in range(N)] *)
Fixpoint label_all (fuel : nat) (elements : list row) (m : vmap) (is_ : list nat)
    (labels : list (option nat)) (comp : nat) : result (list (option nat) * nat) :=
  match is_ with
  | [] => Ok (labels, comp)
  | i :: is' =>
      l <- np_get labels i ;;
      match l with
      | Some _ => label_all fuel elements m is' labels comp
      | None =>
          labels1 <- np_set labels i (Some comp) ;;
          e <- np_get elements i ;;
          labels2 <- label_loop fuel elements m comp labels1 [e] ;;
          label_all fuel elements m is' labels2 (S comp)
      end
  end.

(** [np.where(labels == comp_id)\[0\]] *)
Fixpoint where_label (c : nat) (i : nat) (labels : list (option nat)) : list nat :=
  match labels with
  | [] => []
  | Some k :: t => if k =? c then i :: where_label c (S i) t else where_label c (S i) t
  | None :: t => where_label c (S i) t
  end.

(** mesher.py:639-668 _get_connected_elements *)
Definition get_connected_elements (elements : list row) : result (list (list nat)) :=
  let m := compute_vertex_to_indices elements in
  let n := length elements in
  '(labels, ncomp) <- label_all (n + 2) elements m (arange n) (repeat None n) 0 ;;
  Ok (map (fun c => where_label c 0 labels) (seq 0 ncomp)).

(** mesher.py:783-790, 808-815: flipping a line; a row that has neither two nor four
    entries cannot be unpacked. *)
Definition flip_line (r : row) : result row :=
  match r with
  | [p0; p1] => Ok [p1; p0]
  | [p0; p1; p2; p3] => Ok [p1; p0; p3; p2]
  | _ => Err ValueError
  end.

(** mesher.py:731-732, 747-748: [v0, v1, v2 = triangles\[n\]; triangles\[n\] = \[v0, v2, v1\]] *)
Definition flip_triangle (r : row) : result row :=
  match r with
  | [v0; v1; v2] => Ok [v0; v2; v1]
  | _ => Err ValueError
  end.

(** mesher.py:752-763 _line_orientation_equal on the rows of the two lines *)
Definition line_orientation_equal (l1 l2 : row) : result bool :=
  match firstn 2 l1, firstn 2 l2 with
  | [p1; p2], [n1; n2] =>
      if p2 =? n1 then Ok true else if n2 =? p1 then Ok true else Ok false
  | _, _ => Err ValueError
  end.

Section Reorient.
  (** [test a b]: [None] = skip this neighbour (-1), [Some true] = same
      orientation, [Some false] = flip the neighbour. *)
  Variable test : row -> row -> result (option bool).
  Variable flip : row -> result row.

  (** The [for n in neighbours] loop, mesher.py:722-735 and 777-792. *)
  Fixpoint reorient_neighbours (ti : nat) (ns : list nat) (els : list row)
      (oriented : list bool) (active : list nat)
      : result (list row * list bool * list nat) :=
    match ns with
    | [] => Ok (els, oriented, active)
    | n :: ns' =>
        o <- np_get oriented n ;;
        if (o : bool) then reorient_neighbours ti ns' els oriented active
        else
          a <- np_get els ti ;;
          b <- np_get els n ;;
          t <- test a b ;;
          match t with
          | None => reorient_neighbours ti ns' els oriented active
          | Some same =>
              els' <- (if (same : bool) then Ok els
                       else b' <- flip b ;; np_set els n b') ;;
              oriented' <- np_set oriented n true ;;
              reorient_neighbours ti ns' els' oriented' (n :: active)
          end
    end.

  (** The [while active] loop, mesher.py:719-735 and 775-792. *)
  Fixpoint reorient_loop (fuel : nat) (m : vmap) (els : list row)
      (oriented : list bool) (active : list nat) : result (list row) :=
    match fuel with
    | O => Err OutOfFuel
    | S fuel' =>
        match active with
        | [] => Ok els
        | ti :: active' =>
            e <- np_get els ti ;;
            '(els', oriented', active'') <-
               reorient_neighbours ti (get_element_neighbours e m) els oriented active' ;;
            reorient_loop fuel' m els' oriented' active''
        end
    end.
End Reorient.

(** mesher.py:765-792 _reorient_lines. The initial assertion compares the shape of
    the array: every row has two, or every row has four entries. *)
Definition line_test (a b : row) : result (option bool) :=
  e <- line_orientation_equal a b ;; Ok (Some e).

Definition all_width (w : nat) (els : list row) : bool :=
  forallb (fun r => length r =? w) els.

Definition reorient_lines (els : list row) : result (list row) :=
  _ <- py_assert (all_width 2 els || all_width 4 els) ;;
  reorient_loop line_test flip_line (length els + 3)
    (compute_vertex_to_indices (map (firstn 2) els)) els
    (repeat false (length els)) [0].

(** mesher.py:725-732: the three results of the C function. *)
Definition triangle_test (o : oracles) (pts : list point) (a b : row) : result (option bool) :=
  let e := o_tri_equal o pts a b in
  if (e =? -1)%Z then Ok None
  else if (e =? 0)%Z then Ok (Some false)
  else Ok (Some true).

(** mesher.py:705-737 _reorient_triangles *)
Definition reorient_triangles (o : oracles) (pts : list point) (els : list row)
    : result (list row) :=
  match els with
  | [] => Ok []
  | _ => reorient_loop (triangle_test o pts) flip_triangle (length els + 3)
           (compute_vertex_to_indices els) els (repeat false (length els)) [0]
  end.

(** mesher.py:740-750 _ensure_triangle_orientation *)
Definition ensure_triangle_orientation (o : oracles) (pts : list point) (outwards : bool)
    (els : list row) : result (list row) :=
  els1 <- reorient_triangles o pts els ;;
  if Bool.eqb (o_tri_outwards o pts els1) outwards then Ok els1
  else mapM flip_triangle els1.

(** mesher.py:799-815 _ensure_line_orientation *)
Definition ensure_line_orientation (o : oracles) (pts : list point) (outwards : bool)
    (els : list row) : result (list row) :=
  els1 <- reorient_lines els ;;
  if Bool.eqb (o_line_outwards o pts els1) outwards then Ok els1
  else mapM flip_line els1.

(** mesher.py:570-575 and 588-593: the loop over the connected pieces. *)
Fixpoint orient_pieces (ens : list row -> result (list row)) (pieces : list (list nat))
    (els : list row) : result (list row) :=
  match pieces with
  | [] => Ok els
  | idx :: rest =>
      part <- np_take els idx ;;
      part' <- ens part ;;
      els' <- np_put els idx part' ;;
      orient_pieces ens rest els'
  end.

(** mesher.py:561-577 / 579-595 for the element array [all] and the group [idx]. *)
Definition ensure_group (ens : list row -> result (list row)) (idx : list nat)
    (all : list row) : result (list row) :=
  els <- np_take all idx ;;
  match els with
  | [] => Ok all
  | _ =>
      pieces <- get_connected_elements els ;;
      els' <- orient_pieces ens pieces els ;;
      np_put all idx els'
  end.
