(** The Mesh class (traceon/mesher.py:136-609). *)
From Verif Require Import Base Float64 OrientModel.

(** A 2-D index array: its number of columns and its rows. *)
Record arr2 := mkarr { aw : nat; arows : list row }.

(** Named groups: a Python dict (ordered, distinct keys) from name to index array.
    Simplification: group indices are non-negative integers (numpy would also
    accept negative ones, counting from the end). *)
Definition dict := list (string * list nat).

Fixpoint dget {A} (d : list (string * A)) (k : string) : option A :=
  match d with
  | [] => None
  | (k', v) :: t => if String.eqb k' k then Some v else dget t k
  end.
Definition dkeys {A} (d : list (string * A)) : list string := map fst d.
Definition dhas {A} (d : list (string * A)) (k : string) : bool :=
  match dget d k with Some _ => true | None => false end.
(** [d\[k\] = v]: replaces in place or appends. *)
Fixpoint dset {A} (d : list (string * A)) (k : string) (v : A) : list (string * A) :=
  match d with
  | [] => [(k, v)]
  | (k', v') :: t => if String.eqb k' k then (k', v) :: t else (k', v') :: dset t k v
  end.

Record mesh := mkmesh {
  m_points : list point;
  m_lines : arr2;
  m_triangles : arr2;
  m_plines : dict;          (* physical_to_lines *)
  m_ptriangles : dict       (* physical_to_triangles *)
}.

(** mesher.py:213-216 *)
Definition degenerate_flags (o : oracles) (pts : list point) (tris : list row)
    : result (list bool) :=
  corners <- mapM (fun r => np_take pts (firstn 3 r)) tris ;;
  mapM (fun c => match c with
                 | [a; b; c] => Ok (o_degenerate o a b c)
                 | _ => Err AssertionError     (* backend/__init__.py:622 *)
                 end) corners.

(** mesher.py:216  [np.arange(n) - np.cumsum(degenerate)]. Truncated subtraction
    instead of -1 for entries of removed triangles, which are never read. *)
Definition degenerate_map (deg : list bool) : list nat :=
  map2 Nat.sub (arange (length deg)) (cumsum deg).

(** mesher.py:221-222 for one group *)
Definition remap_group (deg : list bool) (v : list nat) : result (list nat) :=
  d <- np_take deg v ;;
  np_take (degenerate_map deg) (mask v (map negb d)).

Fixpoint mapM_dict {A B} (f : A -> result B) (d : list (string * A))
    : result (list (string * B)) :=
  match d with
  | [] => Ok []
  | (k, v) :: t => v' <- f v ;; t' <- mapM_dict f t ;; Ok ((k, v') :: t')
  end.

(** mesher.py:212-225 _remove_degenerate_triangles *)
Definition remove_degenerate (o : oracles) (m : mesh) : result mesh :=
  deg <- degenerate_flags o (m_points m) (arows (m_triangles m)) ;;
  pt <- mapM_dict (remap_group deg) (m_ptriangles m) ;;
  Ok {| m_points := m_points m; m_lines := m_lines m;
        m_triangles := mkarr (aw (m_triangles m))
                             (mask (arows (m_triangles m)) (map negb deg));
        m_plines := m_plines m; m_ptriangles := pt |}.

(** mesher.py:237 [np.lexsort(points_copy.T)] *)
Definition lexsort (c : list point) : list nat :=
  map fst (isort (fun a b => pt_leb (snd a) (snd b)) (combine (arange (length c)) c)).

(** mesher.py:241-242 *)
Definition keep_mask (sorted : list point) : list bool :=
  true :: map2 (fun a b => negb (pt_eqb a b)) (tl sorted) (removelast sorted).

(** mesher.py:226-258 _deduplicate_points *)
Definition deduplicate (o : oracles) (m : mesh) : result mesh :=
  match m_points m with
  | [] => Ok m
  | pts =>
      let c := map pt_trunc pts in
      let si := lexsort c in
      sorted <- np_take c si ;;
      let keep := keep_mask sorted in
      let new := map (fun k => k - 1) (cumsum keep) in
      o2n <- np_put (map (o_junk o) (arange (length c))) si new ;;
      tris <- mapM (np_take o2n) (arows (m_triangles m)) ;;
      lines <- mapM (np_take o2n) (arows (m_lines m)) ;;
      Ok {| m_points := mask sorted keep;
            m_lines := mkarr (aw (m_lines m)) lines;
            m_triangles := mkarr (aw (m_triangles m)) tris;
            m_plines := m_plines m; m_ptriangles := m_ptriangles m |}
  end.

(** mesher.py:496-505 get_electrodes *)
Definition get_electrodes (m : mesh) : list string :=
  dkeys (m_plines m) ++ dkeys (m_ptriangles m).

(** mesher.py:597-609 ensure_outward_normals / ensure_inward_normals *)
Definition ensure_normals (o : oracles) (outwards : bool) (m : mesh) (el : string)
    : result mesh :=
  m1 <- match dget (m_ptriangles m) el with
        | None => Ok m
        | Some idx =>
            t <- ensure_group (ensure_triangle_orientation o (m_points m) outwards)
                   idx (arows (m_triangles m)) ;;
            Ok {| m_points := m_points m; m_lines := m_lines m;
                  m_triangles := mkarr (aw (m_triangles m)) t;
                  m_plines := m_plines m; m_ptriangles := m_ptriangles m |}
        end ;;
  match dget (m_plines m1) el with
  | None => Ok m1
  | Some idx =>
      l <- ensure_group (ensure_line_orientation o (m_points m1) outwards)
             idx (arows (m_lines m1)) ;;
      Ok {| m_points := m_points m1; m_lines := mkarr (aw (m_lines m1)) l;
            m_triangles := m_triangles m1;
            m_plines := m_plines m1; m_ptriangles := m_ptriangles m1 |}
  end.

(** mesher.py:180-182 *)
Fixpoint ensure_all (o : oracles) (m : mesh) (els : list string) : result mesh :=
  match els with
  | [] => Ok m
  | el :: t => m' <- ensure_normals o true m el ;; ensure_all o m' t
  end.

Definition all_lt (n : nat) (l : list nat) : bool := forallb (fun i => i <? n) l.

(** mesher.py:184-191, the final assertions *)
Definition check_mesh (m : mesh) : bool :=
  forallb (all_lt (length (m_points m))) (arows (m_lines m)) &&
  forallb (all_lt (length (m_points m))) (arows (m_triangles m)) &&
  forallb (fun g => all_lt (length (arows (m_lines m))) (snd g)) (m_plines m) &&
  forallb (fun g => all_lt (length (arows (m_triangles m))) (snd g)) (m_ptriangles m) &&
  ((length (arows (m_lines m)) =? 0) || (aw (m_lines m) =? 2) || (aw (m_lines m) =? 4)) &&
  ((length (arows (m_triangles m)) =? 0) || (aw (m_triangles m) =? 3)
                                         || (aw (m_triangles m) =? 6)).

(** mesher.py:152-191 Mesh.__init__.  Simplifications: the inputs are already index
    arrays ([arr2]); an empty Python list of lines is [mkarr 2 []] (line 168), an
    empty ndarray of lines keeps its width (line 165), an empty triangle array
    always gets width 3 (line 172). *)
Definition new_mesh (o : oracles) (points : list point) (lines triangles : arr2)
    (plines ptriangles : dict) (ensure : bool) : result mesh :=
  let tris := match arows triangles with [] => mkarr 3 [] | _ => triangles end in
  let m0 := {| m_points := points; m_lines := lines; m_triangles := tris;
               m_plines := plines; m_ptriangles := ptriangles |} in
  m1 <- remove_degenerate o m0 ;;
  m2 <- deduplicate o m1 ;;
  m3 <- (if ensure then ensure_all o m2 (get_electrodes m2) else Ok m2) ;;
  _ <- py_assert (check_mesh m3) ;;
  Ok m3.

Definition no_lines : arr2 := mkarr 2 [].
Definition no_triangles : arr2 := mkarr 3 [].

(** mesher.py:193-199 is_higher_order *)
Definition is_higher_order (m : mesh) : bool := aw (m_lines m) =? 4.

(** mesher.py:201-210 Mesh.map_points *)
Definition map_points (o : oracles) (f : point -> point) (m : mesh) : result mesh :=
  new_mesh o (map f (m_points m)) (m_lines m) (m_triangles m)
           (m_plines m) (m_ptriangles m) true.

(** mesher.py:136-144 _concat_arrays; for the index arrays (width = shape\[1:\]) *)
Definition concat_arr (a b : arr2) : result arr2 :=
  match arows a, arows b with
  | [], _ => Ok b
  | _, [] => Ok a
  | _, _ => _ <- py_assert (aw a =? aw b) ;; Ok (mkarr (aw a) (arows a ++ arows b))
  end.

Definition offset_rows (k : nat) (a : arr2) : arr2 :=
  mkarr (aw a) (map (map (fun i => i + k)) (arows a)).
Definition offset_dict (k : nat) (d : dict) : dict :=
  map (fun g => (fst g, map (fun i => i + k) (snd g))) d.

(** mesher.py:261-270 _merge_dicts: [for (k, v) in chain(dict1.items(), dict2.items())] *)
Definition merge_step (d : dict) (kv : string * list nat) : dict :=
  match dget d (fst kv) with
  | Some v0 => dset d (fst kv) (v0 ++ snd kv)%list
  | None => dset d (fst kv) (snd kv)
  end.
Definition merge_dicts (d1 d2 : dict) : dict := fold_left merge_step (d1 ++ d2) [].

(** mesher.py:272-301 Mesh.__add__ *)
Definition mesh_add (o : oracles) (m1 m2 : mesh) : result mesh :=
  let np := length (m_points m1) in
  lines <- concat_arr (m_lines m1) (offset_rows np (m_lines m2)) ;;
  tris <- concat_arr (m_triangles m1) (offset_rows np (m_triangles m2)) ;;
  new_mesh o (m_points m1 ++ m_points m2) lines tris
    (merge_dicts (m_plines m1) (offset_dict (length (arows (m_lines m1))) (m_plines m2)))
    (merge_dicts (m_ptriangles m1)
       (offset_dict (length (arows (m_triangles m1))) (m_ptriangles m2)))
    true.

(** mesher.py:324-333: [points_mask\[elements\] = True], masks and new indices *)
Definition points_mask (n : nat) (els : list row) : list bool :=
  map (fun i => existsb (memb i) els) (arange n).

Definition extract_elements (pts : list point) (els : list row) (idx : list nat)
    : result (list point * list row) :=
  e <- np_take els (np_unique idx) ;;
  if forallb (all_lt (length pts)) e then
    let pm := points_mask (length pts) e in
    e' <- mapM (np_take (map (fun k => k - 1) (cumsum pm))) e ;;
    Ok (mask pts pm, e')
  else Err IndexError.

(** mesher.py:303-339 extract_physical_group. An empty selection of lines keeps the
    width of the array (mesher.py:165). *)
Definition extract_physical_group (o : oracles) (m : mesh) (name : string) : result mesh :=
  match dget (m_plines m) name with
  | Some idx =>
      '(pts, e) <- extract_elements (m_points m) (arows (m_lines m)) idx ;;
      new_mesh o pts (mkarr (aw (m_lines m)) e) no_triangles [(name, arange (length e))] [] true
  | None =>
      match dget (m_ptriangles m) name with
      | Some idx =>
          '(pts, e) <- extract_elements (m_points m) (arows (m_triangles m)) idx ;;
          new_mesh o pts no_lines (mkarr (aw (m_triangles m)) e) [] [(name, arange (length e))] true
      | None => Err AssertionError
      end
  end.

(** mesher.py:451-478 flip_normals; [.T] unpacking fails unless the width is 2 or 4 (3 or 6) *)
Definition flip_row_line (w : nat) (r : row) : result row :=
  if w =? 4 then match r with [p0;p1;p2;p3] => Ok [p1;p0;p3;p2] | _ => Err ValueError end
  else match r with [p0;p1] => Ok [p1;p0] | _ => Err ValueError end.
Definition flip_row_triangle (w : nat) (r : row) : result row :=
  if w =? 6 then match r with [p0;p1;p2;p3;p4;p5] => Ok [p0;p2;p1;p5;p4;p3] | _ => Err ValueError end
  else match r with [p0;p1;p2] => Ok [p0;p2;p1] | _ => Err ValueError end.
Definition flip_normals (o : oracles) (m : mesh) : result mesh :=
  lines <- mapM (flip_row_line (aw (m_lines m))) (arows (m_lines m)) ;;
  tris <- mapM (flip_row_triangle (aw (m_triangles m))) (arows (m_triangles m)) ;;
  new_mesh o (m_points m) (mkarr (aw (m_lines m)) lines) (mkarr (aw (m_triangles m)) tris)
    (m_plines m) (m_ptriangles m) true.

(** mesher.py:480-494 remove_lines / remove_triangles *)
Definition remove_lines (o : oracles) (m : mesh) : result mesh :=
  new_mesh o (m_points m) no_lines (m_triangles m) [] (m_ptriangles m) true.
Definition remove_triangles (o : oracles) (m : mesh) : result mesh :=
  new_mesh o (m_points m) (m_lines m) no_triangles (m_plines m) [] true.

(** mesher.py:431-449 is_3d / is_2d: compare the y coordinates with 0. *)
Definition is_3d (m : mesh) : bool := existsb (fun p => negb (f64_eqb (py p) 0%Z)) (m_points m).
Definition is_2d (m : mesh) : bool := forallb (fun p => f64_eqb (py p) 0%Z) (m_points m).

(** A meshio.Mesh as far as it is used: points, cells by type, cell sets by name and type
    (mesher.py:379-428). The cell blocks are those [to_meshio] writes. *)
Record meshio := {
  mio_points : list point;
  mio_cells : list (string * list row);               (* cells_dict *)
  mio_sets : list (string * list (string * list nat)) (* cell_sets_dict *)
}.

(** mesher.py:379-395 to_meshio *)
Definition to_meshio (m : mesh) : meshio :=
  {| mio_points := m_points m;
     mio_cells :=
       (match arows (m_lines m) with [] => []
        | rs => [((if aw (m_lines m) =? 2 then "line"%string else "line4"%string), rs)] end) ++
       (match arows (m_triangles m) with [] => []
        | rs => [((if aw (m_triangles m) =? 3 then "triangle"%string else "triangle6"%string), rs)] end);
     mio_sets := [] |}.

(** mesher.py:409-412 *)
Definition mio_extract (x : meshio) (w : nat) (ty : string) : option (arr2 * dict) :=
  match dget (mio_cells x) ty with
  | None => None
  | Some rs =>
      Some (mkarr w rs,
            flat_map (fun kv => match dget (snd kv) ty with
                                | Some v => [(fst kv, v)] | None => [] end) (mio_sets x))
  end.

(** mesher.py:398-428 from_meshio *)
Definition from_meshio (o : oracles) (x : meshio) : result mesh :=
  let '(lines, pl) :=
    match mio_extract x 2 "line"%string with
    | Some r => r
    | None => match mio_extract x 4 "line4"%string with Some r => r | None => (no_lines, []) end
    end in
  let '(tris, pt) :=
    match mio_extract x 3 "triangle"%string with
    | Some r => r
    | None => match mio_extract x 6 "triangle6"%string with Some r => r | None => (no_triangles, []) end
    end in
  new_mesh o (mio_points x) lines tris pl pt true.

(** mesher.py:341-362 read_file, after meshio.read: optional name for all elements *)
Definition read_meshio (o : oracles) (x : meshio) (name : option string) : result mesh :=
  m <- from_meshio o x ;;
  match name with
  | None => Ok m
  | Some n =>
      Ok {| m_points := m_points m; m_lines := m_lines m; m_triangles := m_triangles m;
            m_plines := dset (m_plines m) n (arange (length (arows (m_lines m))));
            m_ptriangles := dset (m_ptriangles m) n (arange (length (arows (m_triangles m)))) |}
  end.
