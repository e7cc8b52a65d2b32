(** The parametric surface mesher (traceon/mesher.py:820-1080, geometry.py:837-845, 1286-1315).

    The subdivision and all the bookkeeping are written for an arbitrary type [P] of points,
    with two parameters: [eval d i j], the point of the section at grid position (i,j) of the
    grid with 2^d intervals, and [decide p1 p2 p3 p4], the decision of lines 985-995.  At the
    end of the file they are instantiated with the real surface and the real decision; proofs
    may also instantiate them with exact rationals, to compute examples.

    Simplifications: the indices of a level are a function to [option nat] ([None] is the -1
    of the code) guarded by explicit bound checks; [while] loops have fuel; the stack
    [to_subdivide] has its top at the head of the list; real arithmetic. *)
From Coq Require Import Reals.
From Verif Require Import Base Float64 OrientModel MeshModel Vec GeomModel QuadModel PathModel SurfaceModel.
Local Open Scope nat_scope.

(** The tuple (depth, i0, i1, j0, j1) of mesher.py:982, 1022 *)
Record quad := mkquad { qd : nat; qi0 : nat; qi1 : nat; qj0 : nat; qj1 : nat }.

(** one two dimensional array of indices *)
Definition index_map := nat -> nat -> option nat.
Definition empty_map : index_map := fun _ _ => None.
(** [m\[2*x, 2*y\]] as a function of the fine position *)
Definition coarse (m : index_map) : index_map :=
  fun i j => if Nat.even i && Nat.even j then m (Nat.div2 i) (Nat.div2 j) else None.
Definition set_map (m : index_map) (i j k : nat) : index_map :=
  fun i' j' => if (i' =? i) && (j' =? j) then Some k else m i' j'.
(** [e1\[mask\] = e2\[mask\]] with [mask = e2 != -1] *)
Definition over (a b : option nat) : option nat := match a with Some k => Some k | None => b end.

(** mesher.py:904-905 get_number_of_indices *)
Definition number_of_indices (depth : nat) : nat := 2 ^ depth + 1.

(** reading an array of the given number of levels, with numpy's bound check *)
Definition read_map (depth : nat) (m : index_map) (i j : nat) : result (option nat) :=
  if (i <? number_of_indices depth) && (j <? number_of_indices depth) then Ok (m i j) else Err IndexError.

(** the fields [points] and [indices] of mesher.py:883-891 PointStack *)
Record pstack (P : Type) := mkps { ps_points : list P; ps_maps : list index_map }.
Arguments mkps {P}.
Arguments ps_points {P}.
Arguments ps_maps {P}.

(** mesher.py:910-919 add_level *)
Definition next_map (maps : list index_map) : index_map :=
  match maps with
  | [] => empty_map
  | _ => coarse (last maps empty_map)
  end.
Definition add_level (maps : list index_map) : list index_map := maps ++ [next_map maps].
(** mesher.py:925-926 and 943-944: [while depth >= len(self.indices): self.add_level()] *)
Fixpoint add_levels (n : nat) (maps : list index_map) : list index_map :=
  match n with O => maps | S n' => add_levels n' (add_level maps) end.
Definition ensure_levels (len : nat) (maps : list index_map) : list index_map :=
  add_levels (len - length maps) maps.

Section Mesher.
  Context {P : Type}.

  (** mesher.py:921-934 to_point_index *)
  Definition to_point_index (eval : nat -> nat -> nat -> result P) (st : pstack P) (d i j : nat)
      : result (pstack P * nat) :=
    _ <- py_assert (i <=? number_of_indices d) ;;
    _ <- py_assert (j <=? number_of_indices d) ;;
    let maps := ensure_levels (S d) (ps_maps st) in
    m <- np_get maps d ;;
    o <- read_map d m i j ;;
    match o with
    | Some k => Ok (mkps (ps_points st) maps, k)
    | None =>
        p <- eval d i j ;;
        let k := length (ps_points st) in
        Ok (mkps (ps_points st ++ [p]) (upd maps d (set_map m i j k)), k)
    end.

  (** mesher.py:936-938 __getitem__ *)
  Definition ps_get eval (st : pstack P) (d i j : nat) : result (pstack P * P) :=
    '(st', k) <- to_point_index eval st d i j ;;
    p <- np_get (ps_points st') k ;;
    Ok (st', p).

  (** mesher.py:997-1007: what is pushed for a decision (h, v), top of the stack first;
      [None] when the quad is finished *)
  Definition split (q : quad) (h v : bool) : option (list quad) :=
    let d := S (qd q) in
    let i0 := qi0 q in let i1 := qi1 q in let j0 := qj0 q in let j1 := qj1 q in
    match h, v with
    | true, true => Some
        [ mkquad d (2*i0+1) (2*i0+2) (2*j0+1) (2*j0+2);
          mkquad d (2*i0+1) (2*i0+2) (2*j0) (2*j0+1);
          mkquad d (2*i0) (2*i0+1) (2*j0+1) (2*j0+2);
          mkquad d (2*i0) (2*i0+1) (2*j0) (2*j0+1) ]
    | true, false => Some
        [ mkquad d (2*i0) (2*i1) (2*j0+1) (2*j0+2);
          mkquad d (2*i0) (2*i1) (2*j0) (2*j0+1) ]
    | false, true => Some
        [ mkquad d (2*i0+1) (2*i0+2) (2*j0) (2*j1);
          mkquad d (2*i0) (2*i0+1) (2*j0) (2*j1) ]
    | false, false => None
    end.

  (** mesher.py:972-1009 _subdivide_quads *)
  Fixpoint subdivide (fuel : nat) eval (decide : P -> P -> P -> P -> result (bool * bool))
      (st : pstack P) (todo quads : list quad) : result (pstack P * list quad) :=
    match todo with
    | [] => Ok (st, quads)
    | q :: rest =>
        match fuel with
        | O => Err OutOfFuel
        | S fuel' =>
            '(st1, p1) <- ps_get eval st (qd q) (qi0 q) (qj0 q) ;;
            '(st2, p2) <- ps_get eval st1 (qd q) (qi0 q) (qj1 q) ;;
            '(st3, p3) <- ps_get eval st2 (qd q) (qi1 q) (qj0 q) ;;
            '(st4, p4) <- ps_get eval st3 (qd q) (qi1 q) (qj1 q) ;;
            '(h, v) <- decide p1 p2 p3 p4 ;;
            match split q h v with
            | Some children => subdivide fuel' eval decide st4 (children ++ rest) quads
            | None => subdivide fuel' eval decide st4 rest (quads ++ [q])
            end
        end
    end.

  (** mesher.py:1020-1022: the starting quads, in the order of the two loops *)
  Definition start_quads (start_depth : nat) : list quad :=
    let n := number_of_indices start_depth - 1 in
    flat_map (fun i => map (fun j => mkquad start_depth i (i+1) j (j+1)) (seq 0 n)) (seq 0 n).
  Fixpoint subdivide_all fuel eval decide (st : pstack P) (starts quads : list quad) : result (pstack P * list quad) :=
    match starts with
    | [] => Ok (st, quads)
    | q :: rest =>
        '(st', quads') <- subdivide fuel eval decide st [q] quads ;;
        subdivide_all fuel eval decide st' rest quads'
    end.

  (** mesher.py:1011-1028 _mesh_subsections_to_quads: the list of points is shared by the
      sections; returned are the points, and for each section its index maps and quads. *)
  Fixpoint mesh_sections fuel decide start_depth (points : list P) (evals : list (nat -> nat -> nat -> result P))
      : result (list P * list (list index_map * list quad)) :=
    match evals with
    | [] => Ok (points, [])
    | eval :: rest =>
        '(st, quads) <- subdivide_all fuel eval decide (mkps points []) (start_quads start_depth) [] ;;
        '(points', out) <- mesh_sections fuel decide start_depth (ps_points st) rest ;;
        Ok (points', (ps_maps st, quads) :: out)
    end.

  (** mesher.py:949-952: levels start_depth .. len-2 are copied into the next one *)
  Definition copy_down (maps : list index_map) (d : nat) : result (list index_map) :=
    previous <- np_get maps d ;;
    next <- np_get maps (S d) ;;
    Ok (upd maps (S d) (fun i j => over (coarse previous i j) (next i j))).
  Fixpoint copy_all (maps : list index_map) (ds : list nat) : result (list index_map) :=
    match ds with
    | [] => Ok maps
    | d :: rest => maps' <- copy_down maps d ;; copy_all maps' rest
    end.
  (** mesher.py:957-966 *)
  Definition scale_quad (depth : nat) (q : quad) : quad :=
    let f := 2 ^ (depth - qd q) in
    mkquad (Nat.max depth (qd q)) (f * qi0 q) (f * qi1 q) (f * qj0 q) (f * qj1 q).
  (** mesher.py:940-969 normalize_to_depth and the assertions of PointsWithQuads (820-832) *)
  Definition normalize (depth start_depth : nat) (maps : list index_map) (quads : list quad)
      : result (index_map * list quad) :=
    let maps1 := ensure_levels (S depth) maps in
    _ <- py_assert (length maps1 =? S depth) ;;
    maps2 <- copy_all maps1 (seq start_depth (length maps1 - 1 - start_depth)) ;;
    let quads' := map (scale_quad depth) quads in
    _ <- py_assert (forallb (fun q => qi0 q <? number_of_indices depth) quads') ;;
    q0 <- np_get quads' 0 ;;
    _ <- py_assert (forallb (fun q => qd q =? qd q0) quads') ;;
    Ok (last maps2 empty_map, quads').

  (** mesher.py:1030-1036 _copy_over_edge(a[-1,:], b[0,:]) and _copy_over_edge(a[:,-1], b[:,0]);
      [n] is the last index *)
  Definition glue_u (n : nat) (a b : index_map) : index_map * index_map :=
    let e j := over (b 0 j) (a n j) in
    ((fun i j => if i =? n then e j else a i j), (fun i j => if i =? 0 then over (e j) (b i j) else b i j)).
  Definition glue_v (n : nat) (a b : index_map) : index_map * index_map :=
    let e i := over (b i 0) (a i n) in
    ((fun i j => if j =? n then e i else a i j), (fun i j => if j =? 0 then over (e i) (b i j) else b i j)).
  Definition glue (f : index_map -> index_map -> index_map * index_map) (ms : list index_map) (x y : nat)
      : result (list index_map) :=
    a <- np_get ms x ;; b <- np_get ms y ;;
    let '(a', b') := f a b in Ok (upd (upd ms x a') y b').
  Fixpoint glue_all f (ms : list index_map) (pairs : list (nat * nat)) : result (list index_map) :=
    match pairs with
    | [] => Ok ms
    | (x, y) :: rest => ms' <- glue f ms x y ;; glue_all f ms' rest
    end.
  (** mesher.py:1049-1055: which sections are glued, with the index arithmetic of the code *)
  Definition pairs_u (Nx Ny : nat) : list (nat * nat) :=
    flat_map (fun i => map (fun j => (j * Nx + i, j * Nx + i + 1)) (seq 0 Ny)) (seq 0 (Nx - 1)).
  Definition pairs_v (Nx Ny : nat) : list (nat * nat) :=
    flat_map (fun i => map (fun j => (j * Nx + i, (j + 1) * Nx + i)) (seq 0 (Ny - 1))) (seq 0 Nx).
  Definition stitch (n Nx Ny : nat) (ms : list index_map) : result (list index_map) :=
    ms1 <- glue_all (glue_u n) ms (pairs_u Nx Ny) ;;
    glue_all (glue_v n) ms1 (pairs_v Nx Ny).

  (** mesher.py:834-874 to_triangles: the grid positions of the corners of the triangles of a quad *)
  Definition pos : Type := nat * nat.
  Definition tri_pos : Type := pos * pos * pos.
  Definition absdiff (a b : nat) : nat := (a - b) + (b - a).
  Definition present (depth : nat) (m : index_map) (p : pos) : result bool :=
    o <- read_map depth m (fst p) (snd p) ;; Ok (match o with Some _ => true | None => false end).
  Fixpoint split_edges (n depth : nat) (m : index_map) (p0 p1 p2 p3 : pos) : result (list tri_pos) :=
    match n with
    | O => Ok [ (p0, p1, p2); (p0, p2, p3) ]
    | S n' =>
        let e := ((fst p0 + fst p1) / 2, (snd p0 + snd p1) / 2) in
        let long := (1 <? absdiff (fst p0) (fst p1)) || (1 <? absdiff (snd p0) (snd p1)) in
        b <- (if long then present depth m e else Ok false) ;;
        if b then Ok [ (p0, e, p3); (e, p2, p3); (e, p1, p2) ]
        else split_edges n' depth m p1 p2 p3 p0
    end.
  Definition quad_triangles (depth : nat) (m : index_map) (q : quad) : result (list tri_pos) :=
    split_edges 4 depth m (qi0 q, qj0 q) (qi0 q, qj1 q) (qi1 q, qj1 q) (qi1 q, qj0 q).
  (** mesher.py:837-838, 872: look up the indices; a missing one ends in the assertion *)
  Definition pos_index (depth : nat) (m : index_map) (p : pos) : result nat :=
    o <- read_map depth m (fst p) (snd p) ;;
    match o with Some k => Ok k | None => Err AssertionError end.
  Definition tri_index (depth : nat) (m : index_map) (t : tri_pos) : result (nat * nat * nat) :=
    a <- pos_index depth m (fst (fst t)) ;; b <- pos_index depth m (snd (fst t)) ;;
    c <- pos_index depth m (snd t) ;; Ok (a, b, c).
  Definition to_triangles (depth : nat) (m : index_map) (quads : list quad) : result (list (nat * nat * nat)) :=
    tss <- mapM (quad_triangles depth m) quads ;; mapM (tri_index depth m) (concat tss).

  (** mesher.py:1038-1065 _mesh, up to the call of the Mesh constructor: points and triangles.
      The second part of the result is only for stating theorems: the depth, the stitched
      index maps and the normalised quads of the sections. *)
  Definition list_max1 (l : list nat) : nat := fold_right Nat.max 0 l.
  Definition mesher fuel decide (start_depth Nx Ny : nat) (evals : list (nat -> nat -> nat -> result P))
      : result ((list P * list (nat * nat * nat)) * (nat * list index_map * list (list quad))) :=
    '(points, stacks) <- mesh_sections fuel decide start_depth [] evals ;;
    let depth := list_max1 (map (fun s => length (fst s)) stacks) - 1 in
    pqs <- mapM (fun s => normalize depth start_depth (fst s) (snd s)) stacks ;;
    _ <- py_assert (length pqs =? Nx * Ny) ;;
    ms <- stitch (2 ^ depth) Nx Ny (map fst pqs) ;;
    tss <- mapM (fun mq => to_triangles depth (fst mq) (snd mq)) (combine ms (map snd pqs)) ;;
    let triangles := concat tss in
    _ <- py_assert (forallb (fun t => (fst (fst t) <? length points) && (snd (fst t) <? length points)
                                        && (snd t <? length points)) triangles) ;;
    Ok ((points, triangles), (depth, ms, map snd pqs)).
End Mesher.

Local Open Scope R_scope.

(** geometry.py:837-845 Surface._sections *)
Definition section (s : surface) (u0 u1 v0 v1 : R) : surface :=
  mksurf (fun u v => sfun s (u0 + u) (v0 + v)) (u1 - u0) (v1 - v0) [] [] None.
Definition cuts (bps : list R) (len : R) : list R := 0 :: bps ++ [len].
Definition intervals (l : list R) : list (R * R) := combine (removelast l) (tl l).
Definition sections (s : surface) : list surface :=
  flat_map (fun uu => map (fun vv => section s (fst uu) (snd uu) (fst vv) (snd vv))
                          (intervals (cuts (sbps2 s) (slen2 s))))
           (intervals (cuts (sbps1 s) (slen1 s))).

(** mesher.py:893-902 index_to_u, index_to_v, index_to_point *)
Definition index_to_u (s : surface) (d i : nat) : R := slen1 s / (INR (number_of_indices d) - 1) * INR i.
Definition index_to_v (s : surface) (d j : nat) : R := slen2 s / (INR (number_of_indices d) - 1) * INR j.
Definition index_to_point (s : surface) (d i j : nat) : result vec3 :=
  sfun s (index_to_u s d i) (index_to_v s d j).

(** mesher.py:984-995: the decision; [msize] is the callable or constant mesh size (975-978) *)
Definition horizontal (p1 p2 p3 p4 : vec3) : R := Rmax (dist3 p1 p2) (dist3 p3 p4).
Definition vertical (p1 p2 p3 p4 : vec3) : R := Rmax (dist3 p1 p3) (dist3 p2 p4).
Definition centre4 (p1 p2 p3 p4 : vec3) : vec3 :=
  vscale (/4) (vadd (vadd (vadd p1 p2) p3) p4).
Definition too_long (ms a b : R) : bool := Rltb ms a || (Rltb (5/2 * b) a && Rltb (1/8 * ms) a).
Definition decide_split (msize : vec3 -> result R) (p1 p2 p3 p4 : vec3) : result (bool * bool) :=
  ms <- msize (centre4 p1 p2 p3 p4) ;;
  let hor := horizontal p1 p2 p3 p4 in let ver := vertical p1 p2 p3 p4 in
  Ok (too_long ms hor ver, too_long ms ver hor).

(** mesher.py:1038-1065 _mesh for a surface *)
Definition mesh_surface (fuel : nat) (s : surface) (msize : vec3 -> result R) (start_depth : nat) :=
  mesher fuel (decide_split msize) start_depth (length (sbps1 s) + 1) (length (sbps2 s) + 1)
    (map index_to_point (sections s)).

(** geometry.py:1286-1315 Surface.mesh: mesh size from the arguments; start_depth is its default 2 *)
Definition surface_mesh_size (s : surface) (mesh_size mesh_size_factor : option R) : R :=
  match mesh_size with
  | Some m => m
  | None =>
      let m := Rmin (slen1 s) (slen2 s) / 4 in
      match mesh_size_factor with Some f => m / sqrt f | None => m end
  end.
Definition surface_mesh (fuel : nat) (s : surface) (mesh_size mesh_size_factor : option R) :=
  mesh_surface fuel s (fun _ => Ok (surface_mesh_size s mesh_size mesh_size_factor)) 2.
