(** Paths, path discretisation and path meshing (traceon/geometry.py:34-781) over the reals.
    A path maps a number to a three dimensional point; evaluating it may raise, so it is a
    function into [result vec3].  A division by zero, which numpy turns into NaN coordinates
    (and Python into ZeroDivisionError), is modelled as [Err ValueError]: comparisons with NaN
    are all false, so every later [_points_close] assertion fails as well.
    Floating point rounding is not modelled. *)
From Coq Require Import Reals.
From Verif Require Import Base Float64 OrientModel MeshModel Vec GeomModel QuadModel.
Local Open Scope R_scope.

(** [math.ceil] and [math.floor] *)
Definition Rfloor (x : R) : Z := Int_part x.
Definition Rceil (x : R) : Z := (- Int_part (- x))%Z.
(** Python's [x % y] on floats: the result has the sign of [y] *)
Definition Rmod (x y : R) : R := x - y * IZR (Rfloor (x / y)).
(** Python's [sorted] on floats (any stable sort gives the same list) *)
Fixpoint Rinsert (x : R) (l : list R) : list R :=
  match l with [] => [x] | y :: t => if Rleb x y then x :: l else y :: Rinsert x t end.
Definition Rsorted_list (l : list R) : list R := fold_right Rinsert [] l.
(** Division whose divisor is not a literal *)
Definition Rdiv_py (x y : R) : result R := if Req0 y then Err ValueError else Ok (x / y).

(** geometry.py:34-35 _points_close: [np.allclose(p1, p2, atol=1e-8)] with numpy's default
    rtol=1e-5: |p1 - p2| <= atol + rtol*|p2| in every coordinate *)
Definition close1 (a b : R) : bool := Rleb (Rabs (a - b)) (1 / 10^8 + 1 / 10^5 * Rabs b).
Definition points_close (p q : vec3) : bool :=
  close1 (vx p) (vx q) && close1 (vy p) (vy q) && close1 (vz p) (vz q).

(** [np.linspace(u0, u1, n, endpoint=False)] *)
Definition linspace_open (u0 u1 : R) (n : nat) : list R :=
  map (fun i => u0 + INR i * ((u1 - u0) / INR n)) (arange n).

(** geometry.py:54-57 the number of intervals of one section.  [mesh_size_factor] is an integer
    here ([np.linspace] rejects any other number of samples). *)
Definition section_count (mesh_size : option R) (mesh_size_factor : option Z) (u0 u1 : R) : result nat :=
  match mesh_size, mesh_size_factor with
  | Some ms, _ => q <- Rdiv_py (u1 - u0) ms ;; Ok (Z.to_nat (Z.max (Rceil q) 3))
  | None, Some f => Ok (Z.to_nat (3 * Z.max f 1))
  | None, None => Err AssertionError
  end.

(** geometry.py:50-66 the loop over [zip(points, points\[1:\])] *)
Fixpoint discretize_sections (ms : option R) (msf : option Z) (nf : nat) (points : list R)
    : result (list R) :=
  match points with
  | u0 :: ((u1 :: _) as rest) =>
      if Req_EM_T u0 u1 then discretize_sections ms msf nf rest
      else n <- section_count ms msf u0 u1 ;;
           l <- discretize_sections ms msf nf rest ;;
           Ok (linspace_open u0 u1 (nf * n) ++ l)%list
  | _ => Ok []
  end.

(** geometry.py:37-68 discretize_path *)
Definition discretize_path (path_length : R) (breakpoints : list R) (mesh_size : option R)
    (mesh_size_factor : option Z) (n_factor : nat) : result (list R) :=
  _ <- py_assert (match mesh_size, mesh_size_factor with None, None => false | _, _ => true end) ;;
  l <- discretize_sections mesh_size mesh_size_factor n_factor
         (0 :: breakpoints ++ [path_length])%list ;;
  Ok (l ++ [path_length])%list.

(** geometry.py:71-81 Path.__init__ *)
Record path := mkpath {
  pfun : R -> result vec3; plen : R; pbps : list R; pname : option string }.

(** geometry.py:148-161 Path.map_points; the mapped function may raise as well *)
Definition path_map (f : vec3 -> result vec3) (p : path) : path :=
  mkpath (fun u => v <- pfun p u ;; f v) (plen p) (pbps p) (pname p).
(** mesher.py:44-64 move *)
Definition path_move (d : vec3) (p : path) : path := path_map (fun v => Ok (move d v)) p.

(** geometry.py:236-264 starting_point, middle_point, endpoint *)
Definition starting_point (p : path) : result vec3 := pfun p 0.
Definition middle_point (p : path) : result vec3 := pfun p (plen p / 2).
Definition endpoint (p : path) : result vec3 := pfun p (plen p).

(** geometry.py:178-184 is_closed *)
Definition is_closed (p : path) : result bool :=
  a <- starting_point p ;; b <- endpoint p ;; Ok (points_close a b).

(** geometry.py:186-204 add_phase *)
Definition add_phase (l : R) (p : path) : result path :=
  c <- is_closed p ;; _ <- py_assert c ;;
  Ok (mkpath (fun u => pfun p (Rmod (l + u) (plen p))) (plen p)
             (Rsorted_list (map (fun b => Rmod (b - l) (plen p)) (pbps p ++ [0])%list)) (pname p)).

(** geometry.py:206-234 __rshift__ *)
Definition rshift (p q : path) : result path :=
  e <- endpoint p ;; s <- starting_point q ;;
  _ <- py_assert (points_close e s) ;;
  let total := plen p + plen q in
  Ok (mkpath (fun t => _ <- py_assert (Rleb 0 t && Rleb t total) ;;
                       if Rleb t (plen p) then pfun p t else pfun q (t - plen p))
             total (pbps p ++ [plen p] ++ pbps q)%list (pname p)).

(** geometry.py:549-564 line *)
Definition line (a b : vec3) : path :=
  let length := norm (vsub a b) in
  mkpath (fun pl => k <- Rdiv_py pl length ;; Ok (vadd (vscale (1 - k) a) (vscale k b)))
         length [] None.

(** geometry.py:266-281 line_to *)
Definition line_to (point : vec3) (p : path) : result path :=
  e <- endpoint p ;; rshift p (line e point).

(** geometry.py:518-524 close *)
Definition close (p : path) : result path := s <- starting_point p ;; line_to s p.

(** geometry.py:284-350 circle_xz, circle_yz, circle_xy *)
Definition circle_xz (x0 z0 radius angle : R) : path :=
  path_move (V3 x0 0 z0)
    (mkpath (fun u => theta <- Rdiv_py u radius ;; Ok (V3 (radius * cos theta) 0 (radius * sin theta)))
            (angle * radius) [] None).
Definition circle_yz (y0 z0 radius angle : R) : path :=
  path_move (V3 0 y0 z0)
    (mkpath (fun u => theta <- Rdiv_py u radius ;; Ok (V3 0 (radius * cos theta) (radius * sin theta)))
            (angle * radius) [] None).
Definition circle_xy (x0 y0 radius angle : R) : path :=
  path_move (V3 x0 y0 0)
    (mkpath (fun u => theta <- Rdiv_py u radius ;; Ok (V3 (radius * cos theta) (radius * sin theta) 0))
            (angle * radius) [] None).

(** [math.atan2] *)
Definition atan2 (y x : R) : R :=
  if Rlt_dec 0 x then atan (y / x)
  else if Rlt_dec x 0 then (if Rle_dec 0 y then atan (y / x) + PI else atan (y / x) - PI)
  else if Rlt_dec 0 y then PI / 2
  else if Rlt_dec y 0 then - (PI / 2) else 0.

Definition vscale_div (v : vec3) (k : R) : vec3 := V3 (vx v / k) (vy v / k) (vz v / k).

(** geometry.py:370-407 arc.  A zero [x_unit] (start = center), a zero [y_unit] (end on the line
    through center and start) or a zero path length make NaN. *)
Definition arc (center start end_ : vec3) (reverse : bool) : result path :=
  let x0 := vsub start center in
  _ <- Rdiv_py 1 (norm x0) ;;
  let x_unit := vscale_div x0 (norm x0) in
  let vector := vsub end_ center in
  let y0 := vsub vector (vscale (dot vector x_unit) x_unit) in
  _ <- Rdiv_py 1 (norm y0) ;;
  let y_unit := vscale_div y0 (norm y0) in
  let radius := norm (vsub start center) in
  let theta0 := atan2 (dot vector y_unit) (dot vector x_unit) in
  let theta_max := if reverse then theta0 - 2 * PI else theta0 in
  let path_length := Rabs (theta_max * radius) in
  Ok (mkpath (fun l => k <- Rdiv_py l path_length ;;
                let theta := k * theta_max in
                Ok (vadd (vadd center (vscale (radius * cos theta) x_unit))
                         (vscale (radius * sin theta) y_unit)))
             path_length [] None).

(** geometry.py:352-367 arc_to *)
Definition arc_to (center end_ : vec3) (reverse : bool) (p : path) : result path :=
  s <- endpoint p ;; a <- arc center s end_ reverse ;; rshift p a.

(** geometry.py:566-580 cut *)
Definition cut (length : R) (p : path) : path * path :=
  (mkpath (pfun p) length (filter (fun b => Rleb b length) (pbps p)) (pname p),
   mkpath (fun l => pfun p (l + length)) (plen p - length)
          (map (fun b => b - length) (filter (fun b => Rleb length b) (pbps p))) (pname p)).

(** geometry.py:583-647 rectangle_xz, rectangle_yz, rectangle_xy *)
Definition rectangle_xz (xmin xmax zmin zmax : R) : result path :=
  p1 <- line_to (V3 xmax 0 zmax) (line (V3 xmin 0 zmin) (V3 xmax 0 zmin)) ;;
  p2 <- line_to (V3 xmin 0 zmax) p1 ;; close p2.
Definition rectangle_yz (ymin ymax zmin zmax : R) : result path :=
  p1 <- line_to (V3 0 ymax zmax) (line (V3 0 ymin zmin) (V3 0 ymin zmax)) ;;
  p2 <- line_to (V3 0 ymax zmin) p1 ;; close p2.
Definition rectangle_xy (xmin xmax ymin ymax : R) : result path :=
  p1 <- line_to (V3 xmax ymax 0) (line (V3 xmin ymin 0) (V3 xmin ymax 0)) ;;
  p2 <- line_to (V3 xmax ymin 0) p1 ;; close p2.

(** geometry.py:650-671 aperture *)
Definition aperture (height radius extent z : R) : result path :=
  p1 <- line_to (V3 radius 0 (height / 2))
          (line (V3 extent 0 (- height / 2)) (V3 radius 0 (- height / 2))) ;;
  p2 <- line_to (V3 extent 0 (height / 2)) p1 ;;
  Ok (path_move (V3 0 0 z) p2).

(** numpy slice [np.arange(N)\[start:stop:step\]] for 0 <= start, 0 <= stop <= N *)
Definition aslice (start stop step : nat) : list nat :=
  map (fun k => start + k * step)%nat (arange ((stop - start + (step - 1)) / step)%nat).

(** geometry.py:723-733 the line elements for N samples *)
Definition path_lines (higher_order : bool) (N : nat) : result arr2 :=
  if higher_order then
    _ <- py_assert (N mod 3 =? 1)%nat ;;
    let p0 := aslice 0 (N - 1) 3 in let p1 := aslice 3 N 3 in
    let p2 := aslice 1 N 3 in let p3 := aslice 2 N 3 in
    (* [np.array] of four rows of the same length *)
    _ <- py_assert ((length p0 =? length p1) && (length p0 =? length p2) && (length p0 =? length p3))%nat ;;
    Ok (mkarr 4 (map2 (fun ab cd => [fst ab; snd ab; fst cd; snd cd]) (combine p0 p1) (combine p2 p3)))
  else Ok (mkarr 2 (map2 (fun i j => [i; j]) (arange (N - 1)) (map S (arange (N - 1))))).

(** geometry.py:691-743 Path.mesh.  [enc] is the float64 value of a computed point. *)
Definition path_mesh (o : oracles) (enc : vec3 -> point) (p : path) (mesh_size : option R)
    (mesh_size_factor : option Z) (higher_order : bool) (name : option string) (ensure : bool)
    : result mesh :=
  u <- discretize_path (plen p) (pbps p) mesh_size mesh_size_factor (if higher_order then 3 else 1) ;;
  points <- mapM (pfun p) u ;;
  lines <- path_lines higher_order (length u) ;;
  let name := match name with None => pname p | Some n => Some n end in
  let groups := match name with Some n => [(n, arange (length (arows lines)))] | None => [] end in
  new_mesh o (map enc points) lines no_triangles groups [] ensure.

(** geometry.py:768-781 PathCollection.map_points, PathCollection.mesh *)
Definition paths_map (f : vec3 -> result vec3) (ps : list path) : list path := map (path_map f) ps.
Fixpoint paths_mesh_from (o : oracles) (enc : vec3 -> point) (acc : mesh) (ps : list path)
    (ms : option R) (msf : option Z) (ho : bool) (name : option string) (ensure : bool) : result mesh :=
  match ps with
  | [] => Ok acc
  | p :: t =>
      m <- path_mesh o enc p ms msf ho name ensure ;;
      acc' <- mesh_add o acc m ;;
      paths_mesh_from o enc acc' t ms msf ho name ensure
  end.
Definition paths_mesh (o : oracles) (enc : vec3 -> point) (coll_name : option string) (ps : list path)
    (ms : option R) (msf : option Z) (ho : bool) (name : option string) (ensure : bool) : result mesh :=
  m0 <- new_mesh o [] no_lines no_triangles [] [] true ;;
  paths_mesh_from o enc m0 ps ms msf ho
    (match name with None => coll_name | Some n => Some n end) ensure.
