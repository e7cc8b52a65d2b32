(** Surfaces built from paths (traceon/geometry.py:409-516, 825-1275) over the reals.
    The average radius [r_avg] used by the revolve functions is the number returned by
    scipy's [quad] (geometry.py:133-146); it is a parameter here, so that theorems hold whatever
    [quad] returns. *)
From Coq Require Import Reals.
From Verif Require Import Base Float64 OrientModel MeshModel Vec GeomModel QuadModel PathModel.
Local Open Scope R_scope.

(** geometry.py:829-835 Surface.__init__ *)
Record surface := mksurf {
  sfun : R -> R -> result vec3; slen1 : R; slen2 : R; sbps1 : list R; sbps2 : list R;
  sname : option string }.

(** geometry.py:862-865 Surface.map_points *)
Definition surf_map (f : vec3 -> result vec3) (s : surface) : surface :=
  mksurf (fun u v => p <- sfun s u v ;; f p) (slen1 s) (slen2 s) (sbps1 s) (sbps2 s) (sname s).
Definition surf_move (d : vec3) (s : surface) : surface := surf_map (fun v => Ok (move d v)) s.
(** mesher.py:66-105 rotate on a surface (origin 0) *)
Definition surf_rotate (Rx Ry Rz : R) (s : surface) : result surface :=
  f <- rotate Rx Ry Rz vzero ;; Ok (surf_map f s).

(** geometry.py:409-430 revolve_x *)
Definition revolve_x (r_avg angle : R) (p : path) : surface :=
  let length2 := 2 * PI * r_avg in
  mksurf (fun u v =>
            q <- pfun p u ;;
            let theta := atan2 (vz q) (vy q) in
            let r := sqrt (vy q ^ 2 + vz q ^ 2) in
            k <- Rdiv_py v length2 ;;
            Ok (V3 (vx q) (r * cos (theta + k * angle)) (r * sin (theta + k * angle))))
         (plen p) length2 (pbps p) [] (pname p).
(** geometry.py:432-453 revolve_y *)
Definition revolve_y (r_avg angle : R) (p : path) : surface :=
  let length2 := 2 * PI * r_avg in
  mksurf (fun u v =>
            q <- pfun p u ;;
            let theta := atan2 (vz q) (vx q) in
            let r := sqrt (vx q * vx q + vz q * vz q) in
            k <- Rdiv_py v length2 ;;
            Ok (V3 (r * cos (theta + k * angle)) (vy q) (r * sin (theta + k * angle))))
         (plen p) length2 (pbps p) [] (pname p).
(** geometry.py:455-476 revolve_z *)
Definition revolve_z (r_avg angle : R) (p : path) : surface :=
  let length2 := 2 * PI * r_avg in
  mksurf (fun u v =>
            q <- pfun p u ;;
            let theta := atan2 (vy q) (vx q) in
            let r := sqrt (vx q * vx q + vy q * vy q) in
            k <- Rdiv_py v length2 ;;
            Ok (V3 (r * cos (theta + k * angle)) (r * sin (theta + k * angle)) (vz q)))
         (plen p) length2 (pbps p) [] (pname p).

(** geometry.py:478-496 extrude *)
Definition extrude (vector : vec3) (p : path) : surface :=
  let length := norm vector in
  mksurf (fun u v => q <- pfun p u ;; k <- Rdiv_py v length ;; Ok (vadd q (vscale k vector)))
         (plen p) length (pbps p) [] (pname p).

(** geometry.py:498-516 extrude_by_path *)
Definition extrude_by_path (p2 p : path) : result surface :=
  p0 <- starting_point p2 ;;
  Ok (mksurf (fun u v => a <- pfun p u ;; b <- pfun p2 v ;; Ok (vsub (vadd a b) p0))
             (plen p) (plen p2) (pbps p) (pbps p2) (pname p)).

(** geometry.py:868-897 spanned_by_paths *)
Definition spanned_by_paths (p1 p2 : path) : result surface :=
  let length1 := Rmax (plen p1) (plen p2) in
  s1 <- starting_point p1 ;; s2 <- starting_point p2 ;;
  e1 <- endpoint p1 ;; e2 <- endpoint p2 ;;
  let length2 := (norm (vsub s1 s2) + norm (vsub e1 e2)) / 2 in
  b1 <- mapM (fun b => Rdiv_py (length1 * b) (plen p1)) (pbps p1) ;;
  b2 <- mapM (fun b => Rdiv_py (length1 * b) (plen p2)) (pbps p2) ;;
  Ok (mksurf (fun u v =>
                k <- Rdiv_py u length1 ;;
                q1 <- pfun p1 (k * plen p1) ;;
                q2 <- pfun p2 (k * plen p2) ;;
                w <- Rdiv_py v length2 ;;
                Ok (vadd (vscale (1 - w) q1) (vscale w q2)))
             length1 length2 (Rsorted_list (b1 ++ b2)%list) [] None).

(** geometry.py:900-925 sphere *)
Definition sphere (radius : R) : surface :=
  mksurf (fun u v =>
            phi <- Rdiv_py u radius ;; theta <- Rdiv_py v radius ;;
            Ok (V3 (radius * sin theta * cos phi) (radius * sin theta * sin phi) (radius * cos theta)))
         (2 * PI * radius) (PI * radius) [] [] None.

(** geometry.py:928-962 box: the three surfaces of the collection [top + bottom + side_surface] *)
Definition box (p0 p1 : vec3) : result (list surface) :=
  let xmin := Rmin (vx p0) (vx p1) in let ymin := Rmin (vy p0) (vy p1) in let zmin := Rmin (vz p0) (vz p1) in
  let xmax := Rmax (vx p0) (vx p1) in let ymax := Rmax (vy p0) (vy p1) in let zmax := Rmax (vz p0) (vz p1) in
  let path1 := line (V3 xmin ymin zmax) (V3 xmax ymin zmax) in
  let path2 := line (V3 xmin ymin zmin) (V3 xmax ymin zmin) in
  let path3 := line (V3 xmin ymax zmax) (V3 xmax ymax zmax) in
  let path4 := line (V3 xmin ymax zmin) (V3 xmax ymax zmin) in
  s1 <- line_to (V3 xmax ymin zmax) (line (V3 xmin ymin zmin) (V3 xmax ymin zmin)) ;;
  s2 <- line_to (V3 xmin ymin zmax) s1 ;;
  side_path <- close s2 ;;
  let side_surface := extrude (V3 0 (ymax - ymin) 0) side_path in
  top <- spanned_by_paths path1 path2 ;;
  bottom <- spanned_by_paths path4 path3 ;;
  Ok [top; bottom; side_surface].

(** geometry.py:965-1007 from_boundary_paths *)
Definition from_boundary_paths (p1 p2 p3 p4 : path) : result surface :=
  let l13 := (plen p1 + plen p3) / 2 in
  let l24 := (plen p2 + plen p4) / 2 in
  let scaled l p := mapM (fun b => k <- Rdiv_py b (plen p) ;; Ok (k * l)) (pbps p) in
  a1 <- scaled l13 p1 ;; a3 <- scaled l13 p3 ;; a2 <- scaled l24 p2 ;; a4 <- scaled l24 p4 ;;
  Ok (mksurf (fun u0 v0 =>
                u <- Rdiv_py u0 l13 ;; v <- Rdiv_py v0 l24 ;;
                q1 <- pfun p1 (u * plen p1) ;;
                q4 <- pfun p4 ((1 - v) * plen p4) ;;
                q3 <- pfun p3 ((1 - u) * plen p3) ;;
                q2 <- pfun p2 (v * plen p2) ;;
                let a := 1 - v in let b := 1 - u in let c := v in let d := u in
                Ok (vscale (1/2) (vadd (vadd (vadd (vscale a q1) (vscale b q4)) (vscale c q3)) (vscale d q2))))
             l13 l24 (Rsorted_list (a1 ++ a3)%list) (Rsorted_list (a2 ++ a4)%list) None).

(** geometry.py:1010-1064 disk_xz, disk_yz, disk_xy *)
Definition disk_xz (r_avg x0 z0 radius : R) : result surface :=
  _ <- py_assert (Rltb 0 radius) ;;
  Ok (surf_move (V3 x0 0 z0) (revolve_y r_avg (2 * PI) (line vzero (V3 radius 0 0)))).
Definition disk_yz (r_avg y0 z0 radius : R) : result surface :=
  _ <- py_assert (Rltb 0 radius) ;;
  Ok (surf_move (V3 0 y0 z0) (revolve_x r_avg (2 * PI) (line vzero (V3 0 radius 0)))).
Definition disk_xy (r_avg x0 y0 radius : R) : result surface :=
  _ <- py_assert (Rltb 0 radius) ;;
  Ok (surf_move (V3 x0 y0 0) (revolve_z r_avg (2 * PI) (line vzero (V3 radius 0 0)))).

(** geometry.py:1067-1127 Surface.rectangle_xz, rectangle_yz, rectangle_xy *)
Definition surf_rectangle_xz (xmin xmax zmin zmax : R) : surface :=
  extrude (V3 (xmax - xmin) 0 0) (line (V3 xmin 0 zmin) (V3 xmin 0 zmax)).
Definition surf_rectangle_yz (ymin ymax zmin zmax : R) : surface :=
  extrude (V3 0 (ymax - ymin) 0) (line (V3 0 ymin zmin) (V3 0 ymin zmax)).
Definition surf_rectangle_xy (xmin xmax ymin ymax : R) : surface :=
  extrude (V3 (xmax - xmin) 0 0) (line (V3 xmin ymin 0) (V3 xmin ymax 0)).

(** geometry.py:1133-1154 get_boundary_paths *)
Definition boundary_edges (s : surface) : list path :=
  [ mkpath (fun u => sfun s u 0) (slen1 s) (sbps1 s) (sname s);
    mkpath (fun u => sfun s u (slen2 s)) (slen1 s) (sbps1 s) (sname s);
    mkpath (fun v => sfun s 0 v) (slen2 s) (sbps2 s) (sname s);
    mkpath (fun v => sfun s (slen1 s) v) (slen2 s) (sbps2 s) (sname s) ].
Definition get_boundary_paths (s : surface) : result (list path) :=
  let boundary := boundary_edges s in
  closed <- mapM is_closed boundary ;;
  Ok (if existsb (fun b => b) closed then mask boundary closed else boundary).

(** geometry.py:1156-1179 extrude_boundary: the surfaces of the returned collection *)
Definition extrude_boundary (vector : vec3) (enclose : bool) (s : surface) : result (list surface) :=
  boundary <- get_boundary_paths s ;;
  let ext := map (extrude vector) boundary in
  Ok (if enclose then s :: ext ++ [surf_move vector s] else s :: ext)%list.

(** [np.isclose(angle, 2*pi, atol=1e-8)] *)
Definition angle_is_full (angle : R) : bool := close1 angle (2 * PI).

(** geometry.py:1207-1274 revolve_boundary_x, revolve_boundary_y, revolve_boundary_z.  Each
    boundary path has its own average radius [r_avg path]. *)
Definition revolve_boundary (rev : R -> R -> path -> surface) (rot : R -> surface -> result surface)
    (r_avg : path -> R) (angle : R) (enclose : bool) (s : surface) : result (list surface) :=
  boundary <- get_boundary_paths s ;;
  let revd := map (fun p => rev (r_avg p) angle p) boundary in
  if enclose && negb (angle_is_full angle) then
    c <- rot angle s ;; Ok (s :: revd ++ [c])%list
  else Ok (s :: revd)%list.
Definition revolve_boundary_x := revolve_boundary revolve_x (fun a => surf_rotate a 0 0).
Definition revolve_boundary_y := revolve_boundary revolve_y (fun a => surf_rotate 0 a 0).
Definition revolve_boundary_z := revolve_boundary revolve_z (fun a => surf_rotate 0 0 a).

(** geometry.py:1181-1205 extrude_boundary_by_path: calls [boundary.extrude(path)], that is
    [Path.extrude(b, path)] for every boundary path (geometry.py:783-790, 816), whose
    [np.linalg.norm(np.array(path))] multiplies two Path objects: TypeError.  There is always at
    least one boundary path. *)
Definition extrude_by_non_vector (p : path) : result surface := Err TypeError.
Definition extrude_boundary_by_path (pth : path) (enclose : bool) (s : surface) : result (list surface) :=
  boundary <- get_boundary_paths s ;;
  ext <- mapM extrude_by_non_vector boundary ;;
  e <- endpoint pth ;; b <- starting_point pth ;;
  Ok (if enclose then s :: ext ++ [surf_move (vsub e b) s] else s :: ext)%list.
