(** Excitations (traceon/excitation.py) over the mesh model. Voltages, currents and material
    constants are reals. *)
From Coq Require Import Reals.
From Verif Require Import Base Float64 OrientModel MeshModel.

(** excitation.py:23-29 Symmetry *)
Inductive symmetry := RADIAL | THREE_D.
(** excitation.py:43-51 ExcitationType together with the value stored next to it *)
Inductive condition :=
  | VOLTAGE_FIXED (v : R)
  | VOLTAGE_FUN (f : R -> R -> R -> R)
  | DIELECTRIC (k : R)
  | CURRENT (i : R)
  | MAGNETOSTATIC_POT (v : R)
  | MAGNETIZABLE (k : R).

(** excitation.py:53-61; type_check of excitation.py:259-263 *)
Definition is_electrostatic_type (c : condition) : bool :=
  match c with VOLTAGE_FIXED _ | VOLTAGE_FUN _ | DIELECTRIC _ => true | _ => false end.
Definition in_magnetostatic_matrix (c : condition) : bool :=
  match c with MAGNETIZABLE _ | MAGNETOSTATIC_POT _ => true | _ => false end.

(** excitation.py:84-93 Excitation; [e_electrodes] is read once, at construction. *)
Record excitation := mkexc {
  e_mesh : mesh; e_electrodes : list string; e_types : list (string * condition); e_symmetry : symmetry }.

(** excitation.py:84-93 Excitation.__init__ *)
Definition new_excitation (m : mesh) (s : symmetry) : result excitation :=
  _ <- py_assert (match s with RADIAL => forallb (fun p => f64_eqb (py p) 0%Z) (m_points m) | THREE_D => true end) ;;
  Ok (mkexc m (get_electrodes m) [] s).

Definition set_types (e : excitation) (t : list (string * condition)) : excitation :=
  mkexc (e_mesh e) (e_electrodes e) t (e_symmetry e).
Definition assign (e : excitation) (name : string) (c : condition) : excitation :=
  set_types e (dset (e_types e) name c).
Definition set_mesh (e : excitation) (m : mesh) : excitation :=
  mkexc m (e_electrodes e) (e_types e) (e_symmetry e).

Definition is_electrode (e : excitation) (name : string) : bool := existsb (String.eqb name) (e_electrodes e).

(** A value given to add_voltage: a number, a function, or something else. *)
Inductive voltage := VNumber (v : R) | VFunction (f : R -> R -> R -> R) | VOther.

(** The loops [for name, value in kwargs.items()] mutate the excitation until an exception: the
    result is the state afterwards and the exception, if any. *)
Fixpoint each {A} (f : excitation -> string -> A -> excitation * result unit) (e : excitation) (kwargs : list (string * A)) : excitation * result unit :=
  match kwargs with
  | [] => (e, Ok tt)
  | (n, a) :: t => match f e n a with
                   | (e', Ok _) => each f e' t
                   | (e', Err x) => (e', Err x)
                   end
  end.
Definition add_if_electrode (c : R -> condition) (e : excitation) (name : string) (v : R) : excitation * result unit :=
  if is_electrode e name then (assign e name (c v), Ok tt) else (e, Err AssertionError).

(** excitation.py:100-122 add_voltage; NotImplementedError is a RuntimeError *)
Definition add_voltage := each (fun e name v =>
  if is_electrode e name then
    match v with
    | VNumber x => (assign e name (VOLTAGE_FIXED x), Ok tt)
    | VFunction f => (assign e name (VOLTAGE_FUN f), Ok tt)
    | VOther => (e, Err RuntimeError)
    end
  else (e, Err AssertionError)).
(** excitation.py:124-141 add_current *)
Definition add_current (e : excitation) (kwargs : list (string * R)) : excitation * result unit :=
  match e_symmetry e with
  | THREE_D => (e, Err AssertionError)
  | RADIAL => each (fun e name v => if dhas (m_ptriangles (e_mesh e)) name then (assign e name (CURRENT v), Ok tt)
                                    else (e, Err AssertionError)) e kwargs
  end.
(** excitation.py:155-200 *)
Definition add_magnetostatic_potential := each (add_if_electrode MAGNETOSTATIC_POT).
Definition add_magnetizable := each (add_if_electrode MAGNETIZABLE).
Definition add_dielectric := each (add_if_electrode DIELECTRIC).

(** [{a:0 for a in args}] *)
Definition zero_dict (names : list string) : list (string * R) := fold_left (fun d n => dset d n 0%R) names [].
(** excitation.py:202-241: the mesh of the caller is changed in place. *)
Fixpoint inward_all (o : oracles) (e : excitation) (names : list string) : excitation * result unit :=
  match names with
  | [] => (e, Ok tt)
  | n :: t => match ensure_normals o false (e_mesh e) n with
              | Ok m => inward_all o (set_mesh e m) t
              | Err x => (e, Err x)
              end
  end.
Definition add_boundary (o : oracles) (add : excitation -> list (string * R) -> excitation * result unit)
    (ensure_inward : bool) (e : excitation) (names : list string) : excitation * result unit :=
  match (if ensure_inward then inward_all o e names else (e, Ok tt)) with
  | (e', Ok _) => add e' (zero_dict names)
  | (e', Err x) => (e', Err x)
  end.
Definition add_electrostatic_boundary o := add_boundary o add_dielectric.
Definition add_magnetostatic_boundary o := add_boundary o add_magnetizable.

(** excitation.py:143-153 *)
Definition has_current (e : excitation) : bool :=
  existsb (fun nc => match snd nc with CURRENT _ => true | _ => false end) (e_types e).
Definition is_electrostatic (e : excitation) : bool :=
  existsb (fun nc => match snd nc with VOLTAGE_FIXED _ | VOLTAGE_FUN _ => true | _ => false end) (e_types e).
Definition is_magnetostatic (e : excitation) : bool :=
  existsb (fun nc => match snd nc with MAGNETOSTATIC_POT _ | CURRENT _ => true | _ => false end) (e_types e).

(** [v != 0.0] *)
Definition nonzero (x : R) : bool := if Req_EM_T x 0 then false else true.
(** excitation.py:243-275 _split_for_superposition *)
Definition source_value (c : condition) : option R :=
  match c with VOLTAGE_FIXED v => Some v | CURRENT v => Some v | _ => None end.
Definition nonzero_sources (types : list (string * condition)) : list string :=
  map fst (filter (fun nc => match source_value (snd nc) with Some v => nonzero v | None => false end) types).
Definition unit_condition (name n : string) (c : condition) : result condition :=
  match c with
  | VOLTAGE_FUN _ => Err AssertionError
  | VOLTAGE_FIXED _ => Ok (VOLTAGE_FIXED (if String.eqb n name then 1 else 0)%R)
  | CURRENT _ => Ok (CURRENT (if String.eqb n name then 1 else 0)%R)
  | c => Ok c
  end.
Definition unit_excitation (e : excitation) (name : string) : result excitation :=
  types <- mapM (fun nc => c <- unit_condition name (fst nc) (snd nc) ;; Ok (fst nc, c)) (e_types e) ;;
  e' <- new_excitation (e_mesh e) (e_symmetry e) ;;
  Ok (set_types e' types).
Definition split_for_superposition (e : excitation) : result (list (string * excitation)) :=
  mapM (fun n => u <- unit_excitation e n ;; Ok (n, u)) (nonzero_sources (e_types e)).

(** [arr\[idx\] = False] *)
Definition put_all {A} (l : list A) (idx : list nat) (x : A) : result (list A) := np_put l idx (map (fun _ => x) idx).
(** excitation.py:265-268 *)
Fixpoint mark_active (check : condition -> bool) (physicals : dict) (types : list (string * condition)) (inactive : list bool) : result (list bool) :=
  match types with
  | [] => Ok inactive
  | (name, c) :: t =>
      if check c then
        match dget physicals name with
        | None => Err KeyError
        | Some idx => inactive' <- put_all inactive idx false ;; mark_active check physicals t inactive'
        end
      else mark_active check physicals t inactive
  end.
(** excitation.py:249-276 _get_active_elements.  [map_index] of an inactive element (which could be -1)
    is never read; truncated subtraction there. *)
Definition active_elements (check : condition -> bool) (e : excitation) : result (list (list point) * dict) :=
  let m := e_mesh e in
  let '(elements, physicals) := match e_symmetry e with
                                | RADIAL => (m_lines m, m_plines m)
                                | THREE_D => (m_triangles m, m_ptriangles m)
                                end in
  inactive <- mark_active check physicals (e_types e) (repeat true (length (arows elements))) ;;
  let map_index := map2 Nat.sub (arange (length (arows elements))) (cumsum inactive) in
  names <- mapM_dict (np_take map_index)
             (filter (fun g => match dget (e_types e) (fst g) with Some c => check c | None => false end) physicals) ;;
  vertices <- mapM (np_take (m_points m)) (mask (arows elements) (map negb inactive)) ;;
  Ok (vertices, names).
Definition get_electrostatic_active_elements := active_elements is_electrostatic_type.
Definition get_magnetostatic_active_elements := active_elements in_magnetostatic_matrix.

(** The public methods that assign conditions, as calls with their arguments. *)
Inductive call :=
  | AddVoltage (kwargs : list (string * voltage))
  | AddCurrent (kwargs : list (string * R))
  | AddMagnetostaticPotential (kwargs : list (string * R))
  | AddMagnetizable (kwargs : list (string * R))
  | AddDielectric (kwargs : list (string * R))
  | AddElectrostaticBoundary (ensure_inward : bool) (names : list string)
  | AddMagnetostaticBoundary (ensure_inward : bool) (names : list string).
(** excitation.py:100-241, by method *)
Definition run_call (o : oracles) (e : excitation) (c : call) : excitation * result unit :=
  match c with
  | AddVoltage kw => add_voltage e kw
  | AddCurrent kw => add_current e kw
  | AddMagnetostaticPotential kw => add_magnetostatic_potential e kw
  | AddMagnetizable kw => add_magnetizable e kw
  | AddDielectric kw => add_dielectric e kw
  | AddElectrostaticBoundary b names => add_electrostatic_boundary o b e names
  | AddMagnetostaticBoundary b names => add_magnetostatic_boundary o b e names
  end.
(** A history of calls; the caller may go on after an exception. *)
Fixpoint run_calls (o : oracles) (e : excitation) (cs : list call) : excitation * list (result unit) :=
  match cs with
  | [] => (e, [])
  | c :: t => let '(e1, r) := run_call o e c in
              let '(e2, rs) := run_calls o e1 t in (e2, r :: rs)
  end.

(** mesher.py:507-526 _lines_to_higher_order: the points at 1/3 and 2/3 of each line, computed with
    floating point arithmetic ([third]), are appended after all points.  The [allclose] assertion
    compares the new points with themselves and is left out. *)
Definition lines_to_higher_order (third : point -> point -> point * point) (pts : list point) (rows : list row) : result (list point * list row) :=
  ends <- mapM (fun r => match r with [a; b] => p <- np_get pts a ;; q <- np_get pts b ;; Ok (third p q) | _ => Err ValueError end) rows ;;
  let n := length pts in let k := length rows in
  Ok (pts ++ map fst ends ++ map snd ends, map2 (fun (r : row) i => r ++ [n + i; n + k + i]) rows (arange k)).
(** mesher.py:529-544 _to_higher_order_mesh *)
Definition to_higher_order_mesh (o : oracles) (third : point -> point -> point * point) (m : mesh) : result mesh :=
  '(pts, lines) <- match arows (m_lines m) with
                   | [] => Ok (m_points m, mkarr 4 [])
                   | rows => if aw (m_lines m) =? 2 then
                               '(p, r) <- lines_to_higher_order third (m_points m) rows ;; Ok (p, mkarr 4 r)
                             else Ok (m_points m, m_lines m)
                   end ;;
  _ <- py_assert (aw lines =? 4) ;;
  new_mesh o pts lines (m_triangles m) (m_plines m) (m_ptriangles m) true.
(** solver.py:397-403 and 415-416, 450-451: the excitation that is actually solved. *)
Definition solved_excitation (o : oracles) (third : point -> point -> point * point) (e : excitation) : result excitation :=
  if is_2d (e_mesh e) && negb (is_higher_order (e_mesh e)) then
    m <- to_higher_order_mesh o third (e_mesh e) ;; Ok (set_mesh e m)
  else Ok e.
