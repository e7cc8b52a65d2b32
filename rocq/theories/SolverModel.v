(** The direct solver (traceon/solver.py) over the reals.  The numbers computed by the backend from the
    geometry (quadrature points, influence of one element on another, centres, normals) and
    numpy.linalg.solve are arbitrary functions. *)
From Coq Require Import Reals.
From Verif Require Import Base Float64 OrientModel MeshModel Vec GeomModel ExcitationModel FieldModel.
Local Open Scope R_scope.

Record numerics := {
  nu_line : list point -> source;                                  (* radial.c:200-224 fill_jacobian_buffer_radial *)
  nu_triangle : list point -> source;                              (* tracing.c:260-290 fill_jacobian_buffer_3d *)
  nu_center : list point -> vec3;                                  (* solver.py:121-131 get_center_of_element *)
  nu_potential : list (list point) -> nat -> nat -> R;             (* radial.c:260-286; tracing.c:300-330 *)
  nu_flux : R -> list (list point) -> nat -> nat -> R;             (* the rows of DIELECTRIC and MAGNETIZABLE *)
  nu_normal : list point -> R * R;                                 (* solver.py:243-251, the two components used *)
  nu_solve : list (list R) -> list R -> result (list R)            (* numpy.linalg.solve, one right hand side *)
}.
(** radial_ring.c:4-19 *)
Definition flux_density_to_charge_factor (K : R) : R := 2 * (K - 1) / (1 + K).

(** solver.py:64-87: conditions and values of the active elements; [None] is the initial 0 *)
Definition element_value (nu : numerics) (v : list point) (c : condition) : R :=
  match c with
  | VOLTAGE_FIXED x | DIELECTRIC x | CURRENT x | MAGNETOSTATIC_POT x | MAGNETIZABLE x => x
  | VOLTAGE_FUN f => let p := nu_center nu v in f (vx p) (vy p) (vz p)
  end.
Fixpoint element_conditions (nu : numerics) (types : list (string * condition)) (vertices : list (list point))
    (names : dict) (acc : list (option (condition * R))) : result (list (option (condition * R))) :=
  match names with
  | [] => Ok acc
  | (n, indices) :: t =>
      match dget types n with
      | None => Err KeyError
      | Some c =>
          vs <- np_take vertices indices ;;
          acc' <- np_put acc indices (map (fun v => Some (c, element_value nu v c)) vs) ;;
          element_conditions nu types vertices t acc'
      end
  end.

Record solver := mksolver { s_exc : excitation; s_vertices : list (list point); s_elements : list (option (condition * R)) }.
(** solver.py:64-103 Solver.__init__, with [active] the method get_active_elements *)
Definition new_solver (nu : numerics) (active : excitation -> result (list (list point) * dict)) (e : excitation) : result solver :=
  '(vertices, names) <- active e ;;
  elements <- element_conditions nu (e_types e) vertices names (repeat None (length vertices)) ;;
  let two_d := is_2d (e_mesh e) in let higher := is_higher_order (e_mesh e) in
  _ <- py_assert (negb higher || two_d) ;;
  _ <- (if two_d && negb higher then Err ValueError else Ok tt) ;;
  Ok (mksolver e vertices elements).
Definition electrostatic_solver nu := new_solver nu get_electrostatic_active_elements.
Definition magnetostatic_solver nu := new_solver nu get_magnetostatic_active_elements.

(** solver.py:137-176 get_matrix, and radial.c:249-330 *)
Definition matrix_entry (nu : numerics) (s : solver) (i j : nat) (el : option (condition * R)) : R :=
  match el with
  | Some (VOLTAGE_FIXED _, _) | Some (VOLTAGE_FUN _, _) | Some (MAGNETOSTATIC_POT _, _) => nu_potential nu (s_vertices s) i j
  | Some (DIELECTRIC _, k) | Some (MAGNETIZABLE _, k) => nu_flux nu k (s_vertices s) i j
  | _ => 0
  end.
Definition get_matrix (nu : numerics) (s : solver) : list (list R) :=
  map2 (fun i el => map (fun j => matrix_entry nu s i j el) (arange (length (s_vertices s)))) (arange (length (s_elements s))) (s_elements s).

(** solver.py:213-228 ElectrostaticSolver.get_right_hand_side *)
Definition electrostatic_rhs (s : solver) : list R :=
  map (fun el => match el with
                 | Some (VOLTAGE_FIXED _, v) | Some (VOLTAGE_FUN _, v) => v
                 | _ => 0
                 end) (s_elements s).

(** solver.py:96-103 [self.jac_buffer, self.pos_buffer], and the rule they come from *)
Definition sources (nu : numerics) (s : solver) : list source :=
  map (if is_2d (e_mesh (s_exc s)) then nu_line nu else nu_triangle nu) (s_vertices s).
Definition mesh_rule (m : mesh) : rule := if is_2d m then LINE_RULE else TRIANGLE_RULE.

(** solver.py:262-296 get_current_charges.  (Division by a zero total area is not modelled as an error.) *)
Definition current_items (nu : numerics) (m : mesh) (triangles : list source) (nc : string * condition) : result (list (R * source)) :=
  match snd nc, dget (m_ptriangles m) (fst nc) with
  | CURRENT i, Some indices =>
      ts <- np_take triangles indices ;;
      Ok (map (fun t => (i / Rsum (map (source_sum (fun _ => 1)) ts), t)) ts)
  | _, _ => Ok []
  end.
Definition current_charges (nu : numerics) (e : excitation) : result charges :=
  let m := e_mesh e in
  match arows (m_triangles m) with
  | [] => Ok empty_3d
  | _ =>
    if negb (has_current e) then Ok empty_3d else
    triangles <- mapM (fun r => v <- np_take (m_points m) r ;; Ok (nu_triangle nu v)) (arows (m_triangles m)) ;;
    parts <- mapM (current_items nu m triangles) (e_types e) ;;
    Ok (mkcharges TRIANGLE_RULE (concat parts))
  end.

(** solver.py:298-318 MagnetostaticSolver.get_right_hand_side *)
Definition magnetostatic_rhs (nu : numerics) (s : solver) (cs : charges) : list R :=
  map2 (fun v el => match el with
                    | Some (MAGNETOSTATIC_POT _, x) => x
                    | Some (MAGNETIZABLE _, k) =>
                        let h := current_field (nu_center nu v) cs in
                        let '(n0, n1) := nu_normal nu v in
                        - flux_density_to_charge_factor k * (vx h * n0 + vz h * n1)
                    | _ => 0
                    end) (s_vertices s) (s_elements s).

(** solver.py:182-203 solve_matrix; [to_field] is charges_to_field.  With elements but without right hand
    sides the shapes given to numpy do not match. *)
Definition solve_matrix (nu : numerics) (s : solver) (to_field : charges -> result bem) (rhs : list (list R)) : result (list bem) :=
  let rule := mesh_rule (e_mesh (s_exc s)) in
  match s_vertices s with
  | [] => mapM (fun _ => to_field (mkcharges rule [])) rhs
  | _ =>
      _ <- py_assert (forallb (fun f : list R => (length f =? length (s_vertices s))%nat) rhs) ;;
      let m := e_mesh (s_exc s) in
      _ <- py_assert ((is_3d m && negb (is_higher_order m)) || (is_2d m && is_higher_order m)) ;;
      match rhs with
      | [] => Err ValueError
      | _ => mapM (fun f => x <- nu_solve nu (get_matrix nu s) f ;; to_field (mkcharges rule (combine x (sources nu s)))) rhs
      end
  end.
(** solver.py:230-234, 320-324: in three dimensions the currents are left out *)
Definition electrostatic_field (m : mesh) (cs : charges) : result bem :=
  if is_3d m then three_d_bem cs empty_3d else Ok (radial_bem cs empty_2d empty_3d).
Definition magnetostatic_field (m : mesh) (currents cs : charges) : result bem :=
  if is_3d m then three_d_bem empty_3d cs else Ok (radial_bem empty_2d cs currents).

(** [ElectrostaticSolver(excitation).solve_matrix()\[0\]] and the magnetostatic one *)
Definition solve_electrostatic (nu : numerics) (e : excitation) : result bem :=
  s <- electrostatic_solver nu e ;;
  fs <- solve_matrix nu s (electrostatic_field (e_mesh e)) [electrostatic_rhs s] ;;
  np_get fs 0.
Definition solve_magnetostatic (nu : numerics) (e : excitation) : result bem :=
  s <- magnetostatic_solver nu e ;;
  cs <- current_charges nu e ;;
  fs <- solve_matrix nu s (magnetostatic_field (e_mesh e) cs) [magnetostatic_rhs nu s cs] ;;
  np_get fs 0.
(** solver.py:436-465 solve_direct *)
Definition solve_direct (nu : numerics) (o : oracles) third (e0 : excitation) : result bem :=
  e <- solved_excitation o third e0 ;;
  let mag := is_magnetostatic e in let elec := is_electrostatic e in
  _ <- py_assert (mag || elec) ;;
  if mag && elec then
    f <- solve_electrostatic nu e ;; g <- solve_magnetostatic nu e ;; bem_add f g
  else if elec then solve_electrostatic nu e
  else solve_magnetostatic nu e.

(** solver.py:405-434 solve_direct_superposition; [{**elec_dict, **mag_dict}] *)
Definition merge_dicts {A} (a b : list (string * A)) : list (string * A) := fold_left (fun d nf => dset d (fst nf) (snd nf)) b a.
Definition solve_direct_superposition (nu : numerics) (o : oracles) third (e0 : excitation) : result (list (string * bem)) :=
  e <- solved_excitation o third e0 ;;
  excitations <- split_for_superposition e ;;
  let elec := filter (fun nx => is_electrostatic (snd nx)) excitations in
  rhs <- mapM (fun nx => s <- electrostatic_solver nu (snd nx) ;; Ok (electrostatic_rhs s)) elec ;;
  s <- electrostatic_solver nu e ;;
  solutions <- solve_matrix nu s (electrostatic_field (e_mesh e)) rhs ;;
  let mag := filter (fun nx => is_magnetostatic (snd nx)) excitations in
  rhs_m <- mapM (fun nx => sn <- magnetostatic_solver nu (snd nx) ;; cs <- current_charges nu (snd nx) ;; Ok (magnetostatic_rhs nu sn cs)) mag ;;
  sm <- magnetostatic_solver nu e ;;
  cs <- current_charges nu e ;;
  solutions_m <- solve_matrix nu sm (magnetostatic_field (e_mesh e) cs) rhs_m ;;
  Ok (merge_dicts (combine (map fst elec) solutions) (combine (map fst mag) solutions_m)).
