(** Fields of effective point charges (traceon/solver.py, backend/radial.c, radial_ring.c, three_d.c) over the
    reals.  Division by zero (evaluation on top of a charge) is not an error here; theorems exclude it. *)
From Coq Require Import Reals.
From Verif Require Import Base Vec GeomModel.
Local Open Scope R_scope.

(** One element as effective point charges: jacobian times quadrature weight, and position, per
    quadrature point.  Positions (r, z) of line elements are (r, 0, z). *)
Definition source := list (R * vec3).
(** N_QUAD_2D points with two coordinates, or N_TRIANGLE_QUAD points with three (backend/__init__.py) *)
Inductive rule := LINE_RULE | TRIANGLE_RULE.

(** solver.py:327-383 EffectivePointCharges *)
Record charges := mkcharges { q_rule : rule; q_items : list (R * source) }.
Definition empty_2d := mkcharges LINE_RULE [].
Definition empty_3d := mkcharges TRIANGLE_RULE [].

Definition vec_eq_dec (a b : vec3) : {a = b} + {a <> b}.
Proof.
  destruct a as [x y z], b as [x' y' z'].
  destruct (Req_EM_T x x') as [->|N]; [|right; intros E; injection E; contradiction].
  destruct (Req_EM_T y y') as [->|N]; [|right; intros E; injection E; contradiction].
  destruct (Req_EM_T z z') as [->|N]; [left; reflexivity|right; intros E; injection E; contradiction].
Defined.
Definition jac_pos_eq_dec (a b : R * vec3) : {a = b} + {a <> b}.
Proof.
  destruct a as [j p], b as [j' p'].
  destruct (Req_EM_T j j') as [->|N]; [|right; intros E; injection E; contradiction].
  destruct (vec_eq_dec p p') as [->|N]; [left; reflexivity|right; intros E; injection E; contradiction].
Defined.
(** np.array_equal of jacobians and of positions *)
Definition same_sources (a b : list source) : bool := if list_eq_dec (list_eq_dec jac_pos_eq_dec) a b then true else false.
Definition rule_eqb (a b : rule) : bool := match a, b with LINE_RULE, LINE_RULE | TRIANGLE_RULE, TRIANGLE_RULE => true | _, _ => false end.

(** solver.py:359-366 EffectivePointCharges.__add__; np.concatenate refuses arrays of different widths *)
Definition charges_add (a b : charges) : result charges :=
  if rule_eqb (q_rule a) (q_rule b) && same_sources (map snd (q_items a)) (map snd (q_items b)) then
    Ok (mkcharges (q_rule a) (map2 (fun x y => (fst x + fst y, snd x)) (q_items a) (q_items b)))
  else if rule_eqb (q_rule a) (q_rule b) then Ok (mkcharges (q_rule a) (q_items a ++ q_items b))
  else Err ValueError.
(** solver.py:368-378 __mul__, __neg__, __rmul__ *)
Definition charges_mul (k : R) (a : charges) : charges := mkcharges (q_rule a) (map (fun x => (k * fst x, snd x)) (q_items a)).

(** The common form of all sums over charges in the backend. *)
Definition source_sum (kernel : vec3 -> R) (s : source) : R := Rsum (map (fun jp => fst jp * kernel (snd jp)) s).
Definition evaluate (kernel : vec3 -> R) (c : charges) : R := Rsum (map (fun x => fst x * source_sum kernel (snd x)) (q_items c)).

(** backend/elliptic.c:9-83 *)
Definition chebyshev (A B : list R) (p : R) : R :=
  let L := ln (1 / p) in
  Rsum (map (fun iab => (fst (snd iab) + L * snd (snd iab)) * p ^ fst iab) (combine (arange 8) (combine A B))).
Definition ellipkm1 : R -> R := chebyshev
  [ln 4; 9.65736020516771e-2; 3.08909633861795e-2; 1.52618320622534e-2; 1.25565693543211e-2; 1.68695685967517e-2; 1.09423810688623e-2; 1.40704915496101e-3]
  [1 / 2; 1.24999998585309e-1; 7.03114105853296e-2; 4.87379510945218e-2; 3.57218443007327e-2; 2.09857677336790e-2; 5.81807961871996e-3; 3.42805719229748e-4].
Definition ellipem1 : R -> R := chebyshev
  [1; 4.43147193467733e-1; 5.68115681053803e-2; 2.21862206993846e-2; 1.56847700239786e-2; 1.92284389022977e-2; 1.21819481486695e-2; 1.55618744745296e-3]
  [0; 2.49999998448655e-1; 9.37488062098189e-2; 5.84950297066166e-2; 4.09074821593164e-2; 2.35091602564984e-2; 6.45682247315060e-3; 3.78886487349367e-4].
Definition ellipk (k : R) : R := if Rlt_dec (-1) k then ellipkm1 (1 - k) else ellipkm1 (1 / (1 - k)) / sqrt k.
Definition ellipe (k : R) : R := if Rle_dec 0 k then if Rle_dec k 1 then ellipem1 (1 - k) else ellipem1 (-1 / (k - 1)) * sqrt (1 - k)
                                 else ellipem1 (-1 / (k - 1)) * sqrt (1 - k).

Definition MIN_DISTANCE_AXIS : R := 1e-10.

(** backend/radial_ring.c:22-56; the ring has radius [r] and height [z] *)
Definition dr1_potential_radial_ring (r0 z0 r z : R) : R :=
  if Rlt_dec r0 MIN_DISTANCE_AXIS then 0 else
  let delta_r := r - r0 in let delta_z := z - z0 in
  let common_arg := (delta_z * delta_z + delta_r * delta_r) / (4 * r * r - 4 * delta_r * r + delta_z * delta_z + delta_r * delta_r) in
  let denominator := (-2 * delta_r * delta_r * r + delta_z * delta_z * (2 * delta_r - 2 * r) + 2 * delta_r * delta_r * delta_r)
                     * sqrt (4 * r * r - 4 * delta_r * r + delta_z * delta_z + delta_r * delta_r) in
  let k := (delta_z * delta_z * r + delta_r * delta_r * r) * ellipkm1 common_arg in
  let e := (-2 * delta_r * r * r - delta_z * delta_z * r + delta_r * delta_r * r) * ellipem1 common_arg in
  1 / PI * (k + e) / denominator.
Definition potential_radial_ring (r0 z0 r z : R) : R :=
  let delta_z := z - z0 in let delta_r := r - r0 in
  let t := (delta_z ^ 2 + delta_r ^ 2) / (delta_z ^ 2 + delta_r ^ 2 + 4 * r0 * delta_r + 4 * r0 ^ 2) in
  1 / PI * ellipkm1 t * (delta_r + r0) / sqrt (delta_z ^ 2 + (delta_r + 2 * r0) ^ 2).
Definition dz1_potential_radial_ring (r0 z0 r z : R) : R :=
  let delta_z := z - z0 in let delta_r := r - r0 in
  let common_arg := (delta_z * delta_z + delta_r * delta_r) / (4 * r0 * r0 + 4 * delta_r * r0 + delta_z * delta_z + delta_r * delta_r) in
  let denominator := (delta_z * delta_z + delta_r * delta_r) * sqrt (4 * r0 * r0 + 4 * delta_r * r0 + delta_z * delta_z + delta_r * delta_r) in
  let e := - delta_z * (r0 + delta_r) * ellipem1 common_arg in
  1 / PI * - e / denominator.
(** backend/radial_ring.c:78-106 current_field_radial_ring: radial and axial component *)
Definition current_field_radial_ring (x0 y0 x y : R) : R * R :=
  let a := x in let r := x0 in let z := y0 - y in
  let A := z ^ 2 + (a + r) ^ 2 in let B := z ^ 2 + (r - a) ^ 2 in
  let k := 4 * r * a / A in
  if Rlt_dec x MIN_DISTANCE_AXIS then (0, 0) else
  ((if Rlt_dec x0 MIN_DISTANCE_AXIS then 0
    else 1 / PI * z / (2 * r * sqrt A) * ((z ^ 2 + r ^ 2 + a ^ 2) / B * ellipe k - ellipk k)),
   1 / PI * 1 / (2 * sqrt A) * ((a ^ 2 - z ^ 2 - r ^ 2) / B * ellipe k + ellipk k)).

(** backend/radial.c:85-101 *)
Definition potential_radial (p : vec3) (c : charges) : R :=
  evaluate (fun q => potential_radial_ring (norm_2d (vx p) (vy p)) (vz p) (vx q) (vz q)) c.
(** the end of field_radial and current_field (radial.c:60-69, 139-148) *)
Definition from_cylinder (p : vec3) (Er Ez : R) : vec3 :=
  let r := norm_2d (vx p) (vy p) in
  if Rle_dec MIN_DISTANCE_AXIS r then V3 (vx p / r * Er) (vy p / r * Er) Ez else V3 0 0 Ez.
(** backend/radial.c:125-149 *)
Definition field_radial (p : vec3) (c : charges) : vec3 :=
  let r := norm_2d (vx p) (vy p) in
  from_cylinder p (- evaluate (fun q => dr1_potential_radial_ring r (vz p) (vx q) (vz q)) c)
                  (- evaluate (fun q => dz1_potential_radial_ring r (vz p) (vx q) (vz q)) c).
(** backend/radial.c:45-70 *)
Definition current_field (p : vec3) (c : charges) : vec3 :=
  let r := norm_2d (vx p) (vy p) in
  from_cylinder p (evaluate (fun q => fst (current_field_radial_ring r (vz p) (vx q) (vz q))) c)
                  (evaluate (fun q => snd (current_field_radial_ring r (vz p) (vx q) (vz q))) c).

(** backend/three_d_point.c *)
Definition potential_3d_point (p q : vec3) : R := 1 / (4 * PI * norm (vsub q p)).
Definition dx1_potential_3d_point (p q : vec3) : R := (vx q - vx p) / (4 * PI * norm (vsub q p) ^ 3).
Definition dy1_potential_3d_point (p q : vec3) : R := (vy q - vy p) / (4 * PI * norm (vsub q p) ^ 3).
Definition dz1_potential_3d_point (p q : vec3) : R := (vz q - vz p) / (4 * PI * norm (vsub q p) ^ 3).
(** backend/three_d.c:35-52, 66-89 *)
Definition potential_3d (p : vec3) (c : charges) : R := evaluate (potential_3d_point p) c.
Definition field_3d (p : vec3) (c : charges) : vec3 :=
  V3 (- evaluate (dx1_potential_3d_point p) c) (- evaluate (dy1_potential_3d_point p) c) (- evaluate (dz1_potential_3d_point p) c).

(** solver.py:541-559, 640-655, 838-858: the two kinds of field *)
Inductive bem_class := FieldRadialBEM | Field3D_BEM.
Record bem := mkbem { b_class : bem_class; b_elec : charges; b_mag : charges; b_cur : charges; b_bounds : option (vec3 * vec3) }.

(** solver.py:643-653, 842-858: the constructors called with all their arguments *)
Definition radial_bem (e m c : charges) : bem := mkbem FieldRadialBEM e m c None.
Definition three_d_bem (e m : charges) : result bem :=
  match q_rule e, q_rule m with
  | TRIANGLE_RULE, TRIANGLE_RULE => Ok (mkbem Field3D_BEM e m empty_3d None)
  | _, _ => Err AssertionError
  end.

(** solver.py:553-567 *)
Definition set_bounds (f : bem) (lo hi : vec3) : bem := mkbem (b_class f) (b_elec f) (b_mag f) (b_cur f) (Some (lo, hi)).
(** solver.py:569-573 *)
Definition bem_is_electrostatic (f : bem) : bool := negb (length (q_items (b_elec f)) =? 0)%nat.
Definition bem_is_magnetostatic (f : bem) : bool := negb (length (q_items (b_mag f)) =? 0)%nat || negb (length (q_items (b_cur f)) =? 0)%nat.

(** solver.py:657-763, 860-935, the four methods of both classes *)
Definition electrostatic_potential_at_point (f : bem) (p : vec3) : R :=
  match b_class f with FieldRadialBEM => potential_radial p (b_elec f) | Field3D_BEM => potential_3d p (b_elec f) end.
Definition magnetostatic_potential_at_point (f : bem) (p : vec3) : R :=
  match b_class f with FieldRadialBEM => potential_radial p (b_mag f) | Field3D_BEM => potential_3d p (b_mag f) end.
Definition electrostatic_field_at_point (f : bem) (p : vec3) : vec3 :=
  match b_class f with FieldRadialBEM => field_radial p (b_elec f) | Field3D_BEM => field_3d p (b_elec f) end.
Definition magnetostatic_field_at_point (f : bem) (p : vec3) : vec3 :=
  match b_class f with
  | FieldRadialBEM => vadd (current_field p (b_cur f)) (field_radial p (b_mag f))
  | Field3D_BEM => field_3d p (b_mag f)
  end.
(** solver.py:468-513 field_at_point, potential_at_point *)
Definition pick {A} (elec mag : bool) (e m : A) : result A :=
  if elec && negb mag then Ok e else if negb elec && mag then Ok m else Err RuntimeError.
Definition field_at_point (f : bem) (p : vec3) : result vec3 :=
  pick (bem_is_electrostatic f) (bem_is_magnetostatic f) (electrostatic_field_at_point f p) (magnetostatic_field_at_point f p).
Definition potential_at_point (f : bem) (p : vec3) : result R :=
  pick (bem_is_electrostatic f) (bem_is_magnetostatic f) (electrostatic_potential_at_point f p) (magnetostatic_potential_at_point f p).

(** FieldBEM.__add__ (solver.py:575-579) for two fields; the class of the left operand is called with
    three arguments, one more than Field3D_BEM takes *)
Definition bem_add (f g : bem) : result bem :=
  e <- charges_add (b_elec f) (b_elec g) ;;
  m <- charges_add (b_mag f) (b_mag g) ;;
  c <- charges_add (b_cur f) (b_cur g) ;;
  match b_class f with FieldRadialBEM => Ok (radial_bem e m c) | Field3D_BEM => Err TypeError end.

(** solver.py:771-773, 937-939 area_of_element; solver.py:611-640 *)
Definition area_of_element (f : bem) (i : nat) : result R :=
  x <- np_get (q_items (b_elec f)) i ;;
  Ok match b_class f with
     | FieldRadialBEM => 2 * PI * source_sum vx (snd x)
     | Field3D_BEM => source_sum (fun _ => 1) (snd x)
     end.
Definition charge_on_element (f : bem) (i : nat) : result R :=
  a <- area_of_element f i ;; x <- np_get (q_items (b_elec f)) i ;; Ok (a * fst x).
Definition area_of_elements (f : bem) (idx : list nat) : result R := l <- mapM (area_of_element f) idx ;; Ok (Rsum l).
Definition charge_on_elements (f : bem) (idx : list nat) : result R := l <- mapM (charge_on_element f) idx ;; Ok (Rsum l).
