(** The formulas for charged rings and current loops with the elliptic integrals as parameters.  The code is the
    instance with the polynomial approximations of elliptic.c (lemma [code_instances]); the exact formulas are the
    instance with the integrals themselves. *)
From Coq Require Import Reals.
From Coquelicot Require Import Coquelicot.
From Verif Require Import Base Vec GeomModel FieldModel EllipticSpec.
Local Open Scope R_scope.

(** backend/elliptic.c:38-42, 77-81 *)
Definition ellipk_of (ellipkm1 : R -> R) (k : R) : R := if Rlt_dec (-1) k then ellipkm1 (1 - k) else ellipkm1 (1 / (1 - k)) / sqrt k.
Definition ellipe_of (ellipem1 : R -> R) (k : R) : R := if Rle_dec 0 k then if Rle_dec k 1 then ellipem1 (1 - k) else ellipem1 (-1 / (k - 1)) * sqrt (1 - k)
                                 else ellipem1 (-1 / (k - 1)) * sqrt (1 - k).

(** backend/radial_ring.c:22-56; the ring has radius [r] and height [z] *)
Definition dr1_potential_radial_ring_of (ellipkm1 ellipem1 : R -> R) (r0 z0 r z : R) : R :=
  if Rlt_dec r0 MIN_DISTANCE_AXIS then 0 else
  let delta_r := r - r0 in let delta_z := z - z0 in
  let common_arg := (delta_z * delta_z + delta_r * delta_r) / (4 * r * r - 4 * delta_r * r + delta_z * delta_z + delta_r * delta_r) in
  let denominator := (-2 * delta_r * delta_r * r + delta_z * delta_z * (2 * delta_r - 2 * r) + 2 * delta_r * delta_r * delta_r)
                     * sqrt (4 * r * r - 4 * delta_r * r + delta_z * delta_z + delta_r * delta_r) in
  let k := (delta_z * delta_z * r + delta_r * delta_r * r) * ellipkm1 common_arg in
  let e := (-2 * delta_r * r * r - delta_z * delta_z * r + delta_r * delta_r * r) * ellipem1 common_arg in
  1 / PI * (k + e) / denominator.
Definition potential_radial_ring_of (ellipkm1 : R -> R) (r0 z0 r z : R) : R :=
  let delta_z := z - z0 in let delta_r := r - r0 in
  let t := (delta_z ^ 2 + delta_r ^ 2) / (delta_z ^ 2 + delta_r ^ 2 + 4 * r0 * delta_r + 4 * r0 ^ 2) in
  1 / PI * ellipkm1 t * (delta_r + r0) / sqrt (delta_z ^ 2 + (delta_r + 2 * r0) ^ 2).
Definition dz1_potential_radial_ring_of (ellipem1 : R -> R) (r0 z0 r z : R) : R :=
  let delta_z := z - z0 in let delta_r := r - r0 in
  let common_arg := (delta_z * delta_z + delta_r * delta_r) / (4 * r0 * r0 + 4 * delta_r * r0 + delta_z * delta_z + delta_r * delta_r) in
  let denominator := (delta_z * delta_z + delta_r * delta_r) * sqrt (4 * r0 * r0 + 4 * delta_r * r0 + delta_z * delta_z + delta_r * delta_r) in
  let e := - delta_z * (r0 + delta_r) * ellipem1 common_arg in
  1 / PI * - e / denominator.
(** backend/radial_ring.c:78-106 current_field_radial_ring: radial and axial component *)
Definition current_field_radial_ring_of (ellipk ellipe : R -> R) (x0 y0 x y : R) : R * R :=
  let a := x in let r := x0 in let z := y0 - y in
  let A := z ^ 2 + (a + r) ^ 2 in let B := z ^ 2 + (r - a) ^ 2 in
  let k := 4 * r * a / A in
  if Rlt_dec x MIN_DISTANCE_AXIS then (0, 0) else
  ((if Rlt_dec x0 MIN_DISTANCE_AXIS then 0
    else 1 / PI * z / (2 * r * sqrt A) * ((z ^ 2 + r ^ 2 + a ^ 2) / B * ellipe k - ellipk k)),
   1 / PI * 1 / (2 * sqrt A) * ((a ^ 2 - z ^ 2 - r ^ 2) / B * ellipe k + ellipk k)).

(** backend/radial.c:85-101 *)
Definition potential_radial_of (ellipkm1 : R -> R) (p : vec3) (c : charges) : R :=
  evaluate (fun q => potential_radial_ring_of ellipkm1 (norm_2d (vx p) (vy p)) (vz p) (vx q) (vz q)) c.
(** backend/radial.c:125-149 *)
Definition field_radial_of (ellipkm1 ellipem1 : R -> R) (p : vec3) (c : charges) : vec3 :=
  let r := norm_2d (vx p) (vy p) in
  from_cylinder p (- evaluate (fun q => dr1_potential_radial_ring_of ellipkm1 ellipem1 r (vz p) (vx q) (vz q)) c)
                  (- evaluate (fun q => dz1_potential_radial_ring_of ellipem1 r (vz p) (vx q) (vz q)) c).
(** backend/radial.c:45-70 *)
Definition current_field_of (ellipk ellipe : R -> R) (p : vec3) (c : charges) : vec3 :=
  let r := norm_2d (vx p) (vy p) in
  from_cylinder p (evaluate (fun q => fst (current_field_radial_ring_of ellipk ellipe r (vz p) (vx q) (vz q))) c)
                  (evaluate (fun q => snd (current_field_radial_ring_of ellipk ellipe r (vz p) (vx q) (vz q))) c).


Lemma code_instances : ellipk = ellipk_of ellipkm1 /\
  ellipe = ellipe_of ellipem1 /\
  dr1_potential_radial_ring = dr1_potential_radial_ring_of ellipkm1 ellipem1 /\
  potential_radial_ring = potential_radial_ring_of ellipkm1 /\
  dz1_potential_radial_ring = dz1_potential_radial_ring_of ellipem1 /\
  current_field_radial_ring = current_field_radial_ring_of ellipk ellipe /\
  potential_radial = potential_radial_of ellipkm1 /\
  field_radial = field_radial_of ellipkm1 ellipem1 /\
  current_field = current_field_of ellipk ellipe.
Proof. repeat split. Qed.

(** The exact values the approximations ellipkm1 and ellipem1 stand for. *)
Definition exact_km1 (p : R) : R := elliptic_K (1 - p).
Definition exact_em1 (p : R) : R := elliptic_E (1 - p).
