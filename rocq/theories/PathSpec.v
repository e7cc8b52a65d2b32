(** Small specifications for paths: samples along a path, elements along samples, speed. *)
From Coq Require Import Reals.
From Coquelicot Require Import Coquelicot.
From Verif Require Import Base Float64 OrientModel MeshModel MeshSpec Vec PathModel.
Local Open Scope R_scope.

(** Weakly increasing list. *)
Definition weakly_increasing (l : list R) : Prop :=
  forall i, (S i < length l)%nat -> nth i l 0 <= nth (S i) l 0.

(** The user's view of a discretisation. *)
Record good_samples (L : R) (bps us : list R) (nf : nat) (max_step : R) : Prop := {
  gs_start : nth 0 us 0 = 0;
  gs_end : last us 0 = L;
  gs_strict : forall i, (S i < length us)%nat -> nth i us 0 < nth (S i) us 0;
  gs_step : forall i, (S i < length us)%nat -> nth (S i) us 0 - nth i us 0 <= max_step;
  gs_bps : forall b, In b bps -> In b us;
  gs_len : exists m, length us = (nf * m + 1)%nat;
  (* between two consecutive distinct breakpoints p < q: at least 3 (groups of nf) intervals,
     starting and ending at a multiple of nf *)
  gs_sections : forall k p q, nth_error (0 :: bps ++ [L])%list k = Some p ->
     nth_error (0 :: bps ++ [L])%list (S k) = Some q -> p < q ->
     exists s n, (3 <= n)%nat /\ nth_error us (nf * s) = Some p /\ nth_error us (nf * (s + n)) = Some q }.

(** Vertex [i] of the mesh is the (stored) point [v]. *)
Definition vertex_is (enc : vec3 -> point) (m : mesh) (i : nat) (v : vec3) : Prop :=
  exists p, nth_error (m_points m) i = Some p /\ pt_eqb p (pt_trunc (enc v)) = true.

(** Line element [r] runs along the points [vs] (ends first), in one direction or the other. *)
Definition element_along (enc : vec3 -> point) (m : mesh) (r : row) (vs : list vec3) : Prop :=
  Forall2 (vertex_is enc m) r vs \/ Forall2 (vertex_is enc m) (reversed_line r) vs.

(** The samples at positions [ks] give the points [vs]. *)
Definition samples_at (p : path) (us : list R) (ks : list nat) (vs : list vec3) : Prop :=
  Forall2 (fun k v => exists u, nth_error us k = Some u /\ pfun p u = Ok v) ks vs.

Definition sorted (l : list R) : Prop := forall i j, (i <= j < length l)%nat -> nth i l 0 <= nth j l 0.
(** The path is [g] with velocity [d], everywhere. *)
Definition moves_with (g d : R -> vec3) : Prop :=
  forall t, is_derive (fun t => vx (g t)) t (vx (d t)) /\
            is_derive (fun t => vy (g t)) t (vy (d t)) /\
            is_derive (fun t => vz (g t)) t (vz (d t)).
Definition unit_speed (p : path) : Prop :=
  exists g d, (forall t, pfun p t = Ok (g t)) /\ moves_with g d /\ forall t, norm (d t) = 1.

(** ** Polylines *)
Fixpoint polylen (cs : list vec3) : R :=
  match cs with a :: ((b :: _) as t) => dist3 a b + polylen t | _ => 0 end.
(** The path runs along the corners [cs]: straight and with unit speed from each corner to the
    next one, and its breakpoints are the inner corners. *)
Definition follows_polyline (p : path) (cs : list vec3) : Prop :=
  plen p = polylen cs /\
  pbps p = map (fun k => polylen (firstn (S k) cs)) (seq 1 (length cs - 2)) /\
  forall k a b t, nth_error cs k = Some a -> nth_error cs (S k) = Some b -> 0 <= t <= dist3 a b ->
    pfun p (polylen (firstn (S k) cs) + t) = Ok (vadd a (vscale (t / dist3 a b) (vsub b a))).

(** Oriented area of a closed polygon seen against the axis [n]: positive when it is traversed
    counter clockwise around [n] (the sense of a right handed rotation about [n]). *)
Fixpoint polygon_area2 (n : vec3) (cs : list vec3) : R :=
  match cs with a :: ((b :: _) as t) => dot n (cross a b) + polygon_area2 n t | _ => 0 end.
Definition counter_clockwise (n : vec3) (cs : list vec3) : Prop := 0 < polygon_area2 n cs.
