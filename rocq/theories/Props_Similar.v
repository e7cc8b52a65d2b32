(** C76, C77: how the mesh of a surface changes with its size and position. *)
From Coq Require Import Reals Lra Psatz Sorted.
From Verif Require Import Base BaseFacts Vec GeomModel GeomFacts QuadModel KronrodFacts PathModel PathFacts SurfaceModel MesherModel MesherSpec MesherFacts MesherSurf MesherSim
  SimilarFacts Props_Geom Props_Mesher.
Local Open Scope R_scope.

(** ** C76 mesh_size and mesh_size_factor *)
(** the mesh size that the arguments of [mesh] ask for *)
Inductive requested_size (s : surface) : option R -> option R -> R -> Prop :=
| by_size m factor : requested_size s (Some m) factor m
| by_default : requested_size s None None (Rmin (slen1 s) (slen2 s) / 4)
| by_factor factor : requested_size s None (Some factor) (Rmin (slen1 s) (slen2 s) / (4 * sqrt factor)).

(** Every triangle lies in a cell of the surface whose four chords are at most that size. *)
Theorem C76_size fuel s mesh_size factor size pts tris info :
  breakpoints_in_order s -> sbps1 s = [] \/ sbps2 s = [] -> (forall f, factor = Some f -> 0 < f) ->
  requested_size s mesh_size factor size ->
  surface_mesh fuel s mesh_size factor = Ok ((pts, tris), info) ->
  forall k, In k tris -> exists t u0 u1 v0 v1 p00 p01 p10 p11,
    tri_on (sfun s) Ok pts t k /\ inside u0 u1 v0 v1 [t] /\ u0 < u1 /\ v0 < v1 /\
    sfun s u0 v0 = Ok p00 /\ sfun s u0 v1 = Ok p01 /\ sfun s u1 v0 = Ok p10 /\ sfun s u1 v1 = Ok p11 /\
    dist3 p00 p01 <= size /\ dist3 p10 p11 <= size /\ dist3 p00 p10 <= size /\ dist3 p01 p11 <= size.
Proof.
  intros Hw Hone Hf Hr H k Hk. unfold surface_mesh in H.
  destruct (C59_mesh_size _ _ _ _ _ _ _ Hw Hone H k Hk) as (t & u0 & u1 & v0 & v1 & a & b & c & d & m & A1 & A2 & A3 & A4 & A5 & A6 & A7 & A8 & E & A9).
  injection E as E. assert (m = size).
  { subst m. destruct Hr; cbn [surface_mesh_size]; [reflexivity|reflexivity|].
    specialize (Hf _ eq_refl). pose proof (sqrt_lt_R0 _ Hf). field. lra. }
  subst m size. exists t, u0, u1, v0, v1, a, b, c, d. repeat split; try assumption; tauto.
Qed.
Print Assumptions C76_size.

(** Quadrupling the factor halves the mesh size; a larger factor never gives a larger mesh size. *)
Theorem C76_factor s f g a b : 0 < f -> f <= g -> 0 <= slen1 s -> 0 <= slen2 s ->
  requested_size s None (Some f) a -> requested_size s None (Some g) b -> b <= a /\ (g = 4 * f -> b = a / 2).
Proof.
  intros Hf Hg H1 H2 A B. inversion A; inversion B; subst.
  pose proof (sqrt_lt_R0 _ Hf) as Sf. assert (sqrt f <= sqrt g) by (apply sqrt_le_1_alt; exact Hg). assert (0 < sqrt g) by lra.
  assert (HM : 0 <= Rmin (slen1 s) (slen2 s)) by (apply Rmin_glb; assumption). split.
  - unfold Rdiv. apply Rmult_le_compat_l; [exact HM|]. apply Rinv_le_contravar; lra.
  - intros ->. rewrite sqrt_mult by lra. replace 4 with (2 * 2) at 2 by ring. rewrite sqrt_square by lra. field. lra.
Qed.
Print Assumptions C76_factor.

(** A surface and its enlargement: lengths, breakpoints and points are multiplied by [k]. *)
Definition enlarged (k : R) (s s' : surface) : Prop :=
  slen1 s' = k * slen1 s /\ slen2 s' = k * slen2 s /\ sbps1 s' = map (Rmult k) (sbps1 s) /\ sbps2 s' = map (Rmult k) (sbps2 s) /\
  forall u v, sfun s' (k * u) (k * v) = (p <- sfun s u v ;; Ok (vscale k p)).
Lemma enlarged_similar k s s' : 0 < k -> enlarged k s s' -> surf_similar k k (vscale k) s s'.
Proof.
  intros Hk (A & B & C & D & E). split; [exact Hk|]. split; [|split; [exact A|split; [exact B|split; [exact C|split; [exact D|]]]]].
  - intros p q. unfold dist3. replace (vsub (vscale k p) (vscale k q)) with (vscale k (vsub p q)) by (apply vec_eq; simpl; ring).
    rewrite norm_scale, Rabs_right by lra. reflexivity.
  - intros u v. rewrite E. destruct (sfun s u v); reflexivity.
Qed.

(** With a mesh size factor (or without any argument) the enlarged surface gets the same triangles on
    enlarged points, and with an explicit mesh size it gets them for the enlarged mesh size. *)
Theorem C76_enlarged fuel k s s' factor : 0 < k -> enlarged k s s' ->
  (forall pts tris info, surface_mesh fuel s None factor = Ok ((pts, tris), info) ->
     surface_mesh fuel s' None factor = Ok ((map (vscale k) pts, tris), info)) /\
  (forall ms pts tris info, surface_mesh fuel s (Some ms) factor = Ok ((pts, tris), info) ->
     surface_mesh fuel s' (Some (k * ms)) factor = Ok ((map (vscale k) pts, tris), info)) /\
  (forall e, surface_mesh fuel s None factor = Err e -> surface_mesh fuel s' None factor = Err e).
Proof.
  intros Hk H. pose proof (enlarged_similar _ _ _ Hk H) as HS. destruct H as (L1 & L2 & _).
  assert (G : surface_mesh fuel s' None factor = rmap (fun x => ((map (vscale k) (fst (fst x)), snd (fst x)), snd x)) (surface_mesh fuel s None factor)).
  { unfold surface_mesh. apply (mesh_similar _ _ _ _ _ _ _ _ _ HS). intros a b c d. cbn [rmap]. f_equal.
    cbn [surface_mesh_size]. rewrite L1, L2, Rmin_scale by exact Hk. destruct factor; unfold Rdiv; ring. }
  split; [intros pts tris info E; rewrite G, E; reflexivity|]. split; [|intros e E; rewrite G, E; reflexivity].
  intros ms pts tris info E.
  assert (G' : surface_mesh fuel s' (Some (k * ms)) factor = rmap (fun x => ((map (vscale k) (fst (fst x)), snd (fst x)), snd x)) (surface_mesh fuel s (Some ms) factor)).
  { unfold surface_mesh. apply (mesh_similar _ _ _ _ _ _ _ _ _ HS). intros a b c d. reflexivity. }
  rewrite G', E. reflexivity.
Qed.
Print Assumptions C76_enlarged.

(** Spheres, and surfaces made by extrusion from an enlarged path, are enlargements. *)
Lemma div_scale k u r : k <> 0 -> Rdiv_py (k * u) (k * r) = Rdiv_py u r.
Proof.
  intros Hk. destruct (Req_EM_T r 0) as [->|Hr].
  - rewrite Rmult_0_r. unfold Rdiv_py. unfold Req0.
    destruct (Req_EM_T 0 0) as [_|N]; [reflexivity|]. exfalso. apply N. reflexivity.
  - rewrite !Rdiv_py_ok; [f_equal; field; split; assumption|exact Hr|]. intros H. apply Rmult_integral in H. tauto.
Qed.
Theorem C76_sphere k radius : 0 < k -> enlarged k (sphere radius) (sphere (k * radius)).
Proof.
  intros Hk. unfold enlarged, sphere. cbn [slen1 slen2 sbps1 sbps2 sfun map].
  split; [ring|]. split; [ring|]. split; [reflexivity|]. split; [reflexivity|]. intros u v. rewrite !div_scale by lra.
  destruct (Rdiv_py u radius); [|reflexivity]. cbn [bind]. destruct (Rdiv_py v radius); [|reflexivity]. cbn [bind]. f_equal. apply vec_eq; simpl; ring.
Qed.
Print Assumptions C76_sphere.
Theorem C76_extrude k w p p' : 0 < k ->
  plen p' = k * plen p -> pbps p' = map (Rmult k) (pbps p) -> (forall u, pfun p' (k * u) = (q <- pfun p u ;; Ok (vscale k q))) ->
  enlarged k (extrude w p) (extrude (vscale k w) p').
Proof.
  intros Hk HL HB HF. unfold enlarged, extrude. cbn [slen1 slen2 sbps1 sbps2 sfun map].
  assert (N : norm (vscale k w) = k * norm w) by (rewrite norm_scale, Rabs_right by lra; reflexivity).
  split; [exact HL|]. split; [exact N|]. split; [exact HB|]. split; [reflexivity|]. intros u v. rewrite HF, N, div_scale by lra.
  destruct (pfun p u); [|reflexivity]. cbn [bind]. destruct (Rdiv_py v (norm w)); [|reflexivity]. cbn [bind]. f_equal. apply vec_eq; simpl; ring.
Qed.
Print Assumptions C76_extrude.
Theorem C76_rectangle k a b c d : 0 < k -> enlarged k (surf_rectangle_xy a b c d) (surf_rectangle_xy (k * a) (k * b) (k * c) (k * d)) /\
  enlarged k (surf_rectangle_xz a b c d) (surf_rectangle_xz (k * a) (k * b) (k * c) (k * d)) /\
  enlarged k (surf_rectangle_yz a b c d) (surf_rectangle_yz (k * a) (k * b) (k * c) (k * d)).
Proof.
  intros Hk. 
  assert (D : forall x y x' y', x' = vscale k x -> y' = vscale k y -> dist3 x' y' = k * dist3 x y).
  { intros x y x' y' -> ->. unfold dist3. replace (vsub (vscale k x) (vscale k y)) with (vscale k (vsub x y)) by (apply vec_eq; simpl; ring).
    rewrite norm_scale, Rabs_right by lra. reflexivity. }
  assert (L : forall x y x' y' w w', x' = vscale k x -> y' = vscale k y -> w' = vscale k w ->
              enlarged k (extrude w (line x y)) (extrude w' (line x' y'))).
  { intros x y x' y' w w' Ex Ey ->. pose proof (D x y x' y' Ex Ey) as E. apply C76_extrude; [exact Hk|unfold line; cbn [plen]|reflexivity|].
    - exact E.
    - intros u. unfold line. cbn [pfun]. unfold dist3 in E. rewrite E, div_scale by lra. destruct (Rdiv_py u _); [|reflexivity]. cbn [bind]. f_equal. subst. apply vec_eq; simpl; ring. }
  unfold surf_rectangle_xy, surf_rectangle_xz, surf_rectangle_yz. split; [|split]; apply L; apply vec_eq; simpl; ring.
Qed.
Print Assumptions C76_rectangle.

(** ** C77 Meshing commutes with moving, rotating and mirroring *)
Theorem C77_rigid fuel s F f mesh_size factor : rigid f -> (forall p, F p = Ok (f p)) ->
  (forall pts tris info, surface_mesh fuel s mesh_size factor = Ok ((pts, tris), info) ->
     surface_mesh fuel (surf_map F s) mesh_size factor = Ok ((map f pts, tris), info)) /\
  (forall e, surface_mesh fuel s mesh_size factor = Err e -> surface_mesh fuel (surf_map F s) mesh_size factor = Err e).
Proof.
  intros Hf HF.
  assert (G : surface_mesh fuel (surf_map F s) mesh_size factor = rmap (fun x => ((map f (fst (fst x)), snd (fst x)), snd x)) (surface_mesh fuel s mesh_size factor)).
  { unfold surface_mesh. apply (mesh_similar 1 1 f).
    - repeat split; cbn [surf_map slen1 slen2 sbps1 sbps2 sfun]; try (symmetry; apply Rmult_1_l); [lra|intros p q; rewrite Hf, Rmult_1_l; reflexivity| | |].
      + rewrite <- (map_id (sbps1 s)) at 1. apply map_ext. intros x. symmetry. apply Rmult_1_l.
      + rewrite <- (map_id (sbps2 s)) at 1. apply map_ext. intros x. symmetry. apply Rmult_1_l.
      + intros u v. rewrite !Rmult_1_l. destruct (sfun s u v); [apply HF|reflexivity].
    - intros a b c d. cbn [rmap]. f_equal. rewrite Rmult_1_l. reflexivity. }
  split; [intros pts tris info E|intros e E]; rewrite G, E; reflexivity.
Qed.
Print Assumptions C77_rigid.
(** The same for a mesh size that depends on the position and moves with the surface. *)
Theorem C77_position_dependent fuel s F f sd msize msize' pts tris info : rigid f -> (forall p, F p = Ok (f p)) ->
  (forall a b c d, f (vscale (/4) (vadd (vadd (vadd a b) c) d)) = vscale (/4) (vadd (vadd (vadd (f a) (f b)) (f c)) (f d))) ->
  (forall p, msize' (f p) = msize p) ->
  mesh_surface fuel s msize sd = Ok ((pts, tris), info) ->
  mesh_surface fuel (surf_map F s) msize' sd = Ok ((map f pts, tris), info).
Proof.
  intros Hf HF HA HM E.
  assert (G : mesh_surface fuel (surf_map F s) msize' sd = rmap (fun x => ((map f (fst (fst x)), snd (fst x)), snd x)) (mesh_surface fuel s msize sd)).
  { apply (mesh_similar 1 1 f).
    - repeat split; cbn [surf_map slen1 slen2 sbps1 sbps2 sfun]; try (symmetry; apply Rmult_1_l); [lra|intros p q; rewrite Hf, Rmult_1_l; reflexivity| | |].
      + rewrite <- (map_id (sbps1 s)) at 1. apply map_ext. intros x. symmetry. apply Rmult_1_l.
      + rewrite <- (map_id (sbps2 s)) at 1. apply map_ext. intros x. symmetry. apply Rmult_1_l.
      + intros u v. rewrite !Rmult_1_l. destruct (sfun s u v); [apply HF|reflexivity].
    - intros a b c d. unfold centre4. rewrite <- HA, HM. destruct (msize _); cbn [rmap]; [rewrite Rmult_1_l|]; reflexivity. }
  rewrite G, E. reflexivity.
Qed.
Print Assumptions C77_position_dependent.
Theorem C77_move_rotate_mirror fuel s mesh_size factor pts tris info :
  surface_mesh fuel s mesh_size factor = Ok ((pts, tris), info) ->
  (forall d, surface_mesh fuel (surf_map (fun p => Ok (move d p)) s) mesh_size factor = Ok ((map (move d) pts, tris), info)) /\
  (forall ax angle origin F, angle <> 0 -> rotate_about ax angle origin = Ok F ->
     exists pts', mapM F pts = Ok pts' /\ surface_mesh fuel (surf_map F s) mesh_size factor = Ok ((pts', tris), info)) /\
  (forall m, In m [mirror_xz; mirror_yz; mirror_xy] ->
     surface_mesh fuel (surf_map (fun p => Ok (m p)) s) mesh_size factor = Ok ((map m pts, tris), info)).
Proof.
  intros E. destruct (C12_move_and_mirror vzero) as (_ & _ & _ & M1 & M2 & M3 & _). split; [|split].
  - intros d. destruct (C12_move_and_mirror d) as (D & _). apply (C77_rigid fuel s (fun p => Ok (move d p)) (move d) mesh_size factor D); [reflexivity|exact E].
  - intros ax angle origin F Ha HR. destruct (rotate_rodrigues ax angle origin Ha) as (F' & HF & Hf). rewrite HR in HF. injection HF as <-.
    exists (map (rodrigues (unit_of ax) angle origin) pts). split.
    + clear E. induction pts as [|p pts IH]; [reflexivity|]. cbn [mapM map]. rewrite Hf. cbn [bind]. rewrite IH. reflexivity.
    + apply (C77_rigid fuel s F (rodrigues (unit_of ax) angle origin) mesh_size factor); [intros p q; apply rodrigues_isometry, unit_of_unit|exact Hf|exact E].
  - intros m Hm. apply (C77_rigid fuel s (fun p => Ok (m p)) m mesh_size factor); [|reflexivity|exact E].
    destruct Hm as [<-|[<-|[<-|[]]]]; assumption.
Qed.
Print Assumptions C77_move_rotate_mirror.
(** Path: the mesh of a moved path is the mesh that the path itself gives when every computed point is
    moved before it is stored ([enc] is the storing of a point as float64). *)
Theorem C77_path o enc p F f ms msf ho name ensure : (forall q, F q = Ok (f q)) ->
  path_mesh o enc (path_map F p) ms msf ho name ensure = path_mesh o (fun q => enc (f q)) p ms msf ho name ensure.
Proof.
  intros HF. unfold path_mesh. cbn [path_map plen pbps pname pfun].
  destruct (discretize_path _ _ _ _ _) as [u|]; [|reflexivity]. cbn [bind].
  assert (E : mapM (fun x => v <- pfun p x ;; F v) u = rmap (map f) (mapM (pfun p) u)).
  { induction u as [|x u IH]; [reflexivity|]. cbn [mapM]. rewrite IH. destruct (pfun p x) as [q|]; [|reflexivity]. cbn [bind]. rewrite HF. cbn [bind].
    destruct (mapM (pfun p) u); reflexivity. }
  cbn [path_map pfun]. cbv beta in E |- *. rewrite E. destruct (mapM (pfun p) u) as [pts|]; [|reflexivity]. cbn [rmap bind]. rewrite map_map. reflexivity.
Qed.
Print Assumptions C77_path.

Example C76_nonvacuous : exists N pts tris info, forall fuel, (N <= fuel)%nat ->
  surface_mesh fuel (sphere 1) None (Some 4) = Ok ((pts, tris), info) /\
  surface_mesh fuel (sphere 3) None (Some 4) = Ok ((map (vscale 3) pts, tris), info).
Proof.
  assert (Hsz : 0 < surface_mesh_size (sphere 1) None (Some 4)).
  { cbn [surface_mesh_size sphere slen1 slen2]. pose proof PI_RGT_0. assert (0 < sqrt 4) by (apply sqrt_lt_R0; lra).
    apply Rdiv_lt_0_compat; [|assumption]. assert (0 < Rmin (2 * PI * 1) (PI * 1)); [|lra]. apply Rmin_glb_lt; lra. }
  destruct (C24_sphere_covered_partial 1 _ 2 Rlt_0_1 (Nat.le_succ_diag_r 1) Hsz) as (pts & tris & (N & info & H) & _).
  exists N, pts, tris, info. intros fuel Hf. specialize (H fuel Hf). split; [exact H|].
  apply (C76_enlarged fuel 3 (sphere 1) (sphere 3) (Some 4)); [lra| |exact H]. replace (sphere 3) with (sphere (3 * 1)) by (f_equal; ring). apply C76_sphere. lra.
Qed.
Example C77_nonvacuous : exists N pts tris info, forall fuel, (N <= fuel)%nat ->
  surface_mesh fuel (surf_move (V3 1 2 3) (sphere 1)) None (Some 4) = Ok ((map (move (V3 1 2 3)) pts, tris), info).
Proof.
  destruct C76_nonvacuous as (N & pts & tris & info & H). exists N, pts, tris, info. intros fuel Hf. destruct (H fuel Hf) as (E & _).
  destruct (C77_move_rotate_mirror fuel (sphere 1) None (Some 4) pts tris info E) as (G & _). apply G.
Qed.
