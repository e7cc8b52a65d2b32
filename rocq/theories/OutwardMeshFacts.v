(** Meshes as built: connected pieces of groups enclose positive area or volume (C11, C48). *)
From Coq Require Import Reals Permutation Relations Lra.
From Verif Require Import Base BaseFacts Float64 OrientModel MeshModel MeshSpec OrientFacts LabelFacts DedupFacts MeshFacts MeshCtor
  MeshOps MeshExtract MeshMisc OrientConsist Vec GeomModel OutwardSpec OutwardFacts MeshOutward.

(** A closed outline in the plane y = 0: every end point belongs to two lines, all lines hang together
    through their end points, and the inner points of higher order lines are not end points. *)
Definition closed_outline (pos : nat -> vec3) (part : list row) : Prop :=
  (forall v, degree part v = 0 \/ degree part v = 2) /\ inner_points_free part /\ ends_connected part /\
  (forall r, In r part -> planar_line pos r).
(** A closed orientable surface: every edge belongs to two triangles, all triangles hang together through
    edges, consistent directions exist, and the floating point comparison of triangles is right about it. *)
Definition closed_hull (o : oracles) (pts : list point) (pos : nat -> vec3) (part : list row) : Prop :=
  Forall proper_triangle part /\ comparison_ok o pts part /\ (exists ref, Forall2 tri_sf part ref /\ opposite_edges ref) /\
  (forall i, i < length part -> edge_connected part 0 i) /\ every_edge_shared part /\
  (forall r, In r part -> proper_area pos r).

(** The connected pieces of a list of elements. *)
Definition pieces_of (els : list row) (pieces : list (list nat)) : Prop :=
  Permutation (concat pieces) (seq 0 (length els)) /\
  (forall p, In p pieces -> forall i j, In i p -> (In j p <-> connected els i j)).

(** Every piece that is a closed outline of non-zero area encloses positive area (negative if [b] is
    false), with its lines head to tail. *)
Definition outlines_oriented (b : bool) (pos : nat -> vec3) (els : list row) : Prop :=
  exists pieces, pieces_of els pieces /\
    forall p part, In p pieces -> np_take els p = Ok part -> closed_outline pos part ->
      closed_loop part /\ head_to_tail part /\
      (signed_area pos part <> 0%R -> if b then (0 < signed_area pos part)%R else (signed_area pos part < 0)%R).
Definition hulls_oriented (b : bool) (o : oracles) (pts : list point) (pos : nat -> vec3) (els : list row) : Prop :=
  exists pieces, pieces_of els pieces /\
    forall p part, In p pieces -> np_take els p = Ok part -> closed_hull o pts pos part ->
      closed_surface part /\ opposite_edges part /\
      (signed_volume pos part <> 0%R -> if b then (0 < signed_volume pos part)%R else (signed_volume pos part < 0)%R).

Lemma oriented_outlines o pts pos b els pieces :
  (forall l, o_line_outwards o pts l = line_outwards pos l) -> (all_width 2 els || all_width 4 els = true) ->
  oriented line_sf (ensure_line_orientation o pts b) els pieces -> outlines_oriented b pos els.
Proof.
  intros Ho Hw (els0 & F & Pm & Cn & K). exists pieces. split; [split; assumption|]. intros p part' Hp Ht' (D & I & E & Pl).
  destruct (K p Hp) as (part & part1 & Ht & He & Ht1). rewrite Ht' in Ht1. injection Ht1 as <-.
  pose proof (ensure_line_orientation_sf _ _ _ _ _ He) as S.
  assert (W' : all_width 2 part' || all_width 4 part' = true).
  { apply orb_true_iff in Hw. apply orb_true_iff. destruct Hw as [Hw|Hw]; [left|right]; apply all_width_Forall; apply all_width_Forall in Hw;
      eapply np_take_Forall; eauto. }
  assert (W2' : Forall (fun r : row => length r = 2 \/ length r = 4) part').
  { apply orb_true_iff in W'. destruct W' as [Q|Q]; apply all_width_Forall in Q; eapply Forall_impl; [|exact Q| |exact Q]; simpl; auto. }
  pose proof (Forall2_swap line_sf part part' line_sf_sym S) as S'.
  assert (W : all_width 2 part || all_width 4 part = true).
  { apply orb_true_iff in W'. apply orb_true_iff. destruct W' as [Q|Q]; [left|right]; apply all_width_Forall; apply all_width_Forall in Q;
      (eapply (Forall_rel line_sf); [|exact S'|exact Q]; intros a c Hac Ha; apply line_sf_length in Hac; lia). }
  apply (ensure_line_outward o pts pos b part part' Ho W); auto.
  - intros v. rewrite (degree_sf part' part v W2' S'). apply D.
  - apply (inner_points_free_sf part' part W2' S' I).
  - apply (ends_connected_sf part' part W2' S' E).
  - intros r Hr. destruct (In_nth_error _ _ Hr) as [i Hi]. destruct (Forall2_nth_r _ _ _ _ _ S' Hi) as (r' & Hi' & Sr).
    apply (planar_sf pos r' r); [|exact Sr|apply Pl; eapply nth_error_In; exact Hi'].
    rewrite Forall_forall in W2'. apply W2'. eapply nth_error_In; exact Hi'.
Qed.

Lemma oriented_hulls o pts pos b els pieces :
  (forall l, o_tri_outwards o pts l = triangle_outwards pos l) ->
  oriented tri_sf (ensure_triangle_orientation o pts b) els pieces -> hulls_oriented b o pts pos els.
Proof.
  intros Ho (els0 & F & Pm & Cn & K). exists pieces. split; [split; assumption|]. intros p part' Hp Ht' (Pr & Cm & (ref & R1 & R2) & Ec & Es & Pa).
  destruct (K p Hp) as (part & part1 & Ht & He & Ht1). rewrite Ht' in Ht1. injection Ht1 as <-.
  pose proof (ensure_triangle_orientation_sf _ _ _ _ _ He) as S.
  pose proof (Forall2_swap tri_sf part part' tri_sf_sym S) as S'.
  assert (W' : Forall (fun r : row => length r = 3) part').
  { eapply Forall_impl; [|exact Pr]. intros r (x & y & z & -> & _). reflexivity. }
  apply (ensure_triangle_outward o pts pos b part part' Ho); auto.
  - apply Forall_forall. intros r Hr. destruct (In_nth_error _ _ Hr) as [i Hi]. destruct (Forall2_nth_r _ _ _ _ _ S' Hi) as (r' & Hi' & Sr).
    apply (proper_sf r' r); [|exact Sr]. rewrite Forall_forall in Pr. apply Pr. eapply nth_error_In; exact Hi'.
  - apply (comparison_sf o pts part' part S' Cm).
  - exists ref. split; [|exact R2]. eapply Forall2_trans_all; [apply tri_sf_trans|exact S|exact R1].
  - intros i Hi. apply (edge_connected_sf part' part W' S'). apply Ec. rewrite <- (Forall2_length _ _ _ S). exact Hi.
  - apply (every_edge_shared_sf part' part W' S' Es).
  - intros r Hr. destruct (In_nth_error _ _ Hr) as [i Hi]. destruct (Forall2_nth_r _ _ _ _ _ S' Hi) as (r' & Hi' & Sr).
    apply (proper_area_sf pos r' r); [|exact Sr]. apply Pa. eapply nth_error_In; exact Hi'.
Qed.

Lemma mesh_lines_width m idx els : mesh_ok m -> np_take (arows (m_lines m)) idx = Ok els -> all_width 2 els || all_width 4 els = true.
Proof.
  intros [_ L _ _ _] Ht. assert (Wd : Forall (fun r : row => length r = aw (m_lines m)) els).
  { eapply np_take_Forall; [exact Ht|]. eapply rows_width; exact L. }
  destruct els as [|e els]; [reflexivity|]. destruct L as [L _].
  assert (N : arows (m_lines m) <> []).
  { intros Q. rewrite Q in Ht. apply np_take_ok in Ht. inversion Ht; subst. destruct x; discriminate. }
  specialize (L N). apply orb_true_iff. simpl in L. destruct L as [L|[L|[]]]; [left|right]; apply all_width_Forall; rewrite L; exact Wd.
Qed.

Lemma built_lines_outward o points lines triangles pl pt m name idx pos :
  input_ok points lines triangles pl pt -> new_mesh o points lines triangles pl pt true = Ok m ->
  dget (m_plines m) name = Some idx -> NoDup idx -> apart (m_plines m) name idx ->
  (forall l, o_line_outwards o (m_points m) l = line_outwards pos l) ->
  exists els, np_take (arows (m_lines m)) idx = Ok els /\ outlines_oriented true pos els.
Proof.
  intros Hin H Hg ND Ha Ho. assert (M : mesh_ok m) by (destruct (new_mesh_total o points lines triangles pl pt true Hin) as (m' & Hm' & Mk & _); congruence).
  destruct (new_mesh_ensure _ _ _ _ _ _ _ H) as (m0 & _ & He).
  rewrite ensure_all_seq in He. destruct (ensure_seq_flips _ _ _ _ _ He) as (F1 & _ & _ & _ & _ & F6 & _). rewrite F6 in Hg, Ha.
  destruct (ensure_seq_lines o _ _ m0 m name idx He) as (els & pieces & Ht & Hor); auto.
  { unfold get_electrodes. apply in_or_app. left. apply dget_In in Hg. apply in_map_iff. exists (name, idx). auto. }
  exists els. split; [exact Ht|]. eapply oriented_outlines; [|eapply mesh_lines_width; eauto|exact Hor].
  rewrite <- F1. exact Ho.
Qed.
Lemma built_triangles_outward o points lines triangles pl pt m name idx pos :
  new_mesh o points lines triangles pl pt true = Ok m ->
  dget (m_ptriangles m) name = Some idx -> NoDup idx -> apart (m_ptriangles m) name idx ->
  (forall l, o_tri_outwards o (m_points m) l = triangle_outwards pos l) ->
  exists els, np_take (arows (m_triangles m)) idx = Ok els /\ hulls_oriented true o (m_points m) pos els.
Proof.
  intros H Hg ND Ha Ho.
  destruct (new_mesh_ensure _ _ _ _ _ _ _ H) as (m0 & _ & He).
  rewrite ensure_all_seq in He. destruct (ensure_seq_flips _ _ _ _ _ He) as (F1 & _ & _ & _ & _ & _ & F7). rewrite F7 in Hg, Ha.
  destruct (ensure_seq_triangles o _ _ m0 m name idx He) as (els & pieces & Ht & Hor); auto.
  { unfold get_electrodes. apply in_or_app. right. apply dget_In in Hg. apply in_map_iff. exists (name, idx). auto. }
  exists els. split; [exact Ht|]. rewrite F1. eapply oriented_hulls; [|exact Hor].
  rewrite <- F1. exact Ho.
Qed.
