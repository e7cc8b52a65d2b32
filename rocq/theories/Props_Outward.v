(** C11 for whole meshes. *)
From Coq Require Import Reals Lra Permutation Relations.
From Verif Require Import Base BaseFacts Float64 OrientModel MeshModel MeshSpec DedupFacts MeshFacts MeshOps MeshMisc MeshExamples
  OrientConsist Vec GeomModel OutwardSpec OutwardFacts MeshOutward OutwardMeshFacts.

(** In every mesh made by the constructor, take a named group that does not share elements with another
    group and split it into its connected pieces: each piece that is a closed outline (closed hull) of
    non-zero area (volume) encloses positive area (volume), whatever the directions of the given elements.
    [pos] gives the positions the floating point test is applied to, and the test is assumed to decide the
    sign correctly. *)
Theorem C11_mesh_lines o points lines triangles pl pt m name idx pos :
  input_ok points lines triangles pl pt -> new_mesh o points lines triangles pl pt true = Ok m ->
  dget (m_plines m) name = Some idx -> NoDup idx ->
  (forall other v, other <> name -> dget (m_plines m) other = Some v -> forall k, In k idx -> ~ In k v) ->
  (forall l, o_line_outwards o (m_points m) l = line_outwards pos l) ->
  exists els, np_take (arows (m_lines m)) idx = Ok els /\ outlines_oriented true pos els.
Proof. exact (built_lines_outward o points lines triangles pl pt m name idx pos). Qed.
Print Assumptions C11_mesh_lines.

Theorem C11_mesh_triangles o points lines triangles pl pt m name idx pos :
  new_mesh o points lines triangles pl pt true = Ok m ->
  dget (m_ptriangles m) name = Some idx -> NoDup idx ->
  (forall other v, other <> name -> dget (m_ptriangles m) other = Some v -> forall k, In k idx -> ~ In k v) ->
  (forall l, o_tri_outwards o (m_points m) l = triangle_outwards pos l) ->
  exists els, np_take (arows (m_triangles m)) idx = Ok els /\ hulls_oriented true o (m_points m) pos els.
Proof. exact (built_triangles_outward o points lines triangles pl pt m name idx pos). Qed.
Print Assumptions C11_mesh_triangles.

(** A square of four lines with mixed directions next to a separate line. *)
Definition ex_square_pos (i : nat) : vec3 :=
  match i with 0 => V3 0 0 0 | 1 => V3 1 0 0 | 2 => V3 0 0 1 | 3 => V3 1 0 1 | _ => V3 5 0 5 end.
Definition ex_square_o : oracles :=
  {| o_degenerate := fun _ _ _ => false; o_tri_equal := fun _ _ _ => (-1)%Z; o_tri_outwards := fun _ _ => false;
     o_line_outwards := fun _ els => line_outwards ex_square_pos els; o_junk := fun i => i |}.
Definition ex_square : list row := [[0; 1]; [3; 1]; [3; 2]; [2; 0]].
Example C11_mesh_nonvacuous :
  (exists m, new_mesh ex_square_o [(f0, f0, f0); (f1, f0, f0); (f0, f0, f1); (f1, f0, f1)] (mkarr 2 ex_square) (mkarr 3 [])
    [("square"%string, [0; 1; 2; 3])] [] true = Ok m /\ dget (m_plines m) "square"%string = Some [0; 1; 2; 3] /\
    (forall other v, other <> "square"%string -> dget (m_plines m) other = Some v -> forall k, In k [0; 1; 2; 3] -> ~ In k v)) /\
  closed_outline ex_square_pos ex_square /\ closed_outline ex_square_pos [[0; 1]; [1; 3]; [3; 2]; [2; 0]] /\
  signed_area ex_square_pos [[0; 1]; [1; 3]; [3; 2]; [2; 0]] = 1%R.
Proof.
  split; [|split; [|split]].
  - destruct (MeshCtor.new_mesh_total ex_square_o [(f0, f0, f0); (f1, f0, f0); (f0, f0, f1); (f1, f0, f1)] (mkarr 2 ex_square) (mkarr 3 [])
      [("square"%string, [0; 1; 2; 3])] [] true) as (m & Hm & _ & B); [apply input_okb_ok; vm_compute; reflexivity|].
    exists m. pose proof (MeshCtor.b_pl _ _ _ _ _ _ _ _ B) as Hp. split; [exact Hm|]. rewrite Hp. split; [reflexivity|].
    intros other v N H. cbn [dget] in H. destruct (String.eqb_spec "square"%string other) as [E|E]; [congruence|discriminate].
  - repeat split.
    + intros v. destruct v as [|[|[|[|v]]]]; unfold degree; simpl; auto.
    + intros i j r s v Hi _ Hv. destruct i as [|[|[|[|i]]]]; try (destruct i; discriminate); injection Hi as <-; destruct Hv.
    + intros i Hi. simpl in Hi.
      assert (S : forall a b r s v, nth_error ex_square a = Some r -> nth_error ex_square b = Some s -> In v r -> In v s -> connected (map (firstn 2) ex_square) a b).
      { intros a b r s v Ha Hb Vr Vs. apply rt_step. exists r, s, v. replace (map (firstn 2) ex_square) with ex_square by reflexivity. auto. }
      assert (C01 : connected (map (firstn 2) ex_square) 0 1) by (apply (S 0 1 [0; 1] [3; 1] 1); simpl; auto).
      assert (C12 : connected (map (firstn 2) ex_square) 1 2) by (apply (S 1 2 [3; 1] [3; 2] 3); simpl; auto).
      assert (C23 : connected (map (firstn 2) ex_square) 2 3) by (apply (S 2 3 [3; 2] [2; 0] 2); simpl; auto).
      destruct i as [|[|[|[|i]]]]; [apply rt_refl|exact C01|eapply rt_trans; eauto|eapply rt_trans; [exact C01|eapply rt_trans; eauto]|lia].
    + destruct H as [<-|[<-|[<-|[<-|[]]]]]; simpl; lra.
    + destruct H as [<-|[<-|[<-|[<-|[]]]]]; simpl; lra.
    + destruct H as [<-|[<-|[<-|[<-|[]]]]]; simpl; intros Q; injection Q; intros; lra.
  - set (sq := [[0; 1]; [1; 3]; [3; 2]; [2; 0]]). repeat split.
    + intros v. destruct v as [|[|[|[|v]]]]; unfold degree; simpl; auto.
    + intros i j r s v Hi _ Hv. destruct i as [|[|[|[|i]]]]; try (destruct i; discriminate); injection Hi as <-; destruct Hv.
    + intros i Hi. simpl in Hi.
      assert (S : forall a b r s v, nth_error sq a = Some r -> nth_error sq b = Some s -> In v r -> In v s -> connected (map (firstn 2) sq) a b).
      { intros a b r s v Ha Hb Vr Vs. apply rt_step. exists r, s, v. replace (map (firstn 2) sq) with sq by reflexivity. auto. }
      assert (C01 : connected (map (firstn 2) sq) 0 1) by (apply (S 0 1 [0; 1] [1; 3] 1); simpl; auto).
      assert (C12 : connected (map (firstn 2) sq) 1 2) by (apply (S 1 2 [1; 3] [3; 2] 3); simpl; auto).
      assert (C23 : connected (map (firstn 2) sq) 2 3) by (apply (S 2 3 [3; 2] [2; 0] 2); simpl; auto).
      destruct i as [|[|[|[|i]]]]; [apply rt_refl|exact C01|eapply rt_trans; eauto|eapply rt_trans; [exact C01|eapply rt_trans; eauto]|lia].
    + destruct H as [<-|[<-|[<-|[<-|[]]]]]; simpl; lra.
    + destruct H as [<-|[<-|[<-|[<-|[]]]]]; simpl; lra.
    + destruct H as [<-|[<-|[<-|[<-|[]]]]]; simpl; intros Q; injection Q; intros; lra.
  - unfold signed_area. simpl. lra.
Qed.
