(** Meshes of similar surfaces are similar (used by C76, C77). *)
From Coq Require Import Reals Lra Psatz.
From Verif Require Import Base BaseFacts Vec GeomModel GeomFacts QuadModel KronrodFacts PathModel SurfaceModel MesherModel MesherFacts MesherSurf MesherSim.
Local Open Scope R_scope.

Lemma Rltb_scale k a b : 0 < k -> Rltb (k * a) (k * b) = Rltb a b.
Proof.
  intros Hk. destruct (Rltb a b) eqn:E.
  - apply Rltb_true in E. apply Rltb_true. apply Rmult_lt_compat_l; assumption.
  - apply Rltb_false in E. apply Rltb_false. apply Rmult_le_compat_l; lra.
Qed.
Lemma too_long_scale k ms a b : 0 < k -> too_long (k * ms) (k * a) (k * b) = too_long ms a b.
Proof.
  intros Hk. unfold too_long. rewrite Rltb_scale by exact Hk.
  replace (5/2 * (k * b)) with (k * (5/2 * b)) by ring. replace (1/8 * (k * ms)) with (k * (1/8 * ms)) by ring.
  rewrite !Rltb_scale by exact Hk. reflexivity.
Qed.
Lemma Rmax_scale k a b : 0 < k -> Rmax (k * a) (k * b) = k * Rmax a b.
Proof. intros Hk. rewrite RmaxRmult; [reflexivity|lra]. Qed.
Lemma Rmin_scale k a b : 0 < k -> Rmin (k * a) (k * b) = k * Rmin a b.
Proof. intros Hk. unfold Rmin. destruct (Rle_dec (k * a) (k * b)), (Rle_dec a b); try reflexivity; exfalso; nra. Qed.
Lemma decide_similar k f msize msize' a b c d : 0 < k -> (forall p q, dist3 (f p) (f q) = k * dist3 p q) ->
  msize' (centre4 (f a) (f b) (f c) (f d)) = rmap (Rmult k) (msize (centre4 a b c d)) ->
  decide_split msize' (f a) (f b) (f c) (f d) = decide_split msize a b c d.
Proof.
  intros Hk Hf Hm. unfold decide_split. rewrite Hm. destruct (msize _) as [m|]; [|reflexivity]. cbn [rmap bind].
  unfold horizontal, vertical. rewrite !Hf, !Rmax_scale, !too_long_scale by exact Hk. reflexivity.
Qed.
Definition rscale (k : R) (r : rect) : rect := ((k * fst (fst r), k * snd (fst r)), (k * fst (snd r), k * snd (snd r))).
Lemma removelast_map {A B} (g : A -> B) l : removelast (map g l) = map g (removelast l).
Proof. induction l as [|x [|y l] IH]; cbn [map removelast] in *; [reflexivity|reflexivity|rewrite IH; reflexivity]. Qed.
Lemma combine_map {A B C D} (g : A -> B) (h : C -> D) l : forall l', combine (map g l) (map h l') = map (fun x => (g (fst x), h (snd x))) (combine l l').
Proof. induction l as [|x l IH]; intros [|y l']; cbn [map combine]; try reflexivity. rewrite IH. reflexivity. Qed.
Lemma intervals_scale k l len : intervals (cuts (map (Rmult k) l) (k * len)) = map (fun x => (k * fst x, k * snd x)) (intervals (cuts l len)).
Proof.
  unfold intervals, cuts. replace (0 :: map (Rmult k) l ++ [k * len])%list with (map (Rmult k) (0 :: l ++ [len])%list).
  - rewrite removelast_map. change (tl (map (Rmult k) (0 :: l ++ [len])%list)) with (map (Rmult k) (tl (0 :: l ++ [len])%list)). apply combine_map.
  - cbn [map]. rewrite map_app, Rmult_0_r. reflexivity.
Qed.
(** surfaces related by a similarity of ratio [k], the parameters scaled by [j] *)
Definition surf_similar (k j : R) (f : vec3 -> vec3) (s s' : surface) : Prop :=
  0 < k /\ (forall p q, dist3 (f p) (f q) = k * dist3 p q) /\
  slen1 s' = j * slen1 s /\ slen2 s' = j * slen2 s /\ sbps1 s' = map (Rmult j) (sbps1 s) /\ sbps2 s' = map (Rmult j) (sbps2 s) /\
  forall u v, sfun s' (j * u) (j * v) = rmap f (sfun s u v).
Lemma rects_similar k j f s s' : surf_similar k j f s s' -> rects s' = map (rscale j) (rects s).
Proof.
  intros (_ & _ & L1 & L2 & B1 & B2 & _). unfold rects. rewrite L1, L2, B1, B2, !intervals_scale.
  induction (intervals (cuts (sbps1 s) (slen1 s))) as [|x l IH]; [reflexivity|].
  cbn [map list_prod]. rewrite map_app, !map_map.
  apply (f_equal2 (@app rect)); [reflexivity|exact IH].
Qed.
Lemma mesh_similar k j f s s' msize msize' sd fuel : surf_similar k j f s s' ->
  (forall a b c d, msize' (centre4 (f a) (f b) (f c) (f d)) = rmap (Rmult k) (msize (centre4 a b c d))) ->
  mesh_surface fuel s' msize' sd = rmap (fun x => ((map f (fst (fst x)), snd (fst x)), snd x)) (mesh_surface fuel s msize sd).
Proof.
  intros H Hm. pose proof (rects_similar _ _ _ _ _ H) as Hr. destruct H as (Hk & Hf & L1 & L2 & B1 & B2 & HS).
  unfold mesh_surface. rewrite !sections_rects, Hr, B1, B2, !map_map, !map_length. apply mesher_sim.
  - intros a b c d. apply (decide_similar k); [exact Hk|exact Hf|apply Hm].
  - clear Hr. induction (rects s) as [|r rs IH]; cbn [map]; [constructor|]. constructor; [|exact IH].
    intros d i i' _ _. unfold index_to_point, index_to_u, index_to_v, rsection, section, rscale. cbn [sfun slen1 slen2 fst snd]. rewrite <- HS. f_equal.
    + unfold Rdiv. ring.
    + unfold Rdiv. ring.
Qed.
