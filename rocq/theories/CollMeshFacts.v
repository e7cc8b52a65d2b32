(** Sums of the meshes of the members of a collection. *)
From Coq Require Import Relations Sorted.
From Verif Require Import Base Float64 OrientModel MeshModel MeshSpec BaseFacts Float64Facts DedupFacts MeshFacts MeshCtor MeshOps MeshExtract MeshMisc MeshPropFacts CollMeshModel CollMeshSpec.

Lemma same_place_trans a r b s c t : canonical_points b -> same_place a r b s -> same_place b s c t -> same_place a r c t.
Proof.
  intros [_ Hc] H. revert t. unfold same_place in *. induction H as [|i j r s (p & q & A & B & C) H IH]; intros t G; inversion G as [|j' k s' t' (q' & u & D & E & F) G']; subst; constructor; [|auto].
  assert (q' = q) by congruence. subst q'. exists p, u. repeat split; try assumption.
  rewrite Forall_forall in Hc. rewrite (Hc q (nth_error_In _ _ B)) in F. exact (pt_eqb_trans _ _ _ F C).
Qed.
Lemma same_line_trans a r b s c t : canonical_points b -> same_line a r b s -> same_line b s c t -> same_line a r c t.
Proof.
  intros Hc [H|H] [G|G].
  - left. exact (same_place_trans _ _ _ _ _ _ Hc H G).
  - right. exact (same_place_trans _ _ _ _ _ _ Hc (same_place_reversed_line _ _ _ _ H) G).
  - right. exact (same_place_trans _ _ _ _ _ _ Hc H G).
  - left. apply same_place_reversed_line in H. rewrite reversed_line_inv in H. exact (same_place_trans _ _ _ _ _ _ Hc H G).
Qed.
Lemma same_triangle_trans a r b s c t : canonical_points b -> same_triangle a r b s -> same_triangle b s c t -> same_triangle a r c t.
Proof.
  intros Hc [H|H] [G|G].
  - left. exact (same_place_trans _ _ _ _ _ _ Hc H G).
  - right. exact (same_place_trans _ _ _ _ _ _ Hc (same_place_reversed_triangle _ _ _ _ H) G).
  - right. exact (same_place_trans _ _ _ _ _ _ Hc H G).
  - left. apply same_place_reversed_triangle in H. rewrite reversed_triangle_inv in H. exact (same_place_trans _ _ _ _ _ _ Hc H G).
Qed.
Lemma same_line_length a r b s : same_line a r b s -> length s = length r.
Proof. intros [H|H]; apply same_place_length in H; rewrite H; [reflexivity|apply reversed_line_length]. Qed.
Lemma Forall2_in_r {A B} (P : A -> B -> Prop) l m b : Forall2 P l m -> In b m -> exists a, In a l /\ P a b.
Proof. induction 1; intros []; subst; [eexists; split; [left; reflexivity|assumption]|]. destruct (IHForall2 H1) as (a & Ha & Pa). exists a. split; [right; exact Ha|exact Pa]. Qed.
Lemma Forall2_trans {A B C} (P : A -> B -> Prop) (Q : B -> C -> Prop) (S : A -> C -> Prop) l1 l2 l3 :
  (forall a b c, P a b -> Q b c -> S a c) -> Forall2 P l1 l2 -> Forall2 Q l2 l3 -> Forall2 S l1 l3.
Proof. intros H F. revert l3. induction F; intros l3 G; inversion G; subst; constructor; eauto. Qed.
Lemma Forall2_concat_inv {A B} (P : A -> B -> Prop) (ls : list (list A)) (l : list B) :
  Forall2 P (concat ls) l -> exists ms, l = concat ms /\ Forall2 (Forall2 P) ls ms.
Proof.
  revert l. induction ls as [|x ls IH]; cbn [concat]; intros l H; [inversion H; exists []; split; [reflexivity|constructor]|].
  apply Forall2_app_inv_l in H. destruct H as (l1 & l2 & F1 & F2 & ->). destruct (IH _ F2) as (ms & -> & G). exists (l1 :: ms). split; [reflexivity|constructor; assumption].
Qed.

(** ** Groups *)
Lemma both_assoc a b c : both (both a b) c = both a (both b c).
Proof. destruct a as [x|], b as [y|], c as [z|]; cbn; try reflexivity. rewrite app_assoc. reflexivity. Qed.
Lemma both_none_r a : both a None = a.
Proof. destruct a; reflexivity. Qed.
Lemma members_named_app nm l : forall s n k, members_named nm s (l ++ [(n, k)]) = both (members_named nm s l) (if named n nm then Some (seq (s + total l) k) else None).
Proof.
  induction l as [|[n0 k0] l IH]; intros s n k; cbn [app members_named total].
  - rewrite both_none_r, Nat.add_0_r. destruct (named n nm); reflexivity.
  - rewrite IH, both_assoc. replace (s + (k0 + total l)) with (s + k0 + total l) by lia. reflexivity.
Qed.
Lemma total_app l n k : total (l ++ [(n, k)]) = total l + k.
Proof. induction l as [|[a b] l IH]; cbn [app total]; lia. Qed.
Lemma one_group_get n k nm : dget (one_group n k) nm = if named n nm then Some (arange k) else None.
Proof. destruct n as [n|]; cbn; [|reflexivity]. destruct (String.eqb n nm); reflexivity. Qed.
Lemma one_group_ok n k : groups_ok k (one_group n k).
Proof. destruct n as [n|]; [apply groups_one|]. split; [constructor|intros ? ? ? []]. Qed.
Lemma arange_shift s k : map (fun i => i + s) (arange k) = seq s k.
Proof. unfold arange. assert (H : forall a, map (fun i => i + s) (seq a k) = seq (a + s) k) by (induction k as [|k IH]; intros a; cbn; [reflexivity|]; f_equal; apply (IH (S a))). apply (H 0). Qed.

Lemma empty_built o : new_mesh o [] no_lines no_triangles [] [] true = Ok empty_mesh.
Proof. reflexivity. Qed.

(** ** Lines *)
Section lines.
Variables (o : oracles) (w : nat) (nm0 : option string) (ens : bool).
Definition path_ok (x : member) : Prop := aw (mb_elements x) = w /\ input_ok (mb_points x) (mb_elements x) no_triangles [] [].
Record lines_of (xs : list member) (m : mesh) : Prop := {
  lo_ok : mesh_ok m; lo_canon : canonical_points (m_points m); lo_tri : arows (m_triangles m) = [];
  lo_pt : forall nm, dget (m_ptriangles m) nm = None;
  lo_points : forall q, In q (m_points m) -> exists x p, In x xs /\ In p (mb_points x) /\ q = pt_trunc p;
  lo_all : forall x p, In x xs -> In p (mb_points x) -> In (pt_key (pt_trunc p)) (map pt_key (m_points m));
  lo_parts : exists parts, arows (m_lines m) = concat parts /\
    Forall2 (fun x part => Forall2 (fun r r' => same_line (mb_points x) r (m_points m) r') (arows (mb_elements x)) part) xs parts /\
    forall nm, dget (m_plines m) nm = members_named nm 0 (map (fun x => (name_or nm0 (mb_name x), length (arows (mb_elements x)))) xs) }.
Lemma lines_nil : lines_of [] empty_mesh.
Proof.
  constructor; cbn; try tauto; try reflexivity; [apply mesh0_ok|split; constructor|]. exists []. repeat split. constructor.
Qed.
Lemma member_lines x m : path_ok x -> member_mesh o Paths x nm0 ens = Ok m ->
  mesh_ok m /\ canonical_points (m_points m) /\ arows (m_triangles m) = [] /\ m_ptriangles m = [] /\ aw (m_lines m) = w /\
  (forall q, In q (m_points m) -> exists p, In p (mb_points x) /\ q = pt_trunc p) /\
  (forall k, In k (map pt_key (m_points m)) <-> In k (map (fun p => pt_key (pt_trunc p)) (mb_points x))) /\
  Forall2 (fun r r' => same_line (mb_points x) r (m_points m) r') (arows (mb_elements x)) (arows (m_lines m)) /\
  m_plines m = one_group (name_or nm0 (mb_name x)) (length (arows (mb_elements x))).
Proof.
  intros [Hw Hin] E. unfold member_mesh in E.
  assert (Hin' : input_ok (mb_points x) (mb_elements x) no_triangles (one_group (name_or nm0 (mb_name x)) (length (arows (mb_elements x)))) []).
  { destruct Hin. constructor; try assumption. apply one_group_ok. }
  destruct (new_mesh_total o _ _ _ _ _ ens Hin') as (m' & E' & K & B). rewrite E in E'. injection E' as <-. destruct B.
  repeat (split; [first [assumption|idtac]|]); try assumption.
  - cbn in b_tris. inversion b_tris. reflexivity.
  - destruct (m_ptriangles m) as [|g t] eqn:Eg; [reflexivity|]. cbn in b_ptkeys. discriminate.
  - rewrite b_lw. exact Hw.
Qed.
Lemma lines_step xs acc x m : Forall path_ok xs -> path_ok x -> lines_of xs acc -> member_mesh o Paths x nm0 ens = Ok m ->
  exists acc', mesh_add o acc m = Ok acc' /\ lines_of (xs ++ [x]) acc'.
Proof.
  intros Hxs Hx L Em. destruct (member_lines x m Hx Em) as (Km & Cm & Tm & Pm & Wm & Qm & KKm & Lm & Gm).
  destruct L as [Lok Lc Lt Lpt Lp La (parts & Lr & Lf & Lg)].
  assert (Hc : compatible (m_lines acc) (m_lines m)).
  { unfold compatible. destruct (arows (m_lines acc)) as [|r rs] eqn:Er; [left; reflexivity|]. right; right. rewrite Wm.
    assert (Hr : In r (arows (m_lines acc))) by (rewrite Er; left; reflexivity).
    destruct Lok as [_ [_ Kl] _ _ _]. rewrite <- (proj1 (Kl r Hr)).
    assert (Hrc : In r (concat parts)) by (rewrite <- Lr; left; reflexivity). clear - Lf Hrc Hxs. unfold path_ok in Hxs.
    induction Lf as [|y part ys parts F G IH]; [destruct Hrc|]. apply Forall_cons_iff in Hxs. destruct Hxs as [[Ew Hy] Hys].
    cbn in Hrc. apply in_app_iff in Hrc. destruct Hrc as [Hr|Hr]; [|exact (IH Hys Hr)].
    destruct (Forall2_in_r _ _ _ _ F Hr) as (r0 & Hr0 & S). rewrite (same_line_length _ _ _ _ S), <- Ew. destruct Hy as [_ [_ Ky] _ _ _]. exact (proj1 (Ky r0 Hr0)). }
  destruct (mesh_add_total o acc m Lok Km Hc) as (acc' & Ea & S). exists acc'. split; [exact Ea|].
  destruct S as [Sok Sc Sk Sp Stw (l1 & l2 & Sl & S1 & S2) (t1 & t2 & St & T1 & T2) Spl Spt].
  constructor; try assumption.
  - rewrite St. rewrite Lt in T1. rewrite Tm in T2. inversion T1. inversion T2. reflexivity.
  - intros nm. rewrite Spt, Lpt, Pm. reflexivity.
  - intros q Hq. destruct (Sp q Hq) as (p & Hp & ->). apply in_app_iff in Hp. destruct Hp as [Hp|Hp].
    + destruct (Lp p Hp) as (y & p0 & Hy & Hp0 & ->). exists y, p0. rewrite pt_trunc_idem. split; [apply in_app_iff; left; exact Hy|split; [exact Hp0|reflexivity]].
    + destruct (Qm p Hp) as (p0 & Hp0 & ->). exists x, p0. rewrite pt_trunc_idem. split; [apply in_app_iff; right; left; reflexivity|split; [exact Hp0|reflexivity]].
  - intros y p Hy Hp. apply Sk. apply in_app_iff in Hy. destruct Hy as [Hy|[<-|[]]].
    + left. rewrite (canonical_keys _ Lc). exact (La y p Hy Hp).
    + right. rewrite (canonical_keys _ Cm). apply KKm. apply in_map_iff. exists p. split; [reflexivity|exact Hp].
  - rewrite Lr in S1. apply Forall2_concat_inv in S1. destruct S1 as (parts1 & -> & S1). exists (parts1 ++ [l2]). split; [|split].
    + rewrite concat_app. cbn. rewrite app_nil_r. exact Sl.
    + apply Forall2_app.
      * clear - Lf S1 Lc. revert parts1 S1. induction Lf as [|y part ys parts F G IH]; intros parts1 S1; inversion S1 as [|? part' ? parts' Hp Hps]; subst; constructor; [|apply IH; assumption].
        refine (Forall2_trans _ _ _ _ _ _ _ F Hp). intros a b c A B. exact (same_line_trans _ _ _ _ _ _ Lc A B).
      * constructor; [|constructor]. refine (Forall2_trans _ _ _ _ _ _ _ Lm S2). intros a b c A B. exact (same_line_trans _ _ _ _ _ _ Cm A B).
    + intros nm. rewrite Spl, Lg, Gm, map_app. cbn [map]. rewrite members_named_app, one_group_get. cbn [Nat.add].
      destruct (named (name_or nm0 (mb_name x)) nm); [|reflexivity]. cbn [option_map]. rewrite arange_shift. repeat f_equal.
      rewrite Lr. clear - Lf. induction Lf as [|y part ys parts F G IH]; [reflexivity|]. cbn [concat map total]. rewrite app_length, IH, <- (Forall2_length _ _ _ F). reflexivity.
Qed.
Lemma lines_sum rest : forall xs acc, Forall path_ok xs -> Forall path_ok rest -> lines_of xs acc ->
  exists m, sum_members o Paths rest nm0 ens acc = Ok m /\ lines_of (xs ++ rest) m.
Proof.
  induction rest as [|x rest IH]; intros xs acc Hxs Hr L; [exists acc; rewrite app_nil_r; split; [reflexivity|exact L]|].
  apply Forall_cons_iff in Hr. destruct Hr as [Hx Hr].
  assert (Em : exists m, member_mesh o Paths x nm0 ens = Ok m).
  { destruct Hx as [_ Hin].
    assert (Hin' : input_ok (mb_points x) (mb_elements x) no_triangles (one_group (name_or nm0 (mb_name x)) (length (arows (mb_elements x)))) []).
    { destruct Hin. constructor; try assumption. apply one_group_ok. }
    destruct (new_mesh_total o _ _ _ _ _ ens Hin') as (m' & E' & _). exists m'. exact E'. }
  destruct Em as (m & Em). destruct (lines_step xs acc x m Hxs Hx L Em) as (acc' & Ea & L').
  cbn [sum_members]. rewrite Em. cbn [bind]. rewrite Ea. cbn [bind].
  destruct (IH (xs ++ [x]) acc' ltac:(apply Forall_app; split; [exact Hxs|constructor; [exact Hx|constructor]]) Hr L') as (m' & E' & L'').
  exists m'. split; [exact E'|]. rewrite <- app_assoc in L''. exact L''.
Qed.
End lines.

(** ** Triangles *)
Lemma survives_same o a r b s : area_of_coordinates o -> length r = 3 -> canonical_points b -> same_triangle a r b s -> survives o b s = survives o (map pt_trunc a) r.
Proof.
  intros [Hsym Hco] Hl _ H.
  assert (G : forall r, length r = 3 -> same_place a r b s -> survives o b s = survives o (map pt_trunc a) r).
  { clear r Hl H. intros r Hl H. destruct r as [|i [|j [|k [|]]]]; try discriminate. unfold same_place in H.
    inversion H as [|? i' ? ? (p & p' & A1 & A2 & A3) H1]; subst. inversion H1 as [|? j' ? ? (q & q' & B1 & B2 & B3) H2]; subst.
    inversion H2 as [|? k' ? ? (u & u' & C1 & C2 & C3) H3]; subst. inversion H3; subst. unfold survives. cbn [firstn map].
    rewrite !nth_error_map, A1, A2, B1, B2, C1, C2. cbn [option_map]. f_equal. apply Hco; assumption. }
  destruct H as [H|H]; [exact (G r Hl H)|].
  rewrite (G _ ltac:(rewrite reversed_triangle_length; exact Hl) H). apply survives_reversed; [exact Hsym|exact Hl].
Qed.
Lemma filter_filter {A} (f g : A -> bool) l : filter f (filter g l) = filter (fun x => g x && f x) l.
Proof. induction l as [|x l IH]; cbn; [reflexivity|]. destruct (g x); cbn; [destruct (f x); rewrite IH; reflexivity|exact IH]. Qed.
Lemma Forall2_filter {A B} (P : A -> B -> Prop) (f : A -> bool) (g : B -> bool) l m : (forall a b, In a l -> P a b -> g b = f a) -> Forall2 P l m -> Forall2 P (filter f l) (filter g m).
Proof.
  intros H F. induction F as [|a b l m Pab F IH]; [constructor|]. cbn. rewrite (H a b (or_introl eq_refl) Pab).
  specialize (IH (fun x y Hx => H x y (or_intror Hx))). destruct (f a); [constructor; assumption|exact IH].
Qed.
Lemma filter_all {A} (f : A -> bool) l : (forall x, In x l -> f x = true) -> filter f l = l.
Proof. induction l as [|x l IH]; intros H; cbn; [reflexivity|]. rewrite (H x (or_introl eq_refl)), IH; [reflexivity|intros y Hy; apply H; right; exact Hy]. Qed.

Section triangles.
Variables (o : oracles) (nm0 : option string) (ens : bool).
Hypothesis area : area_of_coordinates o.
Definition surface_ok (x : member) : Prop := input_ok (mb_points x) no_lines (mb_elements x) [] [].
Record triangles_of (xs : list member) (m : mesh) : Prop := {
  to_ok : mesh_ok m; to_canon : canonical_points (m_points m); to_lines : arows (m_lines m) = [];
  to_pl : forall nm, dget (m_plines m) nm = None;
  to_points : forall q, In q (m_points m) -> exists x p, In x xs /\ In p (mb_points x) /\ q = pt_trunc p;
  to_all : forall x p, In x xs -> In p (mb_points x) -> In (pt_key (pt_trunc p)) (map pt_key (m_points m));
  to_parts : exists parts, arows (m_triangles m) = concat parts /\
    Forall2 (fun x part => Forall2 (fun r r' => same_triangle (mb_points x) r (m_points m) r') (kept_triangles o x) part) xs parts /\
    forall nm, dget (m_ptriangles m) nm = members_named nm 0 (map (fun x => (name_or nm0 (mb_name x), length (kept_triangles o x))) xs) }.
Lemma triangles_nil : triangles_of [] empty_mesh.
Proof.
  constructor; cbn; try tauto; try reflexivity; [apply mesh0_ok|split; constructor|]. exists []. repeat split. constructor.
Qed.
Lemma elements_3 x r : surface_ok x -> In r (arows (mb_elements x)) -> length r = 3.
Proof.
  intros [_ _ [H1 H2] _ _] Hr. rewrite (proj1 (H2 r Hr)). destruct H1 as [<-|[]]; [|reflexivity]. intros E. rewrite E in Hr. destruct Hr.
Qed.
Lemma kept_survive x m : surface_ok x -> canonical_points (m_points m) -> forall part, Forall2 (fun r r' => same_triangle (mb_points x) r (m_points m) r') (kept_triangles o x) part -> forall r, In r part -> survives o (m_points m) r = true.
Proof.
  intros Hx Hc part F r Hr. destruct (Forall2_in_r _ _ _ _ F Hr) as (r0 & Hr0 & S). unfold kept_triangles in Hr0. apply filter_In in Hr0. destruct Hr0 as [Hi Ht]. apply andb_prop in Ht.
  rewrite (survives_same o _ _ _ _ area (elements_3 x r0 Hx Hi) Hc S). apply Ht.
Qed.
Lemma member_triangles x m : surface_ok x -> member_mesh o Surfaces x nm0 ens = Ok m ->
  mesh_ok m /\ canonical_points (m_points m) /\ arows (m_lines m) = [] /\ m_plines m = [] /\
  (forall q, In q (m_points m) -> exists p, In p (mb_points x) /\ q = pt_trunc p) /\
  (forall k, In k (map pt_key (m_points m)) <-> In k (map (fun p => pt_key (pt_trunc p)) (mb_points x))) /\
  Forall2 (fun r r' => same_triangle (mb_points x) r (m_points m) r') (kept_triangles o x) (filter (survives o (m_points m)) (arows (m_triangles m))) /\
  forall nm, option_map (kept_positions o m) (dget (m_ptriangles m) nm) = if named (name_or nm0 (mb_name x)) nm then Some (arange (length (kept_triangles o x))) else None.
Proof.
  intros Hin E. unfold member_mesh in E.
  assert (Hin' : input_ok (mb_points x) no_lines (mb_elements x) [] (one_group (name_or nm0 (mb_name x)) (length (arows (mb_elements x))))).
  { destruct Hin. constructor; try assumption. apply one_group_ok. }
  destruct (new_mesh_total o _ _ _ _ _ ens Hin') as (m' & E' & K & B). rewrite E in E'. injection E' as <-. destruct B.
  assert (FF : Forall2 (fun r r' => same_triangle (mb_points x) r (m_points m) r') (kept_triangles o x) (filter (survives o (m_points m)) (arows (m_triangles m)))).
  { replace (kept_triangles o x) with (filter (survives o (map pt_trunc (mb_points x))) (filter (survives o (mb_points x)) (arows (mb_elements x)))) by apply filter_filter.
    apply Forall2_filter; [|exact b_tris]. intros a b Ha Hab. apply filter_In in Ha. apply (survives_same o _ _ _ _ area); [exact (elements_3 x a Hin (proj1 Ha))|exact b_canon|exact Hab]. }
  repeat (split; [first [assumption|idtac]|]); try assumption.
  - cbn in b_lines. inversion b_lines. reflexivity.
  - intros nm. pose proof (one_group_get (name_or nm0 (mb_name x)) (length (arows (mb_elements x))) nm) as G. destruct (named (name_or nm0 (mb_name x)) nm) eqn:En.
    + destruct (b_pt nm _ G) as (v' & Hv' & Ev'). rewrite Hv'. cbn [option_map]. f_equal. rewrite Ev'. unfold survivors. rewrite ranks_all.
      unfold kept_positions, survivors. rewrite (Forall2_length _ _ _ b_tris), ranks_all. rewrite (Forall2_length _ _ _ FF). reflexivity.
    + replace (dget (m_ptriangles m) nm) with (@None (list nat)); [reflexivity|]. symmetry. apply dget_None. rewrite b_ptkeys. apply dget_None. exact G.
Qed.
Lemma triangles_step xs acc x m : Forall surface_ok xs -> surface_ok x -> triangles_of xs acc -> member_mesh o Surfaces x nm0 ens = Ok m ->
  exists acc', mesh_add o acc m = Ok acc' /\ triangles_of (xs ++ [x]) acc'.
Proof.
  intros Hxs Hx L Em. destruct (member_triangles x m Hx Em) as (Km & Cm & Tm & Pm & Qm & KKm & Lm & Gm).
  destruct L as [Lok Lc Lt Lpt Lp La (parts & Lr & Lf & Lg)].
  assert (Hc : compatible (m_lines acc) (m_lines m)) by (left; exact Lt).
  assert (Sv : forall r, In r (arows (m_triangles acc)) -> survives o (m_points acc) r = true).
  { intros r. rewrite Lr. clear - Lf Hxs Lc area. induction Lf as [|y part ys parts F G IH]; [intros []|]. apply Forall_cons_iff in Hxs. destruct Hxs as [Hy Hys].
    cbn. intros Hr. apply in_app_iff in Hr. destruct Hr as [Hr|Hr]; [exact (kept_survive y acc Hy Lc part F r Hr)|exact (IH Hys Hr)]. }
  destruct (mesh_add_total o acc m Lok Km Hc) as (acc' & Ea & S). exists acc'. split; [exact Ea|].
  destruct S as [Sok Sc Sk Sp Stw (l1 & l2 & Sl & S1 & S2) (t1 & t2 & St & T1 & T2) Spl Spt].
  rewrite (filter_all _ _ Sv) in T1.
  constructor; try assumption.
  - rewrite Sl. rewrite Lt in S1. rewrite Tm in S2. inversion S1. inversion S2. reflexivity.
  - intros nm. rewrite Spl, Lpt, Pm. reflexivity.
  - intros q Hq. destruct (Sp q Hq) as (p & Hp & ->). apply in_app_iff in Hp. destruct Hp as [Hp|Hp].
    + destruct (Lp p Hp) as (y & p0 & Hy & Hp0 & ->). exists y, p0. rewrite pt_trunc_idem. split; [apply in_app_iff; left; exact Hy|split; [exact Hp0|reflexivity]].
    + destruct (Qm p Hp) as (p0 & Hp0 & ->). exists x, p0. rewrite pt_trunc_idem. split; [apply in_app_iff; right; left; reflexivity|split; [exact Hp0|reflexivity]].
  - intros y p Hy Hp. apply Sk. apply in_app_iff in Hy. destruct Hy as [Hy|[<-|[]]].
    + left. rewrite (canonical_keys _ Lc). exact (La y p Hy Hp).
    + right. rewrite (canonical_keys _ Cm). apply KKm. apply in_map_iff. exists p. split; [reflexivity|exact Hp].
  - rewrite Lr in T1. apply Forall2_concat_inv in T1. destruct T1 as (parts1 & -> & T1). exists (parts1 ++ [t2]). split; [|split].
    + rewrite concat_app. cbn. rewrite app_nil_r. exact St.
    + apply Forall2_app.
      * clear - Lf T1 Lc. revert parts1 T1. induction Lf as [|y part ys parts F G IH]; intros parts1 S1; inversion S1 as [|? part' ? parts' Hp Hps]; subst; constructor; [|apply IH; assumption].
        refine (Forall2_trans _ _ _ _ _ _ _ F Hp). intros a b c A B. exact (same_triangle_trans _ _ _ _ _ _ Lc A B).
      * constructor; [|constructor]. refine (Forall2_trans _ _ _ _ _ _ _ Lm T2). intros a b c A B. exact (same_triangle_trans _ _ _ _ _ _ Cm A B).
    + assert (Len : length (arows (m_triangles acc)) = total (map (fun x => (name_or nm0 (mb_name x), length (kept_triangles o x))) xs)).
      { rewrite Lr. clear - Lf. induction Lf as [|y part ys parts F G IH]; [reflexivity|]. cbn [concat map total]. rewrite app_length, IH, <- (Forall2_length _ _ _ F). reflexivity. }
      intros nm. rewrite Spt. rewrite (filter_all _ _ Sv), Len.
      replace (option_map (kept_positions o acc) (dget (m_ptriangles acc) nm)) with (dget (m_ptriangles acc) nm).
      2: { destruct (dget (m_ptriangles acc) nm) as [v|] eqn:Ev; [|reflexivity]. cbn [option_map]. f_equal. unfold kept_positions, survivors.
           destruct Lok as [_ _ _ _ [_ Kg]]. pose proof (dget_In _ _ _ Ev) as Hin.
           assert (Hv : forall i, In i v -> i < length (arows (m_triangles acc))) by (intros i Hi; exact (Kg nm v i Hin Hi)).
           rewrite filter_all.
           - symmetry. rewrite <- (map_id v) at 2. apply map_ext_in. intros i Hi. unfold rank. rewrite filter_all; [|intros r Hr; apply Sv; rewrite <- (firstn_skipn i); apply in_app_iff; left; exact Hr].
             rewrite firstn_length. specialize (Hv i Hi). lia.
           - intros i Hi. destruct (nth_error (arows (m_triangles acc)) i) eqn:En; [apply Sv; exact (nth_error_In _ _ En)|]. apply nth_error_None in En. specialize (Hv i Hi). lia. }
      specialize (Gm nm). rewrite Lg, map_app. cbn [map]. rewrite members_named_app. cbn [Nat.add]. f_equal.
      destruct (dget (m_ptriangles m) nm) as [v|]; cbn [option_map] in *; destruct (named (name_or nm0 (mb_name x)) nm); try discriminate; [|reflexivity].
      injection Gm as ->. rewrite arange_shift. reflexivity.
Qed.
Lemma triangles_sum rest : forall xs acc, Forall surface_ok xs -> Forall surface_ok rest -> triangles_of xs acc ->
  exists m, sum_members o Surfaces rest nm0 ens acc = Ok m /\ triangles_of (xs ++ rest) m.
Proof.
  induction rest as [|x rest IH]; intros xs acc Hxs Hr L; [exists acc; rewrite app_nil_r; split; [reflexivity|exact L]|].
  apply Forall_cons_iff in Hr. destruct Hr as [Hx Hr].
  assert (Em : exists m, member_mesh o Surfaces x nm0 ens = Ok m).
  { assert (Hin' : input_ok (mb_points x) no_lines (mb_elements x) [] (one_group (name_or nm0 (mb_name x)) (length (arows (mb_elements x))))).
    { destruct Hx. constructor; try assumption. apply one_group_ok. }
    destruct (new_mesh_total o _ _ _ _ _ ens Hin') as (m' & E' & _). exists m'. exact E'. }
  destruct Em as (m & Em). destruct (triangles_step xs acc x m Hxs Hx L Em) as (acc' & Ea & L').
  cbn [sum_members]. rewrite Em. cbn [bind]. rewrite Ea. cbn [bind].
  destruct (IH (xs ++ [x]) acc' ltac:(apply Forall_app; split; [exact Hxs|constructor; [exact Hx|constructor]]) Hr L') as (m' & E' & L'').
  exists m'. split; [exact E'|]. rewrite <- app_assoc in L''. exact L''.
Qed.
End triangles.
