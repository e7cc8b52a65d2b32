(** Meshing a path (C18). *)
From Coq Require Import Reals Lra Lia.
From Verif Require Import Base BaseFacts Float64 OrientModel MeshModel MeshSpec MeshFacts MeshCtor Vec GeomModel QuadModel KronrodFacts PathModel PathSpec PathFacts.
Local Open Scope R_scope.

Lemma path_lines_flat N : exists a, path_lines false N = Ok a /\ aw a = 2%nat /\
  length (arows a) = (N - 1)%nat /\
  forall k, (k < N - 1)%nat -> nth_error (arows a) k = Some [k; S k].
Proof.
  eexists. split; [reflexivity|]. cbn [aw arows]. split; [reflexivity|].
  split; [rewrite map2_length, map_length, arange_length; lia|].
  intros k Hk. rewrite (map2_nth _ _ _ k k (S k)); [reflexivity|apply arange_nth; lia|].
  rewrite nth_error_map, arange_nth by lia. reflexivity.
Qed.

Lemma aslice_length start stop step : length (aslice start stop step) = ((stop - start + (step - 1)) / step)%nat.
Proof. unfold aslice. rewrite map_length, arange_length. reflexivity. Qed.
Lemma aslice_nth start stop step k : (k < (stop - start + (step - 1)) / step)%nat ->
  nth_error (aslice start stop step) k = Some (start + k * step)%nat.
Proof. intros H. unfold aslice. rewrite nth_error_map, arange_nth by exact H. reflexivity. Qed.
Lemma combine_nth_error {A B} (l : list A) (l' : list B) k a b :
  nth_error l k = Some a -> nth_error l' k = Some b -> nth_error (combine l l') k = Some (a, b).
Proof.
  revert l' k. induction l as [|x l IH]; intros [|y l'] [|k]; simpl; try discriminate.
  - intros [= ->] [= ->]. reflexivity.
  - apply IH.
Qed.

Lemma path_lines_ho m : exists a, path_lines true (3 * m + 1) = Ok a /\ aw a = 4%nat /\
  length (arows a) = m /\
  forall k, (k < m)%nat -> nth_error (arows a) k = Some [3 * k; 3 * k + 3; 3 * k + 1; 3 * k + 2]%nat.
Proof.
  unfold path_lines.
  assert (Hmod : ((3 * m + 1) mod 3 = 1)%nat).
  { rewrite Nat.add_comm, Nat.mul_comm, Nat.mod_add by lia. reflexivity. }
  rewrite Hmod, Nat.eqb_refl. cbn [py_assert bind].
  assert (D : forall j, (j <= 2)%nat -> ((3 * m + j) / 3 = m)%nat).
  { intros j Hj. rewrite Nat.add_comm, (Nat.mul_comm 3), Nat.div_add, Nat.div_small by lia. lia. }
  assert (L0 : length (aslice 0 (3 * m + 1 - 1) 3) = m).
  { rewrite aslice_length. rewrite <- (D 2)%nat at 2 by lia. f_equal. lia. }
  assert (L1 : length (aslice 3 (3 * m + 1) 3) = m).
  { rewrite aslice_length. destruct m as [|m]; [reflexivity|]. rewrite <- (D 0)%nat at 2 by lia. f_equal. lia. }
  assert (L2 : length (aslice 1 (3 * m + 1) 3) = m).
  { rewrite aslice_length. rewrite <- (D 2)%nat at 2 by lia. f_equal. lia. }
  assert (L3 : length (aslice 2 (3 * m + 1) 3) = m).
  { rewrite aslice_length. destruct m as [|m]; [reflexivity|]. rewrite <- (D 1)%nat at 2 by lia. f_equal. lia. }
  rewrite L0, L1, L2, L3, !Nat.eqb_refl. cbn [andb py_assert bind]. eexists. split; [reflexivity|].
  cbn [aw arows]. split; [reflexivity|]. split.
  - rewrite map2_length, !combine_length, L0, L1, L2, L3. lia.
  - intros k Hk. erewrite map2_nth.
    2:{ apply combine_nth_error; apply aslice_nth; rewrite <- aslice_length; [rewrite L0|rewrite L1]; exact Hk. }
    2:{ apply combine_nth_error; apply aslice_nth; rewrite <- aslice_length; [rewrite L2|rewrite L3]; exact Hk. }
    cbn [fst snd]. f_equal. repeat (f_equal; try lia).
Qed.

Lemma same_place_along enc m pts (r0 r : row) (vs : list vec3) :
  Forall2 (fun i v => nth_error pts i = Some v) r0 vs ->
  same_place (map enc pts) r0 (m_points m) r -> Forall2 (vertex_is enc m) r vs.
Proof.
  unfold same_place. intros H. revert r. induction H as [|i v r0 vs Hi _ IH]; intros r Hr;
    inversion Hr; subst; constructor; [|apply IH; assumption].
  destruct H1 as (q & q' & Hq & Hq' & Heq). rewrite nth_error_map, Hi in Hq. injection Hq as <-.
  exists q'. auto.
Qed.

Lemma same_place_length pts r pts' r' : same_place pts r pts' r' -> length r = length r'.
Proof. apply Forall2_length. Qed.

Lemma same_line_along enc m pts (r0 r : row) (vs : list vec3) :
  (length r0 = 2 \/ length r0 = 4)%nat ->
  Forall2 (fun i v => nth_error pts i = Some v) r0 vs ->
  same_line (map enc pts) r0 (m_points m) r -> element_along enc m r vs.
Proof.
  intros Hl H [Hs|Hs]; [left; eapply same_place_along; eassumption|right].
  destruct Hl as [Hl|Hl].
  - destruct r0 as [|a [|b [|c r0]]]; try discriminate Hl.
    inversion Hs as [|? x ? ? Ha Hs1]; subst. inversion Hs1 as [|? y ? ? Hb Hs2]; subst. inversion Hs2; subst.
    simpl. inversion H as [|? va ? ? Ka K1]; subst. inversion K1 as [|? vb ? ? Kb K2]; subst. inversion K2; subst.
    eapply same_place_along; [constructor; [exact Ka|constructor; [exact Kb|constructor]]|].
    constructor; [exact Hb|constructor; [exact Ha|constructor]].
  - destruct r0 as [|a [|b [|c [|d [|e r0]]]]]; try discriminate Hl.
    inversion Hs as [|? x ? ? Ha Hs1]; subst. inversion Hs1 as [|? y ? ? Hb Hs2]; subst.
    inversion Hs2 as [|? z ? ? Hc Hs3]; subst. inversion Hs3 as [|? w ? ? Hd Hs4]; subst. inversion Hs4; subst.
    simpl. eapply same_place_along; [exact H|].
    constructor; [exact Hb|constructor; [exact Ha|constructor; [exact Hd|constructor; [exact Hc|constructor]]]].
Qed.

Lemma good_samples_range L bps us nf d : good_samples L bps us nf d -> forall u, In u us -> 0 <= u <= L.
Proof.
  intros G u Hu. apply In_nth with (d := 0) in Hu. destruct Hu as (i & Hi & <-).
  pose proof (gs_strict _ _ _ _ _ G) as S.
  assert (M : forall j, (i <= j < length us)%nat -> nth i us 0 <= nth j us 0).
  { intros j [Hij Hj]. induction Hij as [|j Hij IH]; [lra|]. specialize (S j Hj). specialize (IH ltac:(lia)). lra. }
  assert (M0 : nth 0 us 0 <= nth i us 0).
  { clear M. induction i as [|i IH]; [lra|]. specialize (S i Hi). specialize (IH ltac:(lia)). lra. }
  rewrite (gs_start _ _ _ _ _ G) in M0. split; [exact M0|].
  rewrite <- (gs_end _ _ _ _ _ G).
  assert (E : last us 0 = nth (length us - 1) us 0).
  { destruct us as [|x us]; [simpl in Hi; lia|]. clear. revert x. induction us as [|y us IH]; intros x; [reflexivity|].
    rewrite last_cons2, IH. simpl. rewrite Nat.sub_0_r. reflexivity. }
  rewrite E. apply M. lia.
Qed.

Lemma path_mesh_spec o enc p msz msf (ho : bool) nm ens us dstep :
  (forall v, pt_ok (enc v)) ->
  (forall u, 0 <= u <= plen p -> exists v, pfun p u = Ok v) ->
  discretize_path (plen p) (pbps p) msz msf (if ho then 3 else 1)%nat = Ok us ->
  good_samples (plen p) (pbps p) us (if ho then 3 else 1)%nat dstep ->
  exists m ne, path_mesh o enc p msz msf ho nm ens = Ok m /\
    length us = (if ho then 3 * ne + 1 else ne + 1)%nat /\
    length (arows (m_lines m)) = ne /\ arows (m_triangles m) = [] /\
    (forall k, (k < ne)%nat -> exists r vs, nth_error (arows (m_lines m)) k = Some r /\
       samples_at p us (if ho then [3 * k; 3 * k + 3; 3 * k + 1; 3 * k + 2] else [k; S k])%nat vs /\
       element_along enc m r vs /\ (ens = false -> Forall2 (vertex_is enc m) r vs)) /\
    m_plines m = match (match nm with None => pname p | Some n => Some n end) with
                 | Some n => [(n, arange ne)] | None => [] end.
Proof.
  intros Henc Htot Hd G. destruct (gs_len _ _ _ _ _ G) as [ne Hne].
  assert (Hlen : length us = (if ho then 3 * ne + 1 else ne + 1)%nat) by (destruct ho; lia).
  destruct (mapM_total (pfun p) us) as [pts Hpts].
  { intros u Hu. apply Htot. eapply good_samples_range; eassumption. }
  assert (Hlp : length pts = length us) by (eapply mapM_length; eassumption).
  apply mapM_ok in Hpts as Hf2.
  assert (Hlines : exists a, path_lines ho (length us) = Ok a /\ aw a = (if ho then 4 else 2)%nat /\
            length (arows a) = ne /\
            forall k, (k < ne)%nat -> nth_error (arows a) k =
              Some (if ho then [3 * k; 3 * k + 3; 3 * k + 1; 3 * k + 2] else [k; S k])%nat).
  { rewrite Hlen. destruct ho; [apply path_lines_ho|].
    destruct (path_lines_flat (ne + 1)) as (a & E & W & Ll & K). exists a. rewrite E.
    replace (ne + 1 - 1)%nat with ne in * by lia. auto. }
  destruct Hlines as (a & Ea & Wa & La & Ka).
  set (name := match nm with None => pname p | Some n => Some n end).
  set (groups := match name with Some n => [(n, arange ne)] | None => [] end).
  assert (Hrows : forall r, In r (arows a) -> length r = aw a /\ forall i, In i r -> (i < length us)%nat).
  { intros r Hr. apply In_nth_error in Hr. destruct Hr as [k Hk].
    assert (Hkl : (k < ne)%nat) by (rewrite <- La; eapply nth_error_lt; eassumption).
    rewrite Ka in Hk by exact Hkl. injection Hk as <-. rewrite Wa, Hlen.
    destruct ho; simpl; (split; [reflexivity|]); intros i Hi; intuition lia. }
  assert (Hin : input_ok (map enc pts) a no_triangles groups []).
  { constructor.
    - apply Forall_forall. intros q Hq. apply in_map_iff in Hq. destruct Hq as (v & <- & _). apply Henc.
    - split; [intros _; rewrite Wa; destruct ho; simpl; auto|]. rewrite map_length, Hlp. exact Hrows.
    - split; [intros Hc; exfalso; apply Hc; reflexivity|]. intros r [].
    - rewrite La. unfold groups. destruct name as [n|].
      + split; [repeat constructor; simpl; tauto|]. intros n' v i [E|[]] Hi. injection E as <- <-.
        apply arange_In in Hi. exact Hi.
      + split; [constructor|]. intros n' v i [].
    - split; [constructor|]. intros n' v i []. }
  destruct (new_mesh_total o _ _ _ _ _ ens Hin) as (m & Em & _ & B).
  exists m, ne. split.
  { unfold path_mesh. rewrite Hd. cbn [bind]. rewrite Hpts. cbn [bind]. rewrite Ea. cbn [bind].
    fold name. rewrite La. exact Em. }
  split; [exact Hlen|].
  pose proof (b_lines _ _ _ _ _ _ _ _ B) as BL.
  split; [rewrite <- La; symmetry; eapply Forall2_length; exact BL|].
  split.
  { pose proof (b_tris _ _ _ _ _ _ _ _ B) as BT. simpl in BT. inversion BT. reflexivity. }
  split; [|rewrite (b_pl _ _ _ _ _ _ _ _ B); unfold groups, name; reflexivity].
  intros k Hk. specialize (Ka k Hk).
  destruct (Forall2_nth_l _ _ _ _ _ BL Ka) as (r & Hr & Hs).
  set (ks := (if ho then [3 * k; 3 * k + 3; 3 * k + 1; 3 * k + 2] else [k; S k])%nat) in *.
  assert (Hks : forall i, In i ks -> (i < length us)%nat).
  { intros i Hi. rewrite Hlen. unfold ks in Hi. destruct ho; simpl in Hi; intuition lia. }
  assert (Hvs : exists vs, samples_at p us ks vs /\ Forall2 (fun i v => nth_error pts i = Some v) ks vs).
  { clear - Hks Hf2. induction ks as [|i ks IH]; [exists []; split; constructor|].
    destruct IH as (vs & I1 & I2); [intros j Hj; apply Hks; right; exact Hj|].
    destruct (nth_error_total us i) as [u Hu]; [apply Hks; left; reflexivity|].
    destruct (Forall2_nth_l _ _ _ _ _ Hf2 Hu) as (v & Hv & Hpv).
    exists (v :: vs). split; constructor; auto. exists u. auto. }
  destruct Hvs as (vs & V1 & V2). exists r, vs. split; [exact Hr|]. split; [exact V1|]. split.
  - eapply same_line_along; [|exact V2|exact Hs]. unfold ks. destruct ho; simpl; auto.
  - intros He. destruct (b_exact _ _ _ _ _ _ _ _ B He) as [BE _].
    destruct (Forall2_nth_l _ _ _ _ _ BE Ka) as (r' & Hr' & Hs'). rewrite Hr in Hr'. injection Hr' as <-.
    eapply same_place_along; [exact V2|exact Hs'].
Qed.
