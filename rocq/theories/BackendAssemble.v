(** Filling the buffers and then the matrix. *)
From Coq Require Import Reals Lra.
From Verif Require Import Base BaseFacts Vec GeomModel MemModel FieldModel TriangleModel SeriesModel Axial3DModel MatrixModel MemFacts BackendModel BackendSafe BackendValues BackendCalls BackendReturns BackendTables BackendBuffers BackendMatrix BackendUnsafe BackendLink.
Local Open Scope R_scope.
Local Open Scope mem_scope.

(** solver.py:105 (the buffers) and 146-165 get_matrix, with one thread *)
Definition assemble_radial (vertices types values : ndarray) (N : nat) : M ndarray :=
  jp <~ fill_jacobian_buffer_radial_py vertices ;; matrix <~ np_zeros [N; N] ;;
  fill_matrix_radial_py matrix vertices types values (fst jp) (snd jp) 0 (N - 1) ;;; ret matrix.
Definition assemble_3d integrate (vertices types values : ndarray) (N : nat) : M ndarray :=
  jp <~ fill_jacobian_buffer_3d_py vertices ;; matrix <~ np_zeros [N; N] ;;
  fill_matrix_3d_py integrate matrix vertices types values (fst jp) (snd jp) 0 (N - 1) ;;; ret matrix.
(** The call returns an N by N array with these entries, and memory is as it was. *)
Definition returns_matrix (h : heap) (m : M ndarray) (N : nat) (entry : nat -> nat -> R -> Prop) : Prop :=
  exists a h', m h = Done a h' /\ (forall b, (b < length h)%nat -> nth_error h' b = nth_error h b) /\ floats h' a [N; N] /\
    forall i j, (i < N)%nat -> (j < N)%nat -> entry i j (item h' a [i; j]).

Lemma whole_fresh h N : MemFacts.fresh h [N; N] Float64 = whole (length h) N. Proof. reflexivity. Qed.
Lemma old_outside h h' a : array_ok h a -> extends h h' -> outside (length h') a.
Proof. intros (_ & b & Hb & _) X E. rewrite E in Hb. apply extends_length in X. assert (length h' < length h)%nat by (apply nth_error_Some; congruence). lia. Qed.
Lemma extends_floats h h' a s : extends h h' -> floats h a s -> floats h' a s.
Proof. intros X (A & S & T). split; [now apply (extends_array h)|]. tauto. Qed.
Lemma extends_bytes h h' a s : extends h h' -> bytes h a s -> bytes h' a s.
Proof. intros X (A & S & T). split; [now apply (extends_array h)|]. tauto. Qed.
Lemma extends_vertex h h' a i k : extends h h' -> array_ok h a -> vertex_of h' a i k = vertex_of h a i k.
Proof. intros X A. unfold vertex_of. now rewrite !(extends_item h h') by assumption. Qed.
Lemma extends_plane h h' a : extends h h' -> array_ok h a -> in_plane h a -> in_plane h' a.
Proof. intros X A P i k I. rewrite (extends_item h h') by assumption. now apply P. Qed.
Lemma whole_zero h N i j : item (h ++ [mkbuffer Float64 (repeat 0 (size [N; N]))]) (whole (length h) N) [i; j] = 0.
Proof. unfold item. cbn [whole nd_base p_buffer]. rewrite nth_error_app2, Nat.sub_diag by lia. cbn [nth_error b_cells]. apply nth_repeat. Qed.

Section Assemble.
Variables (h : heap) (A : analysis) (L T V : ndarray) (N : nat).
Local Notation vertex := (vertex_of h L).
Lemma assembled_radial : floats h L [N; 4%nat; 3%nat] -> in_plane h L -> bytes h T [N] -> floats h V [N] -> (2 <= N)%nat ->
  (forall i, (i < N)%nat -> potential_row h T i \/ flux_row h T i) ->
  returns_matrix h (assemble_radial L T V N) N (fun i j y =>
    (potential_row h T i -> y = radial_potential_entry A false (vertex i 0%nat) (vertex i 1%nat) (vertex i 2%nat) (vertex i 3%nat) (vertex j 0%nat) (vertex j 1%nat) (vertex j 2%nat) (vertex j 3%nat)) /\
    (flux_row h T i -> y = radial_flux_entry A (item h V [i]) false (vertex i 0%nat) (vertex i 1%nat) (vertex i 2%nat) (vertex i 3%nat) (vertex j 0%nat) (vertex j 1%nat) (vertex j 2%nat) (vertex j 3%nat))).
Proof.
  intros FL PL FT FV N2 Ty. destruct (ret_fill_radial h L N FL PL) as (J & X & h1 & E1 & X1 & FJ & FX & Src). cbv beta iota in Src.
  set (h2 := h1 ++ [mkbuffer Float64 (repeat 0 (size [N; N]))]). assert (X2 : extends h1 h2) by apply extends_new. assert (X02 : extends h h2) by (eapply extends_trans; eassumption).
  assert (W : fills h2 (fill_matrix_radial_py (whole (length h1) N) L T V J X 0 (N - 1)) (length h1) N (fun i j y => if ((0 <=? i) && (i <? S (N - 1)))%nat then y + radial_term h2 L T V J X i j else y)).
  { apply ret_fill_matrix_radial.
    - exists (repeat 0 (size [N; N])). split; [unfold h2; now rewrite nth_error_app2, Nat.sub_diag by lia|]. rewrite repeat_length. cbn. lia.
    - now apply (extends_floats h).
    - apply (extends_plane h); [assumption|apply FL|assumption].
    - now apply (extends_bytes h).
    - now apply (extends_floats h).
    - now apply (extends_floats h1).
    - now apply (extends_floats h1).
    - apply (old_outside h); [apply FL|assumption].
    - apply (old_outside h); [apply FT|assumption].
    - apply (old_outside h); [apply FV|assumption].
    - apply (old_outside h1); [apply FJ|apply extends_refl].
    - apply (old_outside h1); [apply FX|apply extends_refl].
    - lia.
    - intros i Hi. unfold potential_row, flux_row. rewrite (extends_item h h2) by (try assumption; apply FT). apply Ty. lia. }
  destruct W as (h3 & E3 & Le & K & Fm & It). exists (whole (length h1) N), h3. split; [|split; [|split; [exact Fm|]]].
  - unfold assemble_radial. rewrite (bnd_done _ _ _ _ _ E1). cbn [fst snd]. unfold np_zeros. rewrite (bnd_done _ _ _ _ _ (new_array_eq _ _ _ _)). fold h2. rewrite whole_fresh. rewrite (bnd_done _ _ _ _ _ E3). reflexivity.
  - intros b Hb. pose proof (extends_length _ _ X1). rewrite K by (try lia; unfold h2; rewrite app_length; lia). destruct X02 as (e & ->). now rewrite nth_error_app1 by exact Hb.
  - intros i j Hi Hj. rewrite (It i j Hi Hj). assert (Z : item h2 (whole (length h1) N) [i; j] = 0) by apply whole_zero. rewrite !Z. rewrite (proj2 (Nat.ltb_lt i (S (N - 1)))) by lia. cbn [Nat.leb andb]. rewrite ?Rplus_0_l.
    assert (B : line_buffers h2 L J X N).
    { intros k Hk. rewrite !(extends_vertex h h2) by (try assumption; apply FL). rewrite <- (Src k Hk). unfold buffered. apply map_ext. intros u. rewrite !(extends_item h1 h2) by (try assumption; first [apply FJ|apply FX]). reflexivity. }
    assert (Et : item h2 T [i] = item h T [i]) by (apply extends_item; [assumption|apply FT]). assert (Ev : item h2 V [i] = item h V [i]) by (apply extends_item; [assumption|apply FV]).
    split; intros P; [rewrite (radial_term_potential h2 A L T V J X N i j B Hj)|rewrite (radial_term_flux h2 A L T V J X N i j B Hj)]; try (unfold potential_row, flux_row in *; rewrite Et; exact P).
    + now rewrite !(extends_vertex h h2) by (try assumption; apply FL).
    + rewrite Ev. now rewrite !(extends_vertex h h2) by (try assumption; apply FL).
Qed.
Lemma assembled_3d : floats h L [N; 3%nat; 3%nat] -> bytes h T [N] -> floats h V [N] -> (1 <= N)%nat ->
  (forall i, (i < N)%nat -> potential_row h T i \/ flux_row h T i) ->
  returns_matrix h (assemble_3d (an_integrate A) L T V N) N (fun i j y =>
    (potential_row h T i -> y = potential_entry_3d A (i =? j)%nat (vertex i 0%nat) (vertex i 1%nat) (vertex i 2%nat) (vertex j 0%nat) (vertex j 1%nat) (vertex j 2%nat)) /\
    (flux_row h T i -> y = flux_entry_3d A (item h V [i]) (i =? j)%nat (vertex i 0%nat) (vertex i 1%nat) (vertex i 2%nat) (vertex j 0%nat) (vertex j 1%nat) (vertex j 2%nat))).
Proof.
  intros FL FT FV N2 Ty. destruct (ret_fill_3d h L N FL) as (J & X & h1 & E1 & X1 & FJ & FX & Src). cbv beta iota in Src.
  set (h2 := h1 ++ [mkbuffer Float64 (repeat 0 (size [N; N]))]). assert (X2 : extends h1 h2) by apply extends_new. assert (X02 : extends h h2) by (eapply extends_trans; eassumption).
  assert (W : fills h2 (fill_matrix_3d_py (an_integrate A) (whole (length h1) N) L T V J X 0 (N - 1)) (length h1) N (fun i j y => if ((0 <=? i) && (i <? S (N - 1)))%nat then entry3 h2 (an_integrate A) L T V J X i j y else y)).
  { apply ret_fill_matrix_3d.
    - exists (repeat 0 (size [N; N])). split; [unfold h2; now rewrite nth_error_app2, Nat.sub_diag by lia|]. rewrite repeat_length. cbn. lia.
    - now apply (extends_floats h).
    - now apply (extends_bytes h).
    - now apply (extends_floats h).
    - now apply (extends_floats h1).
    - now apply (extends_floats h1).
    - apply (old_outside h); [apply FL|assumption].
    - apply (old_outside h); [apply FT|assumption].
    - apply (old_outside h); [apply FV|assumption].
    - apply (old_outside h1); [apply FJ|apply extends_refl].
    - apply (old_outside h1); [apply FX|apply extends_refl].
    - lia.
    - intros i Hi. unfold potential_row, flux_row. rewrite (extends_item h h2) by (try assumption; apply FT). apply Ty. lia. }
  destruct W as (h3 & E3 & Le & K & Fm & It). exists (whole (length h1) N), h3. split; [|split; [|split; [exact Fm|]]].
  - unfold assemble_3d. rewrite (bnd_done _ _ _ _ _ E1). cbn [fst snd]. unfold np_zeros. rewrite (bnd_done _ _ _ _ _ (new_array_eq _ _ _ _)). fold h2. rewrite whole_fresh. rewrite (bnd_done _ _ _ _ _ E3). reflexivity.
  - intros b Hb. pose proof (extends_length _ _ X1). rewrite K by (try lia; unfold h2; rewrite app_length; lia). destruct X02 as (e & ->). now rewrite nth_error_app1 by exact Hb.
  - intros i j Hi Hj. rewrite (It i j Hi Hj). assert (Z : item h2 (whole (length h1) N) [i; j] = 0) by apply whole_zero. rewrite !Z. rewrite (proj2 (Nat.ltb_lt i (S (N - 1)))) by lia. cbn [Nat.leb andb].
    assert (B : triangle_buffers h2 L J X N).
    { intros k Hk. rewrite !(extends_vertex h h2) by (try assumption; apply FL). rewrite <- (Src k Hk). unfold buffered3. apply map_ext. intros u. rewrite (extends_vertex h1 h2), !(extends_item h1 h2) by (try assumption; first [apply FJ|apply FX]). reflexivity. }
    assert (Et : item h2 T [i] = item h T [i]) by (apply extends_item; [assumption|apply FT]). assert (Ev : item h2 V [i] = item h V [i]) by (apply extends_item; [assumption|apply FV]).
    split; intros P; [rewrite (entry3_potential h2 A L T V J X N i j B Hj)|rewrite (entry3_flux h2 A L T V J X N i j B Hj)]; try (unfold potential_row, flux_row in *; rewrite Et; exact P).
    + now rewrite !(extends_vertex h h2) by (try assumption; apply FL).
    + rewrite Ev. now rewrite !(extends_vertex h h2) by (try assumption; apply FL).
Qed.
End Assemble.
