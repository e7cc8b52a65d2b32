(** The matrix the calls fill is that of MatrixModel; a matrix that is not contiguous is not filled at all. *)
From Coq Require Import Reals Lra.
From Verif Require Import Base BaseFacts Vec GeomModel MemModel FieldModel TriangleModel SeriesModel Axial3DModel MatrixModel MemFacts BackendModel BackendSafe BackendValues BackendCalls BackendReturns BackendTables BackendBuffers BackendMatrix BackendUnsafe.
Local Open Scope R_scope.
Local Open Scope mem_scope.

Section Link.
Variable h : heap.
Local Notation vertex := (vertex_of h).
(** the buffers hold the quadrature points of the elements *)
Definition line_buffers (L J X : ndarray) (N : nat) : Prop := forall j, (j < N)%nat -> buffered h J X j = line_source (vertex L j 0) (vertex L j 1) (vertex L j 2) (vertex L j 3).
Definition triangle_buffers (L J X : ndarray) (N : nat) : Prop := forall j, (j < N)%nat -> buffered3 h J X j = triangle_source (vertex L j 0) (vertex L j 1) (vertex L j 2).
Lemma radial_term_potential A L T V J X N i j : line_buffers L J X N -> (j < N)%nat -> potential_row h T i ->
  radial_term h L T V J X i j = radial_potential_entry A false (vertex L i 0) (vertex L i 1) (vertex L i 2) (vertex L i 3) (vertex L j 0) (vertex L j 1) (vertex L j 2) (vertex L j 3).
Proof. intros B Hj P. unfold radial_term. rewrite (B j Hj). unfold radial_potential_entry. cbv zeta. unfold source_sum. f_equal. apply map_ext. intros q. unfold radial_kernel. apply type_is_in in P. unfold POTENTIAL_TYPES. rewrite P. reflexivity. Qed.
Lemma radial_term_flux A L T V J X N i j : line_buffers L J X N -> (j < N)%nat -> flux_row h T i ->
  radial_term h L T V J X i j = radial_flux_entry A (item h V [i]) false (vertex L i 0) (vertex L i 1) (vertex L i 2) (vertex L i 3) (vertex L j 0) (vertex L j 1) (vertex L j 2) (vertex L j 3).
Proof. intros B Hj P. unfold radial_term. rewrite (B j Hj). unfold radial_flux_entry. cbv zeta. unfold source_sum. f_equal. apply map_ext. intros q. unfold radial_kernel. rewrite (not_both h T i P). reflexivity. Qed.
Lemma entry3_potential A L T V J X N i j : triangle_buffers L J X N -> (j < N)%nat -> potential_row h T i ->
  entry3 h (an_integrate A) L T V J X i j 0 = potential_entry_3d A (i =? j)%nat (vertex L i 0) (vertex L i 1) (vertex L i 2) (vertex L j 0) (vertex L j 1) (vertex L j 2).
Proof. intros B Hj P. unfold entry3, potential_entry_3d. apply type_is_in in P. unfold POTENTIAL_TYPES. rewrite P. cbv zeta. rewrite (B j Hj). destruct (negb _ && _)%bool; [lra|reflexivity]. Qed.
Lemma entry3_flux A L T V J X N i j : triangle_buffers L J X N -> (j < N)%nat -> flux_row h T i ->
  entry3 h (an_integrate A) L T V J X i j 0 = flux_entry_3d A (item h V [i]) (i =? j)%nat (vertex L i 0) (vertex L i 1) (vertex L i 2) (vertex L j 0) (vertex L j 1) (vertex L j 2).
Proof. intros B Hj P. unfold entry3, flux_entry_3d. rewrite (not_both h T i P). cbv zeta. rewrite (B j Hj). destruct (i =? j)%nat; [reflexivity|]. destruct (far _ _ _); [lra|reflexivity]. Qed.

(** ** A matrix that is not contiguous *)
Variable m : ndarray.
Variable N : nat.
Hypothesis Fm : floats h m [N; N].
Hypothesis strided : is_contiguous m = false.
Let h1 : heap := h ++ [mkbuffer Float64 (contents h m)].
Lemma pass_strided : pass (arr 2) m h = Done (mkptr (length h) 0) h1.
Proof using Fm strided.
  destruct Fm as (A & S & T). unfold pass, bnd, ensure_contiguous_aligned. rewrite strided, new_array_eq. cbn [arr accepts MemFacts.fresh nd_shape nd_dtype length]. rewrite S, T. reflexivity.
Qed.
Lemma copy_owned : owns h1 (length h) N.
Proof using Fm. exists (contents h m). split; [unfold h1; now rewrite nth_error_app2, Nat.sub_diag by lia|]. rewrite contents_length. destruct Fm as (_ & S & _). rewrite S. cbn. lia. Qed.
Lemma floats_copy a s : floats h a s -> floats h1 a s. Proof. intros (A & S & T). split; [now apply array_ok_app|]. tauto. Qed.
Lemma outside_copy a : array_ok h a -> outside (length h) a.
Proof. intros (_ & b & Hb & _). unfold outside. intros E. rewrite E in Hb. assert (length h < length h)%nat by (apply nth_error_Some; congruence). lia. Qed.
Lemma middle_copy a : array_ok h a -> forall b, middle_zero a h = Done b h -> middle_zero a h1 = Done b h1.
Proof.
  intros A b. unfold middle_zero. destruct (nd_shape a) as [|x [|y [|z [|? ?]]]] eqn:S; try discriminate. destruct (_ <? _)%nat; [|discriminate]. intros Eb. match type of Eb with Done ?u _ = _ => assert (Eu : u = b) by congruence end. rewrite <- Eu. clear Eu Eb. f_equal.
  generalize (indices [x; y; z]). intros l. induction l as [|i l IH]; [reflexivity|]. cbn [forallb]. rewrite IH. f_equal. destruct i as [|? [|? [|? [|? ?]]]]; try reflexivity. unfold h1. now rewrite item_app by exact A.
Qed.
Lemma fill_matrix_radial_lost L T V J X start end_ : floats h L [N; 4%nat; 3%nat] -> in_plane h L -> bytes h T [N] -> floats h V [N] -> floats h J [N; 16%nat] -> floats h X [N; 16%nat; 2%nat] ->
  (start < end_ < N)%nat -> (forall i, (start <= i <= end_)%nat -> potential_row h T i \/ flux_row h T i) ->
  exists h', fill_matrix_radial_py m L T V J X start end_ h = Done tt h' /\ forall b, (b < length h)%nat -> nth_error h' b = nth_error h b.
Proof using Fm strided.
  intros FL PL (AT & ST & TT) FV FJ FX Hse Ty. pose proof FL as (AL & SL & TL). pose proof FV as (AV & _). pose proof FJ as (AJ & _). pose proof FX as (AX & _). pose proof Fm as (Am & Sm & Tm).
  assert (P1 : in_plane h1 L) by (intros i k I; unfold h1; rewrite item_app by exact AL; now apply PL).
  assert (W : fills h1 (fill_matrix_radial_py (whole (length h) N) L T V J X start end_) (length h) N (fun i j y => if ((start <=? i) && (i <? S end_))%nat then y + radial_term h1 L T V J X i j else y)).
  { apply ret_fill_matrix_radial; try assumption; try (now apply floats_copy); try (now apply outside_copy); [apply copy_owned|split; [now apply array_ok_app|split; assumption]|].
    intros i Hi. unfold potential_row, flux_row, h1. rewrite item_app by exact AT. apply Ty, Hi. }
  destruct W as (h' & E & _ & K & _). exists h'. split.
  - rewrite <- E. unfold fill_matrix_radial_py. 
    assert (Mz : middle_zero L h = Done true h).
    { unfold middle_zero. rewrite SL. cbn [Nat.ltb Nat.leb]. f_equal. apply forallb_forall. intros idx I. destruct idx as [|u [|v [|w [|z idx]]]]; try reflexivity. destruct (Nat.eqb_spec w 1) as [->|]; [|reflexivity]. cbn [negb orb].
      destruct (Req_EM_T (item h L [u; v; 1%nat]) 0) as [|F]; [reflexivity|]. destruct F. apply PL. now rewrite SL. }
    unfold py_len, square, has_shape. rewrite SL, Sm. cbn [whole nd_shape]. unfold bnd, ret. rewrite Mz, (middle_copy L AL true Mz). cbn [assertM]. unfold ret. cbn beta iota.
    rewrite Nat.eqb_refl. cbn [andb assertM]. unfold ret. rewrite (proj2 (shape_eqb_eq (nd_shape T) [N])) by exact ST. rewrite (proj2 (shape_eqb_eq (nd_shape V) [N])) by apply FV.
    rewrite (proj2 (shape_eqb_eq (nd_shape J) [N; N_QUAD_2D])) by apply FJ. rewrite (proj2 (shape_eqb_eq (nd_shape X) [N; N_QUAD_2D; 2%nat])) by apply FX. cbn [shape_eqb Nat.eqb]. rewrite Nat.eqb_refl. cbn [andb assertM]. unfold ret.
    rewrite (proj2 (Nat.ltb_lt start N)), (proj2 (Nat.ltb_lt end_ N)), (proj2 (Nat.ltb_lt start end_)) by lia. cbn [andb assertM]. unfold ret. rewrite pass_strided, pass_whole. reflexivity.
  - intros b Hb. rewrite K; [unfold h1; now rewrite nth_error_app1 by exact Hb|lia|unfold h1; rewrite app_length; lia].
Qed.
Lemma fill_matrix_3d_lost integrate L T V J X start end_ : floats h L [N; 3%nat; 3%nat] -> bytes h T [N] -> floats h V [N] -> floats h J [N; 12%nat] -> floats h X [N; 12%nat; 3%nat] ->
  (start <= end_ < N)%nat -> (forall i, (start <= i <= end_)%nat -> potential_row h T i \/ flux_row h T i) ->
  exists h', fill_matrix_3d_py integrate m L T V J X start end_ h = Done tt h' /\ forall b, (b < length h)%nat -> nth_error h' b = nth_error h b.
Proof using Fm strided.
  intros FL (AT & ST & TT) FV FJ FX Hse Ty. pose proof FL as (AL & SL & TL). pose proof FV as (AV & _). pose proof FJ as (AJ & _). pose proof FX as (AX & _). pose proof Fm as (Am & Sm & Tm).
  assert (W : fills h1 (fill_matrix_3d_py integrate (whole (length h) N) L T V J X start end_) (length h) N (fun i j y => if ((start <=? i) && (i <? S end_))%nat then entry3 h1 integrate L T V J X i j y else y)).
  { apply ret_fill_matrix_3d; try assumption; try (now apply floats_copy); try (now apply outside_copy); [apply copy_owned|split; [now apply array_ok_app|split; assumption]|].
    intros i Hi. unfold potential_row, flux_row, h1. rewrite item_app by exact AT. apply Ty, Hi. }
  destruct W as (h' & E & _ & K & _). exists h'. split.
  - rewrite <- E. unfold fill_matrix_3d_py. unfold py_len, square, has_shape. rewrite SL, Sm. cbn [whole nd_shape]. unfold bnd, ret. cbn beta iota.
    rewrite Nat.eqb_refl. cbn [andb assertM]. unfold ret. rewrite (proj2 (shape_eqb_eq (nd_shape T) [N])) by exact ST. rewrite (proj2 (shape_eqb_eq (nd_shape V) [N])) by apply FV.
    rewrite (proj2 (shape_eqb_eq (nd_shape J) [N; N_TRIANGLE_QUAD])) by apply FJ. rewrite (proj2 (shape_eqb_eq (nd_shape X) [N; N_TRIANGLE_QUAD; 3%nat])) by apply FX. cbn [shape_eqb Nat.eqb]. rewrite Nat.eqb_refl. cbn [andb assertM]. unfold ret.
    rewrite (proj2 (Nat.ltb_lt start N)), (proj2 (Nat.ltb_lt end_ N)), (proj2 (Nat.leb_le start end_)) by lia. cbn [andb assertM]. unfold ret. rewrite pass_strided, pass_whole. reflexivity.
  - intros b Hb. rewrite K; [unfold h1; now rewrite nth_error_app1 by exact Hb|lia|unfold h1; rewrite app_length; lia].
Qed.
End Link.
