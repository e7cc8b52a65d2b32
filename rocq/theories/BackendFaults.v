(** Calls that read outside a table, or lose or refuse what they were given. *)
From Coq Require Import Reals Lra.
From Verif Require Import Base BaseFacts Vec GeomModel MemModel FieldModel SeriesModel Axial3DModel MatrixModel MemFacts BackendModel BackendSafe BackendValues BackendCalls BackendReturns BackendTables BackendBuffers BackendMatrix BackendSeries BackendSeries3D BackendUnsafe.
From Verif Require InterpFacts.
Local Open Scope R_scope.
Local Open Scope mem_scope.

(** ** The last sample of a table *)
(** two samples, 0 and 1; the point (0, 0, 1); one row of coefficients *)
Definition last_sample (n : nat) : heap := [mkbuffer Float64 [0; 0; 1]; mkbuffer Float64 [0; 1]; zeros_buffer n].
Definition the_point : ndarray := array_in 0 [3%nat].
Definition the_samples : ndarray := array_in 1 [2%nat].
Lemma last_ok n s : size s = n -> floats (last_sample n) the_point [3%nat] /\ floats (last_sample n) the_samples [2%nat] /\ floats (last_sample n) (array_in 2 s) s.
Proof. intros <-. split; [|split]; apply array_in_ok; eexists; (split; [reflexivity|]); [reflexivity|reflexivity|apply repeat_length]. Qed.
Lemma last_row hh zp : at_ (last_sample 0) the_samples hh zp -> c_table_row 1 zp 2 hh = Done (Some (1%nat, 1 - 1)) hh.
Proof.
  intros B. apply (val_table_row (last_sample 0) the_samples hh zp 2 1 [tt; tt] _ B eq_refl). unfold chosen. change (samples (last_sample 0) the_samples) with [0; 1]. cbn [np_get length bind nth_error Nat.sub].
  destruct (Rle_dec 0 1); [|lra]. destruct (Rle_dec 1 1); [|lra]. unfold series_index. cbn [length]. replace ((1 - 0) / (1 - 0)) with 1 by field. rewrite (InterpFacts.c_int_nat 1 1) by (cbn; lra). reflexivity.
Qed.
Lemma at_last n hh zp : nth_error hh (p_buffer zp) = Some (mkbuffer Float64 [0; 1]) -> p_offset zp = 0%Z -> at_ (last_sample n) the_samples hh zp.
Proof.
  intros Hb Ho k Hk. rewrite (load_in hh zp Float64 _ _ Hb eq_refl) by (rewrite Ho; cbn in *; lia). f_equal. rewrite Ho. cbn [b_cells]. rewrite Z.add_0_l, Nat2Z.id. reflexivity.
Qed.
Lemma last_row_at hh : nth_error hh 1 = Some (mkbuffer Float64 [0; 1]) -> c_table_row 1 (mkptr 1 0) 2 hh = Done (Some (1%nat, 1 - 1)) hh.
Proof. intros H. apply last_row. now apply at_last. Qed.
Lemma seq_fault {A B} (m : M A) (k : A -> M B) h : m h = Fault -> bnd m k h = Fault.
Proof. intros H. unfold bnd. now rewrite H. Qed.
Lemma potential_radial_derivs_faults : potential_radial_derivs_py the_point the_samples (array_in 2 [1%nat; 9%nat; 6%nat]) (last_sample 54) = Fault.
Proof.
  change (c_potential_radial_derivs (mkptr 3 0) (mkptr 1 0) (mkptr 2 0) 2 (last_sample 54 ++ [mkbuffer Float64 [0; 0; 1]]) = Fault). unfold c_potential_radial_derivs. erewrite bnd_done by reflexivity. cbn [vz].
  erewrite bnd_done by (apply last_row_at; reflexivity). reflexivity.
Qed.
Lemma field_radial_derivs_faults : field_radial_derivs_py the_point the_samples (array_in 2 [1%nat; 9%nat; 6%nat]) (last_sample 54) = Fault.
Proof.
  change ((c_field_radial_derivs (mkptr 4 0) (mkptr 3 0) (mkptr 1 0) (mkptr 2 0) 2 ;;; ret (MemFacts.fresh (last_sample 54) [3%nat] Float64)) (last_sample 54 ++ [zeros_buffer 3; mkbuffer Float64 [0; 0; 1]]) = Fault).
  apply seq_fault. unfold c_field_radial_derivs. erewrite bnd_done by reflexivity. cbn [vz]. erewrite bnd_done by (apply last_row_at; reflexivity). reflexivity.
Qed.
Definition one_row_3d : list nat := [1%nat; 2%nat; NU_MAX; M_MAX; 4%nat].
Lemma potential_3d_derivs_faults : potential_3d_derivs_py the_point the_samples (array_in 2 one_row_3d) (last_sample (size one_row_3d)) = Fault.
Proof.
  change (c_potential_3d_derivs (mkptr 3 0) (mkptr 1 0) (mkptr 2 0) 2 (last_sample (size one_row_3d) ++ [mkbuffer Float64 [0; 0; 1]]) = Fault). unfold c_potential_3d_derivs. erewrite bnd_done by reflexivity. cbn [vz].
  erewrite bnd_done by (apply last_row_at; reflexivity). reflexivity.
Qed.
Lemma field_3d_derivs_faults : field_3d_derivs_py the_point the_samples (array_in 2 one_row_3d) (last_sample (size one_row_3d)) = Fault.
Proof.
  change ((c_field_3d_derivs (mkptr 4 0) (mkptr 3 0) (mkptr 1 0) (mkptr 2 0) 2 ;;; ret (@None ndarray)) (last_sample (size one_row_3d) ++ [zeros_buffer 3; mkbuffer Float64 [0; 0; 1]]) = Fault).
  apply seq_fault. unfold c_field_3d_derivs. erewrite bnd_done by reflexivity. erewrite bnd_done by reflexivity. cbn [vz]. erewrite bnd_done by (apply last_row_at; reflexivity). reflexivity.
Qed.
(** ** A table of one sample: the second sample is read *)
Definition single : heap := [zeros_buffer 3; zeros_buffer 1; zeros_buffer 0].
Lemma single_ok : floats single (array_in 0 [3%nat]) [3%nat] /\ floats single (array_in 1 [1%nat]) [1%nat] /\ floats single (array_in 2 [0%nat; 9%nat; 6%nat]) [0%nat; 9%nat; 6%nat].
Proof. split; [|split]; apply array_in_ok; eexists; split; reflexivity. Qed.
Lemma single_sample_faults : potential_radial_derivs_py (array_in 0 [3%nat]) (array_in 1 [1%nat]) (array_in 2 [0%nat; 9%nat; 6%nat]) single = Fault.
Proof.
  change (c_potential_radial_derivs (mkptr 3 0) (mkptr 1 0) (mkptr 2 0) 1 (single ++ [zeros_buffer 3]) = Fault). unfold c_potential_radial_derivs. erewrite bnd_done by reflexivity. cbn [vz]. apply seq_fault.
  unfold c_table_row. erewrite bnd_done by reflexivity. erewrite bnd_done by reflexivity. destruct (Rle_dec 0 0); [|lra]. destruct (Rle_dec 0 0); [|lra]. reflexivity.
Qed.
