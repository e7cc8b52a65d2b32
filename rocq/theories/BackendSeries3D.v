(** Calls that evaluate interpolated series: three dimensions, and when a row of the table exists. *)
From Coq Require Import Reals Lra.
From Verif Require Import Base BaseFacts Vec GeomModel MemModel FieldModel SeriesModel Axial3DModel MatrixModel MemFacts BackendModel BackendSafe BackendValues BackendCalls BackendReturns BackendTables BackendBuffers BackendSeries.
From Coquelicot Require Rcomplements.
From Verif Require PathModel.
Local Open Scope R_scope.
Local Open Scope mem_scope.

Section Series3D.
Variable h : heap.
Lemma ld_poly4_at c hh p K i s nu m : at_ h c hh p -> nd_shape c = [K; 2%nat; NU_MAX; M_MAX; 4%nat] -> (i < K)%nat -> (s < 2)%nat -> (nu < NU_MAX)%nat -> (m < M_MAX)%nat ->
  ld_poly4 (shift p ((((i * 2 + s) * NU_MAX + nu) * M_MAX + m) * 4)) hh = Done (poly4_of h c i s nu m) hh.
Proof.
  intros B S Hi Hs Hn Hm. unfold ld_poly4. assert (R : forall k, (k < 4)%nat -> ld (shift p ((((i * 2 + s) * NU_MAX + nu) * M_MAX + m) * 4)) k hh = Done (item h c [i; s; nu; m; k]) hh).
  { intros k Hk. rewrite ld_shift. apply (ld_flat h c hh p); [exact B|rewrite S; cbn [inside]; tauto|]. rewrite S. cbn [flat size fold_right]. unfold NU_MAX, M_MAX. lia. }
  rewrite (bnd_done _ _ _ _ _ (R 0%nat ltac:(lia))), (bnd_done _ _ _ _ _ (R 1%nat ltac:(lia))), (bnd_done _ _ _ _ _ (R 2%nat ltac:(lia))), (bnd_done _ _ _ _ _ (R 3%nat ltac:(lia))). reflexivity.
Qed.
Definition row_list (c : ndarray) (i : nat) : list (list (list poly4)) := map (fun s => map (fun nu => map (poly4_of h c i s nu) (arange M_MAX)) (arange NU_MAX)) (arange 2).
Definition row_fun (l : list (list (list poly4))) : coeff3d_row := fun sine nu m => nth m (nth nu (nth (if sine : bool then 1%nat else 0%nat) l []) []) (0, 0, 0, 0).
Lemma val_row_3d c hh p K i : at_ h c hh p -> nd_shape c = [K; 2%nat; NU_MAX; M_MAX; 4%nat] -> (i < K)%nat -> c_row_3d p i hh = Done (row_fun (row_list c i)) hh.
Proof.
  intros B S Hi. unfold c_row_3d. erewrite bnd_done; [reflexivity|]. apply fill_pure. intros s Hs. apply fill_pure. intros nu Hn. apply fill_pure. intros m Hm. now apply (ld_poly4_at c hh p K).
Qed.
Lemma row_fun_at c i sine nu m : (nu < NU_MAX)%nat -> (m < M_MAX)%nat -> row_fun (row_list c i) sine nu m = poly4_of h c i (if sine : bool then 1%nat else 0%nat) nu m.
Proof.
  intros Hn Hm. unfold row_fun, row_list. rewrite (nth_map_arange _ 2) by (destruct sine; lia). rewrite (nth_map_arange _ NU_MAX) by exact Hn. now rewrite (nth_map_arange _ M_MAX) by exact Hm.
Qed.
Lemma sum_nu_m_ext f g : (forall nu m, (nu < NU_MAX)%nat -> (m < M_MAX)%nat -> f nu m = g nu m) -> sum_nu_m f = sum_nu_m g.
Proof. intros H. unfold sum_nu_m. f_equal. apply map_ext_in. intros nu Hn. f_equal. apply map_ext_in. intros m Hm. apply in_arange in Hn, Hm. now apply H. Qed.
Lemma get_row_3d c K rest i row : nd_shape c = K :: rest -> np_get (table3d h c) i = Ok row -> (i < K)%nat /\ row = (fun (sine : bool) nu m => poly4_of h c i (if sine then 1 else 0)%nat nu m).
Proof. intros S H. unfold table3d in H. rewrite S in H. now apply np_get_arange in H. Qed.
Lemma val_potential_3d_derivs z c hh p P zp cp N_z v : at_ h P hh p -> nd_shape P = [3%nat] -> at_ h z hh zp -> nd_shape z = [N_z] -> at_ h c hh cp -> nd_shape c = [(N_z - 1)%nat; 2%nat; NU_MAX; M_MAX; 4%nat] ->
  potential_3d_derivs (point_of h P) (samples h z) (table3d h c) = Ok v -> c_potential_3d_derivs p zp cp N_z hh = Done v hh.
Proof.
  intros BP SP BZ SZ BC SC H. unfold potential_3d_derivs in H. apply bind_ok in H. destruct H as (d & Hd & H). injection H as <-. unfold c_potential_3d_derivs.
  rewrite (bnd_done _ _ _ _ _ (ld3_point h P hh p BP SP)). apply series3d_chosen in Hd. destruct Hd as [[Hc ->]|(i & di & row & Hc & Hr & ->)].
  - rewrite (bnd_done _ _ _ _ _ (val_table_row h z hh zp N_z _ _ _ BZ SZ Hc)). reflexivity.
  - rewrite (bnd_done _ _ _ _ _ (val_table_row h z hh zp N_z _ _ _ BZ SZ Hc)). destruct (get_row_3d c _ _ i row SC Hr) as [Hi ->]. cbv beta iota. rewrite (bnd_done _ _ _ _ _ (val_row_3d c hh cp _ i BC SC Hi)).
    unfold ret. f_equal; apply sum_nu_m_ext; intros nu m Hn Hm; unfold potential3d_term; now rewrite !row_fun_at by assumption.
Qed.
Lemma val_field_3d_derivs z c hh p P f zp cp N_z v cells : at_ h P hh p -> nd_shape P = [3%nat] -> at_ h z hh zp -> nd_shape z = [N_z] -> at_ h c hh cp -> nd_shape c = [(N_z - 1)%nat; 2%nat; NU_MAX; M_MAX; 4%nat] ->
  p_buffer p <> f -> p_buffer zp <> f -> p_buffer cp <> f -> nth_error hh f = Some (mkbuffer Float64 cells) -> length cells = 3%nat ->
  field_3d_derivs (point_of h P) (samples h z) (table3d h c) = Ok v -> c_field_3d_derivs p (mkptr f 0) zp cp N_z hh = Done tt (put hh f [vx v; vy v; vz v]).
Proof.
  intros BP SP BZ SZ BC SC Np Nz Nc Hf L H. unfold field_3d_derivs in H. apply bind_ok in H. destruct H as (d & Hd & H). injection H as <-. unfold c_field_3d_derivs.
  assert (B : (f < length hh)%nat) by (apply nth_error_Some; congruence).
  assert (St : forall w, st3 (mkptr f 0) w hh = Done tt (put hh f [vx w; vy w; vz w])) by (intros w; rewrite <- (st3_put hh f cells w B L); now rewrite (put_same hh f) by exact Hf).
  rewrite (bnd_done _ _ _ _ _ (ld3_point h P hh p BP SP)). rewrite (bnd_done _ _ _ _ _ (St vzero)). cbn [vzero vx vy vz].
  set (h1 := put hh f [0; 0; 0]). assert (BZ1 : at_ h z h1 zp) by (apply block_put; assumption). assert (BC1 : at_ h c h1 cp) by (apply block_put; assumption).
  apply series3d_chosen in Hd. destruct Hd as [[Hc ->]|(i & di & row & Hc & Hr & ->)].
  - rewrite (bnd_done _ _ _ _ _ (val_table_row h z h1 zp N_z _ _ _ BZ1 SZ Hc)). reflexivity.
  - rewrite (bnd_done _ _ _ _ _ (val_table_row h z h1 zp N_z _ _ _ BZ1 SZ Hc)). destruct (get_row_3d c _ _ i row SC Hr) as [Hi ->]. cbv beta iota. rewrite (bnd_done _ _ _ _ _ (val_row_3d c h1 cp _ i BC1 SC Hi)).
    unfold h1. rewrite st3_put by (auto; reflexivity). reflexivity.
Qed.
Lemma ret_potential_3d_derivs p z c N_z v : array_ok h p -> nd_shape p = [3%nat] -> floats h z [N_z] -> floats h c [(N_z - 1)%nat; 2%nat; NU_MAX; M_MAX; 4%nat] -> (1 <= N_z)%nat ->
  potential_3d_derivs (point_of h p) (samples h z) (table3d h c) = Ok v -> returns_value h (potential_3d_derivs_py p z c) v.
Proof.
  intros Ap Sp (Az & Sz & Tz) (Ac & Sc & Tc) N1 H. begin_value. unfold potential_3d_derivs_py. eapply wp_len; [exact Sz|].
  apply wp_assert; [unfold one_less; rewrite (proj2 (Nat.leb_le 1 N_z)) by lia; cbn [andb]; unfold has_shape; apply shape_eqb_eq; assumption|]. repeat rstep h.
  apply wp_value; [|assumption]. eapply (val_potential_3d_derivs z c); eassumption.
Qed.
(** the field is computed and lost: the caller gets None *)
Lemma ret_field_3d_derivs p z c N_z v : array_ok h p -> nd_shape p = [3%nat] -> floats h z [N_z] -> floats h c [(N_z - 1)%nat; 2%nat; NU_MAX; M_MAX; 4%nat] -> (1 <= N_z)%nat ->
  field_3d_derivs (point_of h p) (samples h z) (table3d h c) = Ok v -> returns_value h (field_3d_derivs_py p z c) None.
Proof.
  intros Ap Sp (Az & Sz & Tz) (Ac & Sc & Tc) N1 H. begin_value. unfold field_3d_derivs_py. apply wp_assert; [by_shape|]. eapply wp_len; [exact Sz|].
  apply wp_assert; [unfold one_less; rewrite (proj2 (Nat.leb_le 1 N_z)) by lia; cbn [andb]; unfold has_shape; apply shape_eqb_eq; assumption|]. repeat rstep h.
  eapply wp_done; [eapply (val_field_3d_derivs z c); try eassumption; try reflexivity|apply wp_ret; split; [reflexivity|]; apply extends_put; [assumption|lia]].
  all: unfold apart in *; cbn [p_buffer] in *; pose proof (extends_length _ _ E1); lia.
Qed.

(** ** A row of the table exists strictly before the last sample *)
Definition before_last (z : ndarray) (N_z : nat) (x : R) : Prop :=
  x < item h z [0%nat] \/ item h z [(N_z - 1)%nat] < x \/
  (2 <= N_z)%nat /\ item h z [0%nat] < item h z [1%nat] /\ x - item h z [0%nat] < INR (N_z - 1) * (item h z [1%nat] - item h z [0%nat]).
Lemma chosen_total {Row} z N_z (rows : list Row) x : nd_shape z = [N_z] -> (1 <= N_z)%nat -> length rows = (N_z - 1)%nat -> before_last z N_z x -> exists r, chosen (samples h z) rows x = Ok r.
Proof.
  intros S N1 Lr H. unfold chosen. rewrite (get_sample h z N_z 0 S) by lia. cbn [bind]. rewrite (samples_length h z N_z S). rewrite (get_sample h z N_z (N_z - 1) S) by lia. cbn [bind].
  destruct (Rle_dec _ x) as [L0|]; [|eexists; reflexivity]. destruct (Rle_dec x _) as [L1|]; [|eexists; reflexivity]. destruct H as [H|[H|(N2 & Hz & H)]]; [lra..|].
  rewrite (get_sample h z N_z 1 S) by lia. cbn [bind]. cbv zeta. set (d := item h z [1%nat] - item h z [0%nat]) in *. assert (0 < d) by (unfold d; lra).
  set (t := (x - item h z [0%nat]) / d). assert (T0 : 0 <= t) by (apply Rcomplements.Rle_div_r; lra). assert (T1 : t < INR (N_z - 1)) by (apply Rcomplements.Rlt_div_l; lra).
  assert (E : (series_index (samples h z) (item h z [0%nat]) (item h z [1%nat]) x < N_z - 1)%nat).
  { unfold series_index. fold d. fold t. rewrite (samples_length h z N_z S). unfold c_int. destruct (Rle_dec 0 t); [|lra]. pose proof (base_Int_part t) as [B1 B2]. rewrite INR_IZR_INZ in T1.
    assert ((Int_part t < Z.of_nat (N_z - 1))%Z) by (apply lt_IZR; lra). lia. }
  set (i := series_index _ _ _ _) in *. rewrite (get_sample h z N_z i S) by lia. cbn [bind]. destruct (np_get rows i) as [r|e] eqn:Er; [cbn [bind]; eexists; reflexivity|].
  exfalso. assert (Some' : nth_error rows i <> None) by (apply nth_error_Some; lia). destruct (nth_error rows i) as [r|] eqn:En; [|congruence]. apply (proj2 (np_get_ok rows i r)) in En. congruence.
Qed.
Lemma derivs_total z c N_z rest x : nd_shape z = [N_z] -> nd_shape c = (N_z - 1)%nat :: rest -> (1 <= N_z)%nat -> before_last z N_z x -> exists d, series_derivs (samples h z) (table h c) x = Ok d.
Proof.
  intros S SC N1 H. destruct (chosen_total z N_z (table h c) x S N1 (table_length h c _ _ SC) H) as (r & Hr). unfold series_derivs. unfold chosen in Hr.
  apply bind_ok in Hr. destruct Hr as (z0 & -> & Hr). cbn [bind]. apply bind_ok in Hr. destruct Hr as (zl & -> & Hr). cbn [bind]. destruct (Rle_dec _ _); [|eexists; reflexivity]. destruct (Rle_dec _ _); [|eexists; reflexivity].
  apply bind_ok in Hr. destruct Hr as (z1 & -> & Hr). cbn [bind]. cbv zeta in *. apply bind_ok in Hr. destruct Hr as (zi & -> & Hr). cbn [bind]. apply bind_ok in Hr. destruct Hr as (row & -> & Hr). cbn [bind]. eexists; reflexivity.
Qed.
Lemma row3d_total z c N_z rest x : nd_shape z = [N_z] -> nd_shape c = (N_z - 1)%nat :: rest -> (1 <= N_z)%nat -> before_last z N_z x -> exists d, series3d_row (samples h z) (table3d h c) x = Ok d.
Proof.
  intros S SC N1 H. destruct (chosen_total z N_z (table3d h c) x S N1 (table3d_length h c _ _ SC) H) as (r & Hr). unfold series3d_row. unfold chosen in Hr.
  apply bind_ok in Hr. destruct Hr as (z0 & -> & Hr). cbn [bind]. apply bind_ok in Hr. destruct Hr as (zl & -> & Hr). cbn [bind]. destruct (Rle_dec _ _); [|eexists; reflexivity]. destruct (Rle_dec _ _); [|eexists; reflexivity].
  apply bind_ok in Hr. destruct Hr as (z1 & -> & Hr). cbn [bind]. cbv zeta in *. apply bind_ok in Hr. destruct Hr as (zi & -> & Hr). cbn [bind]. apply bind_ok in Hr. destruct Hr as (row & -> & Hr). cbn [bind]. eexists; reflexivity.
Qed.
Lemma returns_value_nofault {A} (m : M A) v : returns_value h m v -> nofault h m.
Proof. intros (h' & E & _). unfold nofault. rewrite E. discriminate. Qed.
Lemma returns_array_nofault m s c : returns_array h m s c -> nofault h m.
Proof. intros (a & h' & E & _). unfold nofault. rewrite E. discriminate. Qed.
Lemma nf_potential_radial_derivs p z c N_z : array_ok h p -> nd_shape p = [3%nat] -> floats h z [N_z] -> floats h c [(N_z - 1)%nat; 9%nat; 6%nat] -> (1 <= N_z)%nat ->
  before_last z N_z (vz (point_of h p)) -> nofault h (potential_radial_derivs_py p z c).
Proof.
  intros Ap Sp Fz Fc N1 H. pose proof (proj1 (proj2 Fz)) as Sz. pose proof (proj1 (proj2 Fc)) as Sc. destruct (derivs_total z c N_z _ _ Sz Sc N1 H) as (d & Hd).
  eapply returns_value_nofault. eapply ret_potential_radial_derivs; try eassumption. unfold potential_radial_derivs. rewrite Hd. reflexivity.
Qed.
Lemma nf_field_radial_derivs p z c N_z : array_ok h p -> nd_shape p = [3%nat] -> floats h z [N_z] -> floats h c [(N_z - 1)%nat; 9%nat; 6%nat] -> (1 <= N_z)%nat ->
  before_last z N_z (vz (point_of h p)) -> nofault h (field_radial_derivs_py p z c).
Proof.
  intros Ap Sp Fz Fc N1 H. pose proof (proj1 (proj2 Fz)) as Sz. pose proof (proj1 (proj2 Fc)) as Sc. destruct (derivs_total z c N_z _ _ Sz Sc N1 H) as (d & Hd).
  eapply returns_array_nofault. eapply ret_field_radial_derivs; try eassumption. unfold field_radial_derivs. rewrite Hd. reflexivity.
Qed.
Lemma nf_potential_3d_derivs p z c N_z : array_ok h p -> nd_shape p = [3%nat] -> floats h z [N_z] -> floats h c [(N_z - 1)%nat; 2%nat; NU_MAX; M_MAX; 4%nat] -> (1 <= N_z)%nat ->
  before_last z N_z (vz (point_of h p)) -> nofault h (potential_3d_derivs_py p z c).
Proof.
  intros Ap Sp Fz Fc N1 H. pose proof (proj1 (proj2 Fz)) as Sz. pose proof (proj1 (proj2 Fc)) as Sc. destruct (row3d_total z c N_z _ _ Sz Sc N1 H) as (d & Hd).
  eapply returns_value_nofault. eapply ret_potential_3d_derivs; try eassumption. unfold potential_3d_derivs. rewrite Hd. reflexivity.
Qed.
Lemma nf_field_3d_derivs p z c N_z : array_ok h p -> nd_shape p = [3%nat] -> floats h z [N_z] -> floats h c [(N_z - 1)%nat; 2%nat; NU_MAX; M_MAX; 4%nat] -> (1 <= N_z)%nat ->
  before_last z N_z (vz (point_of h p)) -> nofault h (field_3d_derivs_py p z c).
Proof.
  intros Ap Sp Fz Fc N1 H. pose proof (proj1 (proj2 Fz)) as Sz. pose proof (proj1 (proj2 Fc)) as Sc. destruct (row3d_total z c N_z _ _ Sz Sc N1 H) as (d & Hd).
  eapply returns_value_nofault. eapply ret_field_3d_derivs; try eassumption. unfold field_3d_derivs. rewrite Hd. reflexivity.
Qed.
End Series3D.
