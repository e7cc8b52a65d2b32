(** Calls that evaluate interpolated series. *)
From Coq Require Import Reals Lra.
From Verif Require Import Base BaseFacts Vec GeomModel MemModel FieldModel SeriesModel Axial3DModel MatrixModel MemFacts BackendModel BackendSafe BackendValues BackendCalls BackendReturns BackendTables BackendBuffers.
Local Open Scope R_scope.
Local Open Scope mem_scope.

(** ** Positions in memory of the items of an array of any dimension *)
Fixpoint flat (s idx : list nat) : nat := match s, idx with _ :: s', i :: ii => i * size s' + flat s' ii | _, _ => 0 end%nat.
Fixpoint inside (s idx : list nat) : Prop := match s, idx with [], [] => True | d :: s', i :: ii => (i < d)%nat /\ inside s' ii | _, _ => False end.
Lemma flat_lt s : forall idx, inside s idx -> (flat s idx < size s)%nat.
Proof. induction s as [|d s IH]; intros [|i ii] H; cbn in *; try tauto; try lia. destruct H as [H1 H2]. apply IH in H2. unfold size in *. nia. Qed.
Lemma nth_flat s : forall idx, inside s idx -> nth (flat s idx) (indices s) [] = idx.
Proof.
  induction s as [|d s IH]; intros [|i ii] H; cbn [inside] in H; try tauto; try reflexivity. destruct H as [H1 H2]. pose proof (flat_lt s ii H2) as F.
  rewrite nth_indices by (apply (flat_lt (d :: s) (i :: ii)); split; assumption). cbn [flat]. destruct (flat_index i (flat s ii) (size s) F) as [-> ->]. now rewrite IH.
Qed.
Lemma ld_flat h0 a h p idx m : at_ h0 a h p -> inside (nd_shape a) idx -> m = flat (nd_shape a) idx -> ld p m h = Done (item h0 a idx) h.
Proof.
  intros B I ->. pose proof (flat_lt _ _ I). rewrite (ld_block _ _ _ _ B) by (now rewrite contents_length). f_equal. rewrite nth_contents by assumption. now rewrite nth_flat.
Qed.
Lemma fill_pure {A} hh n (f : nat -> M A) (v : nat -> A) : (forall k, (k < n)%nat -> f k hh = Done (v k) hh) -> fill n f hh = Done (map v (arange n)) hh.
Proof.
  intros H. unfold fill, arange. enough (G : forall m i, (forall k, (i <= k < i + m)%nat -> f k hh = Done (v k) hh) -> fill_from i m f hh = Done (map v (seq i m)) hh) by (apply G; intros; apply H; lia).
  induction m as [|m IH]; intros i G; cbn [fill_from seq map]; [reflexivity|]. rewrite (bnd_done _ _ _ _ _ (G i ltac:(lia))). rewrite (bnd_done _ _ _ _ _ (IH (S i) ltac:(intros; apply G; lia))). reflexivity.
Qed.
(** a view of the memory as the lists of SeriesModel *)
Section Series.
Variable h : heap.
Definition samples (z : ndarray) : list R := map (fun i => item h z [i]) (arange (hd 0%nat (nd_shape z))).
Definition poly_of (c : ndarray) (i k : nat) : poly6 := (item h c [i; k; 0%nat], item h c [i; k; 1%nat], item h c [i; k; 2%nat], item h c [i; k; 3%nat], item h c [i; k; 4%nat], item h c [i; k; 5%nat]).
Definition table (c : ndarray) : list coeff_row := map (poly_of c) (arange (hd 0%nat (nd_shape c))).
Definition poly4_of (c : ndarray) (i s nu m : nat) : poly4 := (item h c [i; s; nu; m; 0%nat], item h c [i; s; nu; m; 1%nat], item h c [i; s; nu; m; 2%nat], item h c [i; s; nu; m; 3%nat]).
Definition table3d (c : ndarray) : list coeff3d_row := map (fun i (sine : bool) nu m => poly4_of c i (if sine then 1 else 0)%nat nu m) (arange (hd 0%nat (nd_shape c))).
Lemma np_get_arange {A} (f : nat -> A) n i x : np_get (map f (arange n)) i = Ok x <-> ((i < n)%nat /\ x = f i).
Proof.
  rewrite np_get_ok. rewrite nth_error_map. unfold arange. destruct (Nat.ltb_spec i n) as [H|H].
  - assert (nth_error (seq 0 n) i = Some i) as -> by (rewrite (nth_error_nth' _ 0%nat) by (rewrite seq_length; exact H); now rewrite seq_nth). cbn. split; [intros [= <-]; tauto|intros [_ ->]; reflexivity].
  - assert (nth_error (seq 0 n) i = None) as -> by (apply nth_error_None; rewrite seq_length; exact H). cbn. split; [discriminate|lia].
Qed.
Lemma get_sample z n i : nd_shape z = [n] -> (i < n)%nat -> np_get (samples z) i = Ok (item h z [i]).
Proof. intros S H. unfold samples. rewrite S. apply np_get_arange. tauto. Qed.
Lemma samples_length z n : nd_shape z = [n] -> length (samples z) = n.
Proof. intros S. unfold samples. rewrite S, map_length. unfold arange. apply seq_length. Qed.
(** the structured models of the two tables agree on which row is used *)
Definition chosen {Row} (zs : list R) (rows : list Row) (z : R) : result (option (nat * R)) :=
  (z0 <- np_get zs 0 ;; zlast <- np_get zs (length zs - 1) ;;
  if Rle_dec z0 z then if Rle_dec z zlast then
    z1 <- np_get zs 1 ;; let index := series_index zs z0 z1 z in zi <- np_get zs index ;; _ <- np_get rows index ;; Ok (Some (index, z - zi))
  else Ok None else Ok None).

Lemma val_table_row {Row} z hh zp N_z x (rows : list Row) r : at_ h z hh zp -> nd_shape z = [N_z] -> chosen (samples z) rows x = Ok r -> c_table_row x zp N_z hh = Done r hh.
Proof.
  intros B S H. unfold chosen in H. apply bind_ok in H. destruct H as (z0 & H0 & H). unfold samples in H0 at 1. rewrite S in H0. apply np_get_arange in H0. cbn [hd] in H0. destruct H0 as [P0 ->].
  apply bind_ok in H. destruct H as (zl & Hl & H). rewrite (samples_length z N_z S) in Hl. rewrite (get_sample z N_z) in Hl by (auto; lia). injection Hl as <-.
  unfold c_table_row. rewrite (bnd_done _ _ _ _ _ (ld1 h z hh zp N_z 0 B S P0)).
  assert (El : load Float64 zp (Z.of_nat N_z - 1) hh = Done (item h z [(N_z - 1)%nat]) hh).
  { replace (Z.of_nat N_z - 1)%Z with (Z.of_nat (N_z - 1)) by lia. apply (ld1 h z hh zp N_z (N_z - 1) B S). lia. }
  rewrite (bnd_done _ _ _ _ _ El). destruct (Rle_dec _ x); [|injection H as <-; reflexivity]. destruct (Rle_dec x _); [|injection H as <-; reflexivity].
  apply bind_ok in H. destruct H as (z1 & H1 & H). unfold samples in H1 at 1. rewrite S in H1. apply np_get_arange in H1. cbn [hd] in H1. destruct H1 as [P1 ->].
  rewrite (bnd_done _ _ _ _ _ (ld1 h z hh zp N_z 1 B S P1)). cbv zeta in H. unfold series_index in H. rewrite (samples_length z N_z S) in H. cbv zeta.
  set (index := Z.to_nat _) in *. apply bind_ok in H. destruct H as (zi & Hi & H). unfold samples in Hi at 1. rewrite S in Hi. apply np_get_arange in Hi. cbn [hd] in Hi. destruct Hi as [Pi ->].
  apply bind_ok in H. destruct H as (row & Hr & H). injection H as <-. rewrite (bnd_done _ _ _ _ _ (ld1 h z hh zp N_z index B S Pi)). reflexivity.
Qed.
Lemma chosen_row {Row} zs (rows : list Row) x i d : chosen zs rows x = Ok (Some (i, d)) -> (i < length rows)%nat.
Proof.
  unfold chosen. intros H. apply bind_ok in H. destruct H as (z0 & H0 & H). apply bind_ok in H. destruct H as (zl & Hl & H). destruct (Rle_dec _ _); [|discriminate]. destruct (Rle_dec _ _); [|discriminate].
  apply bind_ok in H. destruct H as (z1 & H1 & H). apply bind_ok in H. destruct H as (zi & Hi & H). apply bind_ok in H. destruct H as (row & Hr & H). injection H as <- <-. apply np_get_ok in Hr. apply nth_error_Some. congruence.
Qed.
Lemma series_derivs_chosen zs coeff x d : series_derivs zs coeff x = Ok d ->
  (chosen zs coeff x = Ok None /\ d = None) \/ exists i di row, chosen zs coeff x = Ok (Some (i, di)) /\ np_get coeff i = Ok row /\ d = Some (fun k => poly_at (row k) di).
Proof.
  unfold series_derivs, chosen. intros H. apply bind_ok in H. destruct H as (z0 & -> & H). cbn [bind]. apply bind_ok in H. destruct H as (zl & -> & H). cbn [bind]. destruct (Rle_dec _ _); [|injection H as <-; left; tauto]. destruct (Rle_dec _ _); [|injection H as <-; left; tauto].
  apply bind_ok in H. destruct H as (z1 & -> & H). cbn [bind]. cbv zeta in *. apply bind_ok in H. destruct H as (zi & -> & H). cbn [bind]. apply bind_ok in H. destruct H as (row & Hr & H). injection H as <-. right. exists (series_index zs z0 z1 x), (x - zi), row. rewrite Hr. cbn [bind]. tauto.
Qed.
Lemma series3d_chosen zs coeff x d : series3d_row zs coeff x = Ok d ->
  (chosen zs coeff x = Ok None /\ d = None) \/ exists i di row, chosen zs coeff x = Ok (Some (i, di)) /\ np_get coeff i = Ok row /\ d = Some (row, di).
Proof.
  unfold series3d_row, chosen. intros H. apply bind_ok in H. destruct H as (z0 & -> & H). cbn [bind]. apply bind_ok in H. destruct H as (zl & -> & H). cbn [bind]. destruct (Rle_dec _ _); [|injection H as <-; left; tauto]. destruct (Rle_dec _ _); [|injection H as <-; left; tauto].
  apply bind_ok in H. destruct H as (z1 & -> & H). cbn [bind]. cbv zeta in *. apply bind_ok in H. destruct H as (zi & -> & H). cbn [bind]. apply bind_ok in H. destruct H as (row & Hr & H). injection H as <-. right. exists (series_index zs z0 z1 x), (x - zi), row. rewrite Hr. cbn [bind]. tauto.
Qed.
Lemma ld_poly6_at c hh p K i k : at_ h c hh p -> nd_shape c = [K; 9%nat; 6%nat] -> (i < K)%nat -> (k < 9)%nat -> ld_poly6 (shift p ((i * 9 + k) * 6)) hh = Done (poly_of c i k) hh.
Proof.
  intros B S Hi Hk. unfold ld_poly6. assert (R : forall m, (m < 6)%nat -> ld (shift p ((i * 9 + k) * 6)) m hh = Done (item h c [i; k; m]) hh) by (intros; rewrite ld_shift; now apply (ld_at3 h c hh p K 9 6 i k m)).
  rewrite (bnd_done _ _ _ _ _ (R 0%nat ltac:(lia))), (bnd_done _ _ _ _ _ (R 1%nat ltac:(lia))), (bnd_done _ _ _ _ _ (R 2%nat ltac:(lia))), (bnd_done _ _ _ _ _ (R 3%nat ltac:(lia))), (bnd_done _ _ _ _ _ (R 4%nat ltac:(lia))), (bnd_done _ _ _ _ _ (R 5%nat ltac:(lia))). reflexivity.
Qed.
Lemma val_derivs c hh p K i d : at_ h c hh p -> nd_shape c = [K; 9%nat; 6%nat] -> (i < K)%nat ->
  c_derivs p i d hh = Done (fun k => nth k (map (fun k => poly_at (poly_of c i k) d) (arange 9)) 0) hh.
Proof.
  intros B S Hi. unfold c_derivs. change DERIV_2D_MAX with 9%nat. erewrite bnd_done; [|apply fill_pure; intros k Hk; rewrite (bnd_done _ _ _ _ _ (ld_poly6_at c hh p K i k B S Hi Hk)); reflexivity]. reflexivity.
Qed.
Lemma table_length c K rest : nd_shape c = K :: rest -> length (table c) = K.
Proof. intros S. unfold table. rewrite S, map_length. apply seq_length. Qed.
Lemma table3d_length c K rest : nd_shape c = K :: rest -> length (table3d c) = K.
Proof. intros S. unfold table3d. rewrite S, map_length. apply seq_length. Qed.
Lemma val_potential_radial_derivs z c hh p P zp cp N_z v : at_ h P hh p -> nd_shape P = [3%nat] -> at_ h z hh zp -> nd_shape z = [N_z] -> at_ h c hh cp -> nd_shape c = [(N_z - 1)%nat; 9%nat; 6%nat] ->
  potential_radial_derivs (point_of h P) (samples z) (table c) = Ok v -> c_potential_radial_derivs p zp cp N_z hh = Done v hh.
Proof.
  intros BP SP BZ SZ BC SC H. unfold potential_radial_derivs in H. apply bind_ok in H. destruct H as (d & Hd & H). injection H as <-. unfold c_potential_radial_derivs.
  rewrite (bnd_done _ _ _ _ _ (ld3_point h P hh p BP SP)). apply series_derivs_chosen in Hd. destruct Hd as [[Hc ->]|(i & di & row & Hc & Hr & ->)].
  - rewrite (bnd_done _ _ _ _ _ (val_table_row z hh zp N_z _ _ _ BZ SZ Hc)). reflexivity.
  - rewrite (bnd_done _ _ _ _ _ (val_table_row z hh zp N_z _ _ _ BZ SZ Hc)). apply chosen_row in Hc. rewrite (table_length c _ _ SC) in Hc. cbv beta iota. rewrite (bnd_done _ _ _ _ _ (val_derivs c hh cp _ i di BC SC Hc)).
    unfold table in Hr. rewrite SC in Hr. apply np_get_arange in Hr. destruct Hr as [_ ->]. reflexivity.
Qed.
Lemma val_field_radial_derivs z c hh p P f zp cp N_z v : at_ h P hh p -> nd_shape P = [3%nat] -> at_ h z hh zp -> nd_shape z = [N_z] -> at_ h c hh cp -> nd_shape c = [(N_z - 1)%nat; 9%nat; 6%nat] ->
  field_radial_derivs (point_of h P) (samples z) (table c) = Ok v -> c_field_radial_derivs p f zp cp N_z hh = st3 f v hh.
Proof.
  intros BP SP BZ SZ BC SC H. unfold field_radial_derivs in H. apply bind_ok in H. destruct H as (d & Hd & H). injection H as <-. unfold c_field_radial_derivs.
  rewrite (bnd_done _ _ _ _ _ (ld3_point h P hh p BP SP)). apply series_derivs_chosen in Hd. destruct Hd as [[Hc ->]|(i & di & row & Hc & Hr & ->)].
  - rewrite (bnd_done _ _ _ _ _ (val_table_row z hh zp N_z _ _ _ BZ SZ Hc)). reflexivity.
  - rewrite (bnd_done _ _ _ _ _ (val_table_row z hh zp N_z _ _ _ BZ SZ Hc)). apply chosen_row in Hc. rewrite (table_length c _ _ SC) in Hc. cbv beta iota. rewrite (bnd_done _ _ _ _ _ (val_derivs c hh cp _ i di BC SC Hc)).
    unfold table in Hr. rewrite SC in Hr. apply np_get_arange in Hr. destruct Hr as [_ ->]. reflexivity.
Qed.
Ltac by_one N_z := unfold one_less; rewrite (proj2 (Nat.leb_le 1 N_z)) by lia; cbn [andb]; unfold has_shape; apply shape_eqb_eq; assumption.
Lemma ret_potential_radial_derivs p z c N_z v : array_ok h p -> nd_shape p = [3%nat] -> floats h z [N_z] -> floats h c [(N_z - 1)%nat; 9%nat; 6%nat] -> (1 <= N_z)%nat ->
  potential_radial_derivs (point_of h p) (samples z) (table c) = Ok v -> returns_value h (potential_radial_derivs_py p z c) v.
Proof.
  intros Ap Sp (Az & Sz & Tz) (Ac & Sc & Tc) N1 H. begin_value. unfold potential_radial_derivs_py. eapply wp_len; [exact Sz|]. apply wp_assert; [by_one N_z|]. repeat rstep h.
  apply wp_value; [|assumption]. eapply (val_potential_radial_derivs z c); eassumption.
Qed.
Lemma ret_field_radial_derivs p z c N_z v : array_ok h p -> nd_shape p = [3%nat] -> floats h z [N_z] -> floats h c [(N_z - 1)%nat; 9%nat; 6%nat] -> (1 <= N_z)%nat ->
  field_radial_derivs (point_of h p) (samples z) (table c) = Ok v -> returns_array h (field_radial_derivs_py p z c) [3%nat] [vx v; vy v; vz v].
Proof.
  intros Ap Sp (Az & Sz & Tz) (Ac & Sc & Tc) N1 H. begin_array. unfold field_radial_derivs_py. apply wp_assert; [by_shape|]. eapply wp_len; [exact Sz|]. apply wp_assert; [by_one N_z|]. repeat rstep h.
  eapply wp_store3; [eapply (val_field_radial_derivs z c); eassumption|eassumption|reflexivity|assumption|assumption].
Qed.
End Series.
