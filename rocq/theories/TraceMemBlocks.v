(** The Python function that collects the blocks of samples refines TracingModel. *)
From Coq Require Import Reals Lra.
From Verif Require Import Base BaseFacts Vec GeomModel MemModel FieldModel SeriesModel Axial3DModel TracingModel MemFacts BackendModel BackendSafe BackendValues BackendCalls BackendReturns BackendTables BackendBuffers TraceMemModel TraceMemSpec TraceMemFacts.
Local Open Scope R_scope.
Local Open Scope mem_scope.

(** ** Contiguous views of a buffer *)
Definition view (n off : nat) (shape : list nat) : ndarray := mkarray (mkptr n (Z.of_nat off)) shape (c_strides shape) Float64.
Lemma nth_firstn {A} (l : list A) k i d : (i < k)%nat -> nth i (firstn k l) d = nth i l d.
Proof. revert k i. induction l as [|x l IH]; intros [|k] [|i] H; cbn; try lia; try reflexivity. apply IH. lia. Qed.
Lemma nth_skipn {A} (l : list A) k i d : nth i (skipn k l) d = nth (k + i) l d.
Proof. revert k. induction l as [|x l IH]; intros [|k]; cbn; try reflexivity; try (destruct i; reflexivity). apply IH. Qed.
Lemma view_array hh n off shape cells : nth_error hh n = Some (mkbuffer Float64 cells) -> (off + size shape <= length cells)%nat ->
  is_array hh (view n off shape) shape (firstn (size shape) (skipn off cells)).
Proof.
  intros B L. split; [|split; [reflexivity|split; [reflexivity|]]].
  - split; [apply c_strides_length|]. exists (mkbuffer Float64 cells). split; [exact B|]. split; [reflexivity|]. intros idx I.
    apply In_nth with (d := []) in I. destruct I as (m & Hm & <-). rewrite indices_length in Hm. cbn [view nd_shape] in Hm.
    unfold address. cbn [view nd_base p_offset nd_strides nd_shape b_cells]. rewrite dot_contiguous by (auto; apply c_strides_contiguous). lia.
  - apply nth_ext with (d := 0%R) (d' := 0%R).
    + rewrite contents_length, firstn_length, skipn_length. cbn [view nd_shape]. lia.
    + intros m Hm. rewrite contents_length in Hm. rewrite nth_contents by exact Hm. cbn [view nd_shape] in Hm. unfold item, address. cbn [view nd_base p_buffer p_offset nd_strides nd_shape]. rewrite B. cbn [b_cells].
      rewrite dot_contiguous by (auto; apply c_strides_contiguous). rewrite nth_firstn by exact Hm. rewrite nth_skipn. f_equal. lia.
Qed.
Lemma is_array_frame D hh hh' a s c : frame D hh hh' -> ~ D (p_buffer (nd_base a)) -> is_array hh a s c -> is_array hh' a s c.
Proof.
  intros [L Fr] N (A & S & T & C). destruct A as (A1 & b & Hb & Tb & Ad). assert (P : (p_buffer (nd_base a) < length hh)%nat) by (apply nth_error_Some; congruence).
  assert (Hb' : nth_error hh' (p_buffer (nd_base a)) = Some b) by (rewrite Fr by assumption; exact Hb).
  split; [|split; [exact S|split; [exact T|]]].
  - split; [exact A1|]. exists b. tauto.
  - rewrite <- C. unfold contents. apply map_ext. intros idx. unfold item. now rewrite Hb, Hb'.
Qed.
Lemma slice_view1 n blk from to : slice (view n 0 [blk]) from to = view n from [(Nat.min to blk - from)%nat].
Proof. unfold slice, view. cbn [nd_shape c_strides nd_strides nd_base p_buffer p_offset size fold_right nd_dtype]. replace (Z.of_nat 0 + Z.of_nat 1 * Z.of_nat from)%Z with (Z.of_nat from) by lia. reflexivity. Qed.
Lemma slice_view2 n blk from to : slice (view n 0 [blk; 6%nat]) from to = view n (6 * from) [(Nat.min to blk - from)%nat; 6%nat].
Proof. unfold slice, view. cbn [nd_shape c_strides nd_strides nd_base p_buffer p_offset size fold_right nd_dtype]. replace (Z.of_nat 0 + Z.of_nat (6 * 1) * Z.of_nat from)%Z with (Z.of_nat (6 * from)) by lia. reflexivity. Qed.

Lemma flat_vals_length l : length (flat_map vals l) = (6 * length l)%nat.
Proof. induction l as [|s l IH]; [reflexivity|]. cbn [flat_map]. rewrite app_length, IH. cbn [vals length]. lia. Qed.
Lemma skipn_flat_vals k : forall l, skipn (6 * k) (flat_map vals l) = flat_map vals (skipn k l).
Proof.
  induction k as [|k IH]; intros l; [reflexivity|]. destruct l as [|s l]; [now rewrite skipn_nil|]. replace (6 * S k)%nat with (6 + 6 * k)%nat by lia. cbn [flat_map skipn]. rewrite <- IH. reflexivity.
Qed.
Lemma firstn_skipn_swap {A} (l : list A) a b : firstn b (skipn a l) = skipn a (firstn (a + b) l).
Proof. revert l. induction a as [|a IH]; intros l; [reflexivity|]. destruct l; cbn; [now rewrite firstn_nil|]. apply IH. Qed.
(** the views of a block that are kept *)
Lemma kept_views hh nT nP blk l from : holds hh nT nP blk l -> (length l <= blk)%nat -> (from <= length l)%nat ->
  is_array hh (slice (view nT 0 [blk]) from (length l)) [length (skipn from l)] (map fst (skipn from l)) /\
  is_array hh (slice (view nP 0 [blk; 6%nat]) from (length l)) [length (skipn from l); 6%nat] (flat_map vals (map snd (skipn from l))).
Proof.
  intros (ct & cp & HT & HP & LT & LP & FT & FP) Hb Hf. rewrite slice_view1, slice_view2, Nat.min_l by exact Hb. rewrite skipn_length. split.
  - replace (map fst (skipn from l)) with (firstn (size [(length l - from)%nat]) (skipn from ct)).
    + apply view_array; [exact HT|]. cbn [size fold_right]. lia.
    + cbn [size fold_right]. rewrite Nat.mul_1_r, firstn_skipn_swap. replace (from + (length l - from))%nat with (length l) by lia. rewrite FT. apply skipn_map.
  - replace (flat_map vals (map snd (skipn from l))) with (firstn (size [(length l - from)%nat; 6%nat]) (skipn (6 * from) cp)).
    + apply view_array; [exact HP|]. cbn [size fold_right]. lia.
    + cbn [size fold_right]. rewrite firstn_skipn_swap. replace (6 * from + (length l - from) * (6 * 1))%nat with (6 * length l)%nat by lia. rewrite FP, skipn_flat_vals. now rewrite skipn_map.
Qed.

(** ** A new block *)
Lemma set_row_refines hh n cells row : nth_error hh n = Some (mkbuffer Float64 cells) -> (6 <= length cells)%nat -> length row = 6%nat ->
  for_each 6 (fun i => st (mkptr n 0) i (nth i row 0)) hh = Done tt (put hh n (row ++ skipn 6 cells)).
Proof.
  intros B L R. assert (n < length hh)%nat by (apply nth_error_Some; congruence). rewrite <- (put_same hh n cells) at 1 by exact B.
  destruct row as [|r0 [|r1 [|r2 [|r3 [|r4 [|r5 [|r6 row]]]]]]]; try discriminate R.
  destruct cells as [|c0 [|c1 [|c2 [|c3 [|c4 [|c5 cells]]]]]]; cbn in L; try lia.
  set (row := [r0; r1; r2; r3; r4; r5]). set (cs := c0 :: c1 :: c2 :: c3 :: c4 :: c5 :: cells).
  apply (for_each_put hh n (fun i => st (mkptr n 0) i (nth i row 0)) 6 (fun k => firstn k row ++ skipn k cs)). intros k Hk. rewrite st_put; [| assumption |rewrite app_length, firstn_length, skipn_length; unfold row, cs; cbn [length]; lia].
  do 3 f_equal. destruct k as [|[|[|[|[|[|k]]]]]]; try lia; reflexivity.
Qed.
Lemma map_nth_arange (l : list R) n : length l = n -> map (fun i => nth i l 0) (arange n) = l.
Proof. intros <-. apply nth_ext with (d := 0) (d' := 0); [unfold arange; now rewrite map_length, seq_length|]. intros m Hm. unfold arange in *. rewrite map_length, seq_length in Hm.
  rewrite (nth_indep _ 0 ((fun i => nth i l 0) 0%nat)) by (rewrite map_length, seq_length; exact Hm). rewrite (map_nth (fun i => nth i l 0)). now rewrite seq_nth.
Qed.
Lemma array_item1 hh a n c i : is_array hh a [n] c -> (i < n)%nat -> item hh a [i] = nth i c 0.
Proof. intros (_ & S & _ & <-) Hi. symmetry. now apply nth_contents1 with (n := n). Qed.
Lemma array_item2 hh a n Q c i k : is_array hh a [n; Q] c -> (i < n)%nat -> (k < Q)%nat -> item hh a [i; k] = nth (i * Q + k) c 0.
Proof. intros (_ & S & _ & <-) Hi Hk. symmetry. now apply nth_contents2 with (n := n). Qed.
Lemma nth_flat_vals l : forall i k s, nth_error l i = Some s -> (k < 6)%nat -> nth (i * 6 + k) (flat_map vals l) 0 = nth k (vals s) 0.
Proof.
  induction l as [|s0 l IH]; intros [|i] k s H Hk; cbn [nth_error] in H; try discriminate.
  - injection H as ->. cbn [flat_map]. rewrite app_nth1 by exact Hk. reflexivity.
  - cbn [flat_map]. rewrite app_nth2 by (cbn [vals length]; lia). rewrite <- (IH i k s H Hk). f_equal. cbn [vals length]. lia.
Qed.

Section Blocks.
Variables (h0 : heap) (inner blk : nat) (F : field_fun) (bounds : box) (atol : R) (fill : ndarray -> ndarray -> M nat).
Definition fills : Prop := forall hh nT nP t y samples, extends h0 hh -> (length h0 <= nT < length hh)%nat -> (length h0 <= nP < length hh)%nat -> nT <> nP ->
  holds hh nT nP blk [(t, y)] -> trace_particle inner blk F bounds atol t y = Ok samples ->
  exists hh', fill (view nT 0 [blk]) (view nP 0 [blk; 6%nat]) hh = Done (length samples) hh' /\ frame (fun i => i = nT \/ i = nP) hh hh' /\ holds hh' nT nP blk samples /\ (1 <= length samples <= blk)%nat.
Hypothesis HFill : fills.
Hypothesis Hblk : (2 <= blk)%nat.
Lemma frame_extends D hh hh' : extends h0 hh -> frame D hh hh' -> (forall i, D i -> (length h0 <= i)%nat) -> extends h0 hh'.
Proof.
  intros (e & ->) [L Fr] HD. exists (skipn (length h0) hh'). assert (L0 : (length h0 <= length hh')%nat) by (rewrite app_length in L; lia).
  assert (E : firstn (length h0) hh' = h0).
  { rewrite app_length in Fr.
    assert (G : forall i, nth_error (firstn (length h0) hh') i = nth_error h0 i).
    { intros i. destruct (Nat.ltb_spec i (length h0)) as [Hi|Hi].
      - rewrite <- (nth_error_app1 h0 e Hi). rewrite <- Fr; [|lia|intros Di; apply HD in Di; lia]. clear -Hi. revert i Hi. generalize (length h0). intros n i. revert n hh'. induction i as [|i IH]; intros [|n] [|x l] H; cbn; try lia; try reflexivity. apply IH. lia.
      - rewrite (proj2 (nth_error_None h0 i) Hi). apply nth_error_None. rewrite firstn_length. lia. }
    clear -G. revert G. generalize (firstn (length h0) hh'). clear hh'. induction h0 as [|b h IH]; intros [|x l] G; [reflexivity|specialize (G 0%nat); discriminate|specialize (G 0%nat); discriminate|].
    pose proof (G 0%nat) as G0. cbn in G0. injection G0 as ->. f_equal. apply IH. intros i. apply (G (S i)). }
  rewrite <- E at 1. symmetry. apply firstn_skipn.
Qed.
(** a block starting with a given sample *)
Lemma new_block hh t y : extends h0 hh ->
  let nT := length hh in let nP := S (length hh) in
  let h1 := hh ++ [mkbuffer Float64 (repeat 0 blk)] in let h2 := h1 ++ [mkbuffer Float64 (repeat 0 (6 * blk))] in
  let h3 := put h2 nP (vals y ++ skipn 6 (repeat 0 (6 * blk))) in let h4 := put h3 nT (upd (repeat 0 blk) 0 t) in
  np_zeros [blk] hh = Done (view nT 0 [blk]) h1 /\ np_zeros [blk; 6%nat] h1 = Done (view nP 0 [blk; 6%nat]) h2 /\
  set_first_row (view nP 0 [blk; 6%nat]) (vals y) h2 = Done tt h3 /\ st (nd_base (view nT 0 [blk])) 0 t h3 = Done tt h4 /\
  extends hh h2 /\ extends hh h4 /\ holds h4 nT nP blk [(t, y)] /\ holds h3 nT nP blk [(0, y)] /\ (length h4 = S (S (length hh)))%nat /\ (length h3 = S (S (length hh)))%nat /\ extends hh h3.
Proof.
  intros E0. cbv zeta. set (nP := S (length hh)). set (nT := length hh). set (h1 := hh ++ _). set (h2 := h1 ++ _). set (h3 := put h2 nP _). set (h4 := put h3 nT _).
  assert (L1 : length h1 = nP) by (unfold h1; rewrite app_length; cbn; lia). assert (L2 : length h2 = S nP) by (unfold h2; rewrite app_length; cbn; lia).
  assert (E1 : extends hh h1) by apply extends_new. assert (E2 : extends hh h2) by (eapply extends_trans; [exact E1|apply extends_new]).
  assert (B1 : nth_error h2 nT = Some (mkbuffer Float64 (repeat 0 blk))) by (eapply extends_nth; [apply extends_new|]; apply new_nth).
  assert (B2 : nth_error h2 nP = Some (mkbuffer Float64 (repeat 0 (6 * blk)))) by (unfold h2; rewrite <- L1; apply new_nth).
  assert (Lr : length (repeat 0 blk) = blk) by apply repeat_length. assert (Lr6 : length (repeat 0 (6 * blk)) = (6 * blk)%nat) by apply repeat_length.
  assert (B3T : nth_error h3 nT = Some (mkbuffer Float64 (repeat 0 blk))) by (unfold h3; rewrite nth_put_other by (unfold nP, nT; lia); exact B1).
  assert (B3P : nth_error h3 nP = Some (mkbuffer Float64 (vals y ++ skipn 6 (repeat 0 (6 * blk))))) by (unfold h3; apply nth_put; lia).
  assert (E3 : extends hh h3) by (apply extends_put; [exact E2|unfold nP; lia]).
  assert (FP : firstn (6 * 1) (vals y ++ skipn 6 (repeat 0 (6 * blk))) = vals y ++ []) by reflexivity.
  assert (L3 : length h3 = S nP) by (unfold h3; rewrite put_length; exact L2).
  assert (LV : length (vals y ++ skipn 6 (repeat 0 (6 * blk))) = (6 * blk)%nat) by (rewrite app_length, skipn_length, Lr6; cbn [vals length]; lia).
  split; [unfold np_zeros; rewrite new_array_eq; cbn [size fold_right]; rewrite Nat.mul_1_r; reflexivity|].
  split; [unfold np_zeros; rewrite new_array_eq; cbn [size fold_right]; replace (blk * (6 * 1))%nat with (6 * blk)%nat by lia; unfold MemFacts.fresh; rewrite L1; reflexivity|].
  split; [unfold set_first_row; cbn [view nd_base]; apply set_row_refines; [exact B2|lia|reflexivity]|].
  split; [cbn [view nd_base]; change (Z.of_nat 0) with 0%Z; rewrite (st_cell h3 nT _ 0 t B3T ltac:(lia)); reflexivity|].
  split; [exact E2|]. split; [apply extends_put; [exact E3|unfold nT; lia]|]. split; [|split; [|split; [unfold h4; rewrite put_length; lia|split; [lia|exact E3]]]].
  - exists (upd (repeat 0 blk) 0 t), (vals y ++ skipn 6 (repeat 0 (6 * blk))). unfold h4. rewrite nth_put by (rewrite L3; unfold nT, nP; lia). rewrite nth_put_other by (unfold nP, nT; lia).
    split; [reflexivity|]. split; [exact B3P|]. split; [now rewrite upd_length|]. split; [exact LV|]. split; [|exact FP]. destruct blk; [lia|reflexivity].
  - exists (repeat 0 blk), (vals y ++ skipn 6 (repeat 0 (6 * blk))). split; [exact B3T|]. split; [exact B3P|]. split; [exact Lr|]. split; [exact LV|]. split; [|exact FP]. destruct blk; [lia|reflexivity].
Qed.
Definition parts_ok (hh : heap) (Ts Ps : list ndarray) (parts : list (list sample)) : Prop :=
  Forall2 (fun T part => is_array hh T [length part] (map fst part)) Ts parts /\ Forall2 (fun P part => is_array hh P [length part; 6%nat] (flat_map vals (map snd part))) Ps parts.
Lemma is_array_extends hh hh' a s c : extends hh hh' -> is_array hh a s c -> is_array hh' a s c.
Proof. intros E. apply is_array_frame with (D := fun _ => False); [now apply extends_frame|tauto]. Qed.
Lemma blocks_refine : forall fuel Ts Ps first nT nP t y rest hh, extends h0 hh -> (length h0 <= nT < length hh)%nat -> (length h0 <= nP < length hh)%nat -> nT <> nP ->
  holds hh nT nP blk [(t, y)] -> first = (match Ps with [] => true | _ => false end) -> trace_blocks fuel inner blk F bounds atol first t y = Ok rest ->
  exists hh' Ts' Ps' parts, trace_blocks_py fuel blk fill Ts Ps (view nT 0 [blk]) (view nP 0 [blk; 6%nat]) hh = Done (Ts ++ Ts', Ps ++ Ps') hh' /\ extends h0 hh' /\ frame (fun i => i = nT \/ i = nP) hh hh' /\
    concat parts = rest /\ parts <> [] /\ parts_ok hh' Ts' Ps' parts.
Proof.
  induction fuel as [|fuel IH]; intros Ts Ps first nT nP t y rest hh E0 BT BP NE Ho Hfirst H; [discriminate|]. cbn [trace_blocks trace_blocks_py] in *.
  apply bind_ok in H. destruct H as (samples & Hs & H). destruct (HFill hh nT nP t y samples E0 BT BP NE Ho Hs) as (h1 & R1 & Fr1 & Ho1 & L1). rewrite (bnd_done _ _ _ _ _ R1). cbv zeta in *.
  set (from := match Ps with [] => 0%nat | _ :: _ => 1%nat end) in *. set (kept := if first then samples else tl samples) in *.
  assert (K : kept = skipn from samples) by (unfold kept, from; subst first; destruct Ps; [reflexivity|destruct samples; reflexivity]).
  assert (E1 : extends h0 h1) by (eapply frame_extends; [exact E0|exact Fr1|cbv beta; intros i [->| ->]; lia]).
  destruct (kept_views h1 nT nP blk samples from Ho1 ltac:(lia) ltac:(unfold from; destruct Ps; lia)) as [VT VP]. rewrite <- K in VT, VP.
  destruct (Nat.eqb_spec (length samples) blk) as [Eb|Nb]; cbn [negb].
  2:{ injection H as <-. exists h1, [slice (view nT 0 [blk]) from (length samples)], [slice (view nP 0 [blk; 6%nat]) from (length samples)], [kept].
      split; [reflexivity|]. split; [exact E1|]. split; [exact Fr1|]. split; [cbn; apply app_nil_r|]. split; [discriminate|]. split; (apply Forall2_cons; [assumption|apply Forall2_nil]). }
  apply bind_ok in H. destruct H as ([tf yf] & Hf & H). cbn [fst snd] in H. apply bind_ok in H. destruct H as (rest' & Hr & H). injection H as <-.
  apply np_get_ok in Hf. assert (Kl : (1 <= length kept)%nat) by (rewrite K, skipn_length; unfold from; destruct Ps; lia).
  set (P := slice (view nP 0 [blk; 6%nat]) from (length samples)) in *. set (T := slice (view nT 0 [blk]) from (length samples)) in *.
  destruct (new_block h1 tf yf E1) as (Z1 & Z2 & SR & ST & X2 & X4 & Ho4 & _ & L4 & L3 & X3). cbv zeta in *.
  set (h2 := (h1 ++ _) ++ _) in *. set (h3 := put h2 _ _) in *. set (h4 := put h3 _ _) in *.
  rewrite (bnd_done _ _ _ _ _ Z1), (bnd_done _ _ _ _ _ Z2).
  assert (LR : last_row P h2 = Done (vals yf) h2).
  { pose proof (is_array_extends _ _ _ _ _ X2 VP) as VP2. unfold last_row. rewrite (proj1 (proj2 VP2)). destruct (length kept) as [|n] eqn:El; [lia|]. f_equal.
    rewrite <- (map_nth_arange (vals yf) 6 eq_refl) at 1. apply map_ext_in. intros i Hi. apply in_arange in Hi.
    rewrite (array_item2 _ _ _ _ _ n i VP2) by lia. apply nth_flat_vals; [|exact Hi]. rewrite nth_error_map. replace (S n - 1)%nat with n in Hf by lia. now rewrite Hf. }
  rewrite (bnd_done _ _ _ _ _ LR), (bnd_done _ _ _ _ _ SR).
  assert (LI : last_item T h3 = Done tf h3).
  { pose proof (is_array_extends _ _ _ _ _ X3 VT) as VT3. unfold last_item. rewrite (proj1 (proj2 VT3)). destruct (length kept) as [|n] eqn:El; [lia|]. f_equal.
    rewrite (array_item1 _ _ _ _ n VT3) by lia. replace (S n - 1)%nat with n in Hf by lia. apply nth_error_nth. rewrite nth_error_map. now rewrite Hf. }
  rewrite (bnd_done _ _ _ _ _ LI), (bnd_done _ _ _ _ _ ST).
  pose proof (extends_length _ _ E1) as LE1. assert (E4 : extends h0 h4) by (eapply extends_trans; eassumption).
  destruct (IH (Ts ++ [T]) (Ps ++ [P]) false (length h1) (S (length h1)) tf yf rest' h4 E4 ltac:(lia) ltac:(lia) ltac:(lia) Ho4 ltac:(destruct Ps; reflexivity) Hr) as (h5 & Ts' & Ps' & parts & R5 & E5 & Fr5 & C5 & N5 & PT & PP).
  exists h5, (T :: Ts'), (P :: Ps'), (kept :: parts). split; [rewrite R5, <- !app_assoc; reflexivity|]. split; [exact E5|].
  pose proof (extends_length _ _ X4) as LX4.
  assert (Fr14 : frame (fun i => i = nT \/ i = nP) h1 h5).
  { split; [destruct Fr5; lia|]. intros i Hi Di. rewrite (proj2 Fr5) by (try lia; cbv beta; lia). apply (proj2 (extends_frame (fun _ => False) _ _ X4)); [exact Hi|tauto]. }
  split; [eapply frame_trans; eassumption|]. split; [cbn [concat]; now rewrite C5|]. split; [discriminate|].
  assert (KE : forall a s c, (p_buffer (nd_base a) < length h1)%nat -> is_array h1 a s c -> is_array h5 a s c).
  { intros a s c Hp Ia. eapply (is_array_frame _ h4); [exact Fr5|cbv beta; lia|]. now apply (is_array_extends h1 h4). }
  pose proof (proj1 Fr1) as LF1.
  split; (apply Forall2_cons; [|assumption]); apply KE; try assumption; unfold T, P; rewrite ?slice_view1, ?slice_view2; cbn [view nd_base p_buffer]; lia.
Qed.
(** np.concatenate *)
Lemma concat_contents hh Ts (parts : list (list sample)) : Forall2 (fun T part => is_array hh T [length part] (map fst part)) Ts parts -> flat_map (contents hh) Ts = map fst (concat parts) /\ fold_right Nat.add 0%nat (map (fun x => hd 0%nat (nd_shape x)) Ts) = length (concat parts).
Proof. induction 1 as [|T part Ts parts (_ & S & _ & C) H [IH1 IH2]]; [split; reflexivity|]. cbn. rewrite C, IH1, IH2, S, map_app, app_length. split; reflexivity. Qed.
Lemma concat_contents6 hh Ps (parts : list (list sample)) : Forall2 (fun P part => is_array hh P [length part; 6%nat] (flat_map vals (map snd part))) Ps parts ->
  flat_map (contents hh) Ps = flat_map vals (map snd (concat parts)) /\ fold_right Nat.add 0%nat (map (fun x => hd 0%nat (nd_shape x)) Ps) = length (concat parts).
Proof. induction 1 as [|T part Ts parts (_ & S & _ & C) H [IH1 IH2]]; [split; reflexivity|]. cbn. rewrite C, IH1, IH2, S, map_app, flat_map_app, app_length. split; reflexivity. Qed.
Lemma fresh_array hh s c : length c = size s -> is_array (hh ++ [mkbuffer Float64 c]) (MemFacts.fresh hh s Float64) s c.
Proof. intros L. split; [now apply fresh_ok|]. split; [reflexivity|]. split; [reflexivity|]. now apply fresh_contents. Qed.
(** The result of trace_particle_wrapper. *)
Lemma wrapper_refines fuel position velocity x v samples hh : extends h0 hh -> array_ok hh position -> array_ok hh velocity -> nd_shape position = [3%nat] -> nd_shape velocity = [3%nat] ->
  contents hh position = [vx x; vy x; vz x] -> contents hh velocity = [vx v; vy v; vz v] ->
  trace_blocks fuel inner blk F bounds atol true 0 (mkstate x v) = Ok samples ->
  exists T P hh', trace_particle_wrapper_py fuel blk position velocity fill hh = Done (T, P) hh' /\ extends h0 hh' /\ trajectory hh' T P samples.
Proof.
  intros E0 Ap Av Sp Sv Cp Cv H. unfold trace_particle_wrapper_py. unfold has_shape. rewrite Sp, Sv. change (shape_eqb [3%nat] [3%nat]) with true. cbn [andb assertM].
  destruct (new_block hh 0 (mkstate x v) E0) as (Z1 & Z2 & SR & _ & X2 & _ & _ & Ho & _ & L3 & X3). cbv zeta in *. set (h2 := (hh ++ _) ++ _) in *. set (h3 := put h2 _ _) in *.
  erewrite bnd_done by reflexivity. rewrite (bnd_done _ _ _ _ _ Z1), (bnd_done _ _ _ _ _ Z2).
  erewrite bnd_done by (cbv beta; rewrite (extends_contents _ _ _ X2 Ap), (extends_contents _ _ _ X2 Av), Cp, Cv; reflexivity).
  change ([vx x; vy x; vz x] ++ [vx v; vy v; vz v]) with (vals (mkstate x v)). rewrite (bnd_done _ _ _ _ _ SR).
  pose proof (extends_length _ _ E0) as LE. assert (E3 : extends h0 h3) by (eapply extends_trans; eassumption).
  destruct (blocks_refine fuel [] [] true (length hh) (S (length hh)) 0 (mkstate x v) samples h3 E3 ltac:(lia) ltac:(lia) ltac:(lia) Ho eq_refl H) as (h4 & Ts & Ps & parts & R & E4 & _ & C & Ne & PT & PP).
  rewrite (bnd_done _ _ _ _ _ R). cbn [app].
  assert (Multi : exists T P hh', (T <~ concatenate Ts ;; P <~ concatenate Ps ;; ret (T, P)) h4 = Done (T, P) hh' /\ extends h0 hh' /\ trajectory hh' T P samples).
  { destruct (concat_contents _ _ _ PT) as [CT NT]. rewrite C in CT, NT.
    set (h5 := h4 ++ [mkbuffer Float64 (map fst samples)]). assert (X5 : extends h4 h5) by apply extends_new.
    assert (A1 : concatenate Ts h4 = Done (MemFacts.fresh h4 [length samples] Float64) h5).
    { unfold concatenate. destruct PT as [|T part Ts parts (_ & S & _) PT]; [contradiction|]. rewrite NT, CT, S. reflexivity. }
    assert (A2 : concatenate Ps h5 = Done (MemFacts.fresh h5 [length samples; 6%nat] Float64) (h5 ++ [mkbuffer Float64 (flat_map vals (map snd samples))])).
    { assert (PP5 : Forall2 (fun P part => is_array h5 P [length part; 6%nat] (flat_map vals (map snd part))) Ps parts) by (eapply Forall2_impl_all; [|exact PP]; cbv beta; intros; eapply is_array_extends; eassumption).
      destruct (concat_contents6 _ _ _ PP5) as [CP NP]. rewrite C in CP, NP. unfold concatenate. destruct PP5 as [|T part Ps' parts' (_ & S & _) PP5]; [contradiction|]. rewrite NP, CP, S. reflexivity. }
    rewrite (bnd_done _ _ _ _ _ A1), (bnd_done _ _ _ _ _ A2). do 3 eexists. split; [reflexivity|]. split; [eapply extends_trans; [exact E4|]; eapply extends_trans; [exact X5|apply extends_new]|]. split.
    - eapply is_array_extends; [apply extends_new|]. apply fresh_array. rewrite map_length. cbn. lia.
    - apply fresh_array. rewrite flat_vals_length, map_length. cbn. lia. }
  inversion PT as [|T part Ts' parts' IT PT' E1 E2]; subst; [contradiction|]. inversion PP as [|P ? Ps' ? IP PP' E1 E2]; subst. destruct PT' as [|T2 ? Ts2 ? IT2 PT'].
  - inversion PP'; subst. exists T, P, h4. split; [reflexivity|]. split; [exact E4|]. cbn [concat] in *. rewrite app_nil_r in *. split; assumption.
  - inversion PP' as [|P2 ? Ps2 ? IP2 PP'' E1 E2]; subst. exact Multi.
Qed.
End Blocks.
