(** Concrete meshes that meet the hypotheses of the mesh theorems. *)
From Coq Require Import Relations Sorted.
From Verif Require Import Base Float64 OrientModel MeshModel MeshSpec BaseFacts Float64Facts
  DedupFacts MeshFacts.

(** A checker for [input_ok], so that examples are decided by computation. *)
Definition nodupb (l : list string) : bool :=
  (fix go l := match l with
               | [] => true
               | k :: t => negb (existsb (String.eqb k) t) && go t
               end) l.
Definition bitsb (b : Z) : bool := ((0 <=? b) && (b <? two64))%Z.
Definition pt_okb (p : point) : bool :=
  bitsb (px p) && bitsb (py p) && bitsb (pz p) && pt_nonan p.
Definition arr_okb (ws : list nat) (n : nat) (a : arr2) : bool :=
  memb (aw a) ws && forallb (fun r => (length r =? aw a) && all_lt n r) (arows a).
Definition groups_okb (n : nat) (d : dict) : bool :=
  nodupb (dkeys d) && forallb (fun g => all_lt n (snd g)) d.
Definition input_okb (points : list point) (lines triangles : arr2) (pl pt : dict) : bool :=
  forallb pt_okb points && arr_okb [2; 4] (length points) lines &&
  arr_okb [3] (length points) triangles &&
  groups_okb (length (arows lines)) pl && groups_okb (length (arows triangles)) pt.

Lemma nodupb_ok l : nodupb l = true -> NoDup l.
Proof.
  induction l as [|k t IH]; simpl; intros H; constructor.
  - apply andb_true_iff in H. destruct H as [H _]. intros Hin. apply negb_true_iff in H.
    assert (existsb (String.eqb k) t = true); [|congruence].
    apply existsb_exists. exists k. split; [assumption|apply String.eqb_refl].
  - apply IH. apply andb_true_iff in H. apply H.
Qed.
Lemma all_lt_ok n l : all_lt n l = true -> forall i, In i l -> i < n.
Proof. unfold all_lt. intros H i Hi. rewrite forallb_forall in H. apply H in Hi. apply Nat.ltb_lt; assumption. Qed.
Lemma arr_okb_ok ws n a : arr_okb ws n a = true -> arr_ok ws n a.
Proof.
  unfold arr_okb. intros H. apply andb_true_iff in H. destruct H as [H1 H2]. split.
  - intros _. unfold memb in H1. apply existsb_exists in H1. destruct H1 as (w & Hw & E).
    apply Nat.eqb_eq in E. subst; assumption.
  - intros r Hr. rewrite forallb_forall in H2. apply H2 in Hr. apply andb_true_iff in Hr.
    destruct Hr as [E L]. apply Nat.eqb_eq in E. split; [assumption|]. apply all_lt_ok; assumption.
Qed.
Lemma groups_okb_ok n d : groups_okb n d = true -> groups_ok n d.
Proof.
  unfold groups_okb. intros H. apply andb_true_iff in H. destruct H as [H1 H2]. split.
  - apply nodupb_ok; assumption.
  - intros name v i Hv Hi. rewrite forallb_forall in H2. apply H2 in Hv. simpl in Hv.
    eapply all_lt_ok; eauto.
Qed.
Lemma pt_okb_ok p : pt_okb p = true -> pt_ok p.
Proof.
  unfold pt_okb, pt_ok, pt_bits, bitsb, f64_bits. rewrite !andb_true_iff, !Z.leb_le, !Z.ltb_lt.
  tauto.
Qed.
Lemma input_okb_ok points lines triangles pl pt :
  input_okb points lines triangles pl pt = true -> input_ok points lines triangles pl pt.
Proof.
  unfold input_okb. rewrite !andb_true_iff. intros ((((A & B) & C) & D) & E). constructor.
  - apply Forall_forall. intros p Hp. rewrite forallb_forall in A. apply pt_okb_ok; auto.
  - apply arr_okb_ok; assumption.
  - apply arr_okb_ok; assumption.
  - apply groups_okb_ok; assumption.
  - apply groups_okb_ok; assumption.
Qed.

(** Bit patterns of 0.0, 1.0, 2.0, -1.0 and the number just above 1.0. *)
Definition f0 : f64 := 0%Z.
Definition f1 : f64 := 0x3FF0000000000000%Z.
Definition f2 : f64 := 0x4000000000000000%Z.
Definition fm1 : f64 := 0xBFF0000000000000%Z.
Definition f1eps : f64 := 0x3FF0000000000001%Z.

(** Test results as an actual program could produce them: a triangle is degenerate when two
    corners coincide, outward is decided by the first element, and triangles are compared
    by their vertex numbers. *)
Definition common_dir (r s : row) : Z :=
  match r, s with
  | [a;b;c], [x;y;z] =>
      let es := [(a,b);(b,c);(c,a)] in let fs := [(x,y);(y,z);(z,x)] in
      if existsb (fun e => existsb (fun f => (fst e =? fst f) && (snd e =? snd f)) fs) es then 0%Z
      else if existsb (fun e => existsb (fun f => (fst e =? snd f) && (snd e =? fst f)) fs) es then 1%Z
      else (-1)%Z
  | _, _ => (-1)%Z
  end.
Definition ex_o : oracles :=
  {| o_degenerate := fun a b c => pt_eqb a b || pt_eqb b c || pt_eqb a c;
     o_tri_equal := fun _ r s => common_dir r s;
     o_tri_outwards := fun _ els => match els with (a :: b :: _) :: _ => a <? b | _ => false end;
     o_line_outwards := fun _ els => match els with (a :: b :: _) :: _ => a <? b | _ => false end;
     o_junk := fun i => 7 * i |}.

(** Two triangles of a square plus a degenerate one, a path of two lines written with a
    duplicate (up to the last mantissa bits) of the middle point, all named. *)
Definition ex_points : list point :=
  [(f1, f0, f0); (f0, f0, f0); (f0, f1, f0); (f1eps, f1, f0); (f1, f1, f0); (fm1, f0, f2)].
Definition ex_lines : arr2 := mkarr 2 [[0; 3]; [4; 5]].
Definition ex_tris : arr2 := mkarr 3 [[1; 0; 2]; [3; 3; 0]; [0; 3; 2]].
Definition ex_pl : dict := [("path"%string, [0; 1])].
Definition ex_pt : dict := [("square"%string, [2; 1; 0]); ("half"%string, [2])].

Lemma ex_input : input_ok ex_points ex_lines ex_tris ex_pl ex_pt.
Proof. apply input_okb_ok. vm_compute. reflexivity. Qed.

Definition ex_mesh : mesh :=
  match new_mesh ex_o ex_points ex_lines ex_tris ex_pl ex_pt true with
  | Ok m => m | Err _ => empty_mesh end.
Lemma ex_mesh_ok_run : new_mesh ex_o ex_points ex_lines ex_tris ex_pl ex_pt true = Ok ex_mesh.
Proof. vm_compute. reflexivity. Qed.
Lemma ex_mesh_value : ex_mesh =
  mkmesh [(f0, f0, f0); (f1, f0, f0); (f0, f1, f0); (f1, f1, f0); (fm1, f0, f2)]
    (mkarr 2 [[1; 3]; [3; 4]]) (mkarr 3 [[0; 2; 1]; [1; 3; 2]])
    [("path"%string, [0; 1])] [("square"%string, [1; 0]); ("half"%string, [1])].
Proof. vm_compute. reflexivity. Qed.
