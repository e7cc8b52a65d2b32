(** C98: the solution depends neither on the numbering of the points nor on the order in which conditions are assigned. *)
From Coq Require Import Reals Permutation.
From Verif Require Import Base BaseFacts Float64 OrientModel MeshModel MeshFacts Vec GeomModel ExcitationModel FieldModel SolverModel SolverFacts MatrixModel MatrixFacts TracingModel NumberingModel NumberingFacts MeshExamples Props_Matrix Props_Motion.
Local Open Scope R_scope.

Lemma Forall2_flip {A B} (Q : A -> B -> Prop) (Q' : B -> A -> Prop) l l' : (forall a b, Q a b -> Q' b a) -> Forall2 Q l l' -> Forall2 Q' l' l.
Proof. intros H. induction 1; constructor; auto. Qed.
Lemma same_problem_sym e e' : same_problem e e' -> same_problem e' e.
Proof.
  intros ((P & L & T & W & PL & PT) & Sy & ND & Q). split; [|split; [|split]].
  - split; [intros p; symmetry; apply P|]. split; [revert L; apply Forall2_flip; intros; symmetry; assumption|]. split; [revert T; apply Forall2_flip; intros; symmetry; assumption|]. repeat split; symmetry; assumption.
  - symmetry. exact Sy.
  - eapply Permutation_NoDup; [apply Permutation_map; exact Q|exact ND].
  - apply Permutation_sym, Q.
Qed.

(** The two problems are solvable together, and no question about the two solutions (potentials and fields anywhere, charges and areas of
    the elements, trajectories) is answered differently. *)
Theorem C98_numbering nu o third e0 e0' e e' : solved_excitation o third e0 = Ok e -> solved_excitation o third e0' = Ok e' -> same_problem e e' ->
  match solve_direct nu o third e0, solve_direct nu o third e0' with
  | Ok f, Ok f' => indistinguishable f f'
  | Err _, Err _ => True
  | _, _ => False
  end.
Proof.
  intros S S' P. destruct (solve_direct nu o third e0) as [f|x] eqn:F.
  - destruct (direct_same nu e e' P o third e0 e0' f S S' F) as (f' & F' & N). rewrite F'. apply nearly_indistinguishable, N.
  - destruct (solve_direct nu o third e0') as [f'|x'] eqn:F'; [|exact I]. destruct (direct_same nu e' e (same_problem_sym _ _ P) o third e0' e0 f' S' S F') as (f & Ff & _). congruence.
Qed.
Print Assumptions C98_numbering.

(** In three dimensions, and for meshes made of higher order lines, the mesh that is solved is the user's. *)
Theorem C98_as_given nu o third e e' : is_3d (e_mesh e) = true \/ is_higher_order (e_mesh e) = true -> same_problem e e' ->
  match solve_direct nu o third e, solve_direct nu o third e' with
  | Ok f, Ok f' => indistinguishable f f'
  | Err _, Err _ => True
  | _, _ => False
  end.
Proof.
  intros D P. assert (G : forall x, is_3d (e_mesh x) = true \/ is_higher_order (e_mesh x) = true -> solved_excitation o third x = Ok x).
  { intros x [H|H]; unfold solved_excitation; [rewrite (not_planar _ H); reflexivity|rewrite H, Bool.andb_false_r; reflexivity]. }
  apply (C98_numbering nu o third e e' e e'); [apply G, D| |exact P]. apply G. destruct (renumbered_kind _ _ (proj1 P)) as (_ & -> & ->). exact D.
Qed.
Print Assumptions C98_as_given.

(** The triangles of C62 with their points in another order, one of them stored twice, and the conditions assigned the other way around;
    and the line elements with the coil. *)
Definition ex_renumbered V K : excitation :=
  mkexc (mkmesh [(f0, f0, f1); (f0, f1, f0); (f0, f0, f0); (f1, f0, f0); (f0, f0, f0)] (mkarr 2%nat []) (mkarr 3%nat [[2; 3; 1]%nat; [4; 3; 0]%nat]) (m_plines ex_tri_mesh) (m_ptriangles ex_tri_mesh))
    ["b"; "a"]%string [("b"%string, DIELECTRIC K); ("a"%string, VOLTAGE_FIXED V)] THREE_D.
Definition ex_renumbered_lines V K cur : excitation :=
  mkexc (mkmesh [(f1, f0, f1); (f0, f0, f1); (f1, f0, f0); (f0, f0, f0)] (mkarr 4%nat [[3; 2; 1; 0]%nat; [2; 3; 0; 1]%nat]) (mkarr 3%nat [[2; 1; 0]%nat]) (m_plines ex_line_mesh) (m_ptriangles ex_line_mesh))
    ["coil"; "a"; "b"]%string [("coil"%string, CURRENT cur); ("b"%string, MAGNETIZABLE K); ("a"%string, MAGNETOSTATIC_POT V)] RADIAL.
Example C98_nonvacuous o third V K cur :
  same_problem (ex_triangles V K) (ex_renumbered V K) /\ is_3d (e_mesh (ex_triangles V K)) = true /\ m_points (e_mesh (ex_renumbered V K)) <> m_points (e_mesh (ex_triangles V K)) /\
  (exists f, solve_direct (backend_numerics (ex_analysis (4 * PI))) o third (ex_triangles V 3) = Ok f) /\
  same_problem (ex_magnetic V K cur) (ex_renumbered_lines V K cur) /\ is_higher_order (e_mesh (ex_magnetic V K cur)) = true /\ is_3d (e_mesh (ex_magnetic V K cur)) = false.
Proof.
  split; [|split; [reflexivity|]; split; [discriminate|]; split; [|split; [|split; reflexivity]]].
  - split; [|split; [reflexivity|split]].
    + split; [|split; [|split; [|repeat split]]]; [|constructor|repeat (constructor; [reflexivity|]); constructor].
      intros p. cbn [e_mesh ex_renumbered ex_triangles ex_tri_mesh m_points In]. tauto.
    + repeat constructor; cbn; intuition discriminate.
    + apply perm_swap.
  - destruct (C62_three_d_nonvacuous o third V) as (_ & _ & _ & _ & _ & H & _). exact H.
  - split; [|split; [reflexivity|split]].
    + split; [|split; [|split; [|repeat split]]]; [|repeat (constructor; [reflexivity|]); constructor|repeat (constructor; [reflexivity|]); constructor].
      intros p. cbn [e_mesh ex_renumbered_lines ex_magnetic ex_line_mesh m_points In]. tauto.
    + repeat constructor; cbn; intuition discriminate.
    + cbn. eapply perm_trans; [apply perm_skip, perm_swap|]. eapply perm_trans; [apply perm_swap|]. apply perm_skip, perm_swap.
Qed.
