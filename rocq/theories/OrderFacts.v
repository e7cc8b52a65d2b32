(** The tableau of the tracer satisfies the order conditions. *)
From Coq Require Import Reals Lra Lia.
From Verif Require Import Base BaseFacts Vec FieldModel TracingModel OrderSpec.
Local Open Scope R_scope.

Lemma tree_order_pos t : (1 <= tree_order t)%nat.
Proof. destruct t. cbn. lia. Qed.
Fixpoint forest_order (l : list tree) : nat := match l with [] => 0 | c :: l => tree_order c + forest_order l end.
Lemma order_node l : tree_order (Node l) = S (forest_order l).
Proof. reflexivity. Qed.
(** all forests and trees of an order *)
Fixpoint forests (fuel n : nat) : list (list tree) :=
  match fuel with
  | O => []
  | S fuel => match n with
    | O => [[]]
    | S _ => flat_map (fun k => flat_map (fun f => map (fun g => Node f :: g) (forests fuel (n - S k))) (forests fuel k)) (seq 0 n)
    end
  end.
Lemma forests_complete : forall fuel n l, (n < fuel)%nat -> forest_order l = n -> In l (forests fuel n).
Proof.
  induction fuel as [|fuel IH]; intros n l Hf E; [lia|]. destruct n as [|n]; cbn [forests].
  - destruct l as [|c l]; [left; reflexivity|]. cbn in E. pose proof (tree_order_pos c). lia.
  - destruct l as [|[f] l]; [discriminate|]. cbn [forest_order] in E. rewrite order_node in E.
    apply in_flat_map. exists (forest_order f). split; [apply in_seq; lia|]. apply in_flat_map. exists f. split; [apply IH; [lia|reflexivity]|].
    apply in_map. apply IH; [lia|]. lia.
Qed.
Definition order_by_cases (p : nat) a b : Prop := Forall (fun n => Forall (fun l => dotl b (stage_weight a (Node l)) = / INR (tree_density (Node l))) (forests (S n) n)) (seq 0 p).
Lemma order_cases p a b : order_by_cases p a b -> has_order p a b.
Proof.
  intros H [l] Hp. rewrite order_node in Hp. unfold order_by_cases in H. rewrite Forall_forall in H. specialize (H (forest_order l)).
  assert (I : In (forest_order l) (seq 0 p)) by (apply in_seq; lia). specialize (H I). rewrite Forall_forall in H. apply H. apply forests_complete; [lia|reflexivity].
Qed.
Definition tableau : list (list R) := [[]; B2; B3; B4; B5; B6].
Lemma fifth_order : has_order 5 tableau CH.
Proof.
  apply order_cases. unfold order_by_cases. cbv [seq forests flat_map map app Nat.sub].
  repeat (apply Forall_cons || apply Forall_nil); unfold tableau, CH, B2, B3, B4, B5, B6;
    cbn [stage_weight dotl map]; match goal with |- context [INR ?n] => let m := eval vm_compute in n in change n with m end; cbn [INR]; field.
Qed.
Lemma fourth_order : has_order 4 tableau (map (fun c => fst c - snd c) (combine CH CT)).
Proof.
  apply order_cases. unfold order_by_cases. cbv [seq forests flat_map map app Nat.sub].
  repeat (apply Forall_cons || apply Forall_nil); unfold tableau, CH, CT, B2, B3, B4, B5, B6;
    cbn [stage_weight dotl map combine fst snd]; match goal with |- context [INR ?n] => let m := eval vm_compute in n in change n with m end; cbn [INR]; field.
Qed.
