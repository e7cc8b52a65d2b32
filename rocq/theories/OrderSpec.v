(** Butcher's order conditions for Runge-Kutta methods, stated for all rooted trees. *)
From Coq Require Import Reals List Lia.
Import ListNotations.
Local Open Scope R_scope.

Inductive tree := Node (children : list tree).
Fixpoint tree_order (t : tree) : nat :=
  match t with Node l => S ((fix sum l := match l with [] => 0%nat | c :: l => (tree_order c + sum l)%nat end) l) end.
(** gamma(t): the product over all vertices of the sizes of the subtrees *)
Fixpoint tree_density (t : tree) : nat :=
  match t with Node l => (tree_order t * (fix prod l := match l with [] => 1%nat | c :: l => (tree_density c * prod l)%nat end) l)%nat end.
Fixpoint dotl (a b : list R) : R := match a, b with x :: a, y :: b => x * y + dotl a b | _, _ => 0 end.
(** the elementary weights of the stages with coefficients [a] *)
Fixpoint stage_weight (a : list (list R)) (t : tree) : list R :=
  match t with Node l => map (fun row => (fix prod l := match l with [] => 1 | c :: l => dotl row (stage_weight a c) * prod l end) l) a end.
Definition has_order (p : nat) (a : list (list R)) (b : list R) : Prop :=
  forall t, (tree_order t <= p)%nat -> dotl b (stage_weight a t) = / INR (tree_density t).
