(** Expressions in the six components of a state: forces made of sums, products, negative powers and logarithms of positive quantities. *)
From Coq Require Import Reals.
From Verif Require Import Base Vec TracingModel ConvSpec.
Local Open Scope R_scope.

Inductive expr := EConst (x : R) | EVar (i : nat) | EAdd (a b : expr) | EMul (a b : expr) | EPow (a : expr) (k : nat) | ELn (a : expr).
Definition comp (s : state) (i : nat) : R :=
  match i with 0 => vx (s_pos s) | 1 => vy (s_pos s) | 2 => vz (s_pos s) | 3 => vx (s_vel s) | 4 => vy (s_vel s) | 5 => vz (s_vel s) | _ => 0 end.
(** [EPow a k] is the square root of [a] to the power of minus [k] *)
Fixpoint eval (e : expr) (s : state) : R :=
  match e with
  | EConst x => x | EVar i => comp s i | EAdd a b => eval a s + eval b s | EMul a b => eval a s * eval b s
  | EPow a k => (/ sqrt (eval a s)) ^ k
  | ELn a => ln (eval a s)
  end.
(** all quantities under a root or a logarithm are at least [c] *)
Fixpoint regular (c : R) (e : expr) (s : state) : Prop :=
  match e with
  | EConst _ | EVar _ => True
  | EAdd a b | EMul a b => regular c a s /\ regular c b s
  | EPow a _ | ELn a => c <= eval a s /\ regular c a s
  end.
(** Near the curve [u] the force has the components [ex], [ey], [ez], and nothing under a root or a logarithm comes close to zero. *)
Definition force_near (field : field_fun) (u : R -> state) (T rho c : R) (ex ey ez : expr) : Prop :=
  forall t d, 0 <= t <= T -> snorm d <= rho ->
    field (sadd (u t) d) = Ok (V3 (eval ex (sadd (u t) d)) (eval ey (sadd (u t) d)) (eval ez (sadd (u t) d))) /\
    regular c ex (sadd (u t) d) /\ regular c ey (sadd (u t) d) /\ regular c ez (sadd (u t) d).
