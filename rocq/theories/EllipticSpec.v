(** The complete elliptic integrals, independently of the code: as integrals. *)
From Coq Require Import Reals.
From Coquelicot Require Import Coquelicot.
Local Open Scope R_scope.

(** Complete elliptic integral of the first and second kind with parameter m < 1. *)
Definition elliptic_K (m : R) : R := RInt (fun t => / sqrt (1 - m * sin t ^ 2)) 0 (PI / 2).
Definition elliptic_E (m : R) : R := RInt (fun t => sqrt (1 - m * sin t ^ 2)) 0 (PI / 2).
