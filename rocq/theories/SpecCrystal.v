(** * Specifications for C18-C20, C68. *)
From Verif Require Import Num Tensors.
Open Scope R_scope.

(** Q^T Q = I and Q Q^T = I on indices below d. *)
Definition orthogonal_mat (d : nat) (Q : mat) : Prop :=
  forall i j, (i < d)%nat -> (j < d)%nat ->
    sumn d (fun k => Q k i * Q k j) = kron i j /\ sumn d (fun k => Q i k * Q j k) = kron i j.

Definition orthonormal2 (d : nat) (a b : vec) : Prop :=
  dot d a a = 1 /\ dot d b b = 1 /\ dot d a b = 0.
Definition orthonormal3 (d : nat) (a b c : vec) : Prop :=
  orthonormal2 d a b /\ dot d c c = 1 /\ dot d a c = 0 /\ dot d b c = 0.
