(** * Specifications for C21-C24. *)
From Verif Require Import Num Tensors.
Open Scope R_scope.

Definition symmetric (d : nat) (A : mat) : Prop :=
  forall i j, (i < d)%nat -> (j < d)%nat -> A i j = A j i.
Definition meq (d : nat) (A B : mat) : Prop :=
  forall i j, (i < d)%nat -> (j < d)%nat -> A i j = B i j.

(** Elastic stiffness of a cubic crystal with axes along the coordinate axes. *)
Definition cubic (d : nat) (c11 c12 c44 : R) : ten4 := fun i j k l =>
  (c11 - c12 - 2 * c44) * sumn d (fun m => kron i m * kron j m * kron k m * kron l m)
  + c12 * (kron i j * kron k l) + c44 * (kron i k * kron j l + kron i l * kron j k).

(** Q A Q^T. *)
Definition conjugate (d : nat) (Q A : mat) : mat := fun i j =>
  sumn d (fun k => sumn d (fun l => Q i k * A k l * Q j l)).
(** Q_io Q_jp Q_kq Q_lr C_opqr. *)
Definition rotate4 (d : nat) (Q : mat) (C : ten4) : ten4 := fun i j k l =>
  sumn d (fun o => sumn d (fun p => sumn d (fun q => sumn d (fun r =>
    Q i o * Q j p * Q k q * Q l r * C o p q r)))).

Definition minor_symmetric (d : nat) (C : ten4) : Prop := forall i j k l,
  (i < d)%nat -> (j < d)%nat -> (k < d)%nat -> (l < d)%nat ->
  C i j k l = C j i k l /\ C i j k l = C i j l k.
Definition major_symmetric (d : nat) (C : ten4) : Prop := forall i j k l,
  (i < d)%nat -> (j < d)%nat -> (k < d)%nat -> (l < d)%nat -> C i j k l = C k l i j.
