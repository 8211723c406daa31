(** * Specifications for C30-C35. *)
From Verif Require Import Num Tensors.
Open Scope R_scope.

(** Tangential part of an opening with respect to the unit normal [n]. *)
Definition tangential (d : nat) (n delta : vec) : vec := fun i => delta i - dot d n delta * n i.

(** Effective opening: only tension counts in the normal direction, [r] weighs the shear. *)
Definition mixed_opening (r : R) (d : nat) (n delta : vec) : R :=
  sqrt ((Rmax (dot d n delta) 0) ^ 2 + r ^ 2 * dot d (tangential d n delta) (tangential d n delta)).
(** The vector conjugate to it: half the gradient of its square. *)
Definition pull (r : R) (d : nat) (n delta : vec) : vec := fun i =>
  Rmax (dot d n delta) 0 * n i + r ^ 2 * tangential d n delta i.

(** Universal binding (Smith-Ferrante) envelope with peak [Tc] at [dc]. *)
Definition envelope (Tc dc x : R) : R := Tc * (x / dc) * exp (1 - x / dc).
