(** * deal.II tensor vocabulary ([dealii::Tensor], [dealii::SymmetricTensor]).

    A [Tensor<1,d>] is a function on indices below [d], a [Tensor<2,d>] /
    [SymmetricTensor<2,d>] one of two indices, a [Tensor<4,d>] one of four.  Only indices
    below [d] matter.  deal.II's operations are (trusted base: deal.II documentation):
    - [v * w]  scalar product;  [A * v]  matrix-vector product;  [v.norm()] Euclidean norm;
    - [outer_product(v,w)] = v_i w_j;  [symmetrize(A)] = (A + A^T)/2;
    - [A * B] on SymmetricTensor<2> and [scalar_product(A,B)]  the double contraction A_ij B_ij;
    - [C * A] on rank 4 / rank 2 the double contraction C_ijkl A_kl. *)
From Verif Require Import Num.
Open Scope R_scope.

Definition vec := nat -> R.
Definition mat := nat -> nat -> R.
Definition ten4 := nat -> nat -> nat -> nat -> R.

Definition vadd (a b : vec) : vec := fun i => a i + b i.
Definition vsub (a b : vec) : vec := fun i => a i - b i.
Definition vscal (c : R) (a : vec) : vec := fun i => c * a i.
Definition vneg (a : vec) : vec := fun i => - a i.
Definition vzero : vec := fun _ => 0.

Definition dot (d : nat) (a b : vec) : R := sumn d (fun i => a i * b i).
Definition norm (d : nat) (a : vec) : R := sqrt (dot d a a).

Definition outer (a b : vec) : mat := fun i j => a i * b j.
Definition symmetrize (A : mat) : mat := fun i j => (A i j + A j i) / 2.
Definition unit_mat : mat := kron.
Definition madd (A B : mat) : mat := fun i j => A i j + B i j.
Definition msub (A B : mat) : mat := fun i j => A i j - B i j.
Definition mscal (c : R) (A : mat) : mat := fun i j => c * A i j.
Definition transpose (A : mat) : mat := fun i j => A j i.
Definition mv (d : nat) (A : mat) (v : vec) : vec := fun i => sumn d (fun j => A i j * v j).
Definition mm (d : nat) (A B : mat) : mat := fun i j => sumn d (fun k => A i k * B k j).
Definition ddot (d : nat) (A B : mat) : R := sumn d (fun i => sumn d (fun j => A i j * B i j)).
Definition trace (d : nat) (A : mat) : R := sumn d (fun i => A i i).
Definition c4 (d : nat) (C : ten4) (A : mat) : mat :=
  fun i j => sumn d (fun k => sumn d (fun l => C i j k l * A k l)).

(** [cross_product_3d]. *)
Definition cross (a b : vec) : vec := fun i =>
  match i with
  | 0%nat => a 1%nat * b 2%nat - a 2%nat * b 1%nat
  | 1%nat => a 2%nat * b 0%nat - a 0%nat * b 2%nat
  | 2%nat => a 0%nat * b 1%nat - a 1%nat * b 0%nat
  | _ => 0
  end.

(** [determinant] of 2x2 and 3x3 tensors. *)
Definition det2 (A : mat) : R := A 0%nat 0%nat * A 1%nat 1%nat - A 0%nat 1%nat * A 1%nat 0%nat.
Definition det3 (A : mat) : R :=
  A 0%nat 0%nat * (A 1%nat 1%nat * A 2%nat 2%nat - A 1%nat 2%nat * A 2%nat 1%nat)
  - A 0%nat 1%nat * (A 1%nat 0%nat * A 2%nat 2%nat - A 1%nat 2%nat * A 2%nat 0%nat)
  + A 0%nat 2%nat * (A 1%nat 0%nat * A 2%nat 1%nat - A 1%nat 1%nat * A 2%nat 0%nat).
