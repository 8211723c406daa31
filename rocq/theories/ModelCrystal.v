(** * Model of [CrystalsData] geometry (source/crystal_data.cc:200-470).  The file reader
    itself is modelled in ModelIO.v. *)
From Verif Require Import Num Tensors.
Open Scope R_scope.

(** source/crystal_data.cc:273. *)
Definition deg_to_rad : R := PI / 180.

(** A dense literal: entries not assigned in the C++ are zero (deal.II tensors are
    zero-initialised). *)
(** dealii::Tensor<2,3> literals of source/crystal_data.cc:287-357. *)
Definition mat3 (a b c d e f g h k : R) : mat := fun i j =>
  match i, j with
  | 0%nat, 0%nat => a | 0%nat, 1%nat => b | 0%nat, 2%nat => c
  | 1%nat, 0%nat => d | 1%nat, 1%nat => e | 1%nat, 2%nat => f
  | 2%nat, 0%nat => g | 2%nat, 1%nat => h | 2%nat, 2%nat => k
  | _, _ => 0
  end.
(** dealii::Tensor<2,2> literals of source/crystal_data.cc:277-286. *)
Definition mat2 (a b c d : R) : mat := fun i j =>
  match i, j with
  | 0%nat, 0%nat => a | 0%nat, 1%nat => b
  | 1%nat, 0%nat => c | 1%nat, 1%nat => d
  | _, _ => 0
  end.

(** source/crystal_data.cc:277-286, compute_rotation_matrices, case 2. *)
Definition rotation_2d (euler : vec) : mat :=
  let theta := euler 0%nat * deg_to_rad in
  mat2 (cos theta) (- sin theta) (sin theta) (cos theta).

(** source/crystal_data.cc:287-357, compute_rotation_matrices, case 3: the three elementary
    factors (320-336) and their product alpha*beta*gamma (346-348); rot_y is 392-396. *)
Definition rot_z (x : R) : mat := mat3 (cos x) (- sin x) 0 (sin x) (cos x) 0 0 0 1.
Definition rot_x (x : R) : mat := mat3 1 0 0 0 (cos x) (- sin x) 0 (sin x) (cos x).
Definition rot_y (x : R) : mat := mat3 (cos x) 0 (sin x) 0 1 0 (- sin x) 0 (cos x).
Definition rotation_3d (euler : vec) : mat :=
  mm 3 (mm 3 (rot_z (euler 0%nat * deg_to_rad)) (rot_x (euler 1%nat * deg_to_rad)))
       (rot_z (euler 2%nat * deg_to_rad)).

(** source/crystal_data.cc:266-361, compute_rotation_matrices as a whole; the default case of the switch throws. *)
Definition rotation (d : nat) (euler : vec) : result mat :=
  match d with
  | 2%nat => Ok (rotation_2d euler)
  | 3%nat => Ok (rotation_3d euler)
  | _ => Throw
  end.

(** source/crystal_data.cc:365-414, compute_3d_rotation_matrices: in 2D the 3x3 tensor
    [gamma * (beta * alpha)] with alpha = beta = 0 ([contract<1,0>] is the matrix product). *)
Definition rotation_for_stiffness (d : nat) (euler : vec) : result mat :=
  match d with
  | 2%nat => Ok (mm 3 (rot_z (euler 0%nat * deg_to_rad)) (mm 3 (rot_y 0) (rot_x 0)))
  | 3%nat => Ok (rotation_3d euler)
  | _ => Throw
  end.

(** source/crystal_data.cc:254-262, orthogonality_check: absolute tolerance __DBL_EPSILON__ = 2^-52. *)
Definition dbl_epsilon : R := / 2 ^ 52.
Definition orthogonality_check (d : nat) (a b : vec) : bool :=
  Rleb (Rabs (dot d a b)) dbl_epsilon.

(** The reference_slip_* members (include/gCP/crystal_data.h): direction, normal, orthogonal (binormal). *)
(** include/gCP/crystal_data.h:83-87. *)
Record slip := mk_slip { s_dir : vec; s_nrm : vec; s_ort : vec }.

(** source/crystal_data.cc:237-238, [v /= v.norm()]; guarded by the caller below. *)
Definition normalise (d : nat) (v : vec) : vec := fun i => v i / norm d v.

(** source/crystal_data.cc:211-247, the loop of read_and_store_data over the slip systems.
    [Ok None]: a norm is zero, so the C++ divides 0 by 0 and stores NaN entries. *)
Definition reference_slip_system (d : nat) (nrm dir : vec) : result (option slip) :=
  if orthogonality_check d nrm dir then
    match d with
    | 2%nat =>
        if Reqb (norm d nrm) 0 || Reqb (norm d dir) 0 then Ok None
        else Ok (Some (mk_slip (normalise d dir) (normalise d nrm) vzero))
    | 3%nat =>
        let o := cross nrm dir in
        if Reqb (norm d nrm) 0 || Reqb (norm d dir) 0 || Reqb (norm d o) 0 then Ok None
        else Ok (Some (mk_slip (normalise d dir) (normalise d nrm) (normalise d o)))
    | _ => Throw
    end
  else Throw.

(** source/crystal_data.cc:418-461, compute_slip_systems for one crystal and slip system. *)
Definition rotate_slip (d : nat) (Q : mat) (s : slip) : slip :=
  mk_slip (mv d Q (s_dir s)) (mv d Q (s_nrm s)) (mv d Q (s_ort s)).
Definition schmid (s : slip) : mat := outer (s_dir s) (s_nrm s).
Definition sym_schmid (s : slip) : mat := symmetrize (schmid s).

(** crystal_data.cc:48-67, count_n_crystals.  [cells] are (owner rank, material id);
    [compute_set_union] is the union over all [np] ranks (trusted: deal.II/MPI). *)
Definition add_set (x : nat) (s : list nat) : list nat :=
  if existsb (Nat.eqb x) s then s else s ++ [x].
Definition local_ids (rank : nat) (cells : list (nat * nat)) : list nat :=
  fold_left (fun s c => if Nat.eqb (fst c) rank then add_set (snd c) s else s) cells [].
Definition set_union (a b : list nat) : list nat := fold_left (fun s x => add_set x s) b a.
Definition count_n_crystals (np : nat) (cells : list (nat * nat)) : nat :=
  length (fold_left (fun s r => set_union s (local_ids r cells)) (seq 0 np) []).
