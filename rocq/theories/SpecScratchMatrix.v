(** * What C117 means: the matrices of a cell depend on the cell alone. *)
From Verif Require Import Num Tensors ModelElastic ModelMicro ModelCohesive ModelAssembly ModelSweep ModelBody ModelTangent ModelScratch ModelScratchMatrix.
Open Scope R_scope.

(** Dofs are displacements or slips of known slip systems, in the same order in the neighbours. *)
Definition matrix_well_formed (x : matrix_view) : Prop :=
  let c := mv_crystal x in let e := mv_element x in
  (forall i, (i < el_nd e)%nat -> (el_comp e i < cr_dim c + cr_ns c)%nat) /\
  forall p f h Un indices, In (p, f, h, Un, indices) (mv_faces x) ->
    if_dim p = cr_dim c /\ fa_nd f = el_nd e /\
    forall i, (i < el_nd e)%nat -> fa_comp f i = el_comp e i /\ (fa_ncomp f i < cr_dim c + cr_ns c)%nat.
(** The data of ModelAssembly: matrix, coupling matrices and dof indices in the order of faces. *)
Definition matrix_contribution (x : matrix_view) : copy_data :=
  let faces := if mv_boundary x then mv_faces x else [] in
  mk_copy_data
    (fun i j => fold_left (fun acc y => let '(p, f, h, Un, _) := y in xadd acc (jacobian_face_local p f h (mv_U x) Un i j)) faces
       (jacobian_bulk (mv_crystal x) (mv_element x) (mv_U x) (mv_Uold x) (mv_resistance x) i j))
    (mv_indices x) (mv_boundary x)
    (map (fun y => let '(p, f, h, Un, _) := y in jacobian_face_coupling p f h (mv_U x) Un) faces)
    (map (fun y => let '(_, _, _, _, indices) := y in indices) faces).
(** The same n x n entries, flags and lists. *)
Definition same_matrix (n : nat) (A B : nat -> nat -> xr) : Prop := forall i j, (i < n)%nat -> (j < n)%nat -> A i j = B i j.
Definition same_copy (n : nat) (A B : copy_data) : Prop :=
  same_matrix n (cd_matrix A) (cd_matrix B) /\ cd_indices A = cd_indices B /\ cd_boundary A = cd_boundary B /\
  Forall2 (same_matrix n) (cd_couplings A) (cd_couplings B) /\ cd_neighbours A = cd_neighbours B.
(** A cell of a body (ModelTangent.cell_matrix_entry and cell_coupling_entry). *)
Definition matrix_view_of (b : body) (old x : vec) (r : rank_data) (boundary : bool) (c : nat) : matrix_view :=
  mk_matrix_view (b_crystal b c) (b_element b c) (local_values b x c) (local_values b old c) (resistances_of r c) (b_dofs b c) boundary
    (map (fun n => (b_interface b c n, b_face b c n, face_history_of r c n, local_values b x n, b_dofs b n)) (gb_neighbours b c)).
