(** * The Newton matrix of the whole body (source/gradient_crystal_plasticity/assembly.cc:9-617)
      and the line search on the assembled residual (solve.cc:1564-1600, line_search.cc:42-56). *)
From Verif Require Import Num Tensors ModelHistory ModelInterface ModelMicro ModelCohesive ModelFEField
  ModelActiveSet ModelLinear ModelAssembly ModelLineSearch ModelSweep ModelBody.
Open Scope R_scope.

(** assembly.cc:315-319: the grain boundary integral is computed. *)
Definition coupled (b : body) : bool := orb (b_decohesion b) (b_microtraction b).
(** assembly.cc:98-579: entry [i][j] of the cell's local_matrix; the histories are those of [r]. *)
Definition cell_matrix_entry (b : body) (old x : vec) (r : rank_data) (c i j : nat) : xr :=
  fold_left (fun acc n => xadd acc
      (jacobian_face_local (b_interface b c n) (b_face b c n) (face_history_of r c n) (local_values b x c) (local_values b x n) i j))
    (gb_neighbours b c)
    (jacobian_bulk (b_crystal b c) (b_element b c) (local_values b x c) (local_values b old c) (resistances_of r c) i j).
(** assembly.cc:327-579: entry [i][j] of the [k]-th of local_coupling_matrices (emplaced in face
    order, lines 573-576). *)
Definition cell_coupling_entry (b : body) (x : vec) (r : rank_data) (c k i j : nat) : xr :=
  let n := nth k (gb_neighbours b c) 0%nat in
  jacobian_face_coupling (b_interface b c n) (b_face b c n) (face_history_of r c n) (local_values b x c) (local_values b x n) i j.
(** What copy_local_to_global_jacobian gets from the cell, with the right-hand side of
    assemble_residual. *)
(** assembly.cc:583-617 and 1147-1162, the Copy data. *)
Definition newton_system (b : body) (old x : vec) (r : rank_data) (c : nat) : local_system :=
  mk_local_system (body_cell b c)
    (fun i j => value_of (cell_matrix_entry b old x r c i j))
    (fun k i j => value_of (cell_coupling_entry b x r c k i j))
    (fun i => value_of (cell_entry b old x r c i)).
(** assembly.cc:9-96, assemble_jacobian for the trial solution [x] with the histories [r]. *)
Definition body_jacobian (b : body) (old x : vec) (r : rank_data) (pattern : list (nat * nat)) (k : constraints)
  : result (list (nat * nat * R)) :=
  assemble_jacobian pattern k (coupled b) (map (newton_system b old x r) (b_cells b)).

(** solve.cc:1469-1492 (the trial solution moved by [t] times the Newton update). *)
Definition moved (x u : vec) (t : R) : vec := fun d => x d + t * u d.
(** assembly.cc:620-702 after 1294-1536: half the squared norm of the residual of a trial
    solution, the histories being updated for it first. *)
Definition body_objective (b : body) (old : vec) (r : rank_data) (k : constraints) (x : vec) : R :=
  residual_objective (b_ndofs b) (body_residual b old x (body_update b old x r) k).
