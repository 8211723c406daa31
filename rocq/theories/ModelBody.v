(** * The whole body: histories, residual and norms of a step on an actual mesh
      (source/gradient_crystal_plasticity/assembly.cc:620-1164 and 1168-1720,
      fe_field.cc:605-700).

    [ModelStep] models a time step for arbitrary subroutines; here the subroutines that touch
    the histories and assemble the residual are those of ModelSweep, ModelAssembly and
    ModelLinear on a mesh of cells, run by one rank.  Cells are numbered; a gb face is named by
    the two cells it separates. *)
From Verif Require Import Num Tensors ModelHistory ModelInterface ModelMicro ModelCohesive ModelFEField
  ModelActiveSet ModelLinear ModelAssembly ModelSweep ModelStep.
Open Scope R_scope.

(** Mesh, finite elements, crystals and parameters as seen by the assembly during one step. *)
(** Members read by assembly.cc:620-1720 (gradient_crystal_plasticity.h:54-528). *)
Record body := mk_body {
  b_mesh : sweep_mesh;
  b_cells : list nat;                       (* active_cell_iterators *)
  b_ndofs : nat;                            (* dof_handler.n_dofs() *)
  b_dofs : nat -> list nat;                 (* cell->get_dof_indices *)
  b_is_slip : nat -> bool;                  (* in locally_owned_plastic_slip_dofs *)
  b_element : nat -> element;               (* hp_fe_values on the cell *)
  b_crystal : nat -> crystal;               (* data of the cell's crystal *)
  b_face : nat -> nat -> gb_face;           (* hp_fe_face_values: cell, neighbour *)
  b_interface : nat -> nat -> interface;    (* cell, neighbour *)
  b_loads : nat -> list neumann_face;
  b_nq : nat; b_nfq : nat; b_dim : nat; b_ns : nat;
  b_decohesion : bool; b_microtraction : bool;
  b_hardening : hardening; b_char_resistance : R;
  b_iprm : iprm; b_cohesive : cohesive; b_char_displacement : R; b_model : damage_model;
  b_energy : vec -> nat -> nat -> nat -> R  (* free energies entering model M1, 1504-1519 *)
}.

(** What the sweeps read of it (assembly.cc:1168-1720). *)
Definition sweep_of (b : body) : sweep_env :=
  mk_sweep_env (b_mesh b) (b_decohesion b) (b_nq b) (b_nfq b) (b_dim b) (b_hardening b) (b_ns b)
    (b_char_resistance b) (b_iprm b) (b_cohesive b) (b_char_displacement b) (b_model b)
    (fun c n q => fa_n (b_face b c n) q).

(** The dof values of a cell (get_function_values gathers x at the dof indices of the cell). *)
(** assembly.cc:731-765, 995-1014 and 1379-1395. *)
Definition local_values (b : body) (x : vec) (c i : nat) : R := x (nth i (b_dofs b c) 0%nat).

(** assembly.cc:1372-1395 and 1440-1470: slips and displacements at the points. *)
Definition fields_of (b : body) (old x : vec) : fields :=
  mk_fields
    (fun c => map (fun a => map (fun q => slip_at (b_element b c) (local_values b x c) q a) (seq 0 (b_nq b))) (seq 0 (b_ns b)))
    (fun c => map (fun a => map (fun q => slip_at (b_element b c) (local_values b old c) q a) (seq 0 (b_nq b))) (seq 0 (b_ns b)))
    (fun c n q => face_displacement (fa_nd (b_face b c n)) (fa_phi (b_face b c n)) (local_values b x c) q)
    (b_energy b x).

(** A sweep of the rank that owns all cells; an exception ends the program (here: nothing
    changes). *)
(** assembly.cc:1168-1720. *)
Definition sweep_all (b : body) (w : sweep) (r : rank_data) : rank_data :=
  match run_sweeps (sweep_of b) (b_cells b) [w] r with Ok r' => r' | _ => r end.
(** assembly.cc:1167-1213, prepare_quadrature_point_history. *)
Definition body_store (b : body) (r : rank_data) : rank_data := sweep_all b Prepare r.
(** assembly.cc:1294-1536, reset_and_update_quadrature_point_history. *)
Definition body_update (b : body) (old x : vec) (r : rank_data) : rank_data :=
  sweep_all b (Refresh (fields_of b old x)) r.
(** assembly.cc:1540-1720, store_effective_opening_displacement_in_quadrature_history. *)
Definition body_finish (b : body) (x : vec) (r : rank_data) : rank_data :=
  sweep_all b (Finish (fields_of b x x)) r.

(** assembly.cc:885-893: the neighbours across grain boundaries the residual visits. *)
Definition gb_neighbours (b : body) (c : nat) : list nat :=
  visited (b_mesh b) (orb (b_decohesion b) (b_microtraction b)) c.
(** assembly.cc:1008-1030: the interface history read from the side of [c] (a non-finite
    damage is handled by [readable]). *)
Definition face_history_of (r : rank_data) (c n : nat) : face_history :=
  mk_face_history (fun q => i_max (r_face r (make_key c n) q)) (fun q => i_old (r_face r (make_key c n) q))
    (fun q => match i_damage (r_face r (make_key c n) q) with Fin d => d | _ => 0 end).
(** assembly.cc:1017-1019: the damage read is a number. *)
Definition readable (b : body) (r : rank_data) (c n : nat) : bool :=
  orb (negb (b_decohesion b))
    (forallb (fun q => match i_damage (r_face r (make_key c n) q) with Fin _ => true | _ => false end)
       (seq 0 (fa_nq (b_face b c n)))).
(** assembly.cc:767-790: slip resistances of the cell's points. *)
Definition resistances_of (r : rank_data) (c q a : nat) : R := nth a (slip_res (r_bulk r c q)) 0.
(** assembly.cc:704-1146: entry [i] of the cell's local_rhs. *)
Definition cell_entry (b : body) (old x : vec) (r : rank_data) (c i : nat) : xr :=
  if forallb (readable b r c) (gb_neighbours b c)
  then residual_cell (b_crystal b c) (b_element b c)
         (map (fun n => (b_interface b c n, b_face b c n, face_history_of r c n, local_values b x n)) (gb_neighbours b c))
         (b_loads b c) (local_values b x c) (local_values b old c) (resistances_of r c) i
  else NaN.
(** The cell as the copiers see it. *)
(** assembly.cc:315-322 and 1147-1162. *)
Definition body_cell (b : body) (c : nat) : mesh_cell :=
  mk_mesh_cell (sm_material (b_mesh b) c) (sm_material (b_mesh b) c) (b_dofs b c)
    (map (option_map (fun n => mk_neighbour (sm_material (b_mesh b) n) (sm_material (b_mesh b) n) (b_dofs b n)))
       (sm_faces (b_mesh b) c)).
(** The cell's contribution; [val] of a finite entry is its value.  The matrices are not read by
    the residual and are left out here. *)
(** assembly.cc:1147-1162, the Copy data. *)
Definition value_of (v : xr) : R := match v with Fin a => a | _ => 0 end.
Definition body_system (b : body) (old x : vec) (r : rank_data) (c : nat) : local_system :=
  mk_local_system (body_cell b c) (fun _ _ => 0) (fun _ _ _ => 0) (fun i => value_of (cell_entry b old x r c i)).
(** assembly.cc:620-700, the assembled residual vector. *)
Definition body_residual (b : body) (old x : vec) (r : rank_data) (k : constraints) : vec :=
  vector_of (assemble_residual k (map (body_system b old x r) (b_cells b))).
(** Every entry is a number. *)
(** assembly.cc:704-1146. *)
Definition all_finite (b : body) (old x : vec) (r : rank_data) : bool :=
  forallb (fun c => forallb (fun i => match cell_entry b old x r c i with Fin _ => true | _ => false end)
    (seq 0 (length (b_dofs b c)))) (b_cells b).
(** fe_field.cc:605-700 with factor 1: squares of the two norms.  An entry that is not a number
    makes the norms NaN (deviation: an infinite entry alone would give an infinite norm; both
    fail every comparison with a tolerance). *)
Definition body_norms (b : body) (old x : vec) (r : rank_data) (k : constraints) : xr * xr :=
  if all_finite b old x r then
    (Fin (sumn (b_ndofs b) (fun d => if b_is_slip b d then 0 else body_residual b old x r k d * body_residual b old x r k d)),
     Fin (sumn (b_ndofs b) (fun d => if b_is_slip b d then body_residual b old x r k d * body_residual b old x r k d else 0)))
  else (NaN, NaN).
