(** * Model of the assembly of the trial microstress
    (source/gradient_crystal_plasticity/assembly.cc:2095-2585).

    The trial microstress lives on a copy of the solution's FEField (setup.cc:199-202), hence on
    the same elements, components and degrees of freedom.  [local_matrix] (2233-2236) is written
    but never used and is not modelled.  [copy_local_to_global_*] distribute with the hanging-node
    constraints; without hanging nodes (the modelled case) they add local to global entries. *)
From Verif Require Import Num Tensors ModelElastic ModelMicro ModelAssembly.
Open Scope R_scope.

(** A face of the cell at the boundary of the domain. *)
(** include/gCP/assembly_data.h:414-490, filled in assembly.cc:2486-2565. *)
Record boundary_face := mk_boundary_face {
  bf_nq : nat;                          (* n_face_quadrature_points *)
  bf_w : nat -> R;                      (* JxW_face_values *)
  bf_n : nat -> vec;                    (* normal_vector_values *)
  bf_psi : nat -> nat -> nat -> R;      (* test_function_face_values[slip_id][i] *)
  bf_dpsi : nat -> nat -> nat -> vec    (* gradients of the shape functions on the face *)
}.

(** assembly.cc:2404-2422: stress from the trial displacements and the old slips. *)
Definition trial_stress_at (c : crystal) (e : element) (U Uold : nat -> R) (q : nat) : mat :=
  c4 (cr_dim c) (cr_C c)
     (madd (cr_macro c) (elastic_strain (cr_N c 0) (cr_P c) (strain_at e U q) (slip_at e Uold q) (cr_ns c))).

(** assembly.cc:2457-2483: the integral over the cell, entry [i] of local_right_hand_side. *)
Definition trial_rhs_cell (c : crystal) (e : element) (U Uold : nat -> R) (i : nat) : xr :=
  if Nat.ltb (el_comp e i) (cr_dim c) then Fin 0
  else
    let a := (el_comp e i - cr_dim c)%nat in
    xsumn (el_nq e) (fun q =>
      xmul (xmul (Fin (-1))
        (xsub (xmul (Fin (cr_N c 2))
                 (xdot (cr_dim c) (el_dpsi e a i q)
                    (vectorial_microstress (cr_factor c) (cr_p c) (cr_dim c) (cr_dir c a) (cr_ort c a)
                       (slip_gradient_at e Uold q a))))
              (Fin (cr_N c 3 * el_psi e a i q *
                    resolved_shear_stress (cr_dim c) (cr_P c a) (trial_stress_at c e U Uold q)))))
        (Fin (el_w e q))).
(** assembly.cc:2485-2567: one boundary face. *)
Definition trial_rhs_face (c : crystal) (e : element) (Uold : nat -> R) (f : boundary_face) (i : nat) : xr :=
  if Nat.ltb (el_comp e i) (cr_dim c) then Fin 0
  else
    let a := (el_comp e i - cr_dim c)%nat in
    xsumn (bf_nq f) (fun q =>
      xmul (xmul (Fin (cr_N c 2 * bf_psi f a i q))
             (xdot (cr_dim c) (bf_n f q)
                (vectorial_microstress (cr_factor c) (cr_p c) (cr_dim c) (cr_dir c a) (cr_ort c a)
                   (fun r => sumn (el_nd e) (fun j => Uold j * bf_dpsi f a j q r)))))
           (Fin (bf_w f q))).

(** A cell as the loop of the assembly sees it. *)
(** What assembly.cc:2095-2585 reads of a cell. *)
Record trial_cell := mk_trial_cell {
  tc_crystal : crystal; tc_element : element;
  tc_dof : nat -> nat;                  (* local_dof_indices *)
  tc_U : nat -> R; tc_Uold : nat -> R;  (* local coefficients of trial_solution, old_solution *)
  tc_faces : list boundary_face
}.
(** assembly.cc:2290-2570. *)
Definition trial_rhs_local (t : trial_cell) (i : nat) : xr :=
  fold_left (fun acc f => xadd acc (trial_rhs_face (tc_crystal t) (tc_element t) (tc_Uold t) f i))
    (tc_faces t) (trial_rhs_cell (tc_crystal t) (tc_element t) (tc_U t) (tc_Uold t) i).
(** assembly.cc:2197-2255: entry [i] of local_lumped_matrix. *)
Definition lumped_local (t : trial_cell) (i : nat) : R :=
  let e := tc_element t in let d := cr_dim (tc_crystal t) in
  sumn (el_nq e) (fun q =>
    if Nat.leb d (el_comp e i) then
      sumn (el_nd e) (fun j =>
        if Nat.leb d (el_comp e j) then
          if negb (Nat.eqb (el_comp e i - d) (el_comp e j - d)) then 0
          else el_psi e (el_comp e i - d) i q * el_psi e (el_comp e j - d) j q * el_w e q
        else 0)
    else 0).

(** assembly.cc:2264-2274, 2574-2585: adding the local entries at the cell's global indices. *)
Definition trial_rhs (cells : list trial_cell) (k : nat) : xr :=
  fold_left (fun acc t => xadd acc
    (xsumn (el_nd (tc_element t)) (fun i => if Nat.eqb (tc_dof t i) k then trial_rhs_local t i else Fin 0)))
    cells (Fin 0).
Definition lumped_matrix (cells : list trial_cell) (k : nat) : R :=
  fold_left (fun acc t => acc +
    sumn (el_nd (tc_element t)) (fun i => if Nat.eqb (tc_dof t i) k then lumped_local t i else 0))
    cells 0.
