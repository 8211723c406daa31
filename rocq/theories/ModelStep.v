(** * One time step of the solver, and the run of the application
    (source/gradient_crystal_plasticity/solve.cc:13-148 and 1040-1700,
    applications/simple_shear.cc:865-925).

    [ModelSolver] models the three solution algorithms over arbitrary subroutines; here the
    subroutines act on the data members they really read and write: trial solution with its
    two saved copies, Newton update, active set, Newton constraints, quadrature-point history,
    slip resistances of the dofs, residual norms.  What stays arbitrary are the numbers the
    subroutines compute: constitutive update, residual norms, trial microstress, result of the
    linear solves, relaxation parameters tried by the line searches.
    Not modelled: timers, logs, debug output, MPI ghost exchange. *)
From Verif Require Import Num ModelHistory ModelFEField ModelLineSearch ModelActiveSet ModelSolver.
Open Scope R_scope.

Section Step.
Context {H : Type}.

(** The data members used during a step (include/gCP/gradient_crystal_plasticity.h:180-400). *)
Record sstate := mk_sstate {
  st_active : list nat;        (* locally_owned_active_set *)
  st_inactive : list nat;      (* locally_owned_inactive_set *)
  st_internal : constraints;   (* internal_newton_method_constraints *)
  st_trial : vec;              (* trial_solution *)
  st_tmp : vec;                (* tmp_trial_solution *)
  st_initial : vec;            (* initial_trial_solution *)
  st_newton : vec;             (* newton_update *)
  st_old : vec;                (* fe_field->old_solution *)
  st_hist : H;                 (* (interface_)quadrature_point_history *)
  st_res : vec;                (* slip_resistance *)
  st_res_tmp : vec;            (* tmp_slip_resistance *)
  st_norms : xr * xr           (* squares of fe_field->get_sub_l2_norms(residual) *)
}.

(** What the subroutines called by the algorithms compute.
    [e_problem] holds the constraints, dof sets and hardening parameters of the step (its
    old_solution and slip_resistance are replaced by those of the state). *)
(** The subroutines called in solve.cc:85-1039 and 1564-1640. *)
Record env := mk_env {
  e_problem : problem;
  e_blocks : nat -> block_index;
  e_store : H -> H;                              (* prepare_quadrature_point_history *)
  e_update : vec -> vec -> H -> H;               (* update of the history: old, trial *)
  e_finish : vec -> H -> H;                      (* store_effective_opening_displacement_... *)
  e_harden : list nat -> vec -> vec -> vec -> vec; (* active, old, trial, tmp resistances *)
  e_norms : vec -> vec -> H -> constraints -> xr * xr; (* old, trial, history, constraints *)
  e_microstress : sstate -> vec;                 (* trial_microstress->solution *)
  e_solve_mono : sstate -> result vec;
  e_solve_macro : sstate -> result vec;
  e_solve_micro : sstate -> result vec;
  e_solve_reduced : sstate -> result vec;
  e_lambdas_mono : sstate -> list R;             (* relaxation parameters tried *)
  e_lambdas_macro : sstate -> list R;
  e_lambdas_micro : sstate -> list R
}.

(** Assignments to single members (solve.cc:1469-1691). *)
Definition set_trial (s : sstate) (x : vec) : sstate :=
  mk_sstate (st_active s) (st_inactive s) (st_internal s) x (st_tmp s) (st_initial s)
    (st_newton s) (st_old s) (st_hist s) (st_res s) (st_res_tmp s) (st_norms s).
(** solve.cc:1169-1172, 1322-1330, 1449-1457: newton_update is assigned. *)
Definition set_newton (s : sstate) (x : vec) : sstate :=
  mk_sstate (st_active s) (st_inactive s) (st_internal s) (st_trial s) (st_tmp s) (st_initial s)
    x (st_old s) (st_hist s) (st_res s) (st_res_tmp s) (st_norms s).
(** assembly.cc:620-1164: the residual vector is assigned. *)
Definition set_norms (s : sstate) (n : xr * xr) : sstate :=
  mk_sstate (st_active s) (st_inactive s) (st_internal s) (st_trial s) (st_tmp s) (st_initial s)
    (st_newton s) (st_old s) (st_hist s) (st_res s) (st_res_tmp s) n.

(** solve.cc:1644-1660, store_trial_solution(false). *)
Definition op_store (s : sstate) : sstate :=
  mk_sstate (st_active s) (st_inactive s) (st_internal s) (st_trial s) (st_trial s) (st_initial s)
    (st_newton s) (st_old s) (st_hist s) (st_res s) (st_res_tmp s) (st_norms s).

(** assembly.cc:1283-1289, reset_and_update_internal_variables. *)
Definition op_update (e : env) (s : sstate) : sstate :=
  mk_sstate (st_active s) (st_inactive s) (st_internal s) (st_trial s) (st_tmp s) (st_initial s)
    (st_newton s) (st_old s) (e_update e (st_old s) (st_trial s) (st_hist s))
    (e_harden e (st_active s) (st_old s) (st_trial s) (st_res_tmp s)) (st_res_tmp s) (st_norms s).

(** The problem data of active_set.cc at this moment: members [old_solution] and
    [slip_resistance] read in active_set.cc:83 and 200.  The flag is [true] because the
    subroutine is only called for rate-independent behaviour (ModelSolver.call_active_set). *)
Definition current_problem (e : env) (s : sstate) : problem :=
  let p := e_problem e in
  mk_problem (p_n_slips p) true (p_hardening p) (p_char_resistance p)
    (p_owned p) (p_owned_slip p) (p_affine p) (p_newton p) (p_hanging p) (st_old s) (st_res s).

(** active_set.cc:11-38 (ModelActiveSet.active_set_algorithm). *)
Definition op_sets (e : env) (s : sstate) : sstate :=
  let r := fst (active_set_algorithm (current_problem e s) (e_microstress e s) true
                  (mk_state (st_active s) (st_inactive s) (st_internal s) (st_trial s))) in
  mk_sstate (active_set r) (inactive_set r) (internal_constraints r) (trial_solution r)
    (st_tmp s) (st_initial s) (st_newton s) (st_old s) (st_hist s) (st_res s) (st_res_tmp s)
    (st_norms s).

(** solve.cc:69-81, distribute_affine_constraints_to_trial_solution. *)
Definition op_affine (e : env) (s : sstate) : sstate :=
  set_trial s (ModelActiveSet.distribute (p_affine (e_problem e)) (st_trial s)).

(** assembly.cc:620-1164, assemble_residual. *)
Definition op_residual (e : env) (s : sstate) : sstate :=
  set_norms s (e_norms e (st_old s) (st_trial s) (st_hist s) (st_internal s)).

(** The block layout and constraints solve.cc:1469-1560 work on. *)
Definition layout (e : env) : mesh := mk_mesh (e_blocks e) (p_affine (e_problem e)).

(** solve.cc:1044-1180, solve_linearized_system: only the first block is assigned. *)
Definition op_solve_mono (e : env) (s : sstate) : result sstate :=
  rbind (e_solve_mono e s) (fun x =>
  Ok (set_newton s (set_block (layout e) Macro (st_newton s)
                      (ModelActiveSet.distribute (st_internal s) x)))).
(** solve.cc:1184-1337 and 1341-1464: newton_update = 0, then the block of the solved
    equation is assigned. *)
Definition op_solve_block (e : env) (f : sstate -> result vec) (b : block_index) (s : sstate)
  : result sstate :=
  rbind (f s) (fun x =>
  Ok (set_newton s (set_block (layout e) b (fun _ => 0)
                      (ModelActiveSet.distribute (st_internal s) x)))).

(** solve.cc:1469-1492 and 1497-1520, update_trial_solution. *)
Definition op_apply (e : env) (l : R) (b : block_index) (s : sstate) : sstate :=
  set_trial s (update_trial (layout e) (st_trial s) (st_newton s) l b).

(** solve.cc:1564-1599 and 1602-1640: one pass of the line-search loop; the trial solution is
    reset without naming the block (default Macro). *)
Definition op_search_pass (e : env) (b : block_index) (s : sstate) (l : R) : sstate :=
  op_residual e (op_update e (op_apply e l b
    (set_trial s (reset_trial (layout e) (st_trial s) (st_tmp s) Macro)))).
(** The loop for the relaxation parameters it tries (possibly none). *)
(** solve.cc:1577-1600 and 1618-1640. *)
Definition op_search (e : env) (f : sstate -> list R) (b : block_index) (s : sstate)
  : result sstate :=
  Ok (fold_left (op_search_pass e b) (f s) s).

(** solve.cc:1664-1691, reset_trial_solution(true, block). *)
Definition op_reset (e : env) (b : block_index) (s : sstate) : sstate :=
  set_trial s (reset_trial (layout e) (st_trial s) (st_initial s) b).

(** The subroutines of ModelSolver for this state (the calls of solve.cc:85-1039).
    [assemble_jacobian] changes no modelled member. *)
Definition step_ops (e : env) : ops sstate :=
  mk_ops sstate
    op_store (op_update e) (op_sets e)
    (fun s => mk_sstate (p_owned_slip (e_problem e)) (st_inactive s) (st_internal s) (st_trial s)
       (st_tmp s) (st_initial s) (st_newton s) (st_old s) (st_hist s) (st_res s) (st_res_tmp s)
       (st_norms s))
    st_active
    (op_affine e) (op_residual e) (fun s => s) (op_residual e)
    (op_solve_mono e) (op_solve_block e (e_solve_macro e) Macro)
    (op_solve_block e (e_solve_micro e) Micro) (op_solve_block e (e_solve_reduced e) Macro)
    (op_apply e 1 Macro) (op_apply e 1 Macro) (op_apply e 1 Micro)
    (op_search e (e_lambdas_mono e) Macro) (op_search e (e_lambdas_macro e) Macro)
    (op_search e (e_lambdas_micro e) Micro)
    (op_reset e Macro) (op_reset e Micro)
    st_norms.

(** What the time stepping passes to the step (simple_shear.cc:867-905). *)
Record timing := mk_timing {
  t_step : nat; t_factor : R; t_next_dt : R; t_previous_dt : R; t_skip : bool
}.

(** solve.cc:97-109: the step is prepared. *)
Definition begin_step (e : env) (t : timing) (old_old : vec) (s : sstate) : sstate :=
  let '(trial, update) := extrapolate (t_step t) (t_factor t) (t_next_dt t) (t_previous_dt t)
      (t_skip t) (p_hanging (e_problem e)) (p_newton (e_problem e)) (st_old s) old_old in
  mk_sstate (st_active s) (st_inactive s) (merge no_constraints (p_newton (e_problem e)))
    trial (st_tmp s) trial update (st_old s) (e_store e (st_hist s)) (st_res s) (st_res s)
    (st_norms s).

(** solve.cc:85-148, solve_nonlinear_system; the solution is [st_trial] of the result. *)
Definition solve_nonlinear_system (e : env) (sp : solver_parameters) (a : algorithm)
  (fuel : nat) (t : timing) (old_old : vec) (s : sstate) : outcome sstate :=
  match solve_nonlinear (step_ops e) sp a fuel (begin_step e t old_old s) with
  | Done r => Done (mk_sstate (st_active r) (st_inactive r) (st_internal r) (st_trial r)
                      (st_tmp r) (st_initial r) (st_newton r) (st_old r)
                      (e_finish e (st_trial r) (st_hist r)) (st_res r) (st_res_tmp r) (st_norms r))
  | x => x
  end.

(** fe_field.cc:557-562, update_solution_vectors. *)
Definition shift_solutions (s : sstate) : vec * sstate :=
  (st_old s,
   mk_sstate (st_active s) (st_inactive s) (st_internal s) (st_trial s) (st_tmp s)
     (st_initial s) (st_newton s) (st_trial s) (st_hist s) (st_res s) (st_res_tmp s)
     (st_norms s)).

(** simple_shear.cc:865-925, the time loop over the steps [es]; the list returned with the
    outcome holds the state in which each finished step was accepted. *)
Fixpoint run (sp : solver_parameters) (a : algorithm) (fuel : nat) (es : list (env * timing))
  (old_old : vec) (s : sstate) : outcome (vec * sstate) * list sstate :=
  match es with
  | [] => (Done (old_old, s), [])
  | (e, t) :: es' =>
      match solve_nonlinear_system e sp a fuel t old_old s with
      | Done r =>
          let '(oo, s') := shift_solutions r in
          let '(o, l) := run sp a fuel es' oo s' in (o, r :: l)
      | Thrown => (Thrown, [])
      | Undefined => (Undefined, [])
      | Running => (Running, [])
      end
  end.
End Step.
Arguments sstate H : clear implicits.
Arguments env H : clear implicits.

(** ** The history of one quadrature point as the history of the step *)
(** assembly.cc:1379-1394: slip values of a dof vector at the point; [interp b] evaluates the
    field of slip system [b] there.  The point sits at position 0 of the value arrays. *)
Definition point_slips (ns : nat) (interp : nat -> vec -> R) (x : vec) : list (list R) :=
  map (fun b => [interp b x]) (seq 0 ns).
(** assembly.cc:1185-1188: store_current_values of the point (an exception, raised for an
    uninitialised point, ends the program: the history stays as it is). *)
Definition point_store (h : qph) : qph :=
  match ModelHistory.step h Store with Ok h' => h' | _ => h end.
(** assembly.cc:1397-1403: update_values of the point; the arrays have one entry per slip
    system of the point (both numbers are that of the crystals data). *)
Definition point_update (interp : nat -> vec -> R) (old x : vec) (h : qph) : qph :=
  match ModelHistory.step h (Update 0 (point_slips (ModelHistory.n_slips h) interp x)
                                      (point_slips (ModelHistory.n_slips h) interp old)) with
  | Ok h' => h' | _ => h end.
