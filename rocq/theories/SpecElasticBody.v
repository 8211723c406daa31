(** * What C102 means: elastic bodies and exact linear solvers. *)
From Verif Require Import Num ModelFEField ModelLineSearch ModelActiveSet ModelSolver SpecLinear ModelLinear ModelAssembly
  ModelInterface ModelSweep ModelStep ModelShear SpecShear ModelProgram SpecProgram ModelBody SpecBody ModelTangent SpecTangent.
Open Scope R_scope.

(** No slip systems, no separating and no slip-interacting grain boundaries. *)
Definition elastic_body (b : body) : Prop :=
  b_decohesion b = false /\ b_microtraction b = false /\
  (forall c, In c (b_cells b) -> cr_ns (b_crystal b c) = 0%nat) /\ (forall d, (d < b_ndofs b)%nat -> b_is_slip b d = false).
(** The solver returns, in every state of a Newton iteration with the constraints [k], a solution
    of the assembled linear system of the body. *)
Definition exact_solver (b : body) (k : constraints) (solver : sstate rank_data -> result vec) : Prop := forall s, st_internal s = k -> exists y pattern ws,
  solver s = Ok y /\
  body_jacobian b (st_old s) (st_trial s) (st_hist s) pattern (st_internal s) = Ok ws /\
  solves (b_ndofs b) (matrix_of ws) (body_residual b (st_old s) (st_trial s) (st_hist s) (st_internal s)) y.
(** Where nothing is left to improve the line search tries nothing (C03: the full step passes). *)
Definition idle_search (lambdas : sstate rank_data -> list R) : Prop := forall s, st_norms s = (Fin 0, Fin 0) -> lambdas s = [].
(** The solvers of the algorithm work: the displacement systems are solved exactly; there is
    nothing to solve for the slips. *)
Definition solvers_work (a : algorithm) (b : body) (k : constraints) (e : env rank_data) : Prop :=
  match a with
  | Monolithic => exact_solver b k (e_solve_mono e) /\ idle_search (e_lambdas_mono e)
  | _ => exact_solver b k (e_solve_macro e) /\ idle_search (e_lambdas_macro e) /\ forall s, exists y, e_solve_micro e s = Ok y
  end.
(** The iteration limits needed, the turns the loops make. *)
Definition limits_suffice (a : algorithm) (sp : solver_parameters) : Prop :=
  match a with
  | Monolithic => 0 < mono_tol sp /\ (1 <= mono_n_max sp)%nat
  | Bouncing => 0 < macro_tol sp /\ 0 < micro_tol sp /\ (2 <= macro_n_max sp)%nat /\ (1 <= micro_n_max sp)%nat /\ (2 <= max_n_solution_loops sp)%nat
  | Embracing => 0 < macro_tol sp /\ 0 < micro_tol sp /\ (1 <= macro_n_max sp)%nat /\ (1 <= micro_n_max sp)%nat
  end.
Definition turns (a : algorithm) : nat := match a with Monolithic => 1 | Embracing => 2 | Bouncing => 4 end.
(** All unknowns are displacements. *)
Definition only_displacement_block (e : env rank_data) : Prop := forall d, e_blocks e d = Macro.
(** The shear test of an elastic body with no slip unknowns: in each time step the solvers work. *)
Definition elastic_test (p : program rank_data) (bodies : nat -> R -> body) (b0 : body) (inner : nat) : Prop :=
  on_bodies p bodies b0 /\ well_formed_program p /\ homogeneous (s_hanging (pr_strip p)) /\ rate_independent (pr_parameters p) = false /\
  pr_frequency p <> 0%Z /\ limits_suffice (pr_algorithm p) (pr_parameters p) /\ (turns (pr_algorithm p) <= inner)%nat /\
  forall k dt, elastic_body (bodies k dt) /\ only_displacement_block (pr_env p k dt) /\ solvers_work (pr_algorithm p) (bodies k dt) (newton_of (pr_strip p)) (pr_env p k dt) /\
    closed_below (b_ndofs (bodies k dt)) (newton_of (pr_strip p)) /\ dofs_of_cells (bodies k dt) (newton_of (pr_strip p)).
