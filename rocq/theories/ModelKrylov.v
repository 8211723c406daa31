(** * Model of the iterative linear solves
      (source/gradient_crystal_plasticity/solve.cc:1043-1465, source/utilities.cc:16-44).

    The Krylov and direct solvers of Trilinos are parameters: [solver tol x0] is what the
    solver returns when started from [x0] with [SolverControl(n_max_iterations, tol)], [None]
    when it throws (for instance after n_max_iterations). *)
From Verif Require Import Num Tensors ModelFEField ModelActiveSet.
Open Scope R_scope.

Definition linear_solver := R -> vec -> option vec.

(** Krylov parameters (include/gCP/run_time_parameters.h). *)
(** include/gCP/run_time_parameters.h:782-830. *)
Record krylov := mk_krylov { kr_relative : R; kr_absolute : R }.
(** solve.cc:1069-1073, 1227-1231, 1397-1402 and 1422-1427. *)
Definition krylov_tolerance (k : krylov) (rhs_norm : R) : R :=
  Rmax (rhs_norm * kr_relative k) (kr_absolute k).

(** solve.cc:1062-1067 (start from the last update), 1081-1160, 1168-1174: the solve of the
    whole system; an exception ends in std::abort (utilities.cc:16-44). *)
Definition solve_linearized (solver : linear_solver) (k : krylov) (c : constraints) (n : nat)
  (f last_update : vec) : result vec :=
  match solver (krylov_tolerance k (norm n f)) last_update with
  | None => Throw
  | Some x => Ok (distribute c x)
  end.
(** solve.cc:1211-1217 (start from zero), 1233-1317, 1322-1331: one diagonal block. *)
Definition solve_block (solver : linear_solver) (k : krylov) (c : constraints) (n : nat)
  (f : vec) : result vec :=
  match solver (krylov_tolerance k (norm n f)) (fun _ => 0) with
  | None => Throw
  | Some x => Ok (distribute c x)
  end.

(** Blocks of the Jacobian, solve.cc:1380-1395: [D] (mm x mm), [E] (mm x ms), [F] (ms x mm),
    [G] (ms x ms). *)
Record blocks := mk_blocks {
  bl_m : nat; bl_s : nat;
  bl_D : nat -> nat -> R; bl_E : nat -> nat -> R; bl_F : nat -> nat -> R; bl_G : nat -> nat -> R
}.
Definition mv (n : nat) (A : nat -> nat -> R) (x : vec) : vec := fun i => sumn n (fun j => A i j * x j).
(** solve.cc:1418-1420: the operator [D - E * inv_G * F] applied to [x], for an operator
    [inv_G] given as a function. *)
Definition reduced_operator (b : blocks) (inv_G : vec -> vec) (x : vec) : vec :=
  fun i => mv (bl_m b) (bl_D b) x i - mv (bl_s b) (bl_E b) (inv_G (mv (bl_m b) (bl_F b) x)) i.
(** solve.cc:1447: [x] is the macroscopic update found for the macroscopic residual; the
    microscopic block of the update is zero (1375, 1456-1458). *)
Definition solves_reduced (b : blocks) (inv_G : vec -> vec) (r_macro x : vec) : Prop :=
  forall i, (i < bl_m b)%nat -> reduced_operator b inv_G x i = r_macro i.
