(** * The simple shear problem from the set-up to the last time step
      (applications/simple_shear.cc:296-348, 640-672, 845-925).

    The time loop of [ModelLoading], the constraints of [ModelShear] and the time step of
    [ModelStep] put together: what the step sees are the constraints as updated for the time it
    solves for, and the step sizes of the DiscreteTime object.
    Not modelled here: output to files (C55, C57, C83), timers, terminal output. *)
From Coq Require Import ZArith.
From Verif Require Import Num ModelFEField ModelLineSearch ModelActiveSet ModelSolver ModelLoading ModelShear ModelStep.
Open Scope R_scope.

Section Program.
Context {H : Type}.

(** The parameters and members read by run(); [pr_env k dt]: the subroutines of the solver in
    the step from step number [k] with step size [dt] (ModelStep.env; its constraints are
    replaced below). *)
(** simple_shear.cc:60-200, members; run_time_parameters.h:1332-1460. *)
Record program := mk_program {
  pr_loading : loading;
  pr_frequency : Z;                (* graphical_output_frequency *)
  pr_strip : strip;
  pr_height : R;
  pr_char : R;                     (* characteristic displacement *)
  pr_component : nat;              (* loaded component *)
  pr_factor : R;                   (* extrapolation factor *)
  pr_parameters : solver_parameters;
  pr_algorithm : algorithm;
  pr_env : nat -> R -> env H
}.
(** simple_shear.cc:328-338: displacement_control. *)
Definition pr_control (p : program) : displacement_control :=
  make_displacement_control (pr_loading p) (s_nc (pr_strip p)) (pr_height p) (s_decohesion (pr_strip p)) (pr_char p) (pr_component p).
(** The boundary function at time [t] (displacement_control->set_time(t)). *)
(** simple_shear.cc:888. *)
Definition control_time (p : program) (t : R) : (nat -> R) -> nat -> R := control_at (s_dim (pr_strip p)) (pr_control p) t.
(** The affine constraints after the updates for the times [ts] (latest first); the set-up
    (simple_shear.cc:340) has been made with the initial time 0 of dealii::Function. *)
(** simple_shear.cc:340, 369-612 and 891. *)
Definition affine_at (p : program) (ts : list R) : constraints :=
  affine_after (pr_strip p) (control_time p 0) (map (control_time p) ts).
(** The solver of the step with the constraints of the field. *)
(** gradient_crystal_plasticity.h:54-528, member fe_field. *)
Definition step_env (p : program) (k : nat) (dt : R) (ts : list R) : env H :=
  let e := pr_env p k dt in let q := e_problem e in
  mk_env (mk_problem (p_n_slips q) (p_rate_independent q) (p_hardening q) (p_char_resistance q) (p_owned q) (p_owned_slip q)
            (affine_at p ts) (newton_of (pr_strip p)) (s_hanging (pr_strip p)) (p_old_solution q) (p_slip_resistance q))
    (e_blocks e) (e_store e) (e_update e) (e_finish e) (e_harden e) (e_norms e) (e_microstress e) (e_solve_mono e) (e_solve_macro e)
    (e_solve_micro e) (e_solve_reduced e) (e_lambdas_mono e) (e_lambdas_macro e) (e_lambdas_micro e).

Inductive program_end := Completed | SolverAborted | FrequencyZero | Unfinished.
(** One accepted step: what the time loop records of it and the accepted state. *)
(** simple_shear.cc:897-925. *)
Record accepted := mk_accepted { ac_record : step_record; ac_state : sstate H }.

(** simple_shear.cc:862-925, the time loop of run().  [previous] is get_previous_step_size(),
    [ts] the times solved for so far, [inner] bounds the turns of the loops of a step, [fuel]
    the number of steps. *)
Fixpoint program_loop (p : program) (a : arith) (inner fuel : nat) (step : Z) (current previous : R) (ts : list R)
  (old_old : vec) (s : sstate H) : list accepted * program_end :=
  let l := pr_loading p in
  if Rltb current (end_time a l) then
    match fuel with
    | O => ([], Unfinished)
    | S fuel' =>
        let next := clipped_next a current (next_dt a l step) (end_time a l) in
        let dt := a_add a next (- current) in
        let t := mk_timing (Z.to_nat step) (pr_factor p) dt previous (skip_extrapolation l step) in
        match solve_nonlinear_system (step_env p (Z.to_nat step) dt (next :: ts)) (pr_parameters p) (pr_algorithm p) inner t old_old s with
        | Done r =>
            let '(oo, s') := shift_solutions r in
            if Z.eqb (pr_frequency p) 0 then ([], FrequencyZero)
            else
              let written := orb (Z.eqb ((step + 1) mod pr_frequency p) 0) (Reqb next (end_time a l)) in
              let '(tr, e) := program_loop p a inner fuel' (step + 1) next dt (next :: ts) oo s' in
              (mk_accepted (mk_step (step + 1) next written) r :: tr, e)
        | Running => ([], Unfinished)
        | _ => ([], SolverAborted)
        end
    end
  else ([], Completed).
(** simple_shear.cc:845-925, run() after the set-up has produced the state [s]. *)
Definition program_run (p : program) (a : arith) (inner fuel : nat) (old_old : vec) (s : sstate H) : list accepted * program_end :=
  program_loop p a inner fuel 0 start_time 0 [] old_old s.
End Program.
Arguments program H : clear implicits.
Arguments accepted H : clear implicits.
