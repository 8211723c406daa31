(** * Model of the nonlinear solution algorithms
    (source/gradient_crystal_plasticity/solve.cc:13-1039).

    The numerical subroutines are arbitrary functions on an arbitrary state ([ops]); what is
    modelled exactly is the control flow around them: iteration counters, convergence
    checks, active-set restarts, loops and the exceptions they raise.  Terminal/log/table
    output, timers and debug output are reduced to a log of the iterations performed.
    [fuel] bounds the number of turns of the outermost loop: [Running] means that the
    loop is still going on when the fuel is used up. *)
From Verif Require Import Num ModelFEField ModelActiveSet.
Open Scope R_scope.

(** RunTimeParameters read by the algorithms. *)
(** include/gCP/run_time_parameters.h:832-1190. *)
Record solver_parameters := mk_solver_parameters {
  rate_independent : bool;
  mono_n_max : nat;  mono_tol : R;  mono_line_search : bool;
  macro_n_max : nat; macro_tol : R; macro_line_search : bool;
  micro_n_max : nat; micro_tol : R; micro_line_search : bool;
  max_n_solution_loops : nat;
  reset_at_micro_loop : bool
}.

(** The subroutines called by the algorithms.  [squares] are the sums of squares of the
    displacement and slip parts of the residual currently stored (C42). *)
(** The member functions called in solve.cc:85-1039. *)
Record ops (S : Type) := mk_ops {
  store_trial : S -> S;                    (* store_trial_solution() *)
  update_internal : S -> S;                (* reset_and_update_internal_variables() *)
  recompute_sets : S -> S;                 (* active_set_algorithm(true), rate-independent *)
  all_active : S -> S;                     (* active_set_algorithm, rate-dependent *)
  the_active_set : S -> list nat;          (* locally_owned_active_set *)
  distribute_affine : S -> S;
  assemble_system : S -> S;                (* assemble_linear_system() *)
  assemble_jac : S -> S;                   (* assemble_jacobian() *)
  assemble_res : S -> S;                   (* assemble_residual() *)
  solve_mono : S -> result S;              (* solve_linearized_system *)
  solve_macro : S -> result S;             (* solve_decoupled_linearized_subsystem(Macro) *)
  solve_micro : S -> result S;
  solve_reduced : S -> result S;           (* solve_reduced_linearized_system *)
  apply_mono : S -> S;                     (* update_trial_solution(1.0) *)
  apply_macro : S -> S;
  apply_micro : S -> S;
  search_mono : S -> result S;             (* line_search_algorithm *)
  search_macro : S -> result S;
  search_micro : S -> result S;
  reset_to_initial : S -> S;               (* reset_trial_solution(true) *)
  reset_micro_to_initial : S -> S;         (* reset_trial_solution(true, Micro) *)
  squares : S -> xr * xr
}.
Arguments store_trial {S}. Arguments update_internal {S}. Arguments recompute_sets {S}.
Arguments all_active {S}. Arguments the_active_set {S}. Arguments distribute_affine {S}.
Arguments assemble_system {S}. Arguments assemble_jac {S}. Arguments assemble_res {S}.
Arguments solve_mono {S}. Arguments solve_macro {S}. Arguments solve_micro {S}.
Arguments solve_reduced {S}. Arguments apply_mono {S}. Arguments apply_macro {S}.
Arguments apply_micro {S}. Arguments search_mono {S}. Arguments search_macro {S}.
Arguments search_micro {S}. Arguments reset_to_initial {S}.
Arguments reset_micro_to_initial {S}. Arguments squares {S}.

(** fe_field.cc:605-700: residual_l2_norms[0], [1], and residual_l2_norms.l2_norm(). *)
Definition norm_macro {S} (o : ops S) (s : S) : xr := xsqrt (fst (squares o s)).
Definition norm_micro {S} (o : ops S) (s : S) : xr := xsqrt (snd (squares o s)).
Definition norm_total {S} (o : ops S) (s : S) : xr :=
  xsqrt (xadd (xmul (norm_macro o s) (norm_macro o s)) (xmul (norm_micro o s) (norm_micro o s))).

(** active_set.cc:11-38: the call with its flag (see ModelActiveSet). *)
Definition call_active_set {S} (o : ops S) (p : solver_parameters) (flag : bool) (s : S)
  : S * bool :=
  if rate_independent p then (if flag then (recompute_sets o s, false) else (s, flag))
  else (all_active o s, flag).

Definition maybe_search {S} (b : bool) (f : S -> result S) (s : S) : result S :=
  if b then f s else Ok s.

Inductive event := MonoIt (n : nat) | MacroIt (loop n : nat) | MicroIt (loop n : nat).
Inductive outcome (S : Type) := Done (s : S) | Thrown | Undefined | Running.
Arguments Done {S} s. Arguments Thrown {S}. Arguments Undefined {S}. Arguments Running {S}.

(** solve.cc:194-252: one Newton iteration up to the convergence check. *)
Definition mono_iteration {S} (o : ops S) (p : solver_parameters) (flag : bool) (s : S)
  : result (S * bool) :=
  let '(s, flag) := call_active_set o p flag (update_internal o (store_trial o s)) in
  rbind (solve_mono o (assemble_system o (distribute_affine o s))) (fun s =>
  rbind (maybe_search (mono_line_search p) (search_mono o)
           (assemble_res o (update_internal o (apply_mono o s)))) (fun s =>
  Ok (s, flag))).

(** solve.cc:153-335, monolithic_algorithm: the do-while loop entered with the counter
    [it] = nonlinear_iteration. *)
Fixpoint mono_loop {S} (o : ops S) (p : solver_parameters) (fuel it : nat) (flag : bool) (s : S)
  (log : list event) : outcome S * list event :=
  match fuel with
  | O => (Running, log)
  | Datatypes.S fuel' =>
      let it := (it + 1)%nat in
      if Nat.leb it (mono_n_max p) then
        match mono_iteration o p flag s with
        | Throw => (Thrown, log)
        | UB => (Undefined, log)
        | Ok (s1, flag1) =>
            let log := log ++ [MonoIt it] in
            if xltb (norm_total o s1) (Fin (mono_tol p)) then
              if rate_independent p then
                let original := the_active_set o s1 in
                let '(s2, flag2) := call_active_set o p true s1 in
                if list_eq_dec Nat.eq_dec original (the_active_set o s2)
                then (Done s2, log)
                else mono_loop o p fuel' 0 flag2 (reset_to_initial o s2) log
              else (Done s1, log)
            else mono_loop o p fuel' it flag1 s1 log
        end
      else (Thrown, log)
  end.
Definition monolithic_algorithm {S} (o : ops S) (p : solver_parameters) (fuel : nat) (s : S) :=
  mono_loop o p fuel 0 true s [].

(** solve.cc:490-571: one micro iteration (bouncing). *)
Definition micro_iteration {S} (o : ops S) (p : solver_parameters) (s : S) : result S :=
  rbind (solve_micro o (assemble_system o (update_internal o (store_trial o s)))) (fun s =>
  maybe_search (micro_line_search p) (search_micro o)
    (assemble_res o (update_internal o (apply_micro o s)))).

(** solve.cc:476-572 and 895-1003: the micro do-while loop with [left] iterations left
    before the AssertThrow fires ([it] is the counter value). *)
Fixpoint micro_loop {S} (o : ops S) (p : solver_parameters) (loop left it : nat) (s : S)
  (log : list event) : outcome S * list event :=
  match left with
  | O => (Thrown, log)
  | Datatypes.S left' =>
      match micro_iteration o p s with
      | Throw => (Thrown, log)
      | UB => (Undefined, log)
      | Ok s1 =>
          let log := log ++ [MicroIt loop (it + 1)] in
          if xltb (norm_micro o s1) (Fin (micro_tol p)) then (Done s1, log)
          else micro_loop o p loop left' (it + 1) s1 log
      end
  end.

(** solve.cc:622-704: one macro iteration (bouncing).  The branch
    [macro_nonlinear_iteration == 0] of line 632 is dead: the counter has just been
    increased. *)
Definition macro_iteration {S} (o : ops S) (p : solver_parameters) (it : nat) (s : S) : result S :=
  let s := update_internal o (store_trial o s) in
  let s := if Nat.eqb it 1 then assemble_jac o s else s in
  rbind (solve_macro o (assemble_res o s)) (fun s =>
  maybe_search (macro_line_search p) (search_macro o)
    (assemble_res o (update_internal o (apply_macro o s)))).

(** solve.cc:340-711, bouncing_algorithm: the do-while loop; [mit], [mloop], [uloop] are the
    counters macro_nonlinear_iteration, macro_loop_counter, micro_loop_counter, [fmicro] is
    flag_successful_micro_convergence. *)
Fixpoint bounce {S} (o : ops S) (p : solver_parameters) (fuel mit mloop uloop : nat)
  (fmicro : bool) (s : S) (log : list event) : outcome S * list event :=
  match fuel with
  | O => (Running, log)
  | Datatypes.S fuel' =>
      let fmacro :=
        if andb (Nat.eqb mloop 1) (Nat.eqb mit 0) then false
        else xltb (norm_macro o s) (Fin (macro_tol p)) in
      if fmacro then
        if fmicro then (Done s, log)
        else
          let uloop := (uloop + 1)%nat in
          let '(s1, _) := call_active_set o p true s in
          let s2 := distribute_affine o s1 in
          let s3 := if reset_at_micro_loop p then reset_micro_to_initial o s2 else s2 in
          match micro_loop o p uloop (micro_n_max p) 0 s3 log with
          | (Done s4, log) =>
              let mloop := (mloop + 1)%nat in
              if Nat.leb mloop (max_n_solution_loops p)
              then bounce o p fuel' 0 mloop uloop true s4 log
              else (Thrown, log)
          | (r, log) => (r, log)
          end
      else
        let mit := (mit + 1)%nat in
        if Nat.leb mit (macro_n_max p) then
          match macro_iteration o p mit s with
          | Throw => (Thrown, log)
          | UB => (Undefined, log)
          | Ok s1 => bounce o p fuel' mit mloop uloop false s1 (log ++ [MacroIt mloop mit])
          end
        else (Thrown, log)
  end.
Definition bouncing_algorithm {S} (o : ops S) (p : solver_parameters) (fuel : nat) (s : S) :=
  bounce o p fuel 0 1 0 false s [].

(** solve.cc:799-885: the macro part of an embracing iteration. *)
Definition embrace_macro {S} (o : ops S) (p : solver_parameters) (it : nat) (s : S) : result S :=
  let s := assemble_jac o s in
  rbind (if Nat.eqb it 1 then solve_macro o s else solve_reduced o s) (fun s =>
  maybe_search (macro_line_search p) (search_macro o)
    (assemble_res o (update_internal o (apply_macro o s)))).

(** solve.cc:764-776: re-evaluation of the residual at the head of the loop. *)
Definition reevaluate {S} (o : ops S) (s : S) : S :=
  assemble_res o (update_internal o (store_trial o s)).

(** solve.cc:716-1039, embracing_algorihtm: the do-while loop. *)
Fixpoint embrace {S} (o : ops S) (p : solver_parameters) (fuel mit : nat) (flag fmicro : bool)
  (s : S) (log : list event) : outcome S * list event :=
  match fuel with
  | O => (Running, log)
  | Datatypes.S fuel' =>
      let s := reevaluate o s in
      let fmacro := xltb (norm_macro o s) (Fin (macro_tol p)) in
      if andb fmacro fmicro then (Done s, log)
      else
        let mit := (mit + 1)%nat in
        if Nat.leb mit (macro_n_max p) then
          match embrace_macro o p mit s with
          | Throw => (Thrown, log)
          | UB => (Undefined, log)
          | Ok s1 =>
              let log := log ++ [MacroIt 1 mit] in
              let '(s2, flag) := call_active_set o p flag s1 in
              let s3 := if reset_at_micro_loop p then reset_micro_to_initial o s2 else s2 in
              match micro_loop o p mit (micro_n_max p) 0 s3 log with
              | (Done s4, log) => embrace o p fuel' mit flag true s4 log
              | (r, log) => (r, log)
              end
          end
        else (Thrown, log)
  end.
Definition embracing_algorithm {S} (o : ops S) (p : solver_parameters) (fuel : nat) (s : S) :=
  embrace o p fuel 0 true false (distribute_affine o s) [].

(** ** Extrapolation: solve.cc:13-65. *)
Definition step_size_ratio (step_number : nat) (factor next_dt previous_dt : R) : R :=
  if Nat.ltb 0 step_number then factor * next_dt / previous_dt else 1.
(** [sadd(s, a, V)]: this = s * this + a * V. *)
(** solve.cc:44 and 49. *)
Definition sadd (x : vec) (s a : R) (v : vec) : vec := fun d => s * x d + a * v d.
(** solve.cc:13-82. *)
Definition extrapolate (step_number : nat) (factor next_dt previous_dt : R) (skip : bool)
  (hanging newton : constraints) (old old_old : vec) : vec * vec :=
  let r := step_size_ratio step_number factor next_dt previous_dt in
  let trial := if skip then old else sadd old (1 + r) (- r) old_old in
  let update := if skip then old else sadd old (-1) 1 trial in
  (distribute hanging trial, distribute newton update).

(** solve.cc:111-140: choice of the algorithm; an unknown value runs none (the Assert is
    debug-only). *)
Inductive algorithm := Monolithic | Bouncing | Embracing.
Definition solve_nonlinear {S} (o : ops S) (p : solver_parameters) (a : algorithm) (fuel : nat)
  (s : S) : outcome S :=
  fst (match a with
       | Monolithic => monolithic_algorithm o p fuel s
       | Bouncing => bouncing_algorithm o p fuel s
       | Embracing => embracing_algorithm o p fuel s
       end).
