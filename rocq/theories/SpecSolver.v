(** * What C46-C49 mean. *)
From Verif Require Import Num ModelFEField ModelActiveSet ModelSolver.
Open Scope R_scope.

(** A residual norm is a number (not inf, not NaN) below the tolerance. *)
Definition converged (norm : xr) (tol : R) : Prop := exists r, norm = Fin r /\ 0 <= r < tol.

(** The residual stored in the state is the one of the trial solution and internal variables
    in the state: internal variables were updated and the residual assembled after the last
    change of the trial solution. *)
Definition evaluated {S} (o : ops S) (s : S) : Prop :=
  exists x, s = assemble_res o (update_internal o x).
(** Started from an evaluated state, as every caller does, the line searches hand back an
    evaluated state (line_search: ModelLineSearch, C05; shown for the concrete solver state in
    PropStep). *)
Definition searches_evaluate {S} (o : ops S) : Prop :=
  (forall s s', evaluated o s -> search_mono o s = Ok s' -> evaluated o s') /\
  (forall s s', evaluated o s -> search_macro o s = Ok s' -> evaluated o s') /\
  (forall s s', evaluated o s -> search_micro o s = Ok s' -> evaluated o s').

(** The rules for calling the subroutines.  [current]: the internal variables belong to the
    trial solution; [jac]: a jacobian has been assembled (from current internal variables);
    [res]: the stored residual belongs to the trial solution and internal variables.  The
    linear solvers may misbehave ([UB]) only without a jacobian or a residual, the line
    searches only without a residual. *)
Record calling_rules {S} (o : ops S) (current jac res : S -> Prop) : Prop := {
  r_update : forall s, current (update_internal o s);
  r_current_sets : forall s, current s -> current (recompute_sets o s);
  r_current_all : forall s, current s -> current (all_active o s);
  r_current_affine : forall s, current s -> current (distribute_affine o s);
  r_current_jac : forall s, current s -> current (assemble_jac o s);
  r_current_res : forall s, current s -> current (assemble_res o s);
  r_system : forall s, current s -> jac (assemble_system o s) /\ res (assemble_system o s);
  r_jac : forall s, current s -> jac (assemble_jac o s);
  r_res : forall s, current s -> res (assemble_res o s);
  (* a jacobian once assembled stays usable while only the displacements are iterated *)
  k_store : forall s, jac s -> jac (store_trial o s);
  k_update : forall s, jac s -> jac (update_internal o s);
  k_res : forall s, jac s -> jac (assemble_res o s);
  k_solve : forall s s', solve_macro o s = Ok s' -> jac s -> jac s';
  k_apply : forall s, jac s -> jac (apply_macro o s);
  k_search : forall s s', search_macro o s = Ok s' -> jac s -> jac s';
  (* assembling the jacobian does not touch the residual *)
  k_keep : forall s, res s -> res (assemble_jac o s);
  (* the line searches leave a matching residual *)
  s_mono : forall s s', res s -> search_mono o s = Ok s' -> res s';
  s_macro : forall s s', res s -> search_macro o s = Ok s' -> res s';
  s_micro : forall s s', res s -> search_micro o s = Ok s' -> res s';
  u_mono : forall s, jac s -> res s -> solve_mono o s <> UB;
  u_macro : forall s, jac s -> res s -> solve_macro o s <> UB;
  u_micro : forall s, jac s -> res s -> solve_micro o s <> UB;
  u_reduced : forall s, jac s -> res s -> solve_reduced o s <> UB;
  u_search_mono : forall s, res s -> search_mono o s <> UB;
  u_search_macro : forall s, res s -> search_macro o s <> UB;
  u_search_micro : forall s, res s -> search_micro o s <> UB
}.

(** Limits on the recorded iterations. *)
Definition within_limits (p : solver_parameters) (loops : nat) (e : event) : Prop :=
  match e with
  | MonoIt n => (1 <= n <= mono_n_max p)%nat
  | MacroIt l n => (1 <= l <= loops)%nat /\ (1 <= n <= macro_n_max p)%nat
  | MicroIt l n => (1 <= l <= loops)%nat /\ (1 <= n <= micro_n_max p)%nat
  end.

(** Only the active-set computation changes the active set. *)
Definition active_set_only_changed_by_recompute {S} (o : ops S) : Prop :=
  (forall s, the_active_set o (store_trial o s) = the_active_set o s) /\
  (forall s, the_active_set o (update_internal o s) = the_active_set o s) /\
  (forall s, the_active_set o (assemble_system o s) = the_active_set o s) /\
  (forall s, the_active_set o (assemble_jac o s) = the_active_set o s) /\
  (forall s, the_active_set o (assemble_res o s) = the_active_set o s) /\
  (forall s s', solve_macro o s = Ok s' -> the_active_set o s' = the_active_set o s) /\
  (forall s s', solve_micro o s = Ok s' -> the_active_set o s' = the_active_set o s) /\
  (forall s s', solve_reduced o s = Ok s' -> the_active_set o s' = the_active_set o s) /\
  (forall s, the_active_set o (apply_macro o s) = the_active_set o s) /\
  (forall s, the_active_set o (apply_micro o s) = the_active_set o s) /\
  (forall s s', search_macro o s = Ok s' -> the_active_set o s' = the_active_set o s) /\
  (forall s s', search_micro o s = Ok s' -> the_active_set o s' = the_active_set o s) /\
  (forall s, the_active_set o (reset_micro_to_initial o s) = the_active_set o s).

(** A field that is linear in time at every dof. *)
Definition linear_in_time (u : R -> vec) : Prop :=
  exists a b : vec, forall t d, u t d = a d + b d * t.
(** The field satisfies (homogeneous or not) constraint lines at time [t]. *)
Definition satisfies (c : constraints) (x : vec) : Prop :=
  forall d es b, c d = Some (es, b) -> x d = fold_left (fun acc e => acc + snd e * x (fst e)) es b.
