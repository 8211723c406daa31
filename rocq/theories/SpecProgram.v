(** * What C97 means. *)
From Coq Require Import ZArith.
From Verif Require Import Num ModelFEField ModelLineSearch ModelActiveSet ModelSolver ModelLoading ModelShear SpecShear SpecLinear
  ModelInterface ModelSweep ModelStep ModelBody SpecBody ModelProgram.
Open Scope R_scope.

Section Spec.
Context {H : Type}.
(** Constraints of deal.II after close(): no entry of a line is itself constrained; a line
    relates displacements to displacements and slips to slips (the two blocks).  The monolithic
    algorithm works on a single block. *)
Definition well_formed_constraints (a : algorithm) (e : env H) : Prop :=
  lines_are_closed (p_affine (e_problem e)) /\
  (forall d es z d' w, p_affine (e_problem e) d = Some (es, z) -> In (d', w) es -> e_blocks e d' = e_blocks e d) /\
  (a = Monolithic -> forall d, e_blocks e d = Macro).
Definition well_formed_program (p : program H) : Prop :=
  forall k dt ts, well_formed_constraints (pr_algorithm p) (step_env p k dt ts).

(** The solution [x] at time [t] has the boundary values of the shear problem: every
    displacement dof of the upper boundary the load of its component, time times height times
    maximal load in units of the characteristic displacement; every displacement dof of the
    lower boundary and every slip dof of both boundaries zero. *)
Definition sheared (p : program H) (t : R) (x : vec) : Prop :=
  let m := pr_strip p in
  forall b, In b (s_boundary m) -> s_hanging m (b_dof b) = None ->
  (is_displacement_component m (b_comp b) -> b_id b = 3%nat ->
     x (b_dof b) = if Nat.eqb (b_comp b mod s_dim m) (pr_component p) then t * pr_height p * l_max (pr_loading p) / pr_char p else 0) /\
  (is_displacement_component m (b_comp b) -> b_id b = 2%nat ->
     (forall b', In b' (s_boundary m) -> b_dof b' = b_dof b -> b_id b' <> 3%nat) -> x (b_dof b) = 0) /\
  (is_slip_component m (b_comp b) -> b_id b = 2%nat \/ b_id b = 3%nat -> x (b_dof b) = 0).
End Spec.

(** The steps are made on the bodies [bodies k dt] (step number, step size): any meshes,
    materials and loads on the same points; the linear solvers are arbitrary. *)
Definition on_bodies (p : program rank_data) (bodies : nat -> R -> body) (b0 : body) : Prop :=
  forall k dt, SpecBody.consistent (bodies k dt) /\ exponential_damage_only (bodies k dt) /\ works_on (pr_env p k dt) (bodies k dt) /\
    e_finish (pr_env p k dt) = body_finish (bodies k dt) /\ same_points b0 (bodies k dt).
(** The bodies of the steps with the given times, from step number [k] at time [current]. *)
Fixpoint bodies_of (bodies : nat -> R -> body) (a : arith) (k : Z) (current : R) (times : list R) : list body :=
  match times with
  | [] => []
  | t :: ts => bodies (Z.to_nat k) (a_add a t (- current)) :: bodies_of bodies a (k + 1) t ts
  end.

(** The steps the time loop makes, for the given times of the accepted steps: each is solved with
    the constraints of the time solved for, the size of this step and of the step before it. *)
Fixpoint schedule {H} (p : program H) (a : arith) (k : Z) (current previous : R) (ts times : list R) : list (env H * timing) :=
  match times with
  | [] => []
  | t :: rest =>
      let dt := a_add a t (- current) in
      (step_env p (Z.to_nat k) dt (t :: ts), mk_timing (Z.to_nat k) (pr_factor p) dt previous (skip_extrapolation (pr_loading p) k))
        :: schedule p a (k + 1) t dt (t :: ts) rest
  end.
Definition times_of {H} (tr : list (accepted H)) : list R := map (fun x => ModelLoading.st_time (ac_record x)) tr.

(** The virtual motions of the shear problem: zero wherever a value is prescribed (upper and
    lower boundary, microhard faces), periodic and conforming where the solution is. *)
Definition virtual_motion {H} (p : program H) (b : body) (w : vec) : Prop := SpecLinear.admissible (b_ndofs b) (newton_of (pr_strip p)) w.
(** The accepted solutions [xs] on the bodies [bs] are in equilibrium, one after the other: the
    virtual power on every virtual motion is at most tolerance times size. *)
Fixpoint equilibrium_of_run {H} (p : program H) (bs : list body) (xs : list vec) (old : vec) (h : rank_data) : Prop :=
  match bs, xs with
  | [], [] => True
  | b :: bs', x :: xs' =>
      let iv := body_update b old x (body_store b h) in
      (forall w, virtual_motion p b w -> Rabs (virtual_power b old x iv w) <=
         match pr_algorithm p with
         | Monolithic => mono_tol (pr_parameters p) * size b w
         | _ => macro_tol (pr_parameters p) * displacement_size b w + micro_tol (pr_parameters p) * slip_size b w
         end) /\
      equilibrium_of_run p bs' xs' x (body_finish b x iv)
  | _, _ => False
  end.
