(** * What C87-C89 mean. *)
From Verif Require Import Num SpecHistory ModelFEField ModelLineSearch ModelActiveSet ModelSolver ModelStep.
Open Scope R_scope.

Section Spec.
Context {H : Type}.

(** Updating the internal variables for a trial solution starts from the values committed at
    the end of the last step: earlier updates for other trial solutions leave no trace
    (C09 for the slip resistances, C15 for the exponential damage law). *)
Definition forgets_iterates (update : vec -> vec -> H -> H) : Prop :=
  forall old x y h, update old x (update old y h) = update old x h.

(** The run as if the accepted solution of every step had been known in advance: per step
    one commit, one update for the accepted solution, one final store. *)
Fixpoint replay_history (es : list (env H * timing)) (sols : list vec) (old : vec) (h : H) : H :=
  match es, sols with
  | (e, _) :: es', x :: sols' =>
      replay_history es' sols' x (e_finish e x (e_update e old x (e_store e h)))
  | _, _ => h
  end.
(** The same for the slip resistances kept at the dofs; [sols] also holds the active sets. *)
Fixpoint replay_resistance (es : list (env H * timing)) (sols : list (list nat * vec))
  (old g : vec) : vec :=
  match es, sols with
  | (e, _) :: es', (act, x) :: sols' =>
      replay_resistance es' sols' x (e_harden e act old x g)
  | _, _ => g
  end.

(** The norms of the residual of the solution [x], with the internal variables that belong
    to [x], meet the tolerance(s) of the algorithm. *)
Definition residual_within_tolerance (sp : solver_parameters) (a : algorithm) (e : env H)
  (old x : vec) (h : H) (c : constraints) : Prop :=
  exists u g, e_norms e old x (e_update e old x (e_store e h)) c = (Fin u, Fin g) /\
    0 <= u /\ 0 <= g /\
    match a with
    | Monolithic => sqrt (u + g) < mono_tol sp
    | Bouncing | Embracing => sqrt u < macro_tol sp /\ sqrt g < micro_tol sp
    end.

(** A slip dof that is allowed to slip: owned by the rank and without any constraint (no
    hanging node, boundary condition or periodicity). *)
Definition unconstrained_slip_dof (e : env H) (d : nat) : Prop :=
  In d (p_owned (e_problem e)) /\ In d (p_owned_slip (e_problem e)) /\
  p_affine (e_problem e) d = None /\ p_hanging (e_problem e) d = None.
End Spec.

(** Hardening summed over the steps: [sols] are the accepted solutions after [old]. *)
Fixpoint accumulated_hardening (modulus q : R) (ns alpha : nat) (interp : nat -> vec -> R)
  (old : vec) (sols : list vec) : R :=
  match sols with
  | [] => 0
  | x :: sols' =>
      hardening_increment modulus q ns alpha (fun b => interp b x - interp b old) +
      accumulated_hardening modulus q ns alpha interp x sols'
  end.
