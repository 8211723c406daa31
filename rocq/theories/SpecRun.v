(** * What C94 means: the internal variables as functions of the accepted solutions. *)
From Verif Require Import Num Tensors ModelHistory SpecHistory ModelCohesive SpecCohesive ModelInterface ModelAssembly
  ModelSolver ModelSweep ModelStep ModelBody SpecBody SpecTangent.
Open Scope R_scope.

(** The slip of system [a] and the (mixed-mode) opening of the interface to [n] at points of
    the cell [c], for the solution [x]. *)
Definition slip_of (b : body) (x : vec) (c q a : nat) : R := slip_at (b_element b c) (local_values b x c) q a.
Definition opening_of (b : body) (x : vec) (c n q : nat) : R :=
  mixed_opening (ratio (b_cohesive b)) (b_dim b) (fa_n (b_face b c n) q)
    (opening_at (b_face b c n) (local_values b x c) (local_values b x n) q).

(** The hardening of system [a] accumulated by the solutions [xs], one after the other from
    [old], on the bodies [bs]: sum over the steps of the textbook increment. *)
Fixpoint accumulated_hardening (modulus coupling : R) (ns : nat) (bs : list body) (xs : list vec) (old : vec) (c q a : nat) : R :=
  match bs, xs with
  | b :: bs', x :: xs' =>
      hardening_increment modulus coupling ns a (fun i => slip_of b x c q i - slip_of b old c q i) +
      accumulated_hardening modulus coupling ns bs' xs' x c q a
  | _, _ => 0
  end.
(** The largest opening the solutions [xs] had (0 if none opened). *)
Fixpoint largest_opening (bs : list body) (xs : list vec) (c n q : nat) : R :=
  match bs, xs with
  | b :: bs', x :: xs' => Rmax (opening_of b x c n q) (largest_opening bs' xs' c n q)
  | _, _ => 0
  end.
(** The damage after the largest opening [mx]: 1 - (1 + x) exp(-x) with x = mx / critical. *)
Definition damage_after (zero : bool) (mx critical : R) : R :=
  if zero then 0 else 1 - (1 + mx / critical) * exp (- (mx / critical)).

(** A run from the freshly set up body: [steps] with their bodies, [acc] the accepted states. *)
Definition run_from_setup (sp : solver_parameters) (a : algorithm) (fuel : nat) (b0 : body) (steps : list (body * (env rank_data * timing)))
  (r0 : rank_data) (oo : vec) (s : sstate rank_data) (acc : list (sstate rank_data)) : Prop :=
  (forall b e t, In (b, (e, t)) steps -> consistent b /\ exponential_damage_only b /\ works_on e b /\
     e_finish e = body_finish b /\ same_points b0 b /\ two_sided b) /\
  NoDup (b_cells b0) /\ (forall k q, r_face r0 k q = i_construct) /\ st_hist s = sweep_all b0 Initialise r0 /\
  (rate_independent sp = false \/ a <> Monolithic) /\
  exists o, run sp a fuel (map snd steps) oo s = (o, acc).
