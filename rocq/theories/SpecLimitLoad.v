(** * What C112 means. *)
From Verif Require Import Num Tensors SpecElastic ModelMicro ModelHistory ModelFEField ModelActiveSet ModelLinear SpecLinear ModelAssembly
  ModelSweep ModelShear SpecShear SpecMicro ModelBody SpecBody SpecTangent SpecEnergy SpecStiffness SpecUnique SpecExistence.
Open Scope R_scope.

(** The time step has a solution that obeys its constraints. *)
Definition solvable (b : body) (old : vec) (h : rank_data) (c k : constraints) : Prop := exists x, obeys c x /\ solves_step b old h k x.
(** Two time steps of one solid on one mesh, with the same dofs supported: they may differ in loads, macroscopic
    strain, prescribed values and time step. *)
Definition same_but_loads (frames : nat -> frame) (p0 : interface) (b b' : body) (c c' k : constraints) : Prop :=
  same_solid b b' /\ b_ndofs b' = b_ndofs b /\ stable_step frames p0 b c k /\ stable_step frames p0 b' c' k.
(** The size of a motion. *)
Definition total_motion (b : body) (w : vec) : R := sumn (b_ndofs b) (fun d => Rabs (w d)).
