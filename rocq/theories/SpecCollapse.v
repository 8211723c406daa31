(** * What C113 means. *)
From Verif Require Import Num Tensors SpecElastic ModelMicro ModelHistory ModelFEField ModelActiveSet ModelLinear SpecLinear ModelAssembly
  ModelSweep ModelShear SpecShear SpecMicro ModelBody SpecBody SpecTangent SpecEnergy SpecStiffness SpecUnique SpecExistence SpecLimit.
Open Scope R_scope.

(** A motion no state of the body resists with the stresses it stores (of elastic strains, slip gradients and interfaces):
    at rest, only the loads have power on it. *)
Definition effortless (b : body) (h : rank_data) (w : vec) : Prop := forall z, virtual_power b z z h w = load_work b w.
(** Slip systems that harden do not slip. *)
Definition hardening_at_rest (b : body) (h : rank_data) (w : vec) : Prop := forall c q a, In c (b_cells b) -> (q < b_nq b)%nat -> (a < b_ns b)%nat ->
  hardens b h c q -> slip_at (b_element b c) (local_values b w c) q a = 0.
(** A motion of the body its supports allow, that stores no energy and hardens nothing. *)
Definition free_motion (b : body) (h : rank_data) (k : constraints) (w : vec) : Prop :=
  SpecLinear.admissible (b_ndofs b) k w /\ (exists d, (d < b_ndofs b)%nat /\ w d <> 0) /\ effortless b h w /\ hardening_at_rest b h w.
(** A collapse: a free motion on which the loads do at least the work the slip systems can dissipate. *)
Definition collapse (b : body) (h : rank_data) (k : constraints) (w : vec) : Prop := free_motion b h k w /\ flow_limit b h w <= load_work b w.
