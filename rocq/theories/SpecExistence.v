(** * What C109 means. *)
From Verif Require Import Num Tensors ModelMicro ModelHistory ModelInterface ModelFEField ModelActiveSet ModelLinear SpecLinear ModelAssembly
  ModelSweep ModelShear SpecShear SpecMicro ModelBody SpecBody SpecTangent SpecEnergy SpecStiffness SpecUnique.
Open Scope R_scope.

(** The body is driven by its supports and the macroscopic strain alone: no body forces, no
    prescribed tractions. *)
Definition no_dead_loads (b : body) : Prop := forall c, In c (b_cells b) ->
  (forall q i, cr_supply (b_crystal b c) q i = 0) /\ b_loads b c = [].
(** Every slip system hardens with its own slip. *)
Definition all_systems_harden (b : body) (h : rank_data) : Prop := forall c q, In c (b_cells b) -> (q < b_nq b)%nat ->
  flag_perfect_plasticity (prm (r_bulk h c q)) = false /\ 0 < linear_hardening_modulus (prm (r_bulk h c q)) / char_res (r_bulk h c q).

(** The conditions on the body [b] of one step, its supports [c] and their homogeneous version [k]. *)
Definition stable_step (frames : nat -> frame) (p0 : interface) (b : body) (c k : constraints) : Prop :=
  SpecBody.consistent b /\ two_sided b /\ b_decohesion b = false /\ stable_material b (macro_of b) /\ stable_interfaces b frames p0 /\ strict_grains b /\
  homogeneous_version c k /\ closed_below (b_ndofs b) k /\ held_in_place b k.
(** Solutions [X] and internal variables [H] of [n] time steps that are solved exactly, one after the other. *)
Definition exact_history (n : nat) (bodies : nat -> body) (c k : nat -> constraints) (X : nat -> vec) (H : nat -> rank_data) : Prop :=
  forall i, (i < n)%nat -> obeys (c i) (X (S i)) /\ solves_step (bodies i) (X i) (H i) (k i) (X (S i)) /\
    H (S i) = body_finish (bodies i) (X (S i)) (trial_histories (bodies i) (X i) (X (S i)) (H i)).
