(** * What C111 means. *)
From Verif Require Import Num Tensors SpecElastic ModelMicro ModelHistory ModelFEField ModelActiveSet ModelLinear SpecLinear ModelAssembly
  ModelSweep ModelShear SpecShear SpecMicro ModelBody SpecBody SpecTangent SpecEnergy SpecStiffness SpecUnique.
Open Scope R_scope.

(** The slip systems of the point harden, so that no stress is too high for them. *)
Definition hardens (b : body) (h : rank_data) (c q : nat) : Prop :=
  flag_perfect_plasticity (prm (r_bulk h c q)) = false /\ 0 < linear_hardening_modulus (prm (r_bulk h c q)) / char_res (r_bulk h c q).
(** Power of flow stresses [s] (per cell, point, slip system) on the slips of the motion [w]. *)
Definition flow_power (b : body) (s : nat -> nat -> nat -> R) (w : vec) : R :=
  lsum (fun c => let e := b_element b c in sumn (el_nq e) (fun q => el_w e q *
    sumn (cr_ns (b_crystal b c)) (fun a => s c q a * slip_at e (local_values b w c) q a))) (b_cells b).
(** The loads can be carried: in some state [z] at rest (it is its own old solution, so no slip
    rates and no dissipative stresses) what its stresses leave unbalanced of the loads is
    balanced by flow stresses, and those stay below the resistances of the systems that do not
    harden. *)
Definition loads_carried (b : body) (h : rank_data) (k : constraints) : Prop := exists (z : vec) (s : nat -> nat -> nat -> R),
  (forall c q a, In c (b_cells b) -> (q < b_nq b)%nat -> (a < b_ns b)%nat -> Rabs (s c q a) < resistances_of h c q a \/ hardens b h c q) /\
  forall w, SpecLinear.admissible (b_ndofs b) k w -> virtual_power b z z h w = flow_power b s w.

(** Power of the stresses of elastic strains [inc] on the elastic strains of the motion [w]; the strains [inc] need not be those of any displacements. *)
Definition strain_power (b : body) (inc : nat -> nat -> mat) (w : vec) : R :=
  lsum (fun c => let k := b_crystal b c in let e := b_element b c in let d := cr_dim k in sumn (el_nq e) (fun q => el_w e q * (cr_N k 3 / cr_N k 0 *
    ddot d (elastic_strain_of b (fun _ _ _ => 0) w c q) (c4 d (cr_C k) (inc c q))))) (b_cells b).
(** The loads can be supported by any stresses: as [loads_carried], but with stresses of incompatible strains [inc] added. *)
Definition loads_supported (b : body) (h : rank_data) (k : constraints) : Prop := exists (z : vec) (inc : nat -> nat -> mat) (s : nat -> nat -> nat -> R),
  (forall c q, In c (b_cells b) -> (q < b_nq b)%nat -> symmetric (cr_dim (b_crystal b c)) (inc c q)) /\
  (forall c q a, In c (b_cells b) -> (q < b_nq b)%nat -> (a < b_ns b)%nat -> Rabs (s c q a) < resistances_of h c q a \/ hardens b h c q) /\
  forall w, SpecLinear.admissible (b_ndofs b) k w -> virtual_power b z z h w = strain_power b inc w + flow_power b s w.

(** A mechanism: slips the elastic strains follow without stress, uniform in each cell, so not resisted by
    gradients, and no slip at the faces where interfaces resist it. *)
Definition mechanism (b : body) (k : constraints) (w : vec) : Prop :=
  SpecLinear.admissible (b_ndofs b) k w /\
  (forall c q, In c (b_cells b) -> (q < b_nq b)%nat ->
     (forall i j, (i < cr_dim (b_crystal b c))%nat -> (j < cr_dim (b_crystal b c))%nat -> elastic_strain_of b (fun _ _ _ => 0) w c q i j = 0) /\
     (forall a i, (a < b_ns b)%nat -> (i < cr_dim (b_crystal b c))%nat -> slip_gradient_at (b_element b c) (local_values b w c) q a i = 0)) /\
  (forall c n q a, In c (b_cells b) -> In n (gb_neighbours b c) -> (q < fa_nq (b_face b c n))%nat -> if_microtraction (b_interface b c n) = true -> (a < if_ns (b_interface b c n))%nat ->
     sumn (el_nd (b_element b c)) (fun i => local_values b w c i * fa_psi (b_face b c n) a i q) = 0).
(** The most the slip systems can dissipate in the motion [w]. *)
Definition flow_limit (b : body) (h : rank_data) (w : vec) : R :=
  lsum (fun c => let e := b_element b c in sumn (el_nq e) (fun q => el_w e q *
    sumn (cr_ns (b_crystal b c)) (fun a => resistances_of h c q a * Rabs (slip_at e (local_values b w c) q a)))) (b_cells b).
