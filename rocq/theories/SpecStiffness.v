(** * What C96 means. *)
From Verif Require Import Num Tensors SpecMicro ModelMicro ModelCohesive SpecCohesive SpecElastic ModelHistory ModelInterface
  ModelFEField ModelActiveSet ModelLinear SpecLinear ModelAssembly ModelSweep ModelBody SpecBody.
Open Scope R_scope.

(** The interfaces have been opened before or have never been, and are damaged at most completely. *)
Definition sound_interfaces (b : body) (h : rank_data) : Prop := b_decohesion b = true ->
  forall c n q, In c (b_cells b) -> In n (gb_neighbours b c) -> (q < b_nfq b)%nat ->
  (0 < i_max (r_face h (make_key c n) q) \/ (i_max (r_face h (make_key c n) q) = 0 /\ i_old (r_face h (make_key c n) q) = 0)) /\ 0 <= val (i_damage (r_face h (make_key c n) q)) <= 1.
(** No point of an interface follows the falling part of the envelope: it unloads, or its opening
    is at most the critical one. *)
Definition no_softening (b : body) (x : vec) (h : rank_data) : Prop := b_decohesion b = true ->
  forall c n q, In c (b_cells b) -> In n (gb_neighbours b c) -> (q < b_nfq b)%nat ->
  let f := b_face b c n in
  let opening := mixed_opening (ratio (b_cohesive b)) (b_dim b) (fa_n f q) (opening_at f (local_values b x c) (local_values b x n) q) in
  opening < i_max (r_face h (make_key c n) q) \/ char_disp (b_cohesive b) * opening <= crit_opening (b_cohesive b).
(** Hardening, with a ratio of latent to self hardening of at most one. *)
Definition hardens (b : body) (h : rank_data) : Prop := forall c, In c (b_cells b) -> let l := cr_law (b_crystal b c) in
  0 < sl_chi l /\ 0 <= sl_H l /\ 0 <= sl_q l <= 1 /\
  forall q a, (q < b_nq b)%nat -> (a < b_ns b)%nat -> 0 <= resistances_of h c q a.

(** Viscous slip against positive resistances, positive definite elasticity, positive weights. *)
Definition definite_grains (b : body) (h : rank_data) : Prop := forall c, In c (b_cells b) ->
  let k := b_crystal b c in let d := cr_dim k in
  sl_rate_independent (cr_law k) = false /\ 0 < cr_N k 3 / cr_N k 0 /\
  (forall q, (q < b_nq b)%nat -> 0 < el_w (b_element b c) q) /\
  (forall q a, (q < b_nq b)%nat -> (a < b_ns b)%nat -> 0 < resistances_of h c q a) /\
  (forall A, symmetric d A -> ddot d A (c4 d (cr_C k) A) = 0 -> forall i j, (i < d)%nat -> (j < d)%nat -> A i j = 0).
(** The supports: only the motion at rest respects the constraints and leaves all points without
    strain and slip. *)
Definition held_in_place (b : body) (k : constraints) : Prop := forall v, SpecLinear.admissible (b_ndofs b) k v ->
  (forall c q, In c (b_cells b) -> (q < b_nq b)%nat ->
     (forall i j, (i < cr_dim (b_crystal b c))%nat -> (j < cr_dim (b_crystal b c))%nat -> strain_at (b_element b c) (local_values b v c) q i j = 0) /\
     (forall a, (a < b_ns b)%nat -> slip_at (b_element b c) (local_values b v c) q a = 0)) ->
  forall d, (d < b_ndofs b)%nat -> v d = 0.

(** [v] times the matrix times [x]. *)
Definition quadratic (n : nat) (K : nat -> nat -> R) (v x : vec) : R :=
  sumn n (fun r => v r * sumn n (fun s => K r s * x s)).
(** Every point of an interface has been opened, opens now, or has not moved yet. *)
Definition ever_opened (b : body) (x : vec) (h : rank_data) : Prop := b_decohesion b = true ->
  forall c n q, In c (b_cells b) -> In n (gb_neighbours b c) -> (q < b_nfq b)%nat ->
  let f := b_face b c n in
  0 < i_max (r_face h (make_key c n) q) \/ i_old (r_face h (make_key c n) q) = 0 \/
  0 < mixed_opening (ratio (b_cohesive b)) (b_dim b) (fa_n f q) (opening_at f (local_values b x c) (local_values b x n) q).
