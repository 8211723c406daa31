(** * What C99 means. *)
From Verif Require Import Num Tensors ModelElastic SpecElastic ModelMicro SpecMicro ModelHistory ModelInterface ModelFEField ModelActiveSet ModelLinear SpecLinear ModelAssembly SpecAssembly
  ModelSolver ModelSweep ModelStep ModelBody SpecBody SpecTangent SpecRun SpecEnergy SpecStiffness.
Open Scope R_scope.

(** How far two solutions [x], [y] of a step are apart, with their internal variables [rx], [ry]:
    the work the differences of stresses do on the differences of elastic strains, the
    differences of the microstresses on those of slip gradients and slips. *)
Definition apart (b : body) (old x y : vec) (rx ry : rank_data) : R :=
  lsum (fun c => let k := b_crystal b c in let e := b_element b c in let d := cr_dim k in
    let X := local_values b x c in let Y := local_values b y c in let O := local_values b old c in
    sumn (el_nq e) (fun q => el_w e q *
      (cr_N k 3 / cr_N k 0 *
        (let D := msub (elastic_strain_of b (macro_of b) x c q) (elastic_strain_of b (macro_of b) y c q) in ddot d D (c4 d (cr_C k) D))
       + cr_N k 2 * sumn (cr_ns k) (fun a =>
           dot d (vsub (slip_gradient_at e X q a) (slip_gradient_at e Y q a))
             (fun i => val (vectorial_microstress (cr_factor k) (cr_p k) d (cr_dir k a) (cr_ort k a) (slip_gradient_at e X q a) i)
                     - val (vectorial_microstress (cr_factor k) (cr_p k) d (cr_dir k a) (cr_ort k a) (slip_gradient_at e Y q a) i)))
       + sumn (cr_ns k) (fun a => (slip_at e X q a - slip_at e Y q a) *
           (scalar_microstress (cr_law k) (slip_at e X q a) (slip_at e O q a) (resistances_of rx c q a) (cr_dt k)
            - scalar_microstress (cr_law k) (slip_at e Y q a) (slip_at e O q a) (resistances_of ry c q a) (cr_dt k))))))
    (b_cells b).

(** The slip systems of a point do not harden each other: perfect plasticity, no latent
    hardening or a single slip system. *)
Definition no_latent_hardening (b : body) (h : rank_data) : Prop := forall c q, In c (b_cells b) -> (q < b_nq b)%nat ->
  let p := prm (r_bulk h c q) in
  flag_perfect_plasticity p = true \/ hardening_parameter p = 0 \/ (b_ns b <= 1)%nat.
(** Internal variables of the step for the trial solution [x]. *)
Definition trial_histories (b : body) (old x : vec) (h : rank_data) : rank_data := body_update b old x (body_store b h).
(** Positive weights and elastic constants, and viscous slip. *)
Definition strict_grains (b : body) : Prop := forall c, In c (b_cells b) ->
  let k := b_crystal b c in let d := cr_dim k in
  sl_rate_independent (cr_law k) = false /\ 0 < cr_N k 3 / cr_N k 0 /\
  (forall q, (q < b_nq b)%nat -> 0 < el_w (b_element b c) q) /\
  (forall A, symmetric d A -> ddot d A (c4 d (cr_C k) A) = 0 -> forall i j, (i < d)%nat -> (j < d)%nat -> A i j = 0).
(** [x] and [y] satisfy the same (inhomogeneous) constraints as far as [k] tells: they differ by a
    motion that respects the homogeneous constraints [k]. *)
Definition same_supports (b : body) (k : constraints) (x y : vec) : Prop := SpecLinear.admissible (b_ndofs b) k (increment x y).
(** Exact equilibrium. *)
Definition solves_step (b : body) (old : vec) (h : rank_data) (k : constraints) (x : vec) : Prop :=
  forall w, SpecLinear.admissible (b_ndofs b) k w -> virtual_power b old x (trial_histories b old x h) w = 0.
