(** * What C110 means. *)
From Verif Require Import Num Tensors ModelMicro SpecMicro ModelHistory ModelInterface ModelFEField ModelActiveSet ModelLinear SpecLinear ModelAssembly SpecAssembly
  ModelSolver ModelSweep ModelShear SpecShear ModelStep ModelBody SpecBody SpecTangent SpecEnergy SpecStiffness SpecUnique SpecExistence.
Open Scope R_scope.

(** The energy the difference of two states [x], [y] stores in the undamaged body: elastic energy of the
    difference of the elastic strains (the macroscopic strain cancels), defect energy of the
    difference of the slip gradients, interface energy of the difference of the slips. *)
Definition distance (b : body) (frames : nat -> frame) (x y : vec) : R :=
  stored_energy b frames (fun _ _ _ => 0) (increment x y) (mk_rank_data (fun _ _ => ModelHistory.construct (b_hardening b) 0) (fun _ _ => i_construct)).

(** Quadratic defect energy. *)
Definition quadratic_defect_energy (b : body) : Prop := forall c, In c (b_cells b) -> cr_p (b_crystal b c) = 2.
(** The slip systems have the same strength in both histories. *)
Definition same_strength (b : body) (h h' : rank_data) : Prop := forall c q, In c (b_cells b) -> (q < b_nq b)%nat ->
  prm (r_bulk h' c q) = prm (r_bulk h c q) /\ char_res (r_bulk h' c q) = char_res (r_bulk h c q) /\
  forall a, (a < b_ns b)%nat -> resistances_of h' c q a = resistances_of h c q a.
Definition perfectly_plastic (b : body) (h : rank_data) : Prop := forall c q, In c (b_cells b) -> (q < b_nq b)%nat ->
  flag_perfect_plasticity (prm (r_bulk h c q)) = true.
(** The same body under other body forces [supply] and boundary tractions [loads]. *)
Definition reloaded (b : body) (supply : nat -> nat -> vec) (loads : nat -> list neumann_face) : body :=
  mk_body (b_mesh b) (b_cells b) (b_ndofs b) (b_dofs b) (b_is_slip b) (b_element b)
    (fun c => let k := b_crystal b c in
       mk_crystal (cr_dim k) (cr_ns k) (cr_N k) (cr_C k) (cr_P k) (cr_law k) (cr_factor k) (cr_p k) (cr_dir k) (cr_ort k) (cr_macro k) (supply c) (cr_dt k))
    (b_face b) (b_interface b) loads (b_nq b) (b_nfq b) (b_dim b) (b_ns b) (b_decohesion b) (b_microtraction b)
    (b_hardening b) (b_char_resistance b) (b_iprm b) (b_cohesive b) (b_char_displacement b) (b_model b) (b_energy b).
(** How much the difference of the two states has changed: [x1] - [x2] minus [old1] - [old2]. *)
Definition drift (old1 old2 x1 x2 : vec) : vec := increment (increment x1 x2) (increment old1 old2).

(** Two runs on the same bodies: each step is a body with the environments (solvers, line searches, initial
    guesses) and clocks of both runs. *)
Definition pair_of_steps : Type := body * ((env rank_data * timing) * (env rank_data * timing)).
Definition first_run (steps : list pair_of_steps) : list (env rank_data * timing) := map (fun s => fst (snd s)) steps.
Definition second_run (steps : list pair_of_steps) : list (env rank_data * timing) := map (fun s => snd (snd s)) steps.
(** What the tolerances of both runs admit on the drift of their solutions, step by step. *)
Fixpoint tolerances (sp1 : solver_parameters) (a1 : algorithm) (sp2 : solver_parameters) (a2 : algorithm)
  (bs : list body) (acc1 acc2 : list (sstate rank_data)) (old1 old2 : vec) : R :=
  match bs, acc1, acc2 with
  | b :: bs', r1 :: acc1', r2 :: acc2' =>
      let w := drift old1 old2 (st_trial r1) (st_trial r2) in
      tolerated sp1 a1 b w + tolerated sp2 a2 b w + tolerances sp1 a1 sp2 a2 bs' acc1' acc2' (st_trial r1) (st_trial r2)
  | _, _, _ => 0
  end.
