(** * What C119 means: the same problem with other names for the cells. *)
From Verif Require Import Num Tensors ModelElastic ModelMicro ModelCohesive ModelHistory ModelFEField ModelActiveSet ModelSolver ModelLoading ModelShear ModelProgram SpecProgram
  ModelLinear ModelAssembly ModelInterface ModelSweep SpecSweep ModelStep ModelBody SpecBody ModelTangent.
Open Scope R_scope.

(** Cell [c] is called [to c]; [of] leads back.  Names are compared: the interface between two
    cells is found under the smaller name first. *)
Definition naming (to of : nat -> nat) : Prop := (forall c, of (to c) = c) /\ forall c, to (of c) = c.
Definition named_mesh (to of : nat -> nat) (m : sweep_mesh) : sweep_mesh :=
  mk_sweep_mesh (fun c => sm_material m (of c)) (fun c => map (option_map to) (sm_faces m (of c))).
(** The body: everything known of cell [c] is known of the cell named [to c]. *)
Definition named_body (to of : nat -> nat) (b : body) : body :=
  mk_body (named_mesh to of (b_mesh b)) (map to (b_cells b)) (b_ndofs b) (fun c => b_dofs b (of c)) (b_is_slip b) (fun c => b_element b (of c)) (fun c => b_crystal b (of c))
    (fun c n => b_face b (of c) (of n)) (fun c n => b_interface b (of c) (of n)) (fun c => b_loads b (of c)) (b_nq b) (b_nfq b) (b_dim b) (b_ns b) (b_decohesion b)
    (b_microtraction b) (b_hardening b) (b_char_resistance b) (b_iprm b) (b_cohesive b) (b_char_displacement b) (b_model b)
    (fun x c n q => b_energy b x (of c) (of n) q).
(** The histories of the points of every cell, and of every interface, are the same. *)
Definition same_memory (to : nat -> nat) (h h' : rank_data) : Prop :=
  (forall c q, r_bulk h' (to c) q = r_bulk h c q) /\
  forall a c q, r_face h' (make_key (to a) (to c)) q = r_face h (make_key a c) q.
(** The same state of the solver, up to the histories. *)
Definition state_with {H} (HR : H -> H -> Prop) (s s' : sstate H) : Prop :=
  st_active s' = st_active s /\ st_inactive s' = st_inactive s /\ st_internal s' = st_internal s /\ st_trial s' = st_trial s /\ st_tmp s' = st_tmp s /\
  st_initial s' = st_initial s /\ st_newton s' = st_newton s /\ st_old s' = st_old s /\ HR (st_hist s) (st_hist s') /\ st_res s' = st_res s /\ st_res_tmp s' = st_res_tmp s /\ st_norms s' = st_norms s.
(** The same outcome. *)
Definition outcome_with {A} (Rel : A -> A -> Prop) (a b : outcome A) : Prop :=
  match a, b with Done s, Done s' => Rel s s' | Thrown, Thrown => True | Undefined, Undefined => True | Running, Running => True | _, _ => False end.
Definition run_with {H} (HR : H -> H -> Prop) (a b : outcome (vec * sstate H) * list (sstate H)) : Prop :=
  outcome_with (fun x y => fst y = fst x /\ state_with HR (snd x) (snd y)) (fst a) (fst b) /\ Forall2 (state_with HR) (snd a) (snd b).
(** Two time steps which differ in the names only: everything else is the same function of the
    state, read through the histories. *)
Definition same_but_names {H} (HR : H -> H -> Prop) (e e' : env H) : Prop :=
  e_problem e' = e_problem e /\ e_blocks e' = e_blocks e /\ e_harden e' = e_harden e /\
  forall s s', state_with HR s s' -> e_microstress e' s' = e_microstress e s /\
    e_solve_mono e' s' = e_solve_mono e s /\ e_solve_macro e' s' = e_solve_macro e s /\ e_solve_micro e' s' = e_solve_micro e s /\ e_solve_reduced e' s' = e_solve_reduced e s /\
    e_lambdas_mono e' s' = e_lambdas_mono e s /\ e_lambdas_macro e' s' = e_lambdas_macro e s /\ e_lambdas_micro e' s' = e_lambdas_micro e s.
Definition named_problem (to of : nat -> nat) (b : body) (e e' : env rank_data) : Prop :=
  works_on e b /\ e_finish e = body_finish b /\ works_on e' (named_body to of b) /\ e_finish e' = body_finish (named_body to of b) /\ same_but_names (same_memory to) e e'.
