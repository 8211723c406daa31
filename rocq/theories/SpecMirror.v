(** * What C104 means: the reversed test. *)
From Coq Require Import ZArith.
From Verif Require Import Num ModelElastic ModelMicro ModelCohesive ModelHistory ModelFEField ModelActiveSet ModelSolver ModelLoading ModelShear ModelProgram SpecProgram
  ModelLinear ModelAssembly ModelInterface ModelSweep ModelStep ModelBody SpecBody ModelTangent.
Open Scope R_scope.

(** Reversed values; prescribed values reversed; a state with all solution vectors reversed (the
    histories, slip resistances, active sets and residual norms are the same). *)
Definition reverse (x : vec) : vec := fun d => - x d.
Definition reverse_lines (k : constraints) : constraints := fun d => match k d with Some (es, z) => Some (es, - z) | None => None end.
Definition reverse_result (r : result vec) : result vec := match r with Ok x => Ok (reverse x) | Throw => Throw | UB => UB end.
Definition reverse_state {H} (s : sstate H) : sstate H :=
  mk_sstate (st_active s) (st_inactive s) (reverse_lines (st_internal s)) (reverse (st_trial s)) (reverse (st_tmp s)) (reverse (st_initial s))
    (reverse (st_newton s)) (reverse (st_old s)) (st_hist s) (st_res s) (st_res_tmp s) (st_norms s).
Definition reverse_outcome {H} (o : outcome (sstate H)) : outcome (sstate H) := match o with Done s => Done (reverse_state s) | x => x end.

(** The iterations performed in a time step (the log of the algorithm). *)
Definition iterations {H} (e : env H) (sp : solver_parameters) (a : algorithm) (fuel : nat) (t : timing) (oo : vec) (s : sstate H) : list event :=
  snd (match a with
       | Monolithic => monolithic_algorithm (step_ops e) sp fuel (begin_step e t oo s)
       | Bouncing => bouncing_algorithm (step_ops e) sp fuel (begin_step e t oo s)
       | Embracing => embracing_algorithm (step_ops e) sp fuel (begin_step e t oo s)
       end).

(** The body with reversed body forces, tractions and macroscopic strain. *)
Definition reverse_crystal (c : crystal) : crystal :=
  mk_crystal (cr_dim c) (cr_ns c) (cr_N c) (cr_C c) (cr_P c) (cr_law c) (cr_factor c) (cr_p c) (cr_dir c) (cr_ort c)
    (fun i j => - cr_macro c i j) (fun q i => - cr_supply c q i) (cr_dt c).
Definition reverse_load (f : neumann_face) : neumann_face := mk_neumann_face (nf_nq f) (nf_w f) (nf_phi f) (fun q i => - nf_traction f q i).
Definition reverse_body (b : body) : body :=
  mk_body (b_mesh b) (b_cells b) (b_ndofs b) (b_dofs b) (b_is_slip b) (b_element b) (fun c => reverse_crystal (b_crystal b c)) (b_face b) (b_interface b)
    (fun c => map reverse_load (b_loads b c)) (b_nq b) (b_nfq b) (b_dim b) (b_ns b) (b_decohesion b) (b_microtraction b) (b_hardening b)
    (b_char_resistance b) (b_iprm b) (b_cohesive b) (b_char_displacement b) (b_model b) (b_energy b).
(** The grain boundaries do not open (their resistance to opening and to closing differs). *)
Definition coherent (b : body) : Prop := b_decohesion b = false /\
  forall c n, In c (b_cells b) -> In n (gb_neighbours b c) -> if_decohesion (b_interface b c n) = false.

(** The same dofs, hardening parameters and blocks; reversed prescribed values. *)
Definition same_dofs {H} (e e' : env H) : Prop :=
  let q := e_problem e in let q' := e_problem e' in
  p_n_slips q' = p_n_slips q /\ p_hardening q' = p_hardening q /\ p_char_resistance q' = p_char_resistance q /\
  p_owned q' = p_owned q /\ p_owned_slip q' = p_owned_slip q /\ e_blocks e' = e_blocks e.
Definition reversed_values {H} (e e' : env H) : Prop :=
  let q := e_problem e in let q' := e_problem e' in
  p_affine q' = reverse_lines (p_affine q) /\ p_newton q' = reverse_lines (p_newton q) /\ p_hanging q' = reverse_lines (p_hanging q).
(** Linear solvers, microstress projection and line searches do not prefer a direction: they
    return reversed vectors and the same relaxation parameters and resistances when all values
    are reversed. *)
Definition no_preferred_direction {H} (e e' : env H) : Prop :=
  (forall act old x r, e_harden e' act (reverse old) (reverse x) r = e_harden e act old x r) /\
  forall s, e_microstress e' (reverse_state s) = reverse (e_microstress e s) /\
    e_solve_mono e' (reverse_state s) = reverse_result (e_solve_mono e s) /\
    e_solve_macro e' (reverse_state s) = reverse_result (e_solve_macro e s) /\
    e_solve_micro e' (reverse_state s) = reverse_result (e_solve_micro e s) /\
    e_solve_reduced e' (reverse_state s) = reverse_result (e_solve_reduced e s) /\
    e_lambdas_mono e' (reverse_state s) = e_lambdas_mono e s /\
    e_lambdas_macro e' (reverse_state s) = e_lambdas_macro e s /\
    e_lambdas_micro e' (reverse_state s) = e_lambdas_micro e s.
(** A solver called with the assembled matrix, the assembled right-hand side and the last update
    as first guess.  Krylov and direct solvers are odd in the last two. *)
Definition odd_solver (LS : result (list (nat * nat * R)) -> vec -> vec -> result vec) : Prop :=
  forall A f g, LS A (reverse f) (reverse g) = reverse_result (LS A f g).
Definition solves_assembled (b : body) (pattern : list (nat * nat)) (LS : result (list (nat * nat * R)) -> vec -> vec -> result vec)
  (solver : sstate rank_data -> result vec) : Prop :=
  forall s, solver s = LS (body_jacobian b (st_old s) (st_trial s) (st_hist s) pattern (st_internal s))
                          (body_residual b (st_old s) (st_trial s) (st_hist s) (st_internal s)) (st_newton s).

(** The shear test in the other direction: the maximal load reversed, everything else the same. *)
Definition reverse_loading (l : loading) : loading :=
  mk_loading (l_type l) (- l_max l) (- l_min l) (l_duration_mono l) (l_n_mono l) (l_duration l) (l_n_load l) (l_n_cycles l)
    (l_period l) (l_n_quarter l) (l_skip_unloading l).
Definition reverse_program {H} (p : program H) (env' : nat -> R -> env H) : program H :=
  mk_program (reverse_loading (pr_loading p)) (pr_frequency p) (pr_strip p) (pr_height p) (pr_char p) (pr_component p) (pr_factor p)
    (pr_parameters p) (pr_algorithm p) env'.
Definition reverse_accepted {H} (x : accepted H) : accepted H := mk_accepted (ac_record x) (reverse_state (ac_state x)).
