(** * The solver object between its construction and its time steps
      (source/gradient_crystal_plasticity/gradient_crystal_plasticity_solver.cc:11-187,
      setup.cc:18-307, assembly.cc:743-748 and 1099-1146, solve.cc:85-148).

    What a program can do with the object: give it loads, initialise it, make time steps.
    Functions of the user (shared pointers to dealii::TensorFunction) are objects with a time of
    their own; they are named by numbers.
    Not modelled: the checks that are made in debug builds only (Assert), the objects used for
    output and timing, the members of the projection of the damage (C66). *)
From Coq Require Import List Arith.
From Verif Require Import Num Tensors ModelHistory ModelInterface ModelFEField ModelActiveSet ModelAssembly ModelSolver ModelSweep ModelStep ModelBody.
Import ListNotations.
Open Scope R_scope.

(** A boundary face of a cell as the assembly sees it: boundary id, quadrature points, test
    functions. *)
(** assembly.cc:1099-1146. *)
Record boundary_face := mk_boundary_face { bf_id : nat; bf_nq : nat; bf_w : nat -> R; bf_phi : nat -> nat -> vec; bf_point : nat -> vec }.
(** What does not change during the life of the object: the body without its loads, the places of
    the loads, the values of the user's functions (object, its time, point), the initial slip
    resistance of the dofs, the rest of the solver (ModelStep) for a given body. *)
(** gradient_crystal_plasticity_solver.cc:11-74, the references and parameters handed over. *)
Record given := mk_given {
  g_body : body;
  g_points : nat -> nat -> vec;             (* cell, point: fe_values.get_quadrature_points() *)
  g_faces : nat -> list boundary_face;      (* cell->face_iterators() with at_boundary() *)
  g_value : nat -> R -> vec -> vec;         (* TensorFunction::value at the object's time *)
  g_env : body -> env rank_data;
  g_parameters : solver_parameters;
  g_algorithm : algorithm
}.
(** The object, the objects it refers to and the clocks of the user's functions. *)
(** gradient_crystal_plasticity.h:180-400, data members. *)
Record solver := mk_solver {
  so_field : bool;                          (* fe_field->is_initialized() *)
  so_crystals : bool;                       (* crystals_data->is_initialized() *)
  so_init : bool;                           (* flag_init_was_called *)
  so_strain : nat -> nat -> R;              (* macroscopic_strain *)
  so_supply : option nat;                   (* supply_term *)
  so_neumann : nat -> option nat;           (* neumann_boundary_conditions *)
  so_clock : nat -> R;                      (* the time of the user's function objects *)
  so_state : sstate rank_data
}.
(** gradient_crystal_plasticity_solver.cc:11-187: the constructor (the field and the crystals
    may be set up later; the histories do not exist yet, [r0] stands for them). *)
Definition construct_solver (clock : nat -> R) (r0 : rank_data) : solver :=
  mk_solver false false false (fun _ _ => 0) None (fun _ => None) clock
    (mk_sstate [] [] no_constraints (fun _ => 0) (fun _ => 0) (fun _ => 0) (fun _ => 0) (fun _ => 0) r0 (fun _ => 0) (fun _ => 0) (Fin 0, Fin 0)).

(** ** Loads *)
(** set_time on a user's function. *)
(** assembly.cc:1116-1117. *)
Definition set_clock (k : nat -> R) (f : nat) (t : R) : nat -> R := fun g => if Nat.eqb g f then t else k g.
(** assembly.cc:1099-1106: the function of a boundary face, none if its id has none. *)
Definition face_function (s : solver) (f : boundary_face) : option nat := so_neumann s (bf_id f).
(** assembly.cc:1108-1146: set_time, then the tractions at the points. *)
Definition face_traction (g : given) (t : R) (f : boundary_face) (o : nat) : neumann_face :=
  mk_neumann_face (bf_nq f) (bf_w f) (bf_phi f) (fun q => g_value g o t (bf_point f q)).
Definition cell_tractions (g : given) (s : solver) (t : R) (c : nat) : list neumann_face :=
  flat_map (fun f => match face_function s f with Some o => [face_traction g t f o] | None => [] end) (g_faces g c).
(** assembly.cc:1116-1117: the clocks after the faces of a cell. *)
Definition cell_clock (g : given) (s : solver) (t : R) (k : nat -> R) (c : nat) : nat -> R :=
  fold_left (fun k f => match face_function s f with Some o => set_clock k o t | None => k end) (g_faces g c) k.
(** assembly.cc:743-748 and assembly_data.cc (supply_term_values starts as zeros): the body force
    at the points of a cell; set_time is not called. *)
Definition cell_supply (g : given) (s : solver) (k : nat -> R) (c q : nat) : vec :=
  match so_supply s with Some o => g_value g o (k o) (g_points g c q) | None => fun _ => 0 end.
(** The clocks when the loop over the cells arrives at [c]. *)
(** assembly.cc:640-690, the loop over the cells (one worker). *)
Fixpoint clock_before (g : given) (s : solver) (t : R) (k : nat -> R) (cells : list nat) (c : nat) : nat -> R :=
  match cells with
  | [] => k
  | c' :: rest => if Nat.eqb c' c then k else clock_before g s t (cell_clock g s t k c') rest c
  end.
(** assembly.cc:640-690: the clocks after an evaluation of the residual. *)
Definition clock_after (g : given) (s : solver) (t : R) (k : nat -> R) (cells : list nat) : nat -> R := fold_left (cell_clock g s t) cells k.
(** assembly.cc:770-775 and 850-855: what the loads are in the cell. *)
Definition under_loads (c : crystal) (strain : nat -> nat -> R) (supply : nat -> vec) : crystal :=
  mk_crystal (cr_dim c) (cr_ns c) (cr_N c) (cr_C c) (cr_P c) (cr_law c) (cr_factor c) (cr_p c) (cr_dir c) (cr_ort c) strain supply (cr_dt c).
Definition with_loads (b : body) (strain : nat -> nat -> R) (supply : nat -> nat -> vec) (tractions : nat -> list neumann_face) : body :=
  mk_body (b_mesh b) (b_cells b) (b_ndofs b) (b_dofs b) (b_is_slip b) (b_element b) (fun c => under_loads (b_crystal b c) strain (supply c)) (b_face b) (b_interface b)
    tractions (b_nq b) (b_nfq b) (b_dim b) (b_ns b) (b_decohesion b) (b_microtraction b) (b_hardening b)
    (b_char_resistance b) (b_iprm b) (b_cohesive b) (b_char_displacement b) (b_model b) (b_energy b).
(** assembly.cc:620-1150: the body as an evaluation of the residual for time [t] sees it. *)
Definition loaded (g : given) (s : solver) (t : R) : body :=
  with_loads (g_body g) (so_strain s)
    (fun c => cell_supply g s (clock_before g s t (so_clock s) (b_cells (g_body g)) c) c)
    (cell_tractions g s t).
(** assembly.cc:620-702: one evaluation of the residual for the trial solution [x]. *)
Definition evaluate (g : given) (s : solver) (t : R) (old x : vec) (r : rank_data) (cs : constraints) : vec * solver :=
  (body_residual (loaded g s t) old x r cs,
   mk_solver (so_field s) (so_crystals s) (so_init s) (so_strain s) (so_supply s) (so_neumann s)
     (clock_after g s t (so_clock s) (b_cells (g_body g))) (so_state s)).

(** ** Calls *)
(** setup.cc:18-307 (init, set_supply_term, set_neumann_boundary_condition, set_macroscopic_strain),
    solve.cc:85-148, dealii::Function::set_time, the set-up of the field and the crystals. *)
Inductive use :=
| SetUpField | SetUpCrystals
| SetStrain (strain : nat -> nat -> R)
| SetSupply (f : option nat)
| SetNeumann (id f : nat)
| SetTime (f : nat) (t : R)
| Initialize
| Solve (t : R) (tm : timing) (old old_old : vec).
(** setup.cc:34-55 and 185-275: vectors to zero, histories initialised (405-499), slip
    resistances of the dofs set; the old solution and the active sets are not touched.
    [reinit] zeroes tmp_slip_resistance (253-254). *)
Definition fresh_state (b : body) (s : sstate rank_data) : sstate rank_data :=
  mk_sstate (st_active s) (st_inactive s) (st_internal s) (fun _ => 0) (fun _ => 0) (fun _ => 0) (fun _ => 0) (st_old s)
    (sweep_all b Initialise (st_hist s))
    (if Nat.ltb 0 (b_ns b) then fun _ => initial_slip_resistance (b_hardening b) / b_char_resistance b else st_res s)
    (if Nat.ltb 0 (b_ns b) then fun _ => 0 else st_res_tmp s) (Fin 0, Fin 0).
(** setup.cc:18-275: init. *)
Definition initialize_solver (g : given) (s : solver) : result solver :=
  if andb (so_field s) (so_crystals s)
  then Ok (mk_solver (so_field s) (so_crystals s) true (so_strain s) (so_supply s) (so_neumann s) (so_clock s) (fresh_state (g_body g) (so_state s)))
  else Throw.
(** solve.cc:85-148.  The flag set by init is not read: without it the first loop over the
    histories (assembly.cc:1168-1190) reads a history that does not exist.  (Deviation: said of
    a process with at least one cell.)  The loads are those of the first evaluation of the
    residual. *)
Definition solve_with (g : given) (fuel : nat) (s : solver) (t : R) (tm : timing) (old old_old : vec) : outcome solver :=
  if so_init s then
    let u := so_state s in
    let start := mk_sstate (st_active u) (st_inactive u) (st_internal u) (st_trial u) (st_tmp u) (st_initial u) (st_newton u) old (st_hist u) (st_res u) (st_res_tmp u) (st_norms u) in
    match solve_nonlinear_system (g_env g (loaded g s t)) (g_parameters g) (g_algorithm g) fuel tm old_old start with
    | Done r => Done (mk_solver (so_field s) (so_crystals s) true (so_strain s) (so_supply s) (so_neumann s)
                        (clock_after g s t (so_clock s) (b_cells (g_body g))) r)
    | Thrown => Thrown | Undefined => Undefined | Running => Running
    end
  else Undefined.
(** One call; an exception of init may be caught and leaves the object as it was (the checks are
    its first statements); one of a time step ends the program. *)
(** simple_shear.cc:960-976. *)
Definition use_solver (g : given) (fuel : nat) (s : solver) (u : use) : outcome solver :=
  match u with
  | SetUpField => Done (mk_solver true (so_crystals s) (so_init s) (so_strain s) (so_supply s) (so_neumann s) (so_clock s) (so_state s))
  | SetUpCrystals => Done (mk_solver (so_field s) true (so_init s) (so_strain s) (so_supply s) (so_neumann s) (so_clock s) (so_state s))
  | SetStrain e => Done (mk_solver (so_field s) (so_crystals s) (so_init s) e (so_supply s) (so_neumann s) (so_clock s) (so_state s))
  | SetSupply f => Done (mk_solver (so_field s) (so_crystals s) (so_init s) (so_strain s) f (so_neumann s) (so_clock s) (so_state s))
  | SetNeumann id f => Done (mk_solver (so_field s) (so_crystals s) (so_init s) (so_strain s) (so_supply s)
                               (fun i => if Nat.eqb i id then Some f else so_neumann s i) (so_clock s) (so_state s))
  | SetTime f t => Done (mk_solver (so_field s) (so_crystals s) (so_init s) (so_strain s) (so_supply s) (so_neumann s) (set_clock (so_clock s) f t) (so_state s))
  | Initialize => match initialize_solver g s with Ok s' => Done s' | _ => Done s end
  | Solve t tm old oo => solve_with g fuel s t tm old oo
  end.
(** A program using the object. *)
(** simple_shear.cc:601-640 and 862-925. *)
Fixpoint use_all (g : given) (fuel : nat) (s : solver) (us : list use) : outcome solver :=
  match us with
  | [] => Done s
  | u :: rest => match use_solver g fuel s u with Done s' => use_all g fuel s' rest | x => x end
  end.
