(** * The parameter file of the infinite strip problem: its manual.

    For every entry of the file: where it stands, which values are admitted, the default, and
    the parameter of the program it controls (with the condition under which the program looks
    at it at all). *)
From Coq Require Import ZArith QArith String List Bool.
From Verif Require Import Num ModelUtilities ModelLoading ModelSolver ModelParams.
Import ListNotations.
Open Scope string_scope.

Record doc := mk_doc {
  doc_key : key; doc_pattern : pattern; doc_default : text;
  doc_used : strip_prm -> bool;               (* does the program read the entry? *)
  doc_field : option (strip_prm -> text)      (* the parameter it controls, if any *)
}.
Definition always (_ : strip_prm) : bool := true.

(** The last assignment of an entry in a file counts; otherwise its default. *)
Fixpoint last_assignment (f : file) (k : key) : option text :=
  match f with
  | [] => None
  | (k', t) :: f => match last_assignment f k with
                    | Some t' => Some t'
                    | None => if key_eqb k k' then Some t else None
                    end
  end.
Definition value (f : file) (k : key) (dflt : text) : text :=
  match last_assignment f k with Some t => t | None => dflt end.
(** A text denotes a parameter: numbers by their value, anything else literally. *)
Definition denotes (t parameter : text) : Prop :=
  match parameter with TNum q => as_double t = Some q | _ => t = parameter end.

Definition Sol : string := "6. Solver parameters".
Definition Law : string := "Constitutive laws' parameters".
Definition Tem : string := "2. Temporal discretization parameters".
Definition Spa : string := "1. Spatial discretization parameters".
Definition Out : string := "4. Output parameters".
Definition Inp : string := "3. Input parameters".
Definition num_field (g : strip_prm -> Q) : option (strip_prm -> text) := Some (fun p => TNum (g p)).
Definition int_field (g : strip_prm -> Z) : option (strip_prm -> text) := Some (fun p => TInt (g p)).
Definition bool_field (g : strip_prm -> bool) : option (strip_prm -> text) := Some (fun p => TBool (g p)).
Definition str_field (g : strip_prm -> string) : option (strip_prm -> text) := Some (fun p => TStr (g p)).

Definition solver_of (p : strip_prm) : solver_prm := bp_solver (ip_basic p).
Definition laws_of (p : strip_prm) : laws_prm := sp_laws (solver_of p).

Definition regularization_name (r : regularization) : string :=
  match r with Atan => "atan" | Sqrt => "sqrt" | Gd => "gd" | Tanh => "tanh" | Erf => "erf" end.
Definition damage_name (m : damage_model) : string :=
  match m with DamageOrtizEtAl => "OrtizEtAl" | DamageM1 => "M1" end.
Definition solver_name (s : solver_type) : string :=
  match s with DirectSolver => "directsolver" | CG => "cg" | GMRES => "gmres" end.
Definition preconditioner_name (p : preconditioner) : string :=
  match p with BuiltIn => "built-in" | Block => "block" end.
Definition algorithm_name (a : algorithm) : string :=
  match a with Monolithic => "monolithic" | Bouncing => "bouncing" | Embracing => "embracing" end.
Definition gb_name (g : gb_condition) : string :=
  match g with Microhard => "microhard" | Microfree => "microfree" | Microtraction => "microtraction" end.
Definition loading_name (l : loading_type) : string :=
  match l with Monotonic => "monotonic" | Cyclic => "cyclic" end.
Definition control_name (c : control) : string :=
  match c with LoadControlled => "load_control" | DisplacementControlled => "displacement_control" end.

Definition law_docs : list doc :=
  let at_ s := [Sol; Law; s] in
  let Hk := at_ "Hooke-Law's parameters" in
  let Sc := at_ "Scalar microstress law's parameters" in
  let Ve := at_ "Vectorial microstress law's parameters" in
  let Co := at_ "Cohesive law's parameters" in
  let Ha := at_ "Hardening law's parameters" in
  let Da := at_ "Damage evolution parameters" in
  [ mk_doc (Hk, "C1111") (at_least 0) (TNum 134615) always (num_field (fun p => hk_1111 (lw_hooke (laws_of p))));
    mk_doc (Hk, "C1122") (at_least 0) (TNum (576923 # 10)) always (num_field (fun p => hk_1122 (lw_hooke (laws_of p))));
    mk_doc (Hk, "C1212") (at_least 0) (TNum (384615 # 10)) always (num_field (fun p => hk_1212 (lw_hooke (laws_of p))));
    mk_doc (Sc, "Regularization function") (PSelection ["atan"; "sqrt"; "gd"; "tanh"; "erf"]) (TStr "tanh") always
      (str_field (fun p => regularization_name (sm_function (lw_scalar (laws_of p)))));
    mk_doc (Sc, "Regularization parameter") (at_least 0) (TNum (3 # 10000)) always
      (num_field (fun p => sm_parameter (lw_scalar (laws_of p))));
    mk_doc (Sc, "Rate-independent behavior") PBool (TBool false) always
      (bool_field (fun p => sm_rate_independent (lw_scalar (laws_of p))));
    mk_doc (Ve, "Energetic length scale") (at_least 0) (TNum 0) always
      (num_field (fun p => vm_length (lw_vectorial (laws_of p))));
    mk_doc (Ve, "Initial slip resistance") (at_least 0) (TNum 0) always
      (num_field (fun p => vm_resistance (lw_vectorial (laws_of p))));
    mk_doc (Ve, "Defect energy index") (at_least 1) (TNum 2) always
      (num_field (fun p => vm_index (lw_vectorial (laws_of p))));
    mk_doc (Ve, "Regularization parameter") (at_least 0) (TNum (1 # 1000000)) always
      (num_field (fun p => vm_regularization (lw_vectorial (laws_of p))));
    mk_doc (at_ "Microtraction law's parameters", "Grain boundary modulus") (at_least 0) (TNum 0) always
      (num_field (fun p => lw_microtraction (laws_of p)));
    mk_doc (Co, "Cohesive law model") (PSelection ["OrtizEtAl"]) (TStr "OrtizEtAl") always
      (str_field (fun _ => "OrtizEtAl"));
    mk_doc (Co, "Critical cohesive traction") (at_least 0) (TNum 700) always
      (num_field (fun p => co_traction (lw_cohesive (laws_of p))));
    mk_doc (Co, "Critical opening displacement") (at_least 0) (TNum (25 # 1000)) always
      (num_field (fun p => co_opening (lw_cohesive (laws_of p))));
    mk_doc (Co, "Tangential to normal stiffness ratio") (at_least 0) (TNum 1) always
      (num_field (fun p => co_ratio (lw_cohesive (laws_of p))));
    mk_doc (at_ "Contact law's parameters", "Penalty coefficient") (at_least 0) (TNum 100) always
      (num_field (fun p => lw_contact (laws_of p)));
    mk_doc (at_ "Degradation function parameters", "Degradation exponent") (at_least 0) (TNum 1) always
      (num_field (fun p => lw_degradation (laws_of p)));
    mk_doc (Ha, "Initial slip resistance") (at_least 0) (TNum 0) always
      (num_field (fun p => hd_resistance (lw_hardening (laws_of p))));
    mk_doc (Ha, "Linear hardening modulus") (at_least 0) (TNum 500) always
      (num_field (fun p => hd_modulus (lw_hardening (laws_of p))));
    mk_doc (Ha, "Hardening parameter") (at_least 0) (TNum (14 # 10)) always
      (num_field (fun p => hd_parameter (lw_hardening (laws_of p))));
    mk_doc (Ha, "Perfect plasticity") PBool (TBool false) always
      (bool_field (fun p => hd_perfect (lw_hardening (laws_of p))));
    mk_doc (Da, "Damage evolution model") (PSelection ["OrtizEtAl"; "M1"]) (TStr "M1") always
      (str_field (fun p => damage_name (da_model (lw_damage (laws_of p)))));
    mk_doc (Da, "Damage accumulation constant") (at_least 0) (TNum 1) always
      (num_field (fun p => da_accumulation (lw_damage (laws_of p))));
    mk_doc (Da, "Damage decay constant") (at_least 0) (TNum 0) always
      (num_field (fun p => da_decay (lw_damage (laws_of p))));
    mk_doc (Da, "Damage decay exponent") (at_least 0) (TNum 1) always
      (num_field (fun p => da_exponent (lw_damage (laws_of p))));
    mk_doc (Da, "Endurance limit") (at_least 0) (TNum 0) always
      (num_field (fun p => da_endurance (lw_damage (laws_of p))));
    mk_doc (Da, "Set damage to zero") PBool (TBool false) always
      (bool_field (fun p => da_zero (lw_damage (laws_of p))));
    mk_doc (Da, "Couple microtraction to damage") PBool (TBool true) always
      (bool_field (fun p => da_couple_micro (lw_damage (laws_of p))));
    mk_doc (Da, "Couple macrotraction to damage") PBool (TBool false) always
      (bool_field (fun p => da_couple_macro (lw_damage (laws_of p)))) ].

(** The three subsections of a nonlinear solver below [P]. *)
Definition nonlinear_docs (P : list string) (used : strip_prm -> bool) (s : strip_prm -> nonlinear_prm) : list doc :=
  let Ne := (P ++ ["Newton-Raphson parameters"])%list in
  let Li := (P ++ ["Line search parameters"])%list in
  let Kr := (P ++ ["Krylov parameters"])%list in
  [ mk_doc (Ne, "Relative tolerance of the residual") (at_least 0) (TNum (1 # 1000000)) used
      (num_field (fun p => np_relative (nl_newton (s p))));
    mk_doc (Ne, "Absolute tolerance of the residual") (at_least 0) (TNum (1 # 100000000)) used
      (num_field (fun p => np_absolute (nl_newton (s p))));
    mk_doc (Ne, "Absolute tolerance of the step") (at_least 0) (TNum (1 # 100000000)) used
      (num_field (fun p => np_step (nl_newton (s p))));
    mk_doc (Ne, "Maximum number of iterations") (PInteger 1) (TInt 15) used
      (int_field (fun p => np_max (nl_newton (s p))));
    mk_doc (Ne, "Line search algorithm") PBool (TBool true) used
      (bool_field (fun p => np_line_search (nl_newton (s p))));
    mk_doc (Li, "Alpha condition constant") (PDouble (Some 0%Q) (Some 1%Q)) (TNum (1 # 10000)) used
      (num_field (fun p => lp_alpha (nl_line_search (s p))));
    mk_doc (Li, "Beta condition constant") (PDouble (Some 0%Q) (Some 1%Q)) (TNum (9 # 10)) used
      (num_field (fun p => lp_beta (nl_line_search (s p))));
    mk_doc (Li, "Maximum number of iterations") (PInteger 0) (TInt 15) used
      (int_field (fun p => lp_max (nl_line_search (s p))));
    mk_doc (Kr, "Solver type") (PSelection ["directsolver"; "cg"; "gmres"]) (TStr "cg") used
      (str_field (fun p => solver_name (kp_type (nl_krylov (s p)))));
    mk_doc (Kr, "Relative tolerance") (at_least 0) (TNum (1 # 1000000)) used
      (num_field (fun p => kp_relative (nl_krylov (s p))));
    mk_doc (Kr, "Absolute tolerance") (at_least 0) (TNum (1 # 100000000)) used
      (num_field (fun p => kp_absolute (nl_krylov (s p))));
    mk_doc (Kr, "Maximum number of iterations") (PInteger 1) (TInt 1000) used
      (int_field (fun p => kp_max (nl_krylov (s p)))) ].

Definition is_monolithic (p : strip_prm) : bool :=
  match sp_algorithm (solver_of p) with Monolithic => true | _ => false end.
Definition is_staggered (p : strip_prm) : bool := negb (is_monolithic p).
Definition is_dimensionless (p : strip_prm) : bool := dl_on (sp_dimensionless (solver_of p)).

Definition Mono : list string := [Sol; "Monolithic algorithm"].
Definition Stag : list string := [Sol; "Staggered algorithm"].
Definition StagU : list string := [Sol; "Staggered algorithm"; "Linear momentum balance"].
Definition StagS : list string := [Sol; "Staggered algorithm"; "Pseudo-balance"].

Definition solver_docs : list doc :=
  let Di := [Sol; "Dimensionless formulation parameters"] in
  let Re := [Sol; "Dimensionless formulation parameters"; "Reference parameters"] in
  (nonlinear_docs Mono is_monolithic (fun p => mo_solver (sp_monolithic (solver_of p))) ++
  [ mk_doc (Mono, "Monolithic preconditioner") (PSelection ["built-in"; "block"]) (TStr "built-in")
      is_monolithic (str_field (fun p => preconditioner_name (mo_preconditioner (sp_monolithic (solver_of p))))) ] ++
  nonlinear_docs StagU is_staggered (fun p => st_macro (sp_staggered (solver_of p))) ++
  nonlinear_docs StagS is_staggered (fun p => st_micro (sp_staggered (solver_of p))) ++
  [ mk_doc (Stag, "Maximum number of solution loops") (PInteger 2) (TInt 15) is_staggered
      (int_field (fun p => st_max_loops (sp_staggered (solver_of p))));
    mk_doc (Stag, "Reset trial solution at each micro loop") PBool (TBool true) is_staggered
      (bool_field (fun p => st_reset (sp_staggered (solver_of p))));
    mk_doc (Di, "Solve the dimensionless problem") PBool (TBool false) always
      (bool_field (fun p => dl_on (sp_dimensionless (solver_of p))));
    mk_doc (Re, "Reference length value") (at_least 0) (TNum 1) is_dimensionless
      (num_field (fun p => dl_length (sp_dimensionless (solver_of p))));
    mk_doc (Re, "Reference time value") (at_least 0) (TNum 1) is_dimensionless
      (num_field (fun p => dl_time (sp_dimensionless (solver_of p))));
    mk_doc (Re, "Reference displacement value") (at_least 0) (TNum 1) is_dimensionless
      (num_field (fun p => dl_displacement (sp_dimensionless (solver_of p))));
    mk_doc (Re, "Reference stiffness value") (at_least 0) (TNum 1) is_dimensionless
      (num_field (fun p => dl_stiffness (sp_dimensionless (solver_of p))));
    mk_doc (Re, "Reference slip resistance value") (at_least 0) (TNum 1) is_dimensionless
      (num_field (fun p => dl_slip_resistance (sp_dimensionless (solver_of p))));
    mk_doc ([Sol], "Solution algorithm") (PSelection ["monolithic"; "bouncing"; "embracing"]) (TStr "monolithic")
      always (str_field (fun p => algorithm_name (sp_algorithm (solver_of p))));
    mk_doc ([Sol], "Allow decohesion at grain boundaries") PBool (TBool false) always
      (bool_field (fun p => sp_decohesion (solver_of p)));
    mk_doc ([Sol], "Boundary conditions at grain boundaries")
      (PSelection ["microhard"; "microfree"; "microtraction"]) (TStr "microfree") always
      (str_field (fun p => gb_name (sp_gb (solver_of p))));
    mk_doc ([Sol], "Skip extrapolation of start value") PBool (TBool false) always
      (bool_field (fun p => sp_skip (solver_of p)));
    mk_doc ([Sol], "Skip extrapolation of start value at extrema") PBool (TBool false) always
      (bool_field (fun p => sp_skip_extrema (solver_of p)));
    mk_doc ([Sol], "Extrapolation factor") (at_least 0) (TNum 1) always
      (num_field (fun p => sp_factor (solver_of p)));
    mk_doc ([Sol], "Zero damage evolution during un- and loading") PBool (TBool false) always
      (bool_field (fun p => sp_zero_damage (solver_of p)));
    mk_doc ([Sol], "Print sparsity pattern") PBool (TBool false) always
      (bool_field (fun p => sp_print_sparsity (solver_of p)));
    mk_doc ([Sol], "Output debug fields") PBool (TBool false) always
      (bool_field (fun p => sp_debug_fields (solver_of p)));
    mk_doc ([Sol], "Verbose") PBool (TBool false) always (bool_field (fun p => sp_verbose (solver_of p))) ])%list.

Definition problem_docs : list doc :=
  let Lo := [Tem; "Simple loading"] in
  let Mo := [Tem; "Simple loading"; "Monotonic load parameters"] in
  let Cy := [Tem; "Simple loading"; "Cyclic load parameters"] in
  let Sp := [Spa; "Problem specific parameters"] in
  let Ho := ["5. Postprocessing parameters"; "Homogenization"] in
  let spatial p := bp_spatial (ip_basic p) in
  let temporal p := bp_temporal (ip_basic p) in
  let output p := bp_output (ip_basic p) in
  [ mk_doc ([Spa], "Spatial dimension") (PInteger 2) (TInt 2) always (int_field (fun p => sd_dim (spatial p)));
    mk_doc ([Spa], "Mapping - Polynomial degree") (PInteger 1) (TInt 1) always (int_field (fun p => sd_mapping (spatial p)));
    mk_doc ([Spa], "Mapping - Apply to interior cells") PBool (TBool false) always
      (bool_field (fun p => sd_mapping_interior (spatial p)));
    mk_doc ([Spa], "Number of global refinements") (PInteger 0) (TInt 0) always
      (int_field (fun p => sd_refinements (spatial p)));
    mk_doc ([Spa], "FE's polynomial degree - Displacements") (PInteger 1) (TInt 2) always
      (int_field (fun p => sd_degree_u (spatial p)));
    mk_doc ([Spa], "FE's polynomial degree - Slips") (PInteger 1) (TInt 1) always
      (int_field (fun p => sd_degree_slips (spatial p)));
    mk_doc (Sp, "Height of the strip") (at_least 0) (TNum 1) always (num_field ip_height);
    mk_doc (Sp, "Number of elements in y-direction") (PInteger 1) (TInt 100) always (int_field ip_elements);
    mk_doc (Sp, "Number of equally sized crystals in y-direction") (PInteger 1) (TInt 1) always
      (int_field ip_crystals);
    mk_doc ([Tem], "Start time") (at_least 0) (TNum 0) always (num_field (fun p => tp_start (temporal p)));
    mk_doc ([Tem], "End time") (at_least 0) (TNum 1) always (num_field (fun p => tp_end (temporal p)));
    mk_doc ([Tem], "Time step size") (at_least 0) (TNum (1 # 10)) always (num_field (fun p => tp_step (temporal p)));
    mk_doc (Lo, "Loading type") (PSelection ["monotonic"; "cyclic"]) (TStr "monotonic") always
      (str_field (fun p => loading_name (lo_type (ip_loading p))));
    mk_doc (Lo, "Maximum load") (at_least 0) (TNum 1) always (num_field (fun p => lo_max (ip_loading p)));
    mk_doc (Lo, "Minimum load") (at_least 0) (TNum 0) always (num_field (fun p => lo_min (ip_loading p)));
    mk_doc (Mo, "Duration of monotonic load") (at_least 0) (TNum 1) always
      (num_field (fun p => lo_duration_mono (ip_loading p)));
    mk_doc (Mo, "Number of steps during monotonic load") (PInteger 1) (TInt 20) always
      (int_field (fun p => lo_n_mono (ip_loading p)));
    mk_doc (Cy, "Duration of un- and loading phase") (at_least 0) (TNum 1) always
      (num_field (fun p => lo_duration (ip_loading p)));
    mk_doc (Cy, "Number of steps during un- and loading phase") (PInteger 1) (TInt 20) always
      (int_field (fun p => lo_n_load (ip_loading p)));
    mk_doc (Cy, "Period") (at_least 0) (TNum 1) always (num_field (fun p => lo_period (ip_loading p)));
    mk_doc (Cy, "Number of steps during a quarter cycle") (PInteger 1) (TInt 5) always
      (int_field (fun p => lo_n_quarter (ip_loading p)));
    mk_doc (Cy, "Number of cycles") (PInteger 0) (TInt 1) always (int_field (fun p => lo_n_cycles (ip_loading p)));
    mk_doc (Cy, "Skip unloading phase") PBool (TBool true) always
      (bool_field (fun p => lo_skip_unloading (ip_loading p)));
    (* the three path names get the suffix "_3d" under a condition: see C84_input_files *)
    mk_doc ([Inp], "Slip normals path name") PAnything
      (TStr "input/crystal_structure/symmetric_double_slip_system/slip_normals") always None;
    mk_doc ([Inp], "Slip directions path name") PAnything
      (TStr "input/crystal_structure/symmetric_double_slip_system/slip_directions") always None;
    mk_doc ([Inp], "Euler angles path name") PAnything
      (TStr "input/crystal_orientation/euler_angles_0_30") always None;
    mk_doc ([Out], "Graphical output directory") PAnything (TStr "results/default/") always
      (str_field (fun p => ou_directory (output p)));
    mk_doc ([Out], "Graphical output frequency") (PInteger 0) (TInt 1) always (int_field (fun p => ou_graphical (output p)));
    mk_doc ([Out], "Terminal output frequency") (PInteger 0) (TInt 1) always (int_field (fun p => ou_terminal (output p)));
    mk_doc ([Out], "Output damage variable field") PBool (TBool false) always (bool_field (fun p => ou_damage (output p)));
    mk_doc ([Out], "Output dimensionless quantities") PBool (TBool false) always
      (bool_field (fun p => ou_dimensionless (output p)));
    mk_doc ([Out], "Output fluctuations fields") PBool (TBool false) always
      (bool_field (fun p => ou_fluctuations (output p)));
    mk_doc ([Out], "Store checkpoints") PBool (TBool false) (fun _ => false) None;   (* never read *)
    mk_doc (Ho, "Compute homogenized quantities") PBool (TBool false) always
      (bool_field (fun p => ho_on (bp_homogenization (ip_basic p))));
    mk_doc (Ho, "Homogenization frequency") (PInteger 0) (TInt 1) always
      (int_field (fun p => ho_frequency (bp_homogenization (ip_basic p))));
    mk_doc ([], "Verbose") PBool (TBool false) always (bool_field (fun p => bp_verbose (ip_basic p)));
    mk_doc (["0. Infinite strip parameters (Extended in 1. and 2.)"; "Loading parameters"], "Control type")
      (PSelection ["load_control"; "displacement_control"]) (TStr "displacement_control") always
      (str_field (fun p => control_name (ip_control p))) ].

Definition manual : list doc := (law_docs ++ solver_docs ++ problem_docs)%list.

(** A file that only sets entries of the manual, to values they admit. *)
Definition well_formed (f : file) : Prop :=
  forall k t, In (k, t) f -> exists e, In e manual /\ doc_key e = k /\ matches (doc_pattern e) t = true.

(** The text in force for an entry, given the default of the manual. *)
Definition in_force (f : file) (k : key) : text :=
  match find (fun e => key_eqb k (doc_key e)) manual with
  | Some e => value f k (doc_default e)
  | None => TStr ""
  end.
Definition number (f : file) (k : key) : Q := match as_double (in_force f k) with Some q => q | None => 0%Q end.
Definition says (f : file) (k : key) (s : string) : Prop := in_force f k = TStr s.

(** What the constructor demands beyond the patterns. *)
Local Open Scope Q_scope.
Definition nonlinear_demands (f : file) (P : list string) : Prop :=
  let Ne := (P ++ ["Newton-Raphson parameters"])%list in
  let Li := (P ++ ["Line search parameters"])%list in
  let Kr := (P ++ ["Krylov parameters"])%list in
  0 < number f (Ne, "Absolute tolerance of the residual") < number f (Ne, "Relative tolerance of the residual") /\
  0 < number f (Kr, "Absolute tolerance") < number f (Kr, "Relative tolerance") /\
  0 < number f (Li, "Alpha condition constant") < number f (Li, "Beta condition constant") /\
  number f (Li, "Beta condition constant") < 1.
Definition demands (w : world) (f : file) : Prop :=
  let L s := [Sol; Law; s] in
  (0 < number f (L "Hooke-Law's parameters", "C1111") /\
   0 < number f (L "Hooke-Law's parameters", "C1122") /\
   0 < number f (L "Hooke-Law's parameters", "C1212")) /\
  0 < number f (L "Scalar microstress law's parameters", "Regularization parameter") /\
  0 < number f (L "Vectorial microstress law's parameters", "Regularization parameter") /\
  0 < number f ([Spa; "Problem specific parameters"], "Height of the strip") /\
  (in_force f ([Spa], "Spatial dimension") = TInt 2 \/ in_force f ([Spa], "Spatial dimension") = TInt 3) /\
  (says f ([Sol], "Solution algorithm") "monolithic" -> nonlinear_demands f Mono) /\
  (~ says f ([Sol], "Solution algorithm") "monolithic" -> nonlinear_demands f StagU /\ nonlinear_demands f StagS) /\
  (forall d, says f ([Out], "Graphical output directory") d ->
     w_exists w (d ++ "paraview/") = true \/ w_mkdir w (d ++ "paraview/") = true).
(** Additional demands of a debug build. *)
Definition debug_demands (f : file) : Prop :=
  let L s := [Sol; Law; s] in
  number f ([Tem], "Start time") < number f ([Tem], "End time") /\
  0 < number f ([Tem], "Time step size") /\
  number f ([Tem], "Start time") + number f ([Tem], "Time step size") <= number f ([Tem], "End time") /\
  0 < number f ([Tem; "Simple loading"; "Monotonic load parameters"], "Duration of monotonic load") /\
  0 < number f ([Tem; "Simple loading"; "Cyclic load parameters"], "Period") /\
  number f ([Tem; "Simple loading"], "Minimum load") < number f ([Tem; "Simple loading"], "Maximum load") /\
  number f (L "Hardening law's parameters", "Initial slip resistance") ==
    number f (L "Vectorial microstress law's parameters", "Initial slip resistance") /\
  (says f ([Sol], "Solution algorithm") "monolithic" ->
   says f (Mono, "Monolithic preconditioner") "built-in").

(** Parameters the rest of the program can work with, as far as the constructor looks. *)
Definition admissible_solver (s : nonlinear_prm) : Prop :=
  0 < np_absolute (nl_newton s) < np_relative (nl_newton s) /\ (1 <= np_max (nl_newton s))%Z /\
  0 < kp_absolute (nl_krylov s) < kp_relative (nl_krylov s) /\ (1 <= kp_max (nl_krylov s))%Z /\
  0 < lp_alpha (nl_line_search s) < lp_beta (nl_line_search s) /\ lp_beta (nl_line_search s) < 1 /\
  (0 <= lp_max (nl_line_search s))%Z.
Definition admissible (p : strip_prm) : Prop :=
  let l := laws_of p in
  (0 < hk_1111 (lw_hooke l) /\ 0 < hk_1122 (lw_hooke l) /\ 0 < hk_1212 (lw_hooke l)) /\
  0 < sm_parameter (lw_scalar l) /\
  (0 <= vm_length (lw_vectorial l) /\ 0 <= vm_resistance (lw_vectorial l) /\ 1 <= vm_index (lw_vectorial l) /\
   0 < vm_regularization (lw_vectorial l)) /\
  0 <= lw_microtraction l /\
  (0 <= co_traction (lw_cohesive l) /\ 0 <= co_opening (lw_cohesive l) /\ 0 <= co_ratio (lw_cohesive l)) /\
  0 <= lw_contact l /\ 0 <= lw_degradation l /\
  (0 <= hd_resistance (lw_hardening l) /\ 0 <= hd_modulus (lw_hardening l) /\ 0 <= hd_parameter (lw_hardening l)) /\
  (0 <= da_accumulation (lw_damage l) /\ 0 <= da_decay (lw_damage l) /\ 0 <= da_exponent (lw_damage l) /\
   0 <= da_endurance (lw_damage l)) /\
  admissible_solver (mo_solver (sp_monolithic (solver_of p))) /\
  admissible_solver (st_macro (sp_staggered (solver_of p))) /\
  admissible_solver (st_micro (sp_staggered (solver_of p))) /\
  (2 <= st_max_loops (sp_staggered (solver_of p)))%Z /\
  (sd_dim (bp_spatial (ip_basic p)) = 2%Z \/ sd_dim (bp_spatial (ip_basic p)) = 3%Z) /\
  (1 <= sd_degree_u (bp_spatial (ip_basic p)) /\ 1 <= sd_degree_slips (bp_spatial (ip_basic p)))%Z /\
  0 < ip_height p /\ (1 <= ip_elements p)%Z /\ (1 <= ip_crystals p)%Z /\
  (1 <= lo_n_mono (ip_loading p) /\ 1 <= lo_n_load (ip_loading p) /\ 1 <= lo_n_quarter (ip_loading p) /\
   0 <= lo_n_cycles (ip_loading p))%Z.
