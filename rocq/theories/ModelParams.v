(** * Model of the parameter file: declaration, reading and the checks on the values
      (source/run_time_parameters.cc; InfiniteStripProblem is the class used by
      applications/simple_shear.cc:990).

    deal.II's ParameterHandler is modelled from its documentation: entries live in nested
    subsections, every entry has a pattern and a default; a file that sets an undeclared entry
    or a value that does not match the pattern is rejected with an exception.  Texts are
    modelled by what they denote (a decimal number, an integer, a boolean, a string): the
    lexical analysis and the rounding of decimal literals to doubles are not modelled.
    [debug] tells whether the code was compiled in debug mode, where a failing [Assert] ends
    the program; this is modelled by [Throw], as an exception. *)
From Coq Require Import ZArith QArith String List Bool.
From Verif Require Import Num ModelUtilities ModelLoading ModelSolver.
Import ListNotations.
Open Scope string_scope.

(** ** ParameterHandler (external library) *)
(** dealii::ParameterHandler, e.g. run_time_parameters.cc:45-63: the value of an entry. *)
Inductive text := TNum (q : Q) | TInt (z : Z) | TBool (b : bool) | TStr (s : string).
(** dealii::Patterns, e.g. run_time_parameters.cc:48-63. *)
Inductive pattern :=
| PDouble (lower upper : option Q)      (* Patterns::Double *)
| PInteger (lower : Z)                  (* Patterns::Integer *)
| PBool | PSelection (options : list string) | PAnything. (* FileName, DirectoryName *)
(** Subsections and name of an entry, e.g. run_time_parameters.cc:46-48. *)
Definition key : Type := list string * string.
(** prm.get_double, e.g. run_time_parameters.cc:69. *)
Definition as_double (t : text) : option Q :=
  match t with TNum q => Some q | TInt z => Some (inject_Z z) | _ => None end.
(** Patterns::Double(min, max), e.g. run_time_parameters.cc:48-63. *)
Definition within (lower upper : option Q) (q : Q) : bool :=
  match lower with None => true | Some l => Qle_bool l q end &&
  match upper with None => true | Some u => Qle_bool q u end.
(** Patterns::PatternBase::match, e.g. run_time_parameters.cc:48-63. *)
Definition matches (p : pattern) (t : text) : bool :=
  match p with
  | PDouble lo up => match as_double t with Some q => within lo up q | None => false end
  | PInteger lo => match t with TInt z => Z.leb lo z && Z.leb z 2147483647 | _ => false end
  | PBool => match t with TBool _ => true | _ => false end
  | PSelection os => match t with TStr s => existsb (String.eqb s) os | _ => false end
  | PAnything => match t with TStr _ => true | _ => false end
  end.
(** Subsections as in run_time_parameters.cc:46. *)
Fixpoint path_eqb (a b : list string) : bool :=
  match a, b with
  | [], [] => true
  | x :: a, y :: b => String.eqb x y && path_eqb a b
  | _, _ => false
  end.
(** Entries as in run_time_parameters.cc:46-48. *)
Definition key_eqb (a b : key) : bool := path_eqb (fst a) (fst b) && String.eqb (snd a) (snd b).
(** A declared entry, e.g. run_time_parameters.cc:48-50. *)
Record declared := mk_declared { d_key : key; d_pattern : pattern; d_text : text }.
(** dealii::ParameterHandler prm, run_time_parameters.cc:2079-2130. *)
Record handler := mk_handler { h_path : list string; h_entries : list declared }.
(** ParameterHandler look-up, e.g. run_time_parameters.cc:69. *)
Definition lookup (k : key) (es : list declared) : option declared :=
  find (fun e => key_eqb k (d_key e)) es.
(** ParameterHandler assignment, run_time_parameters.cc:2110 (parse_input). *)
Fixpoint replace (k : key) (t : text) (es : list declared) : list declared :=
  match es with
  | [] => []
  | e :: es => if key_eqb k (d_key e) then mk_declared (d_key e) (d_pattern e) t :: es
               else e :: replace k t es
  end.
(** The content of a parameter file: the assignments in the order of the file. *)
(** The file opened in run_time_parameters.cc:2079-2110. *)
Definition file := list (key * text).
(** One line of the file parsed in run_time_parameters.cc:2110. *)
Definition set_entry (es : list declared) (a : key * text) : result (list declared) :=
  match lookup (fst a) es with
  | None => Throw
  | Some e => if matches (d_pattern e) (snd a) then Ok (replace (fst a) (snd a) es) else Throw
  end.
(** prm.parse_input, run_time_parameters.cc:2110. *)
Fixpoint parse_input (es : list declared) (f : file) : result (list declared) :=
  match f with
  | [] => Ok es
  | a :: f => rbind (set_entry es a) (fun es => parse_input es f)
  end.
(** print_parameters: every entry with its present value. *)
(** prm.print_parameters, run_time_parameters.cc:2104 and 2124. *)
Definition listing (es : list declared) : file := map (fun e => (d_key e, d_text e)) es.

(** A member function that works on a ParameterHandler. *)
(** The static/member functions of run_time_parameters.cc:36-2100. *)
Definition prog (A : Type) : Type := handler -> result (A * handler).
(** Sequencing of statements in run_time_parameters.cc:36-2100. *)
Definition ret {A} (a : A) : prog A := fun h => Ok (a, h).
(** Sequencing of statements in run_time_parameters.cc:36-2100. *)
Definition bind {A B} (p : prog A) (f : A -> prog B) : prog B :=
  fun h => match p h with Ok (a, h) => f a h | Throw => Throw | UB => UB end.
Notation "x <- p ;; q" := (bind p (fun x => q)) (at level 61, p at next level, right associativity).
Notation "p ;; q" := (bind p (fun _ => q)) (at level 61, right associativity).
(** prm.enter_subsection, e.g. run_time_parameters.cc:46. *)
Definition enter_subsection (s : string) : prog unit :=
  fun h => Ok (tt, mk_handler (h_path h ++ [s]) (h_entries h)).
(** prm.leave_subsection, e.g. run_time_parameters.cc:62. *)
Definition leave_subsection : prog unit :=
  fun h => match h_path h with
           | [] => Throw
           | _ => Ok (tt, mk_handler (removelast (h_path h)) (h_entries h))
           end.
(** [enter_subsection; body; leave_subsection]. *)
(** A subsection block, e.g. run_time_parameters.cc:46-62. *)
Definition inside {A} (s : string) (p : prog A) : prog A :=
  enter_subsection s ;; (a <- p ;; (leave_subsection ;; ret a)).
(** prm.declare_entry, e.g. run_time_parameters.cc:48-50. *)
Definition declare_entry (n : string) (dflt : text) (p : pattern) : prog unit :=
  fun h => if matches p dflt
           then Ok (tt, mk_handler (h_path h)
                  (match lookup (h_path h, n) (h_entries h) with
                   | Some _ => map (fun e => if key_eqb (h_path h, n) (d_key e)
                                             then mk_declared (h_path h, n) p dflt else e) (h_entries h)
                   | None => h_entries h ++ [mk_declared (h_path h, n) p dflt]
                   end))
           else Throw.
(** prm.get, e.g. run_time_parameters.cc:69. *)
Definition get_text (n : string) : prog text :=
  fun h => match lookup (h_path h, n) (h_entries h) with
           | Some e => Ok (d_text e, h)
           | None => Throw
           end.
(** prm.get_double, e.g. run_time_parameters.cc:69. *)
Definition get_double (n : string) : prog Q :=
  t <- get_text n ;; match as_double t with Some q => ret q | None => fun _ => Throw end.
(** prm.get_integer, e.g. run_time_parameters.cc:858. *)
Definition get_integer (n : string) : prog Z :=
  t <- get_text n ;; match t with TInt z => ret z | _ => fun _ => Throw end.
(** prm.get_bool, e.g. run_time_parameters.cc:120-161. *)
Definition get_bool (n : string) : prog bool :=
  t <- get_text n ;; match t with TBool b => ret b | _ => fun _ => Throw end.
(** prm.get, e.g. run_time_parameters.cc:120-161. *)
Definition get (n : string) : prog string :=
  t <- get_text n ;; match t with TStr s => ret s | _ => fun _ => Throw end.
(** AssertThrow, e.g. run_time_parameters.cc:75-88. *)
Definition assert_throw (b : bool) : prog unit := if b then ret tt else fun _ => Throw.
(** Assert, e.g. run_time_parameters.cc:418-422. *)
Definition assert_debug (debug b : bool) : prog unit := assert_throw (negb debug || b).
(** operator< on doubles, e.g. run_time_parameters.cc:75-88. *)
Definition Qltb (a b : Q) : bool := negb (Qle_bool b a).

(** dealii::Patterns::Double(0.), e.g. run_time_parameters.cc:48-50. *)
Definition at_least (q : Q) : pattern := PDouble (Some q) None.

(** ** Constitutive laws *)
(** run_time_parameters.cc:36-41, 45-63, 67-91. *)
Record hooke_prm := mk_hooke_prm { hk_1111 : Q; hk_1122 : Q; hk_1212 : Q }.
Definition declare_hooke : prog unit :=
  inside "Hooke-Law's parameters" (
    declare_entry "C1111" (TNum 134615) (at_least 0) ;;
    declare_entry "C1122" (TNum (576923 # 10)) (at_least 0) ;;
    declare_entry "C1212" (TNum (384615 # 10)) (at_least 0)).
Definition parse_hooke : prog hooke_prm :=
  inside "Hooke-Law's parameters" (
    a <- get_double "C1111" ;;
    b <- get_double "C1122" ;;
    c <- get_double "C1212" ;;
    assert_throw (Qltb 0 a) ;;
    assert_throw (Qltb 0 b) ;;
    assert_throw (Qltb 0 c) ;;
    ret (mk_hooke_prm a b c)).

(** run_time_parameters.cc:95-161. *)
Record scalar_prm := mk_scalar_prm {
  sm_function : regularization; sm_parameter : Q; sm_rate_independent : bool }.
Definition declare_scalar : prog unit :=
  inside "Scalar microstress law's parameters" (
    declare_entry "Regularization function" (TStr "tanh")
      (PSelection ["atan"; "sqrt"; "gd"; "tanh"; "erf"]) ;;
    declare_entry "Regularization parameter" (TNum (3 # 10000)) (at_least 0) ;;
    declare_entry "Rate-independent behavior" (TBool false) PBool).
Definition regularization_of (s : string) : prog regularization :=
  if String.eqb s "atan" then ret Atan
  else if String.eqb s "sqrt" then ret Sqrt
  else if String.eqb s "gd" then ret Gd
  else if String.eqb s "tanh" then ret Tanh
  else if String.eqb s "erf" then ret Erf
  else fun _ => Throw.
Definition parse_scalar : prog scalar_prm :=
  inside "Scalar microstress law's parameters" (
    s <- get "Regularization function" ;;
    r <- regularization_of s ;;
    k <- get_double "Regularization parameter" ;;
    i <- get_bool "Rate-independent behavior" ;;
    assert_throw (Qltb 0 k) ;;
    ret (mk_scalar_prm r k i)).

(** run_time_parameters.cc:165-223. *)
Record vectorial_prm := mk_vectorial_prm {
  vm_length : Q; vm_resistance : Q; vm_index : Q; vm_regularization : Q }.
Definition declare_vectorial : prog unit :=
  inside "Vectorial microstress law's parameters" (
    declare_entry "Energetic length scale" (TNum 0) (at_least 0) ;;
    declare_entry "Initial slip resistance" (TNum 0) (at_least 0) ;;
    declare_entry "Defect energy index" (TNum 2) (at_least 1) ;;
    declare_entry "Regularization parameter" (TNum (1 # 1000000)) (at_least 0)).
Definition parse_vectorial : prog vectorial_prm :=
  inside "Vectorial microstress law's parameters" (
    l <- get_double "Energetic length scale" ;;
    g <- get_double "Initial slip resistance" ;;
    p <- get_double "Defect energy index" ;;
    r <- get_double "Regularization parameter" ;;
    assert_throw (Qltb 0 r) ;;
    ret (mk_vectorial_prm l g p r)).

(** run_time_parameters.cc:227-260. *)
Definition declare_microtraction : prog unit :=
  inside "Microtraction law's parameters" (
    declare_entry "Grain boundary modulus" (TNum 0) (at_least 0)).
Definition parse_microtraction : prog Q :=
  inside "Microtraction law's parameters" (get_double "Grain boundary modulus").

(** run_time_parameters.cc:264-327; the model has a single value. *)
Record cohesive_prm := mk_cohesive_prm { co_traction : Q; co_opening : Q; co_ratio : Q }.
Definition declare_cohesive : prog unit :=
  inside "Cohesive law's parameters" (
    declare_entry "Cohesive law model" (TStr "OrtizEtAl") (PSelection ["OrtizEtAl"]) ;;
    declare_entry "Critical cohesive traction" (TNum 700) (at_least 0) ;;
    declare_entry "Critical opening displacement" (TNum (25 # 1000)) (at_least 0) ;;
    declare_entry "Tangential to normal stiffness ratio" (TNum 1) (at_least 0)).
Definition parse_cohesive : prog cohesive_prm :=
  inside "Cohesive law's parameters" (
    m <- get "Cohesive law model" ;;
    assert_throw (String.eqb m "OrtizEtAl") ;;
    t <- get_double "Critical cohesive traction" ;;
    d <- get_double "Critical opening displacement" ;;
    b <- get_double "Tangential to normal stiffness ratio" ;;
    ret (mk_cohesive_prm t d b)).

(** run_time_parameters.cc:331-361. *)
Definition declare_degradation : prog unit :=
  inside "Degradation function parameters" (
    declare_entry "Degradation exponent" (TNum 1) (at_least 0)).
Definition parse_degradation : prog Q :=
  inside "Degradation function parameters" (get_double "Degradation exponent").

(** run_time_parameters.cc:365-429.  In debug mode the initial slip resistance has to agree
    with the one of the vectorial law. *)
Record hardening_prm := mk_hardening_prm {
  hd_resistance : Q; hd_modulus : Q; hd_parameter : Q; hd_perfect : bool }.
Definition declare_hardening : prog unit :=
  inside "Hardening law's parameters" (
    declare_entry "Initial slip resistance" (TNum 0) (at_least 0) ;;
    declare_entry "Linear hardening modulus" (TNum 500) (at_least 0) ;;
    declare_entry "Hardening parameter" (TNum (14 # 10)) (at_least 0) ;;
    declare_entry "Perfect plasticity" (TBool false) PBool).
Definition parse_hardening (debug : bool) : prog hardening_prm :=
  p <- inside "Hardening law's parameters" (
    g <- get_double "Initial slip resistance" ;;
    h <- get_double "Linear hardening modulus" ;;
    q <- get_double "Hardening parameter" ;;
    b <- get_bool "Perfect plasticity" ;;
    ret (mk_hardening_prm g h q b)) ;;
  inside "Vectorial microstress law's parameters" (
    g <- get_double "Initial slip resistance" ;;
    assert_debug debug (Qeq_bool (hd_resistance p) g) ;;
    ret p).

(** run_time_parameters.cc:433-537. *)
Inductive damage_model := DamageOrtizEtAl | DamageM1.
Record damage_prm := mk_damage_prm {
  da_model : damage_model; da_accumulation : Q; da_decay : Q; da_exponent : Q;
  da_endurance : Q; da_zero : bool; da_couple_micro : bool; da_couple_macro : bool }.
Definition declare_damage : prog unit :=
  inside "Damage evolution parameters" (
    declare_entry "Damage evolution model" (TStr "M1") (PSelection ["OrtizEtAl"; "M1"]) ;;
    declare_entry "Damage accumulation constant" (TNum 1) (at_least 0) ;;
    declare_entry "Damage decay constant" (TNum 0) (at_least 0) ;;
    declare_entry "Damage decay exponent" (TNum 1) (at_least 0) ;;
    declare_entry "Endurance limit" (TNum 0) (at_least 0) ;;
    declare_entry "Set damage to zero" (TBool false) PBool ;;
    declare_entry "Couple microtraction to damage" (TBool true) PBool ;;
    declare_entry "Couple macrotraction to damage" (TBool false) PBool).
Definition damage_model_of (s : string) : prog damage_model :=
  if String.eqb s "OrtizEtAl" then ret DamageOrtizEtAl
  else if String.eqb s "M1" then ret DamageM1
  else fun _ => Throw.
Definition parse_damage : prog damage_prm :=
  inside "Damage evolution parameters" (
    s <- get "Damage evolution model" ;;
    m <- damage_model_of s ;;
    a <- get_double "Damage accumulation constant" ;;
    c <- get_double "Damage decay constant" ;;
    e <- get_double "Damage decay exponent" ;;
    l <- get_double "Endurance limit" ;;
    z <- get_bool "Set damage to zero" ;;
    mi <- get_bool "Couple microtraction to damage" ;;
    ma <- get_bool "Couple macrotraction to damage" ;;
    ret (mk_damage_prm m a c e l z mi ma)).

(** run_time_parameters.cc:541-573. *)
Definition declare_contact : prog unit :=
  inside "Contact law's parameters" (
    declare_entry "Penalty coefficient" (TNum 100) (at_least 0)).
Definition parse_contact : prog Q :=
  inside "Contact law's parameters" (get_double "Penalty coefficient").

(** run_time_parameters.cc:577-636. *)
Record laws_prm := mk_laws_prm {
  lw_hooke : hooke_prm; lw_scalar : scalar_prm; lw_vectorial : vectorial_prm;
  lw_microtraction : Q; lw_cohesive : cohesive_prm; lw_contact : Q;
  lw_hardening : hardening_prm; lw_degradation : Q; lw_damage : damage_prm }.
Definition declare_laws : prog unit :=
  inside "Constitutive laws' parameters" (
    declare_hooke ;; declare_scalar ;; declare_vectorial ;; declare_microtraction ;;
    declare_cohesive ;; declare_contact ;; declare_degradation ;; declare_hardening ;;
    declare_damage).
Definition parse_laws (debug : bool) : prog laws_prm :=
  inside "Constitutive laws' parameters" (
    a <- parse_hooke ;;
    b <- parse_scalar ;;
    c <- parse_vectorial ;;
    d <- parse_microtraction ;;
    e <- parse_cohesive ;;
    f <- parse_contact ;;
    g <- parse_hardening debug ;;
    h <- parse_degradation ;;
    i <- parse_damage ;;
    ret (mk_laws_prm a b c d e f g h i)).

(** ** Dimensionless form, run_time_parameters.cc:640-721.  The derived quantities (724-788)
    are ModelPost.dimensionless_init. *)
Record dimensionless_prm := mk_dimensionless_prm {
  dl_on : bool; dl_length : Q; dl_time : Q; dl_displacement : Q; dl_stiffness : Q; dl_slip_resistance : Q }.
Definition declare_dimensionless : prog unit :=
  inside "Dimensionless formulation parameters" (
    declare_entry "Solve the dimensionless problem" (TBool false) PBool ;;
    inside "Reference parameters" (
      declare_entry "Reference length value" (TNum 1) (at_least 0) ;;
      declare_entry "Reference time value" (TNum 1) (at_least 0) ;;
      declare_entry "Reference displacement value" (TNum 1) (at_least 0) ;;
      declare_entry "Reference stiffness value" (TNum 1) (at_least 0) ;;
      declare_entry "Reference slip resistance value" (TNum 1) (at_least 0))).
Definition parse_dimensionless : prog dimensionless_prm :=
  inside "Dimensionless formulation parameters" (
    b <- get_bool "Solve the dimensionless problem" ;;
    if (b : bool) then
      inside "Reference parameters" (
        l <- get_double "Reference length value" ;;
        t <- get_double "Reference time value" ;;
        d <- get_double "Reference displacement value" ;;
        s <- get_double "Reference stiffness value" ;;
        g <- get_double "Reference slip resistance value" ;;
        ret (mk_dimensionless_prm true l t d s g))
    else ret (mk_dimensionless_prm false 1 1 1 1 1)).

(** ** Solvers *)
(** run_time_parameters.cc:792-877. *)
Inductive solver_type := DirectSolver | CG | GMRES.
Record krylov_prm := mk_krylov_prm {
  kp_type : solver_type; kp_relative : Q; kp_absolute : Q; kp_max : Z }.
Definition default_krylov : krylov_prm := mk_krylov_prm CG (1 # 1000000) (1 # 100000000) 1000.
Definition declare_krylov : prog unit :=
  inside "Krylov parameters" (
    declare_entry "Solver type" (TStr "cg") (PSelection ["directsolver"; "cg"; "gmres"]) ;;
    declare_entry "Relative tolerance" (TNum (1 # 1000000)) (at_least 0) ;;
    declare_entry "Absolute tolerance" (TNum (1 # 100000000)) (at_least 0) ;;
    declare_entry "Maximum number of iterations" (TInt 1000) (PInteger 1)).
Definition solver_type_of (s : string) : prog solver_type :=
  if String.eqb s "directsolver" then ret DirectSolver
  else if String.eqb s "cg" then ret CG
  else if String.eqb s "gmres" then ret GMRES
  else fun _ => Throw.
Definition parse_krylov : prog krylov_prm :=
  inside "Krylov parameters" (
    s <- get "Solver type" ;;
    t <- solver_type_of s ;;
    r <- get_double "Relative tolerance" ;;
    a <- get_double "Absolute tolerance" ;;
    n <- get_integer "Maximum number of iterations" ;;
    assert_throw (Qltb 0 r) ;;
    assert_throw (Qltb 0 a) ;;
    assert_throw (Qltb a r) ;;
    ret (mk_krylov_prm t r a n)).

(** run_time_parameters.cc:881-957. *)
Record newton_prm := mk_newton_prm {
  np_relative : Q; np_absolute : Q; np_step : Q; np_max : Z; np_line_search : bool }.
Definition default_newton : newton_prm :=
  mk_newton_prm (1 # 1000000) (1 # 100000000) (1 # 100000000) 15 true.
Definition declare_newton : prog unit :=
  inside "Newton-Raphson parameters" (
    declare_entry "Relative tolerance of the residual" (TNum (1 # 1000000)) (at_least 0) ;;
    declare_entry "Absolute tolerance of the residual" (TNum (1 # 100000000)) (at_least 0) ;;
    declare_entry "Absolute tolerance of the step" (TNum (1 # 100000000)) (at_least 0) ;;
    declare_entry "Maximum number of iterations" (TInt 15) (PInteger 1) ;;
    declare_entry "Line search algorithm" (TBool true) PBool).
Definition parse_newton : prog newton_prm :=
  inside "Newton-Raphson parameters" (
    r <- get_double "Relative tolerance of the residual" ;;
    a <- get_double "Absolute tolerance of the residual" ;;
    s <- get_double "Absolute tolerance of the step" ;;
    n <- get_integer "Maximum number of iterations" ;;
    l <- get_bool "Line search algorithm" ;;
    assert_throw (Qltb 0 r) ;;
    assert_throw (Qltb 0 a) ;;
    assert_throw (Qltb a r) ;;
    ret (mk_newton_prm r a s n l)).

(** run_time_parameters.cc:961-1021. *)
Record line_search_prm := mk_line_search_prm { lp_alpha : Q; lp_beta : Q; lp_max : Z }.
Definition default_line_search : line_search_prm := mk_line_search_prm (1 # 10000) (9 # 10) 15.
Definition declare_line_search : prog unit :=
  inside "Line search parameters" (
    declare_entry "Alpha condition constant" (TNum (1 # 10000)) (PDouble (Some 0%Q) (Some 1%Q)) ;;
    declare_entry "Beta condition constant" (TNum (9 # 10)) (PDouble (Some 0%Q) (Some 1%Q)) ;;
    declare_entry "Maximum number of iterations" (TInt 15) (PInteger 0)).
Definition parse_line_search : prog line_search_prm :=
  inside "Line search parameters" (
    a <- get_double "Alpha condition constant" ;;
    b <- get_double "Beta condition constant" ;;
    n <- get_integer "Maximum number of iterations" ;;
    assert_throw (Qltb 0 a) ;;
    assert_throw (Qltb a b) ;;
    assert_throw (Qltb b 1) ;;
    ret (mk_line_search_prm a b n)).

(** run_time_parameters.cc:1025-1050. *)
Record nonlinear_prm := mk_nonlinear_prm {
  nl_krylov : krylov_prm; nl_newton : newton_prm; nl_line_search : line_search_prm }.
Definition default_nonlinear : nonlinear_prm :=
  mk_nonlinear_prm default_krylov default_newton default_line_search.
Definition declare_nonlinear : prog unit := declare_newton ;; declare_line_search ;; declare_krylov.
Definition parse_nonlinear : prog nonlinear_prm :=
  k <- parse_krylov ;;
  n <- parse_newton ;;
  l <- parse_line_search ;;
  ret (mk_nonlinear_prm k n l).

(** run_time_parameters.cc:1054-1109: in debug mode "block" ends the program. *)
Inductive preconditioner := BuiltIn | Block.
Record monolithic_prm := mk_monolithic_prm { mo_solver : nonlinear_prm; mo_preconditioner : preconditioner }.
Definition default_monolithic : monolithic_prm := mk_monolithic_prm default_nonlinear BuiltIn.
Definition declare_monolithic : prog unit :=
  inside "Monolithic algorithm" (
    declare_nonlinear ;;
    declare_entry "Monolithic preconditioner" (TStr "built-in") (PSelection ["built-in"; "block"])).
Definition parse_monolithic (debug : bool) : prog monolithic_prm :=
  inside "Monolithic algorithm" (
    s <- parse_nonlinear ;;
    p <- get "Monolithic preconditioner" ;;
    if String.eqb p "built-in" then ret (mk_monolithic_prm s BuiltIn)
    else if String.eqb p "block" then
      assert_debug debug false ;; ret (mk_monolithic_prm s Block)
    else fun _ => Throw).

(** run_time_parameters.cc:1113-1175. *)
Record staggered_prm := mk_staggered_prm {
  st_macro : nonlinear_prm; st_micro : nonlinear_prm; st_max_loops : Z; st_reset : bool }.
Definition default_staggered : staggered_prm :=
  mk_staggered_prm default_nonlinear default_nonlinear 15 true.
Definition declare_staggered : prog unit :=
  inside "Staggered algorithm" (
    inside "Linear momentum balance" declare_nonlinear ;;
    inside "Pseudo-balance" declare_nonlinear ;;
    declare_entry "Maximum number of solution loops" (TInt 15) (PInteger 2) ;;
    declare_entry "Reset trial solution at each micro loop" (TBool true) PBool).
Definition parse_staggered : prog staggered_prm :=
  inside "Staggered algorithm" (
    a <- inside "Linear momentum balance" parse_nonlinear ;;
    b <- inside "Pseudo-balance" parse_nonlinear ;;
    n <- get_integer "Maximum number of solution loops" ;;
    r <- get_bool "Reset trial solution at each micro loop" ;;
    ret (mk_staggered_prm a b n r)).

(** run_time_parameters.cc:1179-1336; only the block of the selected algorithm is read, the
    other one keeps the defaults of its constructor. *)
Inductive gb_condition := Microhard | Microfree | Microtraction.
Record solver_prm := mk_solver_prm {
  sp_laws : laws_prm; sp_algorithm : algorithm; sp_monolithic : monolithic_prm;
  sp_staggered : staggered_prm; sp_dimensionless : dimensionless_prm;
  sp_decohesion : bool; sp_gb : gb_condition;
  sp_skip : bool; sp_skip_extrema : bool; sp_factor : Q; sp_zero_damage : bool;
  sp_print_sparsity : bool; sp_debug_fields : bool; sp_verbose : bool;
  sp_logger_directory : string }.
Definition declare_solver : prog unit :=
  inside "6. Solver parameters" (
    declare_laws ;; declare_monolithic ;; declare_staggered ;; declare_dimensionless ;;
    declare_entry "Solution algorithm" (TStr "monolithic")
      (PSelection ["monolithic"; "bouncing"; "embracing"]) ;;
    declare_entry "Allow decohesion at grain boundaries" (TBool false) PBool ;;
    declare_entry "Boundary conditions at grain boundaries" (TStr "microfree")
      (PSelection ["microhard"; "microfree"; "microtraction"]) ;;
    declare_entry "Skip extrapolation of start value" (TBool false) PBool ;;
    declare_entry "Skip extrapolation of start value at extrema" (TBool false) PBool ;;
    declare_entry "Extrapolation factor" (TNum 1) (at_least 0) ;;
    declare_entry "Zero damage evolution during un- and loading" (TBool false) PBool ;;
    declare_entry "Print sparsity pattern" (TBool false) PBool ;;
    declare_entry "Output debug fields" (TBool false) PBool ;;
    declare_entry "Verbose" (TBool false) PBool).
Definition parse_algorithm (debug : bool) (s : string)
  : prog (algorithm * monolithic_prm * staggered_prm) :=
  if String.eqb s "monolithic" then
    m <- parse_monolithic debug ;; ret (Monolithic, m, default_staggered)
  else if String.eqb s "bouncing" then
    st <- parse_staggered ;; ret (Bouncing, default_monolithic, st)
  else if String.eqb s "embracing" then
    st <- parse_staggered ;; ret (Embracing, default_monolithic, st)
  else fun _ => Throw.
Definition gb_condition_of (s : string) : prog gb_condition :=
  if String.eqb s "microhard" then ret Microhard
  else if String.eqb s "microfree" then ret Microfree
  else if String.eqb s "microtraction" then ret Microtraction
  else fun _ => Throw.
Definition parse_solver (debug : bool) : prog solver_prm :=
  mk <- inside "6. Solver parameters" (
    laws <- parse_laws debug ;;
    s <- get "Solution algorithm" ;;
    alg <- parse_algorithm debug s ;;
    dl <- parse_dimensionless ;;
    dec <- get_bool "Allow decohesion at grain boundaries" ;;
    g <- get "Boundary conditions at grain boundaries" ;;
    gb <- gb_condition_of g ;;
    sk <- get_bool "Skip extrapolation of start value" ;;
    ske <- get_bool "Skip extrapolation of start value at extrema" ;;
    fac <- get_double "Extrapolation factor" ;;
    zd <- get_bool "Zero damage evolution during un- and loading" ;;
    ps <- get_bool "Print sparsity pattern" ;;
    df <- get_bool "Output debug fields" ;;
    v <- get_bool "Verbose" ;;
    ret (mk_solver_prm laws (fst (fst alg)) (snd (fst alg)) (snd alg) dl dec gb sk ske fac zd ps df v)) ;;
  d <- inside "4. Output parameters" (get "Graphical output directory") ;;
  ret (mk d).

(** ** Discretisation, loading, input and output *)
(** run_time_parameters.cc:1340-1397. *)
Record temporal_prm := mk_temporal_prm { tp_start : Q; tp_end : Q; tp_step : Q }.
Definition declare_temporal : prog unit :=
  inside "2. Temporal discretization parameters" (
    declare_entry "Start time" (TNum 0) (at_least 0) ;;
    declare_entry "End time" (TNum 1) (at_least 0) ;;
    declare_entry "Time step size" (TNum (1 # 10)) (at_least 0)).
Definition parse_temporal (debug : bool) : prog temporal_prm :=
  inside "2. Temporal discretization parameters" (
    s <- get_double "Start time" ;;
    e <- get_double "End time" ;;
    d <- get_double "Time step size" ;;
    assert_debug debug (Qle_bool 0 s) ;;
    assert_debug debug (Qltb s e) ;;
    assert_debug debug (Qltb 0 d) ;;
    assert_debug debug (Qle_bool (s + d) e) ;;
    ret (mk_temporal_prm s e d)).

(** run_time_parameters.cc:1402-1590 (SimpleLoading); the derived times and step sizes are the
    functions of ModelLoading. *)
Record loading_prm := mk_loading_prm {
  lo_type : loading_type; lo_max : Q; lo_min : Q; lo_duration_mono : Q; lo_n_mono : Z;
  lo_duration : Q; lo_n_load : Z; lo_n_cycles : Z; lo_period : Q; lo_n_quarter : Z;
  lo_skip_unloading : bool }.
Definition declare_loading : prog unit :=
  inside "2. Temporal discretization parameters" (
    inside "Simple loading" (
      declare_entry "Loading type" (TStr "monotonic") (PSelection ["monotonic"; "cyclic"]) ;;
      declare_entry "Maximum load" (TNum 1) (at_least 0) ;;
      declare_entry "Minimum load" (TNum 0) (at_least 0) ;;
      inside "Monotonic load parameters" (
        declare_entry "Duration of monotonic load" (TNum 1) (at_least 0) ;;
        declare_entry "Number of steps during monotonic load" (TInt 20) (PInteger 1)) ;;
      inside "Cyclic load parameters" (
        declare_entry "Duration of un- and loading phase" (TNum 1) (at_least 0) ;;
        declare_entry "Number of steps during un- and loading phase" (TInt 20) (PInteger 1) ;;
        declare_entry "Period" (TNum 1) (at_least 0) ;;
        declare_entry "Number of steps during a quarter cycle" (TInt 5) (PInteger 1) ;;
        declare_entry "Number of cycles" (TInt 1) (PInteger 0) ;;
        declare_entry "Skip unloading phase" (TBool true) PBool))).
Definition loading_type_of (s : string) : prog loading_type :=
  if String.eqb s "monotonic" then ret Monotonic
  else if String.eqb s "cyclic" then ret Cyclic
  else fun _ => Throw.
Definition parse_loading (debug : bool) : prog loading_prm :=
  inside "2. Temporal discretization parameters" (
    inside "Simple loading" (
      mono <- inside "Monotonic load parameters" (
        d <- get_double "Duration of monotonic load" ;;
        n <- get_integer "Number of steps during monotonic load" ;;
        ret (d, n)) ;;
      cyc <- inside "Cyclic load parameters" (
        d <- get_double "Duration of un- and loading phase" ;;
        n <- get_integer "Number of steps during un- and loading phase" ;;
        c <- get_integer "Number of cycles" ;;
        p <- get_double "Period" ;;
        q <- get_integer "Number of steps during a quarter cycle" ;;
        s <- get_bool "Skip unloading phase" ;;
        ret (d, n, c, p, q, s)) ;;
      s <- get "Loading type" ;;
      t <- loading_type_of s ;;
      mx <- get_double "Maximum load" ;;
      mn <- get_double "Minimum load" ;;
      match cyc with (d, n, c, p, q, u) =>
        assert_debug debug (Qltb 0 (fst mono)) ;;
        assert_debug debug (Qltb 0 p) ;;
        assert_debug debug (Qltb mn mx) ;;
        ret (mk_loading_prm t mx mn (fst mono) (snd mono) d n c p q u)
      end)).

(** run_time_parameters.cc:1675-1747. *)
Record spatial_prm := mk_spatial_prm {
  sd_dim : Z; sd_degree_u : Z; sd_degree_slips : Z; sd_refinements : Z; sd_mapping : Z;
  sd_mapping_interior : bool }.
Definition declare_spatial : prog unit :=
  inside "1. Spatial discretization parameters" (
    declare_entry "Spatial dimension" (TInt 2) (PInteger 2) ;;
    declare_entry "Mapping - Polynomial degree" (TInt 1) (PInteger 1) ;;
    declare_entry "Mapping - Apply to interior cells" (TBool false) PBool ;;
    declare_entry "Number of global refinements" (TInt 0) (PInteger 0) ;;
    declare_entry "FE's polynomial degree - Displacements" (TInt 2) (PInteger 1) ;;
    declare_entry "FE's polynomial degree - Slips" (TInt 1) (PInteger 1)).
Definition parse_spatial : prog spatial_prm :=
  inside "1. Spatial discretization parameters" (
    d <- get_integer "Spatial dimension" ;;
    u <- get_integer "FE's polynomial degree - Displacements" ;;
    s <- get_integer "FE's polynomial degree - Slips" ;;
    r <- get_integer "Number of global refinements" ;;
    m <- get_integer "Mapping - Polynomial degree" ;;
    i <- get_bool "Mapping - Apply to interior cells" ;;
    assert_throw (Z.eqb d 2 || Z.eqb d 3) ;;
    ret (mk_spatial_prm d u s r m i)).

(** run_time_parameters.cc:1751-1803. *)
Record input_prm := mk_input_prm { in_normals : string; in_directions : string; in_angles : string }.
Definition declare_input : prog unit :=
  inside "3. Input parameters" (
    declare_entry "Slip normals path name"
      (TStr "input/crystal_structure/symmetric_double_slip_system/slip_normals") PAnything ;;
    declare_entry "Slip directions path name"
      (TStr "input/crystal_structure/symmetric_double_slip_system/slip_directions") PAnything ;;
    declare_entry "Euler angles path name"
      (TStr "input/crystal_orientation/euler_angles_0_30") PAnything).
Definition parse_input_prm : prog input_prm :=
  inside "3. Input parameters" (
    n <- get "Slip normals path name" ;;
    d <- get "Slip directions path name" ;;
    a <- get "Euler angles path name" ;;
    ret (mk_input_prm n d a)).

(** What the file system answers: fs::exists, and whether fs::create_directories succeeds. *)
(** The file system as seen by run_time_parameters.cc:2079-2130. *)
Record world := mk_world { w_exists : string -> bool; w_mkdir : string -> bool }.

(** run_time_parameters.cc:1807-1923 on the process with rank 0; std::abort is modelled by
    [Throw].  homogenization_output_frequency is never read, "Store checkpoints" neither. *)
Record output_prm := mk_output_prm {
  ou_directory : string; ou_graphical : Z; ou_terminal : Z; ou_damage : bool;
  ou_fluctuations : bool; ou_dimensionless : bool }.
Definition declare_output : prog unit :=
  inside "4. Output parameters" (
    declare_entry "Graphical output directory" (TStr "results/default/") PAnything ;;
    declare_entry "Graphical output frequency" (TInt 1) (PInteger 0) ;;
    declare_entry "Terminal output frequency" (TInt 1) (PInteger 0) ;;
    declare_entry "Output damage variable field" (TBool false) PBool ;;
    declare_entry "Output dimensionless quantities" (TBool false) PBool ;;
    declare_entry "Output fluctuations fields" (TBool false) PBool ;;
    declare_entry "Store checkpoints" (TBool false) PBool).
Definition parse_output (w : world) : prog output_prm :=
  inside "4. Output parameters" (
    d <- get "Graphical output directory" ;;
    assert_throw (w_exists w (d ++ "paraview/") || w_mkdir w (d ++ "paraview/")) ;;
    g <- get_integer "Graphical output frequency" ;;
    t <- get_integer "Terminal output frequency" ;;
    a <- get_bool "Output damage variable field" ;;
    f <- get_bool "Output fluctuations fields" ;;
    q <- get_bool "Output dimensionless quantities" ;;
    ret (mk_output_prm d g t a f q)).

(** run_time_parameters.cc:1927-1961. *)
Record homogenization_prm := mk_homogenization_prm { ho_frequency : Z; ho_on : bool }.
Definition declare_homogenization : prog unit :=
  inside "Homogenization" (
    declare_entry "Compute homogenized quantities" (TBool false) PBool ;;
    declare_entry "Homogenization frequency" (TInt 1) (PInteger 0)).
Definition parse_homogenization : prog homogenization_prm :=
  inside "Homogenization" (
    f <- get_integer "Homogenization frequency" ;;
    b <- get_bool "Compute homogenized quantities" ;;
    ret (mk_homogenization_prm f b)).

(** run_time_parameters.cc:1965-2060. *)
Record basic_prm := mk_basic_prm {
  bp_spatial : spatial_prm; bp_temporal : temporal_prm; bp_input : input_prm;
  bp_output : output_prm; bp_solver : solver_prm; bp_homogenization : homogenization_prm;
  bp_verbose : bool }.
Definition declare_basic : prog unit :=
  declare_spatial ;; declare_temporal ;; declare_input ;; declare_output ;; declare_solver ;;
  inside "5. Postprocessing parameters" declare_homogenization ;;
  declare_entry "Verbose" (TBool false) PBool.
Definition input_3d (w : world) (d : Z) (i : input_prm) : input_prm :=
  if Z.eqb d 3 && w_exists w (in_normals i ++ "_3d.txt") && w_exists w (in_directions i ++ "_3d.txt")
     && w_exists w (in_angles i ++ "_3d.txt")
  then mk_input_prm (in_normals i ++ "_3d") (in_directions i ++ "_3d") (in_angles i ++ "_3d")
  else i.
Definition parse_basic (debug : bool) (w : world) : prog basic_prm :=
  s <- parse_spatial ;;
  t <- parse_temporal debug ;;
  i <- parse_input_prm ;;
  o <- parse_output w ;;
  sv <- parse_solver debug ;;
  h <- inside "5. Postprocessing parameters" parse_homogenization ;;
  v <- get_bool "Verbose" ;;
  ret (mk_basic_prm s t (input_3d w (sd_dim s) i) o sv h v).

(** run_time_parameters.cc:2064-2232: InfiniteStripProblem.  The numbers of elements and
    crystals are read with get_double and converted to unsigned int. *)
Inductive control := LoadControlled | DisplacementControlled.
Record strip_prm := mk_strip_prm {
  ip_basic : basic_prm; ip_loading : loading_prm; ip_height : Q; ip_elements : Z;
  ip_crystals : Z; ip_control : control }.
Definition declare_strip : prog unit :=
  declare_basic ;; declare_loading ;;
  inside "1. Spatial discretization parameters" (
    inside "Problem specific parameters" (
      declare_entry "Height of the strip" (TNum 1) (at_least 0) ;;
      declare_entry "Number of elements in y-direction" (TInt 100) (PInteger 1) ;;
      declare_entry "Number of equally sized crystals in y-direction" (TInt 1) (PInteger 1))) ;;
  inside "0. Infinite strip parameters (Extended in 1. and 2.)" (
    inside "Loading parameters" (
      declare_entry "Control type" (TStr "displacement_control")
        (PSelection ["load_control"; "displacement_control"]))).
Definition to_unsigned (q : Q) : Z := (Qnum q / Zpos (Qden q))%Z.
Definition control_of (s : string) : prog control :=
  if String.eqb s "load_control" then ret LoadControlled
  else if String.eqb s "displacement_control" then ret DisplacementControlled
  else fun _ => Throw.
Definition parse_strip (debug : bool) (w : world) : prog strip_prm :=
  b <- parse_basic debug w ;;
  l <- parse_loading debug ;;
  g <- inside "1. Spatial discretization parameters" (
    inside "Problem specific parameters" (
      h <- get_double "Height of the strip" ;;
      n <- get_double "Number of elements in y-direction" ;;
      c <- get_double "Number of equally sized crystals in y-direction" ;;
      assert_throw (Qltb 0 h) ;;
      ret (h, to_unsigned n, to_unsigned c))) ;;
  ct <- inside "0. Infinite strip parameters (Extended in 1. and 2.)" (
    inside "Loading parameters" (
      s <- get "Control type" ;; control_of s)) ;;
  ret (mk_strip_prm b l (fst (fst g)) (snd (fst g)) (snd g) ct).

(** run_time_parameters.cc:2076-2128: the constructor taking the name of a parameter file;
    [content] is [None] when the file cannot be opened.  The second component is the file the
    constructor writes: the template under the given name, or the copy of the parameters in the
    output directory. *)
Inductive written := Template (content : file) | Copy (name : string) (content : file).
Definition construct_strip (debug : bool) (w : world) (content : option file)
  : result strip_prm * option written :=
  match declare_strip (mk_handler [] []) with
  | Ok (_, h) =>
      match content with
      | None => (Throw, Some (Template (listing (h_entries h))))
      | Some f =>
          match parse_input (h_entries h) f with
          | Ok es =>
              match parse_strip debug w (mk_handler [] es) with
              | Ok (p, h) =>
                  match inside "4. Output parameters" (get "Graphical output directory") h with
                  | Ok (d, h) => (Ok p, Some (Copy (d ++ "parameter_file.prm") (listing (h_entries h))))
                  | Throw => (Throw, None)
                  | UB => (UB, None)
                  end
              | Throw => (Throw, None)
              | UB => (UB, None)
              end
          | Throw => (Throw, None)
          | UB => (UB, None)
          end
      end
  | Throw => (Throw, None)
  | UB => (UB, None)
  end.
