(** * Model of the loading programme, the time loop and the driver of the application.
    source/run_time_parameters.cc:1401-1671 (SimpleLoading),
    source/boundary_conditions.cc (DisplacementControl, LoadControl),
    applications/simple_shear.cc:212-288 (make_grid), 845-976 (run, main).
    deal.II's DiscreteTime is modelled from its documentation (external library). *)
From Coq Require Import ZArith String Ascii.
From Flocq Require Import Core.
From Verif Require Import Num.
Open Scope R_scope.

(** IEEE double: round to nearest, ties to even (overflow is not modelled). *)
(** The type double of include/gCP/run_time_parameters.h:1194-1325. *)
Definition double_exp : Z -> Z := FLT_exp (-1074) 53.
(** The type double of include/gCP/run_time_parameters.h:1194-1325. *)
Definition rnd (x : R) : R := round radix2 double_exp ZnearestE x.
(** The type double of include/gCP/run_time_parameters.h:1194-1325. *)
Definition is_double (x : R) : Prop := generic_format radix2 double_exp x.

(** Unsigned 32-bit arithmetic wraps. *)
Definition u32 (z : Z) : Z := (z mod 2 ^ 32)%Z.

Inductive loading_type := Monotonic | Cyclic.

(** include/gCP/run_time_parameters.h:1243-1330, run_time_parameters.cc:1403-1421; the
    fields computed by parse_parameters are functions below. *)
Record loading := mk_loading {
  l_type : loading_type;
  l_max : R; l_min : R;
  l_duration_mono : R; l_n_mono : Z;
  l_duration : R; l_n_load : Z;        (* un- and loading phase *)
  l_n_cycles : Z; l_period : R; l_n_quarter : Z;
  l_skip_unloading : bool
}.

(** An arithmetic: how quotients, sums and the end-of-time threshold are evaluated. *)
(** The operations of run_time_parameters.cc:1401-1671 and of DiscreteTime in simple_shear.cc:840-925. *)
Record arith := mk_arith {
  a_div : R -> R -> R;
  a_add : R -> R -> R;
  a_mul : R -> R -> R;
  a_thr : R -> R -> R     (* end_time - 0.05 * step_size *)
}.
(** The operations of run_time_parameters.cc:1401-1671 over the reals. *)
Definition exact : arith := mk_arith Rdiv Rplus Rmult (fun e d => e - d / 20).
(** The operations of run_time_parameters.cc:1401-1671 in doubles. *)
Definition double : arith :=
  mk_arith (fun x y => rnd (x / y)) (fun x y => rnd (x + y)) (fun x y => rnd (x * y))
    (fun e d => rnd (e - rnd (rnd (1 / 20) * d))).

(** run_time_parameters.cc:1478-1563 (parse_parameters). start_time keeps its default 0 of
    TemporalDiscretizationParameters (1343-1348): "Start time" is never read for this class. *)
Definition start_time : R := 0.
Definition dt_mono (a : arith) (l : loading) : R := a_div a (l_duration_mono l) (IZR (l_n_mono l)).
Definition dt_load (a : arith) (l : loading) : R := a_div a (l_duration l) (IZR (l_n_load l)).
Definition dt_cyclic (a : arith) (l : loading) : R :=
  a_div a (a_div a (l_period l) 4) (IZR (l_n_quarter l)).
Definition end_time (a : arith) (l : loading) : R :=
  match l_type l with
  | Monotonic => a_add a start_time (l_duration_mono l)
  | Cyclic =>
      a_add a (a_add a start_time (a_mul a (if l_skip_unloading l then 1 else 2) (l_duration l)))
        (a_mul a (IZR (l_n_cycles l)) (l_period l))
  end.
Definition start_of_cyclic_phase (a : arith) (l : loading) : R := a_add a start_time (l_duration l).
Definition start_of_unloading_phase (a : arith) (l : loading) : R :=
  a_add a (start_of_cyclic_phase a l) (a_mul a (IZR (l_n_cycles l)) (l_period l)).

(** run_time_parameters.cc:1595-1623, get_next_time_step_size.  The comparison
    [step < n_load + 4.0 * n_quarter * n_cycles] is made in floating point. *)
Definition cyclic_end_double (l : loading) : R :=
  rnd (IZR (l_n_load l) + rnd (rnd (4 * IZR (l_n_quarter l)) * IZR (l_n_cycles l))).
Definition next_dt (a : arith) (l : loading) (step : Z) : R :=
  match l_type l with
  | Monotonic => dt_mono a l
  | Cyclic =>
      if Z.ltb step (l_n_load l) then dt_load a l
      else if Rltb (IZR step) (cyclic_end_double l) then dt_cyclic a l
      else dt_load a l
  end.

(** std::modf for a non-negative argument: the fractional part (exact in binary floating
    point). *)
(** run_time_parameters.cc:1651. *)
Definition modf_frac (x : R) : R := x - IZR (Ztrunc x).

(** run_time_parameters.cc:1627-1671, skip_extrapolation. *)
Definition skip_extrapolation (l : loading) (step : Z) : bool :=
  match l_type l with
  | Monotonic => false
  | Cyclic =>
      let n_cyc := u32 (u32 (4 * l_n_quarter l) * l_n_cycles l) in
      let starts_cyclic := Z.eqb step (l_n_load l) in
      let starts_unloading := Z.eqb step (u32 (l_n_load l + n_cyc)) in
      let in_cyclic := andb (Z.ltb (l_n_load l) step) (Z.ltb step (u32 (n_cyc + l_n_load l))) in
      let frac := modf_frac (rnd (IZR (u32 (step - l_n_load l)) / rnd (4 * IZR (l_n_quarter l)))) in
      let extremum := orb (Reqb frac (1 / 4)) (Reqb frac (3 / 4)) in
      if orb starts_cyclic starts_unloading then true else andb in_cyclic extremum
  end.

(** deal.II DiscreteTime::set_desired_next_step_size: the next time is clipped to the end
    time when it is within 5% of a step of it or beyond. *)
(** Called in simple_shear.cc:866. *)
Definition clipped_next (a : arith) (current dt end_ : R) : R :=
  let next := a_add a current dt in
  if Rltb (a_thr a end_ dt) next then end_ else next.

(** simple_shear.cc:862-914: the time loop.  One entry per completed step: step number after
    advance_time(), new current time, whether graphical output is written.  [solves k] says
    whether the nonlinear solve of step number [k] returns; an exception leaves the loop.
    The output frequency 0 (admitted by Patterns::Integer(0)) divides by zero. *)
Record step_record := mk_step { st_number : Z; st_time : R; st_written : bool }.
Inductive run_end := Finished | SolverThrew | DivisionByZero | OutOfFuel.
Fixpoint time_loop (a : arith) (l : loading) (freq : Z) (solves : Z -> bool)
  (fuel : nat) (step : Z) (current : R) : list step_record * run_end :=
  if Rltb current (end_time a l) then
    match fuel with
    | O => ([], OutOfFuel)
    | S fuel' =>
        let next := clipped_next a current (next_dt a l step) (end_time a l) in
        if solves step then
          if Z.eqb freq 0 then ([], DivisionByZero)
          else
            let written := orb (Z.eqb ((step + 1) mod freq) 0) (Reqb next (end_time a l)) in
            let '(tr, e) := time_loop a l freq solves fuel' (step + 1) next in
            (mk_step (step + 1) next written :: tr, e)
        else ([], SolverThrew)
    end
  else ([], Finished).
Definition run (a : arith) (l : loading) (freq : Z) (solves : Z -> bool) (fuel : nat)
  : list step_record * run_end := time_loop a l freq solves fuel 0 start_time.

(** boundary_conditions.cc:15-42 and 46-103: DisplacementControl.  The constructor stores
    the constant Monotonic as loading type, whatever the parameters say (line 28).  The
    result is the value vector over the n_components components. *)
Record displacement_control := mk_dc {
  dc_type : loading_type; dc_max : R; dc_min : R; dc_component : nat; dc_period : R;
  dc_start_cyclic : R; dc_start_unloading : R; dc_height : R; dc_n_crystals : nat;
  dc_char : R; dc_decohesion : bool }.
Definition make_displacement_control (l : loading) (n_crystals : nat) (height : R)
  (decohesion : bool) (char_displacement : R) (component : nat) : displacement_control :=
  mk_dc Monotonic (l_max l) (l_min l) component (l_period l)
    (start_of_cyclic_phase exact l) (start_of_unloading_phase exact l) height n_crystals
    char_displacement decohesion.
Definition displacement_load (d : displacement_control) (time : R) : R :=
  match dc_type d with
  | Monotonic => time * dc_height d * dc_max d
  | Cyclic =>
      let peak := (dc_max d - dc_min d) / 2 in
      let offset := (dc_max d + dc_min d) / 2 in
      if Rltb time (dc_start_cyclic d) then time * dc_height d * offset
      else if Rltb time (dc_start_unloading d)
      then peak * sin (2 * PI / dc_period d * (time - dc_start_cyclic d)) + offset
      else offset * (1 - time + dc_start_unloading d)
  end.
Definition vector_value (dim : nat) (d : displacement_control) (time : R) : nat -> R :=
  let v := displacement_load d time / dc_char d in
  let base := fun c => if Nat.eqb c (dc_component d) then v else 0 in
  if dc_decohesion d
  then fold_left (fun acc i => fun c => if Nat.eqb c (dc_component d + i * dim) then v else acc c)
         (seq 1 (dc_n_crystals d - 1)) base
  else base.

(** boundary_conditions.cc:107-182: LoadControl; every load parameter is the constant 0. *)
Definition load_control_value (dim : nat) (l : loading) (char_traction : R) (time : R) : nat -> R :=
  let max_traction_load := 0 in
  let traction_load := time * max_traction_load in
  fun c => if Nat.eqb c 0 then traction_load / char_traction else 0.

(** simple_shear.cc:268-287: the material id of a cell with centre height [y]; deal.II's
    default material id is 0. *)
Definition material_id (height : R) (n : nat) (y : R) : nat :=
  match find (fun i => Rltb (Rabs y) (INR i * height / INR n)) (seq 1 n) with
  | Some i => i - 1
  | None => 0
  end.

(** simple_shear.cc:920-976, main: the parameter file path.  [args] is argv without the
    program name. *)
Fixpoint after_last_dot_aux (s : string) (acc : option string) : option string :=
  match s with
  | EmptyString => acc
  | String c s' => after_last_dot_aux s' (if Ascii.eqb c "."%char then Some s' else acc)
  end.
(** arg.find_last_of(".") and arg.substr(pos + 1) *)
(** simple_shear.cc:949-951. *)
Definition after_last_dot (s : string) : option string := after_last_dot_aux s None.
(** simple_shear.cc:937-980. *)
Definition parameters_filepath (args : list string) : result string :=
  match args with
  | [] => Ok "input/parameter_files/simple_shear.prm"%string
  | [arg] =>
      match after_last_dot arg with
      | Some ext => if String.eqb ext "prm" then Ok arg else Throw
      | None => Throw
      end
  | _ => Throw
  end.
