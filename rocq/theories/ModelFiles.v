(** * The tables and text files of a run
      (applications/simple_shear.cc:614-637, 674-733, 898-919, source/postprocessing.cc:782-783,
      900-1178).

    deal.II's TableHandler is modelled from its documentation (external library): columns in the
    order of their declaration, [start_new_row] pads the shorter columns with empty entries,
    [write_text] needs columns of equal length. *)
From Coq Require Import ZArith String.
From Verif Require Import Num Tensors ModelPost ModelLoading ModelTable ModelStep ModelProgram.
Open Scope R_scope.
Open Scope string_scope.

(** dealii::TableHandler. *)
(** postprocessing.h:392-480 and postprocessing.cc:935-1030, member table_handler. *)
Inductive cell := Value (x : R) | Blank.
Definition table := list (string * list cell).
(** postprocessing.cc:935-963, declare_column. *)
Definition declare_column (t : table) (name : string) : table :=
  if existsb (fun c => String.eqb (fst c) name) t then t else (t ++ [(name, [])])%list.
(** postprocessing.cc:782-783, 1094-1110, 1147-1176, add_value (the column is declared if it
    is not there yet). *)
Definition add_value (t : table) (name : string) (v : R) : table :=
  map (fun c => if String.eqb (fst c) name then (fst c, (snd c ++ [Value v])%list) else c) (declare_column t name).
(** postprocessing.cc:1112 and 1178, start_new_row. *)
Definition longest (t : table) : nat := fold_right (fun c n => Nat.max (length (snd c)) n) 0%nat t.
Definition start_new_row (t : table) : table :=
  map (fun c => (fst c, (snd c ++ repeat Blank (longest t - length (snd c)))%list)) t.
(** postprocessing.cc:900-906 and 1054-1061, write_text: the text is determined by the table. *)
Definition write_text (t : table) : result table :=
  if forallb (fun c => Nat.eqb (length (snd c)) (longest t)) t then Ok t else Throw.

(** What compute_macroscopic_stress leaves in the members (ModelPost.macroscopic_stress,
    microstress_fluctuations, microstrain_fluctuations for a domain of positive volume) and the
    macroscopic strain. *)
(** postprocessing.cc:1196-1362. *)
Record quantities := mk_quantities { q_stress : mat; q_stress_fluct : mat; q_strain : mat; q_strain_fluct : mat }.

(** postprocessing.cc:935-963, the constructor. *)
Definition homogenization_columns : list string :=
  ["Time"; "VonMisesStress"; "VonMisesStressFluctuations"; "VonMisesStrain"; "VonMisesStrainFluctuations";
   "Stress_11"; "Stress_22"; "Stress_33"; "Stress_23"; "Stress_13"; "Stress_12";
   "Strain_11"; "Strain_22"; "Strain_33"; "Strain_23"; "Strain_13"; "Strain_12";
   "StressFluctuations_11"; "StressFluctuations_22"; "StressFluctuations_33"; "StressFluctuations_23"; "StressFluctuations_13"; "StressFluctuations_12";
   "StrainFluctuations_11"; "StrainFluctuations_22"; "StrainFluctuations_33"; "StrainFluctuations_23"; "StrainFluctuations_13"; "StrainFluctuations_12"].
Definition homogenization_table : table := fold_left declare_column homogenization_columns [].

(** postprocessing.cc:1067-1110 (2d) and 1119-1176 (3d), the values in the order of add_value. *)
Definition total_strain (q : quantities) : mat := madd (q_strain q) (q_strain_fluct q).
Definition row_2d (time : R) (q : quantities) : list (string * R) :=
  [("Time", time); ("VonMisesStress", table_von_mises_stress 2 (q_stress q)); ("VonMisesStressFluctuations", table_von_mises_stress 2 (q_stress_fluct q));
   ("VonMisesStrain", table_von_mises_strain 2 (total_strain q)); ("VonMisesStrainFluctuations", table_von_mises_strain 2 (q_strain_fluct q));
   ("Stress_11", q_stress q 0%nat 0%nat); ("Stress_22", q_stress q 1%nat 1%nat); ("Stress_12", q_stress q 0%nat 1%nat);
   ("Strain_11", q_strain q 0%nat 0%nat + q_strain_fluct q 0%nat 0%nat); ("Strain_22", q_strain q 1%nat 1%nat + q_strain_fluct q 1%nat 1%nat); ("Strain_12", q_strain q 0%nat 1%nat + q_strain_fluct q 0%nat 1%nat);
   ("StressFluctuations_11", q_stress_fluct q 0%nat 0%nat); ("StressFluctuations_22", q_stress_fluct q 1%nat 1%nat); ("StressFluctuations_12", q_stress_fluct q 0%nat 1%nat);
   ("StrainFluctuations_11", q_strain_fluct q 0%nat 0%nat); ("StrainFluctuations_22", q_strain_fluct q 1%nat 1%nat); ("StrainFluctuations_12", q_strain_fluct q 0%nat 1%nat)].
Definition row_3d (time : R) (q : quantities) : list (string * R) :=
  [("Time", time); ("VonMisesStress", table_von_mises_stress 3 (q_stress q)); ("VonMisesStressFluctuations", table_von_mises_stress 3 (q_stress_fluct q));
   ("VonMisesStrain", table_von_mises_strain 3 (total_strain q)); ("VonMisesStrainFluctuations", table_von_mises_strain 3 (q_strain_fluct q));
   ("Stress_11", q_stress q 0%nat 0%nat); ("Stress_22", q_stress q 1%nat 1%nat); ("Stress_33", q_stress q 2%nat 2%nat); ("Stress_23", q_stress q 1%nat 2%nat); ("Stress_13", q_stress q 0%nat 2%nat); ("Stress_12", q_stress q 0%nat 1%nat);
   ("Strain_11", q_strain q 0%nat 0%nat + q_strain_fluct q 0%nat 0%nat); ("Strain_22", q_strain q 1%nat 1%nat + q_strain_fluct q 1%nat 1%nat); ("Strain_33", q_strain q 2%nat 2%nat + q_strain_fluct q 2%nat 2%nat);
   ("Strain_23", q_strain q 1%nat 2%nat + q_strain_fluct q 1%nat 2%nat); ("Strain_13", q_strain q 0%nat 2%nat + q_strain_fluct q 0%nat 2%nat); ("Strain_12", q_strain q 0%nat 1%nat + q_strain_fluct q 0%nat 1%nat);
   ("StressFluctuations_11", q_stress_fluct q 0%nat 0%nat); ("StressFluctuations_22", q_stress_fluct q 1%nat 1%nat); ("StressFluctuations_33", q_stress_fluct q 2%nat 2%nat);
   ("StressFluctuations_23", q_stress_fluct q 1%nat 2%nat); ("StressFluctuations_13", q_stress_fluct q 0%nat 2%nat); ("StressFluctuations_12", q_stress_fluct q 0%nat 1%nat);
   ("StrainFluctuations_11", q_strain_fluct q 0%nat 0%nat); ("StrainFluctuations_22", q_strain_fluct q 1%nat 1%nat); ("StrainFluctuations_33", q_strain_fluct q 2%nat 2%nat);
   ("StrainFluctuations_23", q_strain_fluct q 1%nat 2%nat); ("StrainFluctuations_13", q_strain_fluct q 0%nat 2%nat); ("StrainFluctuations_12", q_strain_fluct q 0%nat 1%nat)].
(** postprocessing.cc:1064-1115 and 1117-1179, update_table_handler_values. *)
Definition update_table (d : nat) (t : table) (time : R) (q : quantities) : table :=
  start_new_row (fold_left (fun t v => add_value t (fst v) (snd v)) (if Nat.eqb d 2 then row_2d time q else row_3d time q) t).

(** The tables in memory and the contents of the files: homogenization.txt (created empty in
    initialize_calls; a table is appended by output_macroscopic_quantities_to_file) and
    stress12_vs_shear_strain_at_boundary.txt (created anew in every postprocessing). *)
(** simple_shear.cc:77-80, 621-631, 695-707. *)
Record files := mk_files { f_homogenization : table; f_boundary : table; f_homogenization_file : list table; f_boundary_file : option table }.
(** simple_shear.cc:614-637, initialize_calls; postprocessing.cc:660-727, the boundary table
    declares its two columns. *)
Definition files_at_start : files :=
  mk_files homogenization_table (declare_column (declare_column [] "shear_at_upper_boundary") "stress_12_at_upper_boundary") [] None.

Section Run.
Context {H : Type}.
(** run_time_parameters.cc:1923-1960, flag_compute_homogenized_quantities and
    homogenization_frequency; [measure] and [stress_12]: the quantities computed from the solution (ModelPost, ModelTable). *)
Record output_settings := mk_output_settings { o_dim : nat; o_flag : bool; o_frequency : Z }.
Variables (o : output_settings) (measure : sstate H -> quantities) (l : loading) (initial : R) (stress_12 : sstate H -> R) (end_ : R).

(** simple_shear.cc:676-733, postprocessing(): C++ evaluates the modulo only if the flag is set. *)
Definition postprocessing (x : accepted H) (f : files) : result files :=
  let r := ac_record x in
  let row := update_table (o_dim o) (f_homogenization f) (ModelLoading.st_time r) (measure (ac_state x)) in
  rbind (if o_flag o then
           if Z.eqb (o_frequency o) 0 then UB
           else Ok (if orb (Z.eqb (st_number r mod o_frequency o) 0) (Reqb (ModelLoading.st_time r) end_) then row else f_homogenization f)
         else Ok (f_homogenization f)) (fun h =>
  let b := add_value (add_value (f_boundary f) "shear_at_upper_boundary" (table_shear l initial (ModelLoading.st_time r)))
             "stress_12_at_upper_boundary" (stress_12 (ac_state x)) in
  rbind (write_text b) (fun text => Ok (mk_files h b (f_homogenization_file f) (Some text)))).
(** simple_shear.cc:862-919: postprocessing after every accepted step; the homogenisation table
    is written after the loop, so only if no exception left it. *)
Fixpoint postprocess_all (xs : list (accepted H)) (f : files) : result files :=
  match xs with [] => Ok f | x :: xs' => rbind (postprocessing x f) (postprocess_all xs') end.
Definition files_of_run (tr : list (accepted H)) (e : program_end) : result files :=
  rbind (postprocess_all tr files_at_start) (fun f =>
  match e with
  | Completed => rbind (write_text (f_homogenization f)) (fun text =>
      Ok (mk_files (f_homogenization f) (f_boundary f) (f_homogenization_file f ++ [text])%list (f_boundary_file f)))
  | _ => Ok f
  end).
End Run.
