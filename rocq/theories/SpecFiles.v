(** * What C98 means. *)
From Coq Require Import ZArith String.
From Verif Require Import Num Tensors ModelPost ModelLoading ModelTable ModelStep ModelProgram ModelFiles.
Open Scope R_scope.
Open Scope string_scope.

(** The column of a table with the given name. *)
Fixpoint column (t : table) (name : string) : option (list cell) :=
  match t with [] => None | (n, es) :: t' => if String.eqb n name then Some es else column t' name end.

(** The steps whose homogenised quantities are due: the multiples of the frequency and the step
    that reaches the end time. *)
Definition is_due {H} (frequency : Z) (end_ : R) (x : accepted H) : bool :=
  orb (Z.eqb (st_number (ac_record x) mod frequency) 0) (Reqb (ModelLoading.st_time (ac_record x)) end_).
Definition due {H} (frequency : Z) (end_ : R) (tr : list (accepted H)) : list (accepted H) := filter (is_due frequency end_) tr.

(** Component names of symmetric tensors and their indices. *)
Definition components : list (string * (nat * nat)) :=
  [("11", (0, 0)); ("22", (1, 1)); ("33", (2, 2)); ("23", (1, 2)); ("13", (0, 2)); ("12", (0, 1))]%nat.
(** A component is blank if the dimension does not have it. *)
Definition component_cell (d : nat) (m : mat) (ij : nat * nat) : cell :=
  if Nat.ltb (snd ij) d then Value (m (fst ij) (snd ij)) else Blank.

(** The table [t] lists the quantities of the states of [xs], one row each, in order. *)
Definition lists_the_quantities {H} (d : nat) (measure : sstate H -> quantities) (xs : list (accepted H)) (t : table) : Prop :=
  let rows (f : accepted H -> cell) := Some (map f xs) in
  let q x := measure (ac_state x) in
  let strain x := madd (q_strain (q x)) (q_strain_fluct (q x)) in
  column t "Time" = rows (fun x => Value (ModelLoading.st_time (ac_record x))) /\
  column t "VonMisesStress" = rows (fun x => Value (table_von_mises_stress d (q_stress (q x)))) /\
  column t "VonMisesStressFluctuations" = rows (fun x => Value (table_von_mises_stress d (q_stress_fluct (q x)))) /\
  column t "VonMisesStrain" = rows (fun x => Value (table_von_mises_strain d (strain x))) /\
  column t "VonMisesStrainFluctuations" = rows (fun x => Value (table_von_mises_strain d (q_strain_fluct (q x)))) /\
  forall name ij, In (name, ij) components ->
    column t ("Stress_" ++ name) = rows (fun x => component_cell d (q_stress (q x)) ij) /\
    column t ("Strain_" ++ name) = rows (fun x => component_cell d (strain x) ij) /\
    column t ("StressFluctuations_" ++ name) = rows (fun x => component_cell d (q_stress_fluct (q x)) ij) /\
    column t ("StrainFluctuations_" ++ name) = rows (fun x => component_cell d (q_strain_fluct (q x)) ij).
(** The boundary table lists the shear and the mean stress of the accepted steps. *)
Definition lists_the_boundary {H} (l : loading) (initial : R) (stress_12 : sstate H -> R) (xs : list (accepted H)) (t : table) : Prop :=
  column t "shear_at_upper_boundary" = Some (map (fun x => Value (table_shear l initial (ModelLoading.st_time (ac_record x)))) xs) /\
  column t "stress_12_at_upper_boundary" = Some (map (fun x => Value (stress_12 (ac_state x))) xs).
