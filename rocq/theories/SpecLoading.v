(** * What C50-C56 mean. *)
From Coq Require Import ZArith String.
From Verif Require Import Num ModelLoading.
Open Scope R_scope.

(** Parameters admitted by the parameter file (positive durations, at least one step per
    phase) for which the step counts fit into 32 bits. *)
Definition valid_loading (l : loading) : Prop :=
  0 < l_duration_mono l /\ (1 <= l_n_mono l < 2 ^ 31)%Z /\
  0 < l_duration l /\ (1 <= l_n_load l < 2 ^ 31)%Z /\
  0 < l_period l /\ (1 <= l_n_quarter l < 2 ^ 29)%Z /\ (0 <= l_n_cycles l < 2 ^ 31)%Z /\
  (l_n_load l + 4 * l_n_quarter l * l_n_cycles l < 2 ^ 32)%Z.

(** Number of steps of the configured programme. *)
Definition planned_steps (l : loading) : Z :=
  match l_type l with
  | Monotonic => l_n_mono l
  | Cyclic => l_n_load l + 4 * l_n_quarter l * l_n_cycles l
              + (if l_skip_unloading l then 0 else l_n_load l)
  end%Z.
(** Simulated time of the configured programme. *)
Definition configured_time (l : loading) : R :=
  match l_type l with
  | Monotonic => l_duration_mono l
  | Cyclic => (if l_skip_unloading l then l_duration l else l_duration l + l_duration l)
              + IZR (l_n_cycles l) * l_period l
  end.
(** Size of planned step number [k] (0-based): the loading phase in equal steps, a quarter of
    the period in equal steps, unloading like loading. *)
Definition planned_dt (l : loading) (k : nat) : R :=
  match l_type l with
  | Monotonic => l_duration_mono l / IZR (l_n_mono l)
  | Cyclic =>
      if Nat.ltb k (Z.to_nat (l_n_load l)) then l_duration l / IZR (l_n_load l)
      else if Nat.ltb k (Z.to_nat (l_n_load l + 4 * l_n_quarter l * l_n_cycles l))
      then l_period l / 4 / IZR (l_n_quarter l)
      else l_duration l / IZR (l_n_load l)
  end.
(** Time reached after [k] planned steps. *)
Definition planned_time (l : loading) (k : nat) : R := sumn k (planned_dt l).
(** After every planned step but the last, at least 5% of that step is still to come. *)
Definition no_negligible_rest (l : loading) : Prop :=
  forall k, (k + 1 < Z.to_nat (planned_steps l))%nat ->
    planned_dt l k / 20 <= configured_time l - planned_time l (k + 1).

(** Step numbers at which the direction of loading changes. *)
Definition load_reversal (l : loading) (step : Z) : Prop :=
  l_type l = Cyclic /\
  (step = l_n_load l \/
   step = l_n_load l + 4 * l_n_quarter l * l_n_cycles l \/
   (l_n_load l < step < l_n_load l + 4 * l_n_quarter l * l_n_cycles l /\
    exists m, step - l_n_load l = (4 * m + 1) * l_n_quarter l \/
              step - l_n_load l = (4 * m + 3) * l_n_quarter l))%Z.

(** Step numbers 1, 2, 3, ... *)
Definition numbered (first : Z) (tr : list step_record) : Prop :=
  forall k r, nth_error tr k = Some r -> st_number r = (first + Z.of_nat k)%Z.
(** Output is written exactly at the multiples of the frequency and at the last record. *)
Definition written_as_documented (freq : Z) (tr : list step_record) : Prop :=
  forall k r, nth_error tr k = Some r ->
    (st_written r = true <-> ((freq | st_number r)%Z \/ k = (length tr - 1)%nat)).

(** [arg] ends in the extension .prm. *)
Definition has_prm_extension (arg : string) : Prop := exists s, arg = (s ++ ".prm")%string.
