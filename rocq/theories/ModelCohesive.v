(** * Model of the cohesive law, the contact law and the degradation function
    (source/constitutive_laws.cc:1175-1557, include/gCP/constitutive_laws.h:527-580).

    [AssertIsFinite], [Assert] are debug-only and not modelled: the model is the release
    build.  Divisions that can hit zero are done in [xr]. *)
From Verif Require Import Num Tensors ModelUtilities.
Open Scope R_scope.

(** constitutive_laws.cc:1175-1186, data members. *)
Record cohesive := mk_cohesive {
  crit_traction  : R;   (* critical_cohesive_traction *)
  crit_opening   : R;   (* critical_opening_displacement *)
  ratio          : R;   (* tangential_to_normal_stiffness_ratio *)
  char_stress    : R;   (* characteristic_stress *)
  char_disp      : R    (* characteristic_displacement *)
}.

(** macaulay_brackets on a quotient that may be NaN: [(value > 0) ? value : 0.0]. *)
(** source/utilities.cc:57-62, macaulay_brackets, on IEEE values. *)
Definition xmacaulay (v : xr) : xr := if xgtb v (Fin 0) then v else Fin 0.

(** source/constitutive_laws.cc:1381-1383 and 1418-1420. *)
Definition normal_projector (n : vec) : mat := symmetrize (outer n n).
(** source/constitutive_laws.cc:1385-1386 and 1422-1423. *)
Definition tangential_projector (n : vec) : mat := msub unit_mat (normal_projector n).

(** constitutive_laws.cc:1368-1401, get_effective_opening_displacement. *)
Definition effective_opening (d : nat) (r : R) (delta n : vec) : R :=
  let dn := dot d n delta in
  let dt := norm d (mv d (tangential_projector n) delta) in
  sqrt (macaulay_brackets dn * macaulay_brackets dn + r * r * dt * dt).

(** constitutive_laws.cc:1405-1470, get_effective_quantities: direction ... *)
Definition effective_direction (d : nat) (r : R) (delta n : vec) : vec :=
  let dn := dot d n delta in
  let t := mv d (tangential_projector n) delta in
  let v := vadd (vscal (macaulay_brackets dn) n) (vscal (r * r) t) in
  let e := effective_opening d r delta n in
  if Reqb e 0 then v else fun i => v i / e.

(** ... and identity tensor ([dn / abs(dn)] is 0/0 = NaN at [dn = 0], for which the
    brackets return 0). *)
(** source/constitutive_laws.cc:1455-1459. *)
Definition normal_switch (dn : R) : R :=
  match xmacaulay (xdiv (Fin dn) (Fin (Rabs dn))) with Fin x => x | _ => 0 end.
(** source/constitutive_laws.cc:1455-1463. *)
Definition effective_identity (d : nat) (r : R) (delta n : vec) : mat :=
  madd (mscal (normal_switch (dot d n delta)) (normal_projector n))
       (mscal (r * r) (tangential_projector n)).

(** include/gCP/constitutive_laws.h, get_effective_cohesive_traction (master relation). *)
(** include/gCP/constitutive_laws.h:512-523. *)
Definition effective_traction (c : cohesive) (x : R) : R :=
  crit_traction c * x / crit_opening c * exp (1 - x / crit_opening c).

(** constitutive_laws.cc:1190-1264, get_cohesive_traction.  The third branch is the
    release behaviour of [Assert(false, ...)]: the factor stays 1. *)
Definition rate (e old dt : R) : xr := xdiv (Fin (e - old)) (Fin dt).

Inductive branch := Loading | Unloading | Neither.
Definition branch_of (e mx : R) (rt : xr) : branch :=
  if Reqb e mx && negb (xltb rt (Fin 0)) && negb (match rt with NaN => true | _ => false end)
  then Loading
  else if Rltb e mx || (Reqb e mx && xltb rt (Fin 0)) then Unloading
  else Neither.

Definition traction_factor (c : cohesive) (e mx : R) (b : branch) : xr :=
  match b with
  | Loading => Fin (effective_traction c (char_disp c * e))
  | Unloading =>
      xdiv (Fin (effective_traction c (char_disp c * mx) * e)) (Fin mx)
  | Neither => Fin 1
  end.

Definition cohesive_traction (d : nat) (c : cohesive) (delta n : vec) (mx old dt : R)
  : nat -> xr :=
  let e := effective_opening d (ratio c) delta n in
  let f := traction_factor c e mx (branch_of e mx (rate e old dt)) in
  fun i => xdiv (xmul (Fin (effective_direction d (ratio c) delta n i)) f) (Fin (char_stress c)).

(** constitutive_laws.cc:1268-1340, get_jacobian. *)
Definition cohesive_jacobian (d : nat) (c : cohesive) (delta n : vec) (mx old dt : R)
  : nat -> nat -> xr :=
  let e := effective_opening d (ratio c) delta n in
  let dir := effective_direction d (ratio c) delta n in
  let I := effective_identity d (ratio c) delta n in
  fun i j =>
  xdiv
   (match branch_of e mx (rate e old dt) with
    | Loading =>
        Fin (crit_traction c / crit_opening c *
             exp (1 - char_disp c * e / crit_opening c) *
             (I i j - char_disp c * e / crit_opening c * symmetrize (outer dir dir) i j))
    | Unloading =>
        xmul (xdiv (Fin (effective_traction c (char_disp c * mx) / char_disp c)) (Fin mx))
             (Fin (I i j))
    | Neither => Fin 0
    end) (Fin (char_stress c)).

(** constitutive_laws.cc:1344-1364, get_free_energy_density. *)
Definition free_energy (c : cohesive) (x : R) : R :=
  crit_traction c * crit_opening c * exp 1 *
  (1 - (1 + x / crit_opening c) * exp (- x / crit_opening c)).

(** include/gCP/constitutive_laws.h:549-562, get_degradation_function_value. *)
Definition degradation (m : R) (damage : R) (couple : bool) : xr :=
  if couple then cpow (1 - damage) m else Fin 1.

(** include/gCP/constitutive_laws.h:566-580, get_degradation_function_derivative_value. *)
Definition degradation_derivative (m : R) (damage : R) (couple : bool) : xr :=
  if couple then xmul (Fin (- m)) (cpow (1 - damage) (m - 1)) else Fin 1.

(** constitutive_laws.cc:1485-1556, ContactLaw. *)
Record contact := mk_contact {
  penalty : R; ct_stress : R; ct_disp : R
}.

Definition contact_traction (d : nat) (c : contact) (delta n : vec) : vec :=
  fun i => 0 - penalty c / ct_stress c * ct_disp c * macaulay_brackets (- dot d delta n) * n i.

Definition contact_jacobian (d : nat) (c : contact) (delta n : vec) : mat :=
  let dn := dot d delta n in
  mscal (penalty c / ct_stress c *
         match xmacaulay (xdiv (Fin (- dn)) (Fin (Rabs dn))) with Fin x => x | _ => 0 end)
        (symmetrize (outer n n)).
