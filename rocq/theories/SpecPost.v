(** * What C59-C64 and C66 mean. *)
From Coq Require Import String Permutation.
From Verif Require Import Num Tensors ModelMicro ModelAssembly ModelPost.
Open Scope R_scope.

(** ** Stress states (C59) *)
Definition sym3 (s : mat) : Prop := forall i j, (i < 3)%nat -> (j < 3)%nat -> s i j = s j i.
Definition same3 (s t : mat) : Prop := forall i j, (i < 3)%nat -> (j < 3)%nat -> s i j = t i j.
Definition pressure (p : R) : mat := fun i j => if Nat.eqb i j then p else 0.
Definition hydrostatic (s : mat) : Prop := exists p, same3 s (pressure p).
(** Only [t] at position (a,b) and (b,a). *)
Definition only_at (a b : nat) (t : R) : mat := fun i j =>
  if ((Nat.eqb i a && Nat.eqb j b) || (Nat.eqb i b && Nat.eqb j a))%bool then t else 0.
(** The textbook formula in components. *)
Definition von_mises_formula (s : mat) : R :=
  let c i j := s i j in
  sqrt (((c 0%nat 0%nat - c 1%nat 1%nat) ^ 2 + (c 1%nat 1%nat - c 2%nat 2%nat) ^ 2
         + (c 2%nat 2%nat - c 0%nat 0%nat) ^ 2) / 2
        + 3 * (c 0%nat 1%nat ^ 2 + c 1%nat 2%nat ^ 2 + c 0%nat 2%nat ^ 2)).

(** ** The quantities behind the output names (C62, C63) *)
Section Quantities.
  Variable p : post.
  Variable material : nat.
  Variable u : nat -> R.              (* values of the solution components at the point *)
  Variable du : nat -> vec.           (* their gradients *)
  (** Solution component that carries displacement [i] of crystal [c] and slip [a] of crystal [c]:
      with decohesion every crystal has its own displacement, otherwise all share one. *)
  Definition displacement_component (c i : nat) : nat := if pp_decohesion p then (c * pp_dim p + i)%nat else i.
  Definition component_of_slip (c a : nat) : nat :=
    ((if pp_decohesion p then pp_nc p * pp_dim p else pp_dim p) + c * pp_ns p + a)%nat.
  (** Each crystal's functions vanish outside it, so that the field is the sum over crystals. *)
  Definition crystals_sum (f : nat -> R) : R := sumn (pp_nc p) f.
  Definition the_displacement (i : nat) : R :=
    if pp_decohesion p then crystals_sum (fun c => u (displacement_component c i)) else u i.
  Definition the_gradient (i j : nat) : R :=
    if pp_decohesion p then crystals_sum (fun c => du (displacement_component c i) j) else du i j.
  Definition the_slip (a : nat) : R := crystals_sum (fun c => u (component_of_slip c a)).
  Definition local_strain (i j : nat) : R := (the_gradient i j + the_gradient j i) / 2.
  Definition total_strain (i j : nat) : R := local_strain i j + pp_macro p i j.
  Definition the_plastic_strain (i j : nat) : R :=
    crystals_sum (fun c => sumn (pp_ns p) (fun a => u (component_of_slip c a) * pp_P p c a i j)).
  Definition the_elastic_strain (i j : nat) : R := total_strain i j - pp_N0 p * the_plastic_strain i j.
  (** Plane strain: the components outside the plane are zero. *)
  Definition in_space (A : nat -> nat -> R) : mat := fun i j =>
    if (Nat.ltb i (pp_dim p) && Nat.ltb j (pp_dim p))%bool then A i j else 0.
  Definition hooke_stress (A : nat -> nat -> R) : mat := fun i j =>
    sumn 3 (fun k => sumn 3 (fun l => pp_C3 p material i j k l * in_space A k l)).
  Definition the_stress : mat := hooke_stress the_elastic_strain.
  Definition the_fluctuating_stress : mat :=
    hooke_stress (fun i j => local_strain i j - pp_N0 p * the_plastic_strain i j).
  Definition gradient_projection (dir : nat -> nat -> vec) : R :=
    crystals_sum (fun c => sumn (pp_ns p) (fun a =>
      (sumn (pp_dim p) (fun i => du (component_of_slip c a) i * dir c a i)) ^ 2)).
  (** sqrt(2/3 e:e) with the deviator e (defined by the projector of the same dimension). *)
  Definition the_equivalent_plastic (e : nat -> nat -> R) : R :=
    sqrt (2 / 3 * sumn (pp_dim p) (fun i => sumn (pp_dim p) (fun j =>
      (e i j - (if Nat.eqb i j then sumn (pp_dim p) (fun k => e k k) / 3 else 0)) ^ 2))).

  Definition rows (pre : string) (shear : string) (fd fs : R) (A : mat) : list (string * R) :=
    [((pre ++ "_11")%string, fd * A 0%nat 0%nat);
     ((pre ++ "_22")%string, fd * A 1%nat 1%nat);
     ((pre ++ "_33")%string, fd * A 2%nat 2%nat);
     ((pre ++ "_23" ++ shear)%string, fs * A 1%nat 2%nat);
     ((pre ++ "_13" ++ shear)%string, fs * A 0%nat 2%nat);
     ((pre ++ "_12" ++ shear)%string, fs * A 0%nat 1%nat)].
  (** Name and value of everything in a full output besides displacements and slips. *)
  Definition full_table : list (string * R) :=
    let s := pp_scales p in
    [("EquivalentPlasticStrain"%string, sumn (pp_ns p) the_slip);
     ("EquivalentAbsolutePlasticStrain"%string,
      crystals_sum (fun c => sumn (pp_ns p) (fun a => Rabs (u (component_of_slip c a)))));
     ("EquivalentEdgeDislocationDensity"%string, sc_dislocation s * sqrt (gradient_projection (pp_dir p)));
     ("EquivalentScrewDislocationDensity"%string, sc_dislocation s * sqrt (gradient_projection (pp_ort p)));
     ("VonMisesStress"%string, sc_stress s * von_mises_formula the_stress);
     ("VonMisesPlasticStrain"%string, the_equivalent_plastic the_plastic_strain)]
    ++ rows "Stress" "" (sc_stress s) (sc_stress s) the_stress
    ++ rows "Strain" "x2" (sc_strain s) (2 * sc_strain s) (in_space total_strain)
    ++ rows "ElasticStrain" "x2" (sc_strain s) (2 * sc_strain s) (in_space the_elastic_strain)
    ++ rows "PlasticStrain" "x2" 1 2 (in_space the_plastic_strain).
  (** The fluctuation part; [k] is the factor put in front of stresses. *)
  Definition fluctuation_table (k : R) : list (string * R) :=
    let s := pp_scales p in
    [("VonMisesStressFluctuations"%string, k * von_mises_formula the_fluctuating_stress)]
    ++ rows "StressFluctuations" "" k k the_fluctuating_stress
    ++ rows "StrainFluctuations" "x2" (sc_strain s) (2 * sc_strain s) (in_space local_strain).
End Quantities.

(** Slot [k] of an output is called [nm], is a scalar field and holds [v]. *)
Definition slot (p : post) (out : list R) (k : nat) (nm : string) (how : interpretation) (v : R) : Prop :=
  nth_error (get_names p) k = Some nm /\ nth_error (get_interpretation p) k = Some how /\
  nth_error out k = Some v.

(** Inputs the library guarantees: symmetric tensors, dimension 2 or 3, a stiffness with the minor
    symmetry (so that stresses are symmetric). *)
Definition well_formed (p : post) : Prop :=
  (pp_dim p = 2%nat \/ pp_dim p = 3%nat) /\
  (forall i j, pp_macro p i j = pp_macro p j i) /\
  (forall c a i j, pp_P p c a i j = pp_P p c a j i) /\
  (forall m i j k l, pp_C3 p m i j k l = pp_C3 p m j i k l).

(** ** Averages (C60, C61) *)
(** A weighted sample and its mean. *)
Definition total (l : list (R * R)) : R := fold_right (fun x acc => fst x + acc) 0 l.
Definition moment (l : list (R * R)) : R := fold_right (fun x acc => fst x * snd x + acc) 0 l.
Definition is_mean (l : list (R * R)) (m : R) : Prop := total l * m = moment l.
(** The points of a cell with the value of a field there. *)
Definition sample_cell (f : hcell -> nat -> R) (c : hcell) : list (R * R) :=
  map (fun q => (el_w (hc_element c) q, f c q)) (seq 0 (el_nq (hc_element c))).
Definition sample (f : hcell -> nat -> R) (ranks : list (list hcell)) : list (R * R) :=
  flat_map (sample_cell f) (List.concat ranks).
(** Hooke stress at a point of a cell, macroscopic strain included. *)
Definition point_stress (i j : nat) (c : hcell) (q : nat) : R :=
  let k := hc_crystal c in let e := hc_element c in
  sumn (cr_dim k) (fun r => sumn (cr_dim k) (fun s => cr_C k i j r s *
    (cr_macro k r s + sumn (el_nd e) (fun n => hc_U c n * el_eps e n q r s)
     - cr_N k 0 * sumn (cr_ns k) (fun a => sumn (el_nd e) (fun n => hc_U c n * el_psi e a n q) * cr_P k a r s)))).
Definition point_strain (i j : nat) (c : hcell) (q : nat) : R :=
  sumn (el_nd (hc_element c)) (fun n => hc_U c n * el_eps (hc_element c) n q i j).
(** The points of grain boundary faces with their damage. *)
Definition sample_face (f : dface) : list (R * R) := map (fun q => (df_w f q, df_D f q)) (seq 0 (df_nq f)).
Definition sample_faces (ranks : list (list dface)) : list (R * R) := flat_map sample_face (List.concat ranks).

(** ** Dimensionless problem (C64) *)
(** The same crystal in the two formulations.  [k] uses physical units: all dimensionless numbers 1
    and the factor g0 l^p of the defect energy.  Dimensionless: lengths in units of the reference
    length, displacements, stiffness and slip resistances likewise; time is not scaled. *)
Definition scaled_law (ch : characteristic) (l : scalar_law) : scalar_law :=
  mk_scalar_law (sl_reg l) (sl_k l) (sl_H l) (sl_q l) (ch_slip_resistance ch) (sl_perfect l) (sl_rate_independent l).
Definition scaled_crystal (ch : characteristic) (N : nat -> R) (k : crystal) : crystal :=
  mk_crystal (cr_dim k) (cr_ns k) N
    (fun a b c d => cr_C k a b c d / ch_stiffness ch) (cr_P k) (scaled_law ch (cr_law k)) 1 (cr_p k) (cr_dir k) (cr_ort k)
    (fun r s => cr_macro k r s / ch_strain ch)
    (fun q r => cr_supply k q r / ch_body_force ch) (cr_dt k).
(** Element of the mesh with coordinates x / L. *)
Definition scaled_element (L : R) (d : nat) (e : element) : element :=
  mk_element (el_nq e) (el_nd e) (el_comp e) (fun q => el_w e q / L ^ d) (el_phi e)
    (fun i q r s => L * el_eps e i q r s) (el_psi e) (fun a i q r => L * el_dpsi e a i q r).
Definition scaled_dofs (ch : characteristic) (d : nat) (e : element) (U : nat -> R) : nat -> R :=
  fun i => if Nat.ltb (el_comp e i) d then U i / ch_displacement ch else U i.
