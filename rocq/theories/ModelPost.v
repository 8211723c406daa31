(** * Model of the post-processing code
    (source/postprocessing.cc, the damage projection and the macroscopic damage of
    source/gradient_crystal_plasticity/assembly.cc:1763-2092 and
    gradient_crystal_plasticity_solver.cc:197-231) and of the dimensionless form
    (source/run_time_parameters.cc:724-788).

    Arithmetic is over the reals, with IEEE exceptional values only where the code divides. *)
From Coq Require Import String Ascii DecimalString.
From Verif Require Import Num Tensors ModelElastic ModelMicro ModelAssembly.
Open Scope R_scope.

(** ** Graphical output *)

(** source/postprocessing.cc:33-44: identity_tensor<d>() - 1/3 outer_product(I, I); the factor 1/3
    is used for d = 2 as well.  deal.II's identity_tensor is the symmetric one. *)
Definition identity_tensor : ten4 := fun i j k l =>
  (kron i k * kron j l + kron i l * kron j k) / 2.
Definition deviatoric_projector : ten4 := fun i j k l =>
  identity_tensor i j k l - 1 / 3 * (kron i j * kron k l).

(** source/postprocessing.cc:536-546, get_von_mises_stress. *)
Definition von_mises_stress (sigma : mat) : R :=
  let dev := c4 3 deviatoric_projector sigma in sqrt (3 / 2 * ddot 3 dev dev).
(** source/postprocessing.cc:551-560, get_von_mises_plastic_strain. *)
Definition von_mises_plastic_strain (d : nat) (eps : mat) : R :=
  let dev := c4 d deviatoric_projector eps in sqrt (2 / 3 * ddot d dev dev).

(** source/postprocessing.cc:513-531, convert_2d_to_3d. *)
Definition convert_2d_to_3d (d : nat) (A : mat) : mat :=
  match d with
  | 3%nat => A
  | _ => fun i j => match i, j with
         | 0%nat, 0%nat => A 0%nat 0%nat
         | 1%nat, 1%nat => A 1%nat 1%nat
         | 0%nat, 1%nat | 1%nat, 0%nat => A 0%nat 1%nat
         | _, _ => 0
         end
  end.

(** source/postprocessing.cc:50-55, voigt_indices. *)
Definition voigt_indices : list (nat * nat) := [(0,0); (1,1); (2,2); (1,2); (0,2); (0,1)]%nat.
Definition voigt (i : nat) : nat * nat := nth i voigt_indices (0, 0)%nat.

(** include/gCP/run_time_parameters.h, the members of CharacteristicQuantities the output uses. *)
(** include/gCP/run_time_parameters.h:715-744. *)
Record scales := mk_scales { sc_displacement : R; sc_strain : R; sc_stress : R; sc_dislocation : R }.
(** source/postprocessing.cc:57-61: "dimensionless" output resets them to one. *)
Definition output_scales (flag_output_dimensionless_quantities : bool) (s : scales) : scales :=
  if flag_output_dimensionless_quantities then mk_scales 1 1 1 1 else s.

(** The post-processor object and what it reads from its collaborators. *)
(** include/gCP/postprocessing.h:31-96, data members. *)
Record post := mk_post {
  pp_dim : nat; pp_ns : nat; pp_nc : nat;        (* dim, n_slips, n_crystals *)
  pp_decohesion : bool;                          (* fe_field->is_decohesion_allowed() *)
  pp_light : bool; pp_fluctuations : bool;       (* flag_light_output, flag_output_fluctuations *)
  pp_scales : scales;
  pp_N0 : R;                                     (* dimensionless_numbers[0] *)
  pp_macro : mat;                                (* macroscopic_strain *)
  pp_dir : nat -> nat -> vec;                    (* get_slip_direction(crystal, slip) *)
  pp_ort : nat -> nat -> vec;                    (* get_slip_orthogonal(crystal, slip) *)
  pp_P : nat -> nat -> mat;                      (* get_symmetrized_schmid_tensor(crystal, slip) *)
  pp_C3 : nat -> ten4                            (* get_stiffness_tetrad_3d(material_id) *)
}.

(** std::setw(2) << std::setfill('0') << n. *)
(** source/postprocessing.cc:83. *)
Definition two_digits (n : nat) : string :=
  let s := NilZero.string_of_uint (Nat.to_uint n) in
  if Nat.ltb (String.length s) 2 then String "0"%char s else s.
(** source/postprocessing.cc:80-90. *)
Definition slip_name (slip_id : nat) : string := ("Slip_" ++ two_digits (slip_id + 1))%string.

(** source/postprocessing.cc:72-140, get_names. *)
Definition get_names (p : post) : list string :=
  (repeat "Displacement"%string (pp_dim p) ++ map slip_name (seq 0 (pp_ns p)) ++
   (if pp_light p then [] else
    ["EquivalentPlasticStrain"%string; "EquivalentAbsolutePlasticStrain"%string;
     "EquivalentEdgeDislocationDensity"%string; "EquivalentScrewDislocationDensity"%string;
     "VonMisesStress"%string; "VonMisesPlasticStrain"%string;
     "Stress_11"%string; "Stress_22"%string; "Stress_33"%string; "Stress_23"%string; "Stress_13"%string; "Stress_12"%string;
     "Strain_11"%string; "Strain_22"%string; "Strain_33"%string; "Strain_23x2"%string; "Strain_13x2"%string; "Strain_12x2"%string;
     "ElasticStrain_11"%string; "ElasticStrain_22"%string; "ElasticStrain_33"%string;
     "ElasticStrain_23x2"%string; "ElasticStrain_13x2"%string; "ElasticStrain_12x2"%string;
     "PlasticStrain_11"%string; "PlasticStrain_22"%string; "PlasticStrain_33"%string;
     "PlasticStrain_23x2"%string; "PlasticStrain_13x2"%string; "PlasticStrain_12x2"%string] ++
    (if pp_fluctuations p then
    ["VonMisesStressFluctuations"%string;
     "StressFluctuations_11"%string; "StressFluctuations_22"%string; "StressFluctuations_33"%string;
     "StressFluctuations_23"%string; "StressFluctuations_13"%string; "StressFluctuations_12"%string;
     "StrainFluctuations_11"%string; "StrainFluctuations_22"%string; "StrainFluctuations_33"%string;
     "StrainFluctuations_23x2"%string; "StrainFluctuations_13x2"%string; "StrainFluctuations_12x2"%string] else []))).

Inductive interpretation := part_of_vector | scalar.
(** source/postprocessing.cc:143-212, get_data_component_interpretation. *)
Definition get_interpretation (p : post) : list interpretation :=
  repeat part_of_vector (pp_dim p) ++ map (fun _ => scalar) (seq 0 (pp_ns p)) ++
  (if pp_light p then [] else repeat scalar 18 ++ repeat scalar 6 ++ repeat scalar 6 ++
    (if pp_fluctuations p then repeat scalar 13 else [])).

(** One assignment to the output vector: [=] or [+=]. *)
(** The assignments of source/postprocessing.cc:255-505. *)
Inductive write := WSet (k : nat) (v : R) | WAdd (k : nat) (v : R).
(** The index on the left of an assignment in source/postprocessing.cc:255-505. *)
Definition target (w : write) : nat := match w with WSet k _ | WAdd k _ => k end.
(** An assignment in source/postprocessing.cc:255-505. *)
Definition do_write (f : nat -> R) (w : write) : nat -> R :=
  match w with
  | WSet j v => fun k => if Nat.eqb k j then v else f k
  | WAdd j v => fun k => if Nat.eqb k j then f k + v else f k
  end.

Section Point.
  Variable p : post.
  Variable material : nat.               (* current_cell->material_id() *)
  Variable vals : nat -> R.              (* inputs.solution_values[q] *)
  Variable grads : nat -> vec.           (* inputs.solution_gradients[q] *)

  (** source/postprocessing.cc:312-313 and the component of one slip, 360-361. *)
  Definition index_offset : nat := if pp_decohesion p then (pp_dim p * pp_nc p)%nat else pp_dim p.
  Definition slip_component (slip_id crystal_id : nat) : nat :=
    (index_offset + slip_id + pp_ns p * crystal_id)%nat.

  (** source/postprocessing.cc:335-367: the displacement gradient. *)
  Definition displacement_gradient : mat := fun i j =>
    if pp_decohesion p then sumn (pp_nc p) (fun c => grads (i + pp_dim p * c) j) else grads i j.
  (** 402-409: the plastic strain. *)
  Definition out_plastic_strain : mat := fun i j =>
    sumn (pp_ns p) (fun a => sumn (pp_nc p) (fun c => vals (slip_component a c) * pp_P p c a i j)).
  (** 386-400: the two sums of squares under the square roots. *)
  Definition edge_sum : R :=
    sumn (pp_ns p) (fun a => sumn (pp_nc p) (fun c => (dot (pp_dim p) (grads (slip_component a c)) (pp_dir p c a)) ^ 2)).
  Definition screw_sum : R :=
    sumn (pp_ns p) (fun a => sumn (pp_nc p) (fun c => (dot (pp_dim p) (grads (slip_component a c)) (pp_ort p c a)) ^ 2)).
  (** 425-446 *)
  Definition out_strain : mat := madd (symmetrize displacement_gradient) (pp_macro p).
  Definition out_elastic_strain : mat := msub out_strain (mscal (pp_N0 p) out_plastic_strain).
  Definition out_stress : mat := c4 3 (pp_C3 p material) (convert_2d_to_3d (pp_dim p) out_elastic_strain).
  (** 478-493: the characteristic stress multiplies the tensor. *)
  Definition fluct_strain : mat := symmetrize displacement_gradient.
  Definition fluct_stress : mat :=
    c4 3 (fun i j k l => sc_stress (pp_scales p) * pp_C3 p material i j k l)
       (convert_2d_to_3d (pp_dim p) (msub fluct_strain (mscal (pp_N0 p) out_plastic_strain))).

  (** 335-367: displacement slots. *)
  Definition displacement_writes : list write :=
    flat_map (fun i =>
      if pp_decohesion p
      then map (fun c => WAdd i (sc_displacement (pp_scales p) * vals (i + pp_dim p * c)%nat)) (seq 0 (pp_nc p))
      else [WSet i (sc_displacement (pp_scales p) * vals i)]) (seq 0 (pp_dim p)).
  (** 370-411: slots filled inside the double loop over slips and crystals. *)
  Definition slip_writes : list write :=
    flat_map (fun a => flat_map (fun c =>
      WAdd (pp_dim p + a) (vals (slip_component a c)) ::
      (if pp_light p then [] else
        [WAdd (pp_dim p + pp_ns p) (vals (slip_component a c));
         WAdd (pp_dim p + pp_ns p + 1) (Rabs (vals (slip_component a c)))]))
      (seq 0 (pp_nc p))) (seq 0 (pp_ns p)).
  (** (i < 3 ? 1.0 : 2.0) *)
  (** source/postprocessing.cc:456, 462, 468 and 501. *)
  Definition shear_factor (i : nat) : R := if Nat.ltb i 3 then 1 else 2.
  (** source/postprocessing.cc:413-474, indexing with voigt_indices. *)
  Definition entry_of (A : mat) (i : nat) : R := A (fst (voigt i)) (snd (voigt i)).
  (** 413-474 *)
  Definition tensor_writes : list write :=
    let o := (pp_dim p + pp_ns p)%nat in let s := pp_scales p in
    [WSet (o + 2) (sc_dislocation s * sqrt edge_sum);
     WSet (o + 3) (sc_dislocation s * sqrt screw_sum);
     WSet (o + 4) (sc_stress s * von_mises_stress out_stress);
     WSet (o + 5) (von_mises_plastic_strain (pp_dim p) out_plastic_strain)] ++
    flat_map (fun i =>
      [WSet (o + 6 + i) (sc_stress s * entry_of out_stress i);
       WSet (o + 12 + i) (shear_factor i * sc_strain s * entry_of (convert_2d_to_3d (pp_dim p) out_strain) i);
       WSet (o + 18 + i) (shear_factor i * sc_strain s * entry_of (convert_2d_to_3d (pp_dim p) out_elastic_strain) i);
       WSet (o + 24 + i) (shear_factor i * entry_of (convert_2d_to_3d (pp_dim p) out_plastic_strain) i)])
      (seq 0 (List.length voigt_indices)).
  (** 476-512 *)
  Definition fluctuation_writes : list write :=
    let o := (pp_dim p + pp_ns p)%nat in let s := pp_scales p in
    WSet (o + 30) (sc_stress s * von_mises_stress fluct_stress) ::
    flat_map (fun i =>
      [WSet (o + 31 + i) (sc_stress s * entry_of fluct_stress i);
       WSet (o + 37 + i) (shear_factor i * sc_strain s * entry_of (convert_2d_to_3d (pp_dim p) fluct_strain) i)])
      (seq 0 (List.length voigt_indices)).
  Definition all_writes : list write :=
    displacement_writes ++ slip_writes ++
    (if pp_light p then [] else tensor_writes ++ (if pp_fluctuations p then fluctuation_writes else [])).

  (** source/postprocessing.cc:255-505, evaluate_vector_field at one point.  deal.II hands over a
      vector with one entry per name; it is zeroed first.  Writing past its end is undefined. *)
  Definition evaluate_vector_field : result (list R) :=
    let n := List.length (get_names p) in
    if forallb (fun w => Nat.ltb (target w) n) all_writes
    then Ok (map (fold_left do_write all_writes (fun _ => 0)) (seq 0 n))
    else UB.
End Point.

(** ** Slip-based output (SlipBasedPostprocessor), source/postprocessing.cc:567-664 *)
(** 587-600 *)
Definition sb_names (output_name : string) (n_slips : nat) : list string :=
  map (fun a => output_name ++ NilZero.string_of_uint (Nat.to_uint a))%string (seq 0 n_slips).
(** 632-664 at one point. *)
Definition sb_writes (d ns nc : nat) (decohesion : bool) (vals : nat -> R) : list write :=
  flat_map (fun a => map (fun c =>
    WAdd a (Rabs (vals ((if decohesion then d * nc else d) + a + ns * c)%nat))) (seq 0 nc)) (seq 0 ns).
Definition sb_evaluate (d ns nc : nat) (decohesion : bool) (vals : nat -> R) : result (list R) :=
  let ws := sb_writes d ns nc decohesion vals in
  if forallb (fun w => Nat.ltb (target w) ns) ws
  then Ok (map (fold_left do_write ws (fun _ => 0)) (seq 0 ns)) else UB.

(** ** Homogenisation *)
(** A cell of the triangulation as the loop of compute_macroscopic_stress sees it: its crystal
    (dimension, stiffness, Schmid tensors, macroscopic strain ...), its finite element data and
    the local coefficients of the solution. *)
(** source/postprocessing.cc:1255-1345, what the cell loop reads. *)
Record hcell := mk_hcell { hc_crystal : crystal; hc_element : element; hc_U : nat -> R }.
(** source/postprocessing.cc:1290-1330: the integrals over one cell.  All cells use the single
    quadrature rule of the collection. *)
Definition cell_stress (c : hcell) (i j : nat) : R :=
  sumn (el_nq (hc_element c)) (fun q =>
    stress_at (hc_crystal c) (hc_element c) (hc_U c) q i j * el_w (hc_element c) q).
Definition stress_fluct_at (c : crystal) (e : element) (U : nat -> R) (q : nat) : mat :=
  c4 (cr_dim c) (cr_C c) (elastic_strain (cr_N c 0) (cr_P c) (strain_at e U q) (slip_at e U q) (cr_ns c)).
Definition cell_stress_fluct (c : hcell) (i j : nat) : R :=
  sumn (el_nq (hc_element c)) (fun q =>
    stress_fluct_at (hc_crystal c) (hc_element c) (hc_U c) q i j * el_w (hc_element c) q).
Definition cell_strain_fluct (c : hcell) (i j : nat) : R :=
  sumn (el_nq (hc_element c)) (fun q => strain_at (hc_element c) (hc_U c) q i j * el_w (hc_element c) q).
Definition cell_volume (c : hcell) : R := sumn (el_nq (hc_element c)) (el_w (hc_element c)).
(** [for (cell : ...) if (cell->is_locally_owned()) acc += f(cell)] on one rank. *)
(** source/postprocessing.cc:1280-1345. *)
Definition rank_sum {A} (f : A -> R) (owned : list A) : R := fold_left (fun acc c => acc + f c) owned 0.
(** dealii::Utilities::MPI::sum over the ranks. *)
(** source/postprocessing.cc:1349-1362. *)
Definition mpi_sum (l : list R) : R := fold_right Rplus 0 l.
(** 1258-1372, compute_macroscopic_stress: [ranks] lists each rank's locally owned cells. *)
Definition homogenise (f : hcell -> R) (ranks : list (list hcell)) : xr :=
  xdiv (Fin (mpi_sum (map (rank_sum f) ranks))) (Fin (mpi_sum (map (rank_sum cell_volume) ranks))).
Definition macroscopic_stress (ranks : list (list hcell)) (i j : nat) : xr :=
  homogenise (fun c => cell_stress c i j) ranks.
Definition microstress_fluctuations (ranks : list (list hcell)) (i j : nat) : xr :=
  homogenise (fun c => cell_stress_fluct c i j) ranks.
Definition microstrain_fluctuations (ranks : list (list hcell)) (i j : nat) : xr :=
  homogenise (fun c => cell_strain_fluct c i j) ranks.

(** source/postprocessing.cc:1068-1090 and 1117-1143: the von Mises columns of the homogenisation
    table, with the projector of dimension [d]. *)
Definition table_von_mises_stress (d : nat) (sigma : mat) : R :=
  let dev := c4 d deviatoric_projector sigma in sqrt (3 / 2 * ddot d dev dev).
Definition table_von_mises_strain (d : nat) (eps : mat) : R :=
  let dev := c4 d deviatoric_projector eps in sqrt (2 / 3 * ddot d dev dev).

(** ** Macroscopic damage *)
(** A grain boundary face of a locally owned cell: quadrature weights and damages. *)
(** assembly.cc:2031-2080, what the face loop reads. *)
Record dface := mk_dface { df_nq : nat; df_w : nat -> R; df_D : nat -> R }.
(** assembly.cc:2063-2078. *)
Definition face_damage (f : dface) : R := sumn (df_nq f) (fun q => df_D f q * df_w f q).
(** assembly.cc:2063-2078. *)
Definition face_area (f : dface) : R := sumn (df_nq f) (df_w f).
(** assembly.cc:2019-2092, get_macroscopic_damage.  [domain_integral_damage_variable] (line 2019)
    is declared without an initialiser: [None] below.  Reading it ([+=] on line 2076, or the
    argument of MPI::sum on line 2083) is undefined behaviour.  [with_initialiser] is the same code
    had the declaration been [= x]. *)
Definition accumulate (acc : option R) (v : R) : result (option R) :=
  match acc with Some a => Ok (Some (a + v)) | None => UB end.
Fixpoint accumulate_faces (acc : option R) (fs : list dface) : result (option R) :=
  match fs with
  | [] => Ok acc
  | f :: fs' => rbind (accumulate acc (face_damage f)) (fun a => accumulate_faces a fs')
  end.
Fixpoint mpi_sum_damage (init : option R) (ranks : list (list dface)) : result R :=
  match ranks with
  | [] => Ok 0
  | fs :: ranks' =>
      rbind (accumulate_faces init fs) (fun acc =>
        match acc with
        | None => UB
        | Some a => rbind (mpi_sum_damage init ranks') (fun b => Ok (a + b))
        end)
  end.
Definition macroscopic_damage_from (init : option R) (ranks : list (list dface)) : result xr :=
  rbind (mpi_sum_damage init ranks) (fun s =>
    Ok (xdiv (Fin s) (Fin (mpi_sum (map (rank_sum face_area) ranks))))).
Definition get_macroscopic_damage (ranks : list (list dface)) : result xr :=
  macroscopic_damage_from None ranks.

(** ** Damage projection *)
(** One grain boundary face of a cell in the projection space: shape function values, weights,
    damages, local-to-global map.  Without hanging nodes [distribute_local_to_global] adds the
    local entries to the global ones; constrained degrees of freedom are not modelled. *)
(** assembly.cc:1763-2010, what the projection reads. *)
Record pface := mk_pface {
  pf_nq : nat; pf_nd : nat; pf_dof : nat -> nat; pf_w : nat -> R;
  pf_phi : nat -> nat -> R;   (* fe_face_values[extractor].value(i, q) *)
  pf_D : nat -> R
}.
(** assembly.cc:1806-1817 *)
Definition local_lumped (f : pface) (i : nat) : R :=
  sumn (pf_nq f) (fun q => sumn (pf_nd f) (fun j => pf_phi f i q * pf_phi f j q * pf_w f q)).
(** assembly.cc:1951-1973 *)
Definition local_rhs (f : pface) (i : nat) : R :=
  sumn (pf_nq f) (fun q => pf_phi f i q * pf_D f q * pf_w f q).
(** distribute_local_to_global without constraints. *)
(** assembly.cc:1833 and 1983. *)
Definition scatter (loc : pface -> nat -> R) (fs : list pface) (k : nat) : R :=
  fold_left (fun acc f => acc + sumn (pf_nd f) (fun i => if Nat.eqb (pf_dof f i) k then loc f i else 0)) fs 0.
(** gradient_crystal_plasticity_solver.cc:197-231, get_damage_at_grain_boundaries. *)
Definition projected_damage (fs : list pface) (k : nat) : R :=
  if Reqb (scatter local_lumped fs k) 0 then 0
  else scatter local_rhs fs k / scatter local_lumped fs k.

(** ** Dimensionless form *)
(** The reference values read by parse_parameters (run_time_parameters.cc:690-720); the reference
    time is read but used nowhere. *)
Record reference := mk_reference {
  rf_length : R; rf_displacement : R; rf_stiffness : R; rf_slip_resistance : R
}.
Record characteristic := mk_characteristic {
  ch_length : R; ch_displacement : R; ch_stiffness : R; ch_slip_resistance : R;
  ch_strain : R; ch_stress : R; ch_micro_traction : R; ch_body_force : R; ch_dislocation : R
}.
(** std::pow of a positive length. *)
(** run_time_parameters.cc:724-788, std::pow. *)
Definition rpow := Rpower.
(** run_time_parameters.cc:724-788, DimensionlessForm::init: [None] when the flag is off (all
    quantities and numbers keep the value 1). *)
Definition dimensionless_init (on : bool) (r : reference) (H : R) (v : vector_law)
  : characteristic * (nat -> R) :=
  if on then
    let strain := rf_displacement r / rf_length r in
    let stress := rf_stiffness r * strain in
    (mk_characteristic (rf_length r) (rf_displacement r) (rf_stiffness r) (rf_slip_resistance r)
       strain stress
       (vl_g0 v * rpow (vl_length v) (vl_p v) / rpow (rf_length r) (vl_p v - 1))
       (stress / rf_length r) (1 / rf_length r),
     fun k => match k with
       | 0%nat => rf_length r / rf_displacement r
       | 1%nat => H / rf_slip_resistance r
       | 2%nat => vl_g0 v / rf_slip_resistance r * rpow (vl_length v / rf_length r) (vl_p v)
       | _ => stress / rf_slip_resistance r
       end)
  else (mk_characteristic 1 1 1 1 1 1 1 1 1, fun _ => 1).
