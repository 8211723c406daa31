(** * Assembly of a cell with the arrays it works in
    (source/gradient_crystal_plasticity/assembly.cc:704-1163, assembly_data.cc and
    include/gCP/assembly_data.h).

    WorkStream hands [assemble_local_residual] a Scratch and a Copy object that other cells have
    used before.  ModelAssembly describes what a cell contributes as a function of the cell; here
    the statements are executed one after the other on the arrays of both objects.
    Simplifications: FEValues objects are functions (values of shape functions and of finite
    element fields at a point); all crystals have the same number of quadrature points and of
    dofs per cell (the maxima stored in the scratch object, assembly_data.cc:22-36); the arrays
    are long enough; arrays that are written and never read again (face_neighbor_JxW_values, old
    displacements, local_matrix_for_inhomogeneous_bcs) are left out. *)
From Verif Require Import Num Tensors ModelElastic ModelMicro ModelCohesive ModelAssembly.
Open Scope R_scope.

(** The arrays of include/gCP/assembly_data.h:60-290: Scratch and Copy of the residual and, from
    Stiffness on, what those of the matrix have in addition (ModelScratchMatrix). *)
Inductive var :=
| JxW | Strain | Supply | Slips | OldSlips | Gradients | Elastic | Stress | VectorMicrostress | ResolvedStress | ScalarMicrostress
| Phi | SymGradPhi | ScalarPhi | GradScalarPhi
| FaceJxW | Normals | Moduli | FaceSlips | NeighbourSlips | Microtractions | DamageValues | Displacements | NeighbourDisplacements
| CohesiveTractions | ContactTractions | FacePhi | FaceScalarPhi | NeumannValues
| LocalRhs
| Stiffness | Schmid | ScalarJacobian | VectorJacobian | IntraGateaux | InterGateaux | CohesiveJacobian | ContactJacobian
| NeighbourFacePhi | NeighbourFaceScalarPhi
| LocalMatrix | CouplingMatrix | CellIndices | NeighbourIndices | AtBoundary | NeighboursIndices | CouplingMatrices.
Definition var_dec (v w : var) : {v = w} + {v <> w}.
Proof. decide equality. Defined.
(** Types of the entries (include/gCP/assembly_data.h:60-290). *)
Definition value (v : var) : Type :=
  match v with
  | JxW | Slips | OldSlips | ResolvedStress | ScalarMicrostress | ScalarPhi | FaceJxW | FaceSlips | NeighbourSlips | Microtractions | DamageValues | FaceScalarPhi => R
  | Strain | Elastic | Stress | SymGradPhi => mat
  | Supply | Gradients | Phi | GradScalarPhi | Normals | Displacements | NeighbourDisplacements | ContactTractions | FacePhi | NeumannValues => vec
  | VectorMicrostress | CohesiveTractions => nat -> xr
  | Moduli => (nat -> nat -> R) * (nat -> nat -> R)
  | LocalRhs => xr
  | Stiffness => ten4
  | Schmid | ContactJacobian => mat
  | ScalarJacobian | IntraGateaux | InterGateaux => nat -> nat -> R
  | VectorJacobian | CohesiveJacobian => nat -> nat -> xr
  | NeighbourFacePhi => vec
  | NeighbourFaceScalarPhi => R
  | LocalMatrix | CouplingMatrix => xr
  | CellIndices | NeighbourIndices => list nat
  | AtBoundary => bool
  | NeighboursIndices => list (list nat)
  | CouplingMatrices => list (nat -> nat -> xr)
  end.
(** Contents of both objects; arrays with one index use the second one as 0. *)
(** include/gCP/assembly_data.h:60-290. *)
Definition memory := forall v : var, nat -> nat -> value v.
(** Assignment to one entry (every statement of assembly.cc:717-1145). *)
Definition set (v : var) (i j : nat) (x : value v) (m : memory) : memory := fun w =>
  match var_dec v w with
  | left E => fun i' j' => if (Nat.eqb i' i && Nat.eqb j' j)%bool then eq_rect v value x w E else m w i' j'
  | right _ => m w
  end.
(** Statements in a row, and for loops (assembly.cc:717-1145). *)
Definition seq2 (f g : memory -> memory) : memory -> memory := fun m => g (f m).
Notation "f ;; g" := (seq2 f g) (at level 90, right associativity).
Fixpoint loop (n : nat) (f : nat -> memory -> memory) (m : memory) : memory :=
  match n with O => m | S k => f k (loop k f m) end.
(** A statement that is executed if a flag is set. *)
(** assembly.cc:736, 919, 946, 980, 1006, 1046. *)
Definition when (b : bool) (f : memory -> memory) : memory -> memory := if b then f else fun m => m.
(** value_list, get_function_values, get_JxW_values: the first [n] entries are assigned. *)
(** assembly.cc:728-757, 913-975, 1126-1135. *)
Definition fill (v : var) (n : nat) (x : nat -> value v) : memory -> memory := loop n (fun q => set v q 0 (x q)).
Definition fill_row (v : var) (a n : nat) (x : nat -> value v) : memory -> memory := loop n (fun q => set v a q (x q)).

(** What is looked up while the cell is visited: crystal, shape functions, solutions, histories,
    faces across grain boundaries, loaded faces; [v_supply] says whether there is a supply term. *)
(** assembly.cc:709-745 and 889-1120. *)
Record view := mk_view {
  v_crystal : crystal; v_element : element; v_U : nat -> R; v_Uold : nat -> R; v_resistance : nat -> nat -> R; v_supply : bool;
  v_faces : list (interface * gb_face * face_history * (nat -> R)); v_loads : list neumann_face }.

Section Cell.
Variable x : view.
Let c := v_crystal x.
Let e := v_element x.
Let nq := el_nq e.
Let nd := el_nd e.
Let ns := cr_ns c.
Let d := cr_dim c.

(** assembly.cc:715-717. *)
Definition reset_rhs : memory -> memory := fill LocalRhs nd (fun _ => Fin 0).
(** assembly.cc:727-757. *)
Definition get_fields : memory -> memory :=
  fill JxW nq (el_w e) ;;
  fill Strain nq (strain_at e (v_U x)) ;;
  when (v_supply x) (fill Supply nq (cr_supply c)) ;;
  loop ns (fun a =>
    fill_row Slips a nq (fun q => slip_at e (v_U x) q a) ;;
    fill_row OldSlips a nq (fun q => slip_at e (v_Uold x) q a) ;;
    fill_row Gradients a nq (fun q => slip_gradient_at e (v_U x) q a)).
(** assembly.cc:762-803. *)
Definition point_stresses (q : nat) : memory -> memory :=
  (fun m => set Elastic q 0 (madd (cr_macro c) (elastic_strain (cr_N c 0) (cr_P c) (m Strain q 0%nat) (fun a => m Slips a q) ns)) m) ;;
  (fun m => set Stress q 0 (c4 d (cr_C c) (m Elastic q 0%nat)) m) ;;
  loop ns (fun a =>
    (fun m => set VectorMicrostress a q (vectorial_microstress (cr_factor c) (cr_p c) d (cr_dir c a) (cr_ort c a) (m Gradients a q)) m) ;;
    (fun m => set ResolvedStress a q (resolved_shear_stress d (cr_P c a) (m Stress q 0%nat)) m) ;;
    (fun m => set ScalarMicrostress a q (scalar_microstress (cr_law c) (m Slips a q) (m OldSlips a q) (v_resistance x q a) (cr_dt c)) m)).
(** assembly.cc:806-830. *)
Definition point_shapes (q : nat) : memory -> memory :=
  loop nd (fun i => set Phi i 0 (el_phi e i q) ;; set SymGradPhi i 0 (el_eps e i q)) ;;
  loop ns (fun a => loop nd (fun i => set ScalarPhi a i (el_psi e a i q) ;; set GradScalarPhi a i (el_dpsi e a i q))).
(** assembly.cc:833-882. *)
Definition point_rhs (q : nat) : memory -> memory :=
  loop nd (fun i m => set LocalRhs i 0 (xadd (m LocalRhs i 0%nat) (xneg
    (if Nat.ltb (el_comp e i) d then
       Fin (balance_factor c * (ddot d (m SymGradPhi i 0%nat) (m Stress q 0%nat) - dot d (m Phi i 0%nat) (m Supply q 0%nat)) * m JxW q 0%nat)
     else
       let a := (el_comp e i - d)%nat in
       xmul (xsub (xmul (Fin (cr_N c 2)) (xdot d (m GradScalarPhi a i) (m VectorMicrostress a q)))
                  (Fin (m ScalarPhi a i * (cr_N c 3 * m ResolvedStress a q - m ScalarMicrostress a q))))
            (Fin (m JxW q 0%nat))))) m).
(** assembly.cc:760-883: loop over the quadrature points. *)
Definition bulk_part : memory -> memory := loop nq (fun q => point_stresses q ;; point_shapes q ;; point_rhs q).

Section Face.
Variables (p : interface) (f : gb_face) (h : face_history) (Un : nat -> R).
Let fq := fa_nq f.
(** assembly.cc:913-976. *)
Definition get_face_fields : memory -> memory :=
  fill FaceJxW fq (fa_w f) ;;
  fill Normals fq (fa_n f) ;;
  when (if_microtraction p)
    (fill Moduli fq (if_moduli p) ;;
     loop ns (fun a =>
       fill_row FaceSlips a fq (fun q => face_slip nd (fa_psi f) (v_U x) q a) ;;
       fill_row NeighbourSlips a fq (fun q => face_slip nd (fa_npsi f) Un q a))) ;;
  when (if_decohesion p)
    (fill Displacements fq (face_displacement nd (fa_phi f) (v_U x)) ;;
     fill NeighbourDisplacements fq (face_displacement nd (fa_nphi f) Un)).
(** assembly.cc:979-1038. *)
Definition face_values (q : nat) : memory -> memory :=
  when (if_microtraction p)
    (loop ns (fun a =>
       (fun m => set Microtractions a q (microtraction (if_lambda p) (if_chi p) ns (m Moduli q 0%nat) (fun b => m FaceSlips b q) (fun b => m NeighbourSlips b q) a) m) ;;
       loop nd (fun i => set FaceScalarPhi a i (fa_psi f a i q)))) ;;
  set DamageValues q 0 0 ;;
  when (if_decohesion p)
    (set DamageValues q 0 (fh_damage h q) ;;
     (fun m => let delta := vsub (m NeighbourDisplacements q 0%nat) (m Displacements q 0%nat) in
       set CohesiveTractions q 0 (cohesive_traction d (if_cohesive p) delta (m Normals q 0%nat) (fh_max h q) (fh_old h q) (if_dt p)) m) ;;
     (fun m => let delta := vsub (m NeighbourDisplacements q 0%nat) (m Displacements q 0%nat) in
       set ContactTractions q 0 (contact_traction d (if_contact p) delta (m Normals q 0%nat)) m) ;;
     loop nd (fun i => set FacePhi i 0 (fa_phi f i q))).
(** assembly.cc:1041-1093. *)
Definition face_rhs (q : nat) : memory -> memory :=
  loop nd (fun i =>
    if Nat.ltb (el_comp e i) d then
      when (if_decohesion p) (fun m => set LocalRhs i 0 (xadd (m LocalRhs i 0%nat)
        (xmul (xmul (Fin (if_factor p))
                 (xdot d (m FacePhi i 0%nat) (fun r =>
                    xadd (xmul (degradation (if_exponent p) (m DamageValues q 0%nat) (if_couple_macro p)) (m CohesiveTractions q 0%nat r))
                         (Fin (m ContactTractions q 0%nat r)))))
              (Fin (m FaceJxW q 0%nat)))) m)
    else
      when (if_microtraction p) (fun m => let a := (el_comp e i - d)%nat in set LocalRhs i 0 (xadd (m LocalRhs i 0%nat)
        (xmul (xmul (Fin (if_N p 2 * m FaceScalarPhi a i)) (degradation (if_exponent p) (m DamageValues q 0%nat) (if_couple_micro p)))
              (Fin (m Microtractions a q * m FaceJxW q 0%nat)))) m)).
(** assembly.cc:893-1096. *)
Definition face_part : memory -> memory := get_face_fields ;; loop fq (fun q => face_values q ;; face_rhs q).
End Face.

(** assembly.cc:1098-1145. *)
Definition load_part (f : neumann_face) : memory -> memory :=
  fill NeumannValues (nf_nq f) (nf_traction f) ;;
  fill FaceJxW (nf_nq f) (nf_w f) ;;
  loop (nf_nq f) (fun q =>
    loop nd (fun i => set FacePhi i 0 (nf_phi f i q)) ;;
    loop nd (fun i m => set LocalRhs i 0 (xadd (m LocalRhs i 0%nat) (Fin (dot d (m FacePhi i 0%nat) (m NeumannValues q 0%nat) * m FaceJxW q 0%nat))) m)).
(** assembly.cc:709-1146, assemble_local_residual. *)
Definition assemble_local_residual : memory -> memory :=
  reset_rhs ;; get_fields ;; bulk_part ;;
  (fun m => fold_left (fun m y => let '(p, f, h, Un) := y in face_part p f h Un m) (v_faces x) m) ;;
  (fun m => fold_left (fun m f => load_part f m) (v_loads x) m).
End Cell.

(** WorkStream (deal.II) with any number of scratch and copy objects: each item of the schedule
    says which cell is assembled with which of them; the copier reads local_rhs afterwards. *)
(** assembly.cc:640-690, the call of WorkStream::run. *)
Fixpoint work_stream (schedule : list (nat * view)) (objects : nat -> memory) : list (nat -> xr) :=
  match schedule with
  | [] => []
  | (k, x) :: schedule' =>
      let m := assemble_local_residual x (objects k) in
      (fun i => m LocalRhs i 0%nat) :: work_stream schedule' (fun l => if Nat.eqb l k then m else objects l)
  end.
(** assembly_data.cc:229-308: the constructors fill the supply values with zero tensors. *)
Definition constructed_supply (m : memory) : Prop := forall q, m Supply q 0%nat = (fun _ => 0).
