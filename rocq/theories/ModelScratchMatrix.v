(** * Assembly of a cell's matrices with the arrays it works in
    (source/gradient_crystal_plasticity/assembly.cc:9-617, assembly_data.cc and
    include/gCP/assembly_data.h:20-150).

    As ModelScratch, for assemble_local_jacobian and its Scratch and Copy objects, with the
    simplifications named there; FullMatrix and list members of the Copy object are entries and
    lists.  Arrays that are written and never read (face_neighbor_JxW_values, old displacements)
    and the order of factors are left out. *)
From Verif Require Import Num Tensors ModelElastic ModelMicro ModelCohesive ModelAssembly ModelScratch.
Open Scope R_scope.

(** What is looked up while the cell is visited; every face across a grain boundary comes with
    the dof indices of its neighbour. *)
(** assembly.cc:104-151 and 315-397. *)
Record matrix_view := mk_matrix_view {
  mv_crystal : crystal; mv_element : element; mv_U : nat -> R; mv_Uold : nat -> R; mv_resistance : nat -> nat -> R;
  mv_indices : list nat;               (* cell->get_dof_indices *)
  mv_boundary : bool;                  (* condition of assembly.cc:315-319 *)
  mv_faces : list (interface * gb_face * face_history * (nat -> R) * list nat) }.

Section Cell.
Variable x : matrix_view.
Let c := mv_crystal x.
Let e := mv_element x.
Let nq := el_nq e.
Let nd := el_nd e.
Let ns := cr_ns c.
Let d := cr_dim c.

(** An entry of the local matrices is increased. *)
(** assembly.cc:214-300 and 487-560. *)
Definition add_to (v : var) (i j : nat) : (memory -> value LocalMatrix) -> memory -> memory :=
  match v with
  | CouplingMatrix => fun t m => set CouplingMatrix i j (xadd (m CouplingMatrix i j) (t m)) m
  | _ => fun t m => set LocalMatrix i j (xadd (m LocalMatrix i j) (t m)) m
  end.
(** assembly.cc:103-111. *)
Definition reset_copy : memory -> memory :=
  loop nd (fun i => fill_row LocalMatrix i nd (fun _ => Fin 0)) ;;
  set AtBoundary 0 0 false ;; set NeighboursIndices 0 0 [] ;; set CouplingMatrices 0 0 [] ;;
  set CellIndices 0 0 (mv_indices x).
(** assembly.cc:116-151. *)
Definition get_matrix_fields : memory -> memory :=
  set Stiffness 0 0 (cr_C c) ;; fill Schmid ns (cr_P c) ;; fill JxW nq (el_w e) ;;
  loop ns (fun a =>
    fill_row Slips a nq (fun q => slip_at e (mv_U x) q a) ;;
    fill_row OldSlips a nq (fun q => slip_at e (mv_Uold x) q a) ;;
    fill_row Gradients a nq (fun q => slip_gradient_at e (mv_U x) q a)).
(** assembly.cc:156-198. *)
Definition matrix_point (q : nat) : memory -> memory :=
  (fun m => set ScalarJacobian q 0 (scalar_jacobian (cr_law c) (fun a => m Slips a q) (fun a => m OldSlips a q) (mv_resistance x q) (cr_dt c)) m) ;;
  loop nd (fun i => set SymGradPhi i 0 (el_eps e i q)) ;;
  loop ns (fun a =>
    (fun m => set VectorJacobian q a (vectorial_jacobian (cr_factor c) (cr_p c) d (cr_dir c a) (cr_ort c a) (m Gradients a q)) m) ;;
    loop nd (fun i => set ScalarPhi a i (el_psi e a i q) ;; set GradScalarPhi a i (el_dpsi e a i q))).
(** assembly.cc:201-305. *)
Definition matrix_entries (q : nat) : memory -> memory :=
  loop nd (fun i => loop nd (fun j =>
    if Nat.ltb (el_comp e i) d then
      if Nat.ltb (el_comp e j) d then
        add_to LocalMatrix i j (fun m => Fin (balance_factor c * ddot d (m SymGradPhi i 0%nat) (c4 d (m Stiffness 0%nat 0%nat) (m SymGradPhi j 0%nat)) * m JxW q 0%nat))
      else
        add_to LocalMatrix i j (fun m => let b := (el_comp e j - d)%nat in
          Fin (- (balance_factor c * cr_N c 0 * ddot d (m SymGradPhi i 0%nat) (c4 d (m Stiffness 0%nat 0%nat) (m Schmid b 0%nat)) * m ScalarPhi b j * m JxW q 0%nat)))
    else
      if Nat.ltb (el_comp e j) d then
        add_to LocalMatrix i j (fun m => let a := (el_comp e i - d)%nat in
          Fin (- (cr_N c 3 * m ScalarPhi a i * ddot d (m Schmid a 0%nat) (c4 d (m Stiffness 0%nat 0%nat) (m SymGradPhi j 0%nat)) * m JxW q 0%nat)))
      else
        (let a := (el_comp e i - d)%nat in let b := (el_comp e j - d)%nat in
        when (Nat.eqb a b) (add_to LocalMatrix i j (fun m =>
          xmul (xmul (Fin (cr_N c 2)) (xdot d (m GradScalarPhi a i) (fun r => xsumn d (fun s => xmul (m VectorJacobian q a r s) (Fin (m GradScalarPhi b j s))))))
               (Fin (m JxW q 0%nat)))) ;;
        add_to LocalMatrix i j (fun m =>
          Fin (- (m ScalarPhi a i * (-1 * cr_N c 0 * cr_N c 3 * ddot d (m Schmid a 0%nat) (c4 d (m Stiffness 0%nat 0%nat) (m Schmid b 0%nat))
                    - m ScalarJacobian q 0%nat a b) * m ScalarPhi b j * m JxW q 0%nat)))))).
(** assembly.cc:154-307. *)
Definition matrix_bulk : memory -> memory := loop nq (fun q => matrix_point q ;; matrix_entries q).

Section Face.
Variables (p : interface) (f : gb_face) (h : face_history) (Un : nat -> R) (indices : list nat).
Let fq := fa_nq f.
(** assembly.cc:328-397. *)
Definition get_matrix_face : memory -> memory :=
  loop nd (fun i => fill_row CouplingMatrix i nd (fun _ => Fin 0)) ;;
  set NeighbourIndices 0 0 indices ;;
  fill FaceJxW fq (fa_w f) ;; fill Normals fq (fa_n f) ;;
  when (if_microtraction p) (fill Moduli fq (if_moduli p)) ;;
  when (if_decohesion p)
    (fill Displacements fq (face_displacement nd (fa_phi f) (mv_U x)) ;;
     fill NeighbourDisplacements fq (face_displacement nd (fa_nphi f) Un)).
(** assembly.cc:399-476. *)
Definition matrix_face_point (q : nat) : memory -> memory :=
  set DamageValues q 0 0 ;;
  when (if_decohesion p)
    (set DamageValues q 0 (fh_damage h q) ;;
     (fun m => let delta := vsub (m NeighbourDisplacements q 0%nat) (m Displacements q 0%nat) in
       set CohesiveJacobian q 0 (cohesive_jacobian d (if_cohesive p) delta (m Normals q 0%nat) (fh_max h q) (fh_old h q) (if_dt p)) m) ;;
     (fun m => let delta := vsub (m NeighbourDisplacements q 0%nat) (m Displacements q 0%nat) in
       set ContactJacobian q 0 (contact_jacobian d (if_contact p) delta (m Normals q 0%nat)) m) ;;
     loop nd (fun i => set FacePhi i 0 (fa_phi f i q) ;; set NeighbourFacePhi i 0 (fa_nphi f i q))) ;;
  when (if_microtraction p)
    ((fun m => set IntraGateaux q 0 (intra_gateaux (if_lambda p) (if_chi p) (m Moduli q 0%nat)) m) ;;
     (fun m => set InterGateaux q 0 (inter_gateaux (if_lambda p) (if_chi p) (m Moduli q 0%nat)) m) ;;
     loop ns (fun a => loop nd (fun i => set FaceScalarPhi a i (fa_psi f a i q) ;; set NeighbourFaceScalarPhi a i (fa_npsi f a i q)))).
(** phi . (deg Jcoh + Jcontact) . psi with the stored values (assembly.cc:487-515). *)
Definition stored_form (q : nat) (m : memory) (a b : vec) : xr :=
  xdot d a (fun r => xsumn d (fun s =>
    xmul (xadd (xmul (degradation (if_exponent p) (m DamageValues q 0%nat) (if_couple_macro p)) (m CohesiveJacobian q 0%nat r s))
               (Fin (m ContactJacobian q 0%nat r s)))
         (Fin (b s)))).
(** assembly.cc:478-568. *)
Definition matrix_face_entries (q : nat) : memory -> memory :=
  loop nd (fun i => loop nd (fun j =>
    if (Nat.ltb (el_comp e i) d && Nat.ltb (el_comp e j) d)%bool then
      when (if_decohesion p)
        (add_to LocalMatrix i j (fun m => xneg (xmul (Fin (if_factor p * -1 * m FaceJxW q 0%nat)) (stored_form q m (m FacePhi i 0%nat) (m FacePhi j 0%nat)))) ;;
         add_to CouplingMatrix i j (fun m => xneg (xmul (Fin (if_factor p * m FaceJxW q 0%nat)) (stored_form q m (m FacePhi i 0%nat) (m NeighbourFacePhi j 0%nat)))))
    else if (negb (Nat.ltb (el_comp e i) d) && negb (Nat.ltb (el_comp e j) d))%bool then
      when (if_microtraction p)
        (let a := (el_comp e i - d)%nat in let b := (el_comp e j - d)%nat in let b' := (fa_ncomp f j - d)%nat in
         add_to LocalMatrix i j (fun m => xneg (xmul (Fin (if_N p 2 * m FaceScalarPhi a i * m IntraGateaux q 0%nat a b * m FaceScalarPhi b j * m FaceJxW q 0%nat))
           (degradation (if_exponent p) (m DamageValues q 0%nat) (if_couple_micro p)))) ;;
         add_to CouplingMatrix i j (fun m => xneg (xmul (Fin (if_N p 2 * m FaceScalarPhi a i * m InterGateaux q 0%nat a b' * m NeighbourFaceScalarPhi b' j * m FaceJxW q 0%nat))
           (degradation (if_exponent p) (m DamageValues q 0%nat) (if_couple_micro p)))))
    else fun m => m)).
(** assembly.cc:327-576: one face, ending with the two emplace_back. *)
Definition matrix_face : memory -> memory :=
  get_matrix_face ;; loop fq (fun q => matrix_face_point q ;; matrix_face_entries q) ;;
  (fun m => set NeighboursIndices 0 0 (m NeighboursIndices 0%nat 0%nat ++ [m NeighbourIndices 0%nat 0%nat]) m) ;;
  (fun m => set CouplingMatrices 0 0 (m CouplingMatrices 0%nat 0%nat ++ [fun i j => m CouplingMatrix i j]) m).
End Face.

(** assembly.cc:98-579, assemble_local_jacobian. *)
Definition assemble_local_jacobian : memory -> memory :=
  reset_copy ;; get_matrix_fields ;; matrix_bulk ;;
  when (mv_boundary x)
    (set AtBoundary 0 0 true ;;
     (fun m => fold_left (fun m y => let '(p, f, h, Un, indices) := y in matrix_face p f h Un indices m) (mv_faces x) m)).
End Cell.

(** What the copier reads. *)
(** assembly.cc:583-617, copy_local_to_global_jacobian. *)
Record copy_data := mk_copy_data {
  cd_matrix : nat -> nat -> xr; cd_indices : list nat; cd_boundary : bool;
  cd_couplings : list (nat -> nat -> xr); cd_neighbours : list (list nat) }.
Definition copied (m : memory) : copy_data :=
  mk_copy_data (m LocalMatrix) (m CellIndices 0%nat 0%nat) (m AtBoundary 0%nat 0%nat) (m CouplingMatrices 0%nat 0%nat) (m NeighboursIndices 0%nat 0%nat).
(** WorkStream (deal.II), as in ModelScratch. *)
(** assembly.cc:20-96, the call of WorkStream::run. *)
Fixpoint matrix_stream (schedule : list (nat * matrix_view)) (objects : nat -> memory) : list copy_data :=
  match schedule with
  | [] => []
  | (k, x) :: schedule' =>
      let m := assemble_local_jacobian x (objects k) in
      copied m :: matrix_stream schedule' (fun l => if Nat.eqb l k then m else objects l)
  end.
