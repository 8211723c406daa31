(** * Model of the assembly of one cell's Newton matrix and right-hand side
    (source/gradient_crystal_plasticity/assembly.cc:98-580 and 704-1150).

    Everything deal.II's FEValues/FEFaceValues hand to the worker is in the records below.
    [get_function_values] and its siblings are the sums over the local degrees of freedom of
    coefficient times shape function (deal.II documentation).  AssertIsFinite is debug-only. *)
From Verif Require Import Num Tensors ModelElastic ModelMicro ModelCohesive.
Open Scope R_scope.

(** ** Finite element data of one cell *)
(** Scratch data of include/gCP/assembly_data.h:78-170 and 185-285, filled in assembly.cc:118-151 and 719-765. *)
Record element := mk_element {
  el_nq : nat;                        (* n_q_points *)
  el_nd : nat;                        (* dofs_per_cell *)
  el_comp : nat -> nat;               (* fe_field->get_global_component(crystal_id, i) *)
  el_w : nat -> R;                    (* JxW_values[q_point] *)
  el_phi : nat -> nat -> vec;         (* vector_phi[i] at q_point *)
  el_eps : nat -> nat -> mat;         (* sym_grad_vector_phi[i] at q_point *)
  el_psi : nat -> nat -> nat -> R;    (* scalar_phi[slip_id][i] at q_point *)
  el_dpsi : nat -> nat -> nat -> vec  (* grad_scalar_phi[slip_id][i] at q_point *)
}.

(** assembly.cc:153-168 and 731-765: fields of the coefficients [U] at quadrature point [q]. *)
Definition strain_at (e : element) (U : nat -> R) (q : nat) : mat :=
  fun r s => sumn (el_nd e) (fun i => U i * el_eps e i q r s).
Definition slip_at (e : element) (U : nat -> R) (q a : nat) : R :=
  sumn (el_nd e) (fun i => U i * el_psi e a i q).
Definition slip_gradient_at (e : element) (U : nat -> R) (q a : nat) : vec :=
  fun r => sumn (el_nd e) (fun i => U i * el_dpsi e a i q r).

(** Parameters and constitutive laws, seen from one crystal. *)
(** What assembly.cc:98-330 and 704-913 read of crystals_data, parameters and the laws. *)
Record crystal := mk_crystal {
  cr_dim : nat;
  cr_ns : nat;                        (* crystals_data->get_n_slips() *)
  cr_N : nat -> R;                    (* dimensionless_numbers *)
  cr_C : ten4;                        (* stiffness tetrad *)
  cr_P : nat -> mat;                  (* symmetrized Schmid tensors *)
  cr_law : scalar_law;
  cr_factor : R; cr_p : R;            (* vectorial microstress law *)
  cr_dir : nat -> vec; cr_ort : nat -> vec;
  cr_macro : mat;                     (* macroscopic_strain *)
  cr_supply : nat -> vec;             (* supply_term_values *)
  cr_dt : R                           (* discrete_time.get_next_step_size() *)
}.

(** assembly.cc:208-212 and 876-880: the local variable [factor]. *)
Definition balance_factor (c : crystal) : R := cr_N c 3 / cr_N c 0.

(** [v * w] when one operand may hold exceptional values. *)
(** The contractions of assembly.cc:275-285 and 868-875 with a vectorial microstress. *)
Definition xdot (d : nat) (a : vec) (b : nat -> xr) : xr := xsumn d (fun i => xmul (Fin (a i)) (b i)).

(** assembly.cc:771-785: stress at a quadrature point. *)
Definition stress_at (c : crystal) (e : element) (U : nat -> R) (q : nat) : mat :=
  c4 (cr_dim c) (cr_C c)
     (madd (cr_macro c) (elastic_strain (cr_N c 0) (cr_P c) (strain_at e U q) (slip_at e U q) (cr_ns c))).

(** assembly.cc:704-913, assemble_local_residual without the face terms: entry [i] of local_rhs.
    [g q a] are the slip resistances stored at the quadrature points. *)
Definition residual_bulk (c : crystal) (e : element) (U Uold : nat -> R) (g : nat -> nat -> R) (i : nat) : xr :=
  xsumn (el_nq e) (fun q => xneg
    (if Nat.ltb (el_comp e i) (cr_dim c) then
       Fin (balance_factor c *
            (ddot (cr_dim c) (el_eps e i q) (stress_at c e U q)
             - dot (cr_dim c) (el_phi e i q) (cr_supply c q)) * el_w e q)
     else
       let a := (el_comp e i - cr_dim c)%nat in
       xmul (xsub (xmul (Fin (cr_N c 2))
                    (xdot (cr_dim c) (el_dpsi e a i q)
                       (vectorial_microstress (cr_factor c) (cr_p c) (cr_dim c) (cr_dir c a) (cr_ort c a)
                          (slip_gradient_at e U q a))))
                  (Fin (el_psi e a i q *
                        (cr_N c 3 * resolved_shear_stress (cr_dim c) (cr_P c a) (stress_at c e U q)
                         - scalar_microstress (cr_law c) (slip_at e U q a) (slip_at e Uold q a) (g q a) (cr_dt c)))))
            (Fin (el_w e q)))).

(** assembly.cc:100-307, assemble_local_jacobian without the face terms: entry [i][j] of local_matrix. *)
Definition jacobian_bulk (c : crystal) (e : element) (U Uold : nat -> R) (g : nat -> nat -> R) (i j : nat) : xr :=
  xsumn (el_nq e) (fun q =>
    let d := cr_dim c in
    let a := (el_comp e i - d)%nat in
    let b := (el_comp e j - d)%nat in
    match Nat.ltb (el_comp e i) d, Nat.ltb (el_comp e j) d with
    | true, true =>
        Fin (balance_factor c * ddot d (el_eps e i q) (c4 d (cr_C c) (el_eps e j q)) * el_w e q)
    | true, false =>
        Fin (- (balance_factor c * cr_N c 0 * ddot d (el_eps e i q) (c4 d (cr_C c) (cr_P c b))
                * el_psi e b j q * el_w e q))
    | false, true =>
        Fin (- (cr_N c 3 * el_psi e a i q * ddot d (cr_P c a) (c4 d (cr_C c) (el_eps e j q)) * el_w e q))
    | false, false =>
        xadd
          (if Nat.eqb a b then
             xmul (xmul (Fin (cr_N c 2))
                        (xdot d (el_dpsi e a i q)
                           (fun r => xsumn d (fun s =>
                              xmul (vectorial_jacobian (cr_factor c) (cr_p c) d (cr_dir c a) (cr_ort c a)
                                      (slip_gradient_at e U q a) r s)
                                   (Fin (el_dpsi e b j q s))))))
                  (Fin (el_w e q))
           else Fin 0)
          (Fin (- (el_psi e a i q *
                   (-1 * cr_N c 0 * cr_N c 3 * ddot d (cr_P c a) (c4 d (cr_C c) (cr_P c b))
                    - scalar_jacobian (cr_law c) (slip_at e U q) (slip_at e Uold q) (g q) (cr_dt c) a b)
                   * el_psi e b j q * el_w e q)))
    end).

(** ** Grain boundary faces *)
(** Face scratch data of include/gCP/assembly_data.h:78-170 and 185-285, filled in assembly.cc:324-400 and 890-1014. *)
Record gb_face := mk_gb_face {
  fa_nq : nat;                        (* n_face_q_points *)
  fa_nd : nat;                        (* dofs_per_cell, used for both cells *)
  fa_comp : nat -> nat;               (* get_global_component(crystal_id, i) *)
  fa_ncomp : nat -> nat;              (* get_global_component(neighbour_crystal_id, j) *)
  fa_w : nat -> R;                    (* face_JxW_values *)
  fa_n : nat -> vec;                  (* normal_vector_values *)
  fa_phi : nat -> nat -> vec;         (* face_vector_phi[i] *)
  fa_nphi : nat -> nat -> vec;        (* neighbor_face_vector_phi[j] *)
  fa_psi : nat -> nat -> nat -> R;    (* face_scalar_phi[slip_id][i] *)
  fa_npsi : nat -> nat -> nat -> R    (* neighbour_face_scalar_phi[slip_id][j] *)
}.
(** What assembly.cc:324-580 and 890-1098 read of the parameters and the interface laws. *)
Record interface := mk_interface {
  if_dim : nat; if_ns : nat; if_N : nat -> R;
  if_decohesion : bool;               (* fe_field->is_decohesion_allowed() *)
  if_microtraction : bool;            (* boundary_conditions_at_grain_boundaries == Microtraction *)
  if_cohesive : cohesive; if_contact : contact;
  if_exponent : R; if_couple_macro : bool; if_couple_micro : bool;
  if_lambda : R; if_chi : R;          (* microtraction law *)
  if_moduli : nat -> (nat -> nat -> R) * (nat -> nat -> R);  (* grain_interaction_moduli *)
  if_dt : R
}.
(** The interface history at the face quadrature points. *)
(** InterfaceQuadraturePointHistory getters (include/gCP/quadrature_point_history.h:63-250) used in assembly.cc:400-580 and 1015-1098. *)
Record face_history := mk_face_history { fh_max : nat -> R; fh_old : nat -> R; fh_damage : nat -> R }.

(** assembly.cc:208-212 and 876-880, the local variable factor. *)
Definition if_factor (p : interface) : R := if_N p 3 / if_N p 0.
(** assembly.cc:378-397, 995-1014: displacement and slips on the face. *)
Definition face_displacement (nd : nat) (phi : nat -> nat -> vec) (U : nat -> R) (q : nat) : vec :=
  fun r => sumn nd (fun i => U i * phi i q r).
Definition face_slip (nd : nat) (psi : nat -> nat -> nat -> R) (U : nat -> R) (q a : nat) : R :=
  sumn nd (fun i => U i * psi a i q).
(** assembly.cc:415-417, 1052-1054. *)
Definition opening_at (f : gb_face) (U Un : nat -> R) (q : nat) : vec :=
  vsub (face_displacement (fa_nd f) (fa_nphi f) Un q) (face_displacement (fa_nd f) (fa_phi f) U q).
(** assembly.cc:405-413, 1043-1050: zero unless decohesion is allowed. *)
Definition damage_at (p : interface) (h : face_history) (q : nat) : R :=
  if if_decohesion p then fh_damage h q else 0.
Definition deg_macro (p : interface) (h : face_history) (q : nat) : xr :=
  degradation (if_exponent p) (damage_at p h q) (if_couple_macro p).
Definition deg_micro (p : interface) (h : face_history) (q : nat) : xr :=
  degradation (if_exponent p) (damage_at p h q) (if_couple_micro p).

(** assembly.cc:1020-1100: one face's contribution to entry [i] of local_rhs. *)
Definition residual_face (p : interface) (f : gb_face) (h : face_history) (U Un : nat -> R) (i : nat) : xr :=
  xsumn (fa_nq f) (fun q =>
    let d := if_dim p in
    if Nat.ltb (fa_comp f i) d then
      if if_decohesion p then
        let delta := opening_at f U Un q in
        let T := cohesive_traction d (if_cohesive p) delta (fa_n f q) (fh_max h q) (fh_old h q) (if_dt p) in
        xmul (xmul (Fin (if_factor p))
                   (xdot d (fa_phi f i q) (fun r =>
                      xadd (xmul (deg_macro p h q) (T r))
                           (Fin (contact_traction d (if_contact p) delta (fa_n f q) r)))))
             (Fin (fa_w f q))
      else Fin 0
    else
      if if_microtraction p then
        let a := (fa_comp f i - d)%nat in
        xmul (xmul (Fin (if_N p 2 * fa_psi f a i q)) (deg_micro p h q))
             (Fin (microtraction (if_lambda p) (if_chi p) (if_ns p) (if_moduli p q)
                     (face_slip (fa_nd f) (fa_psi f) U q) (face_slip (fa_nd f) (fa_npsi f) Un q) a
                   * fa_w f q))
      else Fin 0).

(** phi . (deg Jcoh + Jcontact) . psi at a face quadrature point (assembly.cc:487-500, 503-515). *)
Definition traction_form (p : interface) (f : gb_face) (h : face_history) (U Un : nat -> R) (q : nat)
           (x y : vec) : xr :=
  let d := if_dim p in
  let delta := opening_at f U Un q in
  xdot d x (fun r => xsumn d (fun s =>
    xmul (xadd (xmul (deg_macro p h q)
                  (cohesive_jacobian d (if_cohesive p) delta (fa_n f q) (fh_max h q) (fh_old h q) (if_dt p) r s))
               (Fin (contact_jacobian d (if_contact p) delta (fa_n f q) r s)))
         (Fin (y s)))).

(** assembly.cc:478-563: one face's contribution to local_matrix(i,j) ... *)
Definition jacobian_face_local (p : interface) (f : gb_face) (h : face_history) (U Un : nat -> R) (i j : nat) : xr :=
  xsumn (fa_nq f) (fun q =>
    let d := if_dim p in
    let a := (fa_comp f i - d)%nat in
    let b := (fa_comp f j - d)%nat in
    match Nat.ltb (fa_comp f i) d, Nat.ltb (fa_comp f j) d with
    | true, true =>
        if if_decohesion p then
          xneg (xmul (Fin (if_factor p * -1 * fa_w f q))
                     (traction_form p f h U Un q (fa_phi f i q) (fa_phi f j q)))
        else Fin 0
    | false, false =>
        if if_microtraction p then
          xneg (xmul (Fin (if_N p 2 * fa_psi f a i q
                           * intra_gateaux (if_lambda p) (if_chi p) (if_moduli p q) a b
                           * fa_psi f b j q * fa_w f q))
                     (deg_micro p h q))
        else Fin 0
    | _, _ => Fin 0
    end).
(** ... and to local_coupling_matrix(i,j), whose columns are the neighbour's degrees of freedom. *)
(** assembly.cc:500-580, local_coupling_matrices. *)
Definition jacobian_face_coupling (p : interface) (f : gb_face) (h : face_history) (U Un : nat -> R) (i j : nat) : xr :=
  xsumn (fa_nq f) (fun q =>
    let d := if_dim p in
    let a := (fa_comp f i - d)%nat in
    let b := (fa_ncomp f j - d)%nat in
    match Nat.ltb (fa_comp f i) d, Nat.ltb (fa_comp f j) d with
    | true, true =>
        if if_decohesion p then
          xneg (xmul (Fin (if_factor p * fa_w f q))
                     (traction_form p f h U Un q (fa_phi f i q) (fa_nphi f j q)))
        else Fin 0
    | false, false =>
        if if_microtraction p then
          xneg (xmul (Fin (if_N p 2 * fa_psi f a i q
                           * inter_gateaux (if_lambda p) (if_chi p) (if_moduli p q) a b
                           * fa_npsi f b j q * fa_w f q))
                     (deg_micro p h q))
        else Fin 0
    | _, _ => Fin 0
    end).

(** ** Neumann faces: assembly.cc:1097-1146, contribution to local_rhs(i). *)
Record neumann_face := mk_neumann_face {
  nf_nq : nat; nf_w : nat -> R; nf_phi : nat -> nat -> vec; nf_traction : nat -> vec
}.
Definition residual_neumann (d : nat) (f : neumann_face) (i : nat) : R :=
  sumn (nf_nq f) (fun q => dot d (nf_phi f i q) (nf_traction f q) * nf_w f q).

(** ** The whole cell: assembly.cc:704-1150. *)
(** Every grain boundary face comes with its interface data (the grain interaction moduli
    differ from face to face, assembly.cc:923-928), its history and the neighbour's values. *)
Definition residual_cell (c : crystal) (e : element)
           (faces : list (interface * gb_face * face_history * (nat -> R))) (loads : list neumann_face)
           (U Uold : nat -> R) (g : nat -> nat -> R) (i : nat) : xr :=
  let bulk := residual_bulk c e U Uold g i in
  let gb := fold_left (fun acc x => let '(p, f, h, Un) := x in xadd acc (residual_face p f h U Un i)) faces bulk in
  fold_left (fun acc f => xadd acc (Fin (residual_neumann (cr_dim c) f i))) loads gb.

(** assembly.cc:693-702: assemble_residual returns half the squared l2 norm of the residual. *)
Definition residual_objective (n : nat) (r : nat -> R) : R := (1/2) * norm n r * norm n r.
