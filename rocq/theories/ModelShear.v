(** * The constraints of the simple shear problem
      (applications/simple_shear.cc:369-612 and 640-672).

    Taken from deal.II: the order of the shape functions of an [FESystem] on a cell and of the
    dofs of a face (vertex after vertex, then the interiors of the lines, the quads, the
    hexahedron; on each of these objects component after component), that
    [interpolate_boundary_values] and [make_periodicity_constraints] leave dofs alone which are
    already constrained, and that the choice of the periodic slaves depends on which dofs are
    constrained, not on the prescribed values.  [close] rewrites lines without changing the set
    of vectors satisfying them and is left out.  The FE_Nothing components of other crystals
    carry no dofs. *)
From Verif Require Import Num ModelFEField ModelActiveSet ModelLoading.
Open Scope nat_scope.

Fixpoint times {A} (n : nat) (l : list A) : list A :=
  match n with 0 => [] | S n' => l ++ times n' l end.

(** Components (crystal-local: [0..dim-1] displacements, [dim..] slips) of the dofs on one
    object carrying [nu] dofs per displacement and [ng] per slip component. *)
(** FESystem numbering of the element built in fe_field.cc:188-268. *)
Definition object_components (dim ns nu ng : nat) : list nat :=
  flat_map (fun c => repeat c nu) (seq 0 dim) ++ flat_map (fun c => repeat c ng) (seq dim ns).
(** FESystem numbering of the element built in fe_field.cc:188-268. *)
Definition components_on (vertices lines quads hexes dim ns pu pg : nat) : list nat :=
  times vertices (object_components dim ns 1 1) ++
  times lines (object_components dim ns (pu - 1) (pg - 1)) ++
  times quads (object_components dim ns ((pu - 1) * (pu - 1)) ((pg - 1) * (pg - 1))) ++
  times hexes (object_components dim ns ((pu - 1) * (pu - 1) * (pu - 1)) ((pg - 1) * (pg - 1) * (pg - 1))).

(** fe_field.h:658-664, get_global_component(crystal_id, i) for i = 0, 1, ...: the shape
    functions of the *cell* (FE_Q degrees [pu], [pg]). *)
Definition cell_components (dim ns pu pg : nat) : list nat :=
  if Nat.eqb dim 2 then components_on 4 4 1 0 dim ns pu pg else components_on 8 12 6 1 dim ns pu pg.
(** Components of the dofs cell->face(f)->get_dof_indices delivers. *)
(** simple_shear.cc:470-492, get_dof_indices of a face. *)
Definition face_components (dim ns pu pg : nat) : list nat :=
  if Nat.eqb dim 2 then components_on 2 1 0 0 dim ns pu pg else components_on 4 4 1 0 dim ns pu pg.

(** simple_shear.cc:479-492 (and 580-593): the dofs of one grain-boundary face. *)
Definition microhard_face (dim ns pu pg : nat) (face_dofs : list nat) (c : constraints) : constraints :=
  fold_left (fun c i =>
      if Nat.leb dim (nth i (cell_components dim ns pu pg) 0) then add_line c (nth i face_dofs 0) else c)
    (seq 0 (length face_dofs)) c.

(** ** The constraint objects *)
(** A dof with support on the domain boundary: its number, boundary id, component (of the
    solution) and support point. *)
(** What interpolate_boundary_values sees in simple_shear.cc:417-450 and 527-552. *)
Record boundary_dof := mk_boundary_dof { b_dof : nat; b_id : nat; b_comp : nat; b_point : nat -> R }.

(** VectorTools::interpolate_boundary_values into an AffineConstraints object: [f id] is the
    entry of the function map. *)
(** Called in simple_shear.cc:417, 443, 527, 545 and 659. *)
Definition interpolate (f : nat -> option ((nat -> R) -> nat -> R)) (mask : nat -> bool)
  (bs : list boundary_dof) (c : constraints) : constraints :=
  fold_left (fun c b =>
      match f (b_id b) with
      | Some g => if mask (b_comp b) && negb (is_constrained c (b_dof b))
                  then (fun k => if Nat.eqb k (b_dof b) then Some ([], g (b_point b) (b_comp b)) else c k)
                  else c
      | None => c
      end) bs c.

(** Component masks of the extractors (fe_field.cc:141-173). *)
Definition displacement_mask (dim : nat) (decohesion : bool) (crystal k : nat) : bool :=
  let first := if decohesion then crystal * dim else 0 in Nat.leb first k && Nat.ltb k (first + dim).
Definition slip_mask (dim : nat) (decohesion : bool) (nc ns crystal slip k : nat) : bool :=
  Nat.eqb k ((if decohesion then nc * dim else dim) + crystal * ns + slip).

(** What the two functions below read of the mesh. *)
(** What simple_shear.cc:369-680 reads of the mesh and the field. *)
Record strip := mk_strip {
  s_dim : nat; s_decohesion : bool; s_nc : nat; s_ns : nat; s_pu : nat; s_pg : nat;
  s_hanging : constraints;
  s_boundary : list boundary_dof;
  s_microhard : bool;
  s_faces : list (list nat);                              (* grain-boundary faces: their dofs *)
  s_periodic : (nat -> bool) -> list (nat * list (nat * R)) (* slaves and entries, from the set of constrained dofs *)
}.

(** DoFTools::make_periodicity_constraints. *)
(** Called in simple_shear.cc:499 and 600. *)
Definition periodicity (m : strip) (c : constraints) : constraints :=
  fold_left (fun c p => if is_constrained c (fst p) then c
                        else (fun k => if Nat.eqb k (fst p) then Some (snd p, 0%R) else c k))
    (s_periodic m (is_constrained c)) c.

(** simple_shear.cc:397 and 513. *)
Definition zero_function : (nat -> R) -> nat -> R := fun _ _ => 0%R.
(** The function_map of simple_shear.cc:408-411, 430-433 and 517-520. *)
Definition on_boundaries (lower upper : (nat -> R) -> nat -> R) (id : nat) :
  option ((nat -> R) -> nat -> R) :=
  if Nat.eqb id 2 then Some lower else if Nat.eqb id 3 then Some upper else None.

(** simple_shear.cc:397-500 with [upper] = *displacement_control (affine constraints) and
    508-603 with [upper] = zero_function (Newton constraints). *)
Definition build_constraints (m : strip) (upper : (nat -> R) -> nat -> R) : constraints :=
  let c0 := merge no_constraints (s_hanging m) in
  let c1 := fold_left (fun c k =>
      interpolate (on_boundaries zero_function upper) (displacement_mask (s_dim m) (s_decohesion m) k) (s_boundary m) c)
    (seq 0 (s_nc m)) c0 in
  let c2 := fold_left (fun c k => fold_left (fun c a =>
      interpolate (on_boundaries zero_function zero_function)
        (slip_mask (s_dim m) (s_decohesion m) (s_nc m) (s_ns m) k a) (s_boundary m) c)
      (seq 0 (s_ns m)) c) (seq 0 (s_nc m)) c1 in
  let c3 := if s_microhard m
            then fold_left (fun c f => microhard_face (s_dim m) (s_ns m) (s_pu m) (s_pg m) f c) (s_faces m) c2
            else c2 in
  periodicity m c3.

(** simple_shear.cc:640-672, update_dirichlet_boundary_conditions: what is handed to
    set_affine_constraints. *)
Definition update_constraints (m : strip) (upper : (nat -> R) -> nat -> R) : constraints :=
  fold_left (fun c k =>
      interpolate (fun id => if Nat.eqb id 3 then Some upper else None)
        (displacement_mask (s_dim m) (s_decohesion m) k) (s_boundary m) c)
    (seq 0 (s_nc m)) (merge no_constraints (s_hanging m)).

(** The calls on the field: set-up (606-607), then one update per step ([uppers]: the
    displacement control at the successive times, latest first); set_affine_constraints merges
    with "right object wins" (fe_field.cc:458-475). *)
Fixpoint affine_after (m : strip) (start : (nat -> R) -> nat -> R)
  (uppers : list ((nat -> R) -> nat -> R)) : constraints :=
  match uppers with
  | [] => merge (merge no_constraints (s_hanging m)) (build_constraints m start)
  | u :: us => merge (affine_after m start us) (update_constraints m u)
  end.
Definition newton_of (m : strip) : constraints :=
  merge (merge no_constraints (s_hanging m)) (build_constraints m zero_function).

(** boundary_conditions.cc, the displacement control at time [t] as a boundary function
    (it does not depend on the point). *)
(** boundary_conditions.cc:47-108, as passed in simple_shear.cc:411. *)
Definition control_at (dim : nat) (d : displacement_control) (t : R) : (nat -> R) -> nat -> R :=
  fun _ k => vector_value dim d t k.
