(** * Model of the Jacobian's sparsity pattern, of the global assembly under constraints and
      of the linear solves (source/gradient_crystal_plasticity/setup.cc:60-72 and 312-398,
      assembly.cc:315-322, 583-617 and 1147-1162, solve.cc:1043-1465).

    One rank: every cell is locally owned.  Cells are lists of global dof indices; a face is
    [None] at the boundary of the domain, otherwise it names the neighbour behind it.
    [AffineConstraints] (deal.II) is modelled as documented: a constrained dof is replaced by
    the entries of its line, everywhere; inhomogeneities are ignored by the overloads used
    here (the Newton constraints have none). *)
From Verif Require Import Num ModelFEField ModelActiveSet.
Open Scope R_scope.

Record neighbour := mk_neighbour { nb_material : nat; nb_fe : nat; nb_dofs : list nat }.
Record mesh_cell := mk_mesh_cell {
  mc_material : nat;                    (* cell->material_id() *)
  mc_fe : nat;                          (* cell->active_fe_index() *)
  mc_dofs : list nat;                   (* cell->get_dof_indices *)
  mc_faces : list (option neighbour)
}.

(** setup.cc:363-366, assembly.cc:323-326: the faces to another material, in face order. *)
Definition interfaces (c : mesh_cell) : list neighbour :=
  flat_map (fun f => match f with
                     | None => []
                     | Some n => if negb (Nat.eqb (mc_material c) (nb_material n)) then [n] else []
                     end) (mc_faces c).
(** setup.cc:60-72. *)
Definition cell_is_at_grain_boundary (c : mesh_cell) : bool :=
  existsb (fun f => match f with
                    | None => false
                    | Some n => negb (Nat.eqb (mc_material c) (nb_material n))
                    end) (mc_faces c).

(** AffineConstraints::close: the entries of a line that are themselves constrained are
    replaced by their lines (one level: lines are merged from closed objects and empty lines). *)
(** AffineConstraints::close, setup.cc:686 and active_set.cc:126. *)
Definition close_constraints (c : constraints) : constraints := fun d =>
  match c d with
  | None => None
  | Some (es, b) =>
      Some (flat_map (fun e => match c (fst e) with
                               | None => [e]
                               | Some (es', _) => map (fun e' => (fst e', snd e * snd e')) es'
                               end) es, b)
  end.

(** What a dof stands for: itself, or the entries of its line. *)
(** AffineConstraints, as used by setup.cc:366-400 and assembly.cc:587-615. *)
Definition resolve (c : constraints) (d : nat) : list (nat * R) :=
  match c d with None => [(d, 1)] | Some (es, _) => es end.

(** AffineConstraints::add_entries_local_to_global(rows, columns, pattern, false). *)
(** Called in setup.cc:394. *)
Definition pattern_rectangle (c : constraints) (rows cols : list nat) : list (nat * nat) :=
  flat_map (fun d => flat_map (fun e =>
    flat_map (fun r => map (fun s => (fst r, fst s)) (resolve c e)) (resolve c d)) cols) rows.
(** AffineConstraints::add_entries_local_to_global(dofs, pattern, false): also the diagonal
    entry of every constrained dof. *)
(** Called in setup.cc:366. *)
Definition pattern_square (c : constraints) (dofs : list nat) : list (nat * nat) :=
  pattern_rectangle c dofs dofs ++
  flat_map (fun d => if is_constrained c d then [(d, d)] else []) dofs.

(** setup.cc:312-398, make_sparsity_pattern; [couple] is the condition of lines 359-361 and
    317-319: decohesion is allowed or the grain boundary condition is Microtraction. *)
Fixpoint make_sparsity_pattern (c : constraints) (couple : bool) (cells : list mesh_cell)
  : result (list (nat * nat)) :=
  match cells with
  | [] => Ok []
  | x :: cells' =>
      if Nat.eqb (mc_fe x) (mc_material x) then
        let at_interface := andb (cell_is_at_grain_boundary x) couple in
        if andb at_interface (existsb (fun n => negb (Nat.eqb (nb_fe n) (nb_material n))) (interfaces x))
        then Throw
        else
          rbind (make_sparsity_pattern c couple cells') (fun rest =>
            Ok (pattern_square c (mc_dofs x) ++
                (if at_interface
                 then flat_map (fun n => pattern_rectangle c (mc_dofs x) (nb_dofs n)) (interfaces x)
                 else []) ++ rest))
      else Throw
  end.

(** The local contributions of a cell (Copy data of assembly.cc). *)
(** include/gCP/assembly_data.h:56-76 and 173-183. *)
Record local_system := mk_local_system {
  ls_cell : mesh_cell;
  ls_matrix : nat -> nat -> R;                  (* local_matrix *)
  ls_coupling : nat -> nat -> nat -> R;         (* local_coupling_matrices, by interface *)
  ls_rhs : nat -> R                             (* local_rhs *)
}.

(** The index loops of assembly.cc:582-620. *)
Definition enumerate {A} (l : list A) : list (nat * A) := combine (seq 0 (length l)) l.

(** AffineConstraints::distribute_local_to_global(matrix, rows, columns, global): the values
    added to the global matrix. *)
(** Called in assembly.cc:609. *)
Definition rectangle_writes (c : constraints) (rows cols : list nat) (M : nat -> nat -> R)
  : list (nat * nat * R) :=
  flat_map (fun d => flat_map (fun e =>
    flat_map (fun r => map (fun s => (fst r, fst s, snd r * snd s * M (fst d) (fst e)))
      (resolve c (snd e))) (resolve c (snd d))) (enumerate cols)) (enumerate rows).
(** The diagonal value deal.II gives to a constrained dof (set_matrix_diagonals). *)
(** deal.II, as called in assembly.cc:587. *)
Definition average_diagonal (n : nat) (M : nat -> nat -> R) : R :=
  let a := sumn n (fun i => Rabs (M i i)) / INR n in if Reqb a 0 then 1 else a.
(** deal.II, as called in assembly.cc:587. *)
Definition constrained_diagonal (n : nat) (M : nat -> nat -> R) (i : nat) : R :=
  if Reqb (Rabs (M i i)) 0 then average_diagonal n M else Rabs (M i i).
(** AffineConstraints::distribute_local_to_global(matrix, dofs, global). *)
(** Called in assembly.cc:587. *)
Definition square_writes (c : constraints) (dofs : list nat) (M : nat -> nat -> R)
  : list (nat * nat * R) :=
  rectangle_writes c dofs dofs M ++
  flat_map (fun d => if is_constrained c (snd d)
                     then [(snd d, snd d, constrained_diagonal (length dofs) M (fst d))] else [])
    (enumerate dofs).

(** assembly.cc:583-617, copy_local_to_global_jacobian, with the flag set in lines 315-322 and
    the coupling blocks collected in lines 323-327 and 569-572. *)
Definition copy_jacobian (c : constraints) (couple : bool) (l : local_system)
  : result (list (nat * nat * R)) :=
  let x := ls_cell l in
  let own := square_writes c (mc_dofs x) (ls_matrix l) in
  if andb (cell_is_at_grain_boundary x) couple then
    match interfaces x with
    | [] => Throw
    | ns => Ok (own ++ flat_map (fun n => rectangle_writes c (mc_dofs x) (nb_dofs (snd n))
                                            (ls_coupling l (fst n))) (enumerate ns))
    end
  else Ok own.
(** Adding to a position outside the pattern fails (Trilinos). *)
(** Trilinos, called through assembly.cc:587 and 609. *)
Definition position_in (pattern : list (nat * nat)) (w : nat * nat * R) : bool :=
  existsb (fun p => andb (Nat.eqb (fst p) (fst (fst w))) (Nat.eqb (snd p) (snd (fst w)))) pattern.
(** assembly.cc:9-96, assemble_jacobian. *)
Fixpoint assemble_jacobian (pattern : list (nat * nat)) (c : constraints) (couple : bool)
  (ls : list local_system) : result (list (nat * nat * R)) :=
  match ls with
  | [] => Ok []
  | l :: ls' =>
      rbind (copy_jacobian c couple l) (fun ws =>
        if forallb (position_in pattern) ws
        then rbind (assemble_jacobian pattern c couple ls') (fun rest => Ok (ws ++ rest))
        else Throw)
  end.
(** The matrix resulting from the additions. *)
(** The member jacobian after assembly.cc:9-96. *)
Definition matrix_of (ws : list (nat * nat * R)) (r s : nat) : R :=
  fold_right (fun w acc =>
    (if andb (Nat.eqb (fst (fst w)) r) (Nat.eqb (snd (fst w)) s) then snd w else 0) + acc) 0 ws.

(** assembly.cc:1147-1162, copy_local_to_global_residual, and the vector resulting. *)
Definition vector_writes (c : constraints) (dofs : list nat) (v : nat -> R) : list (nat * R) :=
  flat_map (fun d => map (fun r => (fst r, snd r * v (fst d))) (resolve c (snd d))) (enumerate dofs).
Definition assemble_residual (c : constraints) (ls : list local_system) : list (nat * R) :=
  flat_map (fun l => vector_writes c (mc_dofs (ls_cell l)) (ls_rhs l)) ls.
Definition vector_of (ws : list (nat * R)) (r : nat) : R :=
  fold_right (fun w acc => (if Nat.eqb (fst w) r then snd w else 0) + acc) 0 ws.

(** solve.cc:1043-1177, solve_linearized_system, for an exact linear solver: [x] solves the
    assembled system on [n] dofs; the update is [x] after distribution (1168-1174). *)
Definition solves (n : nat) (K : nat -> nat -> R) (f x : nat -> R) : Prop :=
  forall r, (r < n)%nat -> sumn n (fun s => K r s * x s) = f r.
Definition newton_update (c : constraints) (x : vec) : vec := distribute c x.
