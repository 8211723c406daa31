(** * Model of [FEField] (source/fe_field.cc, include/gCP/fe_field.h).

    Simplifications: unsigned integers are natural numbers (no wrap-around: the products
    involved are numbers of solution components); debug-only [Assert]s are not executed
    (release build) unless a definition says otherwise; the numbering of the degrees of
    freedom produced by deal.II ([distribute_dofs], [Cuthill_McKee], [component_wise])
    is an argument; an affine constraint is a map from dofs to lines. *)
From Verif Require Import Num.
Open Scope nat_scope.

(** fe_field.cc:204-231: the two kinds of base elements. *)
Inductive elem := FE_Q (degree : nat) | FE_Nothing.

(** AffineConstraints: dof -> (entries, inhomogeneity), [None] = unconstrained. *)
(** dealii::AffineConstraints, members at fe_field.h:340-507. *)
Definition line : Type := (list (nat * R) * R)%type.
(** dealii::AffineConstraints, members at fe_field.h:340-507. *)
Definition constraints := nat -> option line.
(** AffineConstraints::clear/reinit, fe_field.cc:330-351. *)
Definition no_constraints : constraints := fun _ => None.
(** [merge(., right_object_wins)] and [merge] of disjoint sets. *)
(** AffineConstraints::merge, called in fe_field.cc:100, 107, 342, 349, 465, 482, 572 and 579. *)
Definition merge (a b : constraints) : constraints :=
  fun d => match b d with Some l => Some l | None => a d end.

(** A numbering of the dofs on this rank: total number, component of each dof (in the
    [FESystem]), dofs owned by the rank, and the hanging-node lines. *)
(** What fe_field.cc:188-320 obtains from the DoFHandler. *)
Record numbering := mk_numbering {
  total_dofs : nat;
  component_of : nat -> nat;
  owned : list nat;
  hanging : constraints
}.

(** dealii::LinearAlgebraTrilinos::MPI::BlockVector, members at fe_field.h:340-507. *)
Definition vec := nat -> R.
(** fe_field.cc:492-526: reinit sets the entries to zero. *)
Definition zero_vec : vec := fun _ => 0%R.

(** fe_field.h:340-507, data members.  The vectors are global functions of the dof index
    ([None] before [setup_vectors]: an empty Trilinos vector). *)
Record fe_field := mk_fe_field {
  f_dim : nat;
  displacement_fe_degree : nat;
  slips_fe_degree : nat;
  flag_allow_decohesion : bool;
  flag_use_single_block : bool;
  n_crystals : nat;
  n_slips : nat;
  displacement_extractors : list nat;        (* first vector component *)
  slips_extractors : list (list nat);
  fe_collection : list (list elem);
  dofs_per_block : list nat;
  block_component : list nat;
  owned_dofs : list nat;
  owned_displacement_dofs : list nat;
  owned_slip_dofs : list nat;
  hanging_node_constraints : constraints;
  affine_constraints : constraints;
  newton_method_constraints : constraints;
  global_component_mapping : list nat;
  solution : option vec;
  old_solution : option vec;
  old_old_solution : option vec;
  flag_extractors : bool;
  flag_dofs : bool;
  flag_affine : bool;
  flag_newton : bool;
  flag_vectors : bool
}.

(** fe_field.cc:18-36, constructor ([n0], [m0]: indeterminate members). *)
Definition construct (dim du ds : nat) (decohesion single : bool) (n0 m0 : nat) : fe_field :=
  mk_fe_field dim du ds decohesion single n0 m0 [] [] [] [] [] [] [] []
    no_constraints no_constraints no_constraints [] None None None
    false false false false false.

(** fe_field.cc:141-173: the entries appended by one call of [setup_extractors]. *)
Definition new_displacement_extractors (dim : nat) (decohesion : bool) (nc : nat) : list nat :=
  map (fun i => if decohesion then i * dim else 0) (seq 0 nc).
Definition new_slips_extractors (dim : nat) (decohesion : bool) (nc ns : nat) : list (list nat) :=
  map (fun i => map (fun j => (if decohesion then nc * dim else dim) + i * ns + j) (seq 0 ns))
      (seq 0 nc).

(** fe_field.cc:121-177 (the vectors are appended to, never cleared). *)
Definition setup_extractors (s : fe_field) (nc ns : nat) : fe_field :=
  mk_fe_field (f_dim s) (displacement_fe_degree s) (slips_fe_degree s)
    (flag_allow_decohesion s) (flag_use_single_block s) nc ns
    (displacement_extractors s ++
       new_displacement_extractors (f_dim s) (flag_allow_decohesion s) nc)
    (slips_extractors s ++
       new_slips_extractors (f_dim s) (flag_allow_decohesion s) nc ns)
    (fe_collection s) (dofs_per_block s) (block_component s) (owned_dofs s)
    (owned_displacement_dofs s) (owned_slip_dofs s) (hanging_node_constraints s)
    (affine_constraints s) (newton_method_constraints s) (global_component_mapping s)
    (solution s) (old_solution s) (old_old_solution s)
    true (flag_dofs s) (flag_affine s) (flag_newton s) (flag_vectors s).

(** fe_field.cc:204-231: the FESystem [A | B] of crystal [i]. *)
Definition crystal_elements (dim du ds : nat) (decohesion : bool) (nc ns i : nat) : list elem :=
  (if decohesion
   then flat_map (fun j => map (fun _ => if Nat.eqb i j then FE_Q du else FE_Nothing)
                               (seq 0 dim)) (seq 0 nc)
   else map (fun _ => FE_Q du) (seq 0 dim))
  ++ flat_map (fun j => map (fun _ => if Nat.eqb i j then FE_Q ds else FE_Nothing)
                            (seq 0 ns)) (seq 0 nc).

(** fe_field.cc:255-270: block_component. *)
Definition n_displacement_components (dim : nat) (decohesion : bool) (nc : nat) : nat :=
  dim * (if decohesion then nc else 1).
Definition block_components (dim : nat) (decohesion : bool) (nc ns : nat) : list nat :=
  map (fun i => if Nat.leb (n_displacement_components dim decohesion nc) i then 1 else 0)
      (seq 0 (n_displacement_components dim decohesion nc + ns * nc)).

(** [v[i] = x] on a vector. *)
(** std::vector::operator[] assignments of fe_field.cc:354-383. *)
Fixpoint set_nth (l : list nat) (i x : nat) : list nat :=
  match l, i with
  | [], _ => []
  | _ :: l', 0 => x :: l'
  | y :: l', S i' => y :: set_nth l' i' x
  end.
(** The loops of fe_field.cc:354-383 as a list of assignments. *)
Definition writes (l : list nat) (ps : list (nat * nat)) : list nat :=
  fold_left (fun l p => set_nth l (fst p) (snd p)) ps l.

(** fe_field.cc:354-383: the assignments to global_component_mapping, in loop order. *)
Definition mapping_writes (dim : nat) (decohesion : bool) (nc ns : nat) : list (nat * nat) :=
  flat_map (fun i =>
    map (fun j => ((if decohesion then i * dim else 0) + j, j)) (seq 0 dim) ++
    map (fun j => ((if decohesion then nc * dim else dim) + i * ns + j, dim + j)) (seq 0 ns))
    (seq 0 nc).
Definition component_mapping (dim : nat) (decohesion : bool) (nc ns : nat) : list nat :=
  writes (repeat 0 (if decohesion then nc * (dim + ns) else dim + nc * ns))
         (mapping_writes dim decohesion nc ns).

(** DoFTools::count_dofs_per_fe_block. *)
(** fe_field.cc:269, DoFTools::count_dofs_per_fe_block. *)
Definition count_block (nm : numbering) (blocks : list nat) (b : nat) : nat :=
  length (filter (fun d => Nat.eqb (nth (component_of nm d) blocks 2) b)
                 (seq 0 (total_dofs nm))).

(** [component_mask(Vector(e))] selects the components e .. e+dim-1. *)
(** fe_field.cc:438, component_mask. *)
Definition in_vector (dim e c : nat) : bool := andb (Nat.leb e c) (Nat.ltb c (e + dim)).

(** fe_field.cc:427-449: owned dofs minus the displacement dofs of every crystal.
    [displacement_extractors[crystal_id]] beyond the end would be undefined behaviour;
    it cannot happen after [setup_extractors] has pushed [n_crystals] entries. *)
Definition slip_dofs (s : fe_field) (nm : numbering) : list nat :=
  fold_left (fun l i =>
      filter (fun d => negb (in_vector (f_dim s) (nth i (displacement_extractors s) 0)
                                       (component_of nm d))) l)
    (seq 0 (n_crystals s)) (owned nm).
Definition displacement_dofs (s : fe_field) (nm : numbering) : list nat :=
  filter (fun d => negb (existsb (Nat.eqb d) (slip_dofs s nm))) (owned nm).

(** fe_field.cc:189-453 ([AssertThrow] first; the FE collection is appended to). *)
Definition setup_dofs (s : fe_field) (nm : numbering) : result fe_field :=
  if flag_extractors s then
    let dim := f_dim s in let dec := flag_allow_decohesion s in
    let nc := n_crystals s in let ns := n_slips s in
    let blocks := block_components dim dec nc ns in
    Ok (mk_fe_field dim (displacement_fe_degree s) (slips_fe_degree s) dec
      (flag_use_single_block s) nc ns (displacement_extractors s) (slips_extractors s)
      (fe_collection s ++
        map (crystal_elements dim (displacement_fe_degree s) (slips_fe_degree s) dec nc ns)
            (seq 0 nc))
      (if Nat.ltb 0 ns then
         (if flag_use_single_block s then [total_dofs nm]
          else [count_block nm blocks 0; count_block nm blocks 1])
       else [total_dofs nm])
      blocks (owned nm) (displacement_dofs s nm) (slip_dofs s nm)
      (hanging nm) (merge no_constraints (hanging nm)) (merge no_constraints (hanging nm))
      (component_mapping dim dec nc ns)
      (solution s) (old_solution s) (old_old_solution s)
      (flag_extractors s) true (flag_affine s) (flag_newton s) (flag_vectors s))
  else Throw.

(** fe_field.cc:457-469. *)
Definition set_affine_constraints (s : fe_field) (c : constraints) : result fe_field :=
  if flag_dofs s then
    Ok (mk_fe_field (f_dim s) (displacement_fe_degree s) (slips_fe_degree s)
      (flag_allow_decohesion s) (flag_use_single_block s) (n_crystals s) (n_slips s)
      (displacement_extractors s) (slips_extractors s) (fe_collection s) (dofs_per_block s)
      (block_component s) (owned_dofs s) (owned_displacement_dofs s) (owned_slip_dofs s)
      (hanging_node_constraints s) (merge (affine_constraints s) c)
      (newton_method_constraints s) (global_component_mapping s)
      (solution s) (old_solution s) (old_old_solution s)
      (flag_extractors s) (flag_dofs s) true (flag_newton s) (flag_vectors s))
  else Throw.

(** fe_field.cc:473-485. *)
Definition set_newton_method_constraints (s : fe_field) (c : constraints) : result fe_field :=
  if flag_dofs s then
    Ok (mk_fe_field (f_dim s) (displacement_fe_degree s) (slips_fe_degree s)
      (flag_allow_decohesion s) (flag_use_single_block s) (n_crystals s) (n_slips s)
      (displacement_extractors s) (slips_extractors s) (fe_collection s) (dofs_per_block s)
      (block_component s) (owned_dofs s) (owned_displacement_dofs s) (owned_slip_dofs s)
      (hanging_node_constraints s) (affine_constraints s)
      (merge (newton_method_constraints s) c) (global_component_mapping s)
      (solution s) (old_solution s) (old_old_solution s)
      (flag_extractors s) (flag_dofs s) (flag_affine s) true (flag_vectors s))
  else Throw.

Definition with_vectors (s : fe_field) (v o oo : option vec) (fl : bool) : fe_field :=
  mk_fe_field (f_dim s) (displacement_fe_degree s) (slips_fe_degree s)
    (flag_allow_decohesion s) (flag_use_single_block s) (n_crystals s) (n_slips s)
    (displacement_extractors s) (slips_extractors s) (fe_collection s) (dofs_per_block s)
    (block_component s) (owned_dofs s) (owned_displacement_dofs s) (owned_slip_dofs s)
    (hanging_node_constraints s) (affine_constraints s) (newton_method_constraints s)
    (global_component_mapping s) v o oo
    (flag_extractors s) (flag_dofs s) (flag_affine s) (flag_newton s) fl.

(** fe_field.cc:489-523: the only precondition checked is setup_dofs. *)
Definition setup_vectors (s : fe_field) : result fe_field :=
  if flag_dofs s
  then Ok (with_vectors s (Some zero_vec) (Some zero_vec) (Some zero_vec) true)
  else Throw.

(** fe_field.cc:559-564 (no guard). *)
Definition update_solution_vectors (s : fe_field) : fe_field :=
  with_vectors s (solution s) (solution s) (old_solution s) (flag_vectors s).

(** Assignment to the public member [solution] (a solver or the application). *)
(** Public member solution, fe_field.h:60; assigned in solve.cc:145. *)
Definition assign_solution (s : fe_field) (v : vec) : fe_field :=
  with_vectors s (Some v) (old_solution s) (old_old_solution s) (flag_vectors s).

(** fe_field.cc:568-585 (no guard, flags untouched). *)
Definition reset_all_affine_constraints (s : fe_field) : fe_field :=
  mk_fe_field (f_dim s) (displacement_fe_degree s) (slips_fe_degree s)
    (flag_allow_decohesion s) (flag_use_single_block s) (n_crystals s) (n_slips s)
    (displacement_extractors s) (slips_extractors s) (fe_collection s) (dofs_per_block s)
    (block_component s) (owned_dofs s) (owned_displacement_dofs s) (owned_slip_dofs s)
    (hanging_node_constraints s)
    (merge no_constraints (hanging_node_constraints s))
    (merge no_constraints (hanging_node_constraints s))
    (global_component_mapping s) (solution s) (old_solution s) (old_old_solution s)
    (flag_extractors s) (flag_dofs s) (flag_affine s) (flag_newton s) (flag_vectors s).

(** fe_field.cc:545-555. *)
Definition prepare_for_serialization (s : fe_field) : result fe_field :=
  if flag_dofs s then Ok s else Throw.

(** fe_field.h:742-750. *)
Definition is_initialized (s : fe_field) : bool :=
  andb (andb (flag_vectors s) (flag_affine s)) (flag_newton s).

(** fe_field.h:724-730: [fe_collection.n_components()] of an empty collection is an error. *)
Definition get_n_components (s : fe_field) : result nat :=
  match fe_collection s with [] => UB | f :: _ => Ok (length f) end.

(** fe_field.h:648-656 with the FESystem component [c] of the local dof. *)
Definition get_global_component (s : fe_field) (c : nat) : result nat :=
  match nth_error (global_component_mapping s) c with Some x => Ok x | None => UB end.

(** fe_field.cc:40-117, copy constructor ([n0], [m0]: members left indeterminate when the
    dofs of the source are not set up). *)
Definition copy (s : fe_field) (n0 m0 : nat) : fe_field :=
  if flag_dofs s then
    mk_fe_field (f_dim s) (displacement_fe_degree s) (slips_fe_degree s)
      (flag_allow_decohesion s) (flag_use_single_block s) (n_crystals s) (n_slips s)
      (displacement_extractors s) (slips_extractors s) (fe_collection s) (dofs_per_block s)
      (block_component s) (owned_dofs s) (owned_displacement_dofs s) (owned_slip_dofs s)
      (hanging_node_constraints s)
      (merge no_constraints (hanging_node_constraints s))
      (merge no_constraints (hanging_node_constraints s))
      (global_component_mapping s) None None None
      true true false false false
  else construct (f_dim s) (displacement_fe_degree s) (slips_fe_degree s)
      (flag_allow_decohesion s) (flag_use_single_block s) n0 m0.

(** Public calls. *)
(** The public interface fe_field.h:30-340. *)
Inductive call :=
| SetupExtractors (nc ns : nat)
| SetupDofs (nm : numbering)
| SetAffine (c : constraints)
| SetNewton (c : constraints)
| SetupVectors
| AssignSolution (v : vec)
| Commit
| ResetConstraints
| Prepare.

(** Dispatch to the functions of fe_field.cc:122-585. *)
Definition step (s : fe_field) (o : call) : result fe_field :=
  match o with
  | SetupExtractors nc ns => Ok (setup_extractors s nc ns)
  | SetupDofs nm => setup_dofs s nm
  | SetAffine c => set_affine_constraints s c
  | SetNewton c => set_newton_method_constraints s c
  | SetupVectors => setup_vectors s
  | AssignSolution v => Ok (assign_solution s v)
  | Commit => Ok (update_solution_vectors s)
  | ResetConstraints => Ok (reset_all_affine_constraints s)
  | Prepare => prepare_for_serialization s
  end.

(** A caller that catches exceptions and goes on: a throwing call changes nothing. *)
(** A caller of fe_field.cc:122-585. *)
Fixpoint run (s : fe_field) (os : list call) : fe_field :=
  match os with
  | [] => s
  | o :: os' => run (match step s o with Ok s' => s' | _ => s end) os'
  end.

(** ** Norms *)

(** Trilinos l2_norm of a vector distributed over [p] ranks: [own r] are the dofs of rank
    [r]; every rank sums its squares, the sums are added over the ranks. *)
(** fe_field.cc:595-599 and 620, l2_norm of a Trilinos vector. *)
Definition rank_squares (v : vec) (ds : list nat) : R :=
  fold_left (fun acc d => (acc + v d * v d)%R) ds 0%R.
(** fe_field.cc:652 and 657, Utilities::MPI::sum. *)
Definition mpi_sum (p : nat) (f : nat -> R) : R := sumn p f.
(** fe_field.cc:595-599 and 620. *)
Definition l2_norm (p : nat) (own : nat -> list nat) (v : vec) : R :=
  sqrt (mpi_sum p (fun r => rank_squares v (own r))).

(** fe_field.cc:605-700.  [fields r] is the object on rank [r] (all share the members that
    do not depend on the rank, here taken from rank 0); block [b] of the vector holds
    the dofs of [get_view], i.e. those below resp. from [dofs_per_block[0]] on; a missing
    second block would be an out-of-range access. *)
Definition block_owned (s : fe_field) (b : nat) : list nat :=
  filter (fun d => match b with
                   | 0 => Nat.ltb d (nth 0 (dofs_per_block s) 0)
                   | _ => Nat.leb (nth 0 (dofs_per_block s) 0) d
                   end) (owned_dofs s).
Definition get_sub_l2_norms (p : nat) (fields : nat -> fe_field) (v : vec) (factor : R)
  : R * R :=
  let n :=
    if flag_use_single_block (fields 0)
    then (sqrt (mpi_sum p (fun r => rank_squares v (owned_displacement_dofs (fields r)))),
          sqrt (mpi_sum p (fun r => rank_squares v (owned_slip_dofs (fields r)))))
    else (l2_norm p (fun r => block_owned (fields r) 0) v,
          l2_norm p (fun r => block_owned (fields r) 1) v) in
  ((fst n / factor)%R, snd n).

(** fe_field.cc:589-602, get_l2_norm. *)
Definition get_l2_norm (p : nat) (fields : nat -> fe_field) (v : vec) : R :=
  l2_norm p (fun r => owned_dofs (fields r)) v.

(** fe_field.cc:676-688: the consistency check of debug builds ([eps] = machine epsilon). *)
Definition debug_norm_check (p : nat) (fields : nat -> fe_field) (v : vec)
  (factor eps : R) : bool :=
  let n := get_sub_l2_norms p fields v factor in
  Rltb (Rabs (get_l2_norm p fields v - sqrt (fst n * fst n + snd n * snd n)))
       (eps * 10000).
