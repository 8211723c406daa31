(** * What C114 means: the same problem with the dofs numbered differently. *)
From Coq Require Import ZArith Permutation.
From Verif Require Import Num ModelElastic ModelMicro ModelCohesive ModelHistory ModelFEField ModelActiveSet SpecActiveSet ModelSolver ModelLoading ModelShear ModelProgram SpecProgram
  ModelLinear ModelAssembly ModelInterface ModelSweep ModelStep ModelBody SpecBody ModelTangent.
Open Scope R_scope.

(** Dof [d] of the old numbering is dof [to d] of the new one; [of] leads back. *)
Definition renumbering (n : nat) (to of : nat -> nat) : Prop :=
  (forall d, of (to d) = d) /\ (forall d, to (of d) = d) /\ forall d, (to d < n)%nat <-> (d < n)%nat.
(** Vectors, lines of constraints, and the entries added to a matrix, in the new numbering. *)
Definition renumber (of : nat -> nat) (x : vec) : vec := fun d => x (of d).
Definition renumber_line (to : nat -> nat) (l : list (nat * R) * R) : list (nat * R) * R := (map (fun e => (to (fst e), snd e)) (fst l), snd l).
Definition renumber_lines (to of : nat -> nat) (k : constraints) : constraints := fun d => option_map (renumber_line to) (k (of d)).
Definition renumber_pair (to : nat -> nat) (p : nat * nat) : nat * nat := (to (fst p), to (snd p)).
Definition renumber_writes (to : nat -> nat) (ws : list (nat * nat * R)) : list (nat * nat * R) := map (fun w => (renumber_pair to (fst w), snd w)) ws.
Definition renumber_matrix (to : nat -> nat) (A : result (list (nat * nat * R))) : result (list (nat * nat * R)) :=
  match A with Ok ws => Ok (renumber_writes to ws) | Throw => Throw | UB => UB end.
Definition renumber_result (of : nat -> nat) (r : result vec) : result vec := match r with Ok x => Ok (renumber of x) | Throw => Throw | UB => UB end.

(** The body: the same cells with the new numbers of their dofs. *)
Definition renumber_body (to of : nat -> nat) (b : body) : body :=
  mk_body (b_mesh b) (b_cells b) (b_ndofs b) (fun c => map to (b_dofs b c)) (fun d => b_is_slip b (of d)) (b_element b) (b_crystal b) (b_face b) (b_interface b)
    (b_loads b) (b_nq b) (b_nfq b) (b_dim b) (b_ns b) (b_decohesion b) (b_microtraction b) (b_hardening b)
    (b_char_resistance b) (b_iprm b) (b_cohesive b) (b_char_displacement b) (b_model b) (fun x => b_energy b (fun d => x (to d))).
(** Every shape function of a cell, and of the two sides of a face, has a dof. *)
Definition dofs_complete (b : body) : Prop := forall c, (el_nd (b_element b c) <= length (b_dofs b c))%nat /\
  forall n, (fa_nd (b_face b c n) <= length (b_dofs b c))%nat /\ (fa_nd (b_face b c n) <= length (b_dofs b n))%nat.
(** The entries the sparsity pattern allows are the same. *)
Definition same_pattern (to : nat -> nat) (pattern pattern' : list (nat * nat)) : Prop := forall p, In p pattern <-> In (renumber_pair to p) pattern'.

(** The state of the solver in the new numbering; sets of dofs are stored in any order. *)
Definition renumbered_set (to : nat -> nat) (l l' : list nat) : Prop := forall d, In d l <-> In (to d) l'.
Definition renumbered_state {H} (to of : nat -> nat) (s s' : sstate H) : Prop :=
  renumbered_set to (st_active s) (st_active s') /\ renumbered_set to (st_inactive s) (st_inactive s') /\
  st_internal s' = renumber_lines to of (st_internal s) /\ st_trial s' = renumber of (st_trial s) /\ st_tmp s' = renumber of (st_tmp s) /\
  st_initial s' = renumber of (st_initial s) /\ st_newton s' = renumber of (st_newton s) /\ st_old s' = renumber of (st_old s) /\
  st_hist s' = st_hist s /\ st_res s' = renumber of (st_res s) /\ st_res_tmp s' = renumber of (st_res_tmp s) /\ st_norms s' = st_norms s.
(** The dof sets, constraints and blocks of a step in the new numbering. *)
Definition renumbered_dofs {H} (to of : nat -> nat) (e e' : env H) : Prop :=
  let q := e_problem e in let q' := e_problem e' in
  p_n_slips q' = p_n_slips q /\ p_hardening q' = p_hardening q /\ p_char_resistance q' = p_char_resistance q /\
  renumbered_set to (p_owned q) (p_owned q') /\ renumbered_set to (p_owned_slip q) (p_owned_slip q') /\ (forall d, e_blocks e' d = e_blocks e (of d)) /\
  p_affine q' = renumber_lines to of (p_affine q) /\ p_newton q' = renumber_lines to of (p_newton q) /\ p_hanging q' = renumber_lines to of (p_hanging q).
(** Linear solvers, microstress projection, line searches and the update of the resistances do not depend on the numbering. *)
Definition no_preferred_numbering {H} (to of : nat -> nat) (e e' : env H) : Prop :=
  (forall act act' old x r, renumbered_set to act act' -> e_harden e' act' (renumber of old) (renumber of x) (renumber of r) = renumber of (e_harden e act old x r)) /\
  forall s s', renumbered_state to of s s' -> e_microstress e' s' = renumber of (e_microstress e s) /\
    e_solve_mono e' s' = renumber_result of (e_solve_mono e s) /\
    e_solve_macro e' s' = renumber_result of (e_solve_macro e s) /\
    e_solve_micro e' s' = renumber_result of (e_solve_micro e s) /\
    e_solve_reduced e' s' = renumber_result of (e_solve_reduced e s) /\
    e_lambdas_mono e' s' = e_lambdas_mono e s /\ e_lambdas_macro e' s' = e_lambdas_macro e s /\ e_lambdas_micro e' s' = e_lambdas_micro e s.

(** The active dofs are listed in the order in which the slip dofs [owned] are visited (an
    IndexSet keeps its elements in one order, so that equal sets are equal objects). *)
Definition in_order {H} (owned : list nat) (s : sstate H) : Prop := st_active s = filter (fun d => mem d (st_active s)) owned.
Definition slips {H} (e : env H) : list nat := p_owned_slip (e_problem e).
(** No slip dof copies another one (no periodic boundary conditions on the slips). *)
Definition no_copies {H} (e : env H) : Prop := forall d m, In d (slips e) -> ~ slave_of (p_affine (e_problem e)) d m.
(** The same outcome in the new numbering. *)
Definition renumbered_outcome {H} (to of : nat -> nat) (owned owned' : list nat) (a b : outcome (sstate H)) : Prop :=
  match a, b with
  | Done s, Done s' => renumbered_state to of s s' /\ in_order owned s /\ in_order owned' s'
  | Thrown, Thrown => True | Undefined, Undefined => True | Running, Running => True | _, _ => False end.

(** The two problems solved in a time step. *)
Definition renumbered_problem (b : body) (to of : nat -> nat) (e e' : env rank_data) : Prop :=
  works_on e b /\ e_finish e = body_finish b /\ works_on e' (renumber_body to of b) /\ e_finish e' = body_finish (renumber_body to of b) /\
  renumbered_dofs to of e e' /\ no_preferred_numbering to of e e'.
(** Two runs over several steps: the same end, and the states in which the steps were accepted. *)
Definition renumbered_run (to of : nat -> nat) (a b : outcome (vec * sstate rank_data) * list (sstate rank_data)) : Prop :=
  match fst a, fst b with
  | Done (oo, s), Done (oo', s') => oo' = renumber of oo /\ renumbered_state to of s s'
  | Thrown, Thrown => True | Undefined, Undefined => True | Running, Running => True | _, _ => False end /\
  Forall2 (renumbered_state to of) (snd a) (snd b).

(** Linear systems.  A solver called with the assembled matrix, right-hand side and first guess
    does not depend on the numbering. *)
Definition solver_without_numbering (to of : nat -> nat) (LS LS' : result (list (nat * nat * R)) -> vec -> vec -> result vec) : Prop :=
  forall A f g, LS' (renumber_matrix to A) (renumber of f) (renumber of g) = renumber_result of (LS A f g).
(** [x] solves the linear system of [n] equations with the matrix of these entries. *)
Definition solution_of (n : nat) (ws : list (nat * nat * R)) (f x : vec) : Prop := forall i, (i < n)%nat -> sumn n (fun j => matrix_of ws i j * x j) = f i.
