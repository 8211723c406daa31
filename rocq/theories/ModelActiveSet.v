(** * Model of the active set algorithm (source/gradient_crystal_plasticity/active_set.cc)
    and of the dof-level hardening (source/gradient_crystal_plasticity/setup.cc:501-687).

    Index sets are lists read as sets; vectors are functions of the global dof index; one
    rank is modelled.  The debug output of active_set.cc:131-149 is not modelled. *)
From Verif Require Import Num ModelHistory ModelFEField.
Open Scope R_scope.

Definition mem (d : nat) (l : list nat) : bool := existsb (Nat.eqb d) l.

(** AffineConstraints::is_constrained / is_identity_constrained / get_constraint_entries. *)
(** AffineConstraints::is_constrained (deal.II), called in active_set.cc:91 and 167. *)
Definition is_constrained (c : constraints) (d : nat) : bool :=
  match c d with Some _ => true | None => false end.
(** AffineConstraints::is_identity_constrained (deal.II), called in active_set.cc:100 and 165. *)
Definition is_identity_constrained (c : constraints) (d : nat) : bool :=
  match c d with Some ([(_, w)], _) => Reqb w 1 | _ => false end.
(** get_constraint_entries(dof)->at(0).first as read in active_set.cc:103-110. *)
Definition master (c : constraints) (d : nat) : nat :=
  match c d with Some ((m, _) :: _, _) => m | _ => d end.

(** AffineConstraints::add_line: keeps an existing line, otherwise adds an empty one
    (the dof is set to zero). *)
(** The empty line created by active_set.cc:117. *)
Definition zero_line : line := ([], 0).
(** AffineConstraints::add_line (deal.II), called in active_set.cc:117. *)
Definition add_line (c : constraints) (d : nat) : constraints :=
  fun k => if Nat.eqb k d then (match c d with Some l => Some l | None => Some zero_line end)
           else c k.

(** AffineConstraints::distribute for closed constraints (entries are unconstrained). *)
(** AffineConstraints::distribute (deal.II), called in active_set.cc:201 and 295, solve.cc:56-77. *)
Definition distribute (c : constraints) (x : vec) : vec :=
  fun d => match c d with
           | Some (es, b) => fold_left (fun acc e => acc + snd e * x (fst e)) es b
           | None => x d
           end.

(** active_set.cc:203-225 and 271-276, compute_trial_microstress (lumped mass matrix). *)
Definition compute_trial_microstress (owned_slip : list nat) (rhs lumped : vec)
  (hanging : constraints) : result vec :=
  if forallb (fun d => negb (Reqb (lumped d) 0)) owned_slip
  then Ok (distribute hanging
             (fun d => if mem d owned_slip then rhs d / lumped d else 0))
  else Throw.

(** active_set.cc:72-85, local yield stress. *)
Definition yield_stress (h : hardening) (char : R) (slip_resistance : vec) (d : nat) : R :=
  if flag_perfect_plasticity h then initial_slip_resistance h / char else slip_resistance d.

(** active_set.cc:69-119, one pass of the loop over the owned slip dofs.  The accumulators
    are the active set and the constraints of the inactive dofs. *)
Definition active_step (affine : constraints) (trial ys : nat -> R)
  (acc : list nat * constraints) (d : nat) : list nat * constraints :=
  let '(act, ina) := acc in
  let act1 :=
    if Rltb (ys d) (Rabs (trial d)) then
      let a1 := if negb (is_constrained affine d) then act ++ [d] else act in
      if is_identity_constrained affine d then a1 ++ [d; master affine d] else a1
    else act in
  (act1, if negb (mem d act1) then add_line ina d else ina).
Definition active_loop (affine : constraints) (trial ys : nat -> R)
  (hanging : constraints) (dofs : list nat) : list nat * constraints :=
  fold_left (active_step affine trial ys) dofs ([], merge no_constraints hanging).

(** What the algorithm reads. *)
(** Members read by active_set.cc:9-339 (include/gCP/gradient_crystal_plasticity.h:54-528). *)
Record problem := mk_problem {
  p_n_slips : nat;
  p_rate_independent : bool;
  p_hardening : hardening;
  p_char_resistance : R;
  p_owned : list nat;                  (* locally owned dofs *)
  p_owned_slip : list nat;             (* locally owned plastic slip dofs *)
  p_affine : constraints;
  p_newton : constraints;              (* fe_field's newton_method_constraints *)
  p_hanging : constraints;
  p_old_solution : vec;
  p_slip_resistance : vec
}.

(** Mutable members touched by the algorithm. *)
(** Members written by active_set.cc:9-339 (include/gCP/gradient_crystal_plasticity.h:195 and 396-400). *)
Record state := mk_state {
  active_set : list nat;
  inactive_set : list nat;
  internal_constraints : constraints;  (* internal_newton_method_constraints *)
  trial_solution : vec
}.

(** active_set.cc:42-127, determine_active_set, given the trial microstress computed by
    the two calls of lines 54-56. *)
Definition determine_active_set (p : problem) (trial : vec) (s : state) : state :=
  if Nat.eqb (p_n_slips p) 0 then s
  else
    let '(act, ina) :=
      active_loop (p_affine p) trial
        (yield_stress (p_hardening p) (p_char_resistance p) (p_slip_resistance p))
        (p_hanging p) (p_owned_slip p) in
    mk_state act (inactive_set s) (merge (internal_constraints s) ina) (trial_solution s).

(** active_set.cc:155-188, determine_inactive_set. *)
Definition determine_inactive_set (p : problem) (s : state) : state :=
  mk_state (active_set s)
    (filter (fun d =>
        andb (andb (mem d (p_owned_slip p))
                   (orb (is_identity_constrained (p_affine p) d)
                        (negb (is_constrained (p_affine p) d))))
             (negb (mem d (active_set s)))) (p_owned p))
    (internal_constraints s) (trial_solution s).

(** active_set.cc:192-213, reset_inactive_set_values. *)
Definition reset_inactive_set_values (p : problem) (s : state) : state :=
  mk_state (active_set s) (inactive_set s) (internal_constraints s)
    (distribute (p_affine p)
       (fun d => if mem d (inactive_set s) then p_old_solution p d else trial_solution s d)).

(** setup.cc:691-705, reset_internal_newton_method_constraints. *)
Definition reset_internal (p : problem) (s : state) : state :=
  mk_state (active_set s) (inactive_set s) (merge no_constraints (p_newton p)) (trial_solution s).

(** active_set.cc:11-38, active_set_algorithm; returns the new flag too. *)
Definition active_set_algorithm (p : problem) (trial : vec) (compute : bool) (s : state)
  : state * bool :=
  if p_rate_independent p then
    if compute then
      (reset_inactive_set_values p
         (determine_inactive_set p (determine_active_set p trial (reset_internal p s))), false)
    else (s, compute)
  else (mk_state (p_owned_slip p) (inactive_set s) (internal_constraints s) (trial_solution s),
        compute).

(** ** Dof-level hardening *)

(** Key of a slip dof: support point, crystal, slip system (setup.cc:505-508); points are
    identified by a number (equality of deal.II points). *)
Definition key := (nat * nat * nat)%type.
Definition key_eqb (a b : key) : bool :=
  let '(p, c, s) := a in let '(p', c', s') := b in
  andb (andb (Nat.eqb p p') (Nat.eqb c c')) (Nat.eqb s s').

(** setup.cc:519-570: search of the crystal and slip system owning a dof; [extracted c s]
    are the dofs of the slip extractor.  No hit leaves the pair (0, 0). *)
Definition find_owner (nc ns : nat) (extracted : nat -> nat -> nat -> bool) (d : nat)
  : nat * nat :=
  match find (fun cs => extracted (fst cs) (snd cs) d)
             (flat_map (fun c => map (fun s => (c, s)) (seq 0 ns)) (seq 0 nc)) with
  | Some cs => cs
  | None => (0%nat, 0%nat)
  end.
Definition dof_to_key (nc ns : nat) (extracted : nat -> nat -> nat -> bool)
  (point : nat -> nat) (d : nat) : key :=
  let '(c, s) := find_owner nc ns extracted d in (point d, c, s).

(** setup.cc:572-597: for every owned slip dof, the owned dofs with the same point and
    crystal, slip system by slip system (std::map iterates over the dofs in increasing
    order, the order of the index set). *)
Definition dof_info (ns : nat) (keys : nat -> key) (owned_slip : list nat) (d : nat)
  : list nat * nat :=
  let '(p, c, s) := keys d in
  (flat_map (fun b => filter (fun d' => key_eqb (keys d') (p, c, b)) owned_slip) (seq 0 ns), s).

(** setup.cc:634-645, get_hardening_modulus. *)
Definition hardening_modulus (h : hardening) (char : R) (self_hardening : bool) : R :=
  linear_hardening_modulus h / char *
  (hardening_parameter h + (1 - hardening_parameter h) * (if self_hardening then 1 else 0)).

(** setup.cc:661-672: the loop over slip systems; [dofs[slip_id]] beyond the end of the
    vector is undefined behaviour. *)
Fixpoint harden_dof (h : hardening) (char : R) (trial old : vec) (dofs : list nat)
  (current : nat) (bs : list nat) (acc : R) : result R :=
  match bs with
  | [] => Ok acc
  | b :: bs' =>
      match nth_error dofs b with
      | Some d' => harden_dof h char trial old dofs current bs'
                     (acc + hardening_modulus h char (Nat.eqb current b) *
                            Rabs (trial d' - old d'))
      | None => UB
      end
  end.

(** setup.cc:609-681, reset_and_update_slip_resistances: loop over the owned slip dofs. *)
Fixpoint update_resistances (ns : nat) (h : hardening) (char : R) (keys : nat -> key)
  (owned_slip active : list nat) (trial old : vec) (todo : list nat) (res : vec)
  : result vec :=
  match todo with
  | [] => Ok res
  | d :: todo' =>
      if mem d active then
        let '(dofs, current) := dof_info ns keys owned_slip d in
        rbind (harden_dof h char trial old dofs current (seq 0 ns) 0) (fun hd =>
          update_resistances ns h char keys owned_slip active trial old todo'
            (fun k => if Nat.eqb k d then res k + hd else res k))
      else update_resistances ns h char keys owned_slip active trial old todo' res
  end.
Definition reset_and_update_slip_resistances (ns : nat) (h : hardening) (char : R)
  (keys : nat -> key) (owned_slip active : list nat) (trial old : vec)
  (slip_resistance tmp_slip_resistance : vec) : result vec :=
  if flag_perfect_plasticity h then Ok slip_resistance
  else update_resistances ns h char keys owned_slip active trial old owned_slip
         tmp_slip_resistance.

(** setup.cc:602-605, store_slip_resistances: tmp := current. *)
Definition store_slip_resistances (slip_resistance : vec) : vec := slip_resistance.
