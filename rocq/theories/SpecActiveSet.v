(** * What C43-C45 mean. *)
From Verif Require Import Num ModelHistory SpecHistory ModelFEField ModelActiveSet.
Open Scope R_scope.

(** The dof yields: the trial microstress exceeds the yield stress. *)
Definition yields (trial ys : nat -> R) (d : nat) : Prop := ys d < Rabs (trial d).

(** Free = no affine constraint; slave = identity constraint (periodicity) with a master;
    Dirichlet = any other constraint. *)
Definition free (c : constraints) (d : nat) : Prop := c d = None.
Definition slave_of (c : constraints) (d m : nat) : Prop := exists b, c d = Some ([(m, 1)], b).
Definition dirichlet (c : constraints) (d : nat) : Prop :=
  c d <> None /\ forall m, ~ slave_of c d m.

(** A closed AffineConstraints object: masters are unconstrained. *)
Definition closed (c : constraints) : Prop :=
  forall d es b e w, c d = Some (es, b) -> In (e, w) es -> c e = None.

(** The state after the algorithm has recomputed the sets. *)
Definition recomputed (p : problem) (trial : vec) (s : state) : state :=
  fst (active_set_algorithm p trial true s).

Definition yield_of (p : problem) : nat -> R :=
  fun d => if flag_perfect_plasticity (p_hardening p)
           then initial_slip_resistance (p_hardening p) / p_char_resistance p
           else p_slip_resistance p d.

(** The slip dofs of a rank are complete: every key occurs once, and with a dof all slip
    systems of its crystal at its support point are owned. *)
Definition complete_keys (ns : nat) (keys : nat -> key) (owned_slip : list nat)
  (dof_at : nat -> nat -> nat -> nat) : Prop :=
  NoDup owned_slip /\
  (forall d, In d owned_slip -> exists p c s, keys d = (p, c, s) /\ (s < ns)%nat) /\
  (forall d p c s b, In d owned_slip -> keys d = (p, c, s) -> (b < ns)%nat ->
     In (dof_at p c b) owned_slip /\ keys (dof_at p c b) = (p, c, b) /\
     forall d', In d' owned_slip -> keys d' = (p, c, b) -> d' = dof_at p c b).

(** Slip increments of all systems at the support point of a dof. *)
Definition increment_at (dof_at : nat -> nat -> nat -> nat) (trial old : vec) (p c : nat)
  : nat -> R := fun b => trial (dof_at p c b) - old (dof_at p c b).
