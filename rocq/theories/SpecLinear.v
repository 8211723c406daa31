(** * What C76 and C77 mean. *)
From Verif Require Import Num ModelFEField ModelActiveSet ModelLinear.
Open Scope R_scope.

Fixpoint lsum {A} (f : A -> R) (l : list A) : R :=
  match l with [] => 0 | x :: l' => f x + lsum f l' end.

(** Every dof of the constraints [a] stands for dofs it already stands for in [b]. *)
Definition stays_within (a b : constraints) : Prop := forall d e w,
  In (e, w) (resolve a d) -> exists w', In (e, w') (resolve b d).
Definition lines_are_closed (c : constraints) : Prop := forall d es b e w,
  c d = Some (es, b) -> In (e, w) es -> c e = None.
Definition homogeneous (c : constraints) : Prop := forall d es b, c d = Some (es, b) -> b = 0.

(** A vector obeying the (homogeneous) constraints. *)
Definition admissible (n : nat) (c : constraints) (v : vec) : Prop := forall d es b,
  (d < n)%nat -> c d = Some (es, b) -> v d = lsum (fun e => snd e * v (fst e)) es.

(** Virtual work of the unconstrained local contributions: [w] times the Jacobian times [y],
    and [w] times the residual. *)
Definition jacobian_work (couple : bool) (ls : list local_system) (w y : vec) : R :=
  lsum (fun l =>
    let dofs := mc_dofs (ls_cell l) in
    sumn (length dofs) (fun i => w (nth i dofs 0%nat) *
      (sumn (length dofs) (fun j => ls_matrix l i j * y (nth j dofs 0%nat)) +
       (if couple then
          sumn (length (interfaces (ls_cell l))) (fun k =>
            let far := nb_dofs (nth k (interfaces (ls_cell l)) (mk_neighbour 0 0 [])) in
            sumn (length far) (fun j => ls_coupling l k i j * y (nth j far 0%nat)))
        else 0)))) ls.
Definition residual_work (ls : list local_system) (w : vec) : R :=
  lsum (fun l => sumn (length (mc_dofs (ls_cell l))) (fun i =>
    w (nth i (mc_dofs (ls_cell l)) 0%nat) * ls_rhs l i)) ls.

(** All dofs are below [n], those of neighbours and of the lines included, and every
    constrained dof belongs to a cell. *)
Definition numbered (n : nat) (c : constraints) (ls : list local_system) : Prop :=
  (forall l d, In l ls -> In d (mc_dofs (ls_cell l)) -> (d < n)%nat) /\
  (forall l m d, In l ls -> In m (interfaces (ls_cell l)) -> In d (nb_dofs m) -> (d < n)%nat) /\
  (forall d es b e w, (d < n)%nat -> c d = Some (es, b) -> In (e, w) es -> (e < n)%nat) /\
  (forall d, (d < n)%nat -> c d <> None -> exists l, In l ls /\ In d (mc_dofs (ls_cell l))).

(** Lines refer to unconstrained dofs, or to dofs whose lines do. *)
Definition at_most_two_steps (n : nat) (c : constraints) : Prop := forall d es b e w,
  (d < n)%nat -> c d = Some (es, b) -> In (e, w) es ->
  (e < n)%nat /\
  forall es' b' e' w', c e = Some (es', b') -> In (e', w') es' -> c e' = None.
