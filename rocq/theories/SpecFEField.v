(** * What C39-C42 mean. *)
From Coq Require Export Permutation.
From Verif Require Import Num ModelFEField.
Open Scope nat_scope.

(** The components a crystal's displacement extractor addresses, and its slip extractors. *)
Definition displacement_components (s : fe_field) (i : nat) : list nat :=
  match nth_error (displacement_extractors s) i with
  | Some e => map (fun k => e + k) (seq 0 (f_dim s))
  | None => []
  end.
Definition slip_components (s : fe_field) (i : nat) : list nat :=
  match nth_error (slips_extractors s) i with Some l => l | None => [] end.

(** Regular set-up: one call of setup_extractors, one of setup_dofs. *)
Definition set_up (dim du ds : nat) (decohesion single : bool) (n0 m0 nc ns : nat)
  (nm : numbering) (s : fe_field) : Prop :=
  setup_dofs (setup_extractors (construct dim du ds decohesion single n0 m0) nc ns) nm = Ok s.

(** Set-up order, read off the list of calls alone. *)
Definition extractors_ready (os : list call) : Prop :=
  exists nc ns, In (SetupExtractors nc ns) os.
Definition dofs_ready (os : list call) : Prop :=
  exists l1 nm l2, os = l1 ++ SetupDofs nm :: l2 /\ extractors_ready l1.
Definition vectors_ready (os : list call) : Prop :=
  exists l1 l2, os = l1 ++ SetupVectors :: l2 /\ dofs_ready l1.
Definition affine_ready (os : list call) : Prop :=
  exists l1 c l2, os = l1 ++ SetAffine c :: l2 /\ dofs_ready l1.
Definition newton_ready (os : list call) : Prop :=
  exists l1 c l2, os = l1 ++ SetNewton c :: l2 /\ dofs_ready l1.

(** What a call requires to have happened before. *)
Definition requirement (o : call) (before : list call) : Prop :=
  match o with
  | SetupDofs _ => extractors_ready before
  | SetAffine _ | SetNewton _ | SetupVectors | Prepare => dofs_ready before
  | _ => True
  end.

(** Calls of the time loop: anything but the set-up of the vectors. *)
Definition not_setup_vectors (o : call) : Prop :=
  match o with SetupVectors => False | _ => True end.

(** The solutions committed by a list of calls, most recent first; [cur] is the current
    solution. *)
Fixpoint committed (cur : vec) (os : list call) (acc : list vec) : list vec :=
  match os with
  | [] => acc
  | AssignSolution v :: os' => committed v os' acc
  | Commit :: os' => committed cur os' (cur :: acc)
  | _ :: os' => committed cur os' acc
  end.

(** A partition of the dofs over [p] ranks. *)
Definition partition (p n : nat) (own : nat -> list nat) : Prop :=
  Permutation (flat_map own (seq 0 p)) (seq 0 n).

(** Numbering produced by [DoFRenumbering::component_wise]: displacement dofs first. *)
Definition displacement_first (nd : nat) (nm : numbering) : Prop :=
  exists m, m <= total_dofs nm /\
    forall d, d < total_dofs nm -> (component_of nm d < nd <-> d < m).

Definition total_squares (n : nat) (v : vec) : R := sumn n (fun d => (v d * v d)%R).

(** Sum of squares over the dofs whose component is (not) a displacement component. *)
Definition displacement_squares (nd n : nat) (comp : nat -> nat) (v : vec) : R :=
  sumn n (fun d => if Nat.ltb (comp d) nd then (v d * v d)%R else 0%R).
Definition slip_squares (nd n : nat) (comp : nat -> nat) (v : vec) : R :=
  sumn n (fun d => if Nat.ltb (comp d) nd then 0%R else (v d * v d)%R).

(** The objects on the ranks after the regular set-up: same parameters, same global
    numbering, dofs distributed over the ranks in any way. *)
Definition distributed (p dim du ds : nat) (decohesion single : bool) (nc ns N : nat)
  (comp : nat -> nat) (own : nat -> list nat) (fields : nat -> fe_field) : Prop :=
  (0 < p)%nat /\ partition p N own /\
  forall r, (r < p)%nat -> exists n0 m0 h,
    set_up dim du ds decohesion single n0 m0 nc ns (mk_numbering N comp (own r) h) (fields r).

(** ** C73: which line constrains a dof, read off the calls, latest first. *)
Fixpoint hanging_line (latest_first : list call) (d : nat) : option line :=
  match latest_first with
  | [] => None
  | SetupDofs nm :: _ => hanging nm d
  | _ :: l => hanging_line l d
  end.
(** [newton = false]: the constraints of the solution; [true]: those of the Newton update. *)
Fixpoint prescribed_line (newton : bool) (latest_first : list call) (d : nat) : option line :=
  match latest_first with
  | [] => None
  | SetupDofs nm :: _ => hanging nm d
  | ResetConstraints :: l => hanging_line l d
  | SetAffine c :: l =>
      if newton then prescribed_line newton l d
      else match c d with Some x => Some x | None => prescribed_line newton l d end
  | SetNewton c :: l =>
      if newton then match c d with Some x => Some x | None => prescribed_line newton l d end
      else prescribed_line newton l d
  | _ :: l => prescribed_line newton l d
  end.
(** Every call has what it requires. *)
Definition in_order (os : list call) : Prop :=
  forall l1 o l2, os = l1 ++ o :: l2 -> requirement o l1.
