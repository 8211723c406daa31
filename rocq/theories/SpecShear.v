(** * What C81 and C82 mean. *)
From Verif Require Import Num ModelFEField ModelActiveSet ModelLoading ModelShear SpecLinear.
Open Scope nat_scope.

(** Microhard conditions at a face: each of its slip dofs is fixed (unless a line exists
    already), each of its displacement dofs is left as it was. *)
Definition microhard_as_documented (dim ns pu pg : nat) : Prop :=
  forall face_dofs c, NoDup face_dofs -> length face_dofs = length (face_components dim ns pu pg) ->
  forall i, i < length face_dofs ->
    microhard_face dim ns pu pg face_dofs c (nth i face_dofs 0) =
      (if Nat.leb dim (nth i (face_components dim ns pu pg) 0)
       then match c (nth i face_dofs 0) with Some l => Some l | None => Some ([], 0%R) end
       else c (nth i face_dofs 0)).

(** A vector obeying all lines of a constraint object. *)
Definition obeys (c : constraints) (x : vec) : Prop := forall d es b,
  c d = Some (es, b) -> x d = (lsum (fun e => snd e * x (fst e)) es + b)%R.

(** The boundary dofs carry consistent data. *)
Definition consistent (m : strip) : Prop := forall b b',
  In b (s_boundary m) -> In b' (s_boundary m) -> b_dof b = b_dof b' ->
  b_comp b = b_comp b' /\ b_point b = b_point b'.
Definition is_displacement_component (m : strip) (k : nat) : Prop :=
  k < s_dim m * (if s_decohesion m then s_nc m else 1).
Definition is_slip_component (m : strip) (k : nat) : Prop :=
  s_dim m * (if s_decohesion m then s_nc m else 1) <= k <
  s_dim m * (if s_decohesion m then s_nc m else 1) + s_nc m * s_ns m.

(** [n] is the homogeneous version of [a]: the same dofs are constrained, with the same
    entries, and to zero. *)
Definition homogeneous_version (a n : constraints) : Prop := forall d,
  match a d, n d with
  | None, None => True
  | Some (es, _), Some (es', b') => es' = es /\ b' = 0%R
  | _, _ => False
  end.
