(** * What C90 and C91 mean. *)
From Coq Require Import Permutation.
From Verif Require Import Num Tensors ModelHistory ModelInterface ModelFEField ModelActiveSet SpecActiveSet ModelLinear ModelSweep.
Open Scope R_scope.

(** [a] and [b] are neighbours in different grains. *)
Definition grain_neighbours (m : sweep_mesh) (a b : nat) : Prop :=
  In (Some b) (sm_faces m a) /\ sm_material m a <> sm_material m b.
(** Neighbours know each other (no hanging nodes at the interfaces). *)
Definition mutual (m : sweep_mesh) : Prop :=
  forall a b, In (Some b) (sm_faces m a) -> In (Some a) (sm_faces m b).
(** Two cells share at most one face. *)
Definition one_common_face (m : sweep_mesh) : Prop :=
  forall a, NoDup (flat_map (fun f => match f with Some n => [n] | None => [] end) (sm_faces m a)).
(** The normals of the two sides are opposite. *)
Definition opposite_normals (e : sweep_env) : Prop :=
  forall a b q, grain_neighbours (w_mesh e) a b -> w_normal e b a q = vneg (w_normal e a b q).
(** The rank owns a side of the interface. *)
Definition owns_a_side (cells : list nat) (a b : nat) : Prop := In a cells \/ In b cells.
Definition owns_both_sides (cells : list nat) (a b : nat) : Prop := In a cells /\ In b cells.
(** The interface energies computed from the two sides agree (C80). *)
Definition same_energy (w : sweep) : Prop :=
  match w with
  | Refresh x => forall a b q, f_energy x a b q = f_energy x b a q
  | _ => True
  end.

(** The cells of the ranks are those of the mesh, each owned by one rank. *)
Definition partition {A} (ranks : list (list A)) (all : list A) : Prop := Permutation (concat ranks) all.

(** The dofs a rank meets when it assembles: those of its cells and of their neighbours
    across interfaces. *)
Definition meets (ls : list local_system) (d : nat) : Prop :=
  exists l, In l ls /\ (In d (mc_dofs (ls_cell l)) \/
    exists n, In n (interfaces (ls_cell l)) /\ In d (nb_dofs n)).

(** The given calls on one object, one after the other; an exception ends the run. *)
Fixpoint brun (s : qph) (os : list ModelHistory.op) : result qph :=
  match os with [] => Ok s | o :: os' => rbind (ModelHistory.step s o) (fun s' => brun s' os') end.
Fixpoint frun (s : ihist) (os : list face_call) : result ihist :=
  match os with [] => Ok s | o :: os' => rbind (face_step s o) (fun s' => frun s' os') end.
