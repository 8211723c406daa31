(** * One work object for the two bars of C93. *)
From Coq Require Import Lia Lra FunctionalExtensionality.
From Coquelicot Require Import Coquelicot.
From Verif Require Import Num SumLemmas Tensors TensorLemmas ModelUtilities ModelElastic ModelMicro SpecMicro ProofMicro ModelCohesive
  SpecCohesive ProofCohesive ModelHistory SpecHistory SpecInterface ModelInterface ModelFEField ModelLineSearch ModelActiveSet SpecActiveSet PropActiveSet
  ModelLinear SpecLinear PropLinear ModelAssembly SpecAssembly ModelSweep SpecSweep
  PropSweep ModelBody SpecBody PropBody PropStep ExampleBody ModelTangent SpecTangent ProofTangent PropTangent ExampleTangent
  ModelScratch SpecScratch ProofScratch PropScratch ExampleScratch ModelScratchMatrix SpecScratchMatrix ProofScratchMatrix PropScratchMatrix.
Import ListNotations.
Open Scope R_scope.

Definition tug_state : rank_data := body_update tug_body (fun _ => 0) half tug_histories.
(** The object that served bar 0 serves bar 1, then bar 0 again. *)
Definition tug_schedule : list (nat * (nat * bool)) := [(0, (0, true)); (0, (1, true)); (0, (0, true))]%nat.
Example C117_example :
  (forall k c boundary, In (k, (c, boundary)) tug_schedule ->
     matrix_well_formed (matrix_view_of tug_body (fun _ => 0) half tug_state boundary c) /\ (boundary = false -> gb_neighbours tug_body c = [])) /\
  exists out, nth_error (matrix_stream (map (fun kc => (fst kc, matrix_view_of tug_body (fun _ => 0) half tug_state (snd (snd kc)) (fst (snd kc)))) tug_schedule) (fun _ => sevens)) 1 = Some out /\
    value_of (cd_matrix out 0%nat 0%nat) = 1 + exp (1 / 2) * (1 / 2) /\ cd_indices out = [1]%nat /\ cd_neighbours out = [[0]]%nat /\ length (cd_couplings out) = 1%nat.
Proof.
  assert (A : forall k c boundary, In (k, (c, boundary)) tug_schedule ->
     matrix_well_formed (matrix_view_of tug_body (fun _ => 0) half tug_state boundary c) /\ (boundary = false -> gb_neighbours tug_body c = [])).
  { intros k c boundary I. split.
    - split.
      + intros [|i] L; [|cbn in L; lia]. cbn. lia.
      + intros p f h Un indices J. unfold matrix_view_of in J. cbn [mv_faces] in J. apply in_map_iff in J. destruct J as (n & E & _). injection E as <- <- _ _ _. cbn. repeat split. lia.
    - intros ->. destruct I as [I|[I|[I|[]]]]; discriminate. }
  split; [exact A|].
  destruct (C117_body tug_body (fun _ => 0) half tug_state tug_schedule (fun _ => sevens) A 1%nat 0%nat 1%nat true eq_refl) as (out & E & M & I & _ & N & L & _).
  exists out. split; [exact E|]. split; [rewrite (M 0%nat 0%nat) by (cbn; lia); exact tug_stiffness|]. split; [exact I|]. split; [exact N|exact L].
Qed.
