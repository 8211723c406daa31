(** * C112 on the point of ExampleLimit: its limit load is its resistance. *)
From Coq Require Import FunctionalExtensionality.
From Verif Require Import Num ModelShear SpecShear ModelProgram SpecProgram PropProgram ExampleProgram SumLemmas Tensors TensorLemmas ModelUtilities ModelElastic SpecElastic ModelMicro SpecMicro ProofMicro PropMicro ModelCohesive
  SpecCohesive ProofCohesive ModelHistory SpecHistory SpecInterface ModelInterface ModelFEField ModelActiveSet SpecActiveSet PropActiveSet
  ModelLinear SpecLinear PropLinear ModelAssembly SpecAssembly ProofAssembly ProofFace ModelSolver ModelSweep SpecSweep
  PropSweep ModelStep ModelBody SpecBody PropBody PropStep ExampleBody SpecTangent
  SpecRun PropRun SpecEnergy ProofEnergy PropEnergy ExampleEnergy SpecStiffness ExampleStiffness SpecUnique PropUnique ExampleUnique SpecExistence PropExistence ExampleExistence
  SpecContraction PropContraction ProofSaturation SpecLimit PropLimit PropLimitRun ProofCoercive SpecLimitLoad PropLimitLoad ExampleLimit.

Lemma loaded_step F : stable_step pull_frames creep_interface (loaded_point F) no_constraints no_constraints.
Proof.
  split; [apply loaded_consistent|]. split; [exact (weighed_two_sided true)|]. split; [reflexivity|]. split; [apply loaded_material|]. split; [exact (weighed_interfaces true)|].
  split; [apply loaded_strict|]. split; [exact (proj1 (weighed_free true))|]. split; [exact (proj2 (weighed_free true))|apply loaded_held].
Qed.
Lemma loaded_same F G : same_but_loads pull_frames creep_interface (loaded_point F) (loaded_point G) no_constraints no_constraints no_constraints.
Proof.
  split; [|split; [reflexivity|split; apply loaded_step]]. split; [repeat split|]. split; [reflexivity|]. split; [reflexivity|]. split; [reflexivity|]. split; [reflexivity|]. split; [intros c; reflexivity|intros c n; reflexivity].
Qed.
Lemma loaded_solvable F old : solvable (loaded_point F) old loaded_histories no_constraints no_constraints <-> Rabs F < 1.
Proof.
  rewrite <- (C111_example F old). split; intros (x & H); exists x; [exact (proj2 H)|]. split; [|exact H]. intros d es z E. discriminate E.
Qed.
(** The limit is the resistance of the point, for every body and supports that carry multiples of its loads. *)
Example C112_example : forall t b' c' old', 0 <= t -> same_but_loads pull_frames creep_interface (loaded_point 1) b' no_constraints c' no_constraints ->
  (forall w, SpecLinear.admissible 2 no_constraints w -> load_work b' w = t * load_work (loaded_point 1) w) ->
  (solvable b' old' loaded_histories c' no_constraints <-> t < 1).
Proof.
  assert (M : forall t, 0 <= t -> 0 <= t /\ same_but_loads pull_frames creep_interface (loaded_point 1) (loaded_point t) no_constraints no_constraints no_constraints /\
    forall w, SpecLinear.admissible (b_ndofs (loaded_point 1)) no_constraints w -> load_work (loaded_point t) w = t * load_work (loaded_point 1) w).
  { intros t P. split; [exact P|]. split; [apply loaded_same|]. intros w _. rewrite !loaded_load. ring. }
  destruct (C112_limit_load pull_frames creep_interface (loaded_point 1) loaded_histories no_constraints no_constraints (loaded_step 1) (loaded_initialised 1) (loaded_sound 1) (loaded_alone 1)) as [All|(limit & L0 & H)].
  - exfalso. pose proof (All 1 (loaded_point 1) no_constraints (fun _ => 0) (M 1 ltac:(lra))) as S. apply loaded_solvable in S. rewrite Rabs_R1 in S. lra.
  - assert (L : limit = 1).
    { apply Rle_antisym.
      - apply Rnot_lt_le. intros G. pose proof (proj2 (H 1 (loaded_point 1) no_constraints (fun _ => 0) (M 1 ltac:(lra))) G) as S. apply loaded_solvable in S. rewrite Rabs_R1 in S. lra.
      - apply Rnot_lt_le. intros G. assert (S : solvable (loaded_point limit) (fun _ => 0) loaded_histories no_constraints no_constraints) by (apply loaded_solvable; rewrite Rabs_pos_eq; lra).
        apply (proj1 (H limit (loaded_point limit) no_constraints (fun _ => 0) (M limit ltac:(lra)))) in S. lra. }
    intros t b' c' old' P SB E. rewrite L in H. apply H. split; [exact P|]. split; [exact SB|exact E].
Qed.
