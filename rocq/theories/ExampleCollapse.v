(** * C113 on the point of ExampleLimit: it collapses by sliding as a whole. *)
From Coq Require Import FunctionalExtensionality.
From Verif Require Import Num ModelShear SpecShear ModelProgram SpecProgram PropProgram ExampleProgram SumLemmas Tensors TensorLemmas ModelUtilities ModelElastic SpecElastic ModelMicro SpecMicro ProofMicro PropMicro ModelCohesive
  SpecCohesive ProofCohesive ModelHistory SpecHistory SpecInterface ModelInterface ModelFEField ModelActiveSet SpecActiveSet PropActiveSet
  ModelLinear SpecLinear PropLinear ModelAssembly SpecAssembly ProofAssembly ProofFace ModelSolver ModelSweep SpecSweep
  PropSweep ModelStep ModelBody SpecBody PropBody PropStep ExampleBody SpecTangent
  SpecRun PropRun SpecEnergy ProofEnergy PropEnergy ExampleEnergy SpecStiffness ExampleStiffness SpecUnique PropUnique ExampleUnique SpecExistence PropExistence ExampleExistence
  SpecContraction PropContraction ProofSaturation SpecLimit PropLimit PropLimitRun ProofCoercive SpecLimitLoad PropLimitLoad ExampleLimit ExampleLimitLoad SpecCollapse PropCollapse.
Open Scope R_scope.

Lemma loaded_free_motion F w : free_motion (loaded_point F) loaded_histories no_constraints w <-> w 0%nat = w 1%nat /\ w 0%nat <> 0.
Proof.
  split.
  - intros (_ & (d & Hd & NZ) & EF & _). specialize (EF (fun d => match d with 0%nat => 1 | _ => 0 end)). rewrite loaded_power, loaded_load in EF. cbv beta iota in EF.
    change (b_ndofs (loaded_point F)) with 2%nat in Hd. split; [lra|]. intros Z. apply NZ. destruct d as [|[|d]]; [exact Z|lra|lia].
  - intros (E & NZ). split; [intros d es z W K; discriminate K|]. split; [exists 0%nat; split; [cbn; lia|exact NZ]|]. split.
    + intros z. rewrite loaded_power, loaded_load, E. ring.
    + intros c q a _ _ _ HH. elim (loaded_perfect F c q HH).
Qed.
Lemma loaded_flow_limit F w : flow_limit (loaded_point F) loaded_histories w = Rabs (w 1%nat).
Proof.
  unfold flow_limit. change (b_cells (loaded_point F)) with [0]%nat. cbn [lsum]. cbv zeta.
  change (b_element (loaded_point F) 0) with creep_element. change (cr_ns (b_crystal (loaded_point F) 0)) with 1%nat. cbn [el_nq creep_element sumn].
  change (mk_element _ _ _ _ _ _ _ _) with creep_element. rewrite loaded_slip, loaded_resistance by lia. cbn. ring.
Qed.
(** Under a body force of 2 it slides away; under one of 1/2 nothing does, and the step has a solution. *)
Example C113_example_collapse : collapse (loaded_point 2) loaded_histories no_constraints (fun _ => 1).
Proof. split; [apply loaded_free_motion; lra|]. rewrite loaded_flow_limit, loaded_load, Rabs_R1. lra. Qed.
Example C113_example_no_collapse old : solvable (loaded_point (1/2)) old loaded_histories no_constraints no_constraints.
Proof.
  apply (C113_solvable_iff_no_collapse (loaded_point (1/2)) pull_frames creep_interface old loaded_histories no_constraints no_constraints (loaded_step (1/2)) (loaded_initialised _) (loaded_sound _) (loaded_alone _)).
  intros w (F & L). apply loaded_free_motion in F. destruct F as (E & NZ). rewrite loaded_flow_limit, loaded_load, <- E in L.
  pose proof (Rabs_pos_lt _ NZ). pose proof (Rle_abs (w 0%nat)). lra.
Qed.
(** Its limit load is 1, found from its motions alone. *)
Example C113_example_limit t old : 0 <= t -> (solvable (loaded_point t) old loaded_histories no_constraints no_constraints <-> t < 1).
Proof.
  intros T.
  rewrite (C113_load_factor pull_frames creep_interface (loaded_point 1) (loaded_point t) old loaded_histories no_constraints no_constraints no_constraints t (loaded_same 1 t)
    (loaded_initialised 1) (loaded_sound 1) (loaded_alone 1)) by (intros w _; rewrite !loaded_load; ring).
  split.
  - intros H. specialize (H (fun _ => 1) (proj2 (loaded_free_motion 1 (fun _ => 1)) (conj eq_refl R1_neq_R0))). rewrite loaded_flow_limit, loaded_load, Rabs_R1 in H. lra.
  - intros L w F. apply loaded_free_motion in F. destruct F as (E & NZ). rewrite loaded_flow_limit, loaded_load, <- E.
    pose proof (Rabs_pos_lt _ NZ). pose proof (Rle_abs (w 0%nat)). nra.
Qed.
(** The hardening point has no free motion. *)
