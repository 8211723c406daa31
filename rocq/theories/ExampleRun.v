(** * C94 on the two grains pulled apart (ExampleBody). *)
From Coq Require Import FunctionalExtensionality.
From Verif Require Import Num SumLemmas Tensors TensorLemmas ModelUtilities ModelElastic ModelMicro SpecMicro
  ModelCohesive SpecCohesive ProofCohesive ModelHistory SpecHistory ProofHistory SpecInterface ModelInterface
  ModelFEField ModelLineSearch ModelActiveSet SpecActiveSet PropActiveSet
  ModelLinear SpecLinear PropLinear ModelAssembly SpecAssembly ModelSolver ModelSweep SpecSweep
  ProofInterface PropSweep ModelStep SpecStep ProofStep PropStep ModelBody SpecBody PropBody ModelTangent SpecTangent ProofTangent SpecRun PropRun ExampleBody.
Open Scope R_scope.

Lemma pull_two_sided : two_sided pull_body.
Proof.
  intros c n _ Hn. apply pull_gb in Hn. split; [reflexivity|]. split; [reflexivity|]. intros q. split; [|split; reflexivity].
  apply functional_extensionality; intros r. destruct Hn as [[-> ->]|[-> ->]]; cbn; unfold vneg, pull_normal; cbn; ring.
Qed.
Example C94_example : exists r,
  run_from_setup (two_parameters false false) Monolithic 10 pull_body [(pull_body, (pull_env, pull_timing))]
    (mk_rank_data (fun _ _ => ModelHistory.construct (mk_hardening 1 0 0 true) 1) (fun _ _ => i_construct)) (fun _ => 0) pull_start [r] /\
  In 1%nat (gb_neighbours pull_body 0) /\
  largest_opening [pull_body] [st_trial r] 0 1 0 = 1 /\
  i_damage (r_face (st_hist r) (0, 1)%nat 0) = Fin (1 - 2 * exp (-1)).
Proof.
  destruct C92_example as (s' & r & E & C & M & W & F & I & T0 & T1 & _ & _ & D). exists r.
  split; [|split; [left; reflexivity|split; [|exact D]]].
  - split.
    { intros b e t [X|[]]. injection X as <- <- <-. split; [exact C|]. split; [exact M|]. split; [exact W|]. split; [exact F|].
      split; [repeat split|exact pull_two_sided]. }
    split; [exact pull_nodup|]. split; [reflexivity|]. split; [reflexivity|]. split; [left; reflexivity|].
    eexists. cbn [map snd]. exact E.
  - cbn [largest_opening]. rewrite Rmax_left by apply sqrt_pos. unfold opening_of. rewrite <- eff_eq.
    exact (pull_opening 0 (st_trial r) 0 1 (or_introl (conj eq_refl eq_refl)) T0 T1).
Qed.
