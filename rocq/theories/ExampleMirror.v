(** * The rod of C103 under reversed weight and reversed load. *)
From Coq Require Import ZArith Lia Lra FunctionalExtensionality.
From Verif Require Import Num SumLemmas Tensors TensorLemmas ModelUtilities ModelElastic ModelMicro ModelCohesive ModelHistory ModelInterface
  ModelFEField ModelLineSearch ModelActiveSet ModelLinear SpecLinear PropLinear ModelAssembly SpecAssembly ModelSolver ModelLoading SpecLoading PropLoading
  ModelShear SpecShear PropShear ModelSweep ModelStep SpecStep ProofStep PropStep ModelProgram SpecProgram PropProgram ModelBody SpecBody PropBody
  ModelTangent SpecTangent PropTangent ExampleBody ExampleProgram SpecElasticBody PropElasticBody PropElasticStep ExampleElasticBody
  SpecRun SpecEnergy SpecMachine SpecSupport PropSupport SpecMirror PropMirror ExampleSupport.
Open Scope R_scope.

Definition rod_solve' (s : sstate rank_data) : result vec :=
  Ok (fun d => match d with 1%nat => (st_trial s 0%nat + st_trial s 2%nat - 1) / 2 - st_trial s 1%nat | _ => 0 end).
Definition rod_env' : env rank_data :=
  mk_env pull_problem (fun _ => Macro) (body_store (reverse_body rod_body)) (body_update (reverse_body rod_body)) (body_finish (reverse_body rod_body))
    (fun _ _ _ g => g) (body_norms (reverse_body rod_body)) (fun _ _ => 0)
    rod_solve' (fun _ => Ok (fun _ => 0)) (fun _ => Ok (fun _ => 0)) (fun _ => Ok (fun _ => 0))
    (fun _ => []) (fun _ => []) (fun _ => []).
Lemma zero_reverse : reverse (fun _ => 0) = fun _ => 0.
Proof. apply functional_extensionality. intros d. unfold reverse. ring. Qed.
Lemma rod_direction : no_preferred_direction rod_env rod_env'.
Proof.
  split; [reflexivity|]. intros s. cbn [rod_env rod_env' e_microstress e_solve_mono e_solve_macro e_solve_micro e_solve_reduced e_lambdas_mono e_lambdas_macro e_lambdas_micro reverse_result].
  rewrite zero_reverse. repeat split. unfold rod_solve, rod_solve'. cbn [reverse_result]. f_equal. apply functional_extensionality. intros d.
  cbn [reverse_state st_trial]. unfold reverse. destruct d as [|[|d]]; [ring|unfold Rdiv; ring|ring].
Qed.
(** Two steps upwards with the weight 2 downwards; two steps downwards with the weight upwards. *)
Example C104_example : coherent rod_body /\ no_preferred_direction rod_env rod_env' /\
  exists tr, program_run rod_program exact 10 5 (fun _ => 0) bar_start = (tr, Completed) /\ length tr = 2%nat /\
  program_run (reverse_program rod_program (fun _ _ => rod_env')) exact 10 5 (reverse (fun _ => 0)) (reverse_state bar_start) = (map reverse_accepted tr, Completed).
Proof.
  assert (C : coherent rod_body) by (split; [reflexivity|intros c n _ Hn; destruct Hn]).
  split; [exact C|]. split; [exact rod_direction|].
  destruct (C102_elastic_test_completes rod_program _ _ 10 5 (fun _ => 0) bar_start rod_test bar_valid) as (tr & R1 & R2 & _).
  - apply C50_comparable_steps_suffice; [exact bar_valid|discriminate].
  - cbn. lia.
  - exists tr. split; [exact R1|]. split; [exact R2|].
    pose proof (C104_reversed_test rod_program (fun _ _ => rod_env') (fun _ _ => rod_body) exact 10 5 (fun _ => 0) bar_start) as Q.
    rewrite R1 in Q. apply Q; [exact bar_homogeneous|]. intros k dt. split; [exact C|]. split; [repeat split|]. split; [reflexivity|]. split; [repeat split|]. split; [reflexivity|].
    split; [repeat split|exact rod_direction].
Qed.
