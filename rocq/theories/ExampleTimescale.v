(** * The rod of C103 pulled at half the speed; a rate-dependent crystal. *)
From Coq Require Import ZArith Lia Lra FunctionalExtensionality.
From Verif Require Import Num SumLemmas Tensors TensorLemmas ModelUtilities ModelElastic ModelMicro ModelCohesive ModelHistory ModelInterface
  ModelFEField ModelLineSearch ModelActiveSet ModelLinear SpecLinear PropLinear ModelAssembly SpecAssembly ModelSolver ModelLoading SpecLoading PropLoading
  ModelShear SpecShear PropShear ModelSweep ModelStep SpecStep ProofStep PropStep ModelProgram SpecProgram PropProgram ModelBody SpecBody PropBody
  ModelTangent SpecTangent PropTangent ExampleBody ExampleProgram SpecElasticBody PropElasticBody PropElasticStep ExampleElasticBody
  SpecRun SpecEnergy SpecMachine SpecSupport PropSupport SpecMirror SpecTimescale PropTimescale ExampleSupport ExampleStiffness.
Open Scope R_scope.

Definition slow_rod : body := retime_body 2 (fun _ => 1 / 2) rod_body.
Definition slow_env : env rank_data :=
  mk_env (e_problem rod_env) (e_blocks rod_env) (body_store slow_rod) (body_update slow_rod) (body_finish slow_rod)
    (e_harden rod_env) (body_norms slow_rod) (e_microstress rod_env)
    (e_solve_mono rod_env) (e_solve_macro rod_env) (e_solve_micro rod_env) (e_solve_reduced rod_env)
    (e_lambdas_mono rod_env) (e_lambdas_macro rod_env) (e_lambdas_micro rod_env).
Lemma rod_rates : rates_follow 2 (fun _ => 1 / 2) rod_body.
Proof. split; [lra|]. intros c. right. cbn. lra. Qed.
(** Two steps of size 1 up to time 2, or two steps of size 2 up to time 4 at half the speed: the
    same accepted states. *)
Example C105_example : rates_follow 2 (fun _ => 1 / 2) rod_body /\
  exists tr, program_run rod_program exact 10 5 (fun _ => 0) bar_start = (tr, Completed) /\ length tr = 2%nat /\
  program_run (retime_program 2 rod_program (fun _ _ => slow_env)) exact 10 5 (fun _ => 0) bar_start = (map (retime_accepted 2) tr, Completed) /\
  end_time exact (retime_loading 2 (pr_loading rod_program)) = 4.
Proof.
  split; [exact rod_rates|].
  destruct (C102_elastic_test_completes rod_program _ _ 10 5 (fun _ => 0) bar_start rod_test bar_valid) as (tr & R1 & R2 & _).
  - apply C50_comparable_steps_suffice; [exact bar_valid|discriminate].
  - cbn. lia.
  - exists tr. split; [exact R1|]. split; [exact R2|]. split; [|unfold end_time, start_time; cbn; lra].
    pose proof (C105_retimed_test 2 (fun _ _ _ => 1 / 2) rod_program (fun _ _ => slow_env) (fun _ _ => rod_body) 10 5 (fun _ => 0) bar_start) as Q.
    rewrite R1 in Q. apply Q; [lra|]. intros k dt. split; [exact rod_rates|]. repeat split.
Qed.
(** Two creeping grains joined by an interface. *)
Example C105_example_grains : rates_follow 2 (fun _ => 1 / 2) creep_body.
Proof. split; [lra|]. intros c. right. cbn. lra. Qed.
(** The reference rate has to follow: at twice the time and the same reference rate the stress
    differs. *)
Example C105_example_rate_dependence :
  let a := mk_scalar_law Sqrt 1 0 0 1 true false in scalar_microstress a 1 0 1 (2 * 1) <> scalar_microstress a 1 0 1 1 /\
  scalar_microstress (retime_law (1 / 2) a) 1 0 1 (2 * 1) = scalar_microstress a 1 0 1 1.
Proof.
  cbv zeta. split; [|apply (microstress_retimed 2); [lra|right; cbn; lra]].
  unfold scalar_microstress, reg_value. cbn [sl_rate_independent sl_reg sl_k]. intros E.
  set (u := sqrt ((1 - 0) / (2 * 1) * ((1 - 0) / (2 * 1)) + 1 * 1)) in *. set (v := sqrt ((1 - 0) / 1 * ((1 - 0) / 1) + 1 * 1)) in *.
  assert (U : u * u = 5 / 4) by (unfold u; rewrite sqrt_sqrt; lra). assert (V : v * v = 2) by (unfold v; rewrite sqrt_sqrt; lra).
  assert (U0 : 0 < u) by (apply sqrt_lt_R0; lra). assert (V0 : 0 < v) by (apply sqrt_lt_R0; lra).
  assert (W : v = 2 * u).
  { assert (E' : / 2 / u = / v) by lra. apply (f_equal Rinv) in E'. rewrite Rinv_inv in E'. rewrite <- E'. field. lra. }
  rewrite W in V. lra.
Qed.
