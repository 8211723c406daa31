(** * C102 on the elastic bar of C97. *)
From Coq Require Import ZArith Lia Lra FunctionalExtensionality.
From Verif Require Import Num SumLemmas Tensors TensorLemmas ModelUtilities ModelElastic ModelMicro ModelCohesive ModelHistory ModelInterface
  ModelFEField ModelLineSearch ModelActiveSet ModelLinear SpecLinear PropLinear ModelAssembly SpecAssembly ModelSolver ModelLoading SpecLoading PropLoading
  ModelShear SpecShear PropShear ModelSweep ModelStep SpecStep ProofStep PropStep ModelProgram SpecProgram PropProgram ModelBody SpecBody PropBody
  ModelTangent SpecTangent PropTangent ExampleBody ExampleProgram SpecElasticBody PropElasticBody PropElasticStep.
Open Scope R_scope.

Definition bar_pattern : list (nat * nat) := [(0, 0); (1, 1); (2, 2)]%nat.
Lemma bar_elastic : elastic_body bar_body.
Proof. repeat split. Qed.
Lemma bar_newton_fun : newton_of bar_strip = fun d => match d with 0%nat | 2%nat => Some ([], 0) | _ => None end.
Proof. apply functional_extensionality. exact bar_newton. Qed.
Lemma bar_writes M Cp v : exists a0 a2, assemble_jacobian bar_pattern (fun d => match d with 0%nat | 2%nat => Some ([], 0) | _ => None end) false
  [mk_local_system (body_cell bar_body 0) M Cp v] = Ok [(1%nat, 1%nat, 1 * 1 * M 1%nat 1%nat); (0%nat, 0%nat, a0); (2%nat, 2%nat, a2)].
Proof. eexists. eexists. reflexivity. Qed.
Lemma bar_residual old x h d : body_residual bar_body old x h (newton_of bar_strip) d = if Nat.eqb 1 d then (x 2%nat - x 1%nat) - (x 1%nat - x 0%nat) else 0.
Proof.
  pose proof (bar_entry old x h 1 ltac:(lia)) as E1. unfold body_residual, assemble_residual. cbn [b_cells bar_body map flat_map body_system ls_cell ls_rhs body_cell mc_dofs b_dofs].
  unfold vector_writes, resolve. change (enumerate [0; 1; 2]%nat) with [(0, 0); (1, 1); (2, 2)]%nat.
  cbn [flat_map fst snd]. rewrite !bar_newton. cbn [map app fst snd]. fold bar_body. rewrite E1. unfold vector_of. cbn [fold_right fst snd value_of].
  destruct (Nat.eqb 1 d); lra.
Qed.
Lemma bar_exact : exact_solver bar_body (newton_of bar_strip) bar_solve.
Proof.
  intros s K. unfold bar_solve. eexists. exists bar_pattern. rewrite K.
  destruct (bar_writes (fun i j => value_of (cell_matrix_entry bar_body (st_old s) (st_trial s) (st_hist s) 0 i j))
    (fun k i j => value_of (cell_coupling_entry bar_body (st_trial s) (st_hist s) 0 k i j))
    (fun i => value_of (cell_entry bar_body (st_old s) (st_trial s) (st_hist s) 0 i))) as (a0 & a2 & B).
  exists [(1%nat, 1%nat, 1 * 1 * value_of (cell_matrix_entry bar_body (st_old s) (st_trial s) (st_hist s) 0 1 1)); (0%nat, 0%nat, a0); (2%nat, 2%nat, a2)].
  split; [reflexivity|]. split.
  - rewrite bar_newton_fun. exact B.
  - rewrite (matrix_value bar_body bar_consistent bar_elastic); [|left; reflexivity|cbn; lia|cbn; lia].
    assert (S : elastic_stiffness bar_body 0 1 1 = 2).
    { unfold elastic_stiffness. change (b_crystal bar_body 0) with bar_crystal. change (b_element bar_body 0) with bar_element.
      unfold ddot, c4, balance_factor. cbn [sumn cr_dim bar_crystal cr_N el_w bar_element el_eps el_nq cr_macro cr_C Nat.eqb]. lra. }
    rewrite S. intros r Hr. rewrite bar_residual. change (b_ndofs bar_body) with 3%nat in *. unfold matrix_of. cbn [sumn fold_right fst snd value_of].
    destruct r as [|[|[|r]]]; [..|lia]; cbn [Nat.eqb andb]; lra.
Qed.
(** The bar satisfies the hypotheses of C102: its test completes after the two planned steps,
    its first step takes one Newton iteration. *)
Example C102_example : elastic_test bar_program (fun _ _ => bar_body) bar_body 10 /\
  (exists tr, program_run bar_program exact 10 5 (fun _ => 0) bar_start = (tr, Completed) /\ length tr = 2%nat) /\
  (exists tr, program_run bar_program double 10 5 (fun _ => 0) bar_start = (tr, Completed) /\ length tr = 2%nat).
Proof.
  assert (E : elastic_test bar_program (fun _ _ => bar_body) bar_body 10).
  { split; [exact bar_on_body|]. split; [exact bar_well_formed|]. split; [exact bar_homogeneous|]. split; [reflexivity|]. split; [discriminate|].
    split; [cbn; split; [lra|lia]|]. split; [cbn; lia|]. intros k dt. split; [exact bar_elastic|]. split; [intros d; reflexivity|].
    split; [split; [exact bar_exact|intros s _; reflexivity]|]. split; [exact bar_closed|]. split; [intros c n d _ []|].
    intros d Hd _. exists 0%nat. split; [left; reflexivity|]. change (b_ndofs bar_body) with 3%nat in Hd. change (b_dofs bar_body 0) with [0; 1; 2]%nat.
    destruct d as [|[|[|d]]]; cbn; [auto|auto|auto|lia]. }
  split; [exact E|]. split.
  - destruct (C102_elastic_test_completes bar_program _ _ 10 5 (fun _ => 0) bar_start E bar_valid) as (tr & R1 & R2 & _).
    + apply C50_comparable_steps_suffice; [exact bar_valid|discriminate].
    + cbn. lia.
    + exists tr. split; [exact R1|exact R2].
  - destruct (C102_elastic_test_completes_in_double_precision bar_program _ _ 10 5 (fun _ => 0) bar_start E) as (tr & R1 & R2).
    + reflexivity.
    + apply (double_int 2). reflexivity.
    + change (l_duration_mono (pr_loading bar_program)) with 2. apply Rle_trans with 1; [|lra].
      rewrite <- Rinv_1. apply Rinv_le_contravar; [lra|]. apply pow_R1_Rle. lra.
    + cbn. lia.
    + cbn. lia.
    + exists tr. split; [exact R1|exact R2].
Qed.
