(** * C103 on an elastic rod under its own weight, sheared in two steps. *)
From Coq Require Import ZArith Lia Lra FunctionalExtensionality.
From Verif Require Import Num SumLemmas Tensors TensorLemmas ModelUtilities ModelElastic ModelMicro ModelCohesive ModelHistory ModelInterface
  ModelFEField ModelLineSearch ModelActiveSet ModelLinear SpecLinear PropLinear ModelAssembly SpecAssembly ModelSolver ModelLoading SpecLoading PropLoading
  ModelShear SpecShear PropShear ModelSweep ModelStep SpecStep ProofStep PropStep ModelProgram SpecProgram PropProgram ModelBody SpecBody PropBody
  ModelTangent SpecTangent PropTangent ExampleBody ExampleProgram SpecElasticBody PropElasticBody PropElasticStep ExampleElasticBody
  SpecRun SpecEnergy SpecMachine SpecSupport PropSupport.
Open Scope R_scope.

(** The bar of C97 with its displacement shape functions and a body force 1. *)
Definition rod_element : element :=
  mk_element 2 3 (fun _ => 0%nat) (fun _ => 1) (fun i q s => if Nat.eqb s 0 then if (Nat.eqb i q || Nat.eqb i (S q))%bool then 1/2 else 0 else 0)
    (fun i q r s => if Nat.eqb i (S q) then 1 else if Nat.eqb i q then -1 else 0) (fun _ _ _ => 0) (fun _ _ _ _ => 0).
Definition rod_crystal : crystal :=
  mk_crystal 1 0 (fun _ => 1) (fun _ _ _ _ => 1) (fun _ _ _ => 0) (mk_scalar_law Tanh 1 0 0 1 true false) 1 2
    (fun _ _ => 0) (fun _ _ => 0) (fun _ _ => 0) (fun _ _ => 1) 1.
Definition rod_body : body :=
  mk_body (mk_sweep_mesh (fun _ => 0%nat) (fun _ => []))
    [0]%nat 3 (fun _ => [0; 1; 2]%nat) (fun _ => false) (fun _ => rod_element) (fun _ => rod_crystal)
    (fun c _ => pull_face c) (fun _ _ => pull_interface) (fun _ => [])
    2 1 1 0 false false (mk_hardening 1 0 0 true) 1 pull_iprm (mk_cohesive 1 1 0 1 1) 1 OrtizEtAl (fun _ _ _ _ => 0).
Definition rod_solve (s : sstate rank_data) : result vec :=
  Ok (fun d => match d with 1%nat => (st_trial s 0%nat + st_trial s 2%nat + 1) / 2 - st_trial s 1%nat | _ => 0 end).
Definition rod_env : env rank_data :=
  mk_env pull_problem (fun _ => Macro) (body_store rod_body) (body_update rod_body) (body_finish rod_body)
    (fun _ _ _ g => g) (body_norms rod_body) (fun _ _ => 0)
    rod_solve (fun _ => Ok (fun _ => 0)) (fun _ => Ok (fun _ => 0)) (fun _ => Ok (fun _ => 0))
    (fun _ => []) (fun _ => []) (fun _ => []).
Definition rod_program : program rank_data :=
  mk_program bar_loading 2 bar_strip 1 1 0 1 (two_parameters false false) Monolithic (fun _ _ => rod_env).

Lemma rod_elastic : elastic_body rod_body.
Proof. repeat split. Qed.
Lemma rod_consistent : SpecBody.consistent rod_body.
Proof.
  split; [exact bar_nodup|]. split; [cbn; lra|]. split.
  - intros c Hc. split; [reflexivity|]. split; [reflexivity|].
    split. { intros [|[|[|i]]] Hi; cbn in *; lia. }
    split; [|split; cbn; lra].
    intros j q _ _. cbn. split; [lia|]. split; intros; [lia|lia].
  - intros c n _ Hn. destruct Hn.
Qed.
Lemma rod_entry old x h : cell_entry rod_body old x h 0 1 = Fin ((x 2%nat - x 1%nat) - (x 1%nat - x 0%nat) + 1).
Proof.
  rewrite (entry_value rod_body rod_consistent rod_elastic); [|left; reflexivity|cbn; lia]. f_equal.
  unfold elastic_entry, loads_entry. change (b_loads rod_body 0) with (@nil neumann_face). change (b_crystal rod_body 0) with rod_crystal. change (b_element rod_body 0) with rod_element.
  unfold ddot, dot, balance_factor, stress_at, c4, madd, elastic_strain, strain_at, slip_at, local_values.
  cbn [sumn lsum cr_dim rod_crystal cr_N el_w rod_element el_eps el_phi cr_supply el_nd el_nq cr_macro cr_C cr_ns b_dofs rod_body nth Nat.eqb orb]. lra.
Qed.
Lemma rod_residual old x h d : body_residual rod_body old x h (newton_of bar_strip) d = if Nat.eqb 1 d then (x 2%nat - x 1%nat) - (x 1%nat - x 0%nat) + 1 else 0.
Proof.
  pose proof (rod_entry old x h) as E1. unfold body_residual, assemble_residual. cbn [b_cells rod_body map flat_map body_system ls_cell ls_rhs body_cell mc_dofs b_dofs].
  unfold vector_writes, resolve. change (enumerate [0; 1; 2]%nat) with [(0, 0); (1, 1); (2, 2)]%nat.
  cbn [flat_map fst snd]. rewrite !bar_newton. cbn [map app fst snd]. fold rod_body. rewrite E1. unfold vector_of. cbn [fold_right fst snd value_of].
  destruct (Nat.eqb 1 d); lra.
Qed.
Lemma rod_exact : exact_solver rod_body (newton_of bar_strip) rod_solve.
Proof.
  intros s K. unfold rod_solve. eexists. exists bar_pattern. rewrite K.
  destruct (bar_writes (fun i j => value_of (cell_matrix_entry rod_body (st_old s) (st_trial s) (st_hist s) 0 i j))
    (fun k i j => value_of (cell_coupling_entry rod_body (st_trial s) (st_hist s) 0 k i j))
    (fun i => value_of (cell_entry rod_body (st_old s) (st_trial s) (st_hist s) 0 i))) as (a0 & a2 & B).
  exists [(1%nat, 1%nat, 1 * 1 * value_of (cell_matrix_entry rod_body (st_old s) (st_trial s) (st_hist s) 0 1 1)); (0%nat, 0%nat, a0); (2%nat, 2%nat, a2)].
  split; [reflexivity|]. split.
  - rewrite bar_newton_fun. exact B.
  - rewrite (matrix_value rod_body rod_consistent rod_elastic); [|left; reflexivity|cbn; lia|cbn; lia].
    assert (S : elastic_stiffness rod_body 0 1 1 = 2).
    { unfold elastic_stiffness. change (b_crystal rod_body 0) with rod_crystal. change (b_element rod_body 0) with rod_element.
      unfold ddot, c4, balance_factor. cbn [sumn cr_dim rod_crystal cr_N el_w rod_element el_eps el_nq cr_macro cr_C Nat.eqb]. lra. }
    rewrite S. intros r Hr. rewrite rod_residual. change (b_ndofs rod_body) with 3%nat in *. unfold matrix_of. cbn [sumn fold_right fst snd value_of].
    destruct r as [|[|[|r]]]; [..|lia]; cbn [Nat.eqb andb]; lra.
Qed.
Lemma rod_on_body : on_bodies rod_program (fun _ _ => rod_body) rod_body.
Proof. intros k dt. split; [exact rod_consistent|]. split; [left; reflexivity|]. split; [repeat split|]. split; [reflexivity|repeat split]. Qed.
Lemma rod_well_formed : well_formed_program rod_program.
Proof. intros k dt ts. exact (bar_well_formed k dt ts). Qed.
Lemma rod_test : elastic_test rod_program (fun _ _ => rod_body) rod_body 10.
Proof.
  split; [exact rod_on_body|]. split; [exact rod_well_formed|]. split; [exact bar_homogeneous|]. split; [reflexivity|]. split; [discriminate|].
  split; [cbn; split; [lra|lia]|]. split; [cbn; lia|]. intros k dt. split; [exact rod_elastic|]. split; [intros d; reflexivity|].
  split; [split; [exact rod_exact|intros s _; reflexivity]|]. split; [exact bar_closed|]. split; [intros c n d _ []|].
  intros d Hd _. exists 0%nat. split; [left; reflexivity|]. change (b_ndofs rod_body) with 3%nat in Hd. change (b_dofs rod_body 0) with [0; 1; 2]%nat.
  destruct d as [|[|[|d]]]; cbn; [auto|auto|auto|lia].
Qed.
Definition ones : vec := fun _ => 1.
Lemma rod_translation : translation rod_body 0 ones.
Proof.
  split; [split|].
  - intros c q [<-|[]] Hq. cbv zeta. change (el_nq (b_element rod_body 0)) with 2%nat in Hq. split; [|intros a Ha; change (cr_ns (b_crystal rod_body 0)) with 0%nat in Ha; lia].
    intros i j _ _. unfold strain_at, local_values, ones. cbn [rod_body b_element rod_element el_nd sumn el_eps].
    destruct q as [|[|q]]; cbn [Nat.eqb]; [lra|lra|lia].
  - intros c n q _ Hn. destruct Hn.
  - intros c [<-|[]]. cbv zeta. split; [|intros f q s []]. intros q s Hq. change (el_nq (b_element rod_body 0)) with 2%nat in Hq.
    unfold local_values, ones. cbn [rod_body b_element rod_element el_nd sumn el_phi]. unfold kron.
    destruct q as [|[|q]]; cbn [Nat.eqb orb]; [destruct (Nat.eqb s 0); lra|destruct (Nat.eqb s 0); lra|lia].
Qed.
Lemma rod_edges : obstructed_at_edges rod_program ones.
Proof.
  split; intros d; unfold obstructed; change (pr_strip rod_program) with bar_strip; rewrite bar_newton; destruct d as [|[|[|d]]]; cbn; auto; intros; try discriminate; try congruence.
Qed.
(** The rod weighs 2; the run completes its two steps and in each of them the edges carry the
    weight. *)
Example C103_example : resultant rod_body 0 = 2 /\ translation rod_body 0 ones /\ obstructed_at_edges rod_program ones /\
  (forall d, crosshead rod_program d = 1 * edge_motion rod_program 3 ones d) /\
  exists tr, program_run rod_program exact 10 5 (fun _ => 0) bar_start = (tr, Completed) /\ length tr = 2%nat /\
  edges_in_balance rod_program 0 ones (bodies_of (fun _ _ => rod_body) exact 0 start_time (times_of tr)) (map (fun x => st_trial (ac_state x)) tr) (st_old bar_start) (st_hist bar_start).
Proof.
  split. { unfold resultant. cbn. lra. }
  split; [exact rod_translation|]. split; [exact rod_edges|].
  split. { intros d. unfold crosshead, edge_motion, obstructed. change (pr_strip rod_program) with bar_strip. rewrite bar_newton. unfold ones. destruct d as [|[|[|d]]]; cbn; lra. }
  destruct (C102_elastic_test_completes rod_program _ _ 10 5 (fun _ => 0) bar_start rod_test bar_valid) as (tr & R1 & R2 & _).
  - apply C50_comparable_steps_suffice; [exact bar_valid|discriminate].
  - cbn. lia.
  - exists tr. split; [exact R1|]. split; [exact R2|].
    apply (C103_edges_balance_in_the_shear_test rod_program (fun _ _ => rod_body) rod_body exact 10 5 (fun _ => 0) bar_start tr Completed 0 ones).
    + exact rod_on_body.
    + exact bar_initialised.
    + reflexivity.
    + intros k dt. split; [exact bar_closed|]. split; [intros c n _ Hn; destruct Hn|]. split; [intros c n _ Hn; destruct Hn|]. split; [exact rod_translation|]. intros c _. cbn. lia.
    + exact rod_edges.
    + exact R1.
Qed.
