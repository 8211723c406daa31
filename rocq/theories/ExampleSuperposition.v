(** * C108 on the elastic bar of C97. *)
From Coq Require Import ZArith Lia Lra FunctionalExtensionality.
From Verif Require Import Num SumLemmas Tensors TensorLemmas ModelUtilities ModelElastic SpecElastic ModelMicro ModelCohesive ModelHistory ModelInterface
  ModelFEField ModelLineSearch ModelActiveSet ModelLinear SpecLinear PropLinear ModelAssembly SpecAssembly ModelSolver ModelLoading SpecLoading PropLoading
  ModelShear SpecShear PropShear ModelSweep ModelStep SpecStep ProofStep PropStep ModelProgram SpecProgram PropProgram ModelBody SpecBody PropBody
  ModelTangent SpecTangent PropTangent ExampleBody ExampleProgram SpecEnergy SpecStiffness SpecUnique SpecElasticBody PropElasticBody PropElasticStep ExampleElasticBody
  SpecSuperposition PropSuperposition.
Open Scope R_scope.

Lemma same_solid_refl b : same_solid b b.
Proof.
  split; [repeat split|]. split; [reflexivity|]. split; [reflexivity|]. split; [reflexivity|]. split; [reflexivity|]. split.
  - intros c. cbv zeta. destruct (b_crystal b c); reflexivity.
  - intros c n. cbv zeta. destruct (b_interface b c n); reflexivity.
Qed.
(** The bar under the macroscopic strain [m] with step size [dt]. *)
Definition strained_crystal (m dt : R) : crystal :=
  mk_crystal 1 0 (fun _ => 1) (fun _ _ _ _ => 1) (fun _ _ _ => 0) (mk_scalar_law Tanh 1 0 0 1 true false) 1 2
    (fun _ _ => 0) (fun _ _ => 0) (fun _ _ => m) (fun _ _ => 0) dt.
Definition strained_bar (m dt : R) : body :=
  mk_body (mk_sweep_mesh (fun _ => 0%nat) (fun _ => []))
    [0]%nat 3 (fun _ => [0; 1; 2]%nat) (fun _ => false) (fun _ => bar_element) (fun _ => strained_crystal m dt)
    (fun c _ => pull_face c) (fun _ _ => pull_interface) (fun _ => [])
    2 1 1 0 false false (mk_hardening 1 0 0 true) 1 pull_iprm (mk_cohesive 1 1 0 1 1) 1 OrtizEtAl (fun _ _ _ _ => 0).
(** Both ends held, the upper one at [v]. *)
Definition ends (v : R) : constraints := fun d => match d with 0%nat => Some ([], 0) | 2%nat => Some ([], v) | _ => None end.
Definition stretched (v : R) : vec := fun d => match d with 1%nat => v / 2 | 2%nat => v | _ => 0 end.
Lemma strained_firm m dt : firm (strained_bar m dt).
Proof.
  intros c Hc. cbv zeta. change (b_crystal (strained_bar m dt) c) with (strained_crystal m dt). change (b_element (strained_bar m dt) c) with bar_element.
  cbn [strained_crystal cr_N cr_dim cr_C]. split; [lra|]. split; [intros; cbn; lra|]. split; [intros i q k l _ _; reflexivity|]. split.
  - intros A _. unfold ddot, c4. cbn [sumn]. pose proof (Rle_0_sqr (A 0%nat 0%nat)). unfold Rsqr in *. lra.
  - intros A _ Z i j Hi Hj. unfold ddot, c4 in Z. cbn [sumn] in Z. replace i with 0%nat by lia. replace j with 0%nat by lia. assert (Q : A 0%nat 0%nat * A 0%nat 0%nat = 0) by lra.
    apply Rmult_integral in Q. tauto.
Qed.
Lemma strained_consistent m dt : SpecBody.consistent (strained_bar m dt).
Proof. exact bar_consistent. Qed.
Lemma strained_elastic m dt : elastic_body (strained_bar m dt).
Proof. repeat split. Qed.
Lemma strained_solves m dt v : solves_step (strained_bar m dt) (fun _ => 0) bar_histories (ends 0) (stretched v).
Proof.
  intros w A. rewrite (elastic_virtual_power _ _ _ _ _ (strained_elastic m dt)).
  assert (W0 : w 0%nat = 0) by (rewrite (A 0%nat [] 0); [reflexivity|cbn; lia|reflexivity]).
  assert (W2 : w 2%nat = 0) by (rewrite (A 2%nat [] 0); [reflexivity|cbn; lia|reflexivity]).
  cbn [b_cells strained_bar lsum]. unfold elastic_power, local_values, strain_at, ddot, c4, dot.
  change (b_crystal _ 0) with (strained_crystal m dt). change (b_element _ 0) with bar_element. change (b_loads _ 0) with (@nil neumann_face). change (b_dofs _ 0) with [0; 1; 2]%nat.
  cbn [sumn strained_crystal bar_element cr_dim cr_N cr_C cr_macro cr_supply el_nq el_nd el_w el_eps el_phi lsum nth Nat.eqb]. rewrite W0, W2. unfold stretched. cbn [Nat.eqb]. lra.
Qed.
Lemma strained_held m dt : held_in_place (strained_bar m dt) (ends 0).
Proof.
  intros v A Z d Hd. change (b_ndofs _) with 3%nat in Hd.
  assert (W0 : v 0%nat = 0) by (rewrite (A 0%nat [] 0); [reflexivity|cbn; lia|reflexivity]).
  assert (W2 : v 2%nat = 0) by (rewrite (A 2%nat [] 0); [reflexivity|cbn; lia|reflexivity]).
  destruct (Z 0%nat 0%nat (or_introl eq_refl) ltac:(cbn; lia)) as (S & _). specialize (S 0%nat 0%nat ltac:(cbn; lia) ltac:(cbn; lia)).
  unfold strain_at, local_values in S. change (b_element _ 0) with bar_element in S. change (b_dofs _ 0) with [0; 1; 2]%nat in S.
  cbn [sumn bar_element el_nd el_eps nth Nat.eqb] in S. destruct d as [|[|[|d]]]; [exact W0|lra|exact W2|lia].
Qed.
(** Macroscopic strains 1 and 2, end displacements 1 and 3, steps of different sizes: twice the first minus the second. *)
Example C108_superposition_example : superposed_loading 2 (-1) (strained_bar 1 1) (strained_bar 2 5) (strained_bar 0 (1/3)) /\
  superposed_supports 2 (-1) (ends 1) (ends 3) (ends (-1)) /\
  forall d, (d < 3)%nat -> stretched (-1) d = 2 * stretched 1 d + -1 * stretched 3 d.
Proof.
  assert (SL : superposed_loading 2 (-1) (strained_bar 1 1) (strained_bar 2 5) (strained_bar 0 (1/3))).
  { split; [|split].
    - split; [repeat split|]. split; [reflexivity|]. split; [reflexivity|]. split; [reflexivity|]. split; [reflexivity|]. split; [intros c; reflexivity|intros c n; reflexivity].
    - split; [repeat split|]. split; [reflexivity|]. split; [reflexivity|]. split; [reflexivity|]. split; [reflexivity|]. split; [intros c; reflexivity|intros c n; reflexivity].
    - split; [reflexivity|]. split; [reflexivity|]. intros c _. split; [intros; cbn; ring|]. split; [intros; cbn; ring|]. constructor. }
  assert (SP : superposed_supports 2 (-1) (ends 1) (ends 3) (ends (-1))).
  { intros [|[|[|d]]]; cbn; repeat split; ring. }
  split; [exact SL|]. split; [exact SP|].
  apply (C108_superposition 2 (-1) (strained_bar 1 1) (strained_bar 2 5) (strained_bar 0 (1/3)) (fun _ => 0) (fun _ => 0) (fun _ => 0) bar_histories bar_histories bar_histories
    (ends 1) (ends 3) (ends (-1)) (ends 0)); try apply strained_elastic; try apply strained_solves; try assumption.
  - intros [|[|[|d]]]; cbn; auto.
  - intros [|[|[|d]]] es z E; cbn in E; try discriminate; injection E as <- <-; cbn; lra.
  - intros [|[|[|d]]] es z E; cbn in E; try discriminate; injection E as <- <-; cbn; lra.
  - intros [|[|[|d]]] es z E; cbn in E; try discriminate; injection E as <- <-; cbn; lra.
  - apply strained_consistent.
  - apply strained_firm.
  - reflexivity.
  - apply strained_held.
Qed.
(** The shear test of C97. *)
Example C108_shear_test_example : exists x y, 
  let tx := ModelLoading.st_time (ac_record x) in let ty := ModelLoading.st_time (ac_record y) in
  let z := fun d => ty * st_trial (ac_state x) d - tx * st_trial (ac_state y) d in
  program_run bar_program exact 10 5 (fun _ => 0) bar_start = ([x; y], Completed) /\
  0 <= elastic_work bar_body z z <= (Rabs tx + Rabs ty) * tolerated (two_parameters false false) Monolithic bar_body z.
Proof.
  destruct C102_example as (_ & (tr & R1 & R2) & _). destruct tr as [|x [|y [|]]]; try discriminate. exists x, y. cbv zeta. split; [exact R1|].
  refine (C108_shear_test_is_proportional bar_program (fun _ _ => bar_body) bar_body exact 10 5 (fun _ => 0) bar_start [x; y] Completed x y
    bar_on_body bar_well_formed bar_homogeneous eq_refl _ (strained_firm 0 1) bar_closed bar_initialised R1 (or_introl eq_refl) (or_intror (or_introl eq_refl))).
  intros k dt. split; [exact bar_elastic|]. split; [|split; [apply same_solid_refl|split; reflexivity]].
  intros c _. split; [reflexivity|]. split; reflexivity.
Qed.
