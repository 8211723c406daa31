(** * C99 on one viscoplastic point: the only solution of the step. *)
From Coq Require Import FunctionalExtensionality.
From Verif Require Import Num ModelShear SpecShear ModelProgram SpecProgram PropProgram ExampleProgram SumLemmas Tensors TensorLemmas ModelUtilities ModelElastic SpecElastic ModelMicro SpecMicro ProofMicro ModelCohesive
  SpecCohesive ProofCohesive ModelHistory SpecHistory SpecInterface ModelInterface ModelFEField ModelActiveSet SpecActiveSet PropActiveSet
  ModelLinear SpecLinear PropLinear ModelAssembly SpecAssembly ProofAssembly ProofFace ModelSolver ModelSweep SpecSweep
  PropSweep ModelStep ModelBody SpecBody PropBody PropStep ExampleBody SpecTangent
  SpecRun PropRun SpecEnergy ProofEnergy PropEnergy ExampleEnergy SpecStiffness ExampleStiffness SpecUnique PropUnique.
Open Scope R_scope.

(** A displacement (dof 0, the strain) and a slip (dof 1). *)
Definition point_body : body :=
  mk_body (mk_sweep_mesh (fun _ => 0%nat) (fun _ => []))
    [0]%nat 2 (fun _ => [0; 1]%nat) (fun d => Nat.odd d) (fun _ => creep_element) (fun _ => creep_crystal)
    (fun c _ => creep_face c) (fun _ _ => creep_interface) (fun _ => [])
    1 1 1 1 false false (mk_hardening 1 1 1 false) 1 pull_iprm (mk_cohesive 1 1 0 1 1) 1 OrtizEtAl (fun _ _ _ _ => 0).
(** Pulled so far that the slip is 1. *)
Definition point_pull : R := 1 + 2 * reg_value creep_law 1.
Definition point_solution : vec := fun d => match d with 0%nat => point_pull | 1%nat => 1 | _ => 0 end.
Definition rest : vec := fun _ => 0.

Lemma point_consistent : consistent point_body.
Proof.
  split; [cbn; repeat constructor; intros []|]. split; [cbn; lra|]. split.
  - intros c Hc. split; [reflexivity|]. split; [reflexivity|].
    split. { intros [|[|i]] Hi; cbn in Hi; cbn in Hc |- *; intuition lia. }
    split; [|split; cbn; lra].
    intros [|[|j]] q Hj _; cbn in Hj |- *; try lia.
    + split; [lia|]. split; [intros; lia|]. intros a _ _ r. split; reflexivity.
    + split; [lia|]. split; [intros; split; reflexivity|]. intros a Ha Ne. lia.
  - intros c n _ Hn. destruct Hn.
Qed.
Lemma point_two_sided : two_sided point_body.
Proof. intros c n _ []. Qed.
Lemma point_material : stable_material point_body (macro_of point_body).
Proof.
  intros c Hc. cbv zeta. unfold macro_of. change (b_crystal point_body c) with creep_crystal. change (b_element point_body c) with creep_element.
  cbn [creep_crystal creep_element creep_law cr_dim cr_ns cr_N cr_C cr_P cr_law cr_factor cr_p cr_dir cr_ort cr_macro cr_supply cr_dt el_w el_nq el_eps sl_k].
  split; [intros; lra|]. split; [lra|]. split; [lra|]. split; [lra|]. split; [intros i j k l; reflexivity|].
  split; [intros A _; unfold ddot, c4; cbn [sumn]; pose proof (Rle_0_sqr (A 0%nat 0%nat)); unfold Rsqr in *; lra|].
  split; [intros i q k l _ _; reflexivity|]. split; [intros a k l _ _; reflexivity|]. split; [intros k l _ _; reflexivity|]. split; [intros k l _ _; reflexivity|].
  split; [reflexivity|]. split; cbn; lra.
Qed.
Lemma point_interfaces : stable_interfaces point_body pull_frames creep_interface.
Proof.
  split; [reflexivity|]. split; [reflexivity|]. split; [intros _; cbn; repeat split; lra|]. split; [discriminate|].
  intros c n _ [].
Qed.
Lemma point_initialised : initialised point_body creep_histories.
Proof. split; intros; [split|]; try reflexivity. Qed.
Lemma point_sound : sound_histories point_body creep_histories.
Proof.
  split; [|discriminate].
  intros c q _ _. split; [reflexivity|]. cbn. split; [lra|]. split; [lra|]. intros [|a] Ha; [cbn; lra|lia].
Qed.
Lemma point_alone : no_latent_hardening point_body creep_histories.
Proof. intros c q _ _. right. right. cbn. lia. Qed.
Lemma point_strict : strict_grains point_body.
Proof.
  intros c Hc. cbv zeta. change (b_crystal point_body c) with creep_crystal. cbn [creep_crystal cr_law creep_law sl_rate_independent cr_N cr_dim cr_C].
  split; [reflexivity|]. split; [lra|]. split; [intros; cbn; lra|].
  intros A _ Z i j Hi Hj. assert (i = 0%nat) as -> by lia. assert (j = 0%nat) as -> by lia.
  unfold ddot, c4 in Z. cbn [sumn] in Z. assert (Z' : Rsqr (A 0%nat 0%nat) = 0) by (unfold Rsqr; lra). apply Rsqr_0_uniq. exact Z'.
Qed.
Lemma point_held : held_in_place point_body held.
Proof.
  intros v A Z d Hd.
  assert (Z0 := Z 0%nat 0%nat (or_introl eq_refl) ltac:(cbn; lia)). destruct Z0 as (E0 & S0).
  specialize (E0 0%nat 0%nat ltac:(cbn; lia) ltac:(cbn; lia)). specialize (S0 0%nat ltac:(cbn; lia)).
  unfold strain_at, local_values in E0. unfold slip_at, local_values in S0. cbn in E0, S0.
  cbn in Hd. destruct d as [|[|d]]; lra || lia.
Qed.
Lemma point_resistance x : nth 0 (slip_res (r_bulk (trial_histories point_body rest x creep_histories) 0 0)) 0 = 1 + Rabs (x 1%nat).
Proof.
  assert (E := trial_resistance point_body rest x creep_histories 0 0 0 point_consistent eq_refl point_initialised point_sound point_alone (or_introl eq_refl)).
  specialize (E ltac:(cbn; lia) ltac:(cbn; lia)). cbv zeta in E. unfold resistances_of in E at 1. rewrite E.
  unfold resistances_of, slip_at, local_values, rest. cbn. replace (x 1%nat * 1 - (0 + 0 * 0 + 0 * 1)) with (x 1%nat) by ring.
  f_equal. replace (0 + x 0%nat * 0 + x 1%nat * 1 - (0 + 0 * 0 + 0 * 1)) with (x 1%nat) by ring. field.
Qed.
Lemma point_solves : solves_step point_body rest creep_histories held point_solution.
Proof.
  intros w A. assert (W : w 0%nat = 0) by (exact (A 0%nat [] 0 ltac:(cbn; lia) eq_refl)).
  unfold virtual_power. change (b_cells point_body) with [0]%nat. cbn [lsum]. cbv zeta.
  change (other_grains point_body 0) with (@nil nat). change (b_loads point_body 0) with (@nil neumann_face). cbn [lsum].
  change (b_crystal point_body 0) with creep_crystal. change (b_element point_body 0) with creep_element.
  cbn [creep_crystal cr_ns cr_N cr_dim cr_law cr_dt cr_dir cr_ort cr_factor cr_p cr_supply].
  cbn [el_nq creep_element sumn]. rewrite point_resistance.
  unfold ddot, dot, stress_at, elastic_strain, c4, strain_at, slip_at, slip_gradient_at, scalar_microstress, point_solution, rest.
  cbn [sumn creep_element el_nd el_w el_eps el_psi el_dpsi el_phi nth creep_crystal cr_dim cr_ns cr_N cr_C cr_P cr_macro cr_law creep_law sl_rate_independent b_dofs point_body Nat.eqb].
  rewrite W. unfold msub, madd, mscal. rewrite (Rabs_right 1) by lra. unfold point_pull.
  replace ((0 + (1 + 2 * reg_value creep_law 1) * 0 + 1 * 1 - (0 + 0 * 0 + 0 * 1)) / 1) with 1 by field.
  match goal with |- context [val ?v] => generalize (val v) end. intros v. generalize (reg_value creep_law 1). intros u. field.
Qed.

Example C99_example : solves_step point_body rest creep_histories held point_solution /\
  forall y, y 0%nat = point_pull -> solves_step point_body rest creep_histories held y -> y 1%nat = 1.
Proof.
  split; [exact point_solves|]. intros y P Y.
  assert (SS : same_supports point_body held y point_solution).
  { intros d es z Hd K. destruct d as [|d]; [|discriminate K]. cbn in K. injection K as <- <-. unfold increment. rewrite P. cbn. ring. }
  destruct (C99_at_most_one_solution point_body pull_frames creep_interface rest y point_solution creep_histories held
    point_consistent point_two_sided eq_refl point_material point_interfaces point_initialised point_sound point_alone point_strict SS Y point_solves) as (_ & U).
  exact (U point_held 1%nat ltac:(cbn; lia)).
Qed.

(** ** The bar of ExampleProgram, from two initial guesses *)
Definition bar_guess : sstate rank_data :=
  mk_sstate [] [] no_constraints (fun _ => 7) (fun _ => 0) (fun _ => 0) (fun _ => 0) (fun _ => 0)
    bar_histories (fun _ => 0) (fun _ => 0) (Fin 0, Fin 0).
Lemma bar_material : stable_material bar_body (macro_of bar_body).
Proof.
  intros c Hc. cbv zeta. unfold macro_of. change (b_crystal bar_body c) with bar_crystal. change (b_element bar_body c) with bar_element.
  cbn [bar_crystal bar_element cr_dim cr_ns cr_N cr_C cr_P cr_law cr_factor cr_p cr_dir cr_ort cr_macro cr_supply cr_dt el_w el_nq el_eps sl_k].
  split; [intros; lra|]. split; [lra|]. split; [lra|]. split; [lra|]. split; [intros i j k l; reflexivity|].
  split; [intros A _; unfold ddot, c4; cbn [sumn]; pose proof (Rle_0_sqr (A 0%nat 0%nat)); unfold Rsqr in *; lra|].
  split; [intros i q k l _ _; reflexivity|]. split; [intros a k l _ _; reflexivity|]. split; [intros k l _ _; reflexivity|]. split; [intros k l _ _; reflexivity|].
  split; [reflexivity|]. split; cbn; lra.
Qed.
Lemma bar_interfaces : stable_interfaces bar_body pull_frames pull_interface.
Proof.
  split; [reflexivity|]. split; [reflexivity|]. split; [intros _; cbn; repeat split; lra|]. split; [discriminate|].
  intros c n _ [].
Qed.
Example C99_example_accepted : exists r1 r2,
  solve_nonlinear_system (step_env bar_program 0 1 [1]) (two_parameters false false) Monolithic 10 (mk_timing 0 1 1 0 false) (fun _ => 0) bar_start = Done r1 /\
  solve_nonlinear_system (step_env bar_program 0 1 [1]) (two_parameters false false) Monolithic 10 (mk_timing 0 1 1 0 true) (fun _ => 5) bar_guess = Done r2 /\
  let apart12 := apart bar_body (st_old bar_start) (st_trial r1) (st_trial r2) (trial_histories bar_body (st_old bar_start) (st_trial r1) (st_hist bar_start)) (trial_histories bar_body (st_old bar_start) (st_trial r2) (st_hist bar_start)) in
  0 <= apart12 <= tolerated (two_parameters false false) Monolithic bar_body (increment (st_trial r1) (st_trial r2)) + tolerated (two_parameters false false) Monolithic bar_body (increment (st_trial r1) (st_trial r2)).
Proof.
  destruct (bar_step 1 [] 0 1 (mk_timing 0 1 1 0 false) (fun _ => 0) bar_start) as (r1 & S1 & _ & U1 & U2).
  destruct (bar_step 1 [] 0 1 (mk_timing 0 1 1 0 true) (fun _ => 5) bar_guess) as (r2 & S2 & _ & V1 & V2).
  exists r1, r2. split; [exact S1|]. split; [exact S2|].
  assert (HV : homogeneous_version (p_affine (e_problem (step_env bar_program 0 1 [1]))) (p_newton (e_problem (step_env bar_program 0 1 [1])))).
  { intros d. change (p_newton (e_problem (step_env bar_program 0 1 [1]))) with (newton_of bar_strip). rewrite bar_newton.
    change (p_affine (e_problem (step_env bar_program 0 1 [1]))) with (affine_at bar_program [1]).
    pose proof (bar_lines [1] d) as L. destruct (affine_at bar_program [1] d) as [[es z]|].
    - destruct L as (-> & [->| ->]); split; reflexivity.
    - destruct L as (L0 & L2). destruct d as [|[|[|d]]]; try exact I; congruence. }
  refine (C99_accepted_solutions_are_close bar_body pull_frames pull_interface (step_env bar_program 0 1 [1]) (step_env bar_program 0 1 [1])
    (two_parameters false false) (two_parameters false false) Monolithic Monolithic 10 10 _ _ _ _ bar_start bar_guess r1 r2
    bar_consistent _ eq_refl bar_material bar_interfaces bar_initialised _ _ _ _ eq_refl eq_refl eq_refl eq_refl eq_refl _ S1 S2 (bar_well_formed 0%nat 1 [1]) (bar_well_formed 0%nat 1 [1]) eq_refl HV).
  - intros c n _ [].
  - apply C95_setup_is_sound; [exact bar_consistent|reflexivity|cbn; lra|cbn; lra|cbn; lra].
  - intros c q _ _. right. right. cbn. lia.
  - repeat split.
  - repeat split.
  - exact bar_closed.
Qed.
