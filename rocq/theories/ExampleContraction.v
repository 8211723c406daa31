(** * C110 on a viscoplastic point that has slipped and one that has not, and on the bar of ExampleProgram. *)
From Coq Require Import FunctionalExtensionality.
From Verif Require Import Num ModelShear SpecShear ModelProgram SpecProgram PropProgram ExampleProgram SumLemmas Tensors TensorLemmas ModelUtilities ModelElastic SpecElastic ModelMicro SpecMicro ProofMicro PropMicro ModelCohesive
  SpecCohesive ProofCohesive ModelHistory SpecHistory SpecInterface ModelInterface ModelFEField ModelActiveSet SpecActiveSet PropActiveSet
  ModelLinear SpecLinear PropLinear ModelAssembly SpecAssembly ProofAssembly ProofFace ModelSolver ModelSweep SpecSweep
  PropSweep ModelStep ModelBody SpecBody PropBody PropStep ExampleBody SpecTangent
  SpecRun PropRun SpecEnergy ProofEnergy PropEnergy ExampleEnergy SpecStiffness ExampleStiffness SpecUnique PropUnique ExampleUnique SpecExistence PropExistence ExampleExistence
  SpecContraction PropContraction.
Open Scope R_scope.

(** The point of ExampleUnique without hardening, pulled by 5 in every step; one history starts from rest, the other with a slip of 3. *)
Definition calm_histories : rank_data :=
  mk_rank_data (fun _ _ => mk_qph true 1 (mk_hardening 1 0 0 true) 1 [1] [1]) (fun _ _ => mk_ihist (Some pull_iprm) (Fin 0) 0 0 (Fin 0) 0).
Definition slipped : vec := fun d => match d with 1%nat => 3 | _ => 0 end.
Lemma calm_initialised : initialised point_body calm_histories.
Proof. split; intros; [split|]; try reflexivity. Qed.
Lemma calm_sound : sound_histories point_body calm_histories.
Proof.
  split; [|discriminate].
  intros c q _ _. split; [reflexivity|]. cbn. split; [lra|]. split; [lra|]. intros [|a] Ha; [cbn; lra|lia].
Qed.
Lemma calm_perfect : perfectly_plastic point_body calm_histories.
Proof. intros c q _ _. reflexivity. Qed.
Lemma pulled_held : homogeneous_version pulled held.
Proof. intros [|d]; cbn; auto. Qed.
Lemma point_same : same_solid point_body point_body.
Proof. split; [repeat split|]. repeat (split; [reflexivity|]). split; intros; destruct (b_crystal _ _) || destruct (b_interface _ _ _); reflexivity. Qed.
Lemma slipped_distance : distance point_body pull_frames rest slipped = 9/2.
Proof.
  unfold distance, stored_energy, interfaces_energy, grain_energy. change (b_cells point_body) with [0]%nat. cbn [lsum]. change (other_grains point_body 0) with (@nil nat). cbn [lsum].
  change (b_crystal point_body 0) with creep_crystal. change (b_element point_body 0) with creep_element.
  unfold elastic_strain_of. change (b_crystal point_body 0) with creep_crystal. change (b_element point_body 0) with creep_element.
  cbn [creep_crystal cr_ns cr_N cr_dim cr_dir cr_ort cr_factor cr_p cr_C cr_P el_nq creep_element sumn].
  assert (Z : forall g, defect_energy 1 2 1 (fun _ => 0) (fun _ => 0) g = 0).
  { intros g. unfold defect_energy, dot. cbn [sumn]. assert (E : pow_abs (0 + 0 * g 0%nat) 2 = 0).
    { unfold pow_abs. destruct (Req_EM_T (0 + 0 * g 0%nat) 0) as [_|H]; [|exfalso; apply H; ring]. destruct (Req_EM_T 2 0); lra. }
    rewrite E. lra. }
  rewrite Z. unfold ddot, c4, strain_at, slip_at, local_values, increment, rest, slipped.
  cbn [sumn creep_element el_nd el_w el_eps el_psi nth b_dofs point_body Nat.eqb Nat.mul Nat.add]. field.
Qed.
Example C110_example_histories : exists X1 H1 X2 H2, X1 0%nat = rest /\ X2 0%nat = slipped /\ distance point_body pull_frames rest slipped = 9/2 /\
  exact_history 10 (fun _ => point_body) (fun _ => pulled) (fun _ => held) X1 H1 /\ exact_history 10 (fun _ => point_body) (fun _ => pulled) (fun _ => held) X2 H2 /\
  forall i j, (i <= j <= 10)%nat -> 0 <= distance point_body pull_frames (X1 j) (X2 j) <= distance point_body pull_frames (X1 i) (X2 i).
Proof.
  assert (EX : forall x0, exists X H, X 0%nat = x0 /\ H 0%nat = calm_histories /\ exact_history 10 (fun _ => point_body) (fun _ => pulled) (fun _ => held) X H).
  { intros x0. destruct (C109_whole_histories point_body pull_frames creep_interface (fun _ => point_body) (fun _ => pulled) (fun _ => held) x0 calm_histories 10) as (X & H & A & B & E & _).
    - intros i. split; [exact point_consistent|]. split; [exact point_two_sided|]. split; [reflexivity|]. split; [exact point_material|]. split; [exact point_interfaces|]. split; [exact point_strict|].
      split; [exact pulled_held|]. split; [|exact point_held]. split; intros [|d] es z e w K; try discriminate K; cbn in K; injection K as <- <-; intros [].
    - intros i. repeat split.
    - exact calm_initialised.
    - exact calm_sound.
    - apply perfect_latent, calm_perfect.
    - left. intros i c _. split; reflexivity.
    - exists X, H. auto. }
  destruct (EX rest) as (X1 & H1 & A1 & B1 & E1). destruct (EX slipped) as (X2 & H2 & A2 & B2 & E2). exists X1, H1, X2, H2. split; [exact A1|]. split; [exact A2|]. split; [exact slipped_distance|]. split; [exact E1|]. split; [exact E2|].
  apply (C110_whole_histories point_body pull_frames creep_interface (fun _ => point_body) (fun _ => pulled) held 10 X1 H1 X2 H2 point_consistent).
  - intros i. split; [exact point_consistent|]. split; [exact point_two_sided|]. split; [reflexivity|]. split; [exact point_material|]. split; [exact point_interfaces|].
    split; [intros c _; reflexivity|]. split; [exact point_same|]. split; [reflexivity|exact pulled_held].
  - rewrite B1. exact calm_initialised.
  - rewrite B2. exact calm_initialised.
  - rewrite B1. exact calm_sound.
  - rewrite B2. exact calm_sound.
  - rewrite B1. exact calm_perfect.
  - rewrite B1, B2. intros c q _ _. auto.
  - rewrite A1, A2. intros [|d] es z _ K; [|discriminate K]. cbn in K. injection K as <- <-. cbn. unfold increment, rest, slipped. ring.
  - exact E1.
  - exact E2.
Qed.
(** The same point under a body force of 2 and without it, with hardening (ExampleExistence): one step from two different states. *)
Example C110_example_loads : exists x1 x2,
  solves_step (weighed_body false) rest (weighed_histories false) no_constraints x1 /\
  solves_step (reloaded (weighed_body false) (fun _ _ _ => 0) (fun _ => [])) slipped (weighed_histories false) no_constraints x2 /\
  distance (weighed_body false) pull_frames x1 x2 <= distance (weighed_body false) pull_frames rest slipped + load_work (weighed_body false) (drift rest slipped x1 x2).
Proof.
  assert (HD : all_systems_harden (weighed_body false) (weighed_histories false)) by (intros c q _ _; split; [reflexivity|cbn; lra]).
  destruct (C109_exactly_one_solution (weighed_body false) pull_frames creep_interface rest (weighed_histories false) no_constraints no_constraints
    (weighed_consistent _) (weighed_two_sided _) eq_refl (weighed_material _) (weighed_interfaces _) (weighed_initialised _) (weighed_sound _) (weighed_alone _)
    (weighed_strict _) (proj1 (weighed_free false)) (proj2 (weighed_free false)) (weighed_held _) (or_intror HD)) as (x1 & _ & S1 & _).
  set (b2 := reloaded (weighed_body false) (fun _ _ _ => 0) (fun _ => [])).
  destruct (C109_exactly_one_solution b2 pull_frames creep_interface slipped (weighed_histories false) no_constraints no_constraints
    (weighed_consistent _) (weighed_two_sided _) eq_refl (weighed_material _) (weighed_interfaces _) (weighed_initialised _) (weighed_sound _) (weighed_alone _)
    (weighed_strict _) (proj1 (weighed_free false)) (proj2 (weighed_free false)) (weighed_held _) (or_intror HD)) as (x2 & _ & S2 & _).
  exists x1, x2. split; [exact S1|]. split; [exact S2|].
  assert (A : forall u v, same_supports (weighed_body false) no_constraints u v) by (intros u v d es z _ K; discriminate K).
  pose proof (C110_other_loads (weighed_body false) (fun _ _ _ => 0) (fun _ => []) pull_frames creep_interface rest slipped x1 x2 (weighed_histories false) (weighed_histories false) no_constraints
    (weighed_consistent _) (weighed_two_sided _) eq_refl (weighed_material _) (weighed_interfaces _) ltac:(intros c _; reflexivity) (weighed_initialised _) (weighed_initialised _) (weighed_sound _) (weighed_sound _) (weighed_alone _)
    ltac:(intros c q _ _; auto) (A _ _) (A _ _) S1 S2) as Q. cbv zeta in Q. fold b2 in Q.
  assert (Z : load_work b2 (drift rest slipped x1 x2) = 0).
  { unfold load_work. apply lsum_zero. intros c _. cbn [b2 reloaded b_loads lsum]. rewrite Rplus_0_r. apply sumn_zero. intros q _. unfold dot. rewrite sumn_zero; [ring|]. intros i _. cbn [b2 reloaded b_crystal cr_supply]. ring. }
  rewrite Z in Q. lra.
Qed.

(** ** Two runs of the bar of ExampleProgram, one starting with its middle displaced *)
Definition bent_start : sstate rank_data :=
  mk_sstate [] [] no_constraints (fun _ => 0) (fun _ => 0) (fun _ => 0) (fun _ => 0) (fun d => match d with 1%nat => 7 | _ => 0 end)
    bar_histories (fun _ => 0) (fun _ => 0) (Fin 0, Fin 0).
Definition bar_pair : list pair_of_steps :=
  [(bar_body, ((step_env bar_program 0 1 [1], mk_timing 0 1 1 0 false), (step_env bar_program 0 1 [1], mk_timing 0 1 1 0 true)))].
Lemma run_one_step sp a fuel (e : env rank_data) t oo s r : solve_nonlinear_system e sp a fuel t oo s = Done r -> exists o, run sp a fuel [(e, t)] oo s = (o, [r]).
Proof. intros E. cbn [run]. rewrite E. cbn. eexists. reflexivity. Qed.
Lemma bar_homogeneous_lines : homogeneous_version (affine_at bar_program [1]) (newton_of bar_strip).
Proof.
  intros d. rewrite bar_newton. pose proof (bar_lines [1] d) as L. destruct (affine_at bar_program [1] d) as [[es z]|].
  - destruct L as (-> & [->| ->]); split; reflexivity.
  - destruct L as (L0 & L2). destruct d as [|[|[|d]]]; try exact Logic.I; congruence.
Qed.
Lemma bar_perfect : perfectly_plastic bar_body bar_histories.
Proof.
  intros c q Hc Hq. unfold bar_histories.
  destruct (fresh_bulk bar_body (mk_rank_data (fun _ _ => ModelHistory.construct (mk_hardening 1 0 0 true) 1) (fun _ _ => i_construct)) c q bar_nodup Hc Hq) as (F1 & _). cbv zeta in F1. rewrite F1. reflexivity.
Qed.
Lemma bar_sound : sound_histories bar_body bar_histories.
Proof. apply C95_setup_is_sound; [exact bar_consistent|reflexivity|cbn; lra|cbn; lra|cbn; lra]. Qed.
Lemma bar_same : same_solid bar_body bar_body.
Proof. split; [repeat split|]. repeat (split; [reflexivity|]). split; intros; destruct (b_crystal _ _) || destruct (b_interface _ _ _); reflexivity. Qed.
Lemma bent_supports : same_supports bar_body (newton_of bar_strip) (st_old bar_start) (st_old bent_start).
Proof. intros d es z Hd K. rewrite bar_newton in K. destruct d as [|[|[|d]]]; try discriminate K; injection K as <- <-; cbn; unfold increment; cbn; ring. Qed.
Example C110_example_runs : exists o1 o2 r1 r2,
  run (two_parameters false false) Monolithic 10 (first_run bar_pair) (fun _ => 0) bar_start = (o1, [r1]) /\
  run (two_parameters false false) Monolithic 10 (second_run bar_pair) (fun _ => 5) bent_start = (o2, [r2]) /\
  distance bar_body pull_frames (st_trial r1) (st_trial r2) <= distance bar_body pull_frames (st_old bar_start) (st_old bent_start) +
    tolerances (two_parameters false false) Monolithic (two_parameters false false) Monolithic [bar_body] [r1] [r2] (st_old bar_start) (st_old bent_start).
Proof.
  destruct (bar_step 1 [] 0 1 (mk_timing 0 1 1 0 false) (fun _ => 0) bar_start) as (r1 & S1 & _).
  destruct (bar_step 1 [] 0 1 (mk_timing 0 1 1 0 true) (fun _ => 5) bent_start) as (r2 & S2 & _).
  destruct (run_one_step (two_parameters false false) Monolithic 10 (step_env bar_program 0 1 [1]) (mk_timing 0 1 1 0 false) (fun _ => 0) bar_start r1 S1) as (o1 & R1).
  destruct (run_one_step (two_parameters false false) Monolithic 10 (step_env bar_program 0 1 [1]) (mk_timing 0 1 1 0 true) (fun _ => 5) bent_start r2 S2) as (o2 & R2).
  exists o1, o2, r1, r2. split; [exact R1|]. split; [exact R2|].
  refine (C110_runs (two_parameters false false) (two_parameters false false) Monolithic Monolithic 10 10 bar_body pull_frames pull_interface (newton_of bar_strip) bar_pair (fun _ => 0) (fun _ => 5) bar_start bent_start o1 o2 [r1] [r2]
    bar_consistent eq_refl eq_refl _ bar_closed bar_initialised bar_initialised _ _ _ _ _ R1 R2 0%nat r1 r2 eq_refl eq_refl).
  - intros b e1 t1 e2 t2 [E|[]]. injection E as <- <- _ <- _.
    split; [exact bar_consistent|]. split; [intros c n _ []|]. split; [reflexivity|]. split; [exact bar_material|]. split; [exact bar_interfaces|]. split; [intros c _; reflexivity|].
    split; [exact bar_same|].
    split; [reflexivity|]. split; [repeat split|]. split; [repeat split|]. split; [reflexivity|]. split; [reflexivity|].
    split; [apply bar_well_formed|]. split; [apply bar_well_formed|]. split; [reflexivity|]. split; [reflexivity|]. split; [reflexivity|]. exact bar_homogeneous_lines.
  - exact bar_sound.
  - exact bar_sound.
  - exact bar_perfect.
  - intros c q _ _. auto.
  - exact bent_supports.
Qed.
