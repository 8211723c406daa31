(** * C109 on one viscoplastic point under a load of two: with hardening there is exactly one
      solution, without there is none. *)
From Coq Require Import FunctionalExtensionality.
From Verif Require Import Num ModelShear SpecShear ModelProgram SpecProgram PropProgram ExampleProgram SumLemmas Tensors TensorLemmas ModelUtilities ModelElastic SpecElastic ModelMicro SpecMicro ProofMicro PropMicro ModelCohesive
  SpecCohesive ProofCohesive ModelHistory SpecHistory SpecInterface ModelInterface ModelFEField ModelActiveSet SpecActiveSet PropActiveSet
  ModelLinear SpecLinear PropLinear ModelAssembly SpecAssembly ProofAssembly ProofFace ModelSolver ModelSweep SpecSweep
  PropSweep ModelStep ModelBody SpecBody PropBody PropStep ExampleBody SpecTangent
  SpecRun PropRun SpecEnergy ProofEnergy PropEnergy ExampleEnergy SpecStiffness ExampleStiffness SpecUnique PropUnique ExampleUnique SpecExistence PropExistence.
Open Scope R_scope.

(** The point of ExampleUnique under a body force of 2, [perfect]ly plastic or hardening; nothing is constrained. *)
Definition weighed_crystal (perfect : bool) : crystal :=
  mk_crystal 1 1 (fun _ => 1) (fun _ _ _ _ => 1) (fun _ _ _ => 1) (mk_scalar_law Tanh 1 1 1 1 perfect false) 1 2
    (fun _ _ => 0) (fun _ _ => 0) (fun _ _ => 0) (fun _ _ => 2) 1.
Definition weighed_body (perfect : bool) : body :=
  mk_body (mk_sweep_mesh (fun _ => 0%nat) (fun _ => []))
    [0]%nat 2 (fun _ => [0; 1]%nat) (fun d => Nat.odd d) (fun _ => creep_element) (fun _ => weighed_crystal perfect)
    (fun c _ => creep_face c) (fun _ _ => creep_interface) (fun _ => [])
    1 1 1 1 false false (mk_hardening 1 1 1 perfect) 1 pull_iprm (mk_cohesive 1 1 0 1 1) 1 OrtizEtAl (fun _ _ _ _ => 0).
Definition weighed_histories (perfect : bool) : rank_data :=
  mk_rank_data (fun _ _ => mk_qph true 1 (mk_hardening 1 1 1 perfect) 1 [1] [1]) (fun _ _ => mk_ihist (Some pull_iprm) (Fin 0) 0 0 (Fin 0) 0).
Section Weighed.
Variable p : bool.
Lemma weighed_consistent : consistent (weighed_body p).
Proof.
  split; [cbn; repeat constructor; intros []|]. split; [cbn; lra|]. split.
  - intros c Hc. split; [reflexivity|]. split; [reflexivity|].
    split. { intros [|[|i]] Hi; cbn in Hi; cbn in Hc |- *; intuition lia. }
    split; [|split; cbn; lra].
    intros [|[|j]] q Hj _; cbn in Hj |- *; try lia.
    + split; [lia|]. split; [intros; lia|]. intros a _ _ r. split; reflexivity.
    + split; [lia|]. split; [intros; split; reflexivity|]. intros a Ha Ne. lia.
  - intros c n _ Hn. destruct Hn.
Qed.
Lemma weighed_two_sided : two_sided (weighed_body p).
Proof. intros c n _ []. Qed.
Lemma weighed_material : stable_material (weighed_body p) (macro_of (weighed_body p)).
Proof.
  intros c Hc. cbv zeta. unfold macro_of. change (b_crystal (weighed_body p) c) with (weighed_crystal p). change (b_element (weighed_body p) c) with creep_element.
  cbn [weighed_crystal creep_element cr_dim cr_ns cr_N cr_C cr_P cr_law cr_factor cr_p cr_dir cr_ort cr_macro cr_supply cr_dt el_w el_nq el_eps sl_k].
  split; [intros; lra|]. split; [lra|]. split; [lra|]. split; [lra|]. split; [intros i j k l; reflexivity|].
  split; [intros A _; unfold ddot, c4; cbn [sumn]; pose proof (Rle_0_sqr (A 0%nat 0%nat)); unfold Rsqr in *; lra|].
  split; [intros i q k l _ _; reflexivity|]. split; [intros a k l _ _; reflexivity|]. split; [intros k l _ _; reflexivity|]. split; [intros k l _ _; reflexivity|].
  split; [reflexivity|]. split; cbn; lra.
Qed.
Lemma weighed_interfaces : stable_interfaces (weighed_body p) pull_frames creep_interface.
Proof.
  split; [reflexivity|]. split; [reflexivity|]. split; [intros _; cbn; repeat split; lra|]. split; [discriminate|].
  intros c n _ [].
Qed.
Lemma weighed_initialised : initialised (weighed_body p) (weighed_histories p).
Proof. split; intros; [split|]; try reflexivity. Qed.
Lemma weighed_sound : sound_histories (weighed_body p) (weighed_histories p).
Proof.
  split; [|discriminate].
  intros c q _ _. split; [reflexivity|]. cbn. split; [lra|]. split; [lra|]. intros [|a] Ha; [cbn; lra|lia].
Qed.
Lemma weighed_alone : no_latent_hardening (weighed_body p) (weighed_histories p).
Proof. intros c q _ _. right. right. cbn. lia. Qed.
Lemma weighed_strict : strict_grains (weighed_body p).
Proof.
  intros c Hc. cbv zeta. change (b_crystal (weighed_body p) c) with (weighed_crystal p). cbn [weighed_crystal cr_law sl_rate_independent cr_N cr_dim cr_C].
  split; [reflexivity|]. split; [lra|]. split; [intros; cbn; lra|].
  intros A _ Z i j Hi Hj. assert (i = 0%nat) as -> by lia. assert (j = 0%nat) as -> by lia.
  unfold ddot, c4 in Z. cbn [sumn] in Z. assert (Z' : Rsqr (A 0%nat 0%nat) = 0) by (unfold Rsqr; lra). apply Rsqr_0_uniq. exact Z'.
Qed.
Lemma weighed_held : held_in_place (weighed_body p) no_constraints.
Proof.
  intros v A Z d Hd.
  assert (Z0 := Z 0%nat 0%nat (or_introl eq_refl) ltac:(cbn; lia)). destruct Z0 as (E0 & S0).
  specialize (E0 0%nat 0%nat ltac:(cbn; lia) ltac:(cbn; lia)). specialize (S0 0%nat ltac:(cbn; lia)).
  unfold strain_at, local_values in E0. unfold slip_at, local_values in S0. cbn in E0, S0.
  cbn in Hd. destruct d as [|[|d]]; lra || lia.
Qed.
Lemma weighed_free : homogeneous_version no_constraints no_constraints /\ closed_below (b_ndofs (weighed_body p)) no_constraints.
Proof. split; [intros d; exact Logic.I|]. split; intros d; intros; discriminate. Qed.
End Weighed.

(** Hardening: exactly one solution. *)
Example C109_example : exists x, solves_step (weighed_body false) rest (weighed_histories false) no_constraints x /\
  forall y, solves_step (weighed_body false) rest (weighed_histories false) no_constraints y -> y 0%nat = x 0%nat /\ y 1%nat = x 1%nat.
Proof.
  destruct (C109_exactly_one_solution (weighed_body false) pull_frames creep_interface rest (weighed_histories false) no_constraints no_constraints
    (weighed_consistent _) (weighed_two_sided _) eq_refl (weighed_material _) (weighed_interfaces _) (weighed_initialised _) (weighed_sound _) (weighed_alone _)
    (weighed_strict _) (proj1 (weighed_free false)) (proj2 (weighed_free false)) (weighed_held _)) as (x & _ & Sx & U).
  - right. intros c q _ _. split; [reflexivity|cbn; lra].
  - exists x. split; [exact Sx|]. intros y Sy. assert (O : obeys no_constraints y) by (intros d; intros; discriminate). split; apply U; try assumption; cbn; lia.
Qed.
(** Driven by its support (ExampleUnique), it has exactly one solution too. *)
Definition pulled : constraints := fun d => match d with 0%nat => Some ([], 5) | _ => None end.
Example C109_example_driven : exists s, (exists y, y 0%nat = 5 /\ y 1%nat = s /\ solves_step point_body rest creep_histories held y) /\
  forall y, y 0%nat = 5 -> solves_step point_body rest creep_histories held y -> y 1%nat = s.
Proof.
  destruct (C109_exactly_one_solution point_body pull_frames creep_interface rest creep_histories pulled held
    point_consistent point_two_sided eq_refl point_material point_interfaces point_initialised point_sound point_alone point_strict) as (x & Ox & Sx & U).
  - intros [|d]; cbn; auto.
  - split; intros [|d] es z e w K; try discriminate K; cbn in K; injection K as <- <-; intros [].
  - exact point_held.
  - left. intros c _. split; reflexivity.
  - exists (x 1%nat). split.
    + exists x. split; [|split; [reflexivity|exact Sx]]. pose proof (Ox 0%nat [] 5 eq_refl) as E. cbn in E. lra.
    + intros y Y Sy. apply U; [|exact Sy|cbn; lia]. intros [|d] es z K; cbn in K; [|discriminate K]. injection K as <- <-. cbn. lra.
Qed.

(** ** Without hardening the regularised law saturates: no solution under a load above it *)
Lemma weighed_power x w : virtual_power (weighed_body true) rest x (trial_histories (weighed_body true) rest x (weighed_histories true)) w =
  - ((w 0%nat - w 1%nat) * (x 0%nat - x 1%nat) - 2 * w 0%nat + w 1%nat * scalar_microstress (mk_scalar_law Tanh 1 1 1 1 true false) (x 1%nat) 0 1 1).
Proof.
  assert (E := trial_resistance (weighed_body true) rest x (weighed_histories true) 0 0 0 (weighed_consistent _) eq_refl (weighed_initialised _) (weighed_sound _) (weighed_alone _) (or_introl eq_refl)).
  specialize (E ltac:(cbn; lia) ltac:(cbn; lia)). cbv zeta in E. cbn [flag_perfect_plasticity prm r_bulk weighed_histories] in E. rewrite Rmult_0_l, Rplus_0_r in E. unfold resistances_of in E. cbn [slip_res r_bulk weighed_histories nth] in E.
  unfold virtual_power. change (b_cells (weighed_body true)) with [0]%nat. cbn [lsum]. cbv zeta.
  change (other_grains (weighed_body true) 0) with (@nil nat). change (b_loads (weighed_body true) 0) with (@nil neumann_face). cbn [lsum].
  change (b_crystal (weighed_body true) 0) with (weighed_crystal true). change (b_element (weighed_body true) 0) with creep_element.
  cbn [weighed_crystal cr_ns cr_N cr_dim cr_law cr_dt cr_dir cr_ort cr_factor cr_p cr_supply].
  cbn [el_nq creep_element sumn]. rewrite E.
  unfold ddot, dot, stress_at, elastic_strain, c4, strain_at, slip_at, slip_gradient_at, rest.
  cbn [sumn creep_element el_nd el_w el_eps el_psi el_dpsi el_phi nth weighed_crystal cr_dim cr_ns cr_N cr_C cr_P cr_macro b_dofs weighed_body Nat.eqb].
  unfold msub, madd, mscal. replace (0 + x 0%nat * 0 + x 1%nat * 1) with (x 1%nat) by ring. replace (0 + 0 * 0 + 0 * 1) with 0 by ring.
  match goal with |- context [val ?v] => generalize (val v) end. intros v. generalize (scalar_microstress (mk_scalar_law Tanh 1 1 1 1 true false) (x 1%nat) 0 1 1). intros u. unfold kron. cbn [Nat.eqb]. field.
Qed.
Theorem C109_refuted_overloaded : exists b frames p0 old h c k,
  consistent b /\ two_sided b /\ b_decohesion b = false /\ stable_material b (macro_of b) /\ stable_interfaces b frames p0 /\
  initialised b h /\ sound_histories b h /\ no_latent_hardening b h /\ strict_grains b /\
  homogeneous_version c k /\ closed_below (b_ndofs b) k /\ held_in_place b k /\
  forall x, ~ solves_step b old h k x.
Proof.
  exists (weighed_body true), pull_frames, creep_interface, rest, (weighed_histories true), no_constraints, no_constraints.
  split; [apply weighed_consistent|]. split; [apply weighed_two_sided|]. split; [reflexivity|]. split; [apply weighed_material|]. split; [apply weighed_interfaces|].
  split; [apply weighed_initialised|]. split; [apply weighed_sound|]. split; [apply weighed_alone|]. split; [apply weighed_strict|].
  split; [apply (weighed_free true)|]. split; [apply (weighed_free true)|]. split; [apply weighed_held|].
  intros x Sx. assert (A : forall w, SpecLinear.admissible (b_ndofs (weighed_body true)) no_constraints w) by (intros w d es z _ K; discriminate K).
  pose proof (Sx (fun d => kron d 0) (A _)) as E0. pose proof (Sx (fun d => kron d 1) (A _)) as E1. rewrite weighed_power in E0, E1. unfold kron in E0, E1. cbn [Nat.eqb] in E0, E1.
  pose proof (C25_bounded (mk_scalar_law Tanh 1 1 1 1 true false) (x 1%nat) 0 1 1 Rlt_0_1 Rlt_0_1 Rlt_0_1 eq_refl) as B.
  set (m := scalar_microstress _ _ _ _ _) in *. pose proof (Rle_abs m). lra.
Qed.
Print Assumptions C109_refuted_overloaded.

(** ** Three time steps of the hardening point under load *)
Example C109_example_history : exists X H, X 0%nat = rest /\ H 0%nat = weighed_histories false /\
  exact_history 3 (fun _ => weighed_body false) (fun _ => no_constraints) (fun _ => no_constraints) X H.
Proof.
  destruct (C109_whole_histories (weighed_body false) pull_frames creep_interface (fun _ => weighed_body false) (fun _ => no_constraints) (fun _ => no_constraints)
    rest (weighed_histories false) 3) as (X & H & EX & EH & E & _).
  - intros i. split; [apply weighed_consistent|]. split; [apply weighed_two_sided|]. split; [reflexivity|]. split; [apply weighed_material|]. split; [apply weighed_interfaces|].
    split; [apply weighed_strict|]. split; [apply (weighed_free false)|]. split; [apply (weighed_free false)|apply weighed_held].
  - intros i. repeat split.
  - apply weighed_initialised.
  - apply weighed_sound.
  - apply weighed_alone.
  - right. intros c q _ _. split; [reflexivity|cbn; lra].
  - exists X, H. split; [exact EX|]. split; [exact EH|exact E].
Qed.

(** ** What the step of the bar of ExampleProgram accepts is close to its solution *)
Lemma bar_strict : strict_grains bar_body.
Proof.
  intros c Hc. cbv zeta. change (b_crystal bar_body c) with bar_crystal. cbn [bar_crystal cr_law sl_rate_independent cr_N cr_dim cr_C].
  split; [reflexivity|]. split; [lra|]. split; [intros; cbn; lra|].
  intros A _ Z i j Hi Hj. assert (i = 0%nat) as -> by lia. assert (j = 0%nat) as -> by lia.
  unfold ddot, c4 in Z. cbn [sumn] in Z. assert (Z' : Rsqr (A 0%nat 0%nat) = 0) by (unfold Rsqr; lra). apply Rsqr_0_uniq. exact Z'.
Qed.
Lemma bar_held : held_in_place bar_body (newton_of bar_strip).
Proof.
  intros v A Z d Hd. change (b_ndofs _) with 3%nat in Hd.
  assert (W0 : v 0%nat = 0) by (rewrite (A 0%nat [] 0); [reflexivity|cbn; lia|apply bar_newton]).
  assert (W2 : v 2%nat = 0) by (rewrite (A 2%nat [] 0); [reflexivity|cbn; lia|apply bar_newton]).
  destruct (Z 0%nat 0%nat (or_introl eq_refl) ltac:(cbn; lia)) as (S & _). specialize (S 0%nat 0%nat ltac:(cbn; lia) ltac:(cbn; lia)).
  unfold strain_at, local_values in S. change (b_element _ 0) with bar_element in S. change (b_dofs _ 0) with [0; 1; 2]%nat in S.
  cbn [sumn bar_element el_nd el_eps nth Nat.eqb] in S. destruct d as [|[|[|d]]]; [exact W0|lra|exact W2|lia].
Qed.
Example C109_example_accepted : exists r x,
  solve_nonlinear_system (step_env bar_program 0 1 [1]) (two_parameters false false) Monolithic 10 (mk_timing 0 1 1 0 false) (fun _ => 0) bar_start = Done r /\
  solves_step bar_body (st_old bar_start) (st_hist bar_start) (newton_of bar_strip) x /\
  0 <= apart bar_body (st_old bar_start) x (st_trial r) (trial_histories bar_body (st_old bar_start) x (st_hist bar_start)) (trial_histories bar_body (st_old bar_start) (st_trial r) (st_hist bar_start))
    <= tolerated (two_parameters false false) Monolithic bar_body (increment x (st_trial r)).
Proof.
  destruct (bar_step 1 [] 0 1 (mk_timing 0 1 1 0 false) (fun _ => 0) bar_start) as (r & S1 & _ & _ & _).
  assert (HV : homogeneous_version (p_affine (e_problem (step_env bar_program 0 1 [1]))) (p_newton (e_problem (step_env bar_program 0 1 [1])))).
  { intros d. change (p_newton (e_problem (step_env bar_program 0 1 [1]))) with (newton_of bar_strip). rewrite bar_newton.
    change (p_affine (e_problem (step_env bar_program 0 1 [1]))) with (affine_at bar_program [1]).
    pose proof (bar_lines [1] d) as L. destruct (affine_at bar_program [1] d) as [[es z]|].
    - destruct L as (-> & [->| ->]); split; reflexivity.
    - destruct L as (L0 & L2). destruct d as [|[|[|d]]]; try exact Logic.I; congruence. }
  destruct (C109_accepted_solution_is_close bar_body pull_frames pull_interface (step_env bar_program 0 1 [1])
    (two_parameters false false) Monolithic 10 (mk_timing 0 1 1 0 false) (fun _ => 0) bar_start r
    bar_consistent ltac:(intros c n _ []) eq_refl bar_material bar_interfaces bar_initialised
    ltac:(apply C95_setup_is_sound; [exact bar_consistent|reflexivity|cbn; lra|cbn; lra|cbn; lra])
    ltac:(intros c q _ _; right; right; cbn; lia) bar_strict ltac:(repeat split) eq_refl (bar_well_formed 0%nat 1 [1]) HV bar_closed bar_held
    ltac:(left; intros c _; split; [reflexivity|reflexivity]) S1) as (x & _ & Sx & B).
  exists r, x. split; [exact S1|]. split; [exact Sx|exact B].
Qed.
