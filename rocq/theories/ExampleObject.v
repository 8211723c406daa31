(** * Concrete objects for C106 and C107, and what is false of the code. *)
From Coq Require Import FunctionalExtensionality.
From Verif Require Import Num SumLemmas Tensors TensorLemmas ModelUtilities ModelElastic ModelMicro SpecMicro ProofMicro ModelCohesive
  SpecCohesive ProofCohesive ModelHistory SpecHistory ModelInterface ModelFEField ModelLineSearch ModelActiveSet SpecActiveSet PropActiveSet
  ModelLinear SpecLinear PropLinear ModelAssembly SpecAssembly ModelSolver ModelSweep SpecSweep
  PropSweep ModelStep SpecStep ProofStep PropStep ModelBody SpecBody PropBody ExampleBody ModelObject SpecObject PropObject.
Import ListNotations.
Open Scope R_scope.

(** The two grains of C92, pulled by function 7, which grows with time, on boundary 3. *)
Definition pull_env_of (b : body) : env rank_data :=
  mk_env pull_problem
    (fun _ => Macro) (body_store b) (body_update b) (body_finish b)
    (fun _ _ _ g => g) (body_norms b) (fun _ _ => 0)
    (fun _ => Ok (on2 0 1)) (fun _ => Ok (fun _ => 0)) (fun _ => Ok (fun _ => 0)) (fun _ => Ok (fun _ => 0))
    (fun _ => []) (fun _ => []) (fun _ => []).
Definition right_face : boundary_face := mk_boundary_face 3 1 (fun _ => 1) (fun _ _ r => kron r 0) (fun _ _ => 0).
Definition pull_given : given :=
  mk_given pull_body (fun _ _ _ => 0) (fun c => match c with 1%nat => [right_face] | _ => [] end)
    (fun f t _ r => if Nat.eqb f 7 then t * (pull_load * kron r 0) else 0)
    pull_env_of (two_parameters false false) Monolithic.
Definition pull_r0 : rank_data := mk_rank_data (fun _ _ => ModelHistory.construct (mk_hardening 1 0 0 true) 1) (fun _ _ => i_construct).
Definition pull_preparation : list use := [SetUpField; SetUpCrystals; Initialize; SetNeumann 3 7].
Definition pull_solve : use := Solve 1 pull_timing (fun _ => 0) (fun _ => 0).

Lemma pull_sound : sound_set_up pull_given.
Proof.
  split; [exact pull_consistent|]. split; [left; reflexivity|]. split; [|left; reflexivity].
  intros b. split; [split; [|split]; reflexivity|reflexivity].
Qed.
Lemma pull_fresh : no_histories pull_r0.
Proof. intros k q. reflexivity. Qed.
Lemma pull_was_initialised : was_initialised pull_preparation.
Proof. exists [SetUpField; SetUpCrystals], [SetNeumann 3 7]. cbn. auto. Qed.
Lemma pull_in_force : body_in_force pull_given pull_preparation 1 0 = pull_body.
Proof.
  unfold body_in_force, with_loads, pull_body. cbn. f_equal. apply functional_extensionality. intros c. destruct c as [|[|c]]; cbn; [reflexivity| |reflexivity].
  f_equal. f_equal. apply functional_extensionality. intros q. apply functional_extensionality. intros r. ring.
Qed.
Lemma pull_prepared : exists s, use_all pull_given 10 (construct_solver (fun _ => 0) pull_r0) pull_preparation = Done s /\ st_hist (so_state s) = pull_histories /\
  mk_sstate (st_active (so_state s)) (st_inactive (so_state s)) (st_internal (so_state s)) (st_trial (so_state s)) (st_tmp (so_state s)) (st_initial (so_state s))
    (st_newton (so_state s)) (fun _ => 0) (st_hist (so_state s)) (st_res (so_state s)) (st_res_tmp (so_state s)) (st_norms (so_state s)) = pull_start.
Proof. eexists. split; [reflexivity|]. split; reflexivity. Qed.
Lemma pull_no_body_force : forall f, body_force_in_force pull_preparation = Some f -> ~ used_as_traction pull_preparation f /\ time_set (fun _ => 0) pull_preparation f = 0.
Proof. intros f E. discriminate. Qed.
Lemma both_done (a : outcome solver) (b : outcome (sstate rank_data)) r :
  match a, b with
  | Done s', Done r => so_state s' = r
  | Thrown, Thrown | Undefined, Undefined | Running, Running => True
  | _, _ => False
  end -> b = Done r -> exists w, a = Done w /\ so_state w = r.
Proof. intros M ->. destruct a as [w| | |]; [|contradiction..]. exists w. auto. Qed.
Lemma pull_env_is : g_env pull_given (body_in_force pull_given pull_preparation 1 0) = pull_env.
Proof. rewrite pull_in_force. reflexivity. Qed.
Lemma first_solved (e : env rank_data) p a fuel tm oo s x s' r : run p a fuel [(e, tm)] oo s = (Done (x, s'), [r]) -> solve_nonlinear_system e p a fuel tm oo s = Done r.
Proof. cbn [run]. destruct (solve_nonlinear_system e p a fuel tm oo s) as [r'| | |]; [|discriminate..]. destruct (shift_solutions r'). intros E. injection E as _ _ ->. reflexivity. Qed.
Lemma pull_first : exists r, solve_nonlinear_system pull_env (two_parameters false false) Monolithic 10 pull_timing (fun _ => 0) pull_start = Done r /\
  i_damage (r_face (st_hist r) (0, 1)%nat 0) = Fin (1 - 2 * exp (-1)) /\ st_trial r 1%nat = 1.
Proof. destruct C92_example as (s' & r & E & _ & _ & _ & _ & _ & _ & T1 & _ & _ & D). exists r. split; [exact (first_solved _ _ _ _ _ _ _ _ _ _ E)|]. split; assumption. Qed.
Lemma pull_solved : exists s, use_all pull_given 10 (construct_solver (fun _ => 0) pull_r0) (pull_preparation ++ [pull_solve]) = Done s /\
  i_damage (r_face (st_hist (so_state s)) (0, 1)%nat 0) = Fin (1 - 2 * exp (-1)) /\ st_trial (so_state s) 1%nat = 1.
Proof.
  destruct pull_prepared as (s & P & _ & B). destruct pull_first as (r & E & D & T1).
  pose proof (C106_step_under_the_loads_in_force pull_given 10 (fun _ => 0) pull_r0 _ s 1 0 pull_timing (fun _ => 0) (fun _ => 0) P pull_was_initialised pull_no_body_force) as T.
  cbv beta zeta in T. rewrite pull_env_is, B in T.
  destruct (both_done _ _ r T E) as (w & W & <-). exists w. split; [exact W|]. split; [exact D|exact T1].
Qed.
(** The hypotheses of C106 and C107 are met: the load is set after the initialisation, a step is
    made, it opens and damages the interface. *)
Example C106_example : exists s s', let b := body_in_force pull_given pull_preparation 1 0 in
  use_all pull_given 10 (construct_solver (fun _ => 0) pull_r0) pull_preparation = Done s /\
  use_all pull_given 10 (construct_solver (fun _ => 0) pull_r0) (pull_preparation ++ [pull_solve]) = Done s' /\
  was_initialised pull_preparation /\ sound_set_up pull_given /\ no_histories pull_r0 /\
  (forall f, body_force_in_force pull_preparation = Some f -> ~ used_as_traction pull_preparation f /\ time_set (fun _ => 0) pull_preparation f = 0) /\
  b = pull_body /\ st_trial (so_state s') 1%nat = 1.
Proof.
  destruct pull_prepared as (s & P & _). destruct pull_solved as (s' & P' & _ & T). exists s, s'. cbv zeta.
  split; [exact P|]. split; [exact P'|]. split; [exact pull_was_initialised|]. split; [exact pull_sound|]. split; [exact pull_fresh|]. split; [exact pull_no_body_force|].
  split; [exact pull_in_force|exact T].
Qed.
(** A body force next to the tractions, its time set by the user. *)
Example C106_body_force_example : let us := [SetSupply (Some 8%nat); SetTime 8 2; SetUpField; SetUpCrystals; Initialize; SetNeumann 3 7]%list in
  (exists s, use_all pull_given 10 (construct_solver (fun _ => 0) pull_r0) us = Done s) /\ was_initialised us /\
  body_force_in_force us = Some 8%nat /\ (forall f, body_force_in_force us = Some f -> ~ used_as_traction us f /\ time_set (fun _ => 0) us f = 2).
Proof.
  cbv zeta. split; [eexists; reflexivity|]. split; [exists [SetSupply (Some 8%nat); SetTime 8 2; SetUpField; SetUpCrystals], [SetNeumann 3 7]; cbn; tauto|].
  split; [reflexivity|]. intros f E. injection E as <-. split; [|reflexivity]. intros (id & Q). cbn in Q. intuition discriminate.
Qed.
Example C107_first_example : exists s, use_all pull_given 10 (construct_solver (fun _ => 0) pull_r0) ([SetUpField; SetUpCrystals] ++ [Initialize]) = Done s /\
  ~ was_initialised [SetUpField; SetUpCrystals] /\ was_initialised ([SetUpField; SetUpCrystals] ++ [Initialize]).
Proof.
  eexists. split; [reflexivity|]. split.
  - intros (b & a & E & _). assert (Q : In Initialize [SetUpField; SetUpCrystals]) by (rewrite E; apply in_or_app; right; left; reflexivity). cbn in Q. intuition discriminate.
  - exists [SetUpField; SetUpCrystals], []. cbn. auto.
Qed.

(** ** What a user may expect and does not get *)
(** A time step before init is not rejected. *)
Theorem C107_uninitialised_step_is_rejected_refuted :
  ~ (forall g fuel clock r0 us s t tm old oo, sound_set_up g -> use_all g fuel (construct_solver clock r0) us = Done s -> ~ was_initialised us ->
     use_all g fuel (construct_solver clock r0) (us ++ [Solve t tm old oo]) = Thrown).
Proof.
  intros H. assert (NW : ~ was_initialised []) by (intros (b & a & E & _); destruct b; discriminate).
  pose proof (H pull_given 10%nat (fun _ => 0) pull_r0 [] _ 1 pull_timing (fun _ => 0) (fun _ => 0) pull_sound eq_refl NW) as Q.
  rewrite (C107_uninitialised_steps pull_given 10%nat (fun _ => 0) pull_r0 [] _ 1 pull_timing (fun _ => 0) (fun _ => 0) eq_refl NW) in Q. discriminate.
Qed.
(** A second init does not start with an undamaged body. *)
Lemma twice_initialised s : use_all pull_given 10 (construct_solver (fun _ => 0) pull_r0) (pull_preparation ++ [pull_solve]) = Done s ->
  exists s', use_all pull_given 10 (construct_solver (fun _ => 0) pull_r0) ((pull_preparation ++ [pull_solve]) ++ [Initialize]) = Done s'.
Proof. intros E. rewrite use_all_app, E. cbn [use_solver]. destruct (initialize_solver pull_given s); eauto. Qed.
Lemma pull_still_initialised : was_initialised (pull_preparation ++ [pull_solve]).
Proof. exists [SetUpField; SetUpCrystals], [SetNeumann 3 7; pull_solve]. split; [reflexivity|]. cbn. auto. Qed.
Theorem C107_second_init_starts_anew_refuted :
  ~ (forall g fuel clock r0 us s, sound_set_up g -> no_histories r0 ->
     use_all g fuel (construct_solver clock r0) (us ++ [Initialize]) = Done s -> was_initialised (us ++ [Initialize]) -> undamaged (g_body g) (so_state s)).
Proof.
  intros H. destruct pull_solved as (s & E & D & _). destruct (twice_initialised s E) as (s' & E').
  assert (W : was_initialised ((pull_preparation ++ [pull_solve]) ++ [Initialize])).
  { destruct pull_still_initialised as (b & a & Q & A). exists b, (a ++ [Initialize])%list. rewrite Q, <- app_assoc. auto. }
  assert (V : In 1%nat (visited (b_mesh (g_body pull_given)) (b_decohesion (g_body pull_given)) 0)) by (cbn; auto).
  assert (H0 : In 0%nat (b_cells (g_body pull_given))) by (cbn; auto).
  assert (HQ : (0 < b_nfq (g_body pull_given))%nat) by (cbn; auto).
  destruct (H pull_given 10%nat (fun _ => 0) pull_r0 _ s' pull_sound pull_fresh E' W 0%nat 1%nat 0%nat H0 V HQ) as (Z & _).
  destruct (C107_later_initialisations pull_given 10%nat (fun _ => 0) pull_r0 _ s s' pull_sound pull_fresh E pull_still_initialised E') as (_ & K).
  rewrite (K 0%nat 1%nat 0%nat H0 V HQ) in Z. change (make_key 0 1) with (0, 1)%nat in Z. rewrite D in Z. injection Z as Z.
  assert (X : 2 < exp 1) by (pose proof (exp_ineq1 1 ltac:(lra)); lra). replace (-1) with (- (1)) in Z by lra. rewrite exp_Ropp in Z. apply Rmult_lt_compat_r with (r := / exp 1) in X; [|apply Rinv_0_lt_compat, exp_pos].
  rewrite Rinv_r in X by (apply Rgt_not_eq, exp_pos). lra.
Qed.

(** One cell under a body force and a traction. *)
Definition block_body : body :=
  mk_body (mk_sweep_mesh (fun c => c) (fun _ => [None])) [0]%nat 1 (fun c => [c]) (fun _ => false) (fun _ => pull_element) (fun _ => pull_crystal)
    (fun c _ => pull_face c) (fun _ _ => pull_interface) (fun _ => [])
    1 1 1 0 false false (mk_hardening 1 0 0 true) 1 pull_iprm (mk_cohesive 1 1 0 1 1) 1 OrtizEtAl (fun _ _ _ _ => 0).
(** Every function of the user is its time. *)
Definition block_given : given :=
  mk_given block_body (fun _ _ _ => 0) (fun _ => [right_face]) (fun _ t _ r => t * kron r 0) pull_env_of (two_parameters false false) Monolithic.
Lemma block_sum strain (supply : nat -> nat -> vec) v r (trs := fun _ : nat => [mk_neumann_face 1 (fun _ => 1) (fun _ _ k => kron k 0) (fun _ k => v * kron k 0)]) :
  body_residual (with_loads block_body strain supply trs) (fun _ => 0) (fun _ => 0) r no_constraints 0%nat = supply 0%nat 0%nat 0%nat + v.
Proof.
  unfold body_residual. cbn [b_cells with_loads block_body map]. unfold body_system. change (cell_entry (with_loads block_body strain supply trs) (fun _ => 0) (fun _ => 0) r 0) with
    (residual_cell (under_loads pull_crystal strain (supply 0%nat)) pull_element [] (trs 0%nat)
       (local_values (with_loads block_body strain supply trs) (fun _ => 0) 0) (local_values (with_loads block_body strain supply trs) (fun _ => 0) 0) (resistances_of r 0)).
  cbn. unfold balance_factor. cbn. generalize (madd strain). intros m. lra.
Qed.
Lemma block_evaluated s t r x : so_supply s = Some x -> so_neumann s 3%nat <> None ->
  fst (evaluate block_given s t (fun _ => 0) (fun _ => 0) r no_constraints) 0%nat = so_clock s x + t.
Proof.
  intros E2 E3. destruct (so_neumann s 3) as [o|] eqn:O; [|congruence].
  assert (L : loaded block_given s t = with_loads block_body (so_strain s) (fun c => cell_supply block_given s (clock_before block_given s t (so_clock s) (b_cells block_body) c) c)
    (fun _ => [mk_neumann_face 1 (fun _ => 1) (fun _ _ k => kron k 0) (fun _ k => t * kron k 0)])).
  { unfold loaded. change (g_body block_given) with block_body. f_equal. apply functional_extensionality. intros c. unfold cell_tractions. cbn [g_faces block_given flat_map].
    unfold face_function. cbn [bf_id right_face]. rewrite O. reflexivity. }
  unfold evaluate. cbn [fst]. rewrite L, block_sum. unfold cell_supply. rewrite E2. cbn. ring.
Qed.
(** The body as the user would have it: body force and tractions at the time of the step. *)
Lemma block_expected us t r x o : body_force_in_force us = Some x -> traction_in_force us 3 = Some o ->
  body_residual (body_in_force block_given us t t) (fun _ => 0) (fun _ => 0) r no_constraints 0%nat = t + t.
Proof.
  intros E1 E2. assert (L : body_in_force block_given us t t = with_loads block_body (strain_in_force us) (fun _ _ k => t * kron k 0)
    (fun _ => [mk_neumann_face 1 (fun _ => 1) (fun _ _ k => kron k 0) (fun _ k => t * kron k 0)])).
  { unfold body_in_force. rewrite E1. change (g_body block_given) with block_body. f_equal. apply functional_extensionality. intros c. cbn [g_faces block_given flat_map bf_id right_face].
    rewrite E2. reflexivity. }
  rewrite L, block_sum. cbn. ring.
Qed.
Definition block_preparation (f : nat) : list use := [SetUpField; SetUpCrystals; Initialize; SetSupply (Some f); SetNeumann 3 7].
Lemma block_prepared f : exists s, use_all block_given 10 (construct_solver (fun _ => 0) pull_r0) (block_preparation f) = Done s /\
  so_supply s = Some f /\ so_neumann s 3%nat = Some 7%nat /\ so_clock s = (fun _ => 0).
Proof. eexists. split; [reflexivity|]. repeat split. Qed.
Lemma block_initialised f : was_initialised (block_preparation f).
Proof. exists [SetUpField; SetUpCrystals], [SetSupply (Some f); SetNeumann 3 7]. cbn. auto. Qed.
(** The body force is not moved to the time of the step. *)
Theorem C106_body_force_follows_time_refuted :
  ~ (forall g fuel clock r0 us s t old x r cs, use_all g fuel (construct_solver clock r0) us = Done s -> was_initialised us ->
     (forall f, body_force_in_force us = Some f -> ~ used_as_traction us f) ->
     forall d, fst (evaluate g s t old x r cs) d = body_residual (body_in_force g us t t) old x r cs d).
Proof.
  intros H. destruct (block_prepared 8) as (s & P & S1 & S2 & S3).
  assert (N : forall f, body_force_in_force (block_preparation 8) = Some f -> ~ used_as_traction (block_preparation 8) f).
  { intros f E. injection E as <-. intros (id & Q). cbn in Q. intuition discriminate. }
  pose proof (H block_given 10%nat (fun _ => 0) pull_r0 _ s 1 (fun _ => 0) (fun _ => 0) pull_r0 no_constraints P (block_initialised 8) N 0%nat) as Q.
  rewrite (block_expected (block_preparation 8) 1 pull_r0 8 7 eq_refl eq_refl), (block_evaluated s 1 pull_r0 8 S1), S3 in Q by (rewrite S2; discriminate). lra.
Qed.
(** A function given both as body force and as traction: evaluating the residual changes the next
    evaluation. *)
Theorem C106_shared_function_refuted :
  ~ (forall g fuel clock r0 us s t old x r cs, use_all g fuel (construct_solver clock r0) us = Done s -> was_initialised us ->
     forall d, fst (evaluate g (snd (evaluate g s t old x r cs)) t old x r cs) d = fst (evaluate g s t old x r cs) d).
Proof.
  intros H. destruct (block_prepared 7) as (s & P & S1 & S2 & S3).
  pose proof (H block_given 10%nat (fun _ => 0) pull_r0 _ s 1 (fun _ => 0) (fun _ => 0) pull_r0 no_constraints P (block_initialised 7) 0%nat) as Q.
  rewrite (block_evaluated s 1 pull_r0 7 S1), (block_evaluated (snd (evaluate block_given s 1 _ _ _ _)) 1 pull_r0 7 S1) in Q by (cbn [evaluate snd so_neumann]; rewrite S2; discriminate).
  unfold evaluate in Q. cbn [snd so_clock] in Q. unfold clock_after, cell_clock, face_function in Q. cbn [g_body block_given block_body b_cells g_faces fold_left bf_id right_face] in Q.
  rewrite S2 in Q. unfold set_clock in Q. cbn [Nat.eqb] in Q. rewrite S3 in Q. lra.
Qed.
