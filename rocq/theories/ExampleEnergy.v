(** * C95 on the two grains pulled apart (ExampleBody). *)
From Coq Require Import FunctionalExtensionality.
From Verif Require Import Num SumLemmas Tensors TensorLemmas ModelUtilities ModelElastic SpecElastic ModelMicro SpecMicro
  ModelCohesive SpecCohesive ProofCohesive ModelHistory SpecHistory ProofHistory SpecInterface ModelInterface
  ModelFEField ModelLineSearch ModelActiveSet SpecActiveSet PropActiveSet
  ModelLinear SpecLinear PropLinear ModelAssembly SpecAssembly ModelSolver ModelSweep SpecSweep
  ProofInterface PropSweep ModelStep SpecStep ProofStep PropStep ModelBody SpecBody PropBody ModelTangent SpecTangent ProofTangent SpecRun PropRun
  SpecEnergy ProofEnergy PropEnergy ExampleBody ExampleRun.
Open Scope R_scope.

Definition pull_raw : rank_data := mk_rank_data (fun _ _ => ModelHistory.construct (mk_hardening 1 0 0 true) 1) (fun _ _ => i_construct).
Definition pull_frames : nat -> frame := fun _ => mk_frame (fun _ _ => 0) (fun _ _ => 0).
Lemma no_modulus x y m' n : modulus 1 (fun _ => 0) x y m' n = 0.
Proof. unfold modulus, dot. rewrite (sumn_zero 3 (fun i => 0 * y i)) by (intros; ring). ring. Qed.
Lemma pull_material macro0 : (forall c, symmetric 1 (macro0 c)) -> stable_material pull_body macro0.
Proof.
  intros Y c Hc. cbv zeta. change (b_crystal pull_body c) with pull_crystal. change (b_element pull_body c) with pull_element.
  cbn [pull_crystal pull_element cr_dim cr_ns cr_N cr_C cr_P cr_law cr_factor cr_p cr_dir cr_ort cr_macro cr_supply cr_dt el_w el_nq el_eps].
  assert (Z : forall A, ddot 1 A (c4 1 (fun _ _ _ _ => 0) A) = 0).
  { intros A. unfold ddot, c4. cbn [sumn]. ring. }
  split; [intros; lra|]. split; [lra|]. split; [lra|]. split; [lra|]. split; [intros i j k l; reflexivity|]. split; [intros A _; rewrite Z; lra|].
  split; [intros i q k l _ _; reflexivity|]. split; [intros a k l _ _; reflexivity|]. split; [intros k l _ _; reflexivity|]. split; [apply Y|].
  split; [reflexivity|]. split; cbn; lra.
Qed.
Lemma pull_interfaces : stable_interfaces pull_body pull_frames pull_interface.
Proof.
  split; [reflexivity|]. split; [reflexivity|]. split; [intros _; cbn; repeat split; lra|]. split; [discriminate|].
  intros c n _ Hn. pose proof (pull_gb c n Hn) as G.
  split. { destruct G as [[-> ->]|[-> ->]]; cbn; repeat constructor; intros []. }
  split. { destruct G as [[-> ->]|[-> ->]]; cbn; auto. }
  split.
  { change (b_interface pull_body c n) with pull_interface. unfold pull_interface at 1. cbn [pull_interface if_decohesion if_microtraction if_N if_dim if_ns if_exponent if_couple_macro if_couple_micro if_cohesive if_contact if_lambda if_chi if_dt].
    f_equal. apply functional_extensionality. intros q. f_equal; apply functional_extensionality; intros a; apply functional_extensionality; intros b';
      unfold intra, inter, pull_frames; cbn [f_dir f_nrm]; symmetry; apply no_modulus. }
  split; [reflexivity|]. intros q _. split; [cbn; lra|]. split; [reflexivity|]. split; [|split; reflexivity].
  destruct G as [[-> ->]|[-> ->]]; cbn; unfold kron; cbn; ring.
Qed.

Lemma pull_OP : forall x, x 0%nat = 0 -> x 1%nat = 1 -> forall c n, (c = 0 /\ n = 1)%nat \/ (c = 1 /\ n = 0)%nat -> mixed_opening 0 1 (pull_normal c) (opening_at (pull_face c) (local_values pull_body x c) (local_values pull_body x n) 0) = 1.
Proof. intros x X0 X1 c n H. rewrite <- eff_eq. exact (pull_opening 0 x c n H X0 X1). Qed.
Lemma pull_GE : forall x, grain_energy pull_body (macro_of pull_body) x = 0.
Proof. intros x. unfold grain_energy. apply lsum_zero. intros c Hc. cbv zeta. change (b_crystal pull_body c) with pull_crystal.
    change (b_element pull_body c) with pull_element. cbn [el_nq pull_element sumn cr_ns pull_crystal cr_dim cr_C].
    set (z := elastic_strain_of _ _ _ _ _). unfold ddot, c4. cbn [sumn]. ring. Qed.
Lemma pull_IE : forall x h, interfaces_energy pull_body pull_frames x h = 1/2 * (face_energy pull_body pull_frames x h 0 1 + face_energy pull_body pull_frames x h 1 0).
Proof. intros. unfold interfaces_energy. rewrite <- other_grains_visited. cbn [b_cells pull_body lsum]. change (gb_neighbours _ 0) with [1%nat]. change (gb_neighbours _ 1) with [0%nat]. cbn [lsum]. ring. Qed.
Lemma pull_FE : forall x h c n, (c = 0 /\ n = 1)%nat \/ (c = 1 /\ n = 0)%nat ->
     face_energy pull_body pull_frames x h c n = recoverable pull_interface (i_max (r_face h (0, 1)%nat 0)) (val (i_damage (r_face h (0, 1)%nat 0))) (pull_normal c)
       (opening_at (pull_face c) (local_values pull_body x c) (local_values pull_body x n) 0)
     + contact_energy pull_interface (pull_normal c) (opening_at (pull_face c) (local_values pull_body x c) (local_values pull_body x n) 0).
Proof. intros x h c n H. assert (K : make_key c n = (0, 1)%nat) by (destruct H as [[-> ->]|[-> ->]]; reflexivity).
    unfold face_energy. cbv zeta. rewrite K. change (b_interface pull_body c n) with pull_interface. change (b_face pull_body c n) with (pull_face c).
    cbn [fa_nq pull_face sumn b_decohesion pull_body if_microtraction pull_interface if_N fa_w fa_n]. fold pull_body. unfold pull_interface. field. Qed.
Lemma pull_OPN : forall x c n, opening_at (pull_face c) (local_values pull_body x c) (local_values pull_body x n) 0 0%nat = x n - x c.
Proof. intros. unfold opening_at, vsub, face_displacement, local_values. cbn. unfold kron; cbn. ring. Qed.
Lemma pull_DT : forall x c n, (c = 0 /\ n = 1)%nat \/ (c = 1 /\ n = 0)%nat -> dot 1 (opening_at (pull_face c) (local_values pull_body x c) (local_values pull_body x n) 0) (pull_normal c) = x 1%nat - x 0%nat.
Proof. intros x c n H. unfold dot. cbn [sumn]. rewrite pull_OPN. unfold pull_normal, kron. destruct H as [[-> ->]|[-> ->]]; cbn; ring. Qed.
Lemma pull_CE : forall x c n, (c = 0 /\ n = 1)%nat \/ (c = 1 /\ n = 0)%nat -> 0 <= x 1%nat - x 0%nat ->
     contact_energy pull_interface (pull_normal c) (opening_at (pull_face c) (local_values pull_body x c) (local_values pull_body x n) 0) = 0.
Proof. intros x c n H P. unfold contact_energy. change (if_dim pull_interface) with 1%nat. rewrite (pull_DT x c n H). rewrite Rmax_right by lra. ring. Qed.

Lemma pull_load_work x : x 1%nat = 1 -> load_work pull_body (increment x (fun _ => 0)) = 2 * exp (-1).
Proof. intros T1. unfold load_work, load_power, dot, local_values, increment. cbn. rewrite T1. unfold kron; cbn. unfold pull_load. field. Qed.
Lemma pull_run s' r : run (two_parameters false false) Monolithic 10 [(pull_env, pull_timing)] (fun _ => 0) pull_start = (Done (fun _ => 0, s'), [r]) ->
  run_from_setup (two_parameters false false) Monolithic 10 pull_body [(pull_body, (pull_env, pull_timing))] pull_raw (fun _ => 0) pull_start [r] /\
  (st_trial r 0%nat = 0 -> st_trial r 1%nat = 1 -> closed_below 2 (st_internal r) -> SpecLinear.admissible 2 (st_internal r) (on2 0 1) -> supports_move [pull_body] [r] [fun _ => 0] (fun _ => 0)).
Proof.
  intros E. split.
  - split.
    { intros b e t [X|[]]. injection X as <- <- <-. split; [exact pull_consistent|]. split; [left; reflexivity|]. split; [split; [|split]; reflexivity|]. split; [reflexivity|].
      split; [repeat split|exact pull_two_sided]. }
    split; [exact pull_nodup|]. split; [reflexivity|]. split; [reflexivity|]. split; [left; reflexivity|].
    eexists. cbn [map snd]. exact E.
  - intros T0 T1 CB A. cbn [supports_move]. split; [exact CB|]. split; [|exact Logic.I].
    assert (EQ : forall d, (d < 2)%nat -> increment (increment (st_trial r) (fun _ => 0)) (fun _ => 0) d = on2 0 1 d).
    { intros [|[|d]] Hd; [| |lia]; unfold increment; cbn [on2]; rewrite ?T0, ?T1; unfold on2; cbn; ring. }
    intros d es b' Hd Hk. change (b_ndofs pull_body) with 2%nat in Hd. rewrite (EQ d Hd). rewrite (A d es b' Hd Hk).
    apply lsum_ext. intros [e w] He. cbn [fst snd]. rewrite EQ; [reflexivity|]. destruct CB as [_ CB]. exact (CB d es b' e w Hk He).
Qed.
Lemma pull_max r : run_from_setup (two_parameters false false) Monolithic 10 pull_body [(pull_body, (pull_env, pull_timing))] pull_raw (fun _ => 0) pull_start [r] ->
  st_trial r 0%nat = 0 -> st_trial r 1%nat = 1 -> i_max (r_face (st_hist r) (0, 1)%nat 0) = 1.
Proof.
  intros RS T0 T1.
  destruct (C94_damage_follows_the_largest_opening _ _ _ _ _ _ _ _ _ RS 0 r 0 1 0 eq_refl eq_refl (or_introl eq_refl) (or_introl eq_refl) ltac:(cbn; lia)) as [X _].
    change (make_key 0 1) with (0, 1)%nat in X. rewrite X. cbn [firstn map fst largest_opening]. rewrite Rmax_left by apply sqrt_pos.
    exact (pull_OP (st_trial r) T0 T1 0%nat 1%nat (or_introl (conj eq_refl eq_refl))).
Qed.
Lemma pull_stored_start h : stored_energy pull_body pull_frames (macro_of pull_body) (fun _ => 0) h = 0.
Proof.
  assert (A1 : (0 = 0 /\ 1 = 1)%nat \/ (0 = 1 /\ 1 = 0)%nat) by auto. assert (A2 : (1 = 0 /\ 0 = 1)%nat \/ (1 = 1 /\ 0 = 0)%nat) by auto.
  unfold stored_energy; rewrite pull_GE, pull_IE, (pull_FE _ _ 0%nat 1%nat A1), (pull_FE _ _ 1%nat 0%nat A2).
  rewrite !pull_CE by (auto; lra). unfold recoverable. change (ratio (if_cohesive pull_interface)) with 0. change (if_dim pull_interface) with 1%nat.
  assert (MZ : forall c n, (c = 0 /\ n = 1)%nat \/ (c = 1 /\ n = 0)%nat -> mixed_opening 0 1 (pull_normal c) (opening_at (pull_face c) (local_values pull_body (fun _ => 0) c) (local_values pull_body (fun _ => 0) n) 0) = 0).
  { intros c n H. unfold mixed_opening. rewrite dot_comm, (pull_DT _ c n) by exact H. rewrite Rmax_right by lra.
      match goal with |- sqrt ?z = 0 => replace z with 0 by ring end. apply sqrt_0. }
  rewrite !MZ by auto. ring.
Qed.
Lemma pull_stored_end x h : x 0%nat = 0 -> x 1%nat = 1 -> i_max (r_face h (0, 1)%nat 0) = 1 -> i_damage (r_face h (0, 1)%nat 0) = Fin (1 - 2 * exp (-1)) ->
  stored_energy pull_body pull_frames (macro_of pull_body) x h = exp (-1).
Proof.
  intros T0 T1 D1 D.
  assert (A1 : (0 = 0 /\ 1 = 1)%nat \/ (0 = 1 /\ 1 = 0)%nat) by auto. assert (A2 : (1 = 0 /\ 0 = 1)%nat \/ (1 = 1 /\ 0 = 0)%nat) by auto.
  unfold stored_energy; rewrite pull_GE, pull_IE, (pull_FE _ _ 0%nat 1%nat A1), (pull_FE _ _ 1%nat 0%nat A2).
  rewrite !pull_CE by (auto; rewrite T0, T1; lra). unfold recoverable. change (ratio (if_cohesive pull_interface)) with 0. change (if_dim pull_interface) with 1%nat.
  rewrite !pull_OP by auto. rewrite D, D1. cbn [val]. unfold secant_stiffness, degraded.
  cbn [pull_interface if_cohesive if_exponent if_couple_macro crit_traction crit_opening char_disp char_stress].
  assert (PW : pow_abs (1 - (1 - 2 * exp (-1))) 1 = 2 * exp (-1)).
  { pose proof (exp_pos (-1)). replace (1 - (1 - 2 * exp (-1))) with (2 * exp (-1)) by ring. unfold pow_abs.
      destruct (Req_EM_T _ 0); [lra|]. rewrite Rabs_pos_eq by lra. apply Rpower_1. lra. }
  rewrite PW. replace (1 - 1 * 1 / 1) with 0 by field. rewrite exp_0. field.
Qed.

(** The hypotheses of the run theorem hold; pulling the grains apart by 1 against the damaging
    interface takes the work 2/e, of which 1/e is stored: the rest went into the damage. *)
Example C95_example : exists r,
  run_from_setup (two_parameters false false) Monolithic 10 pull_body [(pull_body, (pull_env, pull_timing))]
    pull_raw (fun _ => 0) pull_start [r] /\
  consistent pull_body /\ 0 < initial_slip_resistance (b_hardening pull_body) / b_char_resistance pull_body /\
  same_solid pull_body pull_body /\ stable_interfaces pull_body pull_frames pull_interface /\ stable_material pull_body (macro_of pull_body) /\
  supports_move [pull_body] [r] [fun _ => 0] (st_old pull_start) /\
  load_work pull_body (increment (st_trial r) (st_old pull_start)) = 2 * exp (-1) /\
  stored_energy pull_body pull_frames (macro_of pull_body) (st_old pull_start) (st_hist pull_start) = 0 /\
  stored_energy pull_body pull_frames (macro_of pull_body) (st_trial r) (st_hist r) = exp (-1).
Proof.
  destruct C92_example as (s' & r & E & C & M & W & F & I & T0 & T1 & CB & A & D). exists r.
  destruct (pull_run s' r E) as [RS SM].
  split; [exact RS|]. split; [exact C|]. split; [cbn; lra|]. split; [repeat split|]. split; [exact pull_interfaces|].
  split; [apply pull_material; intros; intros i j _ _; reflexivity|]. split; [exact (SM T0 T1 CB A)|].
  split; [exact (pull_load_work _ T1)|]. split; [apply pull_stored_start|].
  apply pull_stored_end; try assumption. apply pull_max; assumption.
Qed.
