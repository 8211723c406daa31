(** * C111 on one perfectly plastic point: it carries a body force exactly when that is below its resistance. *)
From Coq Require Import FunctionalExtensionality.
From Verif Require Import Num ModelShear SpecShear ModelProgram SpecProgram PropProgram ExampleProgram SumLemmas Tensors TensorLemmas ModelUtilities ModelElastic SpecElastic ModelMicro SpecMicro ProofMicro PropMicro ModelCohesive
  SpecCohesive ProofCohesive ModelHistory SpecHistory SpecInterface ModelInterface ModelFEField ModelActiveSet SpecActiveSet PropActiveSet
  ModelLinear SpecLinear PropLinear ModelAssembly SpecAssembly ProofAssembly ProofFace ModelSolver ModelSweep SpecSweep
  PropSweep ModelStep ModelBody SpecBody PropBody PropStep ExampleBody SpecTangent
  SpecRun PropRun SpecEnergy ProofEnergy PropEnergy ExampleEnergy SpecStiffness ExampleStiffness SpecUnique PropUnique ExampleUnique SpecExistence PropExistence ExampleExistence
  SpecContraction PropContraction ProofSaturation SpecLimit PropLimit PropLimitRun.
Open Scope R_scope.

(** The perfectly plastic point of ExampleExistence (resistance 1) under a body force [F]. *)
Definition loaded_point (F : R) : body := reloaded (weighed_body true) (fun _ _ _ => F) (fun _ => []).
Definition loaded_histories : rank_data := weighed_histories true.
Section Loaded.
Variable F : R.
Lemma loaded_consistent : consistent (loaded_point F).
Proof. exact (weighed_consistent true). Qed.
Lemma loaded_material : stable_material (loaded_point F) (macro_of (loaded_point F)).
Proof. exact (weighed_material true). Qed.
Lemma loaded_strict : strict_grains (loaded_point F).
Proof. exact (weighed_strict true). Qed.
Lemma loaded_held : held_in_place (loaded_point F) no_constraints.
Proof. exact (weighed_held true). Qed.
Lemma loaded_initialised : initialised (loaded_point F) loaded_histories.
Proof. exact (weighed_initialised true). Qed.
Lemma loaded_sound : sound_histories (loaded_point F) loaded_histories.
Proof. exact (weighed_sound true). Qed.
Lemma loaded_alone : no_latent_hardening (loaded_point F) loaded_histories.
Proof. exact (weighed_alone true). Qed.
Lemma loaded_perfect c q : ~ hardens (loaded_point F) loaded_histories c q.
Proof. intros (A & _). discriminate A. Qed.
Lemma loaded_resistance c q a : (a < 1)%nat -> resistances_of loaded_histories c q a = 1.
Proof. intros H. assert (a = 0%nat) as -> by lia. reflexivity. Qed.
Lemma loaded_load w : load_work (loaded_point F) w = F * w 0%nat.
Proof.
  unfold load_work. change (b_cells (loaded_point F)) with [0]%nat. cbn [lsum]. cbv zeta. change (b_loads (loaded_point F) 0) with (@nil neumann_face). cbn [lsum].
  change (b_element (loaded_point F) 0) with creep_element. cbn [el_nq creep_element sumn]. unfold dot, local_values, loaded_point, weighed_body.
  cbn [sumn creep_element el_nd el_w el_phi nth reloaded weighed_crystal b_crystal b_dofs cr_dim cr_N cr_supply Nat.eqb]. unfold kron. cbn [Nat.eqb]. field.
Qed.
Lemma loaded_slip w : slip_at creep_element (local_values (loaded_point F) w 0) 0 0 = w 1%nat.
Proof. unfold slip_at, local_values, loaded_point, weighed_body. cbn. ring. Qed.
Lemma loaded_power z w : virtual_power (loaded_point F) z z loaded_histories w = - ((w 0%nat - w 1%nat) * (z 0%nat - z 1%nat) - F * w 0%nat).
Proof.
  unfold virtual_power. change (b_cells (loaded_point F)) with [0]%nat. cbn [lsum]. cbv zeta.
  change (other_grains (loaded_point F) 0) with (@nil nat). change (b_loads (loaded_point F) 0) with (@nil neumann_face). cbn [lsum].
  change (b_element (loaded_point F) 0) with creep_element. unfold loaded_point. cbn [b_crystal reloaded].
  change (b_crystal (weighed_body true) 0) with (weighed_crystal true).
  cbn [weighed_crystal cr_ns cr_N cr_dim cr_law cr_dt cr_dir cr_ort cr_factor cr_p cr_supply].
  cbn [el_nq creep_element sumn]. rewrite stress_at_rest.
  unfold ddot, dot, stress_at, elastic_strain, c4, strain_at, slip_at, slip_gradient_at.
  cbn [sumn creep_element el_nd el_w el_eps el_psi el_dpsi el_phi nth weighed_crystal cr_dim cr_ns cr_N cr_C cr_P cr_macro b_dofs weighed_body Nat.eqb].
  unfold msub, madd, mscal. unfold local_values.
  match goal with |- context [val ?v] => generalize (val v) end. intros v. unfold kron, weighed_body. cbn [Nat.eqb reloaded b_dofs nth]. field.
Qed.
Lemma loaded_mechanism t : mechanism (loaded_point F) no_constraints (fun _ => t).
Proof.
  split; [intros d es z _ K; discriminate K|]. split; [|intros c n q a _ []].
  intros c q [<-|[]] Hq. cbn in Hq. assert (q = 0%nat) as -> by lia. split.
  - intros i j Hi Hj. cbn in Hi, Hj. assert (i = 0%nat) as -> by lia. assert (j = 0%nat) as -> by lia. unfold elastic_strain_of, strain_at, slip_at, local_values, loaded_point, weighed_body. cbn. ring.
  - intros a i Ha Hi. cbn in Ha, Hi. assert (a = 0%nat) as -> by lia. assert (i = 0%nat) as -> by lia. unfold slip_gradient_at, local_values, loaded_point, weighed_body. cbn. ring.
Qed.
Lemma loaded_carried : Rabs F < 1 -> loads_carried (loaded_point F) loaded_histories no_constraints.
Proof.
  intros H. exists (fun d => match d with 0%nat => F | _ => 0 end), (fun _ _ _ => F). split.
  - intros c q a _ _ Ha. left. rewrite loaded_resistance by exact Ha. exact H.
  - intros w _. rewrite loaded_power. unfold flow_power. change (b_cells (loaded_point F)) with [0]%nat. cbn [lsum]. cbv zeta.
    change (b_element (loaded_point F) 0) with creep_element. change (cr_ns (b_crystal (loaded_point F) 0)) with 1%nat. cbn [el_nq creep_element sumn].
    change (mk_element _ _ _ _ _ _ _ _) with creep_element. rewrite loaded_slip. cbn. ring.
Qed.
Lemma loaded_limit t : flow_limit (loaded_point F) loaded_histories (fun _ => t) = Rabs t.
Proof.
  unfold flow_limit. change (b_cells (loaded_point F)) with [0]%nat. cbn [lsum]. cbv zeta.
  change (b_element (loaded_point F) 0) with creep_element. change (cr_ns (b_crystal (loaded_point F) 0)) with 1%nat. cbn [el_nq creep_element sumn].
  change (mk_element _ _ _ _ _ _ _ _) with creep_element. rewrite loaded_slip, loaded_resistance by lia. cbn. ring.
Qed.
(** The step has a solution, whatever the state before it, exactly for body forces below the resistance. *)
Example C111_example old : (exists x, solves_step (loaded_point F) old loaded_histories no_constraints x) <-> Rabs F < 1.
Proof.
  split.
  - intros (x & Sx). apply Rnot_le_lt. intros H.
    set (t := if Rle_dec 0 F then 1 else -1). assert (A : Rabs t = 1 /\ F * t = Rabs F).
    { unfold t. destruct (Rle_dec 0 F); [rewrite Rabs_R1, Rabs_pos_eq by assumption|rewrite Rabs_left by lra; rewrite (Rabs_left F) by lra]; lra. }
    refine (C111_overload (loaded_point F) old loaded_histories no_constraints (fun _ => t) loaded_consistent eq_refl loaded_material loaded_initialised loaded_sound loaded_alone loaded_strict
      (loaded_mechanism t) (fun c q _ _ => loaded_perfect c q) _ _ x Sx).
    + exists 0%nat, 0%nat, 0%nat. split; [left; reflexivity|]. split; [cbn; lia|]. split; [cbn; lia|]. change (b_element (loaded_point F) 0) with creep_element. rewrite loaded_slip. intros Z. rewrite Z, Rabs_R0 in A. lra.
    + rewrite loaded_limit, loaded_load. lra.
  - intros H. destruct (proj2 (C111_solvable_iff_loads_carried (loaded_point F) pull_frames creep_interface old loaded_histories no_constraints no_constraints
      loaded_consistent (weighed_two_sided true) eq_refl loaded_material (weighed_interfaces true) loaded_initialised loaded_sound loaded_alone loaded_strict
      (proj1 (weighed_free true)) (proj2 (weighed_free true)) loaded_held) (loaded_carried H)) as (x & _ & Sx). exists x. exact Sx.
Qed.
End Loaded.
(** Half the resistance is the flow stress of exactly the slips one expects to exist. *)
Example C111_example_flow : exists slip, scalar_microstress (mk_scalar_law Erf 1 1 1 1 true false) slip 0 1 1 = 1/2.
Proof. apply (C111_flow_stresses_are_reached (mk_scalar_law Erf 1 1 1 1 true false) 0 1 1 (1/2)); cbn [sl_k]; try lra; [reflexivity|]. rewrite Rabs_pos_eq; lra. Qed.
(** A point pulled by body forces that change from step to step: the history can be followed exactly while the forces stay below the resistance. *)
Example C111_example_history : forall (F : nat -> R) n, (exists X H, X 0%nat = (fun _ => 0) /\ H 0%nat = loaded_histories /\
  exact_history n (fun i => loaded_point (F i)) (fun _ => no_constraints) (fun _ => no_constraints) X H) <-> forall i, (i < n)%nat -> Rabs (F i) < 1.
Proof.
  intros F n.
  assert (ST : forall i, stable_step pull_frames creep_interface (loaded_point (F i)) no_constraints no_constraints).
  { intros i. split; [apply loaded_consistent|]. split; [exact (weighed_two_sided true)|]. split; [reflexivity|]. split; [apply loaded_material|]. split; [exact (weighed_interfaces true)|].
    split; [apply loaded_strict|]. split; [exact (proj1 (weighed_free true))|]. split; [exact (proj2 (weighed_free true))|apply loaded_held]. }
  rewrite (C111_whole_histories (loaded_point (F 0%nat)) pull_frames creep_interface (fun i => loaded_point (F i)) (fun _ => no_constraints) (fun _ => no_constraints) (fun _ => 0) loaded_histories n ST
    (fun i => conj (conj eq_refl (conj eq_refl (conj eq_refl (conj eq_refl (conj eq_refl (conj eq_refl eq_refl)))))) (conj eq_refl (conj eq_refl eq_refl)))
    (loaded_initialised (F 0%nat)) (loaded_sound (F 0%nat)) (loaded_alone (F 0%nat))).
  split; intros H i Hi; specialize (H i Hi).
  - apply (proj1 (C111_example (F i) (fun _ => 0))).
    destruct (ST i) as (C & T & D & SM & SI & SG & HV & CB & HP).
    destruct (proj2 (C111_solvable_iff_loads_carried (loaded_point (F i)) pull_frames creep_interface (fun _ => 0) loaded_histories no_constraints no_constraints C T D SM SI
      (loaded_initialised (F i)) (loaded_sound (F i)) (loaded_alone (F i)) SG HV CB HP) H) as (x & _ & Sx). exists x. exact Sx.
  - exact (loaded_carried (F i) H).
Qed.
