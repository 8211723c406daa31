(** * C100 on one viscous point that is pulled but has not slipped yet. *)
From Coq Require Import FunctionalExtensionality.
From Verif Require Import Num SumLemmas Tensors TensorLemmas ModelUtilities ModelElastic SpecElastic ModelMicro SpecMicro ProofMicro ModelCohesive
  SpecCohesive ProofCohesive ModelHistory SpecHistory SpecInterface ModelInterface ModelFEField ModelLineSearch ModelActiveSet SpecActiveSet PropActiveSet
  ModelLinear SpecLinear PropLinear ModelAssembly SpecAssembly ProofAssembly ProofFace ModelSolver ModelSweep SpecSweep
  PropSweep ModelStep ModelBody SpecBody PropBody PropStep ExampleBody ModelTangent SpecTangent ProofTangent PropTangent
  SpecRun PropRun SpecEnergy ProofEnergy PropEnergy ExampleEnergy SpecStiffness ProofStiffness PropStiffness ExampleStiffness SpecUnique PropUnique SpecDescent PropDescent.
Open Scope R_scope.

Definition glide_law : scalar_law := mk_scalar_law Tanh 1 0 0 1 true false.
Definition glide_crystal : crystal :=
  mk_crystal 1 1 (fun _ => 1) (fun _ _ _ _ => 1) (fun _ _ _ => 1) glide_law 1 2
    (fun _ _ => 0) (fun _ _ => 0) (fun _ _ => 0) (fun _ _ => 0) 1.
(** A displacement (dof 0, the strain) and a slip (dof 1), perfectly plastic. *)
Definition glide_body : body :=
  mk_body (mk_sweep_mesh (fun _ => 0%nat) (fun _ => []))
    [0]%nat 2 (fun _ => [0; 1]%nat) (fun d => Nat.odd d) (fun _ => creep_element) (fun _ => glide_crystal)
    (fun c _ => creep_face c) (fun _ _ => creep_interface) (fun _ => [])
    1 1 1 1 false false (mk_hardening 1 0 0 true) 1 pull_iprm (mk_cohesive 1 1 0 1 1) 1 OrtizEtAl (fun _ _ _ _ => 0).
Definition glide_histories : rank_data :=
  mk_rank_data (fun _ _ => mk_qph true 1 (mk_hardening 1 0 0 true) 1 [1] [1]) (fun _ _ => mk_ihist (Some pull_iprm) (Fin 0) 0 0 (Fin 0) 0).
Definition glide_trial : vec := fun d => match d with 0%nat => 2 | _ => 0 end.
Definition rest : vec := fun _ => 0.

Lemma glide_consistent : consistent glide_body.
Proof.
  split; [cbn; repeat constructor; intros []|]. split; [cbn; lra|]. split.
  - intros c Hc. split; [reflexivity|]. split; [reflexivity|].
    split. { intros [|[|i]] Hi; cbn in Hi; cbn in Hc |- *; intuition lia. }
    split; [|split; cbn; lra].
    intros [|[|j]] q Hj _; cbn in Hj |- *; try lia.
    + split; [lia|]. split; [intros; lia|]. intros a _ _ r. split; reflexivity.
    + split; [lia|]. split; [intros; split; reflexivity|]. intros a Ha Ne. lia.
  - intros c n _ Hn. destruct Hn.
Qed.
Lemma glide_two_sided : two_sided glide_body.
Proof. intros c n _ []. Qed.
Lemma glide_material : stable_material glide_body (macro_of glide_body).
Proof.
  intros c Hc. cbv zeta. unfold macro_of. change (b_crystal glide_body c) with glide_crystal. change (b_element glide_body c) with creep_element.
  cbn [glide_crystal creep_element glide_law cr_dim cr_ns cr_N cr_C cr_P cr_law cr_factor cr_p cr_dir cr_ort cr_macro cr_supply cr_dt el_w el_nq el_eps sl_k].
  split; [intros; lra|]. split; [lra|]. split; [lra|]. split; [lra|]. split; [intros i j k l; reflexivity|].
  split; [intros A _; unfold ddot, c4; cbn [sumn]; pose proof (Rle_0_sqr (A 0%nat 0%nat)); unfold Rsqr in *; lra|].
  split; [intros i q k l _ _; reflexivity|]. split; [intros a k l _ _; reflexivity|]. split; [intros k l _ _; reflexivity|]. split; [intros k l _ _; reflexivity|].
  split; [reflexivity|]. split; cbn; lra.
Qed.
Lemma glide_interfaces : stable_interfaces glide_body pull_frames creep_interface.
Proof.
  split; [reflexivity|]. split; [reflexivity|]. split; [intros _; cbn; repeat split; lra|]. split; [discriminate|].
  intros c n _ [].
Qed.
Lemma glide_initialised : initialised glide_body glide_histories.
Proof. split; intros; [split|]; try reflexivity. Qed.
Lemma glide_sound : sound_histories glide_body glide_histories.
Proof.
  split; [|discriminate].
  intros c q _ _. split; [reflexivity|]. cbn. split; [lra|]. split; [lra|]. intros [|a] Ha; [cbn; lra|lia].
Qed.
Lemma glide_strict : strict_grains glide_body.
Proof.
  intros c Hc. cbv zeta. change (b_crystal glide_body c) with glide_crystal. cbn [glide_crystal cr_law glide_law sl_rate_independent cr_N cr_dim cr_C].
  split; [reflexivity|]. split; [lra|]. split; [intros; cbn; lra|].
  intros A _ Z i j Hi Hj. assert (i = 0%nat) as -> by lia. assert (j = 0%nat) as -> by lia.
  unfold ddot, c4 in Z. cbn [sumn] in Z. assert (Z' : Rsqr (A 0%nat 0%nat) = 0) by (unfold Rsqr; lra). apply Rsqr_0_uniq. exact Z'.
Qed.
Lemma glide_held : held_in_place glide_body held.
Proof.
  intros v A Z d Hd.
  assert (Z0 := Z 0%nat 0%nat (or_introl eq_refl) ltac:(cbn; lia)). destruct Z0 as (E0 & S0).
  specialize (E0 0%nat 0%nat ltac:(cbn; lia) ltac:(cbn; lia)). specialize (S0 0%nat ltac:(cbn; lia)).
  unfold strain_at, local_values in E0. unfold slip_at, local_values in S0. cbn in E0, S0.
  cbn in Hd. destruct d as [|[|d]]; lra || lia.
Qed.
Lemma glide_dofs : dofs_of_cells glide_body held.
Proof.
  split; [intros c n d _ []|].
  intros d Hd K. exists 0%nat. split; [left; reflexivity|]. destruct d as [|d]; [left; reflexivity|]. contradiction K. reflexivity.
Qed.
Lemma glide_closed : closed_below (b_ndofs glide_body) held.
Proof. split; [apply held_closed|]. intros d es z e w K Hin. destruct d; cbn in K; [injection K as <- _; destruct Hin|discriminate]. Qed.
Lemma glide_stored : r_bulk (body_store glide_body glide_histories) 0 0 = mk_qph true 1 (mk_hardening 1 0 0 true) 1 [1] [1].
Proof. reflexivity. Qed.
Lemma glide_parameters : one_set_of_parameters glide_body (body_store glide_body glide_histories).
Proof.
  split; [intros c Hc; split; [reflexivity|cbn; lra]|]. split.
  - intros c q [<-|[]] Hq. cbn in Hq. assert (q = 0%nat) as -> by lia. cbv zeta. rewrite glide_stored. repeat split.
  - intros c n _ [].
Qed.
Lemma glide_resistance x : nth 0 (slip_res (r_bulk (trial_histories glide_body rest x glide_histories) 0 0)) 0 = 1.
Proof.
  assert (E := trial_resistance glide_body rest x glide_histories 0 0 0 glide_consistent eq_refl glide_initialised glide_sound (fun _ _ _ _ => or_introl eq_refl) (or_introl eq_refl)).
  specialize (E ltac:(cbn; lia) ltac:(cbn; lia)). cbv zeta in E. unfold resistances_of in E at 1. rewrite E. cbn. ring.
Qed.
Lemma glide_residual : body_residual glide_body rest glide_trial (body_update glide_body rest glide_trial (body_store glide_body glide_histories)) held 1%nat <> 0.
Proof.
  set (h := body_update _ _ _ _). pose proof (glide_resistance glide_trial) as RS. unfold trial_histories in RS. fold h in RS.
  rewrite (entry_as_work glide_body rest held glide_consistent glide_closed) by (cbn; lia).
  rewrite body_power; [|exact glide_consistent|intros c n q _ []|].
  - unfold virtual_power. change (b_cells glide_body) with [0]%nat. cbn [lsum]. cbv zeta.
    change (other_grains glide_body 0) with (@nil nat). change (b_loads glide_body 0) with (@nil neumann_face). cbn [lsum].
    change (b_crystal glide_body 0) with glide_crystal. change (b_element glide_body 0) with creep_element.
    cbn [glide_crystal cr_ns cr_N cr_dim cr_law cr_dt cr_dir cr_ort cr_factor cr_p cr_supply].
    cbn [el_nq creep_element sumn]. rewrite RS.
    unfold ddot, dot, stress_at, elastic_strain, c4, strain_at, slip_at, slip_gradient_at, scalar_microstress, reg_value, glide_trial, rest.
    cbn [sumn creep_element el_nd el_w el_eps el_psi el_dpsi el_phi nth glide_crystal cr_dim cr_ns cr_N cr_C cr_P cr_macro cr_law glide_law sl_rate_independent sl_reg sl_k b_dofs glide_body Nat.eqb].
    unfold expand, msub, madd, mscal. match goal with |- context [val ?v] => generalize (val v) end. intros v.
    change (resolve held 0) with (@nil (nat * R)). change (resolve held 1) with [(1%nat, 1)]. cbn [lsum fst snd]. unfold kron. cbn [Nat.eqb].
    replace ((0 + 2 * 0 + 0 * 1 - (0 + 0 * 0 + 0 * 1)) / 1 / 1) with 0 by field. unfold tanh. rewrite sinh_0. unfold Rdiv. rewrite Rmult_0_l. lra.
  -
    pose proof glide_consistent as (_ & _ & C1 & _). destruct (C1 0%nat (or_introl eq_refl)) as (_ & _ & _ & P & Hp & HN).
    assert (F : forall i, (i < 2)%nat -> exists v, cell_entry glide_body rest glide_trial h 0 i = Fin v).
    { intros i Hi. unfold cell_entry. change (gb_neighbours glide_body 0) with (@nil nat). change (b_loads glide_body 0) with (@nil neumann_face). cbn [forallb map].
      unfold residual_cell. rewrite residual_form by assumption. cbn [fold_left xadd]. eauto. }
    unfold all_finite. apply forallb_forall. intros c [<-|[]]. apply forallb_forall. intros i Hi. apply in_seq in Hi. cbn [b_dofs glide_body length] in Hi.
    destruct (F i ltac:(lia)) as (v0 & ->). reflexivity.
Qed.

(** Not in equilibrium: the step exists and the line search succeeds. *)
Example C100_example : exists pattern ws y,
  make_sparsity_pattern held (coupled glide_body) (map (body_cell glide_body) (b_cells glide_body)) = Ok pattern /\
  let r := body_store glide_body glide_histories in let f := body_objective glide_body rest r held in
  body_jacobian glide_body rest glide_trial (body_update glide_body rest glide_trial r) pattern held = Ok ws /\
  0 < f glide_trial /\ search_succeeds_eventually (fun t => f (moved glide_trial (newton_update held y) t)) (f glide_trial) (1/10000).
Proof.
  assert (E : exists pattern, make_sparsity_pattern held (coupled glide_body) (map (body_cell glide_body) (b_cells glide_body)) = Ok pattern) by (eexists; reflexivity).
  destruct E as (pattern & E). exists pattern.
  destruct (C100_newton_is_never_stuck glide_body pull_frames creep_interface rest glide_trial glide_histories held held pattern (1/10000)
    glide_consistent (or_introl eq_refl) glide_two_sided glide_material glide_interfaces glide_initialised glide_sound) as (ws & y & J & _ & D).
  - discriminate.
  - intros c Hc. cbv zeta. change (b_crystal glide_body c) with glide_crystal. cbn [glide_crystal cr_law glide_law sl_chi sl_H sl_q]. repeat split; try lra.
    intros q a Hq Ha. cbn in Hc, Hq, Ha. destruct Hc as [<-|[]]. assert (q = 0%nat) as -> by lia. assert (a = 0%nat) as -> by lia.
    pose proof (glide_resistance glide_trial) as RS. unfold trial_histories in RS. unfold resistances_of. rewrite RS. lra.
  - discriminate.
  - exact glide_strict.
  - exact glide_held.
  - exact glide_parameters.
  - intros c Hc. left. repeat split. cbn. lra.
  - discriminate.
  - exact glide_closed.
  - intros d es z K. destruct d as [|d]; [|discriminate K]. cbn in K. injection K as <- <-. reflexivity.
  - exact glide_dofs.
  - exact E.
  - intros d e w H. exists w. exact H.
  - lra.
  - exists ws, y. split; [exact E|]. cbv zeta. split; [exact J|]. destruct D as [Z|D]; [|exact D].
    contradiction glide_residual. apply Z. cbn. lia.
Qed.
