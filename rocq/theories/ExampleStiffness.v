(** * C96 on two bars that also slip, joined by a cohesive interface; and past the peak. *)
From Coq Require Import FunctionalExtensionality.
From Verif Require Import Num SumLemmas Tensors TensorLemmas ModelUtilities ModelElastic SpecElastic ModelMicro SpecMicro ProofMicro ModelCohesive
  SpecCohesive ProofCohesive ModelHistory SpecHistory SpecInterface ModelInterface ModelFEField ModelActiveSet SpecActiveSet PropActiveSet
  ModelLinear SpecLinear PropLinear ModelAssembly SpecAssembly ProofAssembly ProofFace ModelSweep SpecSweep
  PropSweep ModelStep ModelBody SpecBody PropBody PropStep ExampleBody ModelTangent SpecTangent ProofTangent PropTangent ExampleTangent
  SpecRun SpecEnergy ProofEnergy PropEnergy ExampleEnergy SpecStiffness ProofStiffness PropStiffness.
Open Scope R_scope.

(** Per bar one displacement and one slip. *)
Definition creep_element : element :=
  mk_element 1 2 (fun i => i) (fun _ => 1) (fun i _ r => if Nat.eqb i 0 then kron r 0 else 0) (fun i _ _ _ => if Nat.eqb i 0 then 1 else 0)
    (fun _ i _ => if Nat.eqb i 1 then 1 else 0) (fun _ _ _ _ => 0).
Definition creep_law : scalar_law := mk_scalar_law Tanh 1 1 1 1 false false.
Definition creep_crystal : crystal :=
  mk_crystal 1 1 (fun _ => 1) (fun _ _ _ _ => 1) (fun _ _ _ => 1) creep_law 1 2
    (fun _ _ => 0) (fun _ _ => 0) (fun _ _ => 0) (fun _ _ => 0) 1.
Definition creep_face (c : nat) : gb_face :=
  mk_gb_face 1 2 (fun i => i) (fun i => i) (fun _ => 1) (fun _ => pull_normal c)
    (fun i _ r => if Nat.eqb i 0 then kron r 0 else 0) (fun i _ r => if Nat.eqb i 0 then kron r 0 else 0)
    (fun _ i _ => if Nat.eqb i 1 then 1 else 0) (fun _ i _ => if Nat.eqb i 1 then 1 else 0).
Definition creep_interface : interface :=
  mk_interface 1 1 (fun _ => 1) true false (mk_cohesive 1 1 0 1 1) (mk_contact 1 1 1) 1 true true 0 0
    (fun _ => (fun _ _ => 0, fun _ _ => 0)) 1.
Definition creep_body : body :=
  mk_body (b_mesh pull_body)
    [0; 1]%nat 4 (fun c => [2 * c; 2 * c + 1]%nat) (fun d => Nat.odd d) (fun _ => creep_element) (fun _ => creep_crystal)
    (fun c _ => creep_face c) (fun _ _ => creep_interface) (fun _ => [])
    1 1 1 1 true false (mk_hardening 1 1 1 false) 1 pull_iprm (mk_cohesive 1 1 0 1 1) 1 OrtizEtAl (fun _ _ _ _ => 0).
Definition creep_histories : rank_data :=
  mk_rank_data (fun _ _ => mk_qph true 1 (mk_hardening 1 1 1 false) 1 [1] [1]) (fun _ _ => mk_ihist (Some pull_iprm) (Fin 0) 0 0 (Fin 0) 0).
(** Half opened, one bar having slipped. *)
Definition creep_trial : vec := fun d => match d with 2%nat => 1 / 2 | 3%nat => 1 / 4 | _ => 0 end.
Definition creep_pattern : list (nat * nat) := list_prod (seq 0 4) (seq 0 4).

Lemma creep_gb c n : In n (gb_neighbours creep_body c) -> (c = 0 /\ n = 1)%nat \/ (c = 1 /\ n = 0)%nat.
Proof. destruct c as [|[|c]]; cbn; intuition congruence. Qed.
Lemma creep_consistent : consistent creep_body.
Proof.
  split; [exact pull_nodup|]. split; [cbn; lra|]. split.
  - intros c Hc. split; [reflexivity|]. split; [reflexivity|].
    split. { intros [|[|i]] Hi; cbn in Hi; cbn in Hc |- *; intuition lia. }
    split; [|split; cbn; lra].
    intros [|[|j]] q Hj _; cbn in Hj |- *; try lia.
    + split; [lia|]. split; [intros; lia|]. intros a _ _ r. split; reflexivity.
    + split; [lia|]. split; [intros; split; reflexivity|]. intros a Ha Ne. lia.
  - intros c n _ Hn. apply creep_gb in Hn.
    assert (Z : In n (b_cells creep_body)) by (cbn; intuition lia).
    split; [exact Z|]. repeat (split; [reflexivity|]). split; [cbn; lra|].
    intros [|[|j]] q Hj _; cbn in Hj |- *; try lia.
    + split; [lia|]. split; [reflexivity|]. split; [intros; lia|]. intros a _ _. split; reflexivity.
    + split; [lia|]. split; [reflexivity|]. split; [intros; split; reflexivity|]. intros a Ha Ne. lia.
Qed.
Lemma creep_two_sided : two_sided creep_body.
Proof.
  intros c n _ Hn. apply creep_gb in Hn. split; [reflexivity|]. split; [reflexivity|]. intros q. split; [|split; reflexivity].
  apply functional_extensionality; intros r. destruct Hn as [[-> ->]|[-> ->]]; cbn; unfold vneg, pull_normal; cbn; ring.
Qed.
Lemma creep_material : stable_material creep_body (macro_of creep_body).
Proof.
  intros c Hc. cbv zeta. unfold macro_of. change (b_crystal creep_body c) with creep_crystal. change (b_element creep_body c) with creep_element.
  cbn [creep_crystal creep_element creep_law cr_dim cr_ns cr_N cr_C cr_P cr_law cr_factor cr_p cr_dir cr_ort cr_macro cr_supply cr_dt el_w el_nq el_eps sl_k].
  split; [intros; lra|]. split; [lra|]. split; [lra|]. split; [lra|]. split; [intros i j k l; reflexivity|].
  split; [intros A _; unfold ddot, c4; cbn [sumn]; pose proof (Rle_0_sqr (A 0%nat 0%nat)); unfold Rsqr in *; lra|].
  split; [intros i q k l _ _; reflexivity|]. split; [intros a k l _ _; reflexivity|]. split; [intros k l _ _; reflexivity|]. split; [intros k l _ _; reflexivity|].
  split; [reflexivity|]. split; cbn; lra.
Qed.
Lemma creep_interfaces : stable_interfaces creep_body pull_frames creep_interface.
Proof.
  split; [reflexivity|]. split; [reflexivity|]. split; [intros _; cbn; repeat split; lra|]. split; [discriminate|].
  intros c n _ Hn. pose proof (creep_gb c n Hn) as G.
  split. { destruct G as [[-> ->]|[-> ->]]; cbn; repeat constructor; intros []. }
  split. { destruct G as [[-> ->]|[-> ->]]; cbn; auto. }
  split.
  { change (b_interface creep_body c n) with creep_interface. unfold creep_interface at 1. cbn [creep_interface if_decohesion if_microtraction if_N if_dim if_ns if_exponent if_couple_macro if_couple_micro if_cohesive if_contact if_lambda if_chi if_dt].
    f_equal. apply functional_extensionality. intros q. f_equal; apply functional_extensionality; intros a; apply functional_extensionality; intros b';
      unfold intra, inter, pull_frames; cbn [f_dir f_nrm]; symmetry; apply no_modulus. }
  split; [reflexivity|]. intros q _. split; [cbn; lra|]. split; [reflexivity|]. split; [|split; reflexivity].
  destruct G as [[-> ->]|[-> ->]]; cbn; unfold kron; cbn; ring.
Qed.
Lemma creep_initialised : initialised creep_body creep_histories.
Proof. split; intros; [split|]; reflexivity. Qed.
Lemma creep_sound : sound_histories creep_body creep_histories.
Proof.
  split.
  - intros c q _ _. split; [reflexivity|]. cbn. split; [lra|]. split; [lra|]. intros [|a] Ha; [cbn; lra|lia].
  - intros _ c n q _ _ _. cbn. split; [lra|]. unfold damage_after, exponential_damage. 
    replace (0 / 1) with 0 by field. replace (-0) with 0 by ring. rewrite ?exp_0. lra.
Qed.
Lemma creep_ever x : ever_opened creep_body x creep_histories.
Proof. intros _ c n q _ _ _. right. left. reflexivity. Qed.
Lemma creep_delta c n : In n (gb_neighbours creep_body c) ->
  mixed_opening 0 1 (pull_normal c) (opening_at (creep_face c) (local_values creep_body creep_trial c) (local_values creep_body creep_trial n) 0) = 1 / 2.
Proof.
  intros H. apply creep_gb in H.
  assert (D : dot 1 (pull_normal c) (opening_at (creep_face c) (local_values creep_body creep_trial c) (local_values creep_body creep_trial n) 0) = 1 / 2).
  { unfold dot, opening_at, vsub, face_displacement, local_values, pull_normal, kron. destruct H as [[-> ->]|[-> ->]]; cbn; field. }
  unfold mixed_opening. rewrite D. rewrite Rmax_left by lra.
  match goal with |- sqrt ?u = _ => replace u with ((1 / 2) * (1 / 2)) by ring end. apply sqrt_square. lra.
Qed.
Lemma creep_hard h : (forall c q a, (a < 1)%nat -> (q < 1)%nat -> In c [0; 1]%nat -> 0 < resistances_of h c q a) -> hardens creep_body h /\ definite_grains creep_body h.
Proof.
  intros G. split; intros c Hc; cbv zeta; change (b_crystal creep_body c) with creep_crystal.
  - cbn [creep_crystal cr_law creep_law sl_chi sl_H sl_q]. repeat split; try lra. intros q a Hq Ha. left. apply G; assumption.
  - cbn [creep_crystal cr_law creep_law sl_rate_independent cr_N cr_dim cr_C]. split; [reflexivity|]. split; [lra|]. split; [intros; cbn; lra|].
    split; [intros q a Hq Ha; apply G; assumption|]. intros A _ Z i j Hi Hj. assert (i = 0%nat) as -> by lia. assert (j = 0%nat) as -> by lia.
    unfold ddot, c4 in Z. cbn [sumn] in Z. assert (Z' : Rsqr (A 0%nat 0%nat) = 0) by (unfold Rsqr; lra). apply Rsqr_0_uniq. exact Z'.
Qed.
Lemma creep_held : held_in_place creep_body held.
Proof.
  intros v A Z d Hd.
  assert (Z0 := Z 0%nat 0%nat (or_introl eq_refl) ltac:(cbn; lia)). assert (Z1 := Z 1%nat 0%nat (or_intror (or_introl eq_refl)) ltac:(cbn; lia)).
  destruct Z0 as (E0 & S0). destruct Z1 as (E1 & S1).
  specialize (E0 0%nat 0%nat ltac:(cbn; lia) ltac:(cbn; lia)). specialize (E1 0%nat 0%nat ltac:(cbn; lia) ltac:(cbn; lia)).
  specialize (S0 0%nat ltac:(cbn; lia)). specialize (S1 0%nat ltac:(cbn; lia)).
  unfold strain_at, local_values in E0, E1. unfold slip_at, local_values in S0, S1. cbn in E0, E1, S0, S1.
  cbn in Hd. destruct d as [|[|[|[|d]]]]; lra || lia.
Qed.
Lemma creep_dofs : dofs_of_cells creep_body held.
Proof.
  split.
  - intros c n d _ Hn Hd. assert (n = 0 \/ n = 1)%nat by (destruct c as [|[|c]]; cbn in Hn; intuition congruence). cbn in Hd |- *. intuition lia.
  - intros d Hd K. exists 0%nat. split; [left; reflexivity|]. destruct d as [|d]; [left; reflexivity|]. contradiction K. reflexivity.
Qed.
Lemma creep_closed : closed_below (b_ndofs creep_body) held.
Proof. split; [apply held_closed|]. intros d es z e w K Hin. destruct d; cbn in K; [injection K as <- _; destruct Hin|discriminate]. Qed.
Lemma creep_assembled old x h : exists ws, body_jacobian creep_body old x h creep_pattern held = Ok ws.
Proof.
  unfold body_jacobian. change (b_cells creep_body) with [0; 1]%nat. cbn [map].
  assert (Z : forall m0 m1 c0 c1 v0 v1, exists ws, assemble_jacobian creep_pattern held true
    [mk_local_system (body_cell creep_body 0) m0 c0 v0; mk_local_system (body_cell creep_body 1) m1 c1 v1] = Ok ws).
  { intros. eexists. reflexivity. }
  apply Z.
Qed.

(** All hypotheses of C96 hold for the first trial solutions of a step: the bars slip, the
    interface is half open (below the critical opening 1), one bar is held. *)
Example C96_example : exists ws y,
  let h := body_update creep_body (fun _ => 0) creep_trial (body_store creep_body creep_histories) in
  consistent creep_body /\ exponential_damage_only creep_body /\ two_sided creep_body /\ initialised creep_body creep_histories /\
  sound_histories creep_body creep_histories /\ ever_opened creep_body creep_trial creep_histories /\
  stable_material creep_body (macro_of creep_body) /\ stable_interfaces creep_body pull_frames creep_interface /\
  sound_interfaces creep_body h /\ hardens creep_body h /\ no_softening creep_body creep_trial h /\
  definite_grains creep_body h /\ held_in_place creep_body held /\ closed_below (b_ndofs creep_body) held /\ dofs_of_cells creep_body held /\
  body_jacobian creep_body (fun _ => 0) creep_trial h creep_pattern held = Ok ws /\
  solves (b_ndofs creep_body) (matrix_of ws) (fun d => if Nat.eqb d 2 then 1 else 0) y /\ 0 < y 2%nat.
Proof.
  set (h := body_update creep_body (fun _ => 0) creep_trial (body_store creep_body creep_histories)).
  destruct (C96_trial_histories creep_body (fun _ => 0) creep_trial creep_histories creep_consistent (or_introl eq_refl) creep_two_sided creep_initialised creep_sound (creep_ever _)) as (SO & RE).
  fold h in SO, RE.
  destruct (creep_hard h) as (HA & DG). { intros c q a Ha Hq Hc. apply RE; assumption. }
  assert (NS : no_softening creep_body creep_trial h).
  { intros _ c n q Hc Hn Hq. assert (q = 0%nat) as -> by (cbn in Hq; lia). cbv zeta. right.
    change (ratio (b_cohesive creep_body)) with 0. change (b_dim creep_body) with 1%nat. change (b_face creep_body c n) with (creep_face c).
    change (fa_n (creep_face c) 0) with (pull_normal c). rewrite creep_delta by exact Hn. cbn. lra. }
  destruct (creep_assembled (fun _ => 0) creep_trial h) as (ws & J). exists ws.
  destruct (C96_newton_step_exists_and_is_unique creep_body pull_frames creep_interface (fun _ => 0) creep_trial h creep_pattern held ws (fun d => if Nat.eqb d 2 then 1 else 0)
    creep_consistent creep_two_sided creep_material creep_interfaces SO HA NS DG creep_held creep_closed creep_dofs J) as (y & Hy & _).
  exists y. cbv zeta. fold h.
  repeat (split; [first [exact creep_consistent|exact creep_two_sided|left; reflexivity|exact creep_initialised|exact creep_sound|apply creep_ever|exact creep_material|exact creep_interfaces|exact creep_held|exact creep_closed|exact creep_dofs|assumption]|]).
  (* the force does work on the motion it causes *)
  destruct (Req_dec (y 2%nat) 0) as [Z|NZ].
  - exfalso.
    assert (Q : quadratic 4 (matrix_of ws) y y = y 2%nat).
    { unfold quadratic. rewrite (sumn_ext 4 _ (fun r => y r * (if Nat.eqb r 2 then 1 else 0))).
      - cbn [sumn Nat.eqb]. ring.
      - intros r Hr. cbv beta. f_equal. exact (Hy r Hr). }
    assert (Y : forall d, (d < 4)%nat -> y d = 0).
    { intros d Hd. destruct (Req_dec (y d) 0) as [|N]; [assumption|]. exfalso.
      pose proof (C96_matrix_positive_definite creep_body pull_frames creep_interface (fun _ => 0) creep_trial h creep_pattern held ws
        creep_consistent creep_two_sided creep_material creep_interfaces SO HA NS DG creep_held creep_closed creep_dofs J y d Hd N) as P.
      change (b_ndofs creep_body) with 4%nat in P. lra. }
    specialize (Hy 2%nat ltac:(cbn; lia)). change (b_ndofs creep_body) with 4%nat in Hy. rewrite (sumn_zero 4) in Hy; [cbn in Hy; lra|].
    intros s Hs. rewrite Y by exact Hs. ring.
  - assert (Q : quadratic 4 (matrix_of ws) y y = y 2%nat).
    { unfold quadratic. rewrite (sumn_ext 4 _ (fun r => y r * (if Nat.eqb r 2 then 1 else 0))).
      - cbn [sumn Nat.eqb]. ring.
      - intros r Hr. cbv beta. f_equal. exact (Hy r Hr). }
    rewrite <- Q. exact (C96_matrix_positive_definite creep_body pull_frames creep_interface (fun _ => 0) creep_trial h creep_pattern held ws
        creep_consistent creep_two_sided creep_material creep_interfaces SO HA NS DG creep_held creep_closed creep_dofs J y 2 ltac:(cbn; lia) NZ).
Qed.
