(** * Past the peak of the interface law the Newton matrix is indefinite. *)
From Coq Require Import FunctionalExtensionality.
From Verif Require Import Num SumLemmas Tensors TensorLemmas ModelUtilities ModelElastic SpecElastic ModelMicro SpecMicro ProofMicro ModelCohesive
  SpecCohesive ProofCohesive PropCohesive ModelHistory SpecHistory SpecInterface ModelInterface ModelFEField ModelActiveSet SpecActiveSet PropActiveSet
  ModelLinear SpecLinear PropLinear ModelAssembly SpecAssembly ProofAssembly ProofFace ModelSweep SpecSweep
  PropSweep ModelStep ModelBody SpecBody PropBody PropStep ExampleBody ModelTangent SpecTangent ProofTangent PropTangent ExampleTangent
  SpecRun PropRun ExampleRun SpecEnergy ProofEnergy PropEnergy ExampleEnergy SpecStiffness ProofStiffness PropStiffness.
Open Scope R_scope.

(** The two grains of ExampleBody pulled apart in one step to twice the critical opening. *)
Definition torn : vec := on2 0 2.
Lemma pull_dofs : dofs_of_cells pull_body held.
Proof. exact tug_dofs. Qed.
Lemma pull_assembled old x h : exists ws, body_jacobian pull_body old x h tug_pattern held = Ok ws.
Proof.
  unfold body_jacobian. change (b_cells pull_body) with [0; 1]%nat. cbn [map].
  assert (Z : forall m0 m1 c0 c1 v0 v1, exists ws, assemble_jacobian tug_pattern held true
    [mk_local_system (body_cell pull_body 0) m0 c0 v0; mk_local_system (body_cell pull_body 1) m1 c1 v1] = Ok ws).
  { intros. eexists. reflexivity. }
  apply Z.
Qed.
Lemma pull_sound : sound_histories pull_body pull_histories.
Proof.
  apply C95_setup_is_sound; [exact pull_consistent|reflexivity| | |]; cbn; lra.
Qed.
Lemma one_dimensional c delta o mx : char_disp c = 1 -> crit_opening c = 1 -> crit_traction c = 1 -> char_stress c = 1 -> ratio c = 0 ->
  forall n, n 0%nat * n 0%nat = 1 -> dot 1 n delta = o -> 0 < o -> mx = o ->
  val (cohesive_jacobian 1 c delta n mx 0 1 0%nat 0%nat) = exp (1 - o) * (1 - o).
Proof.
  intros C1 C2 C3 C4 C5 n NN D O ->.
  assert (E : effective_opening 1 0 delta n = o).
  { rewrite eff_eq. unfold mixed_opening. rewrite D. rewrite Rmax_left by lra. match goal with |- sqrt ?u = _ => replace u with (o * o) by ring end. apply sqrt_square. lra. }
  unfold cohesive_jacobian. rewrite C5, E. unfold branch_of, rate. rewrite (proj2 (Reqb_true o o)) by reflexivity.
  rewrite xdiv_fin by lra. cbn [xltb]. rewrite (proj2 (Rltb_false _ 0)) by lra. cbn [negb andb]. rewrite xdiv_fin by lra. cbn [val].
  rewrite C1, C2, C3, C4. unfold effective_identity, effective_direction. cbv zeta. rewrite E, D. rewrite (proj2 (Reqb_false o 0)) by lra.
  rewrite switch_all, (proj2 (Rltb_true 0 o)) by lra. unfold macaulay_brackets. rewrite (proj2 (Rltb_true 0 o)) by lra.
  unfold madd, mscal, tangential_projector, msub, normal_projector, symmetrize, outer, vadd, vscal, unit_mat, mv. cbn [sumn kron Nat.eqb].
  replace (1 * o / 1) with o by field. generalize (exp (1 - o)). intros ex.
  transitivity (ex * (n 0%nat * n 0%nat) * (1 - o)); [field; lra|rewrite NN; ring].
Qed.

Lemma torn_opening c n : In n (gb_neighbours pull_body c) -> opening_of pull_body torn c n 0 = 2.
Proof.
  intros Hn. pose proof (pull_gb c n Hn) as G. unfold opening_of. change (ratio (b_cohesive pull_body)) with 0. change (b_dim pull_body) with 1%nat.
  change (b_face pull_body c n) with (pull_face c). change (fa_n (pull_face c) 0) with (pull_normal c).
  unfold mixed_opening. rewrite dot_comm, (pull_DT torn c n G). unfold torn, on2. cbn [Nat.eqb]. rewrite Rmax_left by lra.
  match goal with |- sqrt ?u = _ => replace u with (2 * 2) by ring end. apply sqrt_square. lra.
Qed.
Definition torn_histories : rank_data := body_update pull_body (fun _ => 0) torn (body_store pull_body pull_histories).
Lemma torn_ever : ever_opened pull_body torn pull_histories.
Proof.
  intros _ c n q Hc Hn Hq. cbv zeta. right. right. assert (q = 0%nat) as -> by (cbn in Hq; lia).
  pose proof (torn_opening c n Hn) as E. unfold opening_of in E. rewrite E. lra.
Qed.
Lemma torn_sound : sound_interfaces pull_body torn_histories.
Proof. exact (proj1 (C96_trial_histories pull_body (fun _ => 0) torn pull_histories pull_consistent (or_introl eq_refl) pull_two_sided pull_initialised pull_sound torn_ever)). Qed.
Lemma torn_memory c n : In c (b_cells pull_body) -> In n (gb_neighbours pull_body c) ->
  let g := r_face torn_histories (make_key c n) 0 in i_max g = 2 /\ i_old g = 0 /\ 0 <= val (i_damage g) < 1.
Proof.
  intros Hc Hn. cbv zeta.
  destruct (PropRun.next_face pull_body (fun _ => 0) torn pull_histories c n 0 pull_nodup (or_introl eq_refl) pull_initialised pull_two_sided eq_refl Hc Hn ltac:(cbn; lia)) as (E1 & E2).
  cbv zeta in E1, E2. destruct (kept_by_finish pull_body (fun _ => 0) torn pull_histories c n 0 pull_nodup ltac:(cbn; lia)) as (K1 & K2). cbv zeta in K1, K2.
  fold torn_histories in K1, K2. rewrite K1 in E1. rewrite K2 in E2. rewrite (torn_opening c n Hn) in E1, E2.
  assert (Z : i_max (r_face pull_histories (make_key c n) 0) = 0) by (apply fresh_face; [exact pull_nodup|cbn; lia|reflexivity]).
  rewrite Z, Rmax_right in E1, E2 by lra. split; [exact E1|]. split.
  - unfold torn_histories. rewrite (updated_face pull_body (fun _ => 0) torn (body_store pull_body pull_histories) c n 0 pull_nodup (or_introl eq_refl) (initialised_store pull_body pull_histories pull_nodup pull_initialised) pull_two_sided eq_refl Hc Hn ltac:(cbn; lia)).
    destruct (pull_gb c n Hn) as [[-> ->]|[-> ->]]; reflexivity.
  - rewrite E2. cbn [val]. apply damage_after_range; cbn; lra.
Qed.
Lemma torn_pair c n w : In c (b_cells pull_body) -> In n (gb_neighbours pull_body c) -> w 0%nat = 0 -> w 1%nat = 1 ->
  pair_form pull_body pull_frames torn torn_histories c n w w < 0.
Proof.
  intros Hc Hn W0 W1. pose proof (pull_gb c n Hn) as G. destruct (torn_memory c n Hc Hn) as (M1 & M2 & M3).
  assert (NN : pull_normal c 0%nat * pull_normal c 0%nat = 1) by (destruct G as [[-> ->]|[-> ->]]; cbn; unfold kron; cbn; ring).
  assert (D : dot 1 (pull_normal c) (opening_at (pull_face c) (local_values pull_body torn c) (local_values pull_body torn n) 0) = 2).
  { rewrite dot_comm, (pull_DT torn c n G). unfold torn, on2. cbn [Nat.eqb]. lra. }
  assert (O : opening_at (pull_face c) (local_values pull_body w c) (local_values pull_body w n) 0 0%nat * opening_at (pull_face c) (local_values pull_body w c) (local_values pull_body w n) 0 0%nat = 1).
  { rewrite pull_OPN. destruct G as [[-> ->]|[-> ->]]; rewrite W0, W1; ring. }
  unfold pair_form. cbv zeta. change (b_interface pull_body c n) with pull_interface. change (b_face pull_body c n) with (pull_face c).
  change (fa_nq (pull_face c)) with 1%nat. change (if_decohesion pull_interface) with true. change (if_microtraction pull_interface) with false.
  change (if_dim pull_interface) with 1%nat. cbv iota. cbn [sumn]. change (fa_w (pull_face c) 0) with 1.
  change (if_factor pull_interface) with (1 / 1).
  set (K := face_K _ _ _ _ _ _). set (o := opening_at (pull_face c) (local_values pull_body w c) (local_values pull_body w n) 0) in *.
  assert (KN : K 0%nat 0%nat < 0).
  { unfold K, face_K. cbn [if_dim if_cohesive if_contact if_dt if_couple_macro if_exponent if_decohesion pull_interface face_history_of fh_max fh_old].
    rewrite M1, M2. change (fa_n (pull_face c) 0) with (pull_normal c).
    rewrite (one_dimensional (mk_cohesive 1 1 0 1 1) _ 2 2 eq_refl eq_refl eq_refl eq_refl eq_refl (pull_normal c) NN D) by (lra || reflexivity).
    assert (CJ : contact_jacobian 1 (mk_contact 1 1 1) (opening_at (pull_face c) (local_values pull_body torn c) (local_values pull_body torn n) 0) (pull_normal c) 0%nat 0%nat = 0).
    { unfold contact_jacobian. rewrite dot_comm, D. rewrite Rabs_pos_eq by lra. rewrite xdiv_fin by lra. unfold mscal, xmacaulay, xgtb, xltb. rewrite (proj2 (Rltb_false 0 _)) by lra. ring. }
    rewrite CJ. 
    assert (DG : 0 < val (deg_macro pull_interface (face_history_of torn_histories c n) 0)).
    { unfold deg_macro, damage_at. cbn [if_decohesion if_couple_macro if_exponent pull_interface face_history_of fh_damage].
      assert (DR : forall d, 0 <= d < 1 -> 0 < val (degradation 1 d true)).
      { intros d Hd. rewrite degradation_lt1 by lra. apply exp_pos. }
      destruct (i_damage (r_face torn_histories (make_key c n) 0)); cbn [val] in M3; apply DR; lra. }
    pose proof (exp_pos (1 - 2)). set (e := exp (1 - 2)) in *. set (g := val (deg_macro _ _ _)) in *. assert (0 < g * e) by (apply Rmult_lt_0_compat; assumption). nra. }
  unfold dot, mv. cbn [sumn]. assert (K 0%nat 0%nat * (o 0%nat * o 0%nat) < 0) by (rewrite O; lra). lra.
Qed.

(** All hypotheses of [C96_matrix_positive_semidefinite] but the one on softening hold, and the
    matrix has a direction of negative curvature: the free grain moved on. *)
Theorem C96_softening_matrix_can_be_indefinite : exists b frames p0 r old x pattern k ws v,
  let h := body_update b old x (body_store b r) in
  consistent b /\ exponential_damage_only b /\ two_sided b /\ initialised b r /\ sound_histories b r /\ ever_opened b x r /\
  stable_material b (macro_of b) /\ stable_interfaces b frames p0 /\ sound_interfaces b h /\ hardens b h /\
  closed_below (b_ndofs b) k /\ dofs_of_cells b k /\ body_jacobian b old x h pattern k = Ok ws /\
  SpecLinear.admissible (b_ndofs b) k v /\ quadratic (b_ndofs b) (matrix_of ws) v v < 0.
Proof.
  destruct (pull_assembled (fun _ => 0) torn torn_histories) as (ws & J).
  assert (SM : stable_material pull_body (macro_of pull_body)).
  { apply pull_material. intros c k l _ _. reflexivity. }
  assert (CB : closed_below (b_ndofs pull_body) held).
  { split; [apply held_closed|]. intros d es z e w K Hin. destruct d; cbn in K; [injection K as <- _; destruct Hin|discriminate]. }
  exists pull_body, pull_frames, pull_interface, pull_histories, (fun _ => 0), torn, tug_pattern, held, ws, (on2 0 1). cbv zeta. fold torn_histories.
  split; [exact pull_consistent|]. split; [left; reflexivity|]. split; [exact pull_two_sided|]. split; [exact pull_initialised|]. split; [exact pull_sound|].
  split; [exact torn_ever|]. split; [exact SM|]. split; [exact pull_interfaces|]. split; [exact torn_sound|].
  split. { intros c Hc. cbv zeta. cbn. repeat split; try lra. intros q a _ Ha. lia. }
  split; [exact CB|]. split; [exact pull_dofs|]. split; [exact J|].
  split. { intros d es z Hd K. destruct d as [|[|d]]; cbn in K; try discriminate. injection K as <- _. reflexivity. }
  rewrite (form_of_matrix pull_body pull_frames pull_interface (fun _ => 0) torn torn_histories tug_pattern held ws pull_consistent pull_two_sided pull_interfaces torn_sound CB pull_dofs J).
  assert (E0 : expand held (on2 0 1) 0%nat = 0) by (unfold expand; cbn; ring).
  assert (E1 : expand held (on2 0 1) 1%nat = 1) by (unfold expand; cbn; ring).
  set (w := expand held (on2 0 1)) in *.
  assert (GR : lsum (grain_of pull_body (fun _ => 0) torn torn_histories w w) (b_cells pull_body) = 0).
  { apply lsum_zero. intros c Hc. unfold grain_of, bulk_form. apply sumn_zero. intros q Hq. change (cr_ns (b_crystal pull_body c)) with 0%nat. cbn [sumn].
    change (cr_C (b_crystal pull_body c)) with (fun _ _ _ _ : nat => 0). change (cr_dim (b_crystal pull_body c)) with 1%nat.
    set (z := field_strain _ _ _ _). unfold ddot, c4. cbn [sumn]. ring. }
  assert (DZ : lsum (fun l => diagonal_form held l (on2 0 1) (on2 0 1)) (map (newton_system pull_body (fun _ => 0) torn torn_histories) (b_cells pull_body)) = 0).
  { rewrite lsum_map. apply lsum_zero. intros c Hc. apply diagonal_zero. intros d _ K. destruct d as [|d]; [unfold on2; cbn; ring|discriminate K]. }
  rewrite GR, DZ. change (b_cells pull_body) with [0; 1]%nat. cbn [lsum]. change (gb_neighbours pull_body 0) with [1%nat]. change (gb_neighbours pull_body 1) with [0%nat]. cbn [lsum].
  pose proof (torn_pair 0 1 w (or_introl eq_refl) (or_introl eq_refl) E0 E1). pose proof (torn_pair 1 0 w (or_intror (or_introl eq_refl)) (or_introl eq_refl) E0 E1). lra.
Qed.
