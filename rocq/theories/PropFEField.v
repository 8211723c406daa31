(** * C39-C42: finite element field. *)
From Verif Require Import Num SumLemmas ModelFEField SpecFEField ProofFEField.
Open Scope nat_scope.

(** ** C39 *)
Lemma at_s dim du ds n0 m0 nc ns decohesion single nm s :
  set_up dim du ds decohesion single n0 m0 nc ns nm s ->
  s = match setup_dofs (setup_extractors (construct dim du ds decohesion single n0 m0) nc ns) nm
      with Ok s => s | _ => s end.
Proof. unfold set_up. intros ->. reflexivity. Qed.

Lemma displacement_components_at : forall dim du ds n0 m0 nc ns decohesion single nm s,
  0 < nc -> set_up dim du ds decohesion single n0 m0 nc ns nm s ->
  forall i, i < nc ->
  displacement_components s i = seq (if decohesion then i * dim else 0) dim.
Proof.
  intros dim du ds n0 m0 nc ns decohesion single nm s crystals regular.
  pose proof (at_s _ _ _ _ _ _ _ _ _ _ _ regular) as Es.
  intros i Hi. rewrite Es. unfold displacement_components; simpl.
  unfold new_displacement_extractors. rewrite nth_error_map_seq by exact Hi.
  apply seq_map_add.
Qed.

Lemma slip_components_at : forall dim du ds n0 m0 nc ns decohesion single nm s,
  0 < nc -> set_up dim du ds decohesion single n0 m0 nc ns nm s ->
  forall i, i < nc ->
  slip_components s i =
  map (fun j => (if decohesion then nc * dim else dim) + i * ns + j) (seq 0 ns).
Proof.
  intros dim du ds n0 m0 nc ns decohesion single nm s crystals regular.
  pose proof (at_s _ _ _ _ _ _ _ _ _ _ _ regular) as Es.
  intros i Hi. rewrite Es. unfold slip_components; simpl.
  unfold new_slips_extractors. rewrite nth_error_map_seq by exact Hi. reflexivity.
Qed.

Lemma n_components_at : forall dim du ds n0 m0 nc ns decohesion single nm s,
  0 < nc -> set_up dim du ds decohesion single n0 m0 nc ns nm s ->
  get_n_components s = Ok (n_displacement_components dim decohesion nc + nc * ns).
Proof.
  intros dim du ds n0 m0 nc ns decohesion single nm s crystals regular.
  pose proof (at_s _ _ _ _ _ _ _ _ _ _ _ regular) as Es.
  rewrite Es. unfold get_n_components; simpl. destruct nc as [|n]; [lia|].
  simpl. f_equal. apply elements_length.
Qed.

(** Every component is addressed exactly once (displacement components of a cohesive
    aggregate are shared by all crystals), and nothing else is. *)
Theorem C39_component_layout_is_a_bijection : forall dim du ds n0 m0 nc ns decohesion single nm s,
  0 < nc -> set_up dim du ds decohesion single n0 m0 nc ns nm s ->
  exists n, get_n_components s = Ok n /\
    (decohesion = true ->
       Permutation (flat_map (displacement_components s) (seq 0 nc) ++
                    flat_map (slip_components s) (seq 0 nc)) (seq 0 n)) /\
    (decohesion = false ->
       (forall i, i < nc -> displacement_components s i = displacement_components s 0) /\
       Permutation (displacement_components s 0 ++
                    flat_map (slip_components s) (seq 0 nc)) (seq 0 n)) /\
    (forall i, i < nc -> length (displacement_components s i) = dim /\
                         length (slip_components s i) = ns).
Proof.
  intros dim du ds n0 m0 nc ns decohesion single nm s crystals regular.
  pose proof (at_s _ _ _ _ _ _ _ _ _ _ _ regular) as Es.
  eexists; split; [apply (n_components_at _ _ _ _ _ _ _ _ _ _ _ crystals regular)|]. unfold n_displacement_components.
  assert (HS : flat_map (slip_components s) (seq 0 nc)
               = seq (if decohesion then nc * dim else dim) (nc * ns)).
  { rewrite <- blocks_seq. apply flat_map_ext_in. intros i Hi. apply in_seq in Hi.
    apply (slip_components_at _ _ _ _ _ _ _ _ _ _ _ crystals regular); lia. }
  split; [|split; [|split]].
  - intros ->.
    assert (HD : flat_map (displacement_components s) (seq 0 nc) = seq 0 (nc * dim)).
    { rewrite <- blocks_seq. apply flat_map_ext_in. intros i Hi. apply in_seq in Hi.
      rewrite (displacement_components_at _ _ _ _ _ _ _ _ _ _ _ crystals regular) by lia. simpl. symmetry. apply seq_map_add. }
    rewrite HD, HS. rewrite <- seq_app. rewrite (Nat.mul_comm dim nc). apply Permutation_refl.
  - intros ->. split.
    + intros i Hi. rewrite !(displacement_components_at _ _ _ _ _ _ _ _ _ _ _ crystals regular) by lia. reflexivity.
    + rewrite (displacement_components_at _ _ _ _ _ _ _ _ _ _ _ crystals regular) by lia. rewrite HS, Nat.mul_1_r, <- seq_app.
      apply Permutation_refl.
  - rewrite (displacement_components_at _ _ _ _ _ _ _ _ _ _ _ crystals regular) by assumption. apply seq_length.
  - rewrite (slip_components_at _ _ _ _ _ _ _ _ _ _ _ crystals regular) by assumption. rewrite map_length, seq_length. reflexivity.
Qed.

(** The finite element of crystal [i] carries dofs exactly in the components its own
    extractors address. *)
Theorem C39_elements_match_the_extractors : forall dim du ds n0 m0 nc ns decohesion single nm s,
  0 < nc -> set_up dim du ds decohesion single n0 m0 nc ns nm s ->
  forall i n c,
  i < nc -> get_n_components s = Ok n -> c < n ->
  exists fe e, nth_error (fe_collection s) i = Some fe /\ nth_error fe c = Some e /\
    (In c (displacement_components s i) -> e = FE_Q du) /\
    (In c (slip_components s i) -> e = FE_Q ds) /\
    (~ In c (displacement_components s i) -> ~ In c (slip_components s i) -> e = FE_Nothing).
Proof.
  intros dim du ds n0 m0 nc ns decohesion single nm s crystals regular.
  pose proof (at_s _ _ _ _ _ _ _ _ _ _ _ regular) as Es.
  intros i n c Hi Hn Hc. rewrite (n_components_at _ _ _ _ _ _ _ _ _ _ _ crystals regular) in Hn. injection Hn as <-.
  exists (crystal_elements dim du ds decohesion nc ns i).
  rewrite (displacement_components_at _ _ _ _ _ _ _ _ _ _ _ crystals regular), (slip_components_at _ _ _ _ _ _ _ _ _ _ _ crystals regular) by exact Hi.
  assert (HF : nth_error (fe_collection s) i = Some (crystal_elements dim du ds decohesion nc ns i)).
  { rewrite Es. simpl. apply nth_error_map_seq; exact Hi. }
  unfold n_displacement_components in Hc.
  destruct (Nat.lt_ge_cases c (dim * (if decohesion then nc else 1))) as [H|H].
  - (* displacement component *)
    assert (exists k j, k < nc /\ j < dim /\ c = (if decohesion then k * dim else 0) + j)
      as (k & j & Hk & Hj & ->).
    { destruct decohesion.
      - assert (Hd : dim <> 0) by (intros E; rewrite E in H; simpl in H; lia).
        exists (c / dim), (c mod dim). split; [apply Nat.div_lt_upper_bound; lia|].
        split; [apply Nat.mod_upper_bound; exact Hd|].
        rewrite Nat.mul_comm. apply Nat.div_mod; exact Hd.
      - exists i, c. repeat split; lia. }
    eexists; split; [exact HF|]; split; [apply elements_displacement; assumption|].
    assert (Hns : ~ In ((if decohesion then k * dim else 0) + j)
                 (map (fun j => (if decohesion then nc * dim else dim) + i * ns + j) (seq 0 ns))).
    { intros Hin. apply in_map_iff in Hin. destruct Hin as (l & E & _).
      destruct decohesion; [|lia]. pose proof (block_bound k dim j nc Hk Hj). lia. }
    repeat split.
    + intros Hin. apply in_seq in Hin. destruct decohesion; simpl; auto.
      replace k with i; [rewrite Nat.eqb_refl; reflexivity|].
      assert (exists l, l < dim /\ i * dim + l = k * dim + j) as (l & Hl & E).
      { exists (k * dim + j - i * dim). lia. }
      apply block_index in E; lia.
    + intros Hin. contradiction.
    + intros Hnot _. destruct decohesion; simpl.
      * destruct (Nat.eqb_spec i k) as [->|Hne]; auto.
        exfalso; apply Hnot. apply in_seq. lia.
      * exfalso; apply Hnot. apply in_seq. lia.
  - (* slip component *)
    assert (Hns : ns <> 0) by (intros E; rewrite E in Hc; lia).
    assert (exists k j, k < nc /\ j < ns /\ c = (if decohesion then nc * dim else dim) + k * ns + j)
      as (k & j & Hk & Hj & ->).
    { set (b := if decohesion then nc * dim else dim) in *.
      assert (Eb : dim * (if decohesion then nc else 1) = b) by (unfold b; destruct decohesion; lia).
      rewrite Eb in *. exists ((c - b) / ns), ((c - b) mod ns).
      split; [apply Nat.div_lt_upper_bound; lia|].
      split; [apply Nat.mod_upper_bound; exact Hns|].
      pose proof (Nat.div_mod (c - b) ns Hns). lia. }
    eexists; split; [exact HF|]; split; [apply elements_slip; assumption|].
    assert (Hnd : ~ In ((if decohesion then nc * dim else dim) + k * ns + j)
                  (seq (if decohesion then i * dim else 0) dim)).
    { intros Hin. apply in_seq in Hin. destruct decohesion; [|lia].
      assert (S i * dim <= nc * dim) by (apply Nat.mul_le_mono_r; lia). simpl in *; lia. }
    repeat split.
    + intros Hin. contradiction.
    + intros Hin. apply in_map_iff in Hin. destruct Hin as (l & E & Hl). apply in_seq in Hl.
      assert (E' : i * ns + l = k * ns + j) by lia. apply block_index in E'; try lia.
      destruct E' as [-> _]. rewrite Nat.eqb_refl. reflexivity.
    + intros _ Hnot. destruct (Nat.eqb_spec i k) as [->|Hne]; auto.
      exfalso; apply Hnot. apply in_map_iff. exists j; split; auto. apply in_seq; lia.
Qed.

(** The crystal-independent component number: 0..dim-1 for the displacement, dim+j for
    slip system j, whatever the crystal. *)
Theorem C39_global_components_are_crystal_independent : forall dim du ds n0 m0 nc ns decohesion single nm s,
  0 < nc -> set_up dim du ds decohesion single n0 m0 nc ns nm s ->
  forall i k,
  i < nc ->
  (k < dim -> exists c, nth_error (displacement_components s i) k = Some c /\
                        get_global_component s c = Ok k) /\
  (k < ns -> exists c, nth_error (slip_components s i) k = Some c /\
                       get_global_component s c = Ok (dim + k)).
Proof.
  intros dim du ds n0 m0 nc ns decohesion single nm s crystals regular.
  pose proof (at_s _ _ _ _ _ _ _ _ _ _ _ regular) as Es.
  intros i k Hi. rewrite (displacement_components_at _ _ _ _ _ _ _ _ _ _ _ crystals regular), (slip_components_at _ _ _ _ _ _ _ _ _ _ _ crystals regular) by exact Hi.
  assert (HM : global_component_mapping s = component_mapping dim decohesion nc ns)
    by (rewrite Es; reflexivity).
  unfold get_global_component. rewrite HM. split; intros Hk.
  - eexists; split; [apply nth_error_seq; exact Hk|].
    rewrite mapping_displacement by assumption. reflexivity.
  - eexists; split; [apply (nth_error_map_seq (fun j => _ + i * ns + j)); exact Hk|].
    rewrite mapping_slip by assumption. reflexivity.
Qed.

(** Displacement components form block 0, slip components block 1. *)
Theorem C39_blocks_separate_displacement_and_slips : forall dim du ds n0 m0 nc ns decohesion single nm s,
  0 < nc -> set_up dim du ds decohesion single n0 m0 nc ns nm s ->
  forall i c,
  i < nc ->
  (In c (displacement_components s i) -> nth_error (block_component s) c = Some 0) /\
  (In c (slip_components s i) -> nth_error (block_component s) c = Some 1).
Proof.
  intros dim du ds n0 m0 nc ns decohesion single nm s crystals regular.
  pose proof (at_s _ _ _ _ _ _ _ _ _ _ _ regular) as Es.
  intros i c Hi. rewrite (displacement_components_at _ _ _ _ _ _ _ _ _ _ _ crystals regular), (slip_components_at _ _ _ _ _ _ _ _ _ _ _ crystals regular) by exact Hi.
  assert (HB : block_component s = block_components dim decohesion nc ns)
    by (rewrite Es; reflexivity).
  rewrite HB. unfold block_components. split; intros Hin.
  - apply in_seq in Hin.
    assert (c < n_displacement_components dim decohesion nc).
    { unfold n_displacement_components. destruct decohesion; [|lia].
      assert (S i * dim <= nc * dim) by (apply Nat.mul_le_mono_r; lia). simpl in *; lia. }
    rewrite nth_error_map_seq by lia.
    destruct (Nat.leb_spec (n_displacement_components dim decohesion nc) c); [lia|reflexivity].
  - apply in_map_iff in Hin. destruct Hin as (j & <- & Hj). apply in_seq in Hj.
    pose proof (block_bound i ns j nc Hi ltac:(lia)).
    rewrite nth_error_map_seq by (unfold n_displacement_components; destruct decohesion; nia).
    match goal with |- Some (if Nat.leb ?a ?b then _ else _) = _ =>
      destruct (Nat.leb_spec a b) as [_|Hlt]; [reflexivity|exfalso] end.
    unfold n_displacement_components in Hlt. destruct decohesion; nia.
Qed.

(** The owned dofs are split into displacement and slip dofs by their component. *)
Theorem C39_owned_dofs_are_split_by_component : forall dim du ds n0 m0 nc ns decohesion single nm s,
  0 < nc -> set_up dim du ds decohesion single n0 m0 nc ns nm s ->
  forall d,
  (In d (owned_displacement_dofs s) <->
     In d (owned nm) /\ exists i, i < nc /\ In (component_of nm d) (displacement_components s i)) /\
  (In d (owned_slip_dofs s) <->
     In d (owned nm) /\ forall i, i < nc -> ~ In (component_of nm d) (displacement_components s i)).
Proof.
  intros dim du ds n0 m0 nc ns decohesion single nm s crystals regular.
  pose proof (at_s _ _ _ _ _ _ _ _ _ _ _ regular) as Es.
  intros d.
  assert (E1 : owned_displacement_dofs s =
    displacement_dofs (setup_extractors (construct dim du ds decohesion single n0 m0) nc ns) nm)
    by (rewrite Es; reflexivity).
  assert (E2 : owned_slip_dofs s =
    slip_dofs (setup_extractors (construct dim du ds decohesion single n0 m0) nc ns) nm)
    by (rewrite Es; reflexivity).
  rewrite E1, E2.
  rewrite displacement_dofs_are_displacement, slip_dofs_are_slip by exact crystals.
  rewrite !filter_In.
  assert (K : forall c, c < n_displacement_components dim decohesion nc <->
              exists i, i < nc /\ In c (displacement_components s i)).
  { intros c. unfold n_displacement_components. split.
    - intros H. destruct decohesion.
      + assert (Hd : dim <> 0) by (intros E; rewrite E in H; simpl in H; lia).
        exists (c / dim). assert (c / dim < nc) by (apply Nat.div_lt_upper_bound; lia).
        split; [assumption|]. rewrite (displacement_components_at _ _ _ _ _ _ _ _ _ _ _ crystals regular) by assumption.
        apply in_seq. pose proof (Nat.div_mod c dim Hd).
        pose proof (Nat.mod_upper_bound c dim Hd). lia.
      + exists 0. split; [lia|]. rewrite (displacement_components_at _ _ _ _ _ _ _ _ _ _ _ crystals regular) by lia.
        apply in_seq. lia.
    - intros (i & Hi & Hin). rewrite (displacement_components_at _ _ _ _ _ _ _ _ _ _ _ crystals regular) in Hin by exact Hi.
      apply in_seq in Hin. destruct decohesion; [|lia].
      assert (S i * dim <= nc * dim) by (apply Nat.mul_le_mono_r; lia). simpl in *; lia. }
  split; (split; intros [H1 H2]; split; auto).
  - apply Nat.ltb_lt in H2. apply K; exact H2.
  - apply Nat.ltb_lt. apply K; exact H2.
  - apply Nat.leb_le in H2. intros i Hi Hin.
    assert (component_of nm d < n_displacement_components dim decohesion nc)
      by (apply K; exists i; auto). lia.
  - apply Nat.leb_le. destruct (Nat.lt_ge_cases (component_of nm d)
      (n_displacement_components dim decohesion nc)) as [H|H]; auto.
    exfalso. apply K in H. destruct H as (i & Hi & Hin). exact (H2 i Hi Hin).
Qed.


(** Two crystals with two slip systems each in 2D, with decohesion. *)
Example C39_example :
  exists s, set_up 2 2 1 true true 0 0 2 2
    (mk_numbering 3 (fun d => nth d [0; 3; 5] 0) [0; 1; 2] no_constraints) s /\
    displacement_components s 1 = [2; 3] /\ slip_components s 1 = [6; 7] /\
    owned_displacement_dofs s = [0; 1] /\ owned_slip_dofs s = [2].
Proof. eexists; split; [reflexivity|]. repeat split; reflexivity. Qed.

(** ** C40 *)
Lemma extractors_ready_app a b : extractors_ready a -> extractors_ready (a ++ b).
Proof. intros (nc & ns & H). exists nc, ns. apply in_or_app; auto. Qed.

Lemma dofs_ready_app a b : dofs_ready a -> dofs_ready (a ++ b).
Proof.
  intros (l1 & nm & l2 & -> & H). exists l1, nm, (l2 ++ b).
  rewrite <- app_assoc. auto.
Qed.

Lemma run_app s a b : run s (a ++ b) = run (run s a) b.
Proof. revert s; induction a; intros; simpl; auto. Qed.

Lemma snoc_split {A} (P : list A -> Prop) (os : list A) (o x : A) :
  (exists l1 l2, os ++ [o] = l1 ++ x :: l2 /\ P l1) <->
  (exists l1 l2, os = l1 ++ x :: l2 /\ P l1) \/ (o = x /\ P os).
Proof.
  split.
  - intros (l1 & l2 & E & H). induction l2 as [|y l2 _] using rev_ind.
    + apply app_inj_tail in E. destruct E as [-> ->]. right; auto.
    + left. exists l1, l2. split; auto.
      rewrite app_comm_cons, app_assoc in E. apply app_inj_tail in E. tauto.
  - intros [(l1 & l2 & -> & H)|[-> H]].
    + exists l1, (l2 ++ [o]). rewrite <- app_assoc. auto.
    + exists os, []. auto.
Qed.

(** The flags are exactly the readiness read off the calls. *)
Lemma flags_ready dim du ds dec single n0 m0 os :
  let s := run (construct dim du ds dec single n0 m0) os in
  (flag_extractors s = true <-> extractors_ready os) /\
  (flag_dofs s = true <-> dofs_ready os) /\
  (flag_vectors s = true <-> vectors_ready os) /\
  (flag_affine s = true <-> affine_ready os) /\
  (flag_newton s = true <-> newton_ready os).
Proof.
  induction os as [|o os IH] using rev_ind.
  - simpl. repeat split; try discriminate.
    + intros (nc & ns & []).
    + intros ([|x0 y0] & nm & l2 & E & _); discriminate.
    + intros ([|x0 y0] & l2 & E & _); discriminate.
    + intros ([|x0 y0] & c & l2 & E & _); discriminate.
    + intros ([|x0 y0] & c & l2 & E & _); discriminate.
  - cbv zeta in *. rewrite run_app. simpl.
    set (s := run _ os) in *. destruct IH as (I1 & I2 & I3 & I4 & I5).
    assert (X1 : extractors_ready (os ++ [o]) <->
                 extractors_ready os \/ exists nc ns, o = SetupExtractors nc ns).
    { unfold extractors_ready. split.
      - intros (nc & ns & H). apply in_app_or in H. destruct H as [H|[H|[]]]; eauto.
      - intros [(nc & ns & H)|(nc & ns & ->)]; exists nc, ns; apply in_or_app; simpl; auto. }
    assert (X2 : dofs_ready (os ++ [o]) <->
                 dofs_ready os \/ ((exists nm, o = SetupDofs nm) /\ extractors_ready os)).
    { unfold dofs_ready. split.
      - intros (l1 & nm & l2 & E & H).
        destruct (proj1 (snoc_split extractors_ready os o (SetupDofs nm))
          ltac:(eauto)) as [(a & b & -> & H')|[-> H']]; [left; eauto 6|right; eauto].
      - intros [(l1 & nm & l2 & -> & H)|((nm & ->) & H)].
        + exists l1, nm, (l2 ++ [o]). rewrite <- app_assoc; auto.
        + exists os, nm, []. auto. }
    assert (X3 : vectors_ready (os ++ [o]) <-> vectors_ready os \/ (o = SetupVectors /\ dofs_ready os))
      by (apply snoc_split).
    assert (X4 : affine_ready (os ++ [o]) <->
                 affine_ready os \/ ((exists c, o = SetAffine c) /\ dofs_ready os)).
    { unfold affine_ready. split.
      - intros (l1 & c & l2 & E & H).
        destruct (proj1 (snoc_split dofs_ready os o (SetAffine c))
          ltac:(eauto)) as [(a & b & -> & H')|[-> H']]; [left; eauto 6|right; eauto].
      - intros [(l1 & c & l2 & -> & H)|((c & ->) & H)].
        + exists l1, c, (l2 ++ [o]). rewrite <- app_assoc; auto.
        + exists os, c, []. auto. }
    assert (X5 : newton_ready (os ++ [o]) <->
                 newton_ready os \/ ((exists c, o = SetNewton c) /\ dofs_ready os)).
    { unfold newton_ready. split.
      - intros (l1 & c & l2 & E & H).
        destruct (proj1 (snoc_split dofs_ready os o (SetNewton c))
          ltac:(eauto)) as [(a & b & -> & H')|[-> H']]; [left; eauto 6|right; eauto].
      - intros [(l1 & c & l2 & -> & H)|((c & ->) & H)].
        + exists l1, c, (l2 ++ [o]). rewrite <- app_assoc; auto.
        + exists os, c, []. auto. }
    rewrite X1, X2, X3, X4, X5. clear X1 X2 X3 X4 X5.
    rewrite <- I1, <- I2, <- I3, <- I4, <- I5. clear I1 I2 I3 I4 I5.
    destruct o; simpl;
      unfold setup_dofs, set_affine_constraints, set_newton_method_constraints,
             setup_vectors, prepare_for_serialization;
      try (destruct (flag_extractors s) eqn:F1); try (destruct (flag_dofs s) eqn:F2);
      simpl; rewrite ?F1, ?F2;
      repeat split; intros;
      repeat match goal with
      | H : _ \/ _ |- _ => destruct H
      | H : exists _, _ |- _ => destruct H
      | H : _ /\ _ |- _ => destruct H
      end; try discriminate; eauto 6.
Qed.

(** A call throws exactly when what it requires has not been called (successfully). *)
Theorem C40_calls_out_of_order_throw : forall dim du ds dec single n0 m0 os o,
  let s := run (construct dim du ds dec single n0 m0) os in
  (requirement o os -> exists s', step s o = Ok s') /\
  (~ requirement o os -> step s o = Throw).
Proof.
  intros dim du ds dec single n0 m0 os o s.
  destruct (flags_ready dim du ds dec single n0 m0 os) as (I1 & I2 & _).
  fold s in I1, I2.
  destruct o; simpl; unfold setup_dofs, set_affine_constraints, set_newton_method_constraints,
             setup_vectors, prepare_for_serialization; split; intros H; eauto; try contradiction;
  try (first [apply I1 in H | apply I2 in H]; rewrite H; eauto);
  try (rewrite <- I1 in H || rewrite <- I2 in H;
       first [destruct (flag_extractors s) eqn:F1 in H |- * | idtac];
       first [destruct (flag_dofs s) eqn:F2 in H |- * | idtac]; congruence).
Qed.

(** [is_initialized] (checked by every consumer of the vectors, setup.cc:27) holds exactly
    after the dofs, then both sets of constraints and the vectors have been set up. *)
Theorem C40_initialized_iff_set_up_in_order : forall dim du ds dec single n0 m0 os,
  is_initialized (run (construct dim du ds dec single n0 m0) os) = true <->
  vectors_ready os /\ affine_ready os /\ newton_ready os.
Proof.
  intros. destruct (flags_ready dim du ds dec single n0 m0 os) as (_ & _ & I3 & I4 & I5).
  unfold is_initialized. rewrite !Bool.andb_true_iff, I3, I4, I5. tauto.
Qed.

(** The vectors do not exist before the dofs are set up. *)
Lemma vectors_exist dim du ds dec single n0 m0 os :
  (forall o, In o os -> forall v, o <> AssignSolution v) ->
  let s := run (construct dim du ds dec single n0 m0) os in
  solution s <> None <-> flag_vectors s = true.
Proof.
  induction os as [|o os IH] using rev_ind; intros Hno.
  - simpl; split; [intros H; exfalso; apply H; reflexivity|discriminate].
  - cbv zeta in *. rewrite run_app. simpl.
    specialize (IH ltac:(intros x Hx; apply Hno; apply in_or_app; auto)).
    set (s := run _ os) in *.
    assert (Ho : forall v, o <> AssignSolution v) by (apply Hno; apply in_or_app; simpl; auto).
    destruct o; simpl; unfold setup_dofs, set_affine_constraints, set_newton_method_constraints,
             setup_vectors, prepare_for_serialization;
    try (destruct (flag_extractors s) eqn:F1); try (destruct (flag_dofs s) eqn:F2);
      simpl; try exact IH; try (exfalso; eapply Ho; reflexivity);
      split; first [reflexivity|discriminate].
Qed.

Theorem C40_no_vectors_before_dofs_partial : forall dim du ds dec single n0 m0 os,
  (forall o, In o os -> forall v, o <> AssignSolution v) ->
  solution (run (construct dim du ds dec single n0 m0) os) <> None -> dofs_ready os.
Proof.
  intros dim du ds dec single n0 m0 os Hno H.
  apply (vectors_exist dim du ds dec single n0 m0 os Hno) in H.
  destruct (flags_ready dim du ds dec single n0 m0 os) as (_ & _ & I3 & _).
  apply I3 in H. destruct H as (l1 & l2 & -> & H). apply dofs_ready_app; exact H.
Qed.

(** But vectors can be set up, and read, without any constraints having been set. *)
Theorem C40_vectors_before_constraints_refuted :
  exists os, let s := run (construct 2 1 1 true true 0 0) os in
    ~ affine_ready os /\ ~ newton_ready os /\ flag_vectors s = true /\ solution s <> None.
Proof.
  exists [SetupExtractors 1 1; SetupDofs (mk_numbering 0 (fun _ => 0) [] no_constraints); SetupVectors].
  cbv zeta. split; [|split; [|split]].
  - intros (l1 & c & l2 & E & _).
    destruct l1 as [|? [|? [|? [|]]]]; simpl in E; discriminate.
  - intros (l1 & c & l2 & E & _).
    destruct l1 as [|? [|? [|? [|]]]]; simpl in E; discriminate.
  - reflexivity.
  - discriminate.
Qed.

(** Nor does a repeated call of setup_extractors throw: the stale entries stay in front and
    crystal 0 then reads its slip from a displacement component of crystal 1. *)
Theorem C40_repeated_set_up_corrupts_layout_refuted :
  exists s, step (run (construct 2 1 1 true true 0 0) [SetupExtractors 1 1; SetupExtractors 2 1])
    (SetupDofs (mk_numbering 0 (fun _ => 0) [] no_constraints)) = Ok s /\
    n_crystals s = 2 /\ slip_components s 0 = [2] /\ displacement_components s 1 = [0; 1] /\
    nth_error (component_mapping 2 true 2 1) 2 = Some 0.
Proof. eexists; split; [reflexivity|]. repeat split; reflexivity. Qed.

(** A copy (used for the trial microstress) shares the layout but must set up its own
    constraints and vectors; copying an object without dofs gives a fresh object. *)
Theorem C40_copies_start_without_vectors : forall s n0 m0,
  is_initialized (copy s n0 m0) = false /\ solution (copy s n0 m0) = None /\
  (flag_dofs s = false ->
     copy s n0 m0 = construct (f_dim s) (displacement_fe_degree s) (slips_fe_degree s)
                      (flag_allow_decohesion s) (flag_use_single_block s) n0 m0) /\
  (flag_dofs s = true ->
     (forall i, displacement_components (copy s n0 m0) i = displacement_components s i) /\
     (forall i, slip_components (copy s n0 m0) i = slip_components s i) /\
     affine_constraints (copy s n0 m0) = merge no_constraints (hanging_node_constraints s)).
Proof.
  intros s n0 m0. unfold copy. destruct (flag_dofs s); simpl; repeat split; intros; try discriminate; auto.
Qed.

(** ** C73. *)

Theorem C73_constraint_lines : forall dim du ds dec single n0 m0 os d,
  in_order os ->
  let s := run (construct dim du ds dec single n0 m0) os in
  affine_constraints s d = prescribed_line false (rev os) d /\
  newton_method_constraints s d = prescribed_line true (rev os) d /\
  hanging_node_constraints s d = hanging_line (rev os) d.
Proof.
  intros dim du ds dec single n0 m0 os d. induction os as [|o os IH] using rev_ind; intros H s.
  - repeat split.
  - assert (Hos : in_order os).
    { intros l1 o' l2 E. apply (H l1 o' (l2 ++ [o])). rewrite E, <- app_assoc. reflexivity. }
    specialize (IH Hos). cbv zeta in IH. unfold s. rewrite run_app.
    destruct (C40_calls_out_of_order_throw dim du ds dec single n0 m0 os o) as [K _].
    destruct (K (H os o [] eq_refl)) as [s' E]. clear K.
    cbn [run]. rewrite E. rewrite rev_unit. revert E IH.
    generalize (run (construct dim du ds dec single n0 m0) os). intros t E (A & B & C).
    destruct o; cbn [step] in E;
      unfold setup_dofs, set_affine_constraints, set_newton_method_constraints, setup_vectors,
        prepare_for_serialization in E;
      try (destruct (flag_extractors t); [|discriminate]); try (destruct (flag_dofs t); [|discriminate]);
      inversion E; subst; cbn [prescribed_line hanging_line affine_constraints newton_method_constraints
        hanging_node_constraints setup_extractors with_vectors assign_solution update_solution_vectors
        reset_all_affine_constraints]; unfold merge, no_constraints;
      rewrite ?A, ?B, ?C; repeat split; auto;
      try (destruct (hanging nm d); reflexivity); try (destruct (hanging_line (rev os) d); reflexivity).
Qed.
Print Assumptions C73_constraint_lines.

(** Hanging nodes not overridden stay constrained through every reset and re-definition. *)
Theorem C73_hanging_nodes_kept : forall dim du ds dec single n0 m0 l1 nm l2 d x,
  in_order (l1 ++ SetupDofs nm :: l2) -> hanging nm d = Some x ->
  (forall o, In o l2 -> match o with
     | SetupDofs _ => False | SetAffine c | SetNewton c => c d = None | _ => True end) ->
  let s := run (construct dim du ds dec single n0 m0) (l1 ++ SetupDofs nm :: l2) in
  affine_constraints s d = Some x /\ newton_method_constraints s d = Some x.
Proof.
  intros dim du ds dec single n0 m0 l1 nm l2 d x H Hx Hl s.
  destruct (C73_constraint_lines dim du ds dec single n0 m0 _ d H) as (A & B & _).
  fold s in A, B. rewrite A, B. clear A B s H.
  rewrite rev_app_distr. cbn [rev]. rewrite <- app_assoc. cbn [app].
  assert (G : forall l, (forall o, In o l -> match o with
     | SetupDofs _ => False | SetAffine c | SetNewton c => c d = None | _ => True end) ->
     hanging_line (l ++ SetupDofs nm :: rev l1) d = Some x /\
     prescribed_line false (l ++ SetupDofs nm :: rev l1) d = Some x /\
     prescribed_line true (l ++ SetupDofs nm :: rev l1) d = Some x).
  { induction l as [|o l IH]; intros Q; [cbn; auto|].
    destruct (IH (fun o' I => Q o' (or_intror I))) as (A & B & C).
    specialize (Q o (or_introl eq_refl)). destruct o; cbn [app hanging_line prescribed_line]; auto;
    try contradiction; rewrite Q; auto. }
  destruct (G (rev l2)) as (_ & P1 & P2); auto. intros o I. apply Hl. apply in_rev. exact I.
Qed.
Print Assumptions C73_hanging_nodes_kept.

Example C73_example : let h : constraints := fun d => if Nat.eqb d 3 then Some ([], 0%R) else None in
  let os := [SetupExtractors 1 1; SetupDofs (mk_numbering 4 (fun d => d) [0;1;2;3] h);
     SetAffine (fun d => if Nat.eqb d 0 then Some ([], 1%R) else None); ResetConstraints;
     SetAffine (fun d => if Nat.eqb d 1 then Some ([], 2%R) else None)] in
  in_order os /\ map (prescribed_line false (rev os)) [0;1;2;3] = [None; Some ([], 2%R); None; Some ([], 0%R)].
Proof.
  cbv zeta. split; [|reflexivity]. intros l1 o l2 E.
  assert (X : extractors_ready [SetupExtractors 1 1]) by (exists 1, 1; left; reflexivity).
  destruct l1 as [|a l1]; [inversion E; exact I|]. injection E as <- E.
  destruct l1 as [|a l1]; [inversion E; subst; exact X|]. injection E as <- E.
  assert (Y : forall l, dofs_ready (SetupExtractors 1 1 :: SetupDofs (mk_numbering 4 (fun d => d) [0;1;2;3]
     (fun d => if Nat.eqb d 3 then Some ([], 0%R) else None)) :: l)).
  { intros l. exists [SetupExtractors 1 1]. eexists. exists l. split; [reflexivity|exact X]. }
  destruct l1 as [|b l1]; [inversion E; subst; apply Y|]. injection E as <- E.
  destruct l1 as [|b l1]; [inversion E; subst; exact I|]. injection E as <- E.
  destruct l1 as [|b l1]; [inversion E; subst; apply Y|]. injection E as <- E.
  destruct l1; discriminate.
Qed.

Example C40_example :
  is_initialized (run (construct 2 1 1 false true 0 0)
    [SetupVectors; SetupExtractors 2 3; SetupDofs (mk_numbering 0 (fun _ => 0) [] no_constraints);
     SetAffine no_constraints; SetNewton no_constraints; SetupVectors; Commit]) = true /\
  is_initialized (run (construct 2 1 1 false true 0 0)
    [SetupVectors; SetupExtractors 2 3; SetupDofs (mk_numbering 0 (fun _ => 0) [] no_constraints);
     SetAffine no_constraints; SetNewton no_constraints]) = false.
Proof. split; reflexivity. Qed.

(** ** C41 *)
Lemma history_window s os : forall cur o oo acc,
  Forall not_setup_vectors os ->
  solution s = Some cur -> old_solution s = Some o -> old_old_solution s = Some oo ->
  nth 0 (acc ++ [zero_vec; zero_vec]) zero_vec = o ->
  nth 1 (acc ++ [zero_vec; zero_vec]) zero_vec = oo ->
  let h := committed cur os acc ++ [zero_vec; zero_vec] in
  old_solution (run s os) = Some (nth 0 h zero_vec) /\
  old_old_solution (run s os) = Some (nth 1 h zero_vec).
Proof.
  revert s; induction os as [|c os IH]; intros s cur o oo acc HF Hc Ho Hoo E0 E1; simpl.
  - rewrite Ho, Hoo, E0, E1. auto.
  - inversion HF as [|? ? Hn HF']; subst.
    destruct c; simpl in *; try contradiction;
      try (eapply IH; eauto; reflexivity);
      unfold setup_dofs, set_affine_constraints, set_newton_method_constraints,
             prepare_for_serialization;
      try (destruct (flag_extractors s)); try (destruct (flag_dofs s));
      try (eapply IH; eauto; reflexivity).
Qed.

(** After any sequence of calls following [setup_vectors] the two old vectors are the last
    two committed solutions (zero as long as fewer than two have been committed). *)
Theorem C41_history_is_a_two_step_window : forall s s' os,
  step s SetupVectors = Ok s' -> Forall not_setup_vectors os ->
  let h := committed zero_vec os [] ++ [zero_vec; zero_vec] in
  old_solution (run s' os) = Some (nth 0 h zero_vec) /\
  old_old_solution (run s' os) = Some (nth 1 h zero_vec).
Proof.
  intros s s' os E HF. simpl in E. unfold setup_vectors in E.
  destruct (flag_dofs s); [|discriminate]. injection E as <-.
  eapply history_window; simpl; eauto.
Qed.

Example C41_example : forall a b c : vec,
  committed zero_vec [AssignSolution a; Commit; AssignSolution b; AssignSolution c; Commit;
                      ResetConstraints; AssignSolution a] [] = [c; a].
Proof. reflexivity. Qed.

(** ** C42 *)
Section Norms.
Variables (p dim du ds nc ns N : nat) (decohesion single : bool)
  (comp : nat -> nat) (own : nat -> list nat) (fields : nat -> fe_field).
Hypothesis crystals : 0 < nc.
Hypothesis setting : distributed p dim du ds decohesion single nc ns N comp own fields.

Let nd := n_displacement_components dim decohesion nc.
Hypothesis components_valid : forall d, d < N -> comp d < nd + ns * nc.
(** deal.II's component_wise renumbering (matters only for two blocks). *)
Hypothesis renumbered : single = false -> forall h, displacement_first nd (mk_numbering N comp [] h).

Lemma field_at r : r < p -> exists n0 m0 h,
  fields r = match setup_dofs (setup_extractors (construct dim du ds decohesion single n0 m0) nc ns)
    (mk_numbering N comp (own r) h) with Ok s => s | _ => fields r end.
Proof.
  intros Hr. pose proof setting as HSet; destruct HSet as (_ & _ & H). destruct (H r Hr) as (n0 & m0 & h & E).
  exists n0, m0, h. rewrite E. reflexivity.
Qed.

Lemma rank_owned r : r < p -> owned_dofs (fields r) = own r.
Proof. intros Hr. destruct (field_at r Hr) as (n0 & m0 & h & ->). reflexivity. Qed.
Lemma rank_displacement r : r < p ->
  owned_displacement_dofs (fields r) = filter (fun d => Nat.ltb (comp d) nd) (own r).
Proof.
  intros Hr. destruct (field_at r Hr) as (n0 & m0 & h & ->).
  change (owned_displacement_dofs _) with
    (displacement_dofs (setup_extractors (construct dim du ds decohesion single n0 m0) nc ns)
       (mk_numbering N comp (own r) h)).
  rewrite displacement_dofs_are_displacement by exact crystals. reflexivity.
Qed.
Lemma rank_slip r : r < p ->
  owned_slip_dofs (fields r) = filter (fun d => negb (Nat.ltb (comp d) nd)) (own r).
Proof.
  intros Hr. destruct (field_at r Hr) as (n0 & m0 & h & ->).
  change (owned_slip_dofs _) with
    (slip_dofs (setup_extractors (construct dim du ds decohesion single n0 m0) nc ns)
       (mk_numbering N comp (own r) h)).
  rewrite slip_dofs_are_slip by exact crystals. simpl.
  apply filter_ext_in'. intros d _. rewrite <- Nat.leb_antisym. reflexivity.
Qed.

Lemma owned_bound r d : r < p -> In d (own r) -> d < N.
Proof.
  intros Hr Hd. pose proof setting as HSet; destruct HSet as (_ & HP & _).
  assert (In d (seq 0 N)).
  { eapply Permutation_in; [exact HP|]. apply in_flat_map. exists r; split; auto. apply in_seq; lia. }
  apply in_seq in H; lia.
Qed.

Lemma count_first m n : m <= n ->
  length (filter (fun d => Nat.ltb d m) (seq 0 n)) = m.
Proof.
  intros H. induction n as [|n IH].
  - assert (m = 0) by lia; subst; reflexivity.
  - rewrite seq_S, filter_app, app_length. simpl.
    destruct (Nat.eq_dec m (S n)) as [->|Hne].
    + rewrite (filter_ext_in' _ (fun _ => true)).
      2: { intros a Ha. apply in_seq in Ha. apply Nat.ltb_lt; lia. }
      assert (E : forall l : list nat, filter (fun _ => true) l = l)
        by (induction l; simpl; congruence).
      rewrite E, seq_length. assert (Nat.ltb n (S n) = true) as -> by (apply Nat.ltb_lt; lia).
      simpl; lia.
    + rewrite IH by lia. assert (Nat.ltb n m = false) as -> by (apply Nat.ltb_ge; lia).
      simpl; lia.
Qed.

Lemma block_split r d : r < p -> d < N ->
  single = false ->
  Nat.ltb d (nth 0 (dofs_per_block (fields r)) 0) = Nat.ltb (comp d) nd.
Proof.
  intros Hr Hd Hs. destruct (field_at r Hr) as (n0 & m0 & h & ->). simpl.
  rewrite Hs. destruct (renumbered Hs h) as (m & Hm & Hfirst). simpl in Hm, Hfirst.
  destruct (Nat.ltb_spec 0 ns) as [Hns|Hns].
  - simpl. unfold count_block; simpl.
    rewrite (filter_ext_in' _ (fun d => Nat.ltb d m)).
    + rewrite count_first by exact Hm.
      destruct (Nat.ltb_spec d m) as [H|H]; symmetry.
      * apply Nat.ltb_lt. apply Hfirst; auto.
      * apply Nat.ltb_ge. destruct (Nat.lt_ge_cases (comp d) nd) as [H'|H']; auto.
        apply Hfirst in H'; lia.
    + intros a Ha. apply in_seq in Ha. specialize (components_valid a ltac:(lia)).
      unfold block_components. fold nd.
      erewrite nth_error_nth
        by (apply (nth_error_map_seq (fun i => if Nat.leb nd i then 1 else 0)); lia).
      destruct (Nat.leb_spec nd (comp a)) as [H|H]; simpl.
      * symmetry. apply Nat.ltb_ge. destruct (Nat.lt_ge_cases a m) as [H'|H']; auto.
        apply Hfirst in H'; lia.
      * symmetry. apply Nat.ltb_lt. apply Hfirst; lia.
  - simpl. assert (ns = 0) by lia. subst ns. specialize (components_valid d Hd).
    transitivity true; [apply Nat.ltb_lt; lia|symmetry; apply Nat.ltb_lt; lia].
Qed.

Open Scope R_scope.
Lemma sub_squares v (f : nat -> bool) :
  mpi_sum p (fun r => rank_squares v (filter f (own r))) =
  sumn N (fun d => if f d then v d * v d else 0).
Proof.
  rewrite (mpi_flat v p (fun r => filter f (own r))).
  assert (E : flat_map (fun r => filter f (own r)) (seq 0 p) = filter f (flat_map own (seq 0 p))).
  { induction (seq 0 p) as [|a l IH]; simpl; auto. rewrite filter_app, IH. reflexivity. }
  rewrite E. pose proof setting as HSet; destruct HSet as (_ & HP & _).
  assert (HP' : Permutation (filter f (flat_map own (seq 0 p))) (filter f (seq 0 N))).
  { clear E. unfold partition in HP. induction HP; simpl; auto.
    - destruct (f x); auto.
    - destruct (f x), (f y); auto. apply perm_swap.
    - eapply perm_trans; eauto. }
  rewrite (rank_squares_perm v _ _ HP'). clear. induction N as [|n IH]; [reflexivity|].
  rewrite seq_S, filter_app, rank_squares_app, IH. simpl. f_equal.
  destruct (f n); [rewrite rank_squares_cons|]; unfold rank_squares; simpl; ring.
Qed.

Lemma mpi_ext q f g : (forall r, (r < q)%nat -> f r = g r) -> mpi_sum q f = mpi_sum q g.
Proof. apply sumn_ext. Qed.

Lemma sub_norms_at v factor :
  get_sub_l2_norms p fields v factor =
  (sqrt (displacement_squares nd N comp v) / factor, sqrt (slip_squares nd N comp v)).
Proof.
  assert (E0 : flag_use_single_block (fields 0%nat) = single).
  { pose proof setting as HSet; destruct HSet as (Hp & _). destruct (field_at 0%nat Hp) as (n0 & m0 & h & ->). reflexivity. }
  assert (D : mpi_sum p (fun r => rank_squares v (filter (fun d => Nat.ltb (comp d) nd) (own r)))
              = displacement_squares nd N comp v) by apply sub_squares.
  assert (S : mpi_sum p (fun r => rank_squares v (filter (fun d => negb (Nat.ltb (comp d) nd)) (own r)))
              = slip_squares nd N comp v).
  { rewrite sub_squares. apply sumn_ext. intros d _. destruct (Nat.ltb (comp d) nd); reflexivity. }
  unfold get_sub_l2_norms. rewrite E0.
  destruct (Bool.bool_dec single true) as [Hs|Hs];
    [|apply Bool.not_true_is_false in Hs]; rewrite Hs; simpl.
  - f_equal; [f_equal|]; f_equal.
    + rewrite <- D. apply mpi_ext. intros r Hr. rewrite rank_displacement by exact Hr. reflexivity.
    + rewrite <- S. apply mpi_ext. intros r Hr. rewrite rank_slip by exact Hr. reflexivity.
  - unfold l2_norm. f_equal; [f_equal|]; f_equal.
    + rewrite <- D. apply mpi_ext. intros r Hr. unfold block_owned. rewrite rank_owned by exact Hr.
      f_equal. apply filter_ext_in'. intros d Hd. apply block_split; auto.
      apply (owned_bound r); auto.
    + rewrite <- S. apply mpi_ext. intros r Hr. unfold block_owned. rewrite rank_owned by exact Hr.
      f_equal. apply filter_ext_in'. intros d Hd. rewrite Nat.leb_antisym. f_equal.
      apply block_split; auto. apply (owned_bound r); auto.
Qed.

Lemma squares_nonneg v :
  0 <= displacement_squares nd N comp v /\ 0 <= slip_squares nd N comp v /\
  displacement_squares nd N comp v + slip_squares nd N comp v = total_squares N v.
Proof.
  unfold displacement_squares, slip_squares, total_squares. repeat split.
  - apply sumn_nonneg. intros d _. destruct (Nat.ltb (comp d) nd); nra.
  - apply sumn_nonneg. intros d _. destruct (Nat.ltb (comp d) nd); nra.
  - rewrite <- sumn_plus. apply sumn_ext. intros d _. destruct (Nat.ltb (comp d) nd); ring.
Qed.

(** The two sub-norms are the norms of the displacement and of the slip part, whatever the
    distribution over the ranks and whether the vector has one block or two. *)
Theorem C42_sub_norms_are_the_norms_of_the_parts : forall v factor,
  0 < factor ->
  let n := get_sub_l2_norms p fields v factor in
  0 <= fst n /\ 0 <= snd n /\
  (factor * fst n) ^ 2 = displacement_squares nd N comp v /\
  (snd n) ^ 2 = slip_squares nd N comp v.
Proof.
  intros v factor Hf n. unfold n; rewrite sub_norms_at; simpl.
  destruct (squares_nonneg v) as (H1 & H2 & _).
  repeat split.
  - apply Rmult_le_pos; [apply sqrt_pos|]. left. apply Rinv_0_lt_compat; exact Hf.
  - apply sqrt_pos.
  - rewrite <- (sqrt_sqrt _ H1) at 3. field. lra.
  - rewrite <- (sqrt_sqrt _ H2) at 3. ring.
Qed.

(** With unit factor the squares add up to the squared norm of the whole vector. *)
Theorem C42_sub_norms_split_the_norm : forall v,
  let n := get_sub_l2_norms p fields v 1 in
  (fst n) ^ 2 + (snd n) ^ 2 = (get_l2_norm p fields v) ^ 2 /\
  (get_l2_norm p fields v) ^ 2 = total_squares N v.
Proof.
  intros v n.
  destruct (C42_sub_norms_are_the_norms_of_the_parts v 1 ltac:(lra)) as (_ & _ & H1 & H2).
  fold n in H1, H2. rewrite Rmult_1_l in H1.
  destruct (squares_nonneg v) as (_ & _ & H3).
  assert (E : (get_l2_norm p fields v) ^ 2 = total_squares N v).
  { unfold get_l2_norm, l2_norm.
    assert (E' : mpi_sum p (fun r => rank_squares v (owned_dofs (fields r))) = total_squares N v).
    { transitivity (mpi_sum p (fun r => rank_squares v (filter (fun _ => true) (own r)))).
      - apply mpi_ext. intros r Hr. rewrite rank_owned by exact Hr. f_equal.
        induction (own r); simpl; congruence.
      - rewrite sub_squares. reflexivity. }
    rewrite E'. simpl. rewrite Rmult_1_r. apply sqrt_sqrt.
    rewrite <- H3. destruct (squares_nonneg v) as (A & B & _). lra. }
  rewrite H1, H2, H3, E. auto.
Qed.

(** Hence the consistency check of debug builds never fires with unit factor. *)
Theorem C42_debug_check_accepts_unit_factor : forall v eps,
  0 < eps -> debug_norm_check p fields v 1 eps = true.
Proof.
  intros v eps He. unfold debug_norm_check.
  destruct (C42_sub_norms_split_the_norm v) as (H & _).
  set (n := get_sub_l2_norms p fields v 1) in *.
  apply Rltb_true.
  replace (fst n * fst n + snd n * snd n) with ((get_l2_norm p fields v) ^ 2) by (rewrite <- H; ring).
  rewrite sqrt_pow2 by (unfold get_l2_norm, l2_norm; apply sqrt_pos).
  rewrite Rminus_diag_eq, Rabs_R0 by reflexivity. lra.
Qed.
End Norms.

(** Two ranks, interleaved ownership, one displacement and one slip dof per rank. *)
Example C42_example : exists fields,
  distributed 2 1 1 1 false false 1 1 4 (fun d => if Nat.ltb d 2 then 0%nat else 1%nat)
    (fun r => match r with 0%nat => [2%nat; 0%nat] | _ => [1%nat; 3%nat] end) fields /\
  (forall d, (d < 4)%nat ->
     ((if Nat.ltb d 2 then 0 else 1) < n_displacement_components 1 false 1 + 1 * 1)%nat) /\
  (forall h, displacement_first (n_displacement_components 1 false 1)
     (mk_numbering 4 (fun d => if Nat.ltb d 2 then 0%nat else 1%nat) [] h)).
Proof.
  exists (fun r => match setup_dofs (setup_extractors (construct 1 1 1 false false 0 0) 1 1)
    (mk_numbering 4 (fun d => if Nat.ltb d 2 then 0%nat else 1%nat)
       (match r with 0%nat => [2%nat; 0%nat] | _ => [1%nat; 3%nat] end) no_constraints)
    with Ok s => s | _ => construct 1 1 1 false false 0 0 end).
  split; [|split].
  2: { intros d _. unfold n_displacement_components; simpl Nat.mul. destruct (Nat.ltb d 2); lia. }
  2: { intros h. exists 2%nat. cbn [total_dofs component_of]. split; [lia|]. intros d _.
       unfold n_displacement_components. destruct (Nat.ltb_spec d 2); split; intros; simpl in *; lia. }
  split; [lia|]. split.
  - unfold partition; simpl. change [2; 0; 1; 3]%nat with ([2] ++ [0; 1; 3])%nat.
    change [0; 1; 2; 3]%nat with ([0; 1] ++ 2 :: [3])%nat. simpl.
    apply (Permutation_middle [0; 1]%nat [3]%nat 2%nat).
  - intros r Hr. exists 0%nat, 0%nat, no_constraints. reflexivity.
Qed.
