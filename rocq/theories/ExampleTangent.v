(** * A concrete body for C93: two elastic bars joined by a cohesive interface, half opened. *)
From Coq Require Import FunctionalExtensionality.
From Coquelicot Require Import Coquelicot.
From Verif Require Import Num SumLemmas Tensors TensorLemmas ModelUtilities ModelElastic ModelMicro SpecMicro ProofMicro ModelCohesive
  SpecCohesive ProofCohesive ModelHistory SpecHistory SpecInterface ModelInterface ModelFEField ModelLineSearch ModelActiveSet SpecActiveSet PropActiveSet
  ModelLinear SpecLinear PropLinear ModelAssembly SpecAssembly ModelSweep SpecSweep
  PropSweep ModelBody SpecBody PropBody PropStep ExampleBody ModelTangent SpecTangent ProofTangent PropTangent.
Open Scope R_scope.

Definition tug_element : element :=
  mk_element 1 1 (fun _ => 0%nat) (fun _ => 1) (fun _ _ r => kron r 0) (fun _ _ _ _ => 1) (fun _ _ _ => 0) (fun _ _ _ _ => 0).
Definition tug_crystal : crystal :=
  mk_crystal 1 0 (fun _ => 1) (fun _ _ _ _ => 1) (fun _ _ _ => 0) (mk_scalar_law Tanh 1 0 0 1 true false) 1 2
    (fun _ _ => 0) (fun _ _ => 0) (fun _ _ => 0) (fun _ _ => 0) 1.
Definition tug_interface : interface :=
  mk_interface 1 0 (fun _ => 1) true false (mk_cohesive 1 1 0 1 1) (mk_contact 1 1 1) 1 false false 0 0
    (fun _ => (fun _ _ => 0, fun _ _ => 0)) 1.
Definition tug_body : body :=
  mk_body (b_mesh pull_body)
    [0; 1]%nat 2 (fun c => [c]) (fun _ => false) (fun _ => tug_element) (fun _ => tug_crystal)
    (fun c _ => pull_face c) (fun _ _ => tug_interface)
    (fun c => match c with 1%nat => [mk_neumann_face 1 (fun _ => 1) (fun _ _ r => kron r 0) (fun _ r => kron r 0)] | _ => [] end)
    1 1 1 0 true false (mk_hardening 1 0 0 true) 1 pull_iprm (mk_cohesive 1 1 0 1 1) 1 OrtizEtAl (fun _ _ _ _ => 0).
Definition tug_histories : rank_data :=
  mk_rank_data (fun _ _ => mk_qph true 0 (mk_hardening 1 0 0 true) 1 [] []) (fun _ _ => mk_ihist (Some pull_iprm) (Fin 0) 0 0 (Fin 0) 0).
Definition half : vec := on2 0 (1 / 2).

Lemma tug_gb c n : In n (gb_neighbours tug_body c) -> (c = 0 /\ n = 1)%nat \/ (c = 1 /\ n = 0)%nat.
Proof. destruct c as [|[|c]]; cbn; intuition congruence. Qed.
Lemma tug_consistent : consistent tug_body.
Proof.
  split; [exact pull_nodup|]. split; [cbn; lra|]. split.
  - intros c Hc. split; [reflexivity|]. split; [reflexivity|].
    split. { intros [|i] Hi; [|cbn in Hi; lia]. cbn in Hc |- *. intuition lia. }
    split; [|split; cbn; lra].
    intros j q _ _. cbn. split; [lia|]. split; intros; [lia|lia].
  - intros c n _ Hn. apply tug_gb in Hn.
    assert (Z : In n (b_cells tug_body)) by (cbn; intuition lia).
    split; [exact Z|]. repeat (split; [reflexivity|]). split; [cbn; lra|].
    intros j q _ _. cbn. split; [lia|]. split; [reflexivity|]. split; intros; lia.
Qed.
Lemma tug_initialised : initialised tug_body tug_histories.
Proof. split; intros; [split|]; reflexivity. Qed.
Lemma tug_parameters : one_set_of_parameters tug_body tug_histories.
Proof.
  split; [|split].
  - intros c Hc. split; [reflexivity|cbn; lra].
  - intros c q Hc Hq. cbn. repeat split.
  - intros c n Hc Hn. cbn. unfold good_cohesive. cbn. repeat split; lra.
Qed.
Lemma tug_two_sided : two_sided tug_body.
Proof.
  intros c n _ Hn. apply tug_gb in Hn. split; [reflexivity|]. split; [reflexivity|]. intros q. split; [|split; reflexivity].
  apply functional_extensionality; intros r. destruct Hn as [[-> ->]|[-> ->]]; cbn; unfold vneg, pull_normal; cbn; ring.
Qed.
Lemma tug_delta c n : In n (gb_neighbours tug_body c) ->
  opening_at (pull_face c) (local_values tug_body half c) (local_values tug_body half n) 0 0%nat = sgn_of c * (1 / 2).
Proof.
  intros H. apply tug_gb in H. unfold opening_at, vsub, face_displacement, local_values, half, on2, sgn_of, kron.
  destruct H as [[-> ->]|[-> ->]]; cbn; ring.
Qed.
Lemma tug_dot c n : In n (gb_neighbours tug_body c) ->
  dot 1 (pull_normal c) (opening_at (pull_face c) (local_values tug_body half c) (local_values tug_body half n) 0) = 1 / 2.
Proof.
  intros H. unfold dot. cbn [sumn]. rewrite tug_delta by exact H. apply tug_gb in H. unfold pull_normal, kron, sgn_of.
  destruct H as [[-> ->]|[-> ->]]; cbn; ring.
Qed.
Lemma tug_opening c n : In n (gb_neighbours tug_body c) ->
  mixed_opening 0 1 (pull_normal c) (opening_at (pull_face c) (local_values tug_body half c) (local_values tug_body half n) 0) = 1 / 2.
Proof.
  intros H. unfold mixed_opening. rewrite tug_dot by exact H. rewrite Rmax_left by lra.
  match goal with |- sqrt ?u = _ => replace u with ((1 / 2) * (1 / 2)) by ring end. apply sqrt_square. lra.
Qed.
Lemma tug_bulk : differentiable_bulk tug_body (fun _ => 0) half.
Proof. intros c Hc. left. cbn. repeat split; lra. Qed.
Lemma tug_faces : differentiable_faces tug_body half tug_histories.
Proof.
  intros _ c n q Hc Hn Hq. assert (q = 0%nat) as -> by (cbn in Hq; lia). cbv zeta.
  change (b_dim tug_body) with 1%nat. change (b_face tug_body c n) with (pull_face c). change (fa_n (pull_face c) 0) with (pull_normal c).
  change (ratio (b_cohesive tug_body)) with 0. rewrite tug_dot, tug_opening by exact Hn.
  split; [|split; [lra|split; [lra|]]].
  - apply tug_gb in Hn. unfold unit_vec, dot, pull_normal, kron. destruct Hn as [[-> _]|[-> _]]; cbn; ring.
  - right. cbn. repeat split; try lra.
Qed.
Lemma tug_closed : closed_below (b_ndofs tug_body) held.
Proof. exact held_closed. Qed.
Lemma tug_dofs : dofs_of_cells tug_body held.
Proof.
  split.
  - intros c n d _ Hn Hd. assert (n = 0 \/ n = 1)%nat by (destruct c as [|[|c]]; cbn in Hn; intuition congruence). cbn in Hd |- *. intuition lia.
  - intros d Hd _. exists d. cbn in Hd |- *. intuition lia.
Qed.

(** The stiffness of the loaded bar: its own, and that of the interface at opening 1/2. *)
Lemma tug_stiffness : value_of (cell_matrix_entry tug_body (fun _ => 0) half (body_update tug_body (fun _ => 0) half tug_histories) 1 0 0)
  = 1 + exp (1 / 2) * (1 / 2).
Proof.
  set (h := body_update _ _ _ _). unfold cell_matrix_entry. change (gb_neighbours tug_body 1) with [0%nat]. cbn [fold_left].
  assert (G : In 0%nat (gb_neighbours tug_body 1)) by (left; reflexivity).
  assert (B : jacobian_bulk (b_crystal tug_body 1) (b_element tug_body 1) (local_values tug_body half 1) (local_values tug_body (fun _ => 0) 1) (resistances_of h 1) 0 0 = Fin 1).
  { unfold jacobian_bulk. cbn [el_nq b_element tug_body tug_element xsumn el_comp cr_dim b_crystal tug_crystal Nat.ltb Nat.leb]. cbn [xadd]. f_equal.
    unfold ddot, c4, balance_factor. cbn [sumn cr_dim tug_crystal cr_N cr_C el_w tug_element el_eps]. field. }
  rewrite B. change (b_interface tug_body 1 0) with tug_interface. change (b_face tug_body 1 0) with (pull_face 1).
  set (delta := opening_at (pull_face 1) (local_values tug_body half 1) (local_values tug_body half 0) 0).
  assert (E : effective_opening 1 0 delta (pull_normal 1) = 1 / 2).
  { rewrite eff_eq. apply (tug_opening 1 0 G). }
  assert (D : dot 1 (pull_normal 1) delta = 1 / 2) by (apply (tug_dot 1 0 G)).
  assert (D0 : delta 0%nat = sgn_of 1 * (1 / 2)) by (apply (tug_delta 1 0 G)).
  assert (H : r_face h (0, 1)%nat 0 = mk_ihist (Some pull_iprm) (Fin (exponential_damage (1 / 2) 1)) (1 / 2) 0 (Fin 0) 0).
  { unfold h. change (0, 1)%nat with (make_key 1 0). rewrite (updated_face tug_body (fun _ => 0) half tug_histories 1 0 0 pull_nodup (or_introl eq_refl)
      tug_initialised tug_two_sided eq_refl (or_intror (or_introl eq_refl)) G (le_n 1)). unfold opened.
    change (b_dim tug_body) with 1%nat. change (b_face tug_body 1 0) with (pull_face 1). change (fa_n (pull_face 1) 0) with (pull_normal 1).
    change (ratio (b_cohesive tug_body)) with 0. rewrite (tug_opening 1 0 G). cbn [r_face tug_histories i_tmp1 i_prm i_old i_tmp0 i_zero_damage b_iprm tug_body pull_iprm i_crit_opening].
    rewrite Rmax_right by lra. reflexivity. }
  assert (F : jacobian_face_local tug_interface (pull_face 1) (face_history_of h 1 0) (local_values tug_body half 1) (local_values tug_body half 0) 0 0
    = Fin (exp (1 / 2) * (1 / 2))).
  { unfold jacobian_face_local. change (fa_nq (pull_face 1)) with 1%nat. unfold xsumn. cbn [fa_comp pull_face if_dim tug_interface Nat.ltb Nat.leb if_decohesion].
    unfold traction_form. cbn [if_dim tug_interface]. fold delta. change (fa_n (pull_face 1) 0) with (pull_normal 1).
    unfold face_history_of. cbn [fh_max fh_old]. change (make_key 1 0) with (0, 1)%nat. rewrite H. cbn [i_max i_old].
    assert (K : cohesive_jacobian 1 (if_cohesive tug_interface) delta (pull_normal 1) (1 / 2) 0 1 0%nat 0%nat = Fin (exp (1 / 2) * (1 / 2))).
    { unfold cohesive_jacobian. cbn [if_cohesive tug_interface ratio char_stress]. rewrite E. unfold branch_of, rate.
      rewrite (proj2 (Reqb_true (1/2) (1/2))) by reflexivity. rewrite xdiv_fin by lra. cbn [xltb]. rewrite (proj2 (Rltb_false _ 0)) by lra. cbn [negb andb].
      cbn [crit_traction crit_opening char_disp]. rewrite xdiv_fin by lra. f_equal.
      unfold effective_identity, effective_direction. cbv zeta. rewrite E, D. rewrite (proj2 (Reqb_false (1/2) 0)) by lra.
      assert (NS : normal_switch (1 / 2) = 1).
      { unfold normal_switch, xmacaulay. rewrite Rabs_right by lra. rewrite xdiv_fin by lra. unfold xgtb. cbn [xltb].
        rewrite (proj2 (Rltb_true 0 _)) by lra. field. }
      assert (MB : macaulay_brackets (1 / 2) = 1 / 2) by (unfold macaulay_brackets; rewrite (proj2 (Rltb_true 0 _)) by lra; reflexivity).
      rewrite NS, MB.
      unfold madd, mscal, tangential_projector, msub, normal_projector, symmetrize, outer, vadd, vscal, pull_normal, kron, unit_mat. cbn [Nat.eqb].
      replace (1 - 1 * (1 / 2) / 1) with (1 / 2) by field. generalize (exp (1 / 2)). intros ex. field. }
    assert (CT : contact_jacobian 1 (if_contact tug_interface) delta (pull_normal 1) 0%nat 0%nat = 0).
    { unfold contact_jacobian. cbv zeta. unfold dot in *. cbn [sumn] in *. rewrite (Rmult_comm (delta 0%nat)), D.
      rewrite Rabs_right by lra. rewrite xdiv_fin by lra. unfold xmacaulay, xgtb. cbn [xltb].
      rewrite (proj2 (Rltb_false 0 _)) by lra. unfold mscal. ring. }
    unfold xdot, xsumn. change (if_dt tug_interface) with 1. cbn [fold_left seq]. rewrite K, CT.
    unfold deg_macro, degradation. cbn [if_couple_macro tug_interface fa_phi pull_face fa_w]. unfold if_factor. cbn [if_N tug_interface].
    unfold kron. cbn [Nat.eqb]. generalize (exp (1 / 2)). intros ex. cbn. f_equal. field. }
  rewrite F. reflexivity.
Qed.

Definition tug_pattern : list (nat * nat) := [(0, 0); (1, 1)]%nat.
Lemma tug_matrix m0 m1 c0 c1 v0 v1 : exists ws,
  assemble_jacobian tug_pattern held true
    [mk_local_system (body_cell tug_body 0) m0 c0 v0; mk_local_system (body_cell tug_body 1) m1 c1 v1] = Ok ws /\
  matrix_of ws 0 1 = 0 /\ matrix_of ws 1 0 = 0 /\ matrix_of ws 1 1 = m1 0%nat 0%nat.
Proof. eexists. split; [reflexivity|]. unfold matrix_of. cbn. repeat split; ring. Qed.

(** All hypotheses of C93 hold, with a force on the bar that the interface does not balance. *)
Example C93_example : exists ws y,
  let r := tug_histories in let h := body_update tug_body (fun _ => 0) half r in
  consistent tug_body /\ exponential_damage_only tug_body /\ initialised tug_body r /\ one_set_of_parameters tug_body r /\
  two_sided tug_body /\ differentiable_bulk tug_body (fun _ => 0) half /\ differentiable_faces tug_body half r /\
  closed_below (b_ndofs tug_body) held /\ homogeneous held /\ dofs_of_cells tug_body held /\
  body_jacobian tug_body (fun _ => 0) half h tug_pattern held = Ok ws /\
  solves (b_ndofs tug_body) (matrix_of ws) (body_residual tug_body (fun _ => 0) half h held) y /\
  matrix_of ws 1 1 = 1 + exp (1 / 2) * (1 / 2).
Proof.
  set (h := body_update tug_body (fun _ => 0) half tug_histories).
  destruct (tug_matrix (ls_matrix (newton_system tug_body (fun _ => 0) half h 0)) (ls_matrix (newton_system tug_body (fun _ => 0) half h 1))
    (ls_coupling (newton_system tug_body (fun _ => 0) half h 0)) (ls_coupling (newton_system tug_body (fun _ => 0) half h 1))
    (ls_rhs (newton_system tug_body (fun _ => 0) half h 0)) (ls_rhs (newton_system tug_body (fun _ => 0) half h 1))) as (ws & J & M01 & M10 & M11).
  set (f := body_residual tug_body (fun _ => 0) half h held).
  exists ws, (on2 0 (f 1%nat / (1 + exp (1 / 2) * (1 / 2)))). cbv zeta. fold h f.
  assert (K : matrix_of ws 1 1 = 1 + exp (1 / 2) * (1 / 2)) by (rewrite M11; apply tug_stiffness).
  split; [exact tug_consistent|]. split; [left; reflexivity|]. split; [exact tug_initialised|]. split; [exact tug_parameters|].
  split; [exact tug_two_sided|]. split; [exact tug_bulk|]. split; [exact tug_faces|]. split; [exact tug_closed|].
  split. { intros d es z. destruct d; cbn; [|discriminate]. intros X; injection X as _ <-. reflexivity. }
  split; [exact tug_dofs|]. split; [exact J|]. split; [|exact K].
  intros [|[|d]] Hd; [| |cbn in Hd; lia]; change (b_ndofs tug_body) with 2%nat; cbn [sumn]; unfold on2; cbn [Nat.eqb].
  - rewrite M01. replace (f 0%nat) with 0; [ring|]. symmetry.
    apply (constrained_entry_zero tug_body (fun _ => 0) held tug_consistent tug_closed half h 0 Hd). discriminate.
  - rewrite M10, K. pose proof (exp_pos (1 / 2)). field. lra.
Qed.
