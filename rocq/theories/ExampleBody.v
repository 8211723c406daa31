(** * A concrete body for C92: two grains pulled apart.
    One-dimensional, one dof per grain, grain 0 held, grain 1 loaded with the traction the
    damaged interface carries at opening 1; the step finds that opening. *)
From Verif Require Import Num SumLemmas Tensors TensorLemmas ModelUtilities ModelElastic ModelMicro SpecMicro ProofMicro ModelCohesive
  SpecCohesive ProofCohesive ModelHistory SpecHistory ModelInterface ModelFEField ModelLineSearch ModelActiveSet SpecActiveSet PropActiveSet
  ModelLinear SpecLinear PropLinear ModelAssembly SpecAssembly ModelSolver ModelSweep SpecSweep
  PropSweep ModelStep SpecStep ProofStep PropStep ModelBody SpecBody PropBody.
Open Scope R_scope.

Definition pull_element : element :=
  mk_element 1 1 (fun _ => 0%nat) (fun _ => 1) (fun _ _ r => kron r 0) (fun _ _ _ _ => 0) (fun _ _ _ => 0) (fun _ _ _ _ => 0).
Definition pull_crystal : crystal :=
  mk_crystal 1 0 (fun _ => 1) (fun _ _ _ _ => 0) (fun _ _ _ => 0) (mk_scalar_law Tanh 1 0 0 1 true false) 1 2
    (fun _ _ => 0) (fun _ _ => 0) (fun _ _ => 0) (fun _ _ => 0) 1.
Definition pull_normal (c : nat) : vec := fun r => if Nat.eqb c 0 then kron r 0 else - kron r 0.
Definition pull_face (c : nat) : gb_face :=
  mk_gb_face 1 1 (fun _ => 0%nat) (fun _ => 0%nat) (fun _ => 1) (fun _ => pull_normal c)
    (fun _ _ r => kron r 0) (fun _ _ r => kron r 0) (fun _ _ _ => 0) (fun _ _ _ => 0).
Definition pull_iprm : iprm := mk_iprm 1 0 0 0 1 0 false.
Definition pull_interface : interface :=
  mk_interface 1 0 (fun _ => 1) true false (mk_cohesive 1 1 0 1 1) (mk_contact 1 1 1) 1 true false 0 0
    (fun _ => (fun _ _ => 0, fun _ _ => 0)) 1.
(** What the interface carries at opening 1: traction 1 times remaining fraction 2/e. *)
Definition pull_load : R := 2 * exp (-1).
Definition pull_body : body :=
  mk_body (mk_sweep_mesh (fun c => c) (fun c => match c with 0%nat => [None; Some 1%nat] | 1%nat => [Some 0%nat] | _ => [] end))
    [0; 1]%nat 2 (fun c => [c]) (fun _ => false) (fun _ => pull_element) (fun _ => pull_crystal)
    (fun c _ => pull_face c) (fun _ _ => pull_interface)
    (fun c => match c with 1%nat => [mk_neumann_face 1 (fun _ => 1) (fun _ _ r => kron r 0) (fun _ r => pull_load * kron r 0)] | _ => [] end)
    1 1 1 0 true false (mk_hardening 1 0 0 true) 1 pull_iprm (mk_cohesive 1 1 0 1 1) 1 OrtizEtAl (fun _ _ _ _ => 0).

Definition held : constraints := fun d => match d with 0%nat => Some ([], 0) | _ => None end.
Definition pull_problem : problem :=
  mk_problem 0 false (mk_hardening 1 0 0 true) 1 [0; 1]%nat [] held held no_constraints (fun _ => 0) (fun _ => 0).
Definition pull_env : env rank_data :=
  mk_env pull_problem
    (fun _ => Macro) (body_store pull_body) (body_update pull_body) (body_finish pull_body)
    (fun _ _ _ g => g) (body_norms pull_body) (fun _ _ => 0)
    (fun _ => Ok (on2 0 1)) (fun _ => Ok (fun _ => 0)) (fun _ => Ok (fun _ => 0)) (fun _ => Ok (fun _ => 0))
    (fun _ => []) (fun _ => []) (fun _ => []).
Definition pull_histories : rank_data :=
  sweep_all pull_body Initialise (mk_rank_data (fun _ _ => ModelHistory.construct (mk_hardening 1 0 0 true) 1) (fun _ _ => i_construct)).
Definition pull_start : sstate rank_data :=
  mk_sstate [] [] no_constraints (fun _ => 0) (fun _ => 0) (fun _ => 0) (fun _ => 0) (fun _ => 0)
    pull_histories (fun _ => 0) (fun _ => 0) (Fin 0, Fin 0).
Definition pull_timing : timing := mk_timing 1 1 1 1 true.

Lemma pull_nodup : NoDup (b_cells pull_body).
Proof. repeat constructor; cbn; intuition congruence. Qed.
Lemma pull_initialised : initialised pull_body pull_histories.
Proof. apply C92_initialised_after_setup; [exact pull_nodup|reflexivity]. Qed.
Lemma pull_gb c n : In n (gb_neighbours pull_body c) -> (c = 0 /\ n = 1)%nat \/ (c = 1 /\ n = 0)%nat.
Proof. destruct c as [|[|c]]; cbn; intuition congruence. Qed.
Lemma pull_consistent : consistent pull_body.
Proof.
  split; [exact pull_nodup|]. split; [cbn; lra|]. split.
  - intros c Hc. split; [reflexivity|]. split; [reflexivity|].
    split. { intros [|i] Hi; [|cbn in Hi; lia]. cbn in Hc |- *. intuition lia. }
    split; [|split; cbn; lra].
    intros j q _ _. cbn. split; [lia|]. split; intros; [lia|lia].
  - intros c n _ Hn. apply pull_gb in Hn.
    assert (Z : In n (b_cells pull_body)) by (cbn; intuition lia).
    split; [exact Z|]. repeat (split; [reflexivity|]). split; [cbn; lra|].
    intros j q _ _. cbn. split; [lia|]. split; [reflexivity|]. split; intros; lia.
Qed.

(** Openings of the interface in one dimension. *)
Lemma pull_opening e x c n : (c = 0 /\ n = 1)%nat \/ (c = 1 /\ n = 0)%nat ->
  x 0%nat = 0 -> x 1%nat = 1 ->
  effective_opening 1 0 (vsub (face_displacement 1 (fun _ _ r => kron r 0) (local_values pull_body x n) e)
                              (face_displacement 1 (fun _ _ r => kron r 0) (local_values pull_body x c) e)) (pull_normal c) = 1.
Proof.
  intros H X0 X1. unfold effective_opening, dot, norm, face_displacement, vsub, local_values, pull_normal.
  destruct H as [[-> ->]|[-> ->]]; cbn [sumn b_dofs pull_body nth Nat.eqb]; rewrite X0, X1;
    unfold kron; cbn [Nat.eqb]; unfold macaulay_brackets.
  - rewrite (proj2 (Rltb_true 0 _)) by lra. match goal with |- sqrt ?x = 1 => replace x with 1 by ring end. apply sqrt_1.
  - rewrite (proj2 (Rltb_true 0 _)) by lra. match goal with |- sqrt ?x = 1 => replace x with 1 by ring end. apply sqrt_1.
Qed.
Definition broken_in : ihist := mk_ihist (Some pull_iprm) (Fin (1 - 2 * exp (-1))) 1 0 (Fin 0) 0.
Lemma pull_updated x : x 0%nat = 0 -> x 1%nat = 1 ->
  r_face (body_update pull_body (fun _ => 0) x (body_store pull_body pull_histories)) (0, 1)%nat 0 = broken_in.
Proof.
  intros X0 X1.
  assert (V : visits (sweep_of pull_body) (b_cells pull_body) (0, 1)%nat = [(0, 1); (1, 0)]%nat) by reflexivity.
  assert (A : r_face pull_histories (0, 1)%nat 0 = mk_ihist (Some pull_iprm) (Fin 0) 0 0 (Fin 0) 0).
  { unfold pull_histories. set (r := mk_rank_data _ _). unfold sweep_all.
    destruct (run_sweeps _ _ _ r) as [s| |] eqn:E.
    - rewrite run_one in E. pose proof (exec_all_face (0, 1)%nat 0 _ _ _ E) as B. cbn [flat_map] in B. rewrite app_nil_r, face_sweep, V in B.
      cbn in B. injection B as <-. reflexivity.
    - exfalso. revert E. cbn. discriminate.
    - exfalso. revert E. cbn. discriminate. }
  assert (B : r_face (body_store pull_body pull_histories) (0, 1)%nat 0 = mk_ihist (Some pull_iprm) (Fin 0) 0 0 (Fin 0) 0).
  { unfold body_store, sweep_all. destruct (run_sweeps _ _ _ pull_histories) as [s| |] eqn:E; [|exact A|exact A].
    rewrite run_one in E. pose proof (exec_all_face (0, 1)%nat 0 _ _ _ E) as B. cbn [flat_map] in B. rewrite app_nil_r, face_sweep, V in B.
    rewrite A in B. cbn in B. injection B as <-. reflexivity. }
  unfold body_update, sweep_all.
  destruct (update_completes pull_body (fun _ => 0) x (body_store pull_body pull_histories) pull_nodup (or_introl eq_refl)
    (initialised_store _ _ pull_nodup pull_initialised)) as (s & E). rewrite E. rewrite run_one in E.
  pose proof (exec_all_face (0, 1)%nat 0 _ _ _ E) as C. rewrite refresh_face_ops, V, B in C by (left; reflexivity).
  change (Nat.ltb 0 (b_nfq pull_body)) with true in C. cbv iota in C.
  assert (O : forall v, v = (0, 1)%nat \/ v = (1, 0)%nat -> opening_from (sweep_of pull_body) (fields_of pull_body (fun _ => 0) x) (fst v) (snd v) 0 = 1).
  { intros v Hv. unfold opening_from. cbn [sweep_of w_dim w_cohesive w_normal fields_of f_displacement].
    change (effective_opening 1 0 (vsub (face_displacement 1 (fun _ _ r => kron r 0) (local_values pull_body x (snd v)) 0)
                              (face_displacement 1 (fun _ _ r => kron r 0) (local_values pull_body x (fst v)) 0)) (pull_normal (fst v)) = 1).
    apply pull_opening; [|exact X0|exact X1]. destruct Hv as [->| ->]; cbn; auto. }
  cbn [map frun face_step] in C. rewrite !O in C by auto.
  cbn [istep i_prm rbind i_tmp1 i_tmp0 i_old i_zero_damage pull_iprm] in C.
  rewrite (proj2 (Rltb_true 0 1)) in C by lra. injection C as <-. unfold broken_in, exponential_damage. cbn [i_crit_opening].
  f_equal. f_equal. replace (1 / 1) with 1 by field. ring_simplify. reflexivity.
Qed.

Definition sgn_of (c : nat) : R := if Nat.eqb c 0 then 1 else -1.
Lemma pull_face_entry x h c n : (c = 0 /\ n = 1)%nat \/ (c = 1 /\ n = 0)%nat ->
  x 0%nat = 0 -> x 1%nat = 1 -> r_face h (0, 1)%nat 0 = broken_in ->
  residual_face pull_interface (pull_face c) (face_history_of h c n) (local_values pull_body x c) (local_values pull_body x n) 0
  = Fin (sgn_of c * pull_load).
Proof.
  intros H X0 X1 HB.
  assert (K : make_key c n = (0, 1)%nat) by (destruct H as [[-> ->]|[-> ->]]; reflexivity).
  unfold residual_face. cbn [fa_nq pull_face]. unfold xsumn. cbn [fa_comp pull_face if_dim pull_interface Nat.ltb Nat.leb if_decohesion].
  unfold face_history_of, damage_at, deg_macro, damage_at. cbn [fh_max fh_old fh_damage if_decohesion pull_interface if_couple_macro if_exponent].
  rewrite K, HB. cbn [broken_in i_damage i_max i_old].
  assert (G : degradation 1 (1 - 2 * exp (-1)) true = Fin (2 * exp (-1))).
  { unfold degradation, cpow. pose proof (exp_pos (-1)). replace (1 - (1 - 2 * exp (-1))) with (2 * exp (-1)) by ring.
    rewrite (proj2 (Rltb_true _ _)) by lra. rewrite Rpower_1 by lra. reflexivity. }
  rewrite G.
  set (delta := opening_at (pull_face c) (local_values pull_body x c) (local_values pull_body x n) 0).
  assert (E : effective_opening 1 0 delta (pull_normal c) = 1) by (apply (pull_opening 0 x c n H X0 X1)).
  assert (D : delta 0%nat = sgn_of c).
  { unfold delta, opening_at, vsub, face_displacement, local_values. destruct H as [[-> ->]|[-> ->]];
      cbn [pull_face fa_nd fa_phi fa_nphi sumn b_dofs pull_body nth]; rewrite X0, X1; unfold kron, sgn_of; cbn; ring. }
  assert (DN : dot 1 (pull_normal c) delta = 1 /\ dot 1 delta (pull_normal c) = 1).
  { unfold dot. cbn [sumn]. rewrite D. unfold pull_normal, kron, sgn_of. destruct H as [[-> _]|[-> _]]; cbn; split; ring. }
  destruct DN as [DN1 DN2].
  assert (DI : effective_direction 1 0 delta (pull_normal c) 0%nat = sgn_of c).
  { unfold effective_direction. cbv zeta. rewrite E, DN1. rewrite (proj2 (Reqb_false 1 0)) by lra.
    unfold macaulay_brackets. rewrite (proj2 (Rltb_true 0 1)) by lra.
    unfold vadd, vscal, pull_normal, sgn_of, kron. destruct H as [[-> _]|[-> _]]; cbn [Nat.eqb]; field. }
  assert (T : cohesive_traction 1 (if_cohesive pull_interface) delta (pull_normal c) 1 0 1 0%nat = Fin (sgn_of c)).
  { unfold cohesive_traction. cbn [if_cohesive pull_interface ratio char_stress]. rewrite E, DI.
    unfold branch_of, rate. rewrite (proj2 (Reqb_true 1 1)) by reflexivity.
    rewrite xdiv_fin by lra. cbn [xltb]. rewrite (proj2 (Rltb_false _ 0)) by lra. cbn [negb andb].
    unfold traction_factor, effective_traction. cbn [crit_traction crit_opening char_disp].
    replace (1 - 1 * 1 / 1) with 0 by field. rewrite exp_0. cbn [xmul]. rewrite xdiv_fin by lra. f_equal. field. }
  assert (CT : contact_traction 1 (if_contact pull_interface) delta (pull_normal c) 0%nat = 0).
  { unfold contact_traction. rewrite DN2. unfold macaulay_brackets. rewrite (proj2 (Rltb_false 0 _)) by lra. ring. }
  unfold xdot, xsumn. change (if_dt pull_interface) with 1. change (fa_n (pull_face c) 0) with (pull_normal c).
  cbn [fold_left seq]. rewrite T, CT.
  cbn [xmul xadd fa_phi pull_face fa_w if_factor if_N pull_interface]. unfold if_factor. cbn [if_N pull_interface].
  unfold pull_load, kron. cbn [Nat.eqb]. cbn. f_equal. field.
Qed.

Lemma pull_entry x old h c : (c = 0 \/ c = 1)%nat -> x 0%nat = 0 -> x 1%nat = 1 -> r_face h (0, 1)%nat 0 = broken_in ->
  cell_entry pull_body old x h c 0 = Fin (if Nat.eqb c 0 then pull_load else 0).
Proof.
  intros Hc X0 X1 HB.
  assert (BK : forall U, residual_bulk pull_crystal pull_element U (local_values pull_body old c) (resistances_of h c) 0 = Fin 0).
  { intros U. unfold residual_bulk. cbn [el_nq pull_element xsumn el_comp cr_dim pull_crystal Nat.ltb Nat.leb].
    cbn [xneg xadd]. f_equal. unfold ddot, dot, balance_factor. cbn [sumn cr_dim pull_crystal cr_N el_w pull_element el_eps el_phi cr_supply]. field. }
  destruct Hc as [->| ->].
  - unfold cell_entry. change (gb_neighbours pull_body 0) with [1%nat].
    assert (RD : forallb (readable pull_body h 0) [1%nat] = true).
    { cbn [forallb]. unfold readable. cbn [b_decohesion pull_body negb orb]. change (seq 0 (fa_nq (b_face pull_body 0 1))) with [0%nat].
      cbn [forallb]. change (make_key 0 1) with (0, 1)%nat. rewrite HB. reflexivity. }
    rewrite RD. unfold residual_cell. cbn [map fold_left b_loads pull_body].
    change (b_interface pull_body 0 1) with pull_interface. change (b_face pull_body 0 1) with (pull_face 0).
    rewrite (pull_face_entry x h 0 1) by auto. change (b_crystal pull_body 0) with pull_crystal. change (b_element pull_body 0) with pull_element.
    rewrite BK. cbn [xadd Nat.eqb]. f_equal. unfold sgn_of. cbn. ring.
  - unfold cell_entry. change (gb_neighbours pull_body 1) with [0%nat].
    assert (RD : forallb (readable pull_body h 1) [0%nat] = true).
    { cbn [forallb]. unfold readable. cbn [b_decohesion pull_body negb orb]. change (seq 0 (fa_nq (b_face pull_body 1 0))) with [0%nat].
      cbn [forallb]. change (make_key 1 0) with (0, 1)%nat. rewrite HB. reflexivity. }
    rewrite RD. unfold residual_cell. cbn [map fold_left b_loads pull_body].
    change (b_interface pull_body 1 0) with pull_interface. change (b_face pull_body 1 0) with (pull_face 1).
    rewrite (pull_face_entry x h 1 0) by auto. change (b_crystal pull_body 1) with pull_crystal. change (b_element pull_body 1) with pull_element.
    rewrite BK. cbn [xadd Nat.eqb]. f_equal. unfold sgn_of, residual_neumann, dot. cbn. unfold kron; cbn. ring.
Qed.
Lemma pull_norms x old h k : x 0%nat = 0 -> x 1%nat = 1 -> r_face h (0, 1)%nat 0 = broken_in ->
  k 0%nat = Some ([], 0) -> k 1%nat = None -> body_norms pull_body old x h k = (Fin 0, Fin 0).
Proof.
  intros X0 X1 HB K0 K1.
  pose proof (pull_entry x old h 0 (or_introl eq_refl) X0 X1 HB) as E0.
  pose proof (pull_entry x old h 1 (or_intror eq_refl) X0 X1 HB) as E1. cbn [Nat.eqb] in E0, E1.
  assert (RES : forall d, body_residual pull_body old x h k d = 0).
  { intros d. unfold body_residual, assemble_residual. cbn [b_cells pull_body map flat_map body_system ls_cell ls_rhs body_cell mc_dofs b_dofs].
    unfold vector_writes, resolve. change (enumerate [0%nat]) with [(0, 0)]%nat. change (enumerate [1%nat]) with [(0, 1)]%nat.
    cbn [flat_map fst snd]. rewrite K0, K1. cbn [map app fst snd]. fold pull_body. rewrite E1. unfold vector_of. cbn [fold_right fst snd value_of]. destruct (Nat.eqb 1 d); ring. }
  unfold body_norms.
  assert (AF : all_finite pull_body old x h = true).
  { unfold all_finite. change (b_cells pull_body) with [0; 1]%nat. cbn [forallb].
    change (seq 0 (length (b_dofs pull_body 0))) with [0%nat]. change (seq 0 (length (b_dofs pull_body 1))) with [0%nat].
    cbn [forallb]. rewrite E0, E1. reflexivity. }
  rewrite AF. f_equal; f_equal; (apply sumn_zero || idtac); intros; rewrite ?RES; destruct (b_is_slip _ _); ring.
Qed.

Lemma held_closed : closed_below 2 held.
Proof.
  split.
  - intros d es b e w. destruct d; cbn; [|discriminate]. intros X; injection X as <- <-. intros [].
  - intros d es b e w. destruct d; cbn; [|discriminate]. intros X; injection X as <- <-. intros [].
Qed.

(** The step for arbitrary histories: one Newton update (0, 1) from 0. *)
Lemma pull_step (HT : Type) (store : HT -> HT) (update : vec -> vec -> HT -> HT) finish norms (h0 : HT) :
  forgets_iterates update ->
  (forall x k, x 0%nat = 0 -> x 1%nat = 1 -> k 0%nat = Some ([], 0) -> k 1%nat = None ->
     norms (fun _ => 0) x (update (fun _ => 0) x (store h0)) k = (Fin 0, Fin 0)) ->
  let e := mk_env pull_problem (fun _ => Macro) store update finish (fun _ _ _ g => g) norms (fun _ _ => 0)
    (fun _ => Ok (on2 0 1)) (fun _ => Ok (fun _ => 0)) (fun _ => Ok (fun _ => 0)) (fun _ => Ok (fun _ => 0))
    (fun _ => []) (fun _ => []) (fun _ => []) in
  let s := mk_sstate [] [] no_constraints (fun _ => 0) (fun _ => 0) (fun _ => 0) (fun _ => 0) (fun _ => 0)
    h0 (fun _ => 0) (fun _ => 0) (Fin 0, Fin 0) in
  exists r, solve_nonlinear_system e (two_parameters false false) Monolithic 10 pull_timing (fun _ => 0) s = Done r /\
    st_trial r 0%nat = 0 /\ st_trial r 1%nat = 1 /\ st_old r = (fun _ => 0) /\ (forall d, st_internal r d = held d).
Proof.
  intros HF HN e s.
  unfold solve_nonlinear_system, solve_nonlinear, monolithic_algorithm.
    set (b := begin_step _ _ _ _).
    assert (B1 : forall d, st_trial b d = 0) by (intros d; reflexivity).
    assert (B2 : st_old b = (fun _ => 0)) by reflexivity.
    assert (B3 : forall d, st_internal b d = held d) by (intros [|d]; reflexivity).
    assert (B4 : st_hist b = store h0) by reflexivity.
    clearbody b.
    set (f := fst (call_active_set (step_ops e) (two_parameters false false) true
                (op_update e (op_store b)))).
    set (n := set_block (layout e) Macro (st_newton f) (ModelActiveSet.distribute (st_internal f) (on2 0 1))).
    set (r := op_residual e (op_update e (op_apply e 1 Macro
                (set_newton (op_residual e (op_affine e f)) n)))).
    assert (M : mono_iteration (step_ops e) (two_parameters false false) true b = Ok (r, true)) by reflexivity.
    assert (N : n 0%nat = 0 /\ n 1%nat = 1).
    { unfold n, set_block; cbn. unfold ModelActiveSet.distribute. rewrite !B3. cbn. split; reflexivity. }
    destruct N as [N0 N1].
    assert (T : st_trial r 0%nat = 0 /\ st_trial r 1%nat = 1).
    { unfold r; cbn -[n]. unfold update_trial, set_block, ModelLineSearch.distribute; cbn -[n].
      unfold ModelActiveSet.distribute; cbn -[n]. rewrite ?B1, ?N0, ?N1. split; lra. }
    destruct T as [T0 T1].
    assert (O : st_old r = (fun _ => 0)) by exact B2.
    assert (H : st_hist r = update (fun _ => 0) (st_trial r) (store h0)).
    { transitivity (update (st_old b) (st_trial r) (update (st_old b) (st_trial b) (st_hist b))); [reflexivity|].
      rewrite B2, B4. apply HF. }
    assert (K : forall d, st_internal r d = held d) by (intros d; exact (B3 d)).
    assert (Q : st_norms r = (Fin 0, Fin 0)).
    { transitivity (norms (st_old r) (st_trial r) (st_hist r) (st_internal r)); [reflexivity|].
      rewrite O, H. apply HN; try assumption; rewrite K; reflexivity. }
    assert (Q' : xltb (norm_total (step_ops e) r) (Fin (1/2)) = true).
    { unfold norm_total, norm_macro, norm_micro. change (squares (step_ops e) r) with (st_norms r). rewrite Q.
      cbn [fst snd]. assert (X : Rltb 0 0 = false) by (apply Rltb_false; lra).
      unfold xsqrt. rewrite X, sqrt_0. cbn [xmul xadd].
      assert (Y : 0 * 0 + 0 * 0 = 0) by ring. rewrite Y, X, sqrt_0. cbn [xltb]. apply Rltb_true; lra. }
    clearbody r. cbn [mono_loop]. change (Nat.leb (0 + 1) (mono_n_max (two_parameters false false))) with true. cbv iota.
    rewrite M. change (mono_tol (two_parameters false false)) with (1/2). rewrite Q'.
    change (rate_independent (two_parameters false false)) with false. cbv iota.
    eexists. split; [reflexivity|]. cbn [fst st_trial st_old st_internal]. auto.
Qed.

Example C92_example : exists s' r,
  run (two_parameters false false) Monolithic 10 [(pull_env, pull_timing)] (fun _ => 0) pull_start = (Done (fun _ => 0, s'), [r]) /\
  consistent pull_body /\ exponential_damage_only pull_body /\ works_on pull_env pull_body /\ e_finish pull_env = body_finish pull_body /\
  initialised pull_body (st_hist pull_start) /\
  st_trial r 0%nat = 0 /\ st_trial r 1%nat = 1 /\
  closed_below 2 (st_internal r) /\ SpecLinear.admissible 2 (st_internal r) (on2 0 1) /\
  i_damage (r_face (st_hist r) (0, 1)%nat 0) = Fin (1 - 2 * exp (-1)).
Proof.
  destruct (pull_step rank_data (body_store pull_body) (body_update pull_body) (body_finish pull_body) (body_norms pull_body) pull_histories)
    as (r & E & T0 & T1 & O & K).
  { apply body_forgets; [exact pull_nodup|left; reflexivity]. }
  { intros x k X0 X1 K0 K1. apply pull_norms; try assumption. apply pull_updated; assumption. }
  fold pull_env pull_start in E. exists (snd (shift_solutions r)), r.
  assert (KH : st_internal r = held) by (apply FunctionalExtensionality.functional_extensionality; exact K).
  destruct (accepted_step (two_parameters false false) pull_env (body_forgets _ pull_nodup (or_introl eq_refl)) _ _ _ _ _ _ (or_introl eq_refl) E) as (_ & HH & _).
  split; [cbn [run]; rewrite E; cbn [shift_solutions snd]; rewrite O; reflexivity|].
  split; [exact pull_consistent|]. split; [left; reflexivity|]. split; [split; [|split]; reflexivity|]. split; [reflexivity|].
  split; [exact pull_initialised|]. split; [exact T0|]. split; [exact T1|].
  rewrite KH. split; [exact held_closed|]. split.
  - intros d es b Hd Hk. destruct d; cbn in Hk; [|discriminate]. injection Hk as <- <-. reflexivity.
  - rewrite HH. change (e_finish pull_env) with (body_finish pull_body). change (e_update pull_env) with (body_update pull_body).
    change (e_store pull_env) with (body_store pull_body). change (st_old pull_start) with (fun _ : nat => 0). change (st_hist pull_start) with pull_histories.
    pose proof (pull_updated (st_trial r) T0 T1) as U. set (h := body_update _ _ _ _) in *. clearbody h. clear - U.
    unfold body_finish, sweep_all. destruct (run_sweeps _ _ _ h) as [s| |] eqn:E; [|rewrite U; reflexivity|rewrite U; reflexivity].
    rewrite run_one in E. pose proof (exec_all_face (0, 1)%nat 0 _ _ _ E) as B. cbn [flat_map] in B. rewrite app_nil_r, face_sweep in B.
    change (visits (sweep_of pull_body) (b_cells pull_body) (0, 1)%nat) with [(0, 1); (1, 0)]%nat in B. rewrite U in B.
    change (Nat.ltb 0 (w_nfq (sweep_of pull_body))) with true in B.
    cbn [map frun face_call_of face_step istep rbind] in B. injection B as <-. reflexivity.
Qed.
