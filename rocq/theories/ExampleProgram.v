(** * C97 on an elastic bar sheared in two steps: dof 0 on the lower, dof 2 on the upper
      boundary, dof 1 free between them. *)
From Coq Require Import ZArith Lia Lra FunctionalExtensionality.
From Verif Require Import Num SumLemmas Tensors TensorLemmas ModelUtilities ModelElastic ModelMicro ModelCohesive ModelHistory ModelInterface
  ModelFEField ModelLineSearch ModelActiveSet ModelLinear SpecLinear PropLinear ModelAssembly SpecAssembly ModelSolver ModelLoading SpecLoading PropLoading
  ModelShear SpecShear PropShear ModelSweep ModelStep SpecStep ProofStep PropStep ModelBody SpecBody PropBody ModelProgram SpecProgram PropProgram ExampleBody.
Open Scope R_scope.

Definition bar_loading : loading := mk_loading Monotonic 1 0 2 2 1 1 0 1 1 false.
Definition bar_strip : strip :=
  mk_strip 1 false 1 0 1 1 no_constraints
    [mk_boundary_dof 0 2 0 (fun _ => 0); mk_boundary_dof 2 3 0 (fun _ => 1)] false [] (fun _ => []).
(** The strain of the lower half is x1 - x0, of the upper half x2 - x1. *)
Definition bar_element : element :=
  mk_element 2 3 (fun _ => 0%nat) (fun _ => 1) (fun _ _ _ => 0)
    (fun i q r s => if Nat.eqb i (S q) then 1 else if Nat.eqb i q then -1 else 0) (fun _ _ _ => 0) (fun _ _ _ _ => 0).
Definition bar_crystal : crystal :=
  mk_crystal 1 0 (fun _ => 1) (fun _ _ _ _ => 1) (fun _ _ _ => 0) (mk_scalar_law Tanh 1 0 0 1 true false) 1 2
    (fun _ _ => 0) (fun _ _ => 0) (fun _ _ => 0) (fun _ _ => 0) 1.
Definition bar_body : body :=
  mk_body (mk_sweep_mesh (fun _ => 0%nat) (fun _ => []))
    [0]%nat 3 (fun _ => [0; 1; 2]%nat) (fun _ => false) (fun _ => bar_element) (fun _ => bar_crystal)
    (fun c _ => pull_face c) (fun _ _ => pull_interface) (fun _ => [])
    2 1 1 0 false false (mk_hardening 1 0 0 true) 1 pull_iprm (mk_cohesive 1 1 0 1 1) 1 OrtizEtAl (fun _ _ _ _ => 0).
(** The linear solver moves the free dof to the middle of its neighbours. *)
Definition bar_solve (s : sstate rank_data) : result vec :=
  Ok (fun d => match d with 1%nat => (st_trial s 0%nat + st_trial s 2%nat) / 2 - st_trial s 1%nat | _ => 0 end).
Definition bar_env : env rank_data :=
  mk_env pull_problem (fun _ => Macro) (body_store bar_body) (body_update bar_body) (body_finish bar_body)
    (fun _ _ _ g => g) (body_norms bar_body) (fun _ _ => 0)
    bar_solve (fun _ => Ok (fun _ => 0)) (fun _ => Ok (fun _ => 0)) (fun _ => Ok (fun _ => 0))
    (fun _ => []) (fun _ => []) (fun _ => []).
Definition bar_program : program rank_data :=
  mk_program bar_loading 2 bar_strip 1 1 0 1 (two_parameters false false) Monolithic (fun _ _ => bar_env).
Definition bar_histories : rank_data :=
  sweep_all bar_body Initialise (mk_rank_data (fun _ _ => ModelHistory.construct (mk_hardening 1 0 0 true) 1) (fun _ _ => i_construct)).
Definition bar_start : sstate rank_data :=
  mk_sstate [] [] no_constraints (fun _ => 0) (fun _ => 0) (fun _ => 0) (fun _ => 0) (fun _ => 0)
    bar_histories (fun _ => 0) (fun _ => 0) (Fin 0, Fin 0).

Lemma bar_newton d : newton_of bar_strip d = match d with 0%nat | 2%nat => Some ([], 0) | _ => None end.
Proof. destruct d as [|[|[|d]]]; reflexivity. Qed.
Lemma bar_consistent_strip : SpecShear.consistent bar_strip.
Proof.
  intros b b' [<-|[<-|[]]] [<-|[<-|[]]]; cbn; intros E; try discriminate; split; reflexivity.
Qed.
Lemma bar_homogeneous : homogeneous (s_hanging bar_strip).
Proof. intros d es b. discriminate. Qed.
Lemma bar_lines ts d : match affine_at bar_program ts d with None => d <> 0%nat /\ d <> 2%nat | Some (es, _) => es = [] /\ (d = 0 \/ d = 2)%nat end.
Proof.
  pose proof (C82_newton_constraints_are_the_homogeneous_version bar_strip (control_time bar_program 0) (map (control_time bar_program) ts) bar_homogeneous d) as V.
  unfold affine_at. change (pr_strip bar_program) with bar_strip. rewrite bar_newton in V. destruct (affine_after _ _ _ d) as [[es b]|]; destruct d as [|[|[|d]]]; try contradiction; try (destruct V as (<- & _); split; [reflexivity|auto]); split; discriminate.
Qed.
Lemma bar_well_formed : well_formed_program bar_program.
Proof.
  intros k dt ts. split; [|split].
  - intros d es b e w E. change (affine_at bar_program ts d = Some (es, b)) in E. pose proof (bar_lines ts d) as L. rewrite E in L. destruct L as (-> & _). intros [].
  - intros d es b e w E. change (affine_at bar_program ts d = Some (es, b)) in E. pose proof (bar_lines ts d) as L. rewrite E in L. destruct L as (-> & _). intros [].
  - intros _ d. reflexivity.
Qed.
Lemma bar_closed : closed_below 3 (newton_of bar_strip).
Proof.
  split; intros d es z e w E; rewrite bar_newton in E; destruct d as [|[|[|d]]]; try discriminate; injection E as <- <-; intros [].
Qed.
Lemma bar_values t ts : affine_at bar_program (t :: ts) 0%nat = Some ([], 0) /\ affine_at bar_program (t :: ts) 1%nat = None /\ affine_at bar_program (t :: ts) 2%nat = Some ([], t).
Proof.
  split; [|split].
  - destruct (C82_prescribed_values bar_strip (control_time bar_program 0) (control_time bar_program t) (map (control_time bar_program) ts) (mk_boundary_dof 0 2 0 (fun _ => 0))
      bar_consistent_strip (Nat.lt_0_succ _) (or_introl eq_refl) eq_refl) as (_ & P & _). apply P; [cbn; unfold is_displacement_component; cbn; lia|reflexivity|].
    intros b' [<-|[<-|[]]]; cbn; congruence.
  - pose proof (bar_lines (t :: ts) 1) as L. destruct (affine_at bar_program (t :: ts) 1%nat) as [[es z]|]; [|reflexivity]. destruct L as (_ & L). lia.
  - pose proof (C82_applied_shear bar_strip (control_time bar_program 0) (map (control_time bar_program) ts) (mk_boundary_dof 2 3 0 (fun _ => 1)) bar_loading 1 1 0 t
      bar_consistent_strip (Nat.lt_0_succ _) (or_intror (or_introl eq_refl)) eq_refl eq_refl (Nat.lt_0_succ _)) as P.
    cbv zeta in P. unfold affine_at. cbn [map]. unfold control_time at 2.
    etransitivity; [apply P; [unfold is_displacement_component; cbn; lia|reflexivity]|]. cbn. do 2 f_equal. field.
Qed.
Lemma bar_nodup : NoDup (b_cells bar_body).
Proof. repeat constructor; cbn; intuition congruence. Qed.
Lemma bar_initialised : initialised bar_body bar_histories.
Proof. apply C92_initialised_after_setup; [exact bar_nodup|reflexivity]. Qed.
Lemma bar_consistent : SpecBody.consistent bar_body.
Proof.
  split; [exact bar_nodup|]. split; [cbn; lra|]. split.
  - intros c Hc. split; [reflexivity|]. split; [reflexivity|].
    split. { intros [|[|[|i]]] Hi; cbn in *; lia. }
    split; [|split; cbn; lra].
    intros j q _ _. cbn. split; [lia|]. split; intros; [lia|lia].
  - intros c n _ Hn. destruct Hn.
Qed.
Lemma bar_entry old x h i : (i < 3)%nat -> cell_entry bar_body old x h 0 i =
  Fin (match i with 0%nat => x 1%nat - x 0%nat | 1%nat => (x 2%nat - x 1%nat) - (x 1%nat - x 0%nat) | _ => x 1%nat - x 2%nat end).
Proof.
  intros Hi. unfold cell_entry. change (gb_neighbours bar_body 0) with (@nil nat). cbn [forallb map].
  unfold residual_cell. change (b_loads bar_body 0) with (@nil neumann_face). change (b_crystal bar_body 0) with bar_crystal. change (b_element bar_body 0) with bar_element. cbn [fold_left].
  unfold residual_bulk. cbn [el_nq bar_element xsumn el_comp cr_dim bar_crystal Nat.ltb Nat.leb].
  unfold xsumn. cbn [seq fold_left xneg xadd].
  unfold ddot, dot, balance_factor, stress_at, c4, madd, elastic_strain, strain_at, slip_at, local_values.
  cbn [sumn cr_dim bar_crystal cr_N el_w bar_element el_eps el_phi cr_supply el_nd cr_macro cr_C cr_ns b_dofs bar_body nth].
  destruct i as [|[|[|i]]]; [..|lia]; cbn [Nat.eqb]; f_equal; field.
Qed.
Lemma bar_norms x old h k : x 1%nat - x 0%nat = x 2%nat - x 1%nat -> (forall d, k d = newton_of bar_strip d) -> body_norms bar_body old x h k = (Fin 0, Fin 0).
Proof.
  intros X K. pose proof (bar_entry old x h 0 ltac:(lia)) as E0. pose proof (bar_entry old x h 1 ltac:(lia)) as E1. pose proof (bar_entry old x h 2 ltac:(lia)) as E2.
  assert (RES : forall d, body_residual bar_body old x h k d = 0).
  { intros d. unfold body_residual, assemble_residual. cbn [b_cells bar_body map flat_map body_system ls_cell ls_rhs body_cell mc_dofs b_dofs].
    unfold vector_writes, resolve. change (enumerate [0; 1; 2]%nat) with [(0, 0); (1, 1); (2, 2)]%nat.
    cbn [flat_map fst snd]. rewrite !K, !bar_newton. cbn [map app fst snd]. fold bar_body. rewrite E1. unfold vector_of. cbn [fold_right fst snd value_of].
    destruct (Nat.eqb 1 d); lra. }
  unfold body_norms.
  assert (AF : all_finite bar_body old x h = true).
  { unfold all_finite. change (b_cells bar_body) with [0]%nat. cbn [forallb]. change (seq 0 (length (b_dofs bar_body 0))) with [0; 1; 2]%nat.
    cbn [forallb]. rewrite E0, E1, E2. reflexivity. }
  rewrite AF. f_equal; f_equal; apply sumn_zero; intros; rewrite ?RES; destruct (b_is_slip _ _); ring.
Qed.

(** One step from any state: the solution at time [t]. *)
Lemma midpoint_step (HT : Type) (e : env HT) (t : R) tm oo s :
  p_affine (e_problem e) 0%nat = Some ([], 0) -> p_affine (e_problem e) 1%nat = None -> p_affine (e_problem e) 2%nat = Some ([], t) ->
  p_newton (e_problem e) = newton_of bar_strip -> e_blocks e = (fun _ => Macro) ->
  (forall q, e_solve_mono e q = Ok (fun d => match d with 1%nat => (st_trial q 0%nat + st_trial q 2%nat) / 2 - st_trial q 1%nat | _ => 0 end)) ->
  (forall old x h k, x 1%nat - x 0%nat = x 2%nat - x 1%nat -> (forall d, k d = newton_of bar_strip d) -> e_norms e old x h k = (Fin 0, Fin 0)) ->
  exists r, solve_nonlinear_system e (two_parameters false false) Monolithic 10 tm oo s = Done r /\
  st_trial r 0%nat = 0 /\ st_trial r 1%nat = t / 2 /\ st_trial r 2%nat = t.
Proof.
  intros A0 A1 A2 NE BL SO NO.
  unfold solve_nonlinear_system, solve_nonlinear, monolithic_algorithm.
  set (b := begin_step _ _ _ _).
  assert (B3 : forall d, st_internal b d = newton_of bar_strip d).
  { intros d. unfold b, begin_step. destruct (extrapolate _ _ _ _ _ _ _ _ _). cbn [st_internal]. unfold merge, no_constraints. rewrite NE.
    destruct (newton_of bar_strip d); reflexivity. }
  clearbody b.
  set (f := fst (call_active_set (step_ops e) (two_parameters false false) true (op_update e (op_store b)))).
  set (g := op_residual e (op_affine e f)).
  assert (G0 : st_trial g 0%nat = 0) by (unfold g; cbn [op_residual op_affine set_norms set_trial st_trial]; unfold ModelActiveSet.distribute; rewrite A0; reflexivity).
  assert (G2 : st_trial g 2%nat = t) by (unfold g; cbn [op_residual op_affine set_norms set_trial st_trial]; unfold ModelActiveSet.distribute; rewrite A2; reflexivity).
  assert (GI : forall d, st_internal g d = newton_of bar_strip d) by exact B3.
  set (u := fun d : nat => match d with 1%nat => (st_trial g 0%nat + st_trial g 2%nat) / 2 - st_trial g 1%nat | _ => 0 end).
  set (n := set_block (layout e) Macro (st_newton g) (ModelActiveSet.distribute (st_internal g) u)).
  set (r := op_residual e (op_update e (op_apply e 1 Macro (set_newton g n)))).
  assert (M : mono_iteration (step_ops e) (two_parameters false false) true b = Ok (r, true)).
  { change (rbind (op_solve_mono e g) (fun q => rbind (Ok (op_residual e (op_update e (op_apply e 1 Macro q)))) (fun q => Ok (q, true))) = Ok (r, true)).
    unfold op_solve_mono. rewrite SO. reflexivity. }
  assert (BB : forall d, block_eqb (e_blocks e d) Macro = true) by (intros d; rewrite BL; reflexivity).
  assert (N1 : n 1%nat = t / 2 - st_trial g 1%nat).
  { unfold n, set_block. cbn [layout block_of]. rewrite BB. unfold ModelActiveSet.distribute. rewrite GI, bar_newton. unfold u. rewrite G0, G2. lra. }
  assert (T : st_trial r 0%nat = 0 /\ st_trial r 1%nat = t / 2 /\ st_trial r 2%nat = t).
  { unfold r. cbn [op_residual op_update op_apply set_norms set_trial st_trial]. unfold update_trial, set_block. cbn [layout block_of].
    unfold ModelLineSearch.distribute, layout. cbn [constraint block_of]. rewrite !BB, A0, A1, A2. unfold ModelLineSearch.combine. cbn [fold_right set_newton st_trial st_newton]. rewrite ?N1. repeat split; lra. }
  destruct T as (T0 & T1 & T2).
  assert (K : forall d, st_internal r d = newton_of bar_strip d) by exact B3.
  assert (Q : st_norms r = (Fin 0, Fin 0)).
  { transitivity (e_norms e (st_old r) (st_trial r) (st_hist r) (st_internal r)); [reflexivity|]. apply NO; [rewrite T0, T1, T2; lra|exact K]. }
  assert (Q' : xltb (norm_total (step_ops e) r) (Fin (1/2)) = true).
  { unfold norm_total, norm_macro, norm_micro. change (squares (step_ops e) r) with (st_norms r). rewrite Q.
    cbn [fst snd]. assert (X : Rltb 0 0 = false) by (apply Rltb_false; lra).
    unfold xsqrt. rewrite X, sqrt_0. cbn [xmul xadd].
    assert (Y : 0 * 0 + 0 * 0 = 0) by ring. rewrite Y, X, sqrt_0. cbn [xltb]. apply Rltb_true; lra. }
  clearbody r. cbn [mono_loop]. change (Nat.leb (0 + 1) (mono_n_max (two_parameters false false))) with true. cbv iota.
  rewrite M. change (mono_tol (two_parameters false false)) with (1/2). rewrite Q'.
  change (rate_independent (two_parameters false false)) with false. cbv iota.
  eexists. split; [reflexivity|]. cbn [fst st_trial]. auto.
Qed.
Lemma bar_step (t : R) ts k dt tm oo s : exists r,
  solve_nonlinear_system (step_env bar_program k dt (t :: ts)) (two_parameters false false) Monolithic 10 tm oo s = Done r /\
  st_trial r 0%nat = 0 /\ st_trial r 1%nat = t / 2 /\ st_trial r 2%nat = t.
Proof.
  destruct (bar_values t ts) as (A0 & A1 & A2). apply (midpoint_step rank_data (step_env bar_program k dt (t :: ts))).
  - exact A0.
  - exact A1.
  - exact A2.
  - reflexivity.
  - reflexivity.
  - intros q. reflexivity.
  - intros old x h l X K. apply bar_norms; assumption.
Qed.
Lemma bar_on_body : on_bodies bar_program (fun _ _ => bar_body) bar_body.
Proof. intros k dt. split; [exact bar_consistent|]. split; [left; reflexivity|]. split; [repeat split|]. split; [reflexivity|repeat split]. Qed.
Lemma bar_valid : valid_loading bar_loading.
Proof. unfold valid_loading. cbn. repeat split; try lra; lia. Qed.
(** The bar reaches shear 1 after the first and 2 after the second step; the hypotheses of the
    theorems hold. *)
Example C97_example : exists r1 r2,
  program_run bar_program exact 10 5 (fun _ => 0) bar_start =
    ([mk_accepted (mk_step 1 1 false) r1; mk_accepted (mk_step 2 2 true) r2], Completed) /\
  st_trial r1 1%nat = 1 / 2 /\ st_trial r1 2%nat = 1 /\ st_trial r2 1%nat = 1 /\ st_trial r2 2%nat = 2 /\
  valid_loading (pr_loading bar_program) /\ no_negligible_rest (pr_loading bar_program) /\ start_time < end_time exact (pr_loading bar_program) /\
  well_formed_program bar_program /\ SpecShear.consistent (pr_strip bar_program) /\
  on_bodies bar_program (fun _ _ => bar_body) bar_body /\ initialised bar_body (st_hist bar_start) /\
  closed_below 3 (newton_of (pr_strip bar_program)) /\ virtual_motion bar_program bar_body (fun d => if Nat.eqb d 1 then 1 else 0).
Proof.
  assert (E2 : end_time exact bar_loading = 2) by (unfold end_time, start_time; cbn; lra).
  assert (D : forall k, next_dt exact bar_loading k = 1) by (intros k; unfold next_dt, dt_mono; cbn; lra).
  destruct (bar_step 1 [] 0 1 (mk_timing 0 1 1 0 false) (fun _ => 0) bar_start) as (r1 & S1 & _ & U1 & U2).
  destruct (bar_step 2 [1] 1 1 (mk_timing 1 1 1 1 false) (fst (shift_solutions r1)) (snd (shift_solutions r1))) as (r2 & S2 & _ & V1 & V2).
  exists r1, r2. split.
  { unfold program_run. 
    assert (C1 : clipped_next exact start_time (next_dt exact bar_loading 0) 2 = 1).
    { rewrite D. unfold clipped_next, start_time. cbn. rewrite (proj2 (Rltb_false _ _)); lra. }
    assert (C2 : clipped_next exact 1 (next_dt exact bar_loading (0 + 1)) 2 = 2).
    { rewrite D. unfold clipped_next. cbn. rewrite (proj2 (Rltb_true _ _)); lra. }
    cbn [program_loop]. change (pr_loading bar_program) with bar_loading. rewrite E2.
    rewrite (proj2 (Rltb_true start_time 2)) by (unfold start_time; lra). rewrite C1.
    assert (D1 : a_add exact 1 (- start_time) = 1) by (unfold start_time; cbn; lra). rewrite D1.
    cbv zeta. change (Z.to_nat 0) with 0%nat. change (skip_extrapolation bar_loading 0) with false. change (pr_factor bar_program) with 1.
    change (pr_parameters bar_program) with (two_parameters false false). change (pr_algorithm bar_program) with Monolithic. change (pr_frequency bar_program) with 2%Z. rewrite S1.
    rewrite (surjective_pairing (shift_solutions r1)). change (Z.eqb 2 0) with false. cbv iota.
    rewrite (proj2 (Rltb_true 1 2)) by lra. rewrite C2.
    assert (D2 : a_add exact 2 (- (1)) = 1) by (cbn; lra). rewrite D2.
    change (Z.to_nat (0 + 1)) with 1%nat. change (skip_extrapolation bar_loading (0 + 1)) with false. rewrite S2.
    destruct (shift_solutions r2) as [o2 s2].
    rewrite (proj2 (Rltb_false 2 2)) by lra. rewrite (proj2 (Reqb_false 1 2)) by lra. rewrite (proj2 (Reqb_true 2 2)) by lra. reflexivity. }
  split; [lra|]. split; [lra|]. split; [lra|]. split; [lra|]. split; [exact bar_valid|].
  split. { apply C50_comparable_steps_suffice; [exact bar_valid|discriminate]. }
  split. { change (pr_loading bar_program) with bar_loading. rewrite E2. unfold start_time. lra. }
  split; [exact bar_well_formed|]. split; [exact bar_consistent_strip|]. split; [exact bar_on_body|]. split; [exact bar_initialised|]. split; [exact bar_closed|].
  intros d es z Hd E. change (newton_of bar_strip d = Some (es, z)) in E. rewrite bar_newton in E. destruct d as [|[|[|d]]]; try discriminate; injection E as <- <-; reflexivity.
Qed.
