(** * C104: reversing the load reverses the solution. *)
From Coq Require Import ZArith Lra Lia FunctionalExtensionality.
From Verif Require Import Num Tensors SumLemmas ModelElastic ModelMicro ModelCohesive ModelHistory ModelFEField ModelLineSearch ModelActiveSet ModelSolver ModelLoading ModelShear SpecShear ModelProgram SpecProgram
  ModelLinear SpecLinear ModelAssembly ModelInterface ModelSweep ModelStep ModelBody SpecBody ModelTangent SpecMirror ProofMirror ProofSimulation.
Open Scope R_scope.

(** ** Vectors and constraints *)
Lemma fold_entries_neg x es : forall z, fold_left (fun acc e => acc + snd e * reverse x (fst e)) es (- z) = - fold_left (fun acc e => acc + snd e * x (fst e)) es z.
Proof.
  induction es as [|e es IH]; intros z; cbn [fold_left]; [reflexivity|]. unfold reverse at 2. replace (- z + snd e * - x (fst e)) with (- (z + snd e * x (fst e))) by ring. apply IH.
Qed.
Lemma distribute_reverse k x : ModelActiveSet.distribute (reverse_lines k) (reverse x) = reverse (ModelActiveSet.distribute k x).
Proof.
  apply functional_extensionality. intros d. change (reverse (ModelActiveSet.distribute k x) d) with (- ModelActiveSet.distribute k x d).
  unfold ModelActiveSet.distribute, reverse_lines. destruct (k d) as [[es z]|]; [apply fold_entries_neg|reflexivity].
Qed.
Lemma merge_reverse k k' : merge (reverse_lines k) (reverse_lines k') = reverse_lines (merge k k').
Proof. apply functional_extensionality. intros d. unfold merge, reverse_lines. destruct (k' d) as [[es z]|]; reflexivity. Qed.
Lemma none_reverse : reverse_lines no_constraints = no_constraints.
Proof. reflexivity. Qed.
Lemma add_line_reverse k d : add_line (reverse_lines k) d = reverse_lines (add_line k d).
Proof.
  apply functional_extensionality. intros i. unfold add_line, reverse_lines. destruct (Nat.eqb i d); [|reflexivity]. destruct (k d) as [[es z]|]; [reflexivity|].
  unfold zero_line. rewrite Ropp_0. reflexivity.
Qed.
Lemma identity_reverse k d : is_identity_constrained (reverse_lines k) d = is_identity_constrained k d.
Proof. unfold is_identity_constrained, reverse_lines. destruct (k d) as [[es z]|]; [|reflexivity]. destruct es as [|[m w] [|]]; reflexivity. Qed.
Lemma master_reverse k d : master (reverse_lines k) d = master k d.
Proof. unfold master, reverse_lines. destruct (k d) as [[es z]|]; reflexivity. Qed.

(** ** Active sets *)
Lemma active_loop_reverse affine trial ys hanging dofs :
  active_loop (reverse_lines affine) (reverse trial) ys (reverse_lines hanging) dofs =
  (fst (active_loop affine trial ys hanging dofs), reverse_lines (snd (active_loop affine trial ys hanging dofs))).
Proof.
  unfold active_loop. rewrite <- none_reverse at 1. rewrite merge_reverse. generalize (@nil nat). generalize (merge no_constraints hanging).
  induction dofs as [|d dofs IH]; intros ina act; cbn [fold_left]; [reflexivity|].
  assert (S : active_step (reverse_lines affine) (reverse trial) ys (act, reverse_lines ina) d =
    (fst (active_step affine trial ys (act, ina) d), reverse_lines (snd (active_step affine trial ys (act, ina) d)))).
  { unfold active_step. rewrite constrained_neg, identity_reverse, master_reverse. unfold reverse at 1 2. rewrite Rabs_Ropp. cbn [fst snd].
    f_equal. match goal with |- (if ?c then _ else _) = _ => destruct c end; [apply add_line_reverse|reflexivity]. }
  rewrite S. rewrite IH. rewrite <- surjective_pairing. reflexivity.
Qed.

Lemma sets_reverse p p' trial c s : p_n_slips p' = p_n_slips p -> p_rate_independent p' = p_rate_independent p -> p_hardening p' = p_hardening p -> p_char_resistance p' = p_char_resistance p ->
  p_owned p' = p_owned p -> p_owned_slip p' = p_owned_slip p -> p_affine p' = reverse_lines (p_affine p) -> p_newton p' = reverse_lines (p_newton p) ->
  p_hanging p' = reverse_lines (p_hanging p) -> p_old_solution p' = reverse (p_old_solution p) -> p_slip_resistance p' = p_slip_resistance p ->
  fst (active_set_algorithm p' (reverse trial) c (mk_state (active_set s) (inactive_set s) (reverse_lines (internal_constraints s)) (reverse (trial_solution s)))) =
  let r := fst (active_set_algorithm p trial c s) in mk_state (active_set r) (inactive_set r) (reverse_lines (internal_constraints r)) (reverse (trial_solution r)).
Proof.
  intros E1 E2 E3 E4 E5 E6 E7 E8 E9 E10 E11. unfold active_set_algorithm. rewrite E2. destruct (p_rate_independent p).
  - destruct c; [|reflexivity]. cbn [fst]. cbv zeta. unfold determine_active_set. rewrite E1. destruct (Nat.eqb (p_n_slips p) 0).
    + unfold reset_inactive_set_values, determine_inactive_set, reset_internal. cbn [active_set inactive_set internal_constraints trial_solution].
      rewrite E5, E6, E7, E8, E10. rewrite <- none_reverse at 1. rewrite merge_reverse.
      replace (filter (fun d => mem d (p_owned_slip p) && (is_identity_constrained (reverse_lines (p_affine p)) d || negb (is_constrained (reverse_lines (p_affine p)) d)) && negb (mem d (active_set s)))%bool (p_owned p))
        with (filter (fun d => mem d (p_owned_slip p) && (is_identity_constrained (p_affine p) d || negb (is_constrained (p_affine p) d)) && negb (mem d (active_set s)))%bool (p_owned p))
        by (apply filter_ext; intros d; rewrite identity_reverse, constrained_neg; reflexivity).
      f_equal. rewrite <- distribute_reverse. f_equal. apply functional_extensionality. intros d. unfold reverse. destruct (mem _ _); reflexivity.
    + rewrite E3, E4, E6, E7, E9, E11, active_loop_reverse. destruct (active_loop _ _ _ _ _) as [act ina]. cbn [fst snd].
      unfold reset_inactive_set_values, determine_inactive_set, reset_internal. cbn [active_set inactive_set internal_constraints trial_solution].
      rewrite E5, E6, E7, E8, E10. rewrite <- none_reverse at 1. rewrite !merge_reverse.
      replace (filter (fun d => mem d (p_owned_slip p) && (is_identity_constrained (reverse_lines (p_affine p)) d || negb (is_constrained (reverse_lines (p_affine p)) d)) && negb (mem d act))%bool (p_owned p))
        with (filter (fun d => mem d (p_owned_slip p) && (is_identity_constrained (p_affine p) d || negb (is_constrained (p_affine p) d)) && negb (mem d act))%bool (p_owned p))
        by (apply filter_ext; intros d; rewrite identity_reverse, constrained_neg; reflexivity).
      f_equal. rewrite <- distribute_reverse. f_equal. apply functional_extensionality. intros d. unfold reverse. destruct (mem _ _); reflexivity.
  - cbn. rewrite E6. reflexivity.
Qed.

(** ** Trial solutions *)
Definition reverse_mesh (m : mesh) : mesh := mk_mesh (block_of m) (reverse_lines (constraint m)).
Lemma combine_reverse x l : ModelLineSearch.combine (reverse x) l = - ModelLineSearch.combine x l.
Proof. unfold ModelLineSearch.combine, reverse. induction l as [|e l IH]; cbn; [ring|]. rewrite IH. ring. Qed.
Lemma distribute_mesh_reverse m x : ModelLineSearch.distribute (reverse_mesh m) (reverse x) = reverse (ModelLineSearch.distribute m x).
Proof.
  apply functional_extensionality. intros d. change (reverse (ModelLineSearch.distribute m x) d) with (- ModelLineSearch.distribute m x d).
  unfold ModelLineSearch.distribute, reverse_mesh, reverse_lines. cbn [constraint]. destruct (constraint m d) as [[es z]|]; [|reflexivity]. rewrite combine_reverse. ring.
Qed.
Lemma set_block_reverse m b x y : set_block (reverse_mesh m) b (reverse x) (reverse y) = reverse (set_block m b x y).
Proof. apply functional_extensionality. intros d. unfold set_block, reverse. cbn. destruct (block_eqb _ _); reflexivity. Qed.
Lemma set_block_zero_reverse m b y : set_block (reverse_mesh m) b (fun _ => 0) (reverse y) = reverse (set_block m b (fun _ => 0) y).
Proof. apply functional_extensionality. intros d. unfold set_block, reverse. cbn. destruct (block_eqb _ _); ring. Qed.
Lemma update_trial_reverse m x u l b : update_trial (reverse_mesh m) (reverse x) (reverse u) l b = reverse (update_trial m x u l b).
Proof.
  unfold update_trial. cbv zeta. rewrite <- set_block_reverse, <- distribute_mesh_reverse. f_equal. f_equal. apply functional_extensionality. intros d. unfold reverse. cbn [reverse_mesh block_of].
  destruct (block_eqb _ _); ring.
Qed.
Lemma reset_trial_reverse m x y b : reset_trial (reverse_mesh m) (reverse x) (reverse y) b = reverse (reset_trial m x y b).
Proof. unfold reset_trial. rewrite distribute_mesh_reverse. apply set_block_reverse. Qed.
Lemma extrapolate_reverse k f n pr sk hg nw old oo :
  extrapolate k f n pr sk (reverse_lines hg) (reverse_lines nw) (reverse old) (reverse oo) =
  (reverse (fst (extrapolate k f n pr sk hg nw old oo)), reverse (snd (extrapolate k f n pr sk hg nw old oo))).
Proof.
  unfold extrapolate. cbn [fst snd]. set (r := step_size_ratio k f n pr).
  assert (A : forall u v x y, sadd (reverse x) u v (reverse y) = reverse (sadd x u v y)) by (intros; apply functional_extensionality; intros d; unfold sadd, reverse; ring).
  destruct sk; rewrite ?A, !distribute_reverse; reflexivity.
Qed.

(** ** The time step *)
Section Step.
Context {H : Type} (e e' : env H).
Hypothesis SD : same_dofs e e'.
Hypothesis RV : reversed_values e e'.
Hypothesis ND : no_preferred_direction e e'.
Hypothesis Hstore : forall h, e_store e' h = e_store e h.
Hypothesis Hupdate : forall old x h, e_update e' (reverse old) (reverse x) h = e_update e old x h.
Hypothesis Hfinish : forall x h, e_finish e' (reverse x) h = e_finish e x h.
Hypothesis Hnorms : forall old x h k, e_norms e' (reverse old) (reverse x) h (reverse_lines k) = e_norms e old x h k.

Lemma layout_reverse : layout e' = reverse_mesh (layout e).
Proof. destruct SD as (_ & _ & _ & _ & _ & B), RV as (A & _). unfold layout, reverse_mesh. cbn [block_of constraint]. rewrite A, B. reflexivity. Qed.
Lemma r_update s : op_update e' (reverse_state s) = reverse_state (op_update e s).
Proof. unfold op_update, reverse_state. cbn. rewrite Hupdate, (proj1 ND). reflexivity. Qed.
Lemma r_sets s : op_sets e' (reverse_state s) = reverse_state (op_sets e s).
Proof.
  destruct SD as (A1 & A2 & A3 & A4 & A5 & A6), RV as (B1 & B2 & B3), ND as (_ & N). destruct (N s) as (N1 & _).
  unfold op_sets. cbv zeta. rewrite N1.
  pose proof (sets_reverse (current_problem e s) (current_problem e' (reverse_state s)) (e_microstress e s) true
    (mk_state (st_active s) (st_inactive s) (st_internal s) (st_trial s)) A1 eq_refl A2 A3 A4 A5 B1 B2 B3 eq_refl eq_refl) as Q.
  cbv zeta in Q. cbn [active_set inactive_set internal_constraints trial_solution] in Q.
  cbn [reverse_state st_active st_inactive st_internal st_trial st_tmp st_initial st_newton st_old st_hist st_res st_res_tmp st_norms] in *.
  rewrite Q. reflexivity.
Qed.
Lemma r_affine s : op_affine e' (reverse_state s) = reverse_state (op_affine e s).
Proof. destruct RV as (B1 & _). unfold op_affine, set_trial, reverse_state. cbn [st_active st_inactive st_internal st_trial st_tmp st_initial st_newton st_old st_hist st_res st_res_tmp st_norms]. rewrite B1, distribute_reverse. reflexivity. Qed.
Lemma r_residual s : op_residual e' (reverse_state s) = reverse_state (op_residual e s).
Proof. unfold op_residual, set_norms, reverse_state. cbn [st_active st_inactive st_internal st_trial st_tmp st_initial st_newton st_old st_hist st_res st_res_tmp st_norms]. rewrite Hnorms. reflexivity. Qed.
Lemma r_apply l b s : op_apply e' l b (reverse_state s) = reverse_state (op_apply e l b s).
Proof. unfold op_apply, set_trial, reverse_state. cbn [st_active st_inactive st_internal st_trial st_tmp st_initial st_newton st_old st_hist st_res st_res_tmp st_norms]. rewrite layout_reverse, update_trial_reverse. reflexivity. Qed.
Lemma r_reset b s : op_reset e' b (reverse_state s) = reverse_state (op_reset e b s).
Proof. unfold op_reset, set_trial, reverse_state. cbn [st_active st_inactive st_internal st_trial st_tmp st_initial st_newton st_old st_hist st_res st_res_tmp st_norms]. rewrite layout_reverse, reset_trial_reverse. reflexivity. Qed.
Lemma r_pass b s l : op_search_pass e' b (reverse_state s) l = reverse_state (op_search_pass e b s l).
Proof.
  unfold op_search_pass. rewrite <- r_residual, <- r_update, <- r_apply. f_equal. f_equal. f_equal.
  unfold set_trial, reverse_state. cbn [st_active st_inactive st_internal st_trial st_tmp st_initial st_newton st_old st_hist st_res st_res_tmp st_norms]. rewrite layout_reverse, reset_trial_reverse. reflexivity.
Qed.
Definition reversed_result (r : result (sstate H)) : result (sstate H) := match r with Ok s => Ok (reverse_state s) | Throw => Throw | UB => UB end.
Lemma r_search f f' b s : f' (reverse_state s) = f s -> op_search e' f' b (reverse_state s) = reversed_result (op_search e f b s).
Proof.
  intros E. unfold op_search. cbn [reversed_result]. rewrite E. f_equal. generalize (f s). intros l. clear E. revert s.
  induction l as [|x l IH]; intros s; cbn [fold_left]; [reflexivity|]. rewrite r_pass. apply IH.
Qed.
Lemma r_block f f' b s : f' (reverse_state s) = reverse_result (f s) -> op_solve_block e' f' b (reverse_state s) = reversed_result (op_solve_block e f b s).
Proof.
  intros E. unfold op_solve_block. rewrite E. destruct (f s) as [x| |]; cbn [reverse_result rbind reversed_result]; [|reflexivity..]. f_equal.
  rewrite layout_reverse. unfold set_newton, reverse_state. cbn [st_active st_inactive st_internal st_trial st_tmp st_initial st_newton st_old st_hist st_res st_res_tmp st_norms].
  rewrite distribute_reverse, set_block_zero_reverse. reflexivity.
Qed.
Lemma r_mono s : op_solve_mono e' (reverse_state s) = reversed_result (op_solve_mono e s).
Proof.
  destruct ND as (_ & N). destruct (N s) as (_ & N2 & _). unfold op_solve_mono. rewrite N2. destruct (e_solve_mono e s) as [x| |]; cbn [reverse_result rbind reversed_result]; [|reflexivity..]. f_equal.
  rewrite layout_reverse. unfold set_newton, reverse_state. cbn [st_active st_inactive st_internal st_trial st_tmp st_initial st_newton st_old st_hist st_res st_res_tmp st_norms].
  rewrite distribute_reverse, set_block_reverse. reflexivity.
Qed.
Lemma r_begin t oo s : begin_step e' t (reverse oo) (reverse_state s) = reverse_state (begin_step e t oo s).
Proof.
  destruct RV as (B1 & B2 & B3). unfold begin_step. change (st_old (reverse_state s)) with (reverse (st_old s)). rewrite B2, B3, extrapolate_reverse.
  destruct (extrapolate _ _ _ _ _ _ _ _ _) as [tr up]. cbn [fst snd]. unfold reverse_state. cbn [st_active st_inactive st_internal st_trial st_tmp st_initial st_newton st_old st_hist st_res st_res_tmp st_norms].
  rewrite Hstore. rewrite <- none_reverse at 1. rewrite merge_reverse. reflexivity.
Qed.
Lemma rel_of (r : result (sstate H)) r' : r' = reversed_result r -> rel_result (fun s t => t = reverse_state s) r r'.
Proof. intros ->. destruct r; cbn; auto. Qed.
Ltac same_operations tac :=
  tac; cbn [step_ops store_trial update_internal recompute_sets all_active the_active_set distribute_affine assemble_system assemble_jac assemble_res solve_mono solve_macro solve_micro solve_reduced
      apply_mono apply_macro apply_micro search_mono search_macro search_micro reset_to_initial reset_micro_to_initial squares]; try (intros s0 t0 s1 t1 -> ->; cbn; tauto); try (intros s0 t0 ->); try reflexivity;
  [apply r_update
  |intros _ s0 t0 ->; apply r_sets
  |unfold reverse_state; cbn; rewrite (proj1 (proj2 (proj2 (proj2 (proj2 SD))))); reflexivity
  |apply r_affine
  |apply r_residual
  |apply r_residual
  |apply rel_of; apply r_mono
  |apply rel_of; apply r_block; apply ND
  |apply rel_of; apply r_block; apply ND
  |apply rel_of; apply r_block; apply ND
  |apply r_apply
  |apply r_apply
  |apply r_apply
  |apply rel_of; apply r_search; apply ND
  |apply rel_of; apply r_search; apply ND
  |apply rel_of; apply r_search; apply ND
  |apply r_reset
  |apply r_reset].
Lemma log_reverse sp a fuel t oo s : iterations e' sp a fuel t (reverse oo) (reverse_state s) = iterations e sp a fuel t oo s.
Proof.
  unfold iterations. rewrite r_begin. symmetry.
  same_operations ltac:(apply (rel_log (step_ops e) (step_ops e') sp (fun s t => t = reverse_state s))).
Qed.
Lemma step_reverse sp a fuel t oo s :
  solve_nonlinear_system e' sp a fuel t (reverse oo) (reverse_state s) = reverse_outcome (solve_nonlinear_system e sp a fuel t oo s).
Proof.
  unfold solve_nonlinear_system. rewrite r_begin.
  assert (Q : rel_outcome (fun s t => t = reverse_state s) (solve_nonlinear (step_ops e) sp a fuel (begin_step e t oo s)) (solve_nonlinear (step_ops e') sp a fuel (reverse_state (begin_step e t oo s)))).
  { same_operations ltac:(apply rel_solve). }
  destruct (solve_nonlinear (step_ops e) sp a fuel _) as [r| | |], (solve_nonlinear (step_ops e') sp a fuel _) as [r'| | |]; cbn in Q; try tauto; try reflexivity.
  subst r'. unfold reverse_outcome, reverse_state. cbn [st_active st_inactive st_internal st_trial st_tmp st_initial st_newton st_old st_hist st_res st_res_tmp st_norms]. rewrite Hfinish. reflexivity.
Qed.
End Step.

Theorem C104_reversed_step : forall b e e' sp a fuel t oo s,
  coherent b -> works_on e b -> e_finish e = body_finish b -> works_on e' (reverse_body b) -> e_finish e' = body_finish (reverse_body b) ->
  same_dofs e e' -> reversed_values e e' -> no_preferred_direction e e' ->
  solve_nonlinear_system e' sp a fuel t (reverse oo) (reverse_state s) = reverse_outcome (solve_nonlinear_system e sp a fuel t oo s) /\
  iterations e' sp a fuel t (reverse oo) (reverse_state s) = iterations e sp a fuel t oo s.
Proof.
  intros b e e' sp a fuel t oo s C (W1 & W2 & W3) W4 (V1 & V2 & V3) V4 SD RV ND.
  assert (K1 : forall h, e_store e' h = e_store e h) by (intros h; rewrite W1, V1; reflexivity).
  assert (K2 : forall old x h, e_update e' (reverse old) (reverse x) h = e_update e old x h) by (intros old x h; rewrite W2, V2; apply update_neg; apply C).
  assert (K3 : forall x h, e_finish e' (reverse x) h = e_finish e x h) by (intros x h; rewrite W4, V4; apply finish_neg; apply C).
  assert (K4 : forall old x h k, e_norms e' (reverse old) (reverse x) h (reverse_lines k) = e_norms e old x h k) by (intros old x h k; rewrite W3, V3; apply norms_neg; exact C).
  split; [apply step_reverse; assumption|apply log_reverse; assumption].
Qed.
(** Solvers called with the assembled systems have no preferred direction, nor has the function
    the line searches minimise. *)
Theorem C104_assembled_systems : forall b old x r k pattern, coherent b ->
  body_residual (reverse_body b) (reverse old) (reverse x) r (reverse_lines k) = reverse (body_residual b old x r k) /\
  body_jacobian (reverse_body b) (reverse old) (reverse x) r pattern (reverse_lines k) = body_jacobian b old x r pattern k /\
  body_objective (reverse_body b) (reverse old) r (reverse_lines k) (reverse x) = body_objective b old r k x.
Proof.
  intros b old x r k pattern C. split; [apply residual_neg; exact C|]. split; [apply jacobian_neg; exact C|].
  unfold body_objective. rewrite update_neg by apply C. rewrite residual_neg by exact C. cbn [reverse_body b_ndofs]. unfold residual_objective, norm, dot, reverse.
  rewrite (sumn_ext _ _ (fun i => body_residual b old x (body_update b old x r) k i * body_residual b old x (body_update b old x r) k i)) by (intros; ring). reflexivity.
Qed.
Theorem C104_linear_solvers : forall b pattern LS solver solver' s, coherent b -> odd_solver LS ->
  solves_assembled b pattern LS solver -> solves_assembled (reverse_body b) pattern LS solver' ->
  solver' (reverse_state s) = reverse_result (solver s).
Proof.
  intros b pattern LS solver solver' s C O S S'. rewrite S, S'. cbn [reverse_state st_old st_trial st_hist st_internal st_newton].
  rewrite residual_neg, jacobian_neg by exact C. apply O.
Qed.

(** ** The shear test *)
Definition reversed_function (f g : (nat -> R) -> nat -> R) : Prop := forall x k, g x k = - f x k.
Definition reversed_map (f g : nat -> option ((nat -> R) -> nat -> R)) : Prop := forall id,
  match f id, g id with Some u, Some v => reversed_function u v | None, None => True | _, _ => False end.
Lemma homogeneous_reverse k : homogeneous k -> reverse_lines k = k.
Proof. intros Hk. apply functional_extensionality. intros d. unfold reverse_lines. destruct (k d) as [[es z]|] eqn:E; [|reflexivity]. rewrite (Hk d es z E), Ropp_0. reflexivity. Qed.
Lemma interpolate_reverse f g mask bs : reversed_map f g -> forall c, interpolate g mask bs (reverse_lines c) = reverse_lines (interpolate f mask bs c).
Proof.
  intros M. unfold interpolate. induction bs as [|b bs IH]; intros c; cbn [fold_left]; [reflexivity|]. rewrite <- IH. f_equal.
  pose proof (M (b_id b)) as A. destruct (f (b_id b)) as [u|], (g (b_id b)) as [v|]; try tauto. rewrite constrained_neg.
  destruct (mask (b_comp b) && negb (is_constrained c (b_dof b)))%bool; [|reflexivity].
  apply functional_extensionality. intros d. unfold reverse_lines. destruct (Nat.eqb d (b_dof b)); [rewrite A; reflexivity|reflexivity].
Qed.
Lemma fold_reverse {A} (F G : constraints -> A -> constraints) : (forall c x, G (reverse_lines c) x = reverse_lines (F c x)) ->
  forall l c, fold_left G l (reverse_lines c) = reverse_lines (fold_left F l c).
Proof. intros E. induction l as [|x l IH]; intros c; cbn [fold_left]; [reflexivity|]. rewrite E. apply IH. Qed.
Lemma zero_reversed : reversed_function zero_function zero_function.
Proof. intros x k. unfold zero_function. ring. Qed.
Lemma on_boundaries_reversed f f' g g' : reversed_function f f' -> reversed_function g g' -> reversed_map (on_boundaries f g) (on_boundaries f' g').
Proof. intros A B id. unfold on_boundaries. destruct (Nat.eqb id 2); [exact A|]. destruct (Nat.eqb id 3); [exact B|exact I]. Qed.
Lemma microhard_reverse dim ns pu pg f c : microhard_face dim ns pu pg f (reverse_lines c) = reverse_lines (microhard_face dim ns pu pg f c).
Proof. unfold microhard_face. apply fold_reverse. intros k i. destruct (Nat.leb _ _); [apply add_line_reverse|reflexivity]. Qed.
Lemma periodicity_reverse m c : periodicity m (reverse_lines c) = reverse_lines (periodicity m c).
Proof.
  unfold periodicity. replace (is_constrained (reverse_lines c)) with (is_constrained c) by (apply functional_extensionality; intros d; symmetry; apply constrained_neg).
  apply fold_reverse. intros k x. rewrite constrained_neg. destruct (is_constrained k (fst x)); [reflexivity|].
  apply functional_extensionality. intros d. unfold reverse_lines. destruct (Nat.eqb d (fst x)); [rewrite Ropp_0; reflexivity|reflexivity].
Qed.
Lemma build_reverse m u v : homogeneous (s_hanging m) -> reversed_function u v -> build_constraints m v = reverse_lines (build_constraints m u).
Proof.
  intros Hh A. unfold build_constraints. cbv zeta. rewrite <- periodicity_reverse. f_equal.
  assert (B0 : merge no_constraints (s_hanging m) = reverse_lines (merge no_constraints (s_hanging m))) by (rewrite <- merge_reverse, none_reverse, (homogeneous_reverse _ Hh); reflexivity).
  assert (B1 : fold_left (fun c k => interpolate (on_boundaries zero_function v) (displacement_mask (s_dim m) (s_decohesion m) k) (s_boundary m) c) (seq 0 (s_nc m)) (merge no_constraints (s_hanging m)) =
    reverse_lines (fold_left (fun c k => interpolate (on_boundaries zero_function u) (displacement_mask (s_dim m) (s_decohesion m) k) (s_boundary m) c) (seq 0 (s_nc m)) (merge no_constraints (s_hanging m)))).
  { rewrite B0 at 1. apply fold_reverse. intros c k. apply interpolate_reverse. apply on_boundaries_reversed; [exact zero_reversed|exact A]. }
  rewrite B1.
  assert (B2 : forall c0, fold_left (fun c k => fold_left (fun c a => interpolate (on_boundaries zero_function zero_function) (slip_mask (s_dim m) (s_decohesion m) (s_nc m) (s_ns m) k a) (s_boundary m) c) (seq 0 (s_ns m)) c) (seq 0 (s_nc m)) (reverse_lines c0) =
    reverse_lines (fold_left (fun c k => fold_left (fun c a => interpolate (on_boundaries zero_function zero_function) (slip_mask (s_dim m) (s_decohesion m) (s_nc m) (s_ns m) k a) (s_boundary m) c) (seq 0 (s_ns m)) c) (seq 0 (s_nc m)) c0)).
  { intros c0. apply fold_reverse. intros c k. apply fold_reverse. intros c' a. apply interpolate_reverse. apply on_boundaries_reversed; exact zero_reversed. }
  rewrite B2. destruct (s_microhard m); [|reflexivity]. apply fold_reverse. intros c f. apply microhard_reverse.
Qed.
Lemma update_constraints_reverse m u v : homogeneous (s_hanging m) -> reversed_function u v -> update_constraints m v = reverse_lines (update_constraints m u).
Proof.
  intros Hh A. unfold update_constraints.
  assert (B0 : merge no_constraints (s_hanging m) = reverse_lines (merge no_constraints (s_hanging m))) by (rewrite <- merge_reverse, none_reverse, (homogeneous_reverse _ Hh); reflexivity).
  rewrite B0 at 1. apply fold_reverse. intros c k. apply interpolate_reverse. intros id. destruct (Nat.eqb id 3); [exact A|exact I].
Qed.
Section Program.
Context {H : Type} (p : program H) (env' : nat -> R -> env H).
Hypothesis Hh : homogeneous (s_hanging (pr_strip p)).
Let p' := reverse_program p env'.
Lemma control_reverse t : reversed_function (control_time p t) (control_time p' t).
Proof.
  intros x k. unfold control_time, control_at, pr_control. change (pr_strip p') with (pr_strip p). change (pr_height p') with (pr_height p). change (pr_char p') with (pr_char p).
  change (pr_component p') with (pr_component p). change (pr_loading p') with (reverse_loading (pr_loading p)).
  unfold vector_value, make_displacement_control, displacement_load. cbn [dc_type dc_height dc_max dc_char dc_component dc_decohesion dc_n_crystals reverse_loading l_max].
  set (v := t * pr_height p * l_max (pr_loading p) / pr_char p). replace (t * pr_height p * - l_max (pr_loading p) / pr_char p) with (- v) by (unfold v, Rdiv; ring).
  assert (G : forall l (f g : nat -> R), (forall c, g c = - f c) -> forall c,
    fold_left (fun acc i c => if Nat.eqb c (pr_component p + i * s_dim (pr_strip p)) then - v else acc c) l g c =
    - fold_left (fun acc i c => if Nat.eqb c (pr_component p + i * s_dim (pr_strip p)) then v else acc c) l f c).
  { induction l as [|i l IH]; intros f g E c; cbn [fold_left]; [apply E|]. apply IH. intros c'. destruct (Nat.eqb c' _); [reflexivity|apply E]. }
  destruct (s_decohesion (pr_strip p)); [apply G; intros c|]; destruct (Nat.eqb _ _); ring.
Qed.
Lemma affine_reverse ts : affine_at p' ts = reverse_lines (affine_at p ts).
Proof.
  unfold affine_at. change (pr_strip p') with (pr_strip p). induction ts as [|t ts IH]; cbn [map affine_after].
  - rewrite (build_reverse _ _ _ Hh (control_reverse 0)), <- merge_reverse. f_equal. rewrite <- merge_reverse, none_reverse, (homogeneous_reverse _ Hh). reflexivity.
  - rewrite IH, (update_constraints_reverse _ _ _ Hh (control_reverse t)). apply merge_reverse.
Qed.
Lemma newton_reverse : newton_of (pr_strip p) = reverse_lines (newton_of (pr_strip p)).
Proof.
  unfold newton_of. rewrite <- merge_reverse, <- (build_reverse _ zero_function zero_function Hh zero_reversed). f_equal. rewrite <- merge_reverse, none_reverse, (homogeneous_reverse _ Hh). reflexivity.
Qed.
Lemma step_env_reverse k dt ts : same_dofs (pr_env p k dt) (env' k dt) -> same_dofs (step_env p k dt ts) (step_env p' k dt ts) /\ reversed_values (step_env p k dt ts) (step_env p' k dt ts).
Proof.
  intros S. split; [exact S|]. split; [exact (affine_reverse ts)|]. split.
  - exact newton_reverse.
  - cbn. symmetry. apply homogeneous_reverse. exact Hh.
Qed.
Hypothesis Hstep : forall k dt ts t oo s inner,
  solve_nonlinear_system (step_env p' k dt ts) (pr_parameters p) (pr_algorithm p) inner t (reverse oo) (reverse_state s) =
  reverse_outcome (solve_nonlinear_system (step_env p k dt ts) (pr_parameters p) (pr_algorithm p) inner t oo s).
Lemma loop_reverse a inner : forall fuel step current previous ts oo s,
  program_loop p' a inner fuel step current previous ts (reverse oo) (reverse_state s) =
  (map reverse_accepted (fst (program_loop p a inner fuel step current previous ts oo s)), snd (program_loop p a inner fuel step current previous ts oo s)).
Proof.
  induction fuel as [|fuel IH]; intros step current previous ts oo s; cbn [program_loop]; change (end_time a (pr_loading p')) with (end_time a (pr_loading p)).
  - destruct (Rltb _ _); reflexivity.
  - destruct (Rltb _ _); [|reflexivity].
    change (next_dt a (pr_loading p') step) with (next_dt a (pr_loading p) step). change (skip_extrapolation (pr_loading p') step) with (skip_extrapolation (pr_loading p) step).
    change (pr_parameters p') with (pr_parameters p). change (pr_algorithm p') with (pr_algorithm p). change (pr_factor p') with (pr_factor p). change (pr_frequency p') with (pr_frequency p).
    rewrite Hstep. destruct (solve_nonlinear_system _ _ _ _ _ _ _) as [r| | |]; cbn [reverse_outcome]; [|reflexivity..].
    change (shift_solutions (reverse_state r)) with (reverse (fst (shift_solutions r)), reverse_state (snd (shift_solutions r))).
    destruct (shift_solutions r) as [oo' s']. cbn [fst snd]. destruct (Z.eqb _ 0); [reflexivity|].
    rewrite IH. destruct (program_loop p a inner fuel _ _ _ _ _ _) as [tr en]. reflexivity.
Qed.
End Program.

Theorem C104_reversed_test : forall (p : program rank_data) env' bodies a inner fuel oo s,
  homogeneous (s_hanging (pr_strip p)) ->
  (forall k dt, coherent (bodies k dt) /\ works_on (pr_env p k dt) (bodies k dt) /\ e_finish (pr_env p k dt) = body_finish (bodies k dt) /\
     works_on (env' k dt) (reverse_body (bodies k dt)) /\ e_finish (env' k dt) = body_finish (reverse_body (bodies k dt)) /\
     same_dofs (pr_env p k dt) (env' k dt) /\ no_preferred_direction (pr_env p k dt) (env' k dt)) ->
  let '(tr, e) := program_run p a inner fuel oo s in
  program_run (reverse_program p env') a inner fuel (reverse oo) (reverse_state s) = (map reverse_accepted tr, e).
Proof.
  intros p env' bodies a inner fuel oo s Hh HB. destruct (program_run p a inner fuel oo s) as [tr en] eqn:E.
  unfold program_run in *. rewrite (loop_reverse p env'); [rewrite E; reflexivity|].
  intros k dt ts t oo0 s0 inner0. destruct (HB k dt) as (C & W & F & W' & F' & SD & ND). destruct (step_env_reverse p env' Hh k dt ts SD) as (S1 & S2).
  apply (C104_reversed_step (bodies k dt)); assumption.
Qed.
(** The stresses of the reversed solution are the reversed stresses. *)
Theorem C104_reversed_stresses : forall b x c q i j,
  stress_at (b_crystal (reverse_body b) c) (b_element (reverse_body b) c) (local_values (reverse_body b) (reverse x) c) q i j =
  - stress_at (b_crystal b c) (b_element b c) (local_values b x c) q i j.
Proof. intros b x c q i j. rewrite local_neg. apply stress_neg. Qed.
