(** * C115: a body does not feel where it is. *)
From Coq Require Import ZArith Lra Lia FunctionalExtensionality.
From Verif Require Import Num Tensors SumLemmas ModelElastic ModelMicro ModelCohesive ModelHistory ModelFEField ModelLineSearch ModelActiveSet ModelSolver ModelLoading ModelShear SpecShear ModelProgram SpecProgram
  ModelLinear SpecLinear ModelAssembly ModelInterface ModelSweep ModelStep ModelBody SpecBody ModelTangent SpecMirror ProofSimulation SpecRigid ProofRigid.
Open Scope R_scope.

Section Vectors.
Variable w : vec.
Local Notation mv x := (moved w x).

Lemma fold_entries_moved x es : forall z, fold_left (fun acc e => acc + snd e * mv x (fst e)) es z =
  fold_left (fun acc e => acc + snd e * x (fst e)) es z + fold_right (fun e s => snd e * w (fst e) + s) 0 es.
Proof.
  assert (S : forall l z t, fold_left (fun acc e => acc + snd e * x (fst e)) l (z + t) = fold_left (fun acc e => acc + snd e * x (fst e)) l z + t).
  { induction l as [|e l IH]; intros z t; cbn [fold_left]; [reflexivity|]. replace (z + t + snd e * x (fst e)) with (z + snd e * x (fst e) + t) by ring. apply IH. }
  induction es as [|e es IH]; intros z; cbn [fold_left fold_right]; [ring|]. rewrite IH. unfold moved at 1.
  replace (z + snd e * (x (fst e) + w (fst e))) with (z + snd e * x (fst e) + snd e * w (fst e)) by ring. rewrite S. ring.
Qed.
Lemma fold_start x (es : list (nat * R)) : forall z t, fold_left (fun acc e => acc + snd e * x (fst e)) es (z + t) = fold_left (fun acc e => acc + snd e * x (fst e)) es z + t.
Proof. induction es as [|e es IH]; intros z t; cbn [fold_left]; [reflexivity|]. replace (z + t + snd e * x (fst e)) with (z + snd e * x (fst e) + t) by ring. apply IH. Qed.
Lemma distribute_moved k x : ModelActiveSet.distribute (moved_lines w k) (mv x) = mv (ModelActiveSet.distribute k x).
Proof.
  apply functional_extensionality. intros d. unfold ModelActiveSet.distribute, moved_lines, moved at 3. destruct (k d) as [[es z]|]; [|reflexivity].
  rewrite fold_entries_moved, fold_start. ring.
Qed.
Lemma obeying_lines k : obeys k w -> moved_lines w k = k.
Proof.
  intros A. apply functional_extensionality. intros d. unfold moved_lines. destruct (k d) as [[es z]|] eqn:E; [|reflexivity].
  rewrite (A d es z E), Rminus_diag_eq, Rplus_0_r by reflexivity. reflexivity.
Qed.
Lemma distribute_obeying k x : obeys k w -> ModelActiveSet.distribute k (mv x) = mv (ModelActiveSet.distribute k x).
Proof. intros A. rewrite <- (obeying_lines k A) at 1. apply distribute_moved. Qed.
Lemma is_constrained_moved k : is_constrained (moved_lines w k) = is_constrained k.
Proof. apply functional_extensionality. intros d. unfold is_constrained, moved_lines. destruct (k d) as [[es z]|]; reflexivity. Qed.
Lemma identity_moved k : is_identity_constrained (moved_lines w k) = is_identity_constrained k.
Proof. apply functional_extensionality. intros d. unfold is_identity_constrained, moved_lines. destruct (k d) as [[es z]|]; [|reflexivity]. destruct es as [|[m v] [|]]; reflexivity. Qed.
Lemma master_moved k : master (moved_lines w k) = master k.
Proof. apply functional_extensionality. intros d. unfold master, moved_lines. destruct (k d) as [[es z]|]; reflexivity. Qed.
Lemma active_step_moved k trial ys : active_step (moved_lines w k) trial ys = active_step k trial ys.
Proof. unfold active_step. rewrite is_constrained_moved, identity_moved, master_moved. reflexivity. Qed.

Lemma sets_moved p p' trial act ina int x :
  p_n_slips p' = p_n_slips p -> p_rate_independent p = true -> p_rate_independent p' = true -> p_hardening p' = p_hardening p -> p_char_resistance p' = p_char_resistance p ->
  p_owned p' = p_owned p -> p_owned_slip p' = p_owned_slip p -> p_affine p' = moved_lines w (p_affine p) -> p_newton p' = p_newton p ->
  p_hanging p' = p_hanging p -> p_old_solution p' = mv (p_old_solution p) -> p_slip_resistance p' = p_slip_resistance p ->
  let r := fst (active_set_algorithm p trial true (mk_state act ina int x)) in let r' := fst (active_set_algorithm p' trial true (mk_state act ina int (mv x))) in
  active_set r' = active_set r /\ inactive_set r' = inactive_set r /\ internal_constraints r' = internal_constraints r /\ trial_solution r' = mv (trial_solution r).
Proof.
  intros E1 E2 E2' E3 E4 E5 E6 E7 E8 E9 E10 E11. cbv zeta. unfold active_set_algorithm. rewrite E2, E2'. cbn [fst].
  set (q := determine_active_set p trial _). set (q' := determine_active_set p' trial _).
  assert (G : active_set q' = active_set q /\ inactive_set q' = inactive_set q /\ internal_constraints q' = internal_constraints q /\ trial_solution q' = mv (trial_solution q)).
  { unfold q, q', determine_active_set. rewrite E1. destruct (Nat.eqb (p_n_slips p) 0).
    - unfold reset_internal. cbn [active_set inactive_set internal_constraints trial_solution]. rewrite E8. repeat split.
    - unfold active_loop. rewrite E3, E4, E6, E7, E9, E11, active_step_moved. destruct (fold_left _ _ _) as [a i]. unfold reset_internal. cbn [active_set inactive_set internal_constraints trial_solution]. rewrite E8. repeat split. }
  destruct G as (G1 & G2 & G3 & G4). unfold reset_inactive_set_values, determine_inactive_set. cbn [active_set inactive_set internal_constraints trial_solution].
  rewrite E5, E6, E7, identity_moved, is_constrained_moved, G1. split; [reflexivity|]. split; [reflexivity|]. split; [exact G3|].
  rewrite <- distribute_moved. f_equal. apply functional_extensionality. intros d. rewrite E10, G4. unfold moved. destruct (mem _ _); reflexivity.
Qed.

(** ** Trial solutions *)
Definition moved_mesh (m : mesh) : mesh := mk_mesh (block_of m) (moved_lines w (constraint m)).
Lemma combine_moved x l : ModelLineSearch.combine (mv x) l = ModelLineSearch.combine x l + fold_right (fun e s => snd e * w (fst e) + s) 0 l.
Proof. unfold ModelLineSearch.combine. induction l as [|e l IH]; cbn [fold_right]; [ring|]. rewrite IH. unfold moved. ring. Qed.
Lemma distribute_mesh_moved m x : ModelLineSearch.distribute (moved_mesh m) (mv x) = mv (ModelLineSearch.distribute m x).
Proof.
  apply functional_extensionality. intros d. unfold moved at 2. unfold ModelLineSearch.distribute, moved_mesh, moved_lines. cbn [constraint].
  destruct (constraint m d) as [[es z]|]; [rewrite combine_moved; ring|reflexivity].
Qed.
Lemma set_block_moved m b x y : set_block (moved_mesh m) b (mv x) (mv y) = mv (set_block m b x y).
Proof. apply functional_extensionality. intros d. unfold set_block, moved, moved_mesh. cbn [block_of]. destruct (block_eqb _ _); reflexivity. Qed.
Lemma update_trial_moved m x u l b : update_trial (moved_mesh m) (mv x) u l b = mv (update_trial m x u l b).
Proof.
  unfold update_trial. cbv zeta. rewrite <- set_block_moved, <- distribute_mesh_moved. do 2 f_equal. apply functional_extensionality. intros d. unfold moved, moved_mesh. cbn [block_of].
  destruct (block_eqb _ _); ring.
Qed.
Lemma reset_trial_moved m x y b : reset_trial (moved_mesh m) (mv x) (mv y) b = mv (reset_trial m x y b).
Proof. unfold reset_trial. rewrite distribute_mesh_moved. apply set_block_moved. Qed.
Lemma extrapolated_trial k f n pr sk hg nw old oo : obeys hg w -> fst (extrapolate k f n pr sk hg nw (mv old) (mv oo)) = mv (fst (extrapolate k f n pr sk hg nw old oo)).
Proof.
  intros A. unfold extrapolate. cbn [fst]. rewrite <- (distribute_obeying hg _ A). f_equal. destruct sk; [reflexivity|]. apply functional_extensionality. intros d. unfold sadd, moved. ring.
Qed.
Lemma extrapolated_update (blocks : nat -> block_index) k f n pr sk hg nw old oo : (forall d, blocks d = Micro -> w d = 0) ->
  (forall d es z m, blocks d = Micro -> nw d = Some (es, z) -> In m es -> blocks (fst m) = Micro) ->
  forall d, blocks d = Micro -> snd (extrapolate k f n pr sk hg nw (mv old) (mv oo)) d = snd (extrapolate k f n pr sk hg nw old oo) d.
Proof.
  intros Z N d D. unfold extrapolate. cbn [snd]. destruct sk.
  - unfold ModelActiveSet.distribute. destruct (nw d) as [[es z]|] eqn:E; [|unfold moved; rewrite (Z d D); ring].
    assert (G : forall l, incl l es -> forall z, fold_left (fun acc e => acc + snd e * mv old (fst e)) l z = fold_left (fun acc e => acc + snd e * old (fst e)) l z).
    { induction l as [|e l IH]; intros I z0; cbn [fold_left]; [reflexivity|]. rewrite IH by (intros y Y; apply I; right; exact Y). unfold moved.
      rewrite (Z (fst e)) by (apply (N d es z e D E); apply I; left; reflexivity). rewrite Rplus_0_r. reflexivity. }
    apply G. apply incl_refl.
  - assert (E : forall c, sadd (mv old) (-1) 1 (sadd (mv old) (1 + c) (- c) (mv oo)) = sadd old (-1) 1 (sadd old (1 + c) (- c) oo)); [|rewrite E; reflexivity].
    intros c. apply functional_extensionality. intros j. unfold sadd, moved. ring.
Qed.
End Vectors.

(** ** The time step *)
Section Step.
Context {H : Type} (w : vec) (e e' : env H).
Local Notation mv x := (moved w x).
Hypothesis MS : moved_supports w e e'.
Hypothesis NP : no_preferred_place w e e'.
Hypothesis Hstore : forall h, e_store e' h = e_store e h.
Hypothesis Hupdate : forall old x h, e_update e' (mv old) (mv x) h = e_update e old x h.
Hypothesis Hfinish : forall x h, e_finish e' (mv x) h = e_finish e x h.
Hypothesis Hnorms : forall old x h k, e_norms e' (mv old) (mv x) h k = e_norms e old x h k.

Definition Related (s s' : sstate H) : Prop := moved_state (e_blocks e) w s s'.
Definition FreshUpdate (s s' : sstate H) : Prop := Related s s' /\ forall d, st_newton s' d = st_newton s d.
Ltac members := cbn [st_active st_inactive st_internal st_trial st_tmp st_initial st_newton st_old st_hist st_res st_res_tmp st_norms].
Ltac open A := destruct A as (A1 & A2 & A3 & A4 & A5 & A6 & A7 & A8 & A9 & A10 & A11 & A12).
Ltac close := unfold Related, moved_state; members; repeat (match goal with |- _ /\ _ => split end); try assumption; try reflexivity.

Lemma layout_moved : layout e' = moved_mesh w (layout e).
Proof. destruct MS as ((_ & _ & _ & _ & _ & B) & A & _). unfold layout, moved_mesh. cbn [block_of constraint]. rewrite A, B. reflexivity. Qed.
Lemma r_store s s' : Related s s' -> Related (op_store s) (op_store s').
Proof. intros A. open A. unfold op_store. close. Qed.
Lemma r_update s s' : Related s s' -> Related (op_update e s) (op_update e' s').
Proof. intros A. open A. unfold op_update. close; rewrite ?A1, A4, A7, ?A9, ?A11; [apply Hupdate|apply NP]. Qed.
Lemma r_sets s s' : Related s s' -> Related (op_sets e s) (op_sets e' s').
Proof.
  intros A. destruct MS as ((B1 & B2 & B3 & B4 & B5 & B6) & C1 & C2 & C3 & _). destruct NP as (_ & N). destruct (N s s' A) as (N1 & _). open A.
  pose proof (sets_moved w (current_problem e s) (current_problem e' s') (e_microstress e s) (st_active s) (st_inactive s) (st_internal s) (st_trial s)
    B1 eq_refl eq_refl B2 B3 B4 B5 C1 C2 C3 A7 A10) as P.
  cbv zeta in P. destruct P as (P1 & P2 & P3 & P4). unfold op_sets. rewrite N1, A1, A2, A3, A4. close.
Qed.
Lemma r_active s s' : Related s s' -> Related (all_active (step_ops e) s) (all_active (step_ops e') s').
Proof. intros A. destruct MS as ((_ & _ & _ & _ & B & _) & _). open A. cbn [step_ops all_active]. close. Qed.
Lemma r_affine s s' : Related s s' -> Related (op_affine e s) (op_affine e' s').
Proof. intros A. destruct MS as (_ & B & _). open A. unfold op_affine, set_trial. close. rewrite B, A4. apply distribute_moved. Qed.
Lemma r_residual s s' : Related s s' -> Related (op_residual e s) (op_residual e' s').
Proof. intros A. open A. unfold op_residual, set_norms. close. rewrite A3, A4, A7, A9. apply Hnorms. Qed.
Lemma r_reset b s s' : Related s s' -> Related (op_reset e b s) (op_reset e' b s').
Proof. intros A. open A. unfold op_reset, set_trial. close. rewrite layout_moved, A4, A6. apply reset_trial_moved. Qed.
Lemma f_update s s' : FreshUpdate s s' -> FreshUpdate (op_update e s) (op_update e' s').
Proof. intros (A & B). split; [apply r_update; exact A|exact B]. Qed.
Lemma f_residual s s' : FreshUpdate s s' -> FreshUpdate (op_residual e s) (op_residual e' s').
Proof. intros (A & B). split; [apply r_residual; exact A|exact B]. Qed.
Lemma f_apply l b s s' : FreshUpdate s s' -> FreshUpdate (op_apply e l b s) (op_apply e' l b s').
Proof.
  intros (A & B). split; [|exact B]. open A. unfold op_apply, set_trial. close. rewrite layout_moved, A4. replace (st_newton s') with (st_newton s) by (apply functional_extensionality; intros d; symmetry; apply B).
  apply update_trial_moved.
Qed.
Lemma f_back s s' : FreshUpdate s s' -> FreshUpdate (set_trial s (reset_trial (layout e) (st_trial s) (st_tmp s) Macro)) (set_trial s' (reset_trial (layout e') (st_trial s') (st_tmp s') Macro)).
Proof. intros (A & B). split; [|exact B]. open A. unfold set_trial. close. rewrite layout_moved, A4, A5. apply reset_trial_moved. Qed.
Lemma f_search (f f' : sstate H -> list R) b s s' : FreshUpdate s s' -> f' s' = f s -> rel_result Related (op_search e f b s) (op_search e' f' b s').
Proof.
  intros A E. unfold op_search. cbn [rel_result]. rewrite E. generalize (f s). intros l. clear E. revert s s' A.
  induction l as [|x l IH]; intros s s' A; cbn [fold_left]; [exact (proj1 A)|]. apply IH. unfold op_search_pass. apply f_residual, f_update, f_apply, f_back. exact A.
Qed.
Lemma r_block (f f' : sstate H -> result vec) b s s' : Related s s' -> f' s' = f s -> fresh_result FreshUpdate (op_solve_block e f b s) (op_solve_block e' f' b s').
Proof.
  intros A E. unfold op_solve_block. rewrite E. destruct (f s) as [x| |]; cbn [rbind fresh_result]; auto. open A. unfold set_newton.
  assert (Q : set_block (layout e') b (fun _ => 0) (ModelActiveSet.distribute (st_internal s') x) = set_block (layout e) b (fun _ => 0) (ModelActiveSet.distribute (st_internal s) x)) by (rewrite layout_moved, A3; reflexivity).
  rewrite Q. split; [close|]; intros; reflexivity.
Qed.
Lemma r_mono s s' : Related s s' -> fresh_result FreshUpdate (op_solve_mono e s) (op_solve_mono e' s').
Proof.
  intros A. destruct NP as (_ & N). destruct (N s s' A) as (_ & N2 & _). unfold op_solve_mono. rewrite N2.
  destruct (e_solve_mono e s) as [x| |]; cbn [rbind fresh_result]; auto. open A. unfold set_newton.
  assert (Q : forall d, set_block (layout e') Macro (st_newton s') (ModelActiveSet.distribute (st_internal s') x) d = set_block (layout e) Macro (st_newton s) (ModelActiveSet.distribute (st_internal s) x) d).
  { intros d. rewrite layout_moved, A3. unfold set_block, moved_mesh, layout. cbn [block_of]. destruct (e_blocks e d) eqn:K; cbn [block_eqb]; [reflexivity|]. apply A8. exact K. }
  split; [close|]; members; intros; apply Q.
Qed.
Lemma r_begin t oo s s' : Related s s' -> Related (begin_step e t oo s) (begin_step e' t (mv oo) s').
Proof.
  intros A. destruct MS as (_ & _ & C2 & C3 & O & Z & N). open A. unfold begin_step. rewrite C2, C3, A7.
  pose proof (extrapolated_trial w (t_step t) (t_factor t) (t_next_dt t) (t_previous_dt t) (t_skip t) (p_hanging (e_problem e)) (p_newton (e_problem e)) (st_old s) oo O) as T.
  pose proof (extrapolated_update w (e_blocks e) (t_step t) (t_factor t) (t_next_dt t) (t_previous_dt t) (t_skip t) (p_hanging (e_problem e)) (p_newton (e_problem e)) (st_old s) oo Z N) as U.
  destruct (extrapolate _ _ _ _ _ _ _ (mv (st_old s)) _) as [tr' up']. destruct (extrapolate _ _ _ _ _ _ _ _ _) as [tr up]. cbn [fst snd] in T, U. close.
  rewrite A9. apply Hstore.
Qed.
Ltac same_operations sp tac :=
  tac; cbn [step_ops store_trial update_internal recompute_sets the_active_set distribute_affine assemble_system assemble_jac assemble_res solve_mono solve_macro solve_micro solve_reduced
      apply_mono apply_macro apply_micro search_mono search_macro search_micro reset_to_initial reset_micro_to_initial squares];
  [intros s0 t0 A0; exact (proj1 A0)
  |intros s0 t0 A0; apply r_store; exact A0
  |intros s0 t0 A0; apply r_update; exact A0
  |intros s0 t0 A0; apply f_update; exact A0
  |intros _ s0 t0 A0; apply r_sets; exact A0
  |intros s0 t0 A0; apply r_active; exact A0
  |intros s0 t0 s1 t1 (A0 & _) (A1 & _); rewrite A0, A1; reflexivity
  |intros s0 t0 A0; apply r_affine; exact A0
  |intros s0 t0 A0; apply r_residual; exact A0
  |intros s0 t0 A0; exact A0
  |intros s0 t0 A0; apply r_residual; exact A0
  |intros s0 t0 A0; apply f_residual; exact A0
  |intros s0 t0 A0; apply r_mono; exact A0
  |intros s0 t0 A0; apply r_block; [exact A0|apply NP; exact A0]
  |intros s0 t0 A0; apply r_block; [exact A0|apply NP; exact A0]
  |intros s0 t0 A0; apply r_block; [exact A0|apply NP; exact A0]
  |intros s0 t0 A0; apply f_apply; exact A0
  |intros s0 t0 A0; apply f_apply; exact A0
  |intros s0 t0 A0; apply f_apply; exact A0
  |intros s0 t0 A0; apply f_search; [exact A0|apply NP; apply A0]
  |intros s0 t0 A0; apply f_search; [exact A0|apply NP; apply A0]
  |intros s0 t0 A0; apply f_search; [exact A0|apply NP; apply A0]
  |intros s0 t0 A0; apply r_reset; exact A0
  |intros s0 t0 A0; apply r_reset; exact A0
  |intros s0 t0 A0; symmetry; apply A0
  |].
Lemma log_moved sp a fuel t oo s s' : Related s s' -> iterations e' sp a fuel t (mv oo) s' = iterations e sp a fuel t oo s.
Proof.
  intros A. unfold iterations. symmetry. same_operations sp ltac:(apply (rel_log_fresh (step_ops e) (step_ops e') sp Related FreshUpdate)).
  apply r_begin. exact A.
Qed.
Lemma step_moved sp a fuel t oo s s' : Related s s' ->
  moved_outcome (e_blocks e) w (solve_nonlinear_system e sp a fuel t oo s) (solve_nonlinear_system e' sp a fuel t (mv oo) s').
Proof.
  intros A. unfold solve_nonlinear_system.
  assert (Q : rel_outcome Related (solve_nonlinear (step_ops e) sp a fuel (begin_step e t oo s)) (solve_nonlinear (step_ops e') sp a fuel (begin_step e' t (mv oo) s'))).
  { same_operations sp ltac:(apply (rel_solve_fresh (step_ops e) (step_ops e') sp Related FreshUpdate)). apply r_begin. exact A. }
  destruct (solve_nonlinear (step_ops e) sp a fuel _) as [r| | |], (solve_nonlinear (step_ops e') sp a fuel _) as [r'| | |]; cbn in Q; try tauto; try exact Logic.I.
  clear A. rename Q into A. open A. cbn [moved_outcome]. close. rewrite A4, A9. apply Hfinish.
Qed.
End Step.

Lemma related_problem b w e e' : rigid b w -> moved_problem b w e e' ->
  forall sp a fuel t oo s s', moved_state (e_blocks e) w s s' ->
  moved_outcome (e_blocks e) w (solve_nonlinear_system e sp a fuel t oo s) (solve_nonlinear_system e' sp a fuel t (moved w oo) s') /\
  iterations e' sp a fuel t (moved w oo) s' = iterations e sp a fuel t oo s.
Proof.
  intros RG ((W1 & W2 & W3) & W4 & (V1 & V2 & V3) & V4 & MS & NP) sp a fuel t oo s s' Q.
  assert (K1 : forall h, e_store e' h = e_store e h) by (intros h; rewrite W1, V1; reflexivity).
  assert (K2 : forall old x h, e_update e' (moved w old) (moved w x) h = e_update e old x h) by (intros old x h; rewrite W2, V2; apply update_moved; assumption).
  assert (K3 : forall x h, e_finish e' (moved w x) h = e_finish e x h) by (intros x h; rewrite W4, V4; apply finish_moved; assumption).
  assert (K4 : forall old x h k, e_norms e' (moved w old) (moved w x) h k = e_norms e old x h k) by (intros old x h k; rewrite W3, V3; apply norms_moved; assumption).
  split; [apply step_moved|apply log_moved]; assumption.
Qed.

(** A time step. *)
Theorem C115_moved_step : forall b w e e' sp a fuel t oo s s', rigid b w -> moved_problem b w e e' -> moved_state (e_blocks e) w s s' ->
  moved_outcome (e_blocks e) w (solve_nonlinear_system e sp a fuel t oo s) (solve_nonlinear_system e' sp a fuel t (moved w oo) s') /\
  iterations e' sp a fuel t (moved w oo) s' = iterations e sp a fuel t oo s.
Proof. intros b w e e' sp a fuel t oo s s' RG MP Q. apply (related_problem b w e e' RG MP). exact Q. Qed.

(** Any number of time steps, the rigid motion being the same in all of them. *)
Theorem C115_moved_run : forall b w blocks sp a fuel es es', rigid b w ->
  Forall2 (fun x x' => moved_problem b w (fst x) (fst x') /\ snd x' = snd x /\ e_blocks (fst x) = blocks) es es' ->
  forall oo s s', moved_state blocks w s s' -> moved_run blocks w (run sp a fuel es oo s) (run sp a fuel es' (moved w oo) s').
Proof.
  intros b w blocks sp a fuel es es' RG F. induction F as [|[e t] [e' t'] es es' E F IH]; intros oo s s' Q; cbn [run].
  - split; cbn [fst snd]; [split; [reflexivity|exact Q]|constructor].
  - cbn [fst snd] in E. destruct E as (MP & -> & BL). rewrite <- BL in Q.
    destruct (related_problem b w e e' RG MP sp a fuel t oo s s' Q) as (P & _). rewrite BL in P.
    destruct (solve_nonlinear_system e _ _ _ _ _ _) as [r| | |], (solve_nonlinear_system e' _ _ _ _ _ _) as [r'| | |]; cbn [moved_outcome] in P; try tauto; try (split; cbn; [exact Logic.I|constructor]).
    unfold shift_solutions.
    match goal with |- moved_run _ _ (let '(o, l) := run _ _ _ _ ?x ?u in _) (let '(o', l') := run _ _ _ _ ?y ?v in _) => assert (G : moved_run blocks w (run sp a fuel es x u) (run sp a fuel es' y v)) end.
    { assert (P8 : st_old r' = moved w (st_old r)) by apply P. rewrite P8. apply IH.
      destruct P as (Q1 & Q2 & Q3 & Q4 & Q5 & Q6 & Q7 & Q8 & Q9 & Q10 & Q11 & Q12). unfold moved_state. cbn [st_active st_inactive st_internal st_trial st_tmp st_initial st_newton st_old st_hist st_res st_res_tmp st_norms].
      repeat (match goal with |- _ /\ _ => split end); assumption. }
    destruct (run sp a fuel es _ _) as [o l], (run sp a fuel es' _ _) as [o' l']. destruct G as (G1 & G2). split; cbn [fst snd] in *; [exact G1|constructor; assumption].
Qed.

(** What is assembled, and the histories. *)
Theorem C115_assembled_systems : forall b w old x r k pattern, rigid b w ->
  body_residual b (moved w old) (moved w x) r k = body_residual b old x r k /\
  body_jacobian b (moved w old) (moved w x) r pattern k = body_jacobian b old x r pattern k /\
  body_norms b (moved w old) (moved w x) r k = body_norms b old x r k /\
  body_objective b (moved w old) r k (moved w x) = body_objective b old r k x.
Proof.
  intros b w old x r k pattern RG. split; [apply residual_moved; assumption|]. split; [apply jacobian_moved; assumption|].
  split; [apply norms_moved; assumption|apply objective_moved; assumption].
Qed.
Theorem C115_histories : forall b w old x r, rigid b w ->
  body_update b (moved w old) (moved w x) r = body_update b old x r /\ body_finish b (moved w x) r = body_finish b x r.
Proof. intros b w old x r RG. split; [apply update_moved|apply finish_moved]; assumption. Qed.

(** Linear solvers called with the assembled systems. *)
Theorem C115_linear_solvers : forall b w blocks pattern LS solver s s', rigid b w -> ignores_first_guess LS -> solves_assembled b pattern LS solver ->
  moved_state blocks w s s' -> solver s' = solver s.
Proof.
  intros b w blocks pattern LS solver s s' RG IG SA (_ & _ & Q3 & Q4 & _ & _ & Q7 & _ & Q9 & _).
  rewrite !SA, Q3, Q4, Q7, Q9, (residual_moved b w RG), (jacobian_moved b w RG). apply IG.
Qed.
(** Slip resistances of the dofs. *)
Theorem C115_resistances : forall ns h char keys owned_slip active w trial old res tmp,
  reset_and_update_slip_resistances ns h char keys owned_slip active (moved w trial) (moved w old) res tmp =
  reset_and_update_slip_resistances ns h char keys owned_slip active trial old res tmp.
Proof.
  intros ns h char keys owned_slip active w trial old res tmp. unfold reset_and_update_slip_resistances. destruct (flag_perfect_plasticity h); [reflexivity|].
  assert (A : forall dofs current bs acc, harden_dof h char (moved w trial) (moved w old) dofs current bs acc = harden_dof h char trial old dofs current bs acc).
  { intros dofs current bs. induction bs as [|b bs IH]; intros acc; cbn [harden_dof]; [reflexivity|]. destruct (nth_error dofs b) as [d|]; [|reflexivity]. rewrite IH.
    replace (moved w trial d - moved w old d) with (trial d - old d) by (unfold moved; ring). reflexivity. }
  generalize owned_slip at 2 4. intros todo. revert tmp. induction todo as [|d todo IH]; intros tmp; cbn [update_resistances]; [reflexivity|].
  destruct (mem d active); [|apply IH]. destruct (dof_info ns keys owned_slip d) as [dofs current]. rewrite A. destruct (harden_dof _ _ _ _ _ _ _ _) as [hd| |]; cbn [rbind]; [apply IH|reflexivity|reflexivity].
Qed.

(** Translations are rigid. *)
Lemma sum_of_totals nd comp d (a : nat -> R) (W f : nat -> R) : (forall k, (k < nd)%nat -> W k = if Nat.ltb (comp k) d then a (comp k) else 0) ->
  sumn nd (fun k => W k * f k) = sumn d (fun m => a m * total nd comp m f).
Proof.
  intros E. unfold total.
  rewrite (sumn_ext nd _ (fun k => sumn d (fun m => a m * (if Nat.eqb (comp k) m then f k else 0)))).
  - rewrite sumn_swap. apply sumn_ext. intros m _. rewrite sumn_scal. reflexivity.
  - intros k Hk. rewrite (E k Hk). destruct (Nat.ltb_spec (comp k) d) as [L|L].
    + assert (G : forall n, (comp k < n)%nat -> sumn n (fun m => a m * (if Nat.eqb (comp k) m then f k else 0)) = a (comp k) * f k).
      { induction n as [|n IH]; intros Ln; [lia|]. cbn [sumn]. destruct (Nat.eq_dec (comp k) n) as [->|N].
        - rewrite sumn_zero; [rewrite Nat.eqb_refl; ring|]. intros m Hm. destruct (Nat.eqb_spec n m); [lia|ring].
        - rewrite IH by lia. destruct (Nat.eqb_spec (comp k) n); [lia|ring]. }
      symmetry. apply G. exact L.
    + rewrite sumn_zero; [ring|]. intros m Hm. destruct (Nat.eqb_spec (comp k) m); [lia|ring].
Qed.
Theorem C115_translations : forall b a w, ordinary_elements b -> translation b a w -> (forall x, b_energy b (moved w x) = b_energy b x) -> rigid b w.
Proof.
  intros b a w (OC & OF) T EN.
  assert (Z : forall c k, In c (b_cells b) -> (k < el_nd (b_element b c))%nat -> forall z, ((el_comp (b_element b c) k < cr_dim (b_crystal b c))%nat -> z = 0) -> local_values b w c k * z = 0).
  { intros c k Hc Hk z A. rewrite (T c Hc k Hk). destruct (Nat.ltb_spec (el_comp (b_element b c) k) (cr_dim (b_crystal b c))) as [L|L]; [rewrite (A L)|]; ring. }
  split; [|split; [|exact EN]].
  - intros c Hc. cbv zeta. destruct (OC c Hc) as (O1 & O2). split; [|split].
    + intros q i j. rewrite (sum_of_totals _ _ _ a _ _ (T c Hc)). apply sumn_zero. intros m Hm. rewrite (O1 q i j m Hm). ring.
    + intros q s. apply sumn_zero. intros k Hk. apply Z; [exact Hc|exact Hk|]. intros L. apply O2; assumption.
    + intros q s i. apply sumn_zero. intros k Hk. apply Z; [exact Hc|exact Hk|]. intros L. apply O2; assumption.
  - intros c n Hc Hn. cbv zeta. destruct (OF c n Hc Hn) as (Hn' & D & N1 & N2 & N3 & P & Q).
    pose proof (T c Hc) as Tc. pose proof (T n Hn') as Tn. rewrite N1 in Tc. rewrite N2, D in Tn.
    split; [|split; [|split]].
    + intros q i. rewrite (sum_of_totals _ _ _ a _ _ Tn), (sum_of_totals _ _ _ a _ _ Tc). apply sumn_ext. intros m Hm. destruct (P q i m Hm) as (-> & -> & _). reflexivity.
    + intros q i. rewrite N3. rewrite (sum_of_totals _ _ _ a _ _ Tn), (sum_of_totals _ _ _ a _ _ Tc). apply sumn_ext. intros m Hm. destruct (P q i m Hm) as (-> & _ & ->). reflexivity.
    + intros q s. apply sumn_zero. intros k Hk. apply Z; [exact Hc|rewrite N1; exact Hk|]. intros L. apply (Q k q s Hk). exact L.
    + intros q s. apply sumn_zero. intros k Hk. apply Z; [exact Hn'|rewrite N2; exact Hk|]. intros L. apply (Q k q s Hk). rewrite <- D. exact L.
Qed.
