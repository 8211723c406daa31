(** * C119: two time steps which differ in the representation of the histories. *)
From Coq Require Import ZArith Lra Lia FunctionalExtensionality.
From Verif Require Import Num Tensors SumLemmas ModelElastic ModelMicro ModelCohesive ModelHistory ModelFEField ModelLineSearch ModelActiveSet ModelSolver ModelLoading ModelShear ModelProgram SpecProgram
  ModelLinear SpecLinear ModelAssembly ModelInterface ModelSweep ModelStep ModelBody SpecBody ModelTangent SpecMirror ProofSimulation SpecNames.
Open Scope R_scope.

Section Step.
Context {H : Type} (HR : H -> H -> Prop) (e e' : env H).
Hypothesis SN : same_but_names HR e e'.
Hypothesis Hstore : forall h h', HR h h' -> HR (e_store e h) (e_store e' h').
Hypothesis Hupdate : forall old x h h', HR h h' -> HR (e_update e old x h) (e_update e' old x h').
Hypothesis Hfinish : forall x h h', HR h h' -> HR (e_finish e x h) (e_finish e' x h').
Hypothesis Hnorms : forall old x h h' k, HR h h' -> e_norms e' old x h' k = e_norms e old x h k.
Local Notation Related := (state_with HR).
Ltac members := cbn [st_active st_inactive st_internal st_trial st_tmp st_initial st_newton st_old st_hist st_res st_res_tmp st_norms].
Ltac open A := destruct A as (A1 & A2 & A3 & A4 & A5 & A6 & A7 & A8 & A9 & A10 & A11 & A12).
Ltac close := unfold state_with; members; repeat (match goal with |- _ /\ _ => split end); try assumption; try reflexivity.

Lemma same_layout : layout e' = layout e.
Proof. destruct SN as (A & B & _). unfold layout. rewrite A, B. reflexivity. Qed.
Lemma m_store s s' : Related s s' -> Related (op_store s) (op_store s').
Proof. intros A. open A. unfold op_store. close. Qed.
Lemma m_update s s' : Related s s' -> Related (op_update e s) (op_update e' s').
Proof.
  intros A. open A. destruct SN as (_ & _ & B & _). unfold op_update. close.
  - rewrite A4, A8. apply Hupdate, A9.
  - rewrite B, A1, A4, A8, A11. reflexivity.
Qed.
Lemma m_sets s s' : Related s s' -> Related (op_sets e s) (op_sets e' s').
Proof.
  intros A. destruct SN as (B & _ & _ & N). destruct (N s s' A) as (N1 & _). open A.
  assert (P : current_problem e' s' = current_problem e s) by (unfold current_problem; rewrite B, A8, A10; reflexivity).
  unfold op_sets. rewrite N1, P, A1, A2, A3, A4. close.
Qed.
Lemma m_active s s' : Related s s' -> Related (all_active (step_ops e) s) (all_active (step_ops e') s').
Proof. intros A. destruct SN as (B & _). open A. cbn [step_ops all_active]. rewrite B. close. Qed.
Lemma m_affine s s' : Related s s' -> Related (op_affine e s) (op_affine e' s').
Proof. intros A. destruct SN as (B & _). open A. unfold op_affine, set_trial. rewrite B, A4. close. Qed.
Lemma m_residual s s' : Related s s' -> Related (op_residual e s) (op_residual e' s').
Proof. intros A. open A. unfold op_residual, set_norms. close. rewrite A3, A4, A8. apply Hnorms, A9. Qed.
Lemma m_apply l b s s' : Related s s' -> Related (op_apply e l b s) (op_apply e' l b s').
Proof. intros A. open A. unfold op_apply, set_trial. rewrite same_layout, A4, A7. close. Qed.
Lemma m_reset b s s' : Related s s' -> Related (op_reset e b s) (op_reset e' b s').
Proof. intros A. open A. unfold op_reset, set_trial. rewrite same_layout, A4, A6. close. Qed.
Lemma m_back s s' : Related s s' -> Related (set_trial s (reset_trial (layout e) (st_trial s) (st_tmp s) Macro)) (set_trial s' (reset_trial (layout e') (st_trial s') (st_tmp s') Macro)).
Proof. intros A. open A. unfold set_trial. rewrite same_layout, A4, A5. close. Qed.
Lemma m_search (f f' : sstate H -> list R) b s s' : Related s s' -> f' s' = f s -> rel_result Related (op_search e f b s) (op_search e' f' b s').
Proof.
  intros A E. unfold op_search. cbn [rel_result]. rewrite E. generalize (f s). intros l. clear E. revert s s' A.
  induction l as [|x l IH]; intros s s' A; cbn [fold_left]; [exact A|]. apply IH. unfold op_search_pass. apply m_residual, m_update, m_apply, m_back. exact A.
Qed.
Lemma m_block (f f' : sstate H -> result vec) b s s' : Related s s' -> f' s' = f s -> rel_result Related (op_solve_block e f b s) (op_solve_block e' f' b s').
Proof.
  intros A E. unfold op_solve_block. rewrite E. destruct (f s) as [x| |]; cbn [rbind rel_result]; auto. open A. unfold set_newton. rewrite same_layout, A3. close.
Qed.
Lemma m_mono s s' : Related s s' -> rel_result Related (op_solve_mono e s) (op_solve_mono e' s').
Proof.
  intros A. destruct SN as (_ & _ & _ & N). destruct (N s s' A) as (_ & N2 & _). unfold op_solve_mono. rewrite N2.
  destruct (e_solve_mono e s) as [x| |]; cbn [rbind rel_result]; auto. open A. unfold set_newton. rewrite same_layout, A3, A7. close.
Qed.
Lemma m_begin t oo s s' : Related s s' -> Related (begin_step e t oo s) (begin_step e' t oo s').
Proof.
  intros A. destruct SN as (B & _). open A. unfold begin_step. rewrite B, A8. destruct (extrapolate _ _ _ _ _ _ _ _ _) as [tr up]. close. apply Hstore, A9.
Qed.
Ltac same_operations sp tac :=
  tac; cbn [step_ops store_trial update_internal recompute_sets the_active_set distribute_affine assemble_system assemble_jac assemble_res solve_mono solve_macro solve_micro solve_reduced
      apply_mono apply_macro apply_micro search_mono search_macro search_micro reset_to_initial reset_micro_to_initial squares];
  [intros s0 t0 A0; apply m_store; exact A0
  |intros s0 t0 A0; apply m_update; exact A0
  |intros _ s0 t0 A0; apply m_sets; exact A0
  |intros s0 t0 A0; apply m_active; exact A0
  |intros s0 t0 s1 t1 (A0 & _) (A1 & _); rewrite A0, A1; reflexivity
  |intros s0 t0 A0; apply m_affine; exact A0
  |intros s0 t0 A0; apply m_residual; exact A0
  |intros s0 t0 A0; exact A0
  |intros s0 t0 A0; apply m_residual; exact A0
  |intros s0 t0 A0; apply m_mono; exact A0
  |intros s0 t0 A0; apply m_block; [exact A0|apply SN; exact A0]
  |intros s0 t0 A0; apply m_block; [exact A0|apply SN; exact A0]
  |intros s0 t0 A0; apply m_block; [exact A0|apply SN; exact A0]
  |intros s0 t0 A0; apply m_apply; exact A0
  |intros s0 t0 A0; apply m_apply; exact A0
  |intros s0 t0 A0; apply m_apply; exact A0
  |intros s0 t0 A0; apply m_search; [exact A0|apply SN; exact A0]
  |intros s0 t0 A0; apply m_search; [exact A0|apply SN; exact A0]
  |intros s0 t0 A0; apply m_search; [exact A0|apply SN; exact A0]
  |intros s0 t0 A0; apply m_reset; exact A0
  |intros s0 t0 A0; apply m_reset; exact A0
  |intros s0 t0 A0; symmetry; apply A0
  |].
Lemma log_with sp a fuel t oo s s' : Related s s' -> iterations e' sp a fuel t oo s' = iterations e sp a fuel t oo s.
Proof.
  intros A. unfold iterations. symmetry. same_operations sp ltac:(apply (rel_log (step_ops e) (step_ops e') sp Related)). apply m_begin. exact A.
Qed.
Lemma step_with sp a fuel t oo s s' : Related s s' ->
  outcome_with Related (solve_nonlinear_system e sp a fuel t oo s) (solve_nonlinear_system e' sp a fuel t oo s').
Proof.
  intros A. unfold solve_nonlinear_system.
  assert (Q : rel_outcome Related (solve_nonlinear (step_ops e) sp a fuel (begin_step e t oo s)) (solve_nonlinear (step_ops e') sp a fuel (begin_step e' t oo s'))).
  { same_operations sp ltac:(apply (rel_solve (step_ops e) (step_ops e') sp Related)). apply m_begin. exact A. }
  destruct (solve_nonlinear (step_ops e) sp a fuel _) as [r| | |], (solve_nonlinear (step_ops e') sp a fuel _) as [r'| | |]; cbn in Q; try tauto; try exact Logic.I.
  clear A. rename Q into A. open A. cbn [outcome_with]. close. rewrite A4. apply Hfinish, A9.
Qed.
End Step.
