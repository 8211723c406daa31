(** * C97: the shear problem from the set-up to the last step. *)
From Coq Require Import ZArith Lia Lra FunctionalExtensionality.
From Verif Require Import Num SumLemmas ModelHistory ModelCohesive SpecCohesive ModelFEField ModelLineSearch ModelActiveSet PropActiveSet ModelSolver SpecSolver PropSolver ModelLoading SpecLoading PropLoading ModelShear SpecShear
  PropShear SpecLinear PropLinear ModelInterface ModelSweep ModelStep SpecStep PropStep ModelBody SpecBody PropBody ModelTangent SpecTangent SpecRun PropRun ModelProgram SpecProgram.
Open Scope R_scope.

(** ** The accepted solution obeys the constraints *)
Section Obeys.
Context {H : Type} (sp : solver_parameters) (e : env H).
Let c := p_affine (e_problem e).
Hypothesis CL : lines_are_closed c.
Hypothesis WB : forall d es z d' w, c d = Some (es, z) -> In (d', w) es -> e_blocks e d' = e_blocks e d.
Let o := step_ops e.

Definition obeys_block (b : block_index) (x : vec) : Prop := forall d es z, c d = Some (es, z) -> e_blocks e d = b ->
  x d = lsum (fun f => snd f * x (fst f)) es + z.
Definition good (s : sstate H) : Prop := obeys_block Macro (st_trial s) /\ obeys_block Micro (st_trial s).

Lemma fold_lsum (x : vec) es z : fold_left (fun acc f => acc + snd f * x (fst f)) es z = lsum (fun f => snd f * x (fst f)) es + z.
Proof. revert z. induction es as [|f es IH]; intros z; cbn [fold_left lsum]; [ring|]. rewrite IH. ring. Qed.
Lemma combine_lsum (x : vec) es : ModelLineSearch.combine x es = lsum (fun f => snd f * x (fst f)) es.
Proof. induction es as [|f es IH]; [reflexivity|]. unfold ModelLineSearch.combine in *. cbn [fold_right lsum]. rewrite IH. reflexivity. Qed.
Lemma block_eqb_true x y : block_eqb x y = true <-> x = y.
Proof. destruct x, y; cbn; split; congruence. Qed.
Lemma distributed (x : vec) b : obeys_block b (ModelActiveSet.distribute c x).
Proof.
  intros d es z E _. unfold ModelActiveSet.distribute at 1. rewrite E, fold_lsum. f_equal. apply lsum_ext. intros [f w] Hf. cbn [fst snd].
  unfold ModelActiveSet.distribute. rewrite (CL d es z f w E Hf). reflexivity.
Qed.
Lemma distributed_block (x y : vec) b : obeys_block b (set_block (layout e) b x (ModelLineSearch.distribute (layout e) y)).
Proof.
  intros d es z E B. unfold set_block, layout. cbn [block_of]. rewrite (proj2 (block_eqb_true _ _) B).
  unfold ModelLineSearch.distribute at 1. cbn [constraint]. fold c. rewrite E, combine_lsum. f_equal. apply lsum_ext. intros [f w] Hf. cbn [fst snd].
  rewrite (WB d es z f w E Hf). rewrite (proj2 (block_eqb_true _ _) B). unfold ModelLineSearch.distribute. cbn [constraint]. fold c.
  rewrite (CL d es z f w E Hf). reflexivity.
Qed.
Lemma other_block_kept (x y : vec) b b' : b <> b' -> obeys_block b' x -> obeys_block b' (set_block (layout e) b x y).
Proof.
  intros N O d es z E B.
  assert (K : forall d', e_blocks e d' = b' -> set_block (layout e) b x y d' = x d').
  { intros d' B'. unfold set_block, layout. cbn [block_of]. destruct (block_eqb (e_blocks e d') b) eqn:X; [|reflexivity].
    apply block_eqb_true in X. congruence. }
  rewrite (K d B), (O d es z E B). f_equal. apply lsum_ext. intros [f w] Hf. cbn [fst snd]. rewrite K; [reflexivity|].
  rewrite (WB d es z f w E Hf). exact B.
Qed.
Lemma assigned (x y : vec) b : obeys_block Macro x -> obeys_block Micro x ->
  obeys_block Macro (set_block (layout e) b x (ModelLineSearch.distribute (layout e) y)) /\ obeys_block Micro (set_block (layout e) b x (ModelLineSearch.distribute (layout e) y)).
Proof.
  intros A B. destruct b; split; first [apply distributed_block|apply other_block_kept; [discriminate|assumption]].
Qed.
Lemma good_affine s : good (op_affine e s).
Proof. split; apply distributed. Qed.
Lemma good_sets s : good (op_sets e s).
Proof.
  assert (E : exists x, st_trial (op_sets e s) = ModelActiveSet.distribute c x) by (eexists; reflexivity).
  destruct E as (x & E). split; rewrite E; apply distributed.
Qed.
Lemma good_apply l b s : good s -> good (op_apply e l b s).
Proof. intros (A & B). exact (assigned _ _ _ A B). Qed.
Lemma good_reset b s : good s -> good (op_reset e b s).
Proof. intros (A & B). exact (assigned _ _ _ A B). Qed.
Lemma good_pass b l s : good s -> good (op_search_pass e b s l).
Proof.
  intros (A & B). unfold op_search_pass. apply (good_apply l b (set_trial s (reset_trial (layout e) (st_trial s) (st_tmp s) Macro))).
  exact (assigned _ _ _ A B).
Qed.
Lemma good_passes b ls : forall s, good s -> good (fold_left (op_search_pass e b) ls s).
Proof. induction ls as [|l ls IH]; intros s X; [exact X|]. cbn [fold_left]. apply IH, good_pass, X. Qed.
Lemma good_block (f : sstate H -> result vec) b s q : good s -> op_solve_block e f b s = Ok q -> good q.
Proof. intros X E. unfold op_solve_block in E. destruct (f s); try discriminate. injection E as <-. exact X. Qed.
Lemma good_micro s r : good s -> micro_iteration o sp s = Ok r -> good r.
Proof.
  intros X. unfold micro_iteration. destruct (solve_micro o _) as [q| |] eqn:E; try discriminate. cbn [rbind].
  apply good_block in E; [|exact X]. apply (good_apply 1 Micro) in E.
  unfold maybe_search. destruct (micro_line_search sp); intros F; injection F as <-; [apply good_passes|]; exact E.
Qed.
Lemma good_micro_loop : forall loop left it s log r, good s -> fst (micro_loop o sp loop left it s log) = Done r -> good r.
Proof.
  intros loop. induction left as [|left IH]; intros it s log r Hs; cbn [micro_loop]; [discriminate|].
  destruct (micro_iteration o sp s) as [s1| |] eqn:E; try discriminate.
  apply (good_micro _ _ Hs) in E. destruct (xltb _ _); [intros X; injection X as <-; exact E|apply IH, E].
Qed.
Lemma good_bounce : forall fuel mit mloop uloop fmicro s log r, (fmicro = true -> good s) ->
  fst (bounce o sp fuel mit mloop uloop fmicro s log) = Done r -> good r.
Proof.
  induction fuel as [|fuel IH]; intros mit mloop uloop fmicro s log r Hs; cbn [bounce]; [discriminate|].
  destruct (if andb _ _ then false else _).
  - destruct fmicro; [intros X; injection X as <-; auto|].
    destruct (call_active_set o sp true s) as [s1 f1].
    assert (S3 : good (if reset_at_micro_loop sp then reset_micro_to_initial o (distribute_affine o s1) else distribute_affine o s1)).
    { destruct (reset_at_micro_loop sp); [apply good_reset|]; apply good_affine. }
    match goal with |- context [micro_loop o sp ?a ?b ?c ?q ?l] =>
      pose proof (good_micro_loop a b c q l) as D; destruct (micro_loop o sp a b c q l) as [[s4| | |] log'] end; cbn [fst] in D; try discriminate.
    destruct (Nat.leb _ _); [|discriminate]. specialize (D s4 S3 eq_refl). apply IH. auto.
  - destruct (Nat.leb _ _); [|discriminate]. destruct (macro_iteration o sp (mit + 1) s) as [s1| |]; try discriminate. apply IH. discriminate.
Qed.
Lemma good_embrace_macro it s r : good s -> embrace_macro o sp it s = Ok r -> good r.
Proof.
  intros X. unfold embrace_macro. destruct (if Nat.eqb it 1 then _ else _) as [q| |] eqn:E; try discriminate. cbn [rbind].
  assert (Q : good q) by (destruct (Nat.eqb it 1); exact (good_block _ _ _ _ X E)). apply (good_apply 1 Macro) in Q.
  unfold maybe_search. destruct (macro_line_search sp); intros F; injection F as <-; [apply good_passes|]; exact Q.
Qed.
Lemma good_embrace : forall fuel mit flag fmicro s log r, good s ->
  fst (embrace o sp fuel mit flag fmicro s log) = Done r -> good r.
Proof.
  induction fuel as [|fuel IH]; intros mit flag fmicro s log r Hs; cbn [embrace]; [discriminate|].
  assert (R1 : good (reevaluate o s)) by exact Hs.
  destruct (_ && fmicro)%bool; [intros X; injection X as <-; exact R1|].
  destruct (Nat.leb _ _); [|discriminate].
  destruct (embrace_macro o sp (mit + 1) (reevaluate o s)) as [s1| |] eqn:E; try discriminate.
  apply (good_embrace_macro _ _ _ R1) in E.
  assert (S2 : good (fst (call_active_set o sp flag s1))).
  { unfold call_active_set. destruct (rate_independent sp); [|exact E]. destruct flag; [apply good_sets|exact E]. }
  destruct (call_active_set o sp flag s1) as [s2 f2]; cbn [fst] in S2.
  assert (S3 : good (if reset_at_micro_loop sp then reset_micro_to_initial o s2 else s2)).
  { destruct (reset_at_micro_loop sp); [apply good_reset|]; exact S2. }
  match goal with |- context [micro_loop o sp ?a ?b ?c ?q ?l] =>
    pose proof (good_micro_loop a b c q l) as D; destruct (micro_loop o sp a b c q l) as [[s4| | |] log'] end; cbn [fst] in D; try discriminate.
  specialize (D s4 S3 eq_refl). apply IH. exact D.
Qed.

(** The monolithic algorithm works on one block. *)
Lemma mono_good flag s r flag' : mono_iteration o sp flag s = Ok (r, flag') -> obeys_block Macro (st_trial r).
Proof.
  unfold mono_iteration. destruct (call_active_set o sp flag _) as [s1 f1].
  destruct (solve_mono o _) as [q| |]; try discriminate. cbn [rbind].
  assert (Z : obeys_block Macro (st_trial (assemble_res o (update_internal o (apply_mono o q))))) by apply distributed_block.
  unfold maybe_search. destruct (mono_line_search sp); cbn [rbind]; intros F.
  - cbn in F. injection F as <- <-. revert Z. generalize (assemble_res o (update_internal o (apply_mono o q))). intros s0 Z.
    change (op_residual e (op_update e (op_apply e 1 Macro q))) with (assemble_res o (update_internal o (apply_mono o q))) .
    assert (G : forall ls s0, obeys_block Macro (st_trial s0) -> obeys_block Macro (st_trial (fold_left (op_search_pass e Macro) ls s0))).
    { induction ls as [|l ls IH]; intros s2 X; [exact X|]. cbn [fold_left]. apply IH. apply distributed_block. }
    apply G. apply distributed_block.
  - injection F as <- <-. exact Z.
Qed.
Lemma mono_loop_good : forall fuel it flag s log r, fst (mono_loop o sp fuel it flag s log) = Done r -> obeys_block Macro (st_trial r).
Proof.
  induction fuel as [|fuel IH]; intros it flag s log r; cbn [mono_loop]; [discriminate|].
  destruct (Nat.leb _ _); [|discriminate]. destruct (mono_iteration o sp flag s) as [[s1 f1]| |] eqn:E; try discriminate.
  apply mono_good in E. destruct (xltb _ _); [|apply IH].
  destruct (rate_independent sp) eqn:RI; [|intros X; injection X as <-; exact E].
  unfold call_active_set. rewrite RI. destruct (list_eq_dec _ _ _); [|apply IH].
  intros X; injection X as <-. apply good_sets.
Qed.
End Obeys.

(** Whatever the algorithm and the subroutines do: the solution of a step obeys the constraints
    of the step (boundary conditions, periodicity, hanging nodes). *)
Theorem C97_accepted_solution_obeys_the_constraints : forall H sp a fuel (e : env H) t oo s r,
  well_formed_constraints a e -> solve_nonlinear_system e sp a fuel t oo s = Done r ->
  obeys (p_affine (e_problem e)) (st_trial r).
Proof.
  intros H sp a fuel e t oo s r (CL & WB & MO) E. unfold solve_nonlinear_system in E.
  destruct (solve_nonlinear _ _ _ _ _) as [q| | |] eqn:S; try discriminate. injection E as <-. cbn [st_trial].
  assert (G : obeys_block e Macro (st_trial q) /\ (a <> Monolithic -> obeys_block e Micro (st_trial q))).
  { unfold solve_nonlinear in S. destruct a.
    - split; [|congruence]. eapply mono_loop_good; [exact CL|exact WB|exact S].
    - assert (F : forall x, false = true -> good e x) by discriminate. destruct (good_bounce sp e CL WB _ _ _ _ _ _ _ _ (F _) S) as (A & B). auto.
    - destruct (good_embrace sp e CL WB _ _ _ _ _ _ _ (good_affine e CL _) S) as (A & B). auto. }
  destruct G as (G1 & G2). intros d es z D. destruct (e_blocks e d) eqn:B; [exact (G1 d es z D B)|].
  destruct a; [rewrite (MO eq_refl d) in B; discriminate|apply (G2 (fun X => ltac:(discriminate X)) d es z D B)|apply (G2 (fun X => ltac:(discriminate X)) d es z D B)].
Qed.

(** ** The run as a sequence of steps *)
Lemma program_steps {H} (p : program H) a inner : forall fuel step current previous ts oo s tr e,
  program_loop p a inner fuel step current previous ts oo s = (tr, e) ->
  exists x, ModelStep.run (pr_parameters p) (pr_algorithm p) inner (schedule p a step current previous ts (times_of tr)) oo s = (Done x, map ac_state tr).
Proof.
  induction fuel as [|fuel IH]; intros step current previous ts oo s tr e; cbn [program_loop].
  - destruct (Rltb _ _); intros E; injection E as <- <-; cbn; eauto.
  - destruct (Rltb _ _); [|intros E; injection E as <- <-; cbn; eauto].
    set (next := clipped_next _ _ _ _). cbv zeta.
    destruct (solve_nonlinear_system _ _ _ _ _ _ _) as [r| | |] eqn:S; try (intros E; injection E as <- <-; cbn; eauto; fail).
    destruct (shift_solutions r) as [oo' s'] eqn:SH.
    destruct (Z.eqb _ _); [intros E; injection E as <- <-; cbn; eauto|].
    destruct (program_loop _ _ _ _ _ _ _ _ _ _) as [tr1 e1] eqn:L. intros E. injection E as <- <-.
    destruct (IH _ _ _ _ _ _ _ _ L) as (x & R1). exists x. cbn [times_of map schedule ac_record ac_state ModelLoading.st_time ModelStep.run].
    rewrite S, SH. unfold times_of in R1. rewrite R1. reflexivity.
Qed.
Theorem C97_run_is_a_sequence_of_steps : forall H (p : program H) a inner fuel oo s tr e,
  program_run p a inner fuel oo s = (tr, e) ->
  exists x, ModelStep.run (pr_parameters p) (pr_algorithm p) inner (schedule p a 0 start_time 0 [] (times_of tr)) oo s = (Done x, map ac_state tr).
Proof. intros H p a inner fuel oo s tr e. apply program_steps. Qed.

(** What the time loop of C50 and C55 records. *)
Lemma program_records {H} (p : program H) a inner : pr_frequency p <> 0%Z ->
  forall fuel step current previous ts oo s tr e, program_loop p a inner fuel step current previous ts oo s = (tr, e) ->
  (e = Completed -> time_loop a (pr_loading p) (pr_frequency p) (fun _ => true) fuel step current = (map ac_record tr, Finished)) /\
  (e = SolverAborted -> time_loop a (pr_loading p) (pr_frequency p) (fun k => Z.ltb k (step + Z.of_nat (length tr))) fuel step current = (map ac_record tr, SolverThrew)) /\
  e <> FrequencyZero.
Proof.
  intros F0. induction fuel as [|fuel IH]; intros step current previous ts oo s tr e; cbn [program_loop time_loop].
  - destruct (Rltb _ _); intros E; injection E as <- <-; repeat split; try discriminate; intros _; reflexivity.
  - destruct (Rltb _ _); [|intros E; injection E as <- <-; repeat split; try discriminate; reflexivity].
    cbv zeta. destruct (solve_nonlinear_system _ _ _ _ _ _ _) as [r| | |].
    2-4: intros E; injection E as <- <-; repeat split; try discriminate; intros _; cbn [length Z.of_nat]; rewrite Z.add_0_r, Z.ltb_irrefl; reflexivity.
    destruct (shift_solutions r) as [oo' s']. destruct (Z.eqb_spec (pr_frequency p) 0) as [X|_]; [contradiction|].
    destruct (program_loop _ _ _ _ _ _ _ _ _ _) as [tr1 e1] eqn:L. intros E. injection E as <- <-.
    destruct (IH _ _ _ _ _ _ _ _ L) as (A & B & C). split; [|split; [|exact C]].
    + intros Z. rewrite (A Z). reflexivity.
    + intros Z. specialize (B Z). rewrite (proj2 (Z.ltb_lt _ _)) by (cbn [length]; lia).
      replace (step + Z.of_nat (length (_ :: tr1)))%Z with (step + 1 + Z.of_nat (length tr1))%Z by (cbn [length]; lia). rewrite B. reflexivity.
Qed.

(** ** The boundary values *)
Lemma obeys_sheared {H} (p : program H) t ts x : SpecShear.consistent (pr_strip p) -> (0 < s_nc (pr_strip p))%nat -> (pr_component p < s_dim (pr_strip p))%nat ->
  l_type (pr_loading p) = Monotonic -> obeys (affine_at p (t :: ts)) x -> sheared p t x.
Proof.
  intros C N K T O b B HN. unfold affine_at in O. cbn [map] in O.
  destruct (C82_prescribed_values (pr_strip p) (control_time p 0) (control_time p t) (map (control_time p) ts) b C N B HN) as (_ & P2 & P3).
  split; [|split].
  - intros D I3. pose proof (C82_applied_shear (pr_strip p) (control_time p 0) (map (control_time p) ts) b (pr_loading p) (pr_height p) (pr_char p) (pr_component p) t
      C N B HN T K D I3) as P1. cbv zeta in P1. rewrite (O _ _ _ P1). cbn [lsum]. ring.
  - intros D I2 U. rewrite (O _ _ _ (P2 D I2 U)). cbn [lsum]. ring.
  - intros S I. rewrite (O _ _ _ (P3 S I)). cbn [lsum]. ring.
Qed.
Lemma schedule_sheared {H} (p : program H) a inner : well_formed_program p ->
  SpecShear.consistent (pr_strip p) -> (0 < s_nc (pr_strip p))%nat -> (pr_component p < s_dim (pr_strip p))%nat -> l_type (pr_loading p) = Monotonic ->
  forall fuel step current previous ts oo s tr e, program_loop p a inner fuel step current previous ts oo s = (tr, e) ->
  forall x, In x tr -> sheared p (ModelLoading.st_time (ac_record x)) (st_trial (ac_state x)).
Proof.
  intros WF C N K T. induction fuel as [|fuel IH]; intros step current previous ts oo s tr e; cbn [program_loop].
  - destruct (Rltb _ _); intros E; injection E as <- <-; intros x [].
  - destruct (Rltb _ _); [|intros E; injection E as <- <-; intros x []].
    cbv zeta. set (next := clipped_next _ _ _ _).
    destruct (solve_nonlinear_system _ _ _ _ _ _ _) as [r| | |] eqn:S; try (intros E; injection E as <- <-; intros x []; fail).
    destruct (shift_solutions r) as [oo' s'] eqn:SH.
    destruct (Z.eqb _ _); [intros E; injection E as <- <-; intros x []|].
    destruct (program_loop _ _ _ _ _ _ _ _ _ _) as [tr1 e1] eqn:L. intros E. injection E as <- <-.
    intros x [<-|X]; [|exact (IH _ _ _ _ _ _ _ _ L x X)]. cbn [ac_record ac_state ModelLoading.st_time].
    apply (obeys_sheared p next ts); try assumption.
    exact (C97_accepted_solution_obeys_the_constraints _ _ _ _ _ _ _ _ _ (WF _ _ _) S).
Qed.

(** Whether the run ends or not: every accepted solution has the boundary values of its time. *)
Theorem C97_accepted_solutions_are_sheared : forall H (p : program H) a inner fuel oo s tr e x,
  well_formed_program p -> SpecShear.consistent (pr_strip p) -> (0 < s_nc (pr_strip p))%nat -> (pr_component p < s_dim (pr_strip p))%nat ->
  l_type (pr_loading p) = Monotonic -> program_run p a inner fuel oo s = (tr, e) -> In x tr ->
  sheared p (ModelLoading.st_time (ac_record x)) (st_trial (ac_state x)).
Proof. intros H p a inner fuel oo s tr e x WF C N K T E. exact (schedule_sheared p a inner WF C N K T _ _ _ _ _ _ _ _ _ E x). Qed.

(** A completed run: the steps are numbered from 1, graphical output is written as documented,
    and the last accepted solution is the one at the end of the simulated time. *)
Theorem C97_completed_run : forall H (p : program H) a inner fuel oo s tr,
  a = exact \/ a = double -> valid_loading (pr_loading p) -> pr_frequency p <> 0%Z -> start_time < end_time a (pr_loading p) ->
  well_formed_program p -> SpecShear.consistent (pr_strip p) -> (0 < s_nc (pr_strip p))%nat -> (pr_component p < s_dim (pr_strip p))%nat ->
  l_type (pr_loading p) = Monotonic ->
  program_run p a inner fuel oo s = (tr, Completed) ->
  SpecLoading.numbered 1 (map ac_record tr) /\ written_as_documented (pr_frequency p) (map ac_record tr) /\
  exists x, nth_error tr (length tr - 1) = Some x /\ st_written (ac_record x) = true /\
    ModelLoading.st_time (ac_record x) = end_time a (pr_loading p) /\ sheared p (end_time a (pr_loading p)) (st_trial (ac_state x)).
Proof.
  intros H p a inner fuel oo s tr Ha V F ST WF C N K T E.
  destruct (program_records p a inner F _ _ _ _ _ _ _ _ _ E) as (A & _ & _). specialize (A eq_refl).
  destruct (C55_final_state_is_written a (pr_loading p) (pr_frequency p) (fun _ => true) fuel (map ac_record tr) Ha V F ST A) as (B1 & B2 & r & B3 & B4 & B5).
  split; [exact B1|]. split; [exact B2|].
  rewrite map_length in B3. rewrite nth_error_map in B3. destruct (nth_error tr (length tr - 1)) as [x|] eqn:X; [|discriminate]. cbn [option_map] in B3. injection B3 as B3.
  exists x. split; [reflexivity|]. rewrite B3. split; [exact B5|]. split; [exact B4|]. rewrite <- B4, <- B3.
  apply (C97_accepted_solutions_are_sheared H p a inner fuel oo s tr Completed); try assumption. eapply nth_error_In; eassumption.
Qed.
(** In exact arithmetic the accepted solutions are those of the planned steps, all of them. *)
Theorem C97_completed_run_follows_the_plan : forall H (p : program H) inner fuel oo s tr,
  valid_loading (pr_loading p) -> no_negligible_rest (pr_loading p) -> pr_frequency p <> 0%Z -> (Z.to_nat (planned_steps (pr_loading p)) <= fuel)%nat ->
  program_run p exact inner fuel oo s = (tr, Completed) ->
  length tr = Z.to_nat (planned_steps (pr_loading p)) /\
  forall k x, nth_error tr k = Some x ->
    st_number (ac_record x) = Z.of_nat (k + 1) /\ ModelLoading.st_time (ac_record x) = planned_time (pr_loading p) (k + 1).
Proof.
  intros H p inner fuel oo s tr V NR F FU E.
  destruct (program_records p exact inner F _ _ _ _ _ _ _ _ _ E) as (A & _ & _). specialize (A eq_refl).
  destruct (C50_run_follows_the_plan (pr_loading p) (pr_frequency p) (fun _ => true) fuel V NR F (fun _ => eq_refl) FU) as (tr' & R1 & R2 & R3).
  unfold ModelLoading.run in R1. rewrite A in R1. injection R1 as <-. rewrite map_length in R2. split; [exact R2|].
  intros k x X. apply R3. rewrite nth_error_map, X. reflexivity.
Qed.
(** A run stopped by a failing solve: what was accepted before it is on file as documented. *)
Theorem C97_interrupted_run : forall H (p : program H) a inner fuel oo s tr,
  a = exact \/ a = double -> valid_loading (pr_loading p) -> pr_frequency p <> 0%Z -> start_time <= end_time a (pr_loading p) ->
  program_run p a inner fuel oo s = (tr, SolverAborted) ->
  SpecLoading.numbered 1 (map ac_record tr) /\
  forall x, In x tr -> ModelLoading.st_time (ac_record x) < end_time a (pr_loading p) /\ (st_written (ac_record x) = true <-> (pr_frequency p | st_number (ac_record x))%Z).
Proof.
  intros H p a inner fuel oo s tr Ha V F ST E.
  destruct (program_records p a inner F _ _ _ _ _ _ _ _ _ E) as (_ & B & _). specialize (B eq_refl).
  destruct (C55_interrupted_runs a (pr_loading p) (pr_frequency p) _ fuel (map ac_record tr) Ha V F ST B) as (B1 & B2). split; [exact B1|].
  intros x X. apply In_nth_error in X. destruct X as (k & X). apply (B2 k). rewrite nth_error_map, X. reflexivity.
Qed.

(** ** Equilibrium *)
Lemma schedule_bodies (p : program rank_data) bodies b0 a : on_bodies p bodies b0 -> forall times k current previous ts,
  exists steps, map fst steps = bodies_of bodies a k current times /\ map snd steps = schedule p a k current previous ts times /\
    (forall b e t, In (b, (e, t)) steps -> SpecBody.consistent b /\ exponential_damage_only b /\ works_on e b /\ e_finish e = body_finish b /\ same_points b0 b).
Proof.
  intros OB. induction times as [|t times IH]; intros k current previous ts.
  - exists []. split; [reflexivity|]. split; [reflexivity|]. intros b e t [].
  - cbn [bodies_of schedule]. destruct (IH (k + 1)%Z t (a_add a t (- current)) (t :: ts)) as (steps & E1 & E2 & E3).
    destruct (OB (Z.to_nat k) (a_add a t (- current))) as (O1 & O2 & O3 & O4 & O5).
    eexists ((_, (_, _)) :: steps). cbn [map fst snd]. rewrite E1, E2. split; [reflexivity|]. split; [reflexivity|].
    intros b e tt [X|X]; [|exact (E3 b e tt X)]. injection X as <- <- <-. split; [exact O1|]. split; [exact O2|]. split; [exact O3|]. split; [exact O4|exact O5].
Qed.
Theorem C97_every_accepted_solution_in_equilibrium : forall (p : program rank_data) bodies b0 a inner fuel oo s tr e,
  on_bodies p bodies b0 -> initialised b0 (st_hist s) -> rate_independent (pr_parameters p) = false \/ pr_algorithm p <> Monolithic ->
  program_run p a inner fuel oo s = (tr, e) ->
  equilibrium_at_all_steps (pr_parameters p) (pr_algorithm p) (bodies_of bodies a 0 start_time (times_of tr)) (map ac_state tr) (st_old s) (st_hist s).
Proof.
  intros p bodies b0 a inner fuel oo s tr e OB I Ha E.
  destruct (C97_run_is_a_sequence_of_steps _ p a inner fuel oo s tr e E) as (x & R1).
  destruct (schedule_bodies p bodies b0 a OB (times_of tr) 0%Z start_time 0 []) as (steps & E1 & E2 & E3).
  rewrite <- E1. rewrite <- E2 in R1. exact (C92_every_step_in_equilibrium _ _ _ steps b0 oo s _ _ E3 I Ha R1).
Qed.

Lemma loop_in_equilibrium (p : program rank_data) bodies b0 a inner : 
  on_bodies p bodies b0 -> rate_independent (pr_parameters p) = false ->
  (forall k dt, closed_below (b_ndofs (bodies k dt)) (newton_of (pr_strip p))) ->
  forall fuel k current previous ts oo s tr e, initialised b0 (st_hist s) ->
  program_loop p a inner fuel k current previous ts oo s = (tr, e) ->
  equilibrium_of_run p (bodies_of bodies a k current (times_of tr)) (map (fun x => st_trial (ac_state x)) tr) (st_old s) (st_hist s).
Proof.
  intros OB RI CB.
  induction fuel as [|fuel IH]; intros k current previous ts oo s tr e HI; cbn [program_loop].
  - destruct (Rltb _ _); intros E; injection E as <- <-; exact I.
  - destruct (Rltb _ _); [|intros E; injection E as <- <-; exact I].
    cbv zeta. set (next := clipped_next _ _ _ _).
    destruct (solve_nonlinear_system _ _ _ _ _ _ _) as [r| | |] eqn:S; try (intros E; injection E as <- <-; exact I).
    destruct (shift_solutions r) as [oo' s'] eqn:SH.
    destruct (Z.eqb _ _); [intros E; injection E as <- <-; exact I|].
    destruct (program_loop _ _ _ _ _ _ _ _ _ _) as [tr1 e1] eqn:L. intros E. injection E as <- <-.
    cbn [times_of map bodies_of equilibrium_of_run ac_record ac_state ModelLoading.st_time].
    set (dt := a_add a next (- current)) in *. set (b := bodies (Z.to_nat k) dt).
    destruct (OB (Z.to_nat k) dt) as (C & M & W & FI & SP). fold b in C, M, W, FI, SP.
    set (en := step_env p (Z.to_nat k) dt (next :: ts)) in *.
    assert (WE : works_on en b) by exact W. assert (FE : e_finish en = body_finish b) by exact FI.
    assert (I1 : initialised b (st_hist s)) by (eapply same_points_initialised; eauto).
    pose proof WE as (W1 & W2 & W3). pose proof C as (N & _).
    assert (HF : forgets_iterates (e_update en)) by (rewrite W2; apply body_forgets; assumption).
    destruct (accepted_step (pr_parameters p) en HF _ _ _ _ _ _ (or_introl RI) S) as (_ & A2 & _ & _ & A5). specialize (A5 RI).
    assert (IN : st_internal r = newton_of (pr_strip p)).
    { rewrite A5. unfold merge, no_constraints, en, step_env. cbn [e_problem p_newton]. apply functional_extensionality. intros d. destruct (newton_of (pr_strip p) d); reflexivity. }
    rewrite W1, W2, FE in A2. cbv zeta. split.
    + intros w Hw. apply (C92_accepted_solution_in_equilibrium b en (pr_parameters p) (pr_algorithm p) inner _ oo s r w C M WE I1 (or_introl RI) S).
      * rewrite IN. apply CB.
      * rewrite IN. exact Hw.
    + rewrite <- A2. injection SH as <- <-.
      refine (IH (k + 1)%Z next dt (next :: ts) (st_old r) _ tr1 e1 _ L). cbn [st_hist]. rewrite A2.
      destruct SP as (P1 & P2 & P3 & P4 & P5 & P6 & P7).
      apply (same_points_initialised b b0); [unfold same_points; repeat split; congruence|].
      apply initialised_sweep; [exact N|]. apply initialised_sweep; [exact N|]. apply initialised_sweep; assumption.
Qed.
(** Rate-dependent behaviour: the virtual motions are those of the shear problem. *)
Theorem C97_rate_dependent_run_in_equilibrium : forall (p : program rank_data) bodies b0 a inner fuel oo s tr e,
  on_bodies p bodies b0 -> initialised b0 (st_hist s) -> rate_independent (pr_parameters p) = false ->
  (forall k dt, closed_below (b_ndofs (bodies k dt)) (newton_of (pr_strip p))) ->
  program_run p a inner fuel oo s = (tr, e) ->
  equilibrium_of_run p (bodies_of bodies a 0 start_time (times_of tr)) (map (fun x => st_trial (ac_state x)) tr) (st_old s) (st_hist s).
Proof. intros p bodies b0 a inner fuel oo s tr e OB HI RI CB E. exact (loop_in_equilibrium p bodies b0 a inner OB RI CB _ _ _ _ _ _ _ _ _ HI E). Qed.

(** ** Memory: all that C94 and C95 say of runs from the set-up holds of the program *)
Theorem C97_program_is_a_run_from_setup : forall (p : program rank_data) bodies b0 a inner fuel oo s tr e r0,
  on_bodies p bodies b0 -> (forall k dt, two_sided (bodies k dt)) -> NoDup (b_cells b0) -> (forall k q, r_face r0 k q = i_construct) ->
  st_hist s = sweep_all b0 Initialise r0 -> rate_independent (pr_parameters p) = false \/ pr_algorithm p <> Monolithic ->
  program_run p a inner fuel oo s = (tr, e) ->
  exists steps, map fst steps = bodies_of bodies a 0 start_time (times_of tr) /\ map snd steps = schedule p a 0 start_time 0 [] (times_of tr) /\
    run_from_setup (pr_parameters p) (pr_algorithm p) inner b0 steps r0 oo s (map ac_state tr).
Proof.
  intros p bodies b0 a inner fuel oo s tr e r0 OB TS N Z HI Ha E.
  destruct (C97_run_is_a_sequence_of_steps _ p a inner fuel oo s tr e E) as (x & R1).
  assert (OB' : on_bodies p bodies b0) by exact OB.
  assert (SB : forall times k current previous ts, exists steps, map fst steps = bodies_of bodies a k current times /\ map snd steps = schedule p a k current previous ts times /\
    (forall b e t, In (b, (e, t)) steps -> SpecBody.consistent b /\ exponential_damage_only b /\ works_on e b /\ e_finish e = body_finish b /\ same_points b0 b /\ two_sided b)).
  { induction times as [|t times IH]; intros k current previous ts.
    - exists []. split; [reflexivity|]. split; [reflexivity|]. intros b e' t [].
    - cbn [bodies_of schedule]. destruct (IH (k + 1)%Z t (a_add a t (- current)) (t :: ts)) as (steps & E1 & E2 & E3).
      destruct (OB (Z.to_nat k) (a_add a t (- current))) as (O1 & O2 & O3 & O4 & O5).
      eexists ((_, (_, _)) :: steps). cbn [map fst snd]. rewrite E1, E2. split; [reflexivity|]. split; [reflexivity|].
      intros b e' tt [X|X]; [|exact (E3 b e' tt X)]. injection X as <- <- <-.
      split; [exact O1|]. split; [exact O2|]. split; [exact O3|]. split; [exact O4|]. split; [exact O5|]. apply TS. }
  destruct (SB (times_of tr) 0%Z start_time 0 []) as (steps & E1 & E2 & E3). exists steps. split; [exact E1|]. split; [exact E2|].
  split; [exact E3|]. split; [exact N|]. split; [exact Z|]. split; [exact HI|]. split; [exact Ha|]. eexists. rewrite E2. exact R1.
Qed.
(** In particular the damage an interface has when a step is accepted is the one of the largest
    opening of the solutions accepted so far. *)
Theorem C97_damage_of_the_program : forall (p : program rank_data) bodies b0 a inner fuel oo s tr e r0,
  on_bodies p bodies b0 -> (forall k dt, two_sided (bodies k dt)) -> NoDup (b_cells b0) -> (forall k q, r_face r0 k q = i_construct) ->
  st_hist s = sweep_all b0 Initialise r0 -> rate_independent (pr_parameters p) = false \/ pr_algorithm p <> Monolithic ->
  program_run p a inner fuel oo s = (tr, e) ->
  forall k x c n q, nth_error tr k = Some x -> b_decohesion b0 = true -> In c (b_cells b0) -> In n (gb_neighbours b0 c) -> (q < b_nfq b0)%nat ->
  let mx := largest_opening (firstn (S k) (bodies_of bodies a 0 start_time (times_of tr))) (firstn (S k) (map (fun y => st_trial (ac_state y)) tr)) c n q in
  i_damage (r_face (st_hist (ac_state x)) (make_key c n) q) = Fin (damage_after (i_zero_damage (b_iprm b0)) mx (i_crit_opening (b_iprm b0))).
Proof.
  intros p bodies b0 a inner fuel oo s tr e r0 OB TS N Z HI Ha E k x c n q X D Hc Hn Hq mx.
  destruct (C97_program_is_a_run_from_setup p bodies b0 a inner fuel oo s tr e r0 OB TS N Z HI Ha E) as (steps & E1 & _ & RS).
  assert (X' : nth_error (map ac_state tr) k = Some (ac_state x)) by (rewrite nth_error_map, X; reflexivity).
  destruct (C94_damage_follows_the_largest_opening _ _ _ _ _ _ _ _ _ RS k (ac_state x) c n q X' D Hc Hn Hq) as [_ Y].
  rewrite Y, E1. unfold mx. rewrite map_map. reflexivity.
Qed.
