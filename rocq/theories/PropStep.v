(** * C87-C89: one time step, and whole runs. *)
From Verif Require Import Num SumLemmas ModelHistory SpecHistory ProofHistory ModelFEField ModelLineSearch ModelActiveSet SpecActiveSet
  PropActiveSet ProofLineSearch PropLineSearch ModelSolver SpecSolver PropSolver ModelStep SpecStep ProofStep.
Open Scope R_scope.

Lemma converged_part a tol : converged (xsqrt a) tol -> exists u, a = Fin u /\ 0 <= u /\ sqrt u < tol.
Proof.
  intros (r & E & H0 & H1). destruct a as [u| | |]; simpl in E; try discriminate.
  destruct (Rltb u 0) eqn:L; [discriminate|]. apply Rltb_false in L.
  injection E as <-. exists u. split; [reflexivity|]. split; [lra|exact H1].
Qed.
Lemma xsqrt_square a :
  (exists u, a = Fin u /\ 0 <= u /\ xmul (xsqrt a) (xsqrt a) = Fin u) \/
  xmul (xsqrt a) (xsqrt a) = PInf \/ xmul (xsqrt a) (xsqrt a) = NaN.
Proof.
  destruct a as [u| | |]; simpl; auto. destruct (Rltb u 0) eqn:L; simpl; auto.
  apply Rltb_false in L. left. exists u. split; [reflexivity|]. split; [lra|].
  rewrite sqrt_sqrt by lra. reflexivity.
Qed.
Lemma converged_total {S} (o : ops S) s tol : converged (norm_total o s) tol ->
  exists u g, squares o s = (Fin u, Fin g) /\ 0 <= u /\ 0 <= g /\ sqrt (u + g) < tol.
Proof.
  unfold norm_total, norm_macro, norm_micro. intros C. apply converged_part in C.
  destruct C as (w & E & W & T). destruct (squares o s) as [a b]; cbn [fst snd] in E.
  destruct (xsqrt_square a) as [(u & -> & U & Eu)|[Eu|Eu]]; rewrite Eu in E;
    destruct (xsqrt_square b) as [(g & -> & G & Eg)|[Eg|Eg]]; rewrite Eg in E; simpl in E; try discriminate.
  injection E as <-. exists u, g. auto.
Qed.

Section Step.
Context {H : Type}.
Variables (sp : solver_parameters) (e : env H).
Let o := step_ops e.

(** What does not change during a step. *)
Definition step_inv (old0 g0 : vec) (h0 : H) (s : sstate H) : Prop :=
  st_old s = old0 /\ st_res_tmp s = g0 /\
  (st_hist s = h0 \/ exists x, st_hist s = e_update e old0 x h0) /\
  (rate_independent sp = false -> st_internal s = merge no_constraints (p_newton (e_problem e))).

Lemma step_inv_pass old0 g0 h0 b s l : step_inv old0 g0 h0 s ->
  step_inv old0 g0 h0 (op_apply e l b (set_trial s (reset_trial (layout e) (st_trial s) (st_tmp s) Macro))).
Proof. intros X; exact X. Qed.

Hypothesis HF : forgets_iterates (e_update e).

Lemma step_inv_update old0 g0 h0 s : step_inv old0 g0 h0 s -> step_inv old0 g0 h0 (op_update e s).
Proof.
  intros (A & B & C & D). unfold step_inv, op_update; cbn. repeat split; auto.
  right. exists (st_trial s). rewrite A. destruct C as [->|(x & ->)]; [reflexivity|]. apply HF.
Qed.
Lemma step_preserved old0 g0 h0 : preserved o sp (step_inv old0 g0 h0).
Proof.
  split; try (intros; assumption).
  - exact (step_inv_update old0 g0 h0).
  - intros RI s (A & B & C & D). unfold step_inv; cbn. repeat split; auto.
    intros X; rewrite RI in X; discriminate.
  - intros s r E X. cbn in E. unfold op_solve_mono in E. destruct (e_solve_mono e s); try discriminate.
    injection E as <-. exact X.
  - intros s r E X. cbn in E. unfold op_solve_block in E. destruct (e_solve_macro e s); try discriminate.
    injection E as <-. exact X.
  - intros s r E X. cbn in E. unfold op_solve_block in E. destruct (e_solve_micro e s); try discriminate.
    injection E as <-. exact X.
  - intros s r E X. cbn in E. unfold op_solve_block in E. destruct (e_solve_reduced e s); try discriminate.
    injection E as <-. exact X.
Qed.
Lemma passes_ev old0 g0 h0 b ls : forall s, ev o (step_inv old0 g0 h0) s ->
  ev o (step_inv old0 g0 h0) (fold_left (op_search_pass e b) ls s).
Proof.
  induction ls as [|l ls IH]; intros s X; [exact X|]. cbn [fold_left]. apply IH.
  apply (ev_inv o sp _ (step_preserved old0 g0 h0)) in X.
  exists (op_apply e l b (set_trial s (reset_trial (layout e) (st_trial s) (st_tmp s) Macro))).
  split; [exact X|reflexivity].
Qed.
Lemma step_searches old0 g0 h0 : searches_ev o (step_inv old0 g0 h0).
Proof.
  split; [|split]; intros s r X E; cbn in E; unfold op_search in E; injection E as <-;
    apply passes_ev, X.
Qed.
Lemma begin_inv t oo s :
  step_inv (st_old s) (st_res s) (e_store e (st_hist s)) (begin_step e t oo s).
Proof.
  unfold begin_step. destruct (extrapolate _ _ _ _ _ _ _ _ _) as [x u].
  unfold step_inv; cbn. auto.
Qed.

(** What an evaluated state looks like. *)
Lemma ev_looks old0 g0 h0 s : ev o (step_inv old0 g0 h0) s ->
  st_old s = old0 /\ st_hist s = e_update e old0 (st_trial s) h0 /\
  st_res s = e_harden e (st_active s) old0 (st_trial s) g0 /\
  st_norms s = e_norms e old0 (st_trial s) (e_update e old0 (st_trial s) h0) (st_internal s) /\
  (rate_independent sp = false -> st_internal s = merge no_constraints (p_newton (e_problem e))).
Proof.
  intros (x & (A & B & C & D) & ->). cbn.
  assert (E : e_update e (st_old x) (st_trial x) (st_hist x) = e_update e old0 (st_trial x) h0).
  { rewrite A. destruct C as [->|(y & ->)]; [reflexivity|apply HF]. }
  rewrite E, A, B. repeat split; auto.
Qed.

(** The accepted state of one step. *)
Lemma accepted_step a fuel t oo s r :
  rate_independent sp = false \/ a <> Monolithic ->
  solve_nonlinear_system e sp a fuel t oo s = Done r ->
  st_old r = st_old s /\
  st_hist r = e_finish e (st_trial r) (e_update e (st_old s) (st_trial r) (e_store e (st_hist s))) /\
  st_res r = e_harden e (st_active r) (st_old s) (st_trial r) (st_res s) /\
  residual_within_tolerance sp a e (st_old s) (st_trial r) (st_hist s) (st_internal r) /\
  (rate_independent sp = false -> st_internal r = merge no_constraints (p_newton (e_problem e))).
Proof.
  intros Ha. unfold solve_nonlinear_system.
  pose proof (begin_inv t oo s) as B. set (b := begin_step e t oo s) in *.
  set (I := step_inv (st_old s) (st_res s) (e_store e (st_hist s))) in *.
  pose proof (step_preserved (st_old s) (st_res s) (e_store e (st_hist s))) as P. fold I in P.
  pose proof (step_searches (st_old s) (st_res s) (e_store e (st_hist s))) as Q. fold I in Q.
  change (step_ops e) with o.
  destruct (solve_nonlinear o sp a fuel b) as [q| | |] eqn:E; try discriminate.
  intros X; injection X as <-. cbn [st_old st_hist st_trial st_active st_res st_internal].
  assert (K : ev o I q /\ match a with
     | Monolithic => converged (norm_total o q) (mono_tol sp)
     | _ => converged (norm_macro o q) (macro_tol sp) /\ converged (norm_micro o q) (micro_tol sp) end).
  { destruct a; unfold solve_nonlinear in E.
    - destruct Ha as [Ha|Ha]; [|congruence]. unfold monolithic_algorithm in E.
      destruct (mono_ev o sp I P Q _ _ _ _ _ _ B E) as (s1 & E1 & C & _ & Z). rewrite (Z Ha). auto.
    - unfold bouncing_algorithm in E.
      exact (bounce_ev o sp I P Q _ _ _ _ _ _ _ _ B (or_introl (conj eq_refl eq_refl))
               (fun X : false = true => False_ind _ (Bool.diff_false_true X)) E).
    - unfold embracing_algorithm in E.
      assert (B' : I (distribute_affine o b)) by (apply (c_affine o sp I P), B).
      destruct (embrace_ev o sp I P Q _ _ _ _ _ _ _ B'
        (fun X : false = true => False_ind _ (Bool.diff_false_true X)) E) as (C & s1 & E1 & C1 & ->).
      assert (E2 : ev o I (reevaluate o s1)) by (apply (reevaluate_ev o sp I P), (ev_inv o sp I P), E1).
      split; [exact E2|]. split; [exact C|].
      assert (N : st_norms (reevaluate o s1) = st_norms s1).
      { destruct (ev_looks _ _ _ _ E1) as (_ & _ & _ & N1 & _).
        destruct (ev_looks _ _ _ _ E2) as (_ & _ & _ & N2 & _).
        rewrite N1, N2. reflexivity. }
      unfold norm_micro in *. change (squares o) with (@st_norms H) in *. rewrite N. exact C1. }
  destruct K as [K1 K2]. destruct (ev_looks _ _ _ _ K1) as (A1 & A2 & A3 & A4 & A5).
  split; [exact A1|]. split; [rewrite A2; reflexivity|]. split; [exact A3|]. split; [|exact A5].
  unfold residual_within_tolerance. rewrite <- A4. destruct a.
  - apply converged_total in K2. exact K2.
  - destruct K2 as [K2 K3]. apply converged_part in K2. apply converged_part in K3.
    destruct K2 as (u & U & U0 & U1), K3 as (g & G & G0 & G1).
    exists u, g. change (squares o q) with (st_norms q) in U, G. destruct (st_norms q); cbn in U, G. subst. auto.
  - destruct K2 as [K2 K3]. apply converged_part in K2. apply converged_part in K3.
    destruct K2 as (u & U & U0 & U1), K3 as (g & G & G0 & G1).
    exists u, g. change (squares o q) with (st_norms q) in U, G. destruct (st_norms q); cbn in U, G. subst. auto.
Qed.

(** Monolithic, rate-independent: the same holds at the last iterate [x], from which the
    accepted solution may differ at inactive and constrained dofs. *)
Lemma accepted_step_monolithic fuel t oo s r :
  rate_independent sp = true ->
  solve_nonlinear_system e sp Monolithic fuel t oo s = Done r ->
  exists q, ev o (step_inv (st_old s) (st_res s) (e_store e (st_hist s))) q /\
    converged (norm_total o q) (mono_tol sp) /\ st_active r = st_active q /\
    r = mk_sstate (st_active (op_sets e q)) (st_inactive (op_sets e q)) (st_internal (op_sets e q))
          (st_trial (op_sets e q)) (st_tmp q) (st_initial q) (st_newton q) (st_old q)
          (e_finish e (st_trial (op_sets e q)) (st_hist q)) (st_res q) (st_res_tmp q) (st_norms q).
Proof.
  intros RI. unfold solve_nonlinear_system.
  pose proof (begin_inv t oo s) as B. set (b := begin_step e t oo s) in *.
  set (I := step_inv (st_old s) (st_res s) (e_store e (st_hist s))) in *.
  pose proof (step_preserved (st_old s) (st_res s) (e_store e (st_hist s))) as P. fold I in P.
  pose proof (step_searches (st_old s) (st_res s) (e_store e (st_hist s))) as Q. fold I in Q.
  change (step_ops e) with o.
  destruct (solve_nonlinear o sp Monolithic fuel b) as [q| | |] eqn:E; try discriminate.
  intros X; injection X as <-. unfold solve_nonlinear, monolithic_algorithm in E.
  destruct (mono_ev o sp I P Q _ _ _ _ _ _ B E) as (s1 & E1 & C & Z & _).
  destruct (Z RI) as [-> Z2]. exists s1. split; [exact E1|]. split; [exact C|].
  split; [exact Z2|]. reflexivity.
Qed.
End Step.

(** ** C87 *)
(** The internal variables at the end of a run are those obtained by updating once per step,
    for the accepted solution: no Newton iterate, line-search trial, active-set restart or
    staggered loop leaves a trace in them. *)
Theorem C87_only_accepted_solutions_leave_a_trace : forall H sp a fuel es oo (s : sstate H) oo' s' acc,
  (forall e t, In (e, t) es -> forgets_iterates (e_update e)) ->
  rate_independent sp = false \/ a <> Monolithic ->
  run sp a fuel es oo s = (Done (oo', s'), acc) ->
  length acc = length es /\
  st_old s' = last (map st_trial acc) (st_old s) /\
  st_hist s' = replay_history es (map st_trial acc) (st_old s) (st_hist s) /\
  st_res s' = replay_resistance es (map (fun r => (st_active r, st_trial r)) acc) (st_old s) (st_res s).
Proof.
  intros H sp a fuel es. induction es as [|[e t] es IH]; intros oo s oo' s' acc HF Ha; cbn [run].
  - intros X; injection X as <- <- <-. auto.
  - destruct (solve_nonlinear_system e sp a fuel t oo s) as [r| | |] eqn:E; try discriminate.
    cbn [shift_solutions].
    set (s1 := mk_sstate _ _ _ _ _ _ _ _ _ _ _ _).
    destruct (run sp a fuel es (st_old r) s1) as [q l] eqn:R1.
    intros X; injection X as -> <-.
    destruct (accepted_step sp e (HF e t (or_introl eq_refl)) _ _ _ _ _ _ Ha E) as (A1 & A2 & A3 & _).
    destruct (IH _ _ _ _ _ (fun e' t' Hin => HF e' t' (or_intror Hin)) Ha R1) as (B1 & B2 & B3 & B4).
    cbn [length map replay_history replay_resistance].
    split; [congruence|]. split.
    { rewrite B2. cbn [st_old s1]. destruct l as [|x l]; [reflexivity|].
      cbn [map]. generalize (map st_trial l), (st_trial x) as y. clear.
      intros l y. change (last (st_trial r :: y :: l) (st_old s)) with (last (y :: l) (st_old s)).
      revert y. induction l as [|z l IHl]; intros y; [reflexivity|].
      change (last (y :: z :: l) (st_trial r)) with (last (z :: l) (st_trial r)).
      change (last (y :: z :: l) (st_old s)) with (last (z :: l) (st_old s)). apply IHl. }
    rewrite B3, B4. cbn [st_old st_hist st_res s1]. rewrite A2, A3. split; reflexivity.
Qed.

(** ** C88 *)
(** The solution a step accepts meets the tolerances: the norms of *its* residual, with *its*
    internal variables and (rate-dependent) the homogeneous constraints of the field. *)
Theorem C88_accepted_solution_is_converged : forall H sp a fuel (e : env H) t oo s r,
  forgets_iterates (e_update e) ->
  rate_independent sp = false \/ a <> Monolithic ->
  solve_nonlinear_system e sp a fuel t oo s = Done r ->
  residual_within_tolerance sp a e (st_old s) (st_trial r) (st_hist s) (st_internal r) /\
  (rate_independent sp = false -> forall d, st_internal r d = p_newton (e_problem e) d).
Proof.
  intros H sp a fuel e t oo s r HF Ha E.
  destruct (accepted_step sp e HF _ _ _ _ _ _ Ha E) as (_ & _ & _ & A & B).
  split; [exact A|]. intros RD d. rewrite (B RD). unfold merge. destruct (p_newton (e_problem e) d); reflexivity.
Qed.

(** ** Monolithic algorithm, rate-independent: what remains of C87 and C88 *)
Lemma op_sets_recomputed {H} (e : env H) s :
  mk_state (st_active (op_sets e s)) (st_inactive (op_sets e s)) (st_internal (op_sets e s))
    (st_trial (op_sets e s)) =
  recomputed (current_problem e s) (e_microstress e s)
    (mk_state (st_active s) (st_inactive s) (st_internal s) (st_trial s)).
Proof.
  unfold recomputed, op_sets. cbn [st_active st_inactive st_internal st_trial].
  match goal with |- _ = ?r => destruct r; reflexivity end.
Qed.

(** Proved: the residual within tolerance and the internal variables are those of the last
    iterate [x]; the accepted solution agrees with [x] except at constrained and inactive
    dofs, the latter having the value of the last step.  Missing: that [x] is the accepted
    solution (refuted below). *)
Theorem C88_monolithic_rate_independent_partial : forall H sp fuel (e : env H) t oo s r,
  forgets_iterates (e_update e) -> rate_independent sp = true ->
  (0 < p_n_slips (e_problem e))%nat ->
  solve_nonlinear_system e sp Monolithic fuel t oo s = Done r ->
  exists x c,
    residual_within_tolerance sp Monolithic e (st_old s) x (st_hist s) c /\
    st_hist r = e_finish e (st_trial r) (e_update e (st_old s) x (e_store e (st_hist s))) /\
    st_res r = e_harden e (st_active r) (st_old s) x (st_res s) /\
    (forall d, p_affine (e_problem e) d = None ->
       (In d (st_inactive r) -> st_trial r d = st_old s d) /\
       (~ In d (st_inactive r) -> st_trial r d = x d)).
Proof.
  intros H sp fuel e t oo s r HF RI HN E.
  destruct (accepted_step_monolithic sp e HF _ _ _ _ _ RI E) as (q & Q & C & A & ->).
  destruct (ev_looks sp e HF _ _ _ _ Q) as (A1 & A2 & A3 & A4 & _).
  cbn [st_active] in A.
  exists (st_trial q), (st_internal q). cbn [st_hist st_res st_trial st_inactive st_active].
  split; [|split; [rewrite A2; reflexivity|split; [rewrite A; exact A3|]]].
  - unfold residual_within_tolerance. rewrite <- A4. apply converged_total in C. exact C.
  - intros d Hd. pose proof (op_sets_recomputed e q) as X.
    destruct (C44_inactive_values_are_reset (current_problem e q) (e_microstress e q)
      (mk_state (st_active q) (st_inactive q) (st_internal q) (st_trial q)) d eq_refl HN Hd) as [B1 B2].
    rewrite <- X in B1, B2. split; [|exact B2]. intros Hin. rewrite <- A1. exact (B1 Hin).
Qed.

(** ** C89 *)
Section Inactive.
Context {H : Type} (sp : solver_parameters) (e : env H) (old0 : vec) (d : nat).
Hypothesis Hslips : (0 < p_n_slips (e_problem e))%nat.
Hypothesis Hnodup : NoDup (p_owned_slip (e_problem e)).
Hypothesis Hd : unconstrained_slip_dof e d.
Let o := step_ops e.

Lemma old_preserved : preserved o sp (fun s => st_old s = old0).
Proof.
  split; try (intros; assumption); intros s r E X; cbn in E; unfold op_solve_mono, op_solve_block in E;
    [destruct (e_solve_mono e s)|destruct (e_solve_macro e s)|destruct (e_solve_micro e s)|
     destruct (e_solve_reduced e s)]; try discriminate; injection E as <-; exact X.
Qed.
Lemma old_passes b ls : forall s : sstate H, st_old s = old0 ->
  st_old (fold_left (op_search_pass e b) ls s) = old0.
Proof. induction ls as [|l ls IH]; intros s X; [exact X|]. cbn [fold_left]. apply IH. exact X. Qed.
Lemma old_searches : searches_ev o (fun s => st_old s = old0).
Proof.
  assert (G : forall b ls (s : sstate H), ev o (fun s => st_old s = old0) s ->
     ev o (fun s => st_old s = old0) (fold_left (op_search_pass e b) ls s)).
  { induction ls as [|l ls IH]; intros s X; [exact X|]. cbn [fold_left]. apply IH.
    apply (ev_inv o sp _ old_preserved) in X.
    exists (op_apply e l b (set_trial s (reset_trial (layout e) (st_trial s) (st_tmp s) Macro))).
    split; [exact X|reflexivity]. }
  split; [|split]; intros s r X E; cbn in E; unfold op_search in E; injection E as <-; apply G, X.
Qed.

(** The dof is active, or it has its old value and its increment is constrained to zero. *)
Definition settled (s : sstate H) : Prop :=
  st_old s = old0 /\
  (In d (st_active s) \/ (st_trial s d = old0 d /\ st_internal s d = Some zero_line)).
(** ... and the Newton update does not move it. *)
Definition settled2 (s : sstate H) : Prop :=
  st_old s = old0 /\
  (In d (st_active s) \/
   (st_trial s d = old0 d /\ st_internal s d = Some zero_line /\ st_newton s d = 0)).

Lemma sets_settled s : st_old s = old0 -> settled (op_sets e s).
Proof.
  intros Ho. split; [exact Ho|]. destruct Hd as (D1 & D2 & D3 & D4).
  pose proof (op_sets_recomputed e s) as X.
  set (q := mk_state (st_active s) (st_inactive s) (st_internal s) (st_trial s)) in *.
  destruct (in_dec Nat.eq_dec d (st_active (op_sets e s))) as [A|A]; [left; exact A|right].
  assert (Ia : st_active (op_sets e s) = active_set (recomputed (current_problem e s) (e_microstress e s) q))
    by (rewrite <- X; reflexivity).
  assert (Ii : st_inactive (op_sets e s) = inactive_set (recomputed (current_problem e s) (e_microstress e s) q))
    by (rewrite <- X; reflexivity).
  assert (Ic : st_internal (op_sets e s) = internal_constraints (recomputed (current_problem e s) (e_microstress e s) q))
    by (rewrite <- X; reflexivity).
  assert (It : st_trial (op_sets e s) = trial_solution (recomputed (current_problem e s) (e_microstress e s) q))
    by (rewrite <- X; reflexivity).
  split.
  - rewrite It, <- Ho.
    apply (C44_inactive_values_are_reset (current_problem e s) (e_microstress e s) q d eq_refl Hslips D3).
    apply recomputed_inactive; [reflexivity|]. rewrite <- Ia.
    split; [exact D1|]. split; [exact D2|]. split; [|exact A].
    intros [N _]. apply N. exact D3.
  - rewrite Ic. rewrite Ia in A.
    destruct (recomputed_active (current_problem e s) (e_microstress e s) q eq_refl Hslips) as [Ra Rc].
    rewrite Rc. rewrite Ra in A. clear - A D2 D4 Hnodup. revert A.
    change (p_affine (current_problem e s)) with (p_affine (e_problem e)).
    change (p_hanging (current_problem e s)) with (p_hanging (e_problem e)).
    change (p_newton (current_problem e s)) with (p_newton (e_problem e)).
    change (p_owned_slip (current_problem e s)) with (p_owned_slip (e_problem e)).
    generalize (yield_of (current_problem e s)), (e_microstress e s). intros ys tr A.
    destruct (in_split _ _ D2) as (l1 & l2 & S). rewrite S in *.
    apply NoDup_remove_2 in Hnodup.
    assert (N1 : ~ In d l1) by (intros Z; apply Hnodup, in_or_app; auto).
    assert (N2 : ~ In d l2) by (intros Z; apply Hnodup, in_or_app; auto).
    assert (M : mem d (fst (active_loop (p_affine (e_problem e)) tr ys (p_hanging (e_problem e)) (l1 ++ [d]))) = false).
    { apply mem_not_In. intros Z. apply A. apply loop_active. apply loop_active in Z.
      destruct Z as (k & K1 & K2). exists k. split; [|exact K2].
      apply in_app_or in K1. apply in_or_app. destruct K1 as [K1|[K1|[]]]; simpl; auto. }
    unfold merge at 1. rewrite (loop_lines_at _ _ _ _ _ _ _ N1 N2), M, D4. reflexivity.
Qed.

Hypothesis Hblock : e_blocks e d = Micro.

Lemma trial_kept_by_macro (x n : vec) l : update_trial (layout e) x n l Macro d = x d.
Proof. unfold update_trial, set_block, layout; cbn. rewrite Hblock. reflexivity. Qed.
Lemma trial_moved_by_micro (x n : vec) l : update_trial (layout e) x n l Micro d = x d + l * n d.
Proof.
  destruct Hd as (_ & _ & D3 & _).
  unfold update_trial, set_block, layout; cbn. rewrite Hblock; cbn.
  unfold ModelLineSearch.distribute; cbn. rewrite D3, Hblock. reflexivity.
Qed.
Lemma reset_macro_keeps (x y : vec) : reset_trial (layout e) x y Macro d = x d.
Proof. unfold reset_trial, set_block, layout; cbn. rewrite Hblock. reflexivity. Qed.
Lemma affine_keeps s : settled s -> settled (op_affine e s).
Proof.
  intros (A & B). split; [exact A|]. destruct B as [B|[B C]]; [left; exact B|right].
  split; [|exact C]. cbn. unfold ModelActiveSet.distribute. destruct Hd as (_ & _ & -> & _). exact B.
Qed.
Lemma settled_pass b l s :
  match b with Micro => settled2 s | Macro => settled s end ->
  match b with Micro => settled2 (op_search_pass e b s l) | Macro => settled (op_search_pass e b s l) end.
Proof.
  destruct b; intros (A & B); (split; [exact A|]); (destruct B as [B|B]; [left; exact B|right]).
  - destruct B as [B C]. split; [|exact C]. cbn. rewrite trial_kept_by_macro, reset_macro_keeps. exact B.
  - destruct B as (B & C & D). split; [|auto]. cbn. rewrite trial_moved_by_micro, reset_macro_keeps, D, B. ring.
Qed.
Lemma settled_passes_macro ls : forall s, settled s -> settled (fold_left (op_search_pass e Macro) ls s).
Proof. induction ls as [|l ls IH]; intros s X; [exact X|]. cbn [fold_left]. apply IH. exact (settled_pass Macro l s X). Qed.
Lemma settled_passes_micro ls : forall s, settled2 s -> settled2 (fold_left (op_search_pass e Micro) ls s).
Proof. induction ls as [|l ls IH]; intros s X; [exact X|]. cbn [fold_left]. apply IH. exact (settled_pass Micro l s X). Qed.

Lemma settled_micro s r : settled s -> micro_iteration o sp s = Ok r -> settled r.
Proof.
  intros X. unfold micro_iteration. cbn -[op_search op_solve_block].
  unfold op_solve_block. destruct (e_solve_micro e _) as [y| |]; try discriminate. cbn [rbind].
  set (z := set_newton _ _).
  assert (Z : settled2 (op_residual e (op_update e (op_apply e 1 Micro z)))).
  { destruct X as (A & B). split; [exact A|]. destruct B as [B|[B C]]; [left; exact B|right].
    assert (N : st_newton z d = 0).
    { unfold z; cbn. unfold set_block, layout; cbn. rewrite Hblock; cbn.
      unfold ModelActiveSet.distribute. rewrite C. reflexivity. }
    split; [|split; [exact C|exact N]]. cbn [st_trial op_residual op_update set_norms op_apply set_trial].
    rewrite trial_moved_by_micro, N. cbn. rewrite B. ring. }
  assert (W : forall q, settled2 q -> settled q).
  { intros q (A & [B|(B & C & _)]); split; auto. }
  unfold maybe_search. destruct (micro_line_search sp); intros E; injection E as <-; apply W.
  - apply settled_passes_micro, Z.
  - exact Z.
Qed.
Lemma settled_micro_loop : forall loop left it s log r, settled s ->
  fst (micro_loop o sp loop left it s log) = Done r -> settled r.
Proof.
  intros loop. induction left as [|left IH]; intros it s log r Hs; cbn [micro_loop]; [discriminate|].
  destruct (micro_iteration o sp s) as [s1| |] eqn:E; try discriminate.
  apply (settled_micro _ _ Hs) in E. destruct (xltb _ _); [intros X; injection X as <-; exact E|apply IH, E].
Qed.

Hypothesis HRI : rate_independent sp = true.
Hypothesis Hreset : reset_at_micro_loop sp = false.

Lemma settled_bounce : forall fuel mit mloop uloop fmicro s log r, st_old s = old0 ->
  (fmicro = true -> settled s) ->
  fst (bounce o sp fuel mit mloop uloop fmicro s log) = Done r -> settled r.
Proof.
  induction fuel as [|fuel IH]; intros mit mloop uloop fmicro s log r Ho Hs; cbn [bounce]; [discriminate|].
  destruct (if andb _ _ then false else _).
  - destruct fmicro; [intros X; injection X as <-; auto|].
    unfold call_active_set. rewrite HRI, Hreset.
    assert (S3 : settled (distribute_affine o (recompute_sets o s)))
      by (apply affine_keeps, sets_settled, Ho).
    match goal with |- context [micro_loop o sp ?a ?b ?c ?q ?l] =>
      pose proof (settled_micro_loop a b c q l) as D; destruct (micro_loop o sp a b c q l) as [[s4| | |] log'] end;
      cbn [fst] in D; try discriminate.
    destruct (Nat.leb _ _); [|discriminate]. specialize (D s4 S3 eq_refl). apply IH; [apply D|auto].
  - destruct (Nat.leb _ _); [|discriminate].
    destruct (macro_iteration o sp (mit + 1) s) as [s1| |] eqn:E; try discriminate.
    apply (ev_macro o sp _ old_preserved old_searches _ _ _ Ho) in E.
    apply (ev_inv o sp _ old_preserved) in E. apply IH; [exact E|discriminate].
Qed.

Lemma settled_embrace_macro it s r : settled s -> embrace_macro o sp it s = Ok r -> settled r.
Proof.
  intros X. unfold embrace_macro.
  assert (Y : forall (f : sstate H -> result vec) q, op_solve_block e f Macro s = Ok q -> settled q).
  { intros f q E. unfold op_solve_block in E. destruct (f s); try discriminate. injection E as <-. exact X. }
  destruct (if Nat.eqb it 1 then _ else _) as [q| |] eqn:E; try discriminate. cbn [rbind].
  assert (Q : settled q) by (destruct (Nat.eqb it 1); exact (Y _ _ E)).
  assert (Z : settled (assemble_res o (update_internal o (apply_macro o q)))).
  { destruct Q as (A & B). split; [exact A|]. destruct B as [B|[B C]]; [left; exact B|right].
    split; [|exact C]. cbn. rewrite trial_kept_by_macro. exact B. }
  unfold maybe_search. destruct (macro_line_search sp); intros F; injection F as <-.
  - apply settled_passes_macro, Z.
  - exact Z.
Qed.
Lemma settled_embrace : forall fuel mit flag fmicro s log r, st_old s = old0 ->
  (flag = true \/ settled s) -> (fmicro = true -> settled s) ->
  fst (embrace o sp fuel mit flag fmicro s log) = Done r -> settled r.
Proof.
  induction fuel as [|fuel IH]; intros mit flag fmicro s log r Ho Hf Hs; cbn [embrace]; [discriminate|].
  assert (R1 : settled s -> settled (reevaluate o s)) by (intros X; exact X).
  destruct (_ && fmicro)%bool eqn:F.
  - apply Bool.andb_true_iff in F. destruct F as [_ ->]. intros X; injection X as <-. auto.
  - destruct (Nat.leb _ _); [|discriminate].
    destruct (embrace_macro o sp (mit + 1) (reevaluate o s)) as [s1| |] eqn:E; try discriminate.
    assert (S2 : settled (fst (call_active_set o sp flag s1)) /\ snd (call_active_set o sp flag s1) = false).
    { unfold call_active_set. rewrite HRI. destruct flag; cbn [fst snd].
      - split; [|reflexivity]. apply sets_settled.
        apply (ev_embrace o sp _ old_preserved old_searches) in E; [|exact Ho].
        exact (ev_inv o sp _ old_preserved _ E).
      - split; [|reflexivity]. destruct Hf as [Hf|Hf]; [discriminate|].
        exact (settled_embrace_macro _ _ _ (R1 Hf) E). }
    destruct (call_active_set o sp flag s1) as [s2 f2]; cbn [fst snd] in S2. destruct S2 as [S2 ->].
    rewrite Hreset.
    match goal with |- context [micro_loop o sp ?a ?b ?c ?q ?l] =>
      pose proof (settled_micro_loop a b c q l) as D; destruct (micro_loop o sp a b c q l) as [[s4| | |] log'] end;
      cbn [fst] in D; try discriminate.
    specialize (D s4 S2 eq_refl). apply IH; auto. apply D.
Qed.
End Inactive.

(** Rate-independent behaviour: in an accepted step a free slip dof outside the active set
    keeps its slip.  For the staggered algorithms this is proved for runs that do not reset
    the slips to the extrapolated ones before each micro loop. *)
Theorem C89_inactive_dofs_do_not_slip : forall H sp a fuel (e : env H) t oo s r d,
  rate_independent sp = true ->
  (0 < p_n_slips (e_problem e))%nat -> NoDup (p_owned_slip (e_problem e)) ->
  unconstrained_slip_dof e d ->
  a = Monolithic \/ (reset_at_micro_loop sp = false /\ e_blocks e d = Micro) ->
  solve_nonlinear_system e sp a fuel t oo s = Done r ->
  ~ In d (st_active r) -> st_trial r d = st_old s d.
Proof.
  intros H sp a fuel e t oo s r d RI HN HD Hd Ha. unfold solve_nonlinear_system.
  assert (B : st_old (begin_step e t oo s) = st_old s).
  { unfold begin_step. destruct (extrapolate _ _ _ _ _ _ _ _ _); reflexivity. }
  set (b := begin_step e t oo s) in *.
  destruct (solve_nonlinear (step_ops e) sp a fuel b) as [q| | |] eqn:E; try discriminate.
  intros X; injection X as <-. cbn [st_active st_trial]. intros A.
  cut (settled (st_old s) d q).
  { intros (_ & [K|[K _]]); [contradiction|exact K]. }
  destruct a; unfold solve_nonlinear in E.
  - unfold monolithic_algorithm in E.
    destruct (mono_ev _ _ _ (old_preserved sp e (st_old s)) (old_searches sp e (st_old s)) _ _ _ _ _ _ B E)
      as (s1 & E1 & _ & Z & _).
    destruct (Z RI) as [-> _]. apply sets_settled; auto.
    exact (ev_inv _ _ _ (old_preserved sp e (st_old s)) _ E1).
  - destruct Ha as [Ha|[Hr Hb]]; [discriminate|].
    exact (settled_bounce sp e (st_old s) d HN HD Hd Hb RI Hr _ _ _ _ _ _ _ _ B
      (fun X : false = true => False_ind _ (Bool.diff_false_true X)) E).
  - destruct Ha as [Ha|[Hr Hb]]; [discriminate|].
    change (st_old (distribute_affine (step_ops e) b) = st_old s) in B.
    exact (settled_embrace sp e (st_old s) d HN HD Hd Hb RI Hr _ _ _ _ _ _ _ B (or_introl eq_refl)
      (fun X : false = true => False_ind _ (Bool.diff_false_true X)) E).
Qed.

(** *** C87 for the slip resistances at a quadrature point *)
Lemma point_readable ns interp x : readable ns (point_slips ns interp x) 0.
Proof.
  intros b Hb. exists (interp b x). unfold at2, point_slips. rewrite nth_error_map.
  rewrite (nth_error_nth' (seq 0 ns) 0%nat) by (rewrite seq_length; exact Hb).
  rewrite seq_nth by exact Hb. reflexivity.
Qed.
Lemma point_dgamma ns interp x old b : (b < ns)%nat ->
  dgamma (point_slips ns interp x) (point_slips ns interp old) 0 b = interp b x - interp b old.
Proof.
  intros Hb. unfold dgamma, at2, point_slips. rewrite !nth_error_map.
  rewrite (nth_error_nth' (seq 0 ns) 0%nat) by (rewrite seq_length; exact Hb).
  rewrite seq_nth by exact Hb. reflexivity.
Qed.
(** An initialised point of a body with [ns] slip systems. *)
Definition point_of (p : hardening) (ns : nat) (c : R) (h : qph) : Prop :=
  flag_init h = true /\ prm h = p /\ ModelHistory.n_slips h = ns /\ char_res h = c /\
  length (slip_res h) = ns /\ length (tmp_res h) = ns.
Lemma point_update_value p ns c interp old x h : point_of p ns c h ->
  flag_perfect_plasticity p = false ->
  point_of p ns c (point_update interp old x h) /\
  forall a r, nth_error (tmp_res h) a = Some r ->
    nth_error (slip_res (point_update interp old x h)) a =
      Some (r + hardening_increment (linear_hardening_modulus p / c) (hardening_parameter p) ns a
                  (fun b => interp b x - interp b old)).
Proof.
  intros (F & P & N & C & L1 & L2) HP. unfold point_update, ModelHistory.step. rewrite F, P, HP.
  destruct (harden_all_value h _ _ 0 (point_readable (ModelHistory.n_slips h) interp x)
              (point_readable (ModelHistory.n_slips h) interp old) (tmp_res h) 0) as (v & E & Lv & V).
  rewrite E. cbn [rbind]. split.
  - unfold point_of; cbn. repeat split; auto; congruence.
  - intros a r Ha. cbn [slip_res]. rewrite (V a r Ha). f_equal. f_equal.
    unfold incr, hardening_increment. rewrite P, N, C. apply sumn_ext. intros b Hb.
    rewrite point_dgamma by exact Hb. reflexivity.
Qed.
Lemma point_store_value p ns c h : point_of p ns c h ->
  point_of p ns c (point_store h) /\ tmp_res (point_store h) = slip_res h.
Proof.
  intros (F & P & N & C & L1 & L2). unfold point_store, ModelHistory.step. rewrite F. cbn.
  unfold point_of; cbn. auto 10.
Qed.
Lemma point_forgets interp : forgets_iterates (point_update interp).
Proof.
  intros old x y h. unfold point_update at 2. unfold ModelHistory.step.
  destruct (flag_init h) eqn:F; [|reflexivity].
  destruct (flag_perfect_plasticity (prm h)) eqn:HP.
  - unfold point_update, ModelHistory.step; cbn. rewrite F, HP. reflexivity.
  - destruct (harden_all_value h _ _ 0 (point_readable (ModelHistory.n_slips h) interp y)
              (point_readable (ModelHistory.n_slips h) interp old) (tmp_res h) 0) as (v & E & _).
    rewrite E. cbn [rbind].
    unfold point_update, ModelHistory.step.
    cbn [flag_init prm ModelHistory.n_slips char_res slip_res tmp_res]. rewrite F, HP.
    rewrite (harden_all_ext (mk_qph true (ModelHistory.n_slips h) (prm h) (char_res h) v (tmp_res h)) h) by reflexivity.
    destruct (harden_all_value h _ _ 0 (point_readable (ModelHistory.n_slips h) interp x)
              (point_readable (ModelHistory.n_slips h) interp old) (tmp_res h) 0) as (w & E2 & _).
    rewrite E2. reflexivity.
Qed.
Lemma replay_point p ns c interp : flag_perfect_plasticity p = false -> forall es sols old h,
  (forall e t, In (e, t) es -> e_store e = point_store /\ e_update e = point_update interp /\
     forall x h', e_finish e x h' = h') ->
  length sols = length es -> point_of p ns c h ->
  forall a r, nth_error (slip_res h) a = Some r ->
    nth_error (slip_res (replay_history es sols old h)) a =
      Some (r + accumulated_hardening (linear_hardening_modulus p / c) (hardening_parameter p)
                  ns a interp old sols).
Proof.
  intros HP. induction es as [|[e t] es IH]; intros [|x sols] old h He L Ph a r Ha; try discriminate L;
    cbn [replay_history accumulated_hardening].
  - rewrite Rplus_0_r. exact Ha.
  - destruct (He e t (or_introl eq_refl)) as (S1 & S2 & S3). rewrite S3, S1, S2.
    destruct (point_store_value _ _ _ _ Ph) as [P1 T1].
    destruct (point_update_value p ns c interp old x _ P1 HP) as [P2 V].
    rewrite <- T1 in Ha. specialize (V a r Ha).
    rewrite (IH sols x _ (fun e' t' i => He e' t' (or_intror i)) (eq_add_S _ _ L) P2 a _ V).
    rewrite Rplus_assoc. reflexivity.
Qed.
(** Through a whole run of any length, however many iterations each step took, the slip
    resistance of system [a] at a quadrature point is its initial value plus, per step,
    sum_b H (q + (1-q) delta_ab) |gamma_b - gamma_b^old| of the accepted solutions. *)
Theorem C87_hardening_of_accepted_slips : forall sp a fuel es oo (s : sstate qph) oo' s' acc
  p ns c interp,
  flag_perfect_plasticity p = false -> point_of p ns c (st_hist s) ->
  (forall e t, In (e, t) es -> e_store e = point_store /\ e_update e = point_update interp /\
     forall x h, e_finish e x h = h) ->
  rate_independent sp = false \/ a <> Monolithic ->
  run sp a fuel es oo s = (Done (oo', s'), acc) ->
  forall alpha r, nth_error (slip_res (st_hist s)) alpha = Some r ->
    nth_error (slip_res (st_hist s')) alpha =
      Some (r + accumulated_hardening (linear_hardening_modulus p / c) (hardening_parameter p)
                  ns alpha interp (st_old s) (map st_trial acc)).
Proof.
  intros sp a fuel es oo s oo' s' acc p ns c interp HP Ph He Ha R1 alpha r Hr.
  destruct (C87_only_accepted_solutions_leave_a_trace _ sp a fuel es oo s oo' s' acc) as (L & _ & B & _);
    [|exact Ha|exact R1|].
  { intros e t Hin. destruct (He e t Hin) as (_ & -> & _). apply point_forgets. }
  rewrite B. apply (replay_point p ns c interp HP); auto. rewrite map_length. exact L.
Qed.

(** ** A two-dof body: displacement 0 and slip 1
    Residual of the displacement: u + (u - gamma) - 1; residual of the slip, if it is not
    constrained: (u - gamma) - 1/2.  Yield stress 1/2, trial microstress u - gamma_old.  The
    history accumulates |gamma - gamma_old| (committed value, current value).  The last two
    solutions are (1,1) and (0,0), so the step starts from the extrapolation (2,2). *)
Definition two_problem : problem :=
  mk_problem 1 true (mk_hardening (1/2) 0 0 true) 1 [0; 1]%nat [1%nat]
    no_constraints no_constraints no_constraints (fun _ => 0) (fun _ => 1/2).
Definition two_norms (old x : vec) (h : R * R) (c : constraints) : xr * xr :=
  (Fin ((x 0%nat + (x 0%nat - x 1%nat) - 1) ^ 2),
   Fin (match c 1%nat with Some _ => 0 | None => (x 0%nat - x 1%nat - 1/2) ^ 2 end)).
Definition on2 (a b : R) : vec := fun d => if Nat.eqb d 0 then a else b.
Definition two_solve (s : sstate (R * R)) : result vec :=
  let u := st_trial s 0%nat in let g := st_trial s 1%nat in
  Ok (match st_internal s 1%nat with
      | Some _ => on2 ((g + 1) / 2 - u) 0
      | None => on2 (1/2 - u) (0 - g)
      end).
Definition two_solve_macro (s : sstate (R * R)) : result vec :=
  Ok (on2 ((st_trial s 1%nat + 1) / 2 - st_trial s 0%nat) 0).
Definition two_env (blocks : nat -> block_index) : env (R * R) :=
  mk_env two_problem blocks
    (fun h => (snd h, snd h))
    (fun old x h => (fst h, fst h + Rabs (x 1%nat - old 1%nat)))
    (fun _ h => h) (fun _ _ _ g => g) two_norms
    (fun s => fun d => st_trial s 0%nat - st_old s 1%nat)
    two_solve two_solve_macro (fun _ => Ok (fun _ => 0)) two_solve_macro
    (fun _ => []) (fun _ => []) (fun _ => []).
Definition two_start : sstate (R * R) :=
  mk_sstate [] [] no_constraints (on2 1 1) (on2 1 1) (on2 1 1) (fun _ => 0) (on2 1 1) (0, 0)
    (fun _ => 1/2) (fun _ => 1/2) (Fin 0, Fin 0).
Definition two_timing : timing := mk_timing 1 1 1 1 false.
Definition two_parameters (rate_indep reset : bool) : solver_parameters :=
  mk_solver_parameters rate_indep 5 (1/2) false 5 (1/2) false 5 (1/2) false 3 reset.

Lemma two_forgets blocks : forgets_iterates (e_update (two_env blocks)).
Proof. intros old x y [a b]. reflexivity. Qed.

Lemma two_norm0 s a b : st_norms (H := R * R) s = (Fin a, Fin b) -> a = 0 -> b = 0 ->
  forall blocks, 
  xltb (norm_total (step_ops (two_env blocks)) s) (Fin (1/2)) = true /\
  xltb (norm_macro (step_ops (two_env blocks)) s) (Fin (1/2)) = true /\
  xltb (norm_micro (step_ops (two_env blocks)) s) (Fin (1/2)) = true.
Proof.
  intros E -> -> blocks. unfold norm_total, norm_macro, norm_micro. cbn [squares step_ops]. rewrite E.
  cbn [fst snd]. assert (X : Rltb 0 0 = false) by (apply Rltb_false; lra).
  unfold xsqrt. rewrite X, sqrt_0. cbn [xmul xadd].
  assert (Y : 0 * 0 + 0 * 0 = 0) by ring. rewrite Y, X, sqrt_0. cbn [xltb].
  assert (Z : Rltb 0 (1/2) = true) by (apply Rltb_true; lra). auto.
Qed.
Definition all_macro (d : nat) : block_index := Macro.
Definition slip_micro (d : nat) : block_index := if Nat.eqb d 0 then Macro else Micro.

(** What the relevant members hold: active set, displacement, slip, is the slip constrained;
    [v] is the slip for which the history was updated last. *)
Record looks (s : sstate (R * R)) (act : list nat) (u g : R) (k : bool) (v : R) : Prop := {
  l_act : st_active s = act;
  l_u : st_trial s 0%nat = u;
  l_g : st_trial s 1%nat = g;
  l_k : st_internal s 1%nat = if k then Some zero_line else None;
  l_k0 : st_internal s 0%nat = None;
  l_i0 : st_initial s 0%nat = 2;
  l_i1 : st_initial s 1%nat = 2;
  l_old : st_old s = on2 1 1;
  l_hist : st_hist s = (0, Rabs (v - 1))
}.
Lemma two_sets blocks s act u g k v : looks s act u g k v ->
  looks (op_sets (two_env blocks) s) (if Rltb (1/2) (Rabs (u - 1)) then [1%nat] else []) u
    (if Rltb (1/2) (Rabs (u - 1)) then g else 1) (negb (Rltb (1/2) (Rabs (u - 1)))) v.
Proof.
  intros [A B C D K E F G I].
  assert (Y : yield_stress (p_hardening two_problem) (p_char_resistance two_problem) (st_res s) 1%nat = 1/2).
  { unfold yield_stress; simpl. field. }
  unfold op_sets. cbn [e_microstress two_env].
  unfold active_set_algorithm. change (p_rate_independent _) with true. cbv iota.
  unfold reset_inactive_set_values, determine_inactive_set, determine_active_set.
  change (Nat.eqb (p_n_slips _) 0) with false. cbv iota.
  unfold active_loop. change (p_owned_slip (current_problem _ _)) with [1%nat].
  change (p_owned (current_problem _ _)) with [0; 1]%nat.
  change (p_affine (current_problem _ _)) with no_constraints.
  change (p_hanging (current_problem _ _)) with no_constraints.
  change (p_hardening (current_problem _ _)) with (p_hardening two_problem).
  change (p_char_resistance (current_problem _ _)) with (p_char_resistance two_problem).
  change (p_slip_resistance (current_problem _ _)) with (st_res s).
  change (p_old_solution (current_problem _ _)) with (st_old s).
  cbn [fold_left]. unfold active_step. rewrite Y, B, G. change (on2 1 1 1%nat) with 1.
  destruct (Rltb (1/2) (Rabs (u - 1))); split; try assumption; try reflexivity; simpl;
    unfold ModelActiveSet.distribute; simpl; try assumption; rewrite ?G; reflexivity.
Qed.
Lemma two_begin blocks :
  looks (begin_step (two_env blocks) two_timing (on2 0 0) two_start) [] 2 2 false 1.
Proof.
  assert (Z : Rabs (1 - 1) = 0) by (rewrite Rminus_diag_eq, Rabs_R0 by reflexivity; reflexivity).
  unfold begin_step, extrapolate, step_size_ratio. split; try reflexivity; try (cbn; rewrite Z; reflexivity);
    simpl; unfold ModelActiveSet.distribute, sadd; unfold on2; simpl; lra.
Qed.

(** *** Monolithic *)
Local Notation oM := (step_ops (two_env all_macro)).
Lemma two_step_sets s act u g k v : looks s act u g k v ->
  looks (op_affine (two_env all_macro) (op_sets (two_env all_macro) (op_update (two_env all_macro) (op_store s))))
    (if Rltb (1/2) (Rabs (u - 1)) then [1%nat] else []) u
    (if Rltb (1/2) (Rabs (u - 1)) then g else 1) (negb (Rltb (1/2) (Rabs (u - 1)))) g.
Proof.
  intros L. assert (L1 : looks (op_update (two_env all_macro) (op_store s)) act u g k g).
  { destruct L as [A B C D K E F G I]. split; try assumption. cbn. rewrite I, G, C. cbn. rewrite Rplus_0_l. reflexivity. }
  apply (two_sets all_macro) in L1. destruct L1 as [A B C D K E F G I]. split; assumption.
Qed.
Lemma two_solved s act u g k v : looks s act u g k v ->
  exists r, rbind (solve_mono oM (assemble_system oM s)) (fun s =>
    rbind (maybe_search false (search_mono oM) (assemble_res oM (update_internal oM (apply_mono oM s))))
      (fun s => Ok (s, false))) = Ok (r, false) /\
    looks r act (if k then (g + 1) / 2 else 1/2) (if k then g else 0) k (if k then g else 0) /\
    exists a b, st_norms r = (Fin a, Fin b) /\ a = 0 /\ b = 0.
Proof.
  intros [A B C D K E F G I].
  set (y := match st_internal s 1%nat with
            | Some _ => on2 ((st_trial s 1%nat + 1) / 2 - st_trial s 0%nat) 0
            | None => on2 (1/2 - st_trial s 0%nat) (0 - st_trial s 1%nat) end).
  set (n := set_block (layout (two_env all_macro)) Macro (st_newton s) (ModelActiveSet.distribute (st_internal s) y)).
  set (x := update_trial (layout (two_env all_macro)) (st_trial s) n 1 Macro).
  exists (op_residual (two_env all_macro) (op_update (two_env all_macro)
            (set_trial (set_newton (op_residual (two_env all_macro) s) n) x))).
  split; [reflexivity|].
  assert (N0 : n 0%nat = (if k then (g + 1) / 2 else 1/2) - u).
  { unfold n, set_block; cbn. unfold ModelActiveSet.distribute. rewrite K. unfold y. rewrite D.
    rewrite B, C. destruct k; reflexivity. }
  assert (N1 : n 1%nat = if k then 0 else 0 - g).
  { unfold n, set_block; cbn. unfold ModelActiveSet.distribute. rewrite D. destruct k; [reflexivity|].
    unfold y. rewrite D, C. reflexivity. }
  clearbody n. assert (X0 : x 0%nat = if k then (g + 1) / 2 else 1/2).
  { unfold x, update_trial, set_block, ModelLineSearch.distribute; cbn. rewrite B, N0. destruct k; lra. }
  assert (X1 : x 1%nat = if k then g else 0).
  { unfold x, update_trial, set_block, ModelLineSearch.distribute; cbn. rewrite C, N1. destruct k; lra. }
  clearbody x.
  split.
  - split; try assumption. cbn. rewrite I, G, X1. cbn. rewrite Rplus_0_l. reflexivity.
  - cbn. unfold two_norms. rewrite D, X0, X1. eexists _, _. split; [reflexivity|].
    destruct k; split; field.
Qed.
Lemma two_iteration (f : bool) s act u g k v : looks s act u g k v ->
  let yields := Rltb (1/2) (Rabs (u - 1)) in
  let act' := if f then if yields then [1%nat] else [] else act in
  let g' := if f then if yields then g else 1 else g in
  let k' := if f then negb yields else k in
  exists r, mono_iteration oM (two_parameters true false) f s = Ok (r, false) /\
    looks r act' (if k' then (g' + 1) / 2 else 1/2) (if k' then g' else 0) k' (if k' then g' else 0) /\
    xltb (norm_total oM r) (Fin (1/2)) = true.
Proof.
  intros L yields act' g' k'.
  assert (L1 : looks (distribute_affine oM (fst (call_active_set oM (two_parameters true false) f
             (update_internal oM (store_trial oM s))))) act' u g' k' g).
  { unfold call_active_set. change (rate_independent (two_parameters true false)) with true. cbv iota.
    unfold act', g', k'. destruct f; cbn [fst].
    - exact (two_step_sets _ _ _ _ _ _ L).
    - destruct L as [A B C D K E F G I]. split; try assumption. cbn. rewrite I, G, C. cbn. rewrite Rplus_0_l. reflexivity. }
  unfold mono_iteration.
  assert (S2 : snd (call_active_set oM (two_parameters true false) f (update_internal oM (store_trial oM s))) = false)
    by (destruct f; reflexivity).
  destruct (call_active_set _ _ _ _) as [s1 f1]. cbn [fst snd] in L1, S2. subst f1.
  change (mono_line_search (two_parameters true false)) with false.
  destruct (two_solved _ _ _ _ _ _ L1) as (r & E & L2 & a & b & N & Na & Nb).
  exists r. split; [exact E|]. split; [exact L2|]. apply (two_norm0 r a b N Na Nb all_macro).
Qed.

Lemma two_monolithic : exists r,
  solve_nonlinear_system (two_env all_macro) (two_parameters true false) Monolithic 10
    two_timing (on2 0 0) two_start = Done r /\ looks r [] (3/2) 1 true 2.
Proof.
  assert (Y2 : Rltb (1/2) (Rabs (2 - 1)) = true) by (apply Rltb_true; rewrite Rabs_right; lra).
  assert (Y1 : Rltb (1/2) (Rabs (1/2 - 1)) = false) by (apply Rltb_false; rewrite Rabs_left; lra).
  assert (Y3 : Rltb (1/2) (Rabs ((2 + 1)/2 - 1)) = false) by (apply Rltb_false; rewrite Rabs_right; lra).
  unfold solve_nonlinear_system, solve_nonlinear, monolithic_algorithm.
  pose proof (two_begin all_macro) as L. set (b := begin_step _ _ _ _) in *. clearbody b.
  destruct (two_iteration true b _ _ _ _ _ L) as (r1 & E1 & L1 & C1). cbv zeta in L1. rewrite Y2 in L1.
  cbn [negb] in L1. clear L.
  pose proof (two_sets all_macro r1 _ _ _ _ _ L1) as L2. rewrite Y1 in L2. cbn [negb] in L2.
  set (r2 := op_sets (two_env all_macro) r1) in *.
  assert (L3 : looks (op_reset (two_env all_macro) Macro r2) [] 2 2 true 0).
  { destruct L2 as [A B C D K E F G I]. split; try assumption; cbn; unfold reset_trial, set_block,
      ModelLineSearch.distribute; cbn; assumption. }
  destruct (two_iteration false _ _ _ _ _ _ L3) as (r4 & E4 & L4 & C4). cbv zeta in L4. cbv iota in L4.
  pose proof (two_sets all_macro r4 _ _ _ _ _ L4) as L5. rewrite Y3 in L5. cbn [negb] in L5.
  set (r5 := op_sets (two_env all_macro) r4) in *.
  cbn [mono_loop]. change (Nat.leb (0 + 1) (mono_n_max (two_parameters true false))) with true. cbv iota.
  rewrite E1. change (mono_tol (two_parameters true false)) with (1/2). rewrite C1.
  change (rate_independent (two_parameters true false)) with true. cbv iota.
  unfold call_active_set at 1. change (rate_independent (two_parameters true false)) with true. cbv iota.
  change (recompute_sets oM r1) with r2.
  change (the_active_set oM) with (@st_active (R * R)). rewrite (l_act _ _ _ _ _ _ L1), (l_act _ _ _ _ _ _ L2).
  destruct (list_eq_dec _ _ _) as [X|_]; [discriminate|].
  cbn [mono_loop]. change (Nat.leb (0 + 1) (mono_n_max (two_parameters true false))) with true. cbv iota.
  change (reset_to_initial oM r2) with (op_reset (two_env all_macro) Macro r2).
  rewrite E4. change (mono_tol (two_parameters true false)) with (1/2). rewrite C4.
  change (rate_independent (two_parameters true false)) with true. cbv iota.
  unfold call_active_set at 1. change (rate_independent (two_parameters true false)) with true. cbv iota.
  change (recompute_sets oM r4) with r5.
  change (the_active_set oM) with (@st_active (R * R)). rewrite (l_act _ _ _ _ _ _ L4), (l_act _ _ _ _ _ _ L5).
  destruct (list_eq_dec _ _ _) as [_|X]; [|congruence].
  eexists. split; [reflexivity|]. cbn [fst].
  replace (3/2) with ((2 + 1)/2) by lra.
  destruct L5 as [A B C D K E F G I]. split; assumption.
Qed.

(** With the monolithic algorithm and rate-independent behaviour a restart after a change of
    the active set breaks C87 and C88: the restarted iteration runs with the extrapolated slip
    of the inactive dof, and that slip is set back to its old value only after the residual has
    met the tolerance.  The accepted solution has a residual of norm 1 for a tolerance of 1/2,
    and the history has accumulated a slip that never took place. *)
Theorem C88_monolithic_restart_refuted : exists sp (e : env (R * R)) t oo s r,
  forgets_iterates (e_update e) /\ rate_independent sp = true /\
  solve_nonlinear_system e sp Monolithic 10 t oo s = Done r /\
  (forall c, ~ residual_within_tolerance sp Monolithic e (st_old s) (st_trial r) (st_hist s) c) /\
  st_hist r <> e_finish e (st_trial r) (e_update e (st_old s) (st_trial r) (e_store e (st_hist s))).
Proof.
  destruct two_monolithic as (r & E & [A B C D K _ _ G I]).
  exists (two_parameters true false), (two_env all_macro), two_timing, (on2 0 0), two_start, r.
  split; [apply two_forgets|]. split; [reflexivity|]. split; [exact E|]. split.
  - intros c (u & g & N & Hu & Hg & T). cbn in N. unfold two_norms in N. injection N as N1 N2.
    rewrite B, C in N1. change (sqrt (u + g) < 1/2) in T.
    assert (U : u = 1) by (rewrite <- N1; field). rewrite U in T.
    assert (L : sqrt 1 <= sqrt (1 + g)) by (apply sqrt_le_1; lra). rewrite sqrt_1 in L. lra.
  - rewrite I. cbn. rewrite C. unfold on2; simpl. intros X. injection X as X.
    replace (1 - 1) with 0 in X by ring. rewrite Rabs_R0 in X.
    assert (Z : Rabs (2 - 1) = 1) by (rewrite Rabs_right; lra). lra.
Qed.

(** *** Staggered algorithms *)
Local Notation eS := (two_env slip_micro).
Local Notation oS := (step_ops (two_env slip_micro)).
Lemma two_macro_update s act u g k v : looks s act u g k v ->
  forall n, n 0%nat = (g + 1) / 2 - u ->
  let r := op_residual eS (op_update eS (op_apply eS 1 Macro (set_newton s n))) in
  looks r act ((g + 1) / 2) g k g /\ xltb (norm_macro oS r) (Fin (1/2)) = true.
Proof.
  intros [A B C D K E F G I] n N r.
  assert (X0 : st_trial r 0%nat = (g + 1) / 2).
  { unfold r; cbn. unfold update_trial, set_block, ModelLineSearch.distribute; cbn. rewrite B, N. lra. }
  assert (X1 : st_trial r 1%nat = g).
  { unfold r; cbn. unfold update_trial, set_block, ModelLineSearch.distribute; cbn. exact C. }
  split.
  - split; try assumption. change (st_hist r) with (e_update eS (st_old s) (st_trial r) (st_hist s)).
    rewrite I, G. cbn [e_update two_env fst]. rewrite X1. unfold on2; simpl. rewrite Rplus_0_l. reflexivity.
  - unfold norm_macro. change (squares oS r) with (two_norms (st_old r) (st_trial r) (st_hist r) (st_internal r)).
    unfold two_norms. rewrite X0, X1. cbn [fst].
    replace (((g + 1) / 2 + ((g + 1) / 2 - g) - 1) ^ 2) with 0 by field.
    unfold xsqrt. assert (X : Rltb 0 0 = false) by (apply Rltb_false; lra). rewrite X, sqrt_0.
    cbn [xltb]. apply Rltb_true; lra.
Qed.
Lemma two_macro b it s act u g k v : looks s act u g k v ->
  exists r, macro_iteration oS (two_parameters true b) it s = Ok r /\
    looks r act ((g + 1) / 2) g k g /\ xltb (norm_macro oS r) (Fin (1/2)) = true.
Proof.
  intros L.
  assert (L1 : looks (op_residual eS (op_update eS (op_store s))) act u g k g).
  { destruct L as [A B C D K E F G I]. split; try assumption. cbn. rewrite I, G, C. cbn. rewrite Rplus_0_l. reflexivity. }
  destruct L as [A B C D K E F G I].
  set (n := set_block (layout eS) Macro (fun _ => 0) (ModelActiveSet.distribute (st_internal s)
              (on2 ((st_trial s 1%nat + 1) / 2 - st_trial s 0%nat) 0))).
  exists (op_residual eS (op_update eS (op_apply eS 1 Macro (set_newton (op_residual eS (op_update eS (op_store s))) n)))).
  split; [unfold macro_iteration; cbn [assemble_jac step_ops]; destruct (Nat.eqb it 1); reflexivity|].
  apply (two_macro_update _ act u g k g L1).
  unfold n, set_block; cbn. unfold ModelActiveSet.distribute. rewrite K, B, C. reflexivity.
Qed.
Lemma two_embrace b it s act u g k v : looks s act u g k v ->
  exists r, embrace_macro oS (two_parameters true b) it s = Ok r /\
    looks r act ((g + 1) / 2) g k g /\ xltb (norm_macro oS r) (Fin (1/2)) = true.
Proof.
  intros L. pose proof L as [A B C D K E F G I].
  set (n := set_block (layout eS) Macro (fun _ => 0) (ModelActiveSet.distribute (st_internal s)
              (on2 ((st_trial s 1%nat + 1) / 2 - st_trial s 0%nat) 0))).
  exists (op_residual eS (op_update eS (op_apply eS 1 Macro (set_newton s n)))).
  split; [unfold embrace_macro; cbn [assemble_jac step_ops]; destruct (Nat.eqb it 1); reflexivity|].
  apply (two_macro_update s act u g k v L).
  unfold n, set_block; cbn. unfold ModelActiveSet.distribute. rewrite K, B, C. reflexivity.
Qed.
(** With the slip constrained the micro loop ends after one iteration that changes nothing. *)
Lemma two_micro b loop s act u g v log : looks s act u g true v ->
  exists r, micro_loop oS (two_parameters true b) loop 5 0 s log = (Done r, log ++ [MicroIt loop 1]) /\
    looks r act u g true g /\ norm_macro oS r = xsqrt (Fin ((u + (u - g) - 1) ^ 2)).
Proof.
  intros L. pose proof L as [A B C D K E F G I].
  set (n := set_block (layout eS) Micro (fun _ => 0) (ModelActiveSet.distribute (st_internal s) (fun _ => 0))).
  set (s1 := op_residual eS (op_update eS (op_store s))).
  set (r := op_residual eS (op_update eS (op_apply eS 1 Micro (set_newton s1 n)))).
  assert (M : micro_iteration oS (two_parameters true b) s = Ok r) by reflexivity.
  assert (N1 : n 1%nat = 0).
  { unfold n, set_block; cbn. unfold ModelActiveSet.distribute. rewrite D. reflexivity. }
  assert (X0 : st_trial r 0%nat = u).
  { unfold r; cbn. unfold update_trial, set_block, ModelLineSearch.distribute; cbn. exact B. }
  assert (X1 : st_trial r 1%nat = g).
  { unfold r. cbn -[n]. unfold update_trial, set_block, ModelLineSearch.distribute. cbn -[n]. rewrite C, N1. ring. }
  assert (L1 : looks r act u g true g).
  { split; try assumption.
    change (st_hist r) with (e_update eS (st_old s) (st_trial r) (e_update eS (st_old s) (st_trial s) (st_hist s))).
    rewrite I, G. cbn [e_update two_env fst]. rewrite X1. unfold on2; simpl. rewrite Rplus_0_l. reflexivity. }
  assert (W : st_norms r = (Fin ((u + (u - g) - 1) ^ 2), Fin 0)).
  { change (st_norms r) with (two_norms (st_old r) (st_trial r) (st_hist r) (st_internal r)).
    unfold two_norms. rewrite X0, X1. destruct L1 as [_ _ _ D1 _ _ _ _ _]. rewrite D1. reflexivity. }
  exists r. cbn [micro_loop]. rewrite M.
  assert (Q : xltb (norm_micro oS r) (Fin (micro_tol (two_parameters true b))) = true).
  { unfold norm_micro. change (squares oS r) with (st_norms r). rewrite W. cbn [snd]. unfold xsqrt.
    assert (X : Rltb 0 0 = false) by (apply Rltb_false; lra). rewrite X, sqrt_0. cbn. apply Rltb_true; lra. }
  rewrite Q. split; [reflexivity|]. split; [exact L1|].
  unfold norm_macro. change (squares oS r) with (st_norms r). rewrite W. reflexivity.
Qed.

Lemma norm0 x : x = 0 -> xltb (xsqrt (Fin x)) (Fin (1/2)) = true.
Proof.
  intros ->. unfold xsqrt. assert (X : Rltb 0 0 = false) by (apply Rltb_false; lra). rewrite X, sqrt_0.
  cbn [xltb]. apply Rltb_true; lra.
Qed.
Lemma norm1 x : 1 <= x -> xltb (xsqrt (Fin x)) (Fin (1/2)) = false.
Proof.
  intros H. unfold xsqrt. assert (X : Rltb x 0 = false) by (apply Rltb_false; lra). rewrite X.
  cbn [xltb]. apply Rltb_false. assert (L : sqrt 1 <= sqrt x) by (apply sqrt_le_1; lra). rewrite sqrt_1 in L. lra.
Qed.

Lemma reset_micro_looks s act u g k v : looks s act u g k v -> looks (op_reset eS Micro s) act u 2 k v.
Proof.
  intros [A B C D K E F G I]. split; try assumption; cbn; unfold reset_trial, set_block,
    ModelLineSearch.distribute; cbn; assumption.
Qed.
Lemma affine_looks s act u g k v : looks s act u g k v -> looks (op_affine eS s) act u g k v.
Proof. intros [A B C D K E F G I]. split; assumption. Qed.
Lemma elastic_sets s act u g k v : looks s act u g k v -> Rabs (u - 1) <= 1/2 ->
  looks (op_sets eS s) [] u 1 true v.
Proof.
  intros L Y. apply (two_sets slip_micro) in L.
  assert (Z : Rltb (1/2) (Rabs (u - 1)) = false) by (apply Rltb_false; lra).
  rewrite Z in L. exact L.
Qed.

Lemma two_bouncing_reset : exists r,
  solve_nonlinear_system eS (two_parameters true true) Bouncing 10 two_timing (on2 0 0) two_start = Done r /\
  looks r [] (3/2) 2 true 2.
Proof.
  set (P := two_parameters true true).
  unfold solve_nonlinear_system, solve_nonlinear, bouncing_algorithm.
  pose proof (two_begin slip_micro) as L. set (b := begin_step _ _ _ _) in *. clearbody b.
  destruct (two_macro true 1 b _ _ _ _ _ L) as (r1 & E1 & L1 & C1). fold P in E1.
  pose proof (elastic_sets r1 _ _ _ _ _ L1 ltac:(rewrite Rabs_right; lra)) as L2.
  apply affine_looks, reset_micro_looks in L2.
  match type of L2 with looks ?s _ _ _ _ _ => set (r2 := s) in * end.
  destruct (two_micro true 1 r2 _ _ _ _ [MacroIt 1 1] L2) as (r3 & E3 & L3 & C3). fold P in E3.
  cbn [bounce]. change (Nat.leb (0 + 1) (macro_n_max P)) with true.
  change (Nat.eqb 1 1 && Nat.eqb 0 0)%bool with true. cbv iota. cbn [Nat.add]. rewrite E1.
  cbn [bounce]. change (Nat.eqb 1 1 && Nat.eqb 1 0)%bool with false. cbv iota.
  change (macro_tol P) with (1/2). rewrite C1.
  unfold call_active_set. change (rate_independent P) with true. change (reset_at_micro_loop P) with true. cbv iota.
  change (reset_micro_to_initial oS (distribute_affine oS (recompute_sets oS r1))) with r2.
  change (micro_n_max P) with 5%nat. change (0 + 1)%nat with 1%nat. change ([] ++ [MacroIt 1 1]) with [MacroIt 1 1].
  rewrite E3.
  change (Nat.leb (1 + 1) (max_n_solution_loops P)) with true. cbv iota.
  cbn [bounce]. change (Nat.eqb (1 + 1) 1 && Nat.eqb 0 0)%bool with false. cbv iota.
  change (macro_tol P) with (1/2). rewrite C3, norm0 by field.
  eexists. split; [reflexivity|]. replace (3/2) with ((2 + 1)/2) by lra.
  destruct L3 as [A B C D K E F G I]. split; assumption.
Qed.
Lemma two_embracing_reset : exists r,
  solve_nonlinear_system eS (two_parameters true true) Embracing 10 two_timing (on2 0 0) two_start = Done r /\
  looks r [] (3/2) 2 true 2.
Proof.
  set (P := two_parameters true true).
  assert (RE : forall s act u g k v, looks s act u g k v -> looks (reevaluate oS s) act u g k g /\
    norm_macro oS (reevaluate oS s) = xsqrt (Fin ((u + (u - g) - 1) ^ 2))).
  { intros s act u g k v [A B C D K E F G I]. split.
    - split; try assumption. cbn. rewrite I, G, C. cbn. rewrite Rplus_0_l. reflexivity.
    - unfold norm_macro.
      change (squares oS (reevaluate oS s)) with
        (two_norms (st_old s) (st_trial s) (st_hist (reevaluate oS s)) (st_internal s)).
      unfold two_norms. rewrite B, C. reflexivity. }
  unfold solve_nonlinear_system, solve_nonlinear, embracing_algorithm.
  pose proof (two_begin slip_micro) as L. set (b := begin_step _ _ _ _) in *. clearbody b.
  apply affine_looks in L. change (op_affine eS b) with (distribute_affine oS b) in L.
  destruct (RE _ _ _ _ _ _ L) as [L0 _].
  destruct (two_embrace true 1 _ _ _ _ _ _ L0) as (r1 & E1 & L1 & _). fold P in E1.
  pose proof (elastic_sets r1 _ _ _ _ _ L1 ltac:(rewrite Rabs_right; lra)) as L2.
  apply reset_micro_looks in L2.
  match type of L2 with looks ?s _ _ _ _ _ => set (r2 := s) in * end.
  destruct (two_micro true 1 r2 _ _ _ _ [MacroIt 1 1] L2) as (r3 & E3 & L3 & _). fold P in E3.
  destruct (RE _ _ _ _ _ _ L3) as [L4 C4].
  cbn [embrace]. rewrite Bool.andb_false_r. change (Nat.leb (0 + 1) (macro_n_max P)) with true. cbv iota.
  cbn [Nat.add]. rewrite E1.
  unfold call_active_set. change (rate_independent P) with true. change (reset_at_micro_loop P) with true. cbv iota.
  change (reset_micro_to_initial oS (recompute_sets oS r1)) with r2.
  change (micro_n_max P) with 5%nat. change ([] ++ [MacroIt 1 1]) with [MacroIt 1 1]. rewrite E3.
  cbn [embrace]. change (macro_tol P) with (1/2). rewrite C4, norm0 by field.
  cbn [andb]. eexists. split; [reflexivity|]. replace (3/2) with ((2 + 1)/2) by lra.
  destruct L4 as [A B C D K E F G I]. split; assumption.
Qed.

(** With "Reset trial solution at each micro loop" on, as it is by default, an inactive dof
    is put back to its extrapolated slip and keeps it: the accepted solution slips where the
    yield condition is not met. *)
Theorem C89_reset_lets_inactive_dofs_slip_refuted : forall a, a = Bouncing \/ a = Embracing ->
  exists (e : env (R * R)) sp t oo s r d,
    rate_independent sp = true /\ reset_at_micro_loop sp = true /\
    NoDup (p_owned_slip (e_problem e)) /\ (0 < p_n_slips (e_problem e))%nat /\
    unconstrained_slip_dof e d /\ e_blocks e d = Micro /\
    solve_nonlinear_system e sp a 10 t oo s = Done r /\
    ~ In d (st_active r) /\ st_trial r d = st_old s d + 1.
Proof.
  intros a Ha. exists eS, (two_parameters true true), two_timing, (on2 0 0), two_start.
  assert (X : exists r, solve_nonlinear_system eS (two_parameters true true) a 10 two_timing (on2 0 0) two_start = Done r /\
    looks r [] (3/2) 2 true 2).
  { destruct Ha as [-> | ->]; [exact two_bouncing_reset|exact two_embracing_reset]. }
  destruct X as (r & E & [A B C D K _ _ G I]). exists r, 1%nat.
  split; [reflexivity|]. split; [reflexivity|].
  split; [constructor; [intros []|constructor]|]. split; [simpl; lia|].
  split; [unfold unconstrained_slip_dof; simpl; auto|]. split; [reflexivity|].
  split; [exact E|]. split; [rewrite A; intros []|]. rewrite C. unfold two_start, on2; simpl. lra.
Qed.

(** The same body with the option off: three staggered loops, slip (1) unchanged. *)
Lemma two_bouncing_no_reset : exists r,
  solve_nonlinear_system eS (two_parameters true false) Bouncing 10 two_timing (on2 0 0) two_start = Done r /\
  looks r [] 1 1 true 1.
Proof.
  set (P := two_parameters true false).
  unfold solve_nonlinear_system, solve_nonlinear, bouncing_algorithm.
  pose proof (two_begin slip_micro) as L. set (b := begin_step _ _ _ _) in *. clearbody b.
  destruct (two_macro false 1 b _ _ _ _ _ L) as (r1 & E1 & L1 & C1). fold P in E1.
  pose proof (elastic_sets r1 _ _ _ _ _ L1 ltac:(rewrite Rabs_right; lra)) as L2. apply affine_looks in L2.
  match type of L2 with looks ?s _ _ _ _ _ => set (r2 := s) in * end.
  destruct (two_micro false 1 r2 _ _ _ _ [MacroIt 1 1] L2) as (r3 & E3 & L3 & C3). fold P in E3.
  destruct (two_macro false 1 r3 _ _ _ _ _ L3) as (r4 & E4 & L4 & C4). fold P in E4.
  pose proof (elastic_sets r4 _ _ _ _ _ L4 ltac:(rewrite Rabs_right; lra)) as L5. apply affine_looks in L5.
  match type of L5 with looks ?s _ _ _ _ _ => set (r5 := s) in * end.
  destruct (two_micro false 2 r5 _ _ _ _ (([MacroIt 1 1] ++ [MicroIt 1 1]) ++ [MacroIt 2 1]) L5) as (r6 & E6 & L6 & C6).
  fold P in E6.
  cbn [bounce]. change (Nat.leb (0 + 1) (macro_n_max P)) with true.
  change (Nat.eqb 1 1 && Nat.eqb 0 0)%bool with true. cbv iota. cbn [Nat.add]. rewrite E1.
  cbn [bounce]. change (Nat.eqb 1 1 && Nat.eqb 1 0)%bool with false. cbv iota.
  change (macro_tol P) with (1/2). rewrite C1.
  unfold call_active_set at 1. change (rate_independent P) with true. change (reset_at_micro_loop P) with false. cbv iota.
  change (distribute_affine oS (recompute_sets oS r1)) with r2.
  change (micro_n_max P) with 5%nat. change (0 + 1)%nat with 1%nat. change ([] ++ [MacroIt 1 1]) with [MacroIt 1 1].
  rewrite E3.
  change (Nat.leb (1 + 1) (max_n_solution_loops P)) with true. cbv iota.
  cbn [bounce]. change (Nat.eqb (1 + 1) 1 && Nat.eqb 0 0)%bool with false. cbv iota.
  change (macro_tol P) with (1/2). rewrite C3, norm1 by lra.
  change (Nat.leb (0 + 1) (macro_n_max P)) with true. cbv iota. change (0 + 1)%nat with 1%nat. rewrite E4.
  cbn [bounce]. change (Nat.eqb (1 + 1) 1 && Nat.eqb 1 0)%bool with false. cbv iota.
  change (macro_tol P) with (1/2). rewrite C4.
  unfold call_active_set at 1. change (rate_independent P) with true. change (reset_at_micro_loop P) with false. cbv iota.
  change (distribute_affine oS (recompute_sets oS r4)) with r5.
  change (micro_n_max P) with 5%nat. change (1 + 1)%nat with 2%nat. rewrite E6.
  change (Nat.leb (2 + 1) (max_n_solution_loops P)) with true. cbv iota.
  cbn [bounce]. change (Nat.eqb (2 + 1) 1 && Nat.eqb 0 0)%bool with false. cbv iota.
  change (macro_tol P) with (1/2). rewrite C6, norm0 by field.
  eexists. split; [reflexivity|]. replace 1 with ((1 + 1)/2) at 1 by lra.
  destruct L6 as [A B C D K E F G I]. split; assumption.
Qed.
(** A run meeting the hypotheses of C87, C88 and C89: an elastic step after the body has
    slipped; the extrapolation starts at slip 2, the accepted solution has slip 1. *)
Example C87_C88_C89_example : exists s' r,
  run (two_parameters true false) Bouncing 10 [(eS, two_timing)] (on2 0 0) two_start
    = (Done (on2 1 1, s'), [r]) /\
  forgets_iterates (e_update eS) /\ reset_at_micro_loop (two_parameters true false) = false /\
  unconstrained_slip_dof eS 1 /\ ~ In 1%nat (st_active r) /\
  st_trial r 0%nat = 1 /\ st_trial r 1%nat = 1 /\ st_initial r 1%nat = 2 /\ st_hist s' = (0, 0).
Proof.
  destruct two_bouncing_no_reset as (r & E & [A B C D K E0 F G I]).
  exists (snd (shift_solutions r)), r. cbn [run]. rewrite E. cbn [shift_solutions snd].
  rewrite G. split; [reflexivity|]. split; [apply two_forgets|]. split; [reflexivity|].
  split; [unfold unconstrained_slip_dof; simpl; auto|]. split; [rewrite A; intros []|].
  split; [exact B|]. split; [exact C|]. split; [exact F|]. cbn [st_hist]. rewrite I.
  replace (1 - 1) with 0 by ring. rewrite Rabs_R0. reflexivity.
Qed.

(** A monotone internal variable that keeps the worst iterate, like the trapezoidal damage
    update (C15), does not forget: then C87's hypothesis fails. *)
Example C87_forgetting_is_needed :
  ~ forgets_iterates (fun (old x : vec) (h : R * R) => (fst h, Rmax (snd h) (Rabs (x 1%nat - old 1%nat)))).
Proof.
  intros F. specialize (F (on2 0 0) (on2 0 0) (on2 0 1) (0, 0)). injection F as F.
  unfold on2 in F; simpl in F.
  rewrite Rminus_0_r, Rminus_diag_eq, Rabs_R0, Rabs_R1 in F by reflexivity.
  unfold Rmax in F. repeat destruct (Rle_dec _ _); lra.
Qed.

(** The flag handled by the algorithms of solve.cc is the one [active_set_algorithm] is given
    and changes: once determined, the sets stay until a new determination is requested. *)
Theorem C89_sets_change_only_on_request : forall H sp (e : env H) flag s,
  let r := active_set_algorithm
             (if rate_independent sp then current_problem e s
              else mk_problem (p_n_slips (e_problem e)) false (p_hardening (e_problem e))
                     (p_char_resistance (e_problem e)) (p_owned (e_problem e))
                     (p_owned_slip (e_problem e)) (p_affine (e_problem e)) (p_newton (e_problem e))
                     (p_hanging (e_problem e)) (st_old s) (st_res s))
             (e_microstress e s) flag
             (mk_state (st_active s) (st_inactive s) (st_internal s) (st_trial s)) in
  let c := call_active_set (step_ops e) sp flag s in
  fst r = mk_state (st_active (fst c)) (st_inactive (fst c)) (st_internal (fst c)) (st_trial (fst c)) /\
  snd r = snd c /\
  (rate_independent sp = true -> snd c = false) /\
  (rate_independent sp = true -> flag = false -> fst c = s).
Proof.
  intros H sp e flag s r c. subst r c. unfold call_active_set.
  destruct (rate_independent sp) eqn:RI; destruct flag.
  - unfold active_set_algorithm at 1 2. change (p_rate_independent (current_problem e s)) with true. cbv iota.
    cbn [fst snd recompute_sets step_ops]. rewrite op_sets_recomputed. unfold recomputed, active_set_algorithm.
    change (p_rate_independent (current_problem e s)) with true. cbv iota. cbn [fst]. intuition congruence.
  - cbn. auto.
  - cbn. intuition congruence.
  - cbn. intuition congruence.
Qed.

(** A run meeting the hypotheses of [C87_hardening_of_accepted_slips]: one slip system, step
    accepted at slip 2 (the extrapolation of 0, 1), hardening modulus 3, initial resistance 5. *)
Definition point_hardening : hardening := mk_hardening 5 3 0 false.
Definition point_interp (b : nat) (x : vec) : R := x 1%nat.
Definition point_env : env qph :=
  mk_env two_problem all_macro point_store (point_update point_interp) (fun _ h => h)
    (fun _ _ _ g => g) (fun _ _ _ _ => (Fin 0, Fin 0)) (fun _ _ => 0)
    (fun _ => Ok (fun _ => 0)) (fun _ => Ok (fun _ => 0)) (fun _ => Ok (fun _ => 0))
    (fun _ => Ok (fun _ => 0)) (fun _ => []) (fun _ => []) (fun _ => []).
Definition point_start : sstate qph :=
  mk_sstate [] [] no_constraints (on2 1 1) (on2 1 1) (on2 1 1) (fun _ => 0) (on2 1 1)
    (mk_qph true 1 point_hardening 1 [5] [5]) (fun _ => 1/2) (fun _ => 1/2) (Fin 0, Fin 0).
Example C87_hardening_example : exists s' r,
  run (two_parameters false false) Monolithic 10 [(point_env, two_timing)] (on2 0 0) point_start
    = (Done (on2 1 1, s'), [r]) /\
  point_of point_hardening 1 1 (st_hist point_start) /\ st_trial r 1%nat = 2 /\
  nth_error (slip_res (st_hist s')) 0 = Some 8.
Proof.
  assert (E : exists r, solve_nonlinear_system point_env (two_parameters false false) Monolithic 10
    two_timing (on2 0 0) point_start = Done r /\ st_trial r 1%nat = 2 /\ st_old r = on2 1 1).
  { unfold solve_nonlinear_system, solve_nonlinear, monolithic_algorithm.
    set (b := begin_step _ _ _ _).
    assert (B1 : st_trial b 1%nat = 2).
    { unfold b, begin_step, extrapolate, step_size_ratio. simpl.
      unfold ModelActiveSet.distribute, sadd, on2; simpl; lra. }
    assert (B2 : st_old b = on2 1 1) by reflexivity.
    assert (B3 : st_internal b 1%nat = None) by reflexivity.
    clearbody b.
    set (f := fst (call_active_set (step_ops point_env) (two_parameters false false) true
                (op_update point_env (op_store b)))).
    set (n := set_block (layout point_env) Macro (st_newton f) (ModelActiveSet.distribute (st_internal f) (fun _ => 0))).
    set (r := op_residual point_env (op_update point_env (op_apply point_env 1 Macro
                (set_newton (op_residual point_env (op_affine point_env f)) n)))).
    assert (M : mono_iteration (step_ops point_env) (two_parameters false false) true b = Ok (r, true)) by reflexivity.
    assert (T : st_trial r 1%nat = 2).
    { unfold r; cbn -[n]. unfold update_trial, set_block, ModelLineSearch.distribute; cbn -[n].
      unfold ModelActiveSet.distribute; cbn -[n]. rewrite B1.
      assert (N : n 1%nat = 0). { unfold n, set_block; cbn. unfold ModelActiveSet.distribute. rewrite B3. reflexivity. }
      rewrite N. lra. }
    assert (O : st_old r = on2 1 1) by exact B2.
    assert (Q : xltb (norm_total (step_ops point_env) r) (Fin (1/2)) = true).
    { unfold norm_total, norm_macro, norm_micro. change (squares (step_ops point_env) r) with (Fin 0, Fin 0).
      cbn [fst snd]. assert (X : Rltb 0 0 = false) by (apply Rltb_false; lra).
      unfold xsqrt. rewrite X, sqrt_0. cbn [xmul xadd].
      assert (Y : 0 * 0 + 0 * 0 = 0) by ring. rewrite Y, X, sqrt_0. cbn [xltb]. apply Rltb_true; lra. }
    clearbody r. cbn [mono_loop]. change (Nat.leb (0 + 1) (mono_n_max (two_parameters false false))) with true. cbv iota.
    rewrite M. change (mono_tol (two_parameters false false)) with (1/2). rewrite Q.
    change (rate_independent (two_parameters false false)) with false. cbv iota.
    eexists. split; [reflexivity|]. cbn [fst st_trial st_old]. auto. }
  destruct E as (r & E & T & O). exists (snd (shift_solutions r)), r.
  assert (R1 : run (two_parameters false false) Monolithic 10 [(point_env, two_timing)] (on2 0 0) point_start
    = (Done (on2 1 1, snd (shift_solutions r)), [r])).
  { cbn [run]. rewrite E. cbn [shift_solutions snd]. rewrite O. reflexivity. }
  assert (P : point_of point_hardening 1 1 (st_hist point_start)) by (unfold point_of; cbn; auto 10).
  split; [exact R1|]. split; [exact P|]. split; [exact T|].
  rewrite (C87_hardening_of_accepted_slips (two_parameters false false) Monolithic 10 [(point_env, two_timing)] _ _ _ _ _ point_hardening 1 1 point_interp eq_refl P
    ltac:(intros e t [X|[]]; injection X as <- _; auto) (or_introl eq_refl) R1 0 5 eq_refl).
  f_equal. cbn [map accumulated_hardening]. unfold hardening_increment, point_interp. rewrite T.
  unfold point_start, point_hardening, on2; simpl. unfold kron; simpl. rewrite Rabs_right by lra. field.
Qed.

(** ** C05 inside the iterations: where the trial solution is after one iteration *)
Section Iteration.
Context {H : Type} (e : env H) (sp : solver_parameters).

Lemma search_keeps b ls : forall s,
  let r := fold_left (op_search_pass e b) ls s in
  st_newton r = st_newton s /\ st_tmp r = st_tmp s.
Proof.
  induction ls as [|l ls IH]; intros s; cbn [fold_left]; [split; reflexivity|].
  destruct (IH (op_search_pass e b s l)) as [A B]. split; [rewrite A|rewrite B]; reflexivity.
Qed.
Lemma search_trials_of b ls : forall s,
  st_trial (fold_left (op_search_pass e b) ls s)
  = search_trials (layout e) (st_tmp s) (st_newton s) b (st_trial s) ls.
Proof.
  induction ls as [|l ls IH]; intros s; [reflexivity|]. cbn [fold_left]. rewrite IH. reflexivity.
Qed.

Lemma macro_block d : e_blocks e d = Macro -> block_eqb (block_of (layout e) d) Macro = true.
Proof. intros E. cbn. rewrite E. reflexivity. Qed.
Lemma other_block d : e_blocks e d = Micro -> block_eqb (block_of (layout e) d) Macro = false.
Proof. intros E. cbn. rewrite E. reflexivity. Qed.

Lemma applied_same x y l b d : e_blocks e d = b -> p_affine (e_problem e) d = None ->
  update_trial (layout e) x y l b d = x d + l * y d.
Proof.
  intros E C. unfold update_trial, set_block. cbn. rewrite E. destruct b; cbn;
    unfold ModelLineSearch.distribute; cbn; rewrite C, E; reflexivity.
Qed.
Lemma applied_other x y l b d : e_blocks e d <> b -> update_trial (layout e) x y l b d = x d.
Proof. intros E. unfold update_trial, set_block. cbn. destruct (e_blocks e d), b; try reflexivity; congruence. Qed.

(** One macro iteration of the bouncing algorithm: from where it started, the displacements
    move along the Newton update by the step accepted last (1 without line search); the slips
    stay. *)
Theorem C05_macro_iteration : forall it s r, macro_iteration (step_ops e) sp it s = Ok r ->
  exists tried, (macro_line_search sp = false -> tried = []) /\
  (macro_line_search sp = true -> exists s1, tried = e_lambdas_macro e s1) /\
  forall d, p_affine (e_problem e) d = None ->
    (e_blocks e d = Macro -> st_trial r d = st_trial s d + last tried 1 * st_newton r d) /\
    (e_blocks e d = Micro -> st_trial r d = st_trial s d).
Proof.
  intros it s r E. unfold macro_iteration in E. cbn [step_ops store_trial update_internal assemble_jac
    assemble_res solve_macro apply_macro search_macro] in E.
  set (s0 := if Nat.eqb it 1 then op_update e (op_store s) else op_update e (op_store s)) in E.
  assert (S0 : s0 = op_update e (op_store s)) by (unfold s0; destruct (Nat.eqb it 1); reflexivity).
  clearbody s0. subst s0. unfold op_solve_block in E.
  destruct (e_solve_macro e _) as [x| |]; try discriminate E. cbn [rbind] in E.
  set (s2 := op_residual e _) in E at 1.
  set (n := set_block (layout e) Macro (fun _ => 0) (ModelActiveSet.distribute (st_internal (op_residual e (op_update e (op_store s)))) x)) in s2.
  unfold maybe_search in E. destruct (macro_line_search sp).
  - cbn [op_search] in E. injection E as <-. exists (e_lambdas_macro e s2).
    split; [discriminate|]. split; [eauto|]. intros d C.
    rewrite search_trials_of. rewrite (proj1 (search_keeps Macro _ s2)).
    change (st_tmp s2) with (st_trial s). change (st_newton s2) with n.
    assert (T : st_trial s2 = update_trial (layout e) (st_trial s) n 1 Macro) by reflexivity.
    split; intros B.
    + destruct (e_lambdas_macro e s2) as [|l ls] eqn:L.
      * unfold search_trials; cbn [fold_left last]. rewrite T, applied_same by assumption. reflexivity.
      * rewrite (proj1 (C05_macro_trial_is_stored_plus_step_partial (layout e) (st_trial s) n (st_trial s2) (l :: ls) d ltac:(discriminate)) B C).
        f_equal. f_equal. clear. revert l. induction ls as [|a ls IH]; intros l; [reflexivity|].
        change (last (l :: a :: ls) 0) with (last (a :: ls) 0). rewrite IH. reflexivity.
    + assert (X : forall ls t, search_trials (layout e) (st_trial s) n Macro t ls d = t d).
      { induction ls as [|l ls IH]; intros t; [reflexivity|]. unfold search_trials. cbn [fold_left].
        fold (search_trials (layout e) (st_trial s) n Macro (search_trial_step (layout e) (st_trial s) n t Macro l) ls).
        rewrite IH. unfold search_trial_step. rewrite applied_other by congruence.
        unfold reset_trial, set_block. rewrite (other_block d B). reflexivity. }
      rewrite X, T, applied_other by congruence. reflexivity.
  - assert (Er : r = s2) by (injection E; intros; congruence). clear E. rewrite Er.
    exists []. split; [reflexivity|]. split; [discriminate|]. intros d C.
    assert (T : st_trial s2 = update_trial (layout e) (st_trial s) n 1 Macro) by reflexivity.
    rewrite T. change (st_newton s2) with n.
    split; intros B; cbn [last].
    + apply applied_same; assumption.
    + rewrite applied_other by congruence. reflexivity.
Qed.

(** One micro iteration: the displacements stay; the slips move by the *sum* of the full step
    and of all steps tried (C05_micro_trial_accumulates). *)
Theorem C05_micro_iteration : forall s r, micro_iteration (step_ops e) sp s = Ok r ->
  exists tried, (micro_line_search sp = false -> tried = []) /\
  (micro_line_search sp = true -> exists s1, tried = e_lambdas_micro e s1) /\
  forall d, p_affine (e_problem e) d = None ->
    (e_blocks e d = Macro -> st_trial r d = st_trial s d) /\
    (e_blocks e d = Micro -> st_trial r d = st_trial s d + (1 + fold_right Rplus 0 tried) * st_newton r d).
Proof.
  intros s r E. unfold micro_iteration in E. cbn [step_ops store_trial update_internal assemble_system
    assemble_res solve_micro apply_micro search_micro] in E.
  unfold op_solve_block in E.
  destruct (e_solve_micro e _) as [x| |]; try discriminate E. cbn [rbind] in E.
  set (s2 := op_residual e _) in E at 1.
  set (n := set_block (layout e) Micro (fun _ => 0) (ModelActiveSet.distribute (st_internal (op_residual e (op_update e (op_store s)))) x)) in s2.
  assert (T : st_trial s2 = update_trial (layout e) (st_trial s) n 1 Micro) by reflexivity.
  unfold maybe_search in E. destruct (micro_line_search sp).
  - cbn [op_search] in E. injection E as <-. exists (e_lambdas_micro e s2).
    split; [discriminate|]. split; [eauto|]. intros d C.
    rewrite search_trials_of. rewrite (proj1 (search_keeps Micro _ s2)).
    change (st_tmp s2) with (st_trial s). change (st_newton s2) with n.
    split; intros B.
    + assert (X : forall ls t, t d = st_trial s d -> search_trials (layout e) (st_trial s) n Micro t ls d = st_trial s d).
      { induction ls as [|l ls IH]; intros t Ht; [exact Ht|]. unfold search_trials. cbn [fold_left].
        fold (search_trials (layout e) (st_trial s) n Micro (search_trial_step (layout e) (st_trial s) n t Micro l) ls).
        apply IH. unfold search_trial_step. rewrite applied_other by congruence.
        unfold reset_trial, set_block. rewrite (macro_block d B). unfold ModelLineSearch.distribute. cbn. rewrite C. reflexivity. }
      apply X. rewrite T, applied_other by congruence. reflexivity.
    + rewrite T. exact (C05_micro_trial_accumulates (layout e) (st_trial s) n _ d B C).
  - assert (Er : r = s2) by (injection E; intros; congruence). clear E. rewrite Er.
    exists []. split; [reflexivity|]. split; [discriminate|]. intros d C.
    rewrite T. change (st_newton s2) with n. split; intros B; cbn [fold_right].
    + apply applied_other; congruence.
    + rewrite applied_same by assumption. ring.
Qed.

(** One iteration of the monolithic algorithm (one block): with line search the step starts
    from the trial solution at the head of the iteration, without it from the trial solution
    after the active-set algorithm. *)
Theorem C05_monolithic_iteration : forall flag s r flag', (forall d, e_blocks e d = Macro) ->
  mono_iteration (step_ops e) sp flag s = Ok (r, flag') ->
  exists tried s1, (mono_line_search sp = false -> tried = []) /\
  (mono_line_search sp = true -> tried = e_lambdas_mono e s1) /\
  forall d, p_affine (e_problem e) d = None ->
    st_trial r d = (match tried with
                    | [] => st_trial (fst (call_active_set (step_ops e) sp flag (op_update e (op_store s))))
                    | _ => st_trial s end) d + last tried 1 * st_newton r d.
Proof.
  intros flag s r flag' B E. unfold mono_iteration in E.
  cbn [step_ops store_trial update_internal distribute_affine assemble_system
    assemble_res solve_mono apply_mono search_mono] in E.
  fold (step_ops e) in E. set (q := op_update e (op_store s)) in *.
  destruct (call_active_set (step_ops e) sp flag q) as [s1 f1] eqn:A. cbn [fst].
  assert (Q : st_tmp s1 = st_trial s).
  { unfold call_active_set in A. destruct (rate_independent sp), flag; injection A as <- _; reflexivity. }
  unfold op_solve_mono in E. destruct (e_solve_mono e _) as [x| |]; try discriminate E. cbn [rbind] in E.
  set (s2 := op_residual e _) in E at 1.
  set (n := set_block (layout e) Macro _ _) in s2.
  assert (T : st_trial s2 = update_trial (layout e) (ModelActiveSet.distribute (p_affine (e_problem e)) (st_trial s1)) n 1 Macro)
    by reflexivity.
  assert (D : forall d, p_affine (e_problem e) d = None ->
    ModelActiveSet.distribute (p_affine (e_problem e)) (st_trial s1) d = st_trial s1 d)
    by (intros d C; unfold ModelActiveSet.distribute; rewrite C; reflexivity).
  unfold maybe_search in E. destruct (mono_line_search sp).
  - cbn [op_search rbind] in E. injection E as <- _. exists (e_lambdas_mono e s2), s2.
    split; [discriminate|]. split; [reflexivity|]. intros d C.
    rewrite search_trials_of. rewrite (proj1 (search_keeps Macro _ s2)).
    change (st_tmp s2) with (st_tmp s1). rewrite Q. change (st_newton s2) with n.
    destruct (e_lambdas_mono e s2) as [|l ls] eqn:L.
    + unfold search_trials; cbn [fold_left last]. rewrite T, applied_same by auto. rewrite D by exact C. reflexivity.
    + rewrite (proj1 (C05_macro_trial_is_stored_plus_step_partial (layout e) (st_trial s) n (st_trial s2) (l :: ls) d ltac:(discriminate)) (B d) C).
      f_equal. f_equal. clear. revert l. induction ls as [|a ls IH]; intros l; [reflexivity|].
      change (last (l :: a :: ls) 0) with (last (a :: ls) 0). rewrite IH. reflexivity.
  - cbn [rbind] in E. assert (Er : r = s2) by (injection E; intros; congruence). clear E. rewrite Er. exists [], s2. split; [reflexivity|]. split; [discriminate|]. intros d C.
    rewrite T. change (st_newton s2) with n. cbn [last]. rewrite applied_same by auto. rewrite D by exact C. reflexivity.
Qed.
End Iteration.

(** The iterations of the two-dof body with line search on: from (0,1) the displacement
    moves half of its Newton update 1. *)
Definition two_search_env (blocks : nat -> block_index) : env (R * R) :=
  let e := two_env blocks in
  mk_env two_problem blocks (e_store e) (e_update e) (e_finish e) (e_harden e) (e_norms e)
    (e_microstress e) (e_solve_mono e) (e_solve_macro e) (e_solve_micro e) (e_solve_reduced e)
    (fun _ => [1; 1/2]) (fun _ => [1; 1/2]) (fun _ => [1; 1/2]).
Definition searching_parameters : solver_parameters :=
  mk_solver_parameters false 5 (1/2) true 5 (1/2) true 5 (1/2) true 3 false.
Definition search_start : sstate (R * R) :=
  mk_sstate [] [] no_constraints (on2 0 1) (on2 0 1) (on2 0 1) (fun _ => 0) (on2 1 1) (0, 0)
    (fun _ => 1/2) (fun _ => 1/2) (Fin 0, Fin 0).
Example C05_iteration_example :
  (exists r, macro_iteration (step_ops (two_search_env slip_micro)) searching_parameters 1 search_start = Ok r /\
     st_newton r 0%nat = 1 /\ st_trial r 0%nat = 1/2) /\
  (exists r, micro_iteration (step_ops (two_search_env slip_micro)) searching_parameters search_start = Ok r) /\
  (exists r f, mono_iteration (step_ops (two_search_env all_macro)) searching_parameters false search_start = Ok (r, f)).
Proof.
  split; [|split].
  - eexists. split; [reflexivity|].
    set (r := fold_left _ _ _).
    assert (N : st_newton r 0%nat = 1).
    { unfold r. rewrite (proj1 (search_keeps _ _ _ _)). cbn. unfold set_block, ModelActiveSet.distribute; cbn. lra. }
    split; [exact N|].
    destruct (C05_macro_iteration (two_search_env slip_micro) searching_parameters 1 search_start r eq_refl)
      as (t & _ & Ht & X).
    destruct (Ht eq_refl) as (s1 & ->). destruct (X 0%nat eq_refl) as [Y _]. rewrite (Y eq_refl), N. cbn. lra.
  - eexists. reflexivity.
  - eexists. eexists. reflexivity.
Qed.
