(** * Two sets of subroutines that do the same on related states: the three solution algorithms
      do the same on related states. *)
From Verif Require Import Num ModelFEField ModelActiveSet ModelSolver.
Open Scope R_scope.

Section Fresh.
Context {S T : Type} (o : ops S) (o' : ops T) (p : solver_parameters) (Rel Fresh : S -> T -> Prop).

Definition rel_result (a : result S) (b : result T) : Prop :=
  match a, b with Ok x, Ok y => Rel x y | Throw, Throw => True | UB, UB => True | _, _ => False end.
Definition rel_outcome (a : outcome S) (b : outcome T) : Prop :=
  match a, b with
  | Done x, Done y => Rel x y | Thrown, Thrown => True | Undefined, Undefined => True | Running, Running => True
  | _, _ => False end.
Definition rel_run (a : outcome S * list event) (b : outcome T * list event) : Prop := rel_outcome (fst a) (fst b) /\ snd a = snd b.
(** [Fresh] relates states between a linear solve and the end of the iteration, in which also the
    Newton updates are related. *)
Definition fresh_result (a : result S) (b : result T) : Prop :=
  match a, b with Ok x, Ok y => Fresh x y | Throw, Throw => True | UB, UB => True | _, _ => False end.
Local Notation sim f g := (forall s t, Rel s t -> Rel (f s) (g t)).
Local Notation sim_fresh f g := (forall s t, Fresh s t -> Fresh (f s) (g t)).
Local Notation sim_result f g := (forall s t, Rel s t -> rel_result (f s) (g t)).
Local Notation sim_solve f g := (forall s t, Rel s t -> fresh_result (f s) (g t)).
Local Notation sim_search f g := (forall s t, Fresh s t -> rel_result (f s) (g t)).

Hypothesis H0 : forall s t, Fresh s t -> Rel s t.
Hypothesis H1 : sim (store_trial o) (store_trial o').
Hypothesis H2 : sim (update_internal o) (update_internal o').
Hypothesis H2f : sim_fresh (update_internal o) (update_internal o').
Hypothesis H3 : rate_independent p = true -> sim (recompute_sets o) (recompute_sets o').
Hypothesis H4 : sim (all_active o) (all_active o').
Hypothesis H5 : forall s t s' t', Rel s t -> Rel s' t' -> (the_active_set o s = the_active_set o s' <-> the_active_set o' t = the_active_set o' t').
Hypothesis H6 : sim (distribute_affine o) (distribute_affine o').
Hypothesis H7 : sim (assemble_system o) (assemble_system o').
Hypothesis H8 : sim (assemble_jac o) (assemble_jac o').
Hypothesis H9 : sim (assemble_res o) (assemble_res o').
Hypothesis H9f : sim_fresh (assemble_res o) (assemble_res o').
Hypothesis H10 : sim_solve (solve_mono o) (solve_mono o').
Hypothesis H11 : sim_solve (solve_macro o) (solve_macro o').
Hypothesis H12 : sim_solve (solve_micro o) (solve_micro o').
Hypothesis H13 : sim_solve (solve_reduced o) (solve_reduced o').
Hypothesis H14 : sim_fresh (apply_mono o) (apply_mono o').
Hypothesis H15 : sim_fresh (apply_macro o) (apply_macro o').
Hypothesis H16 : sim_fresh (apply_micro o) (apply_micro o').
Hypothesis H17 : sim_search (search_mono o) (search_mono o').
Hypothesis H18 : sim_search (search_macro o) (search_macro o').
Hypothesis H19 : sim_search (search_micro o) (search_micro o').
Hypothesis H20 : sim (reset_to_initial o) (reset_to_initial o').
Hypothesis H21 : sim (reset_micro_to_initial o) (reset_micro_to_initial o').
Hypothesis H22 : forall s t, Rel s t -> squares o s = squares o' t.

Ltac go := eauto 20.
Lemma rel_bind (a : result S) (b : result T) (f : S -> result S) (g : T -> result T) : fresh_result a b -> sim_search f g -> rel_result (rbind a f) (rbind b g).
Proof. destruct a, b; cbn; try tauto; intros A B; apply B; exact A. Qed.
Lemma norms_eq s t : Rel s t -> norm_total o s = norm_total o' t /\ norm_macro o s = norm_macro o' t /\ norm_micro o s = norm_micro o' t.
Proof. intros A. unfold norm_total, norm_macro, norm_micro. rewrite (H22 s t A). auto. Qed.
Lemma rel_sets flag s t : Rel s t -> Rel (fst (call_active_set o p flag s)) (fst (call_active_set o' p flag t)) /\
  snd (call_active_set o p flag s) = snd (call_active_set o' p flag t).
Proof. intros A. unfold call_active_set. destruct (rate_independent p) eqn:E, flag; cbn; split; auto. Qed.
Lemma rel_search (b : bool) (f : S -> result S) (g : T -> result T) : sim_search f g -> sim_search (maybe_search b f) (maybe_search b g).
Proof. intros A s t B. unfold maybe_search. destruct b; [apply A; exact B|apply H0; exact B]. Qed.

Lemma rel_micro_iteration : sim_result (micro_iteration o p) (micro_iteration o' p).
Proof.
  intros s t A. unfold micro_iteration. apply rel_bind.
  - go.
  - intros s1 t1 A1. apply rel_search; go.
Qed.
Lemma rel_macro_iteration it : sim_result (macro_iteration o p it) (macro_iteration o' p it).
Proof.
  intros s t A. unfold macro_iteration. apply rel_bind.
  - destruct (Nat.eqb it 1); go.
  - intros s1 t1 A1. apply rel_search; go.
Qed.
Lemma rel_embrace_macro it : sim_result (embrace_macro o p it) (embrace_macro o' p it).
Proof.
  intros s t A. unfold embrace_macro. apply rel_bind.
  - destruct (Nat.eqb it 1); go.
  - intros s1 t1 A1. apply rel_search; go.
Qed.
Lemma rel_micro_loop loop : forall left it s t log, Rel s t -> rel_run (micro_loop o p loop left it s log) (micro_loop o' p loop left it t log).
Proof.
  induction left as [|left IH]; intros it s t log A; cbn [micro_loop]; [split; cbn; auto|].
  pose proof (rel_micro_iteration s t A) as B. destruct (micro_iteration o p s) as [s1| |], (micro_iteration o' p t) as [t1| |]; cbn in B; try tauto; [|split; cbn; auto..].
  destruct (norms_eq s1 t1 B) as (_ & _ & ->). destruct (xltb _ _); [split; cbn; auto|]. apply IH; assumption.
Qed.
Definition rel_pair (a : result (S * bool)) (b : result (T * bool)) : Prop :=
  match a, b with Ok x, Ok y => Rel (fst x) (fst y) /\ snd x = snd y | Throw, Throw => True | UB, UB => True | _, _ => False end.
Lemma rel_mono_iteration flag s t : Rel s t -> rel_pair (mono_iteration o p flag s) (mono_iteration o' p flag t).
Proof.
  intros A. unfold mono_iteration.
  assert (A0 : Rel (update_internal o (store_trial o s)) (update_internal o' (store_trial o' t))) by go.
  destruct (rel_sets flag _ _ A0) as (A1 & A2).
  destruct (call_active_set o p flag _) as [s1 f1]. destruct (call_active_set o' p flag _) as [t1 f2]. cbn [fst snd] in A1, A2. subst f2.
  assert (B : fresh_result (solve_mono o (assemble_system o (distribute_affine o s1))) (solve_mono o' (assemble_system o' (distribute_affine o' t1)))) by go.
  destruct (solve_mono o _) as [s2| |], (solve_mono o' _) as [t2| |]; cbn in B; try tauto; cbn [rbind rel_pair]; auto.
  assert (C : rel_result (maybe_search (mono_line_search p) (search_mono o) (assemble_res o (update_internal o (apply_mono o s2))))
    (maybe_search (mono_line_search p) (search_mono o') (assemble_res o' (update_internal o' (apply_mono o' t2))))) by (apply rel_search; go).
  destruct (maybe_search _ (search_mono o) _), (maybe_search _ (search_mono o') _); cbn in C; try tauto; cbn [rbind rel_pair fst snd]; auto.
Qed.
Lemma rel_mono_loop : forall fuel it flag s t log, Rel s t -> rel_run (mono_loop o p fuel it flag s log) (mono_loop o' p fuel it flag t log).
Proof.
  induction fuel as [|fuel IH]; intros it flag s t log A; cbn [mono_loop]; [split; cbn; auto|].
  destruct (Nat.leb _ _); [|split; cbn; auto].
  pose proof (rel_mono_iteration flag s t A) as B.
  destruct (mono_iteration o p flag s) as [[s1 f1]| |], (mono_iteration o' p flag t) as [[t1 f2]| |]; cbn in B; try tauto; [|split; cbn; auto..].
  destruct B as (B & <-). destruct (norms_eq s1 t1 B) as (-> & _). destruct (xltb _ _); [|apply IH; assumption].
  destruct (rel_sets true _ _ B) as (C1 & C2).
  destruct (rate_independent p); [|split; cbn; auto].
  destruct (call_active_set o p true s1) as [s2 f3]. destruct (call_active_set o' p true t1) as [t2 f4]. cbn [fst snd] in C1, C2. subst f4.
  pose proof (H5 s1 t1 s2 t2 B C1) as C5. destruct (list_eq_dec _ (the_active_set o s1) _) as [Y|N], (list_eq_dec _ (the_active_set o' t1) _) as [Y'|N']; try tauto; [split; cbn; auto|]. apply IH. go.
Qed.
Lemma rel_bounce : forall fuel mit mloop uloop fm s t log, Rel s t ->
  rel_run (bounce o p fuel mit mloop uloop fm s log) (bounce o' p fuel mit mloop uloop fm t log).
Proof.
  induction fuel as [|fuel IH]; intros mit mloop uloop fm s t log A; cbn [bounce]; [split; cbn; auto|].
  destruct (norms_eq s t A) as (_ & -> & _).
  match goal with |- rel_run (if ?c then _ else _) _ => destruct c end.
  - destruct fm; [split; cbn; auto|].
    destruct (rel_sets true _ _ A) as (C1 & C2).
    destruct (call_active_set o p true s) as [s2 f3]. destruct (call_active_set o' p true t) as [t2 f4]. cbn [fst snd] in C1, C2.
    assert (D : Rel (if reset_at_micro_loop p then reset_micro_to_initial o (distribute_affine o s2) else distribute_affine o s2)
      (if reset_at_micro_loop p then reset_micro_to_initial o' (distribute_affine o' t2) else distribute_affine o' t2)) by (destruct (reset_at_micro_loop p); go).
    pose proof (rel_micro_loop (uloop + 1) (micro_n_max p) 0 _ _ log D) as (F & G).
    destruct (micro_loop o p _ _ _ _ _) as [[s4| | |] l], (micro_loop o' p _ _ _ _ _) as [[t4| | |] l']; cbn in F, G; try tauto; subst l'; try (split; cbn; auto; fail).
    destruct (Nat.leb _ _); [apply IH; assumption|split; cbn; auto].
  - destruct (Nat.leb _ _); [|split; cbn; auto].
    pose proof (rel_macro_iteration (mit + 1) s t A) as B.
    destruct (macro_iteration o p _ s) as [s1| |], (macro_iteration o' p _ t) as [t1| |]; cbn in B; try tauto; [|split; cbn; auto..].
    apply IH; assumption.
Qed.
Lemma rel_reevaluate : sim (reevaluate o) (reevaluate o').
Proof. unfold reevaluate. go. Qed.
Lemma rel_embrace : forall fuel mit flag fm s t log, Rel s t ->
  rel_run (embrace o p fuel mit flag fm s log) (embrace o' p fuel mit flag fm t log).
Proof.
  induction fuel as [|fuel IH]; intros mit flag fm s t log A0; cbn [embrace]; [split; cbn; auto|].
  pose proof (rel_reevaluate s t A0) as A. destruct (norms_eq _ _ A) as (_ & -> & _).
  destruct (andb _ fm); [split; cbn; auto|]. destruct (Nat.leb _ _); [|split; cbn; auto].
  pose proof (rel_embrace_macro (mit + 1) _ _ A) as B.
  destruct (embrace_macro o p _ _) as [s1| |], (embrace_macro o' p _ _) as [t1| |]; cbn in B; try tauto; [|split; cbn; auto..].
  destruct (rel_sets flag _ _ B) as (C1 & C2).
  destruct (call_active_set o p flag s1) as [s2 f3]. destruct (call_active_set o' p flag t1) as [t2 f4]. cbn [fst snd] in C1, C2. subst f4.
  assert (D : Rel (if reset_at_micro_loop p then reset_micro_to_initial o s2 else s2) (if reset_at_micro_loop p then reset_micro_to_initial o' t2 else t2)) by (destruct (reset_at_micro_loop p); go).
  pose proof (rel_micro_loop (mit + 1) (micro_n_max p) 0 _ _ (log ++ [MacroIt 1 (mit + 1)]) D) as (F & G).
  destruct (micro_loop o p _ _ _ _ _) as [[s4| | |] l], (micro_loop o' p _ _ _ _ _) as [[t4| | |] l']; cbn in F, G; try tauto; subst l'; try (split; cbn; auto; fail).
  apply IH; assumption.
Qed.
Lemma rel_solve_fresh a fuel s t : Rel s t -> rel_outcome (solve_nonlinear o p a fuel s) (solve_nonlinear o' p a fuel t).
Proof.
  intros A. unfold solve_nonlinear. destruct a.
  - apply rel_mono_loop; assumption.
  - apply rel_bounce; assumption.
  - apply rel_embrace. go.
Qed.
(** Also the iterations performed are the same. *)
Lemma rel_log_fresh a fuel s t : Rel s t ->
  snd (match a with Monolithic => monolithic_algorithm o p fuel s | Bouncing => bouncing_algorithm o p fuel s | Embracing => embracing_algorithm o p fuel s end) =
  snd (match a with Monolithic => monolithic_algorithm o' p fuel t | Bouncing => bouncing_algorithm o' p fuel t | Embracing => embracing_algorithm o' p fuel t end).
Proof.
  intros A. destruct a.
  - apply rel_mono_loop; assumption.
  - apply rel_bounce; assumption.
  - apply rel_embrace. go.
Qed.
End Fresh.

Section Simulation.
Context {S T : Type} (o : ops S) (o' : ops T) (p : solver_parameters) (Rel : S -> T -> Prop).
Local Notation sim f g := (forall s t, Rel s t -> Rel (f s) (g t)).
Local Notation sim_result f g := (forall s t, Rel s t -> rel_result Rel (f s) (g t)).

Hypothesis H1 : sim (store_trial o) (store_trial o').
Hypothesis H2 : sim (update_internal o) (update_internal o').
Hypothesis H3 : rate_independent p = true -> sim (recompute_sets o) (recompute_sets o').
Hypothesis H4 : sim (all_active o) (all_active o').
Hypothesis H5 : forall s t s' t', Rel s t -> Rel s' t' -> (the_active_set o s = the_active_set o s' <-> the_active_set o' t = the_active_set o' t').
Hypothesis H6 : sim (distribute_affine o) (distribute_affine o').
Hypothesis H7 : sim (assemble_system o) (assemble_system o').
Hypothesis H8 : sim (assemble_jac o) (assemble_jac o').
Hypothesis H9 : sim (assemble_res o) (assemble_res o').
Hypothesis H10 : sim_result (solve_mono o) (solve_mono o').
Hypothesis H11 : sim_result (solve_macro o) (solve_macro o').
Hypothesis H12 : sim_result (solve_micro o) (solve_micro o').
Hypothesis H13 : sim_result (solve_reduced o) (solve_reduced o').
Hypothesis H14 : sim (apply_mono o) (apply_mono o').
Hypothesis H15 : sim (apply_macro o) (apply_macro o').
Hypothesis H16 : sim (apply_micro o) (apply_micro o').
Hypothesis H17 : sim_result (search_mono o) (search_mono o').
Hypothesis H18 : sim_result (search_macro o) (search_macro o').
Hypothesis H19 : sim_result (search_micro o) (search_micro o').
Hypothesis H20 : sim (reset_to_initial o) (reset_to_initial o').
Hypothesis H21 : sim (reset_micro_to_initial o) (reset_micro_to_initial o').
Hypothesis H22 : forall s t, Rel s t -> squares o s = squares o' t.

Lemma rel_solve a fuel s t : Rel s t -> rel_outcome Rel (solve_nonlinear o p a fuel s) (solve_nonlinear o' p a fuel t).
Proof. apply (rel_solve_fresh o o' p Rel Rel); auto. Qed.
(** Also the iterations performed are the same. *)
Lemma rel_log a fuel s t : Rel s t ->
  snd (match a with Monolithic => monolithic_algorithm o p fuel s | Bouncing => bouncing_algorithm o p fuel s | Embracing => embracing_algorithm o p fuel s end) =
  snd (match a with Monolithic => monolithic_algorithm o' p fuel t | Bouncing => bouncing_algorithm o' p fuel t | Embracing => embracing_algorithm o' p fuel t end).
Proof. apply (rel_log_fresh o o' p Rel Rel); auto. Qed.
End Simulation.
