(** * Invariants of the solution algorithms, for the proofs about one time step. *)
From Verif Require Import Num SumLemmas ModelFEField ModelLineSearch ModelActiveSet ModelSolver
  SpecSolver PropSolver ModelStep.
Open Scope R_scope.

Section Closed.
Context {S : Type} (o : ops S) (p : solver_parameters) (Inv : S -> Prop).

Record preserved : Prop := {
  c_store : forall s, Inv s -> Inv (store_trial o s);
  c_update : forall s, Inv s -> Inv (update_internal o s);
  c_sets : rate_independent p = true -> forall s, Inv s -> Inv (recompute_sets o s);
  c_all : rate_independent p = false -> forall s, Inv s -> Inv (all_active o s);
  c_affine : forall s, Inv s -> Inv (distribute_affine o s);
  c_system : forall s, Inv s -> Inv (assemble_system o s);
  c_jac : forall s, Inv s -> Inv (assemble_jac o s);
  c_res : forall s, Inv s -> Inv (assemble_res o s);
  c_mono : forall s r, solve_mono o s = Ok r -> Inv s -> Inv r;
  c_macro : forall s r, solve_macro o s = Ok r -> Inv s -> Inv r;
  c_micro : forall s r, solve_micro o s = Ok r -> Inv s -> Inv r;
  c_reduced : forall s r, solve_reduced o s = Ok r -> Inv s -> Inv r;
  c_apply_mono : forall s, Inv s -> Inv (apply_mono o s);
  c_apply_macro : forall s, Inv s -> Inv (apply_macro o s);
  c_apply_micro : forall s, Inv s -> Inv (apply_micro o s);
  c_reset : forall s, Inv s -> Inv (reset_to_initial o s);
  c_reset_micro : forall s, Inv s -> Inv (reset_micro_to_initial o s)
}.
Definition ev (s : S) : Prop := exists x, Inv x /\ s = assemble_res o (update_internal o x).
Definition searches_ev : Prop :=
  (forall s r, ev s -> search_mono o s = Ok r -> ev r) /\
  (forall s r, ev s -> search_macro o s = Ok r -> ev r) /\
  (forall s r, ev s -> search_micro o s = Ok r -> ev r).

Hypothesis HP : preserved.
Hypothesis HS : searches_ev.

Lemma ev_inv s : ev s -> Inv s.
Proof. intros (x & Hx & ->). apply (c_res HP), (c_update HP), Hx. Qed.
Lemma call_inv f s : Inv s -> Inv (fst (call_active_set o p f s)).
Proof.
  intros Hs. unfold call_active_set. destruct (rate_independent p) eqn:E.
  - destruct f; [|exact Hs]. apply (c_sets HP E), Hs.
  - apply (c_all HP E), Hs.
Qed.
Lemma ev_search b f x r : Inv x ->
  (forall s r, ev s -> f s = Ok r -> ev r) ->
  maybe_search b f (assemble_res o (update_internal o x)) = Ok r -> ev r.
Proof.
  intros Hx Hf. unfold maybe_search. destruct b.
  - apply Hf. exists x; auto.
  - intros E; injection E as <-. exists x; auto.
Qed.
Lemma ev_mono f s r f1 : Inv s -> mono_iteration o p f s = Ok (r, f1) -> ev r.
Proof.
  intros Hs. unfold mono_iteration.
  pose proof (call_inv f _ (c_update HP _ (c_store HP _ Hs))) as C.
  destruct (call_active_set o p f _) as [s1 f2]; cbn [fst] in C.
  destruct (solve_mono o _) as [s2| |] eqn:E; try discriminate. cbn [rbind].
  apply (c_mono HP) in E; [|apply (c_system HP), (c_affine HP), C].
  destruct (maybe_search _ _ _) as [s3| |] eqn:E3; try discriminate. cbn [rbind].
  intros X; injection X as <- <-. revert E3. apply ev_search; [apply (c_apply_mono HP), E|apply HS].
Qed.
Lemma ev_micro s r : Inv s -> micro_iteration o p s = Ok r -> ev r.
Proof.
  intros Hs. unfold micro_iteration.
  destruct (solve_micro o _) as [s2| |] eqn:E; try discriminate. cbn [rbind].
  apply (c_micro HP) in E; [|apply (c_system HP), (c_update HP), (c_store HP), Hs].
  apply ev_search; [apply (c_apply_micro HP), E|apply HS].
Qed.
Lemma ev_macro it s r : Inv s -> macro_iteration o p it s = Ok r -> ev r.
Proof.
  intros Hs. unfold macro_iteration.
  set (x := if Nat.eqb it 1 then _ else _).
  assert (Hx : Inv x).
  { pose proof (c_update HP _ (c_store HP _ Hs)) as C.
    unfold x; destruct (Nat.eqb it 1); [apply (c_jac HP)|]; exact C. }
  destruct (solve_macro o _) as [s2| |] eqn:E; try discriminate. cbn [rbind].
  apply (c_macro HP) in E; [|apply (c_res HP), Hx].
  apply ev_search; [apply (c_apply_macro HP), E|apply HS].
Qed.
Lemma ev_embrace it s r : Inv s -> embrace_macro o p it s = Ok r -> ev r.
Proof.
  intros Hs. unfold embrace_macro. pose proof (c_jac HP _ Hs) as Hx.
  destruct (if Nat.eqb it 1 then _ else _) as [s2| |] eqn:E; try discriminate. cbn [rbind].
  assert (H2 : Inv s2).
  { destruct (Nat.eqb it 1); [apply (c_macro HP) in E|apply (c_reduced HP) in E]; auto. }
  apply ev_search; [apply (c_apply_macro HP), H2|apply HS].
Qed.
Lemma reevaluate_ev s : Inv s -> ev (reevaluate o s).
Proof. intros Hs. exists (store_trial o s). split; [apply (c_store HP), Hs|reflexivity]. Qed.

Lemma mono_ev : forall fuel it flag s log r, Inv s ->
  fst (mono_loop o p fuel it flag s log) = Done r ->
  exists s1, ev s1 /\ converged (norm_total o s1) (mono_tol p) /\
    (rate_independent p = true ->
       r = recompute_sets o s1 /\ the_active_set o r = the_active_set o s1) /\
    (rate_independent p = false -> r = s1).
Proof.
  induction fuel as [|fuel IH]; intros it flag s log r Hs; cbn [mono_loop]; [discriminate|].
  destruct (Nat.leb _ _); [|discriminate].
  destruct (mono_iteration o p flag s) as [[s1 f1]| |] eqn:E; try discriminate.
  apply (ev_mono _ _ _ _ Hs) in E.
  destruct (xltb (norm_total o s1) (Fin (mono_tol p))) eqn:C.
  - apply sqrt_converged in C. fold (norm_total o s1) in C.
    destruct (rate_independent p) eqn:RI.
    + unfold call_active_set. rewrite RI.
      destruct (list_eq_dec _ _ _) as [Eq|Ne].
      * intros Er. injection Er as <-. exists s1.
        split; [exact E|]. split; [exact C|]. split; [auto|discriminate].
      * apply IH. apply (c_reset HP), (c_sets HP RI), ev_inv, E.
    + intros Er. injection Er as <-. exists s1.
      split; [exact E|]. split; [exact C|]. split; [discriminate|auto].
  - apply IH. apply ev_inv, E.
Qed.

Lemma micro_ev : forall loop left it s log r, Inv s ->
  fst (micro_loop o p loop left it s log) = Done r ->
  ev r /\ converged (norm_micro o r) (micro_tol p).
Proof.
  intros loop. induction left as [|left IH]; intros it s log r Hs; cbn [micro_loop]; [discriminate|].
  destruct (micro_iteration o p s) as [s1| |] eqn:E; try discriminate.
  apply (ev_micro _ _ Hs) in E.
  destruct (xltb (norm_micro o s1) (Fin (micro_tol p))) eqn:C.
  - apply sqrt_converged in C. intros Er. injection Er as <-. auto.
  - apply IH, ev_inv, E.
Qed.
Lemma if_reset_inv (b : bool) s : Inv s -> Inv (if b then reset_micro_to_initial o s else s).
Proof. destruct b; [apply (c_reset_micro HP)|auto]. Qed.

Lemma bounce_ev : forall fuel mit mloop uloop fmicro s log r, Inv s ->
  ((mloop = 1 /\ mit = 0)%nat \/ ev s) ->
  (fmicro = true -> converged (norm_micro o s) (micro_tol p)) ->
  fst (bounce o p fuel mit mloop uloop fmicro s log) = Done r ->
  ev r /\ converged (norm_macro o r) (macro_tol p) /\ converged (norm_micro o r) (micro_tol p).
Proof.
  induction fuel as [|fuel IH]; intros mit mloop uloop fmicro s log r Hs HE HM; cbn [bounce]; [discriminate|].
  destruct (if andb _ _ then false else _) eqn:F.
  - assert (C : converged (norm_macro o s) (macro_tol p)).
    { destruct (andb _ _); [discriminate|]. apply sqrt_converged in F. exact F. }
    assert (EV : ev s) by (destruct HE as [[-> ->]|X]; [discriminate|exact X]).
    destruct fmicro.
    + intros Er. injection Er as <-. auto.
    + pose proof (call_inv true s Hs) as C1.
      destruct (call_active_set o p true s) as [s1 f1]; cbn [fst] in C1.
      apply (c_affine HP) in C1.
      apply (if_reset_inv (reset_at_micro_loop p)) in C1.
      match type of C1 with Inv ?x => set (s3 := x) in * end.
      pose proof (micro_ev (uloop + 1) (micro_n_max p) 0 s3 log) as D.
      destruct (micro_loop o p (uloop + 1) (micro_n_max p) 0 s3 log) as [[s4| | |] log'];
        cbn [fst] in D; try discriminate.
      destruct (D s4 C1 eq_refl) as [D1 D2].
      destruct (Nat.leb _ _); [|discriminate].
      apply IH; auto. apply ev_inv, D1.
  - destruct (Nat.leb _ _); [|discriminate].
    destruct (macro_iteration o p (mit + 1) s) as [s1| |] eqn:E; try discriminate.
    apply (ev_macro _ _ _ Hs) in E. apply IH; auto; [apply ev_inv, E|discriminate].
Qed.

Lemma embrace_ev : forall fuel mit flag fmicro s log r, Inv s ->
  (fmicro = true -> ev s /\ converged (norm_micro o s) (micro_tol p)) ->
  fst (embrace o p fuel mit flag fmicro s log) = Done r ->
  converged (norm_macro o r) (macro_tol p) /\
  exists s1, ev s1 /\ converged (norm_micro o s1) (micro_tol p) /\ r = reevaluate o s1.
Proof.
  induction fuel as [|fuel IH]; intros mit flag fmicro s log r Hs HM; cbn [embrace]; [discriminate|].
  destruct (xltb (norm_macro o (reevaluate o s)) (Fin (macro_tol p)) && fmicro)%bool eqn:F.
  - apply Bool.andb_true_iff in F. destruct F as [F ->]. apply sqrt_converged in F.
    destruct (HM eq_refl) as (E & C). intros Er. injection Er as <-. split; [exact F|]. eauto.
  - destruct (Nat.leb _ _); [|discriminate].
    destruct (embrace_macro o p (mit + 1) (reevaluate o s)) as [s1| |] eqn:E; try discriminate.
    apply ev_embrace in E; [|apply ev_inv, reevaluate_ev, Hs]. apply ev_inv in E.
    pose proof (call_inv flag s1 E) as C1.
    destruct (call_active_set o p flag s1) as [s2 f2]; cbn [fst] in C1.
    apply (if_reset_inv (reset_at_micro_loop p)) in C1.
    match type of C1 with Inv ?x => set (s3 := x) in * end.
    match goal with |- context [micro_loop o p ?a ?b ?c ?d ?e] =>
      pose proof (micro_ev a b c d e) as D; destruct (micro_loop o p a b c d e) as [[s4| | |] log'] end;
      cbn [fst] in D; try discriminate.
    destruct (D s4 C1 eq_refl) as [D1 D2]. apply IH; auto. apply ev_inv, D1.
Qed.
End Closed.
