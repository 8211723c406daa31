(** * C46-C49: solution algorithms. *)
From Verif Require Import Num SumLemmas ModelFEField ModelActiveSet ModelSolver SpecSolver.
Open Scope R_scope.

Lemma sqrt_converged a tol : xltb (xsqrt a) (Fin tol) = true <-> converged (xsqrt a) tol.
Proof.
  unfold converged. destruct a as [r| | |]; simpl.
  - destruct (Rltb r 0) eqn:E; simpl.
    + split; [discriminate|intros (x & H & _); discriminate].
    + rewrite Rltb_true. split.
      * intros H. exists (sqrt r). split; [reflexivity|]. split; [apply sqrt_pos|exact H].
      * intros (x & H & _ & Hx). injection H as ->. exact Hx.
  - split; [discriminate|intros (x & H & _); discriminate].
  - split; [discriminate|intros (x & H & _); discriminate].
  - split; [discriminate|intros (x & H & _); discriminate].
Qed.

Section Algorithms.
Context {S : Type} (o : ops S) (p : solver_parameters).

Lemma evaluated_search b f x s : (forall a a', evaluated o a -> f a = Ok a' -> evaluated o a') ->
  maybe_search b f (assemble_res o (update_internal o x)) = Ok s -> evaluated o s.
Proof.
  intros H. unfold maybe_search. destruct b; [apply H; exists x; reflexivity|]. intros E; injection E as <-.
  exists x; reflexivity.
Qed.
Lemma mono_evaluated : searches_evaluate o -> forall f s r f1,
  mono_iteration o p f s = Ok (r, f1) -> evaluated o r.
Proof.
  intros (H & _ & _) f s r f1. unfold mono_iteration.
  destruct (call_active_set o p f _) as [s1 f2]. destruct (solve_mono o _) as [s2| |]; try discriminate.
  cbn [rbind]. destruct (maybe_search _ _ _) as [s3| |] eqn:E; try discriminate. cbn [rbind].
  intros X; injection X as <- <-. exact (evaluated_search _ _ _ _ H E).
Qed.
Lemma micro_evaluated : searches_evaluate o -> forall s r,
  micro_iteration o p s = Ok r -> evaluated o r.
Proof.
  intros (_ & _ & H) s r. unfold micro_iteration.
  destruct (solve_micro o _) as [s2| |]; try discriminate. cbn [rbind].
  apply (evaluated_search _ _ _ _ H).
Qed.
Lemma macro_evaluated : searches_evaluate o -> forall it s r,
  macro_iteration o p it s = Ok r -> evaluated o r.
Proof.
  intros (_ & H & _) it s r. unfold macro_iteration.
  destruct (solve_macro o _) as [s2| |]; try discriminate. cbn [rbind].
  apply (evaluated_search _ _ _ _ H).
Qed.

(** ** Monolithic *)
Lemma mono_inv : forall fuel it flag s log,
  (forall e, In e log -> within_limits p 1 e) ->
  (forall e, In e (snd (mono_loop o p fuel it flag s log)) -> within_limits p 1 e) /\
  (forall r, fst (mono_loop o p fuel it flag s log) = Done r ->
     exists sp f s1 f1, mono_iteration o p f sp = Ok (s1, f1) /\
       converged (norm_total o s1) (mono_tol p) /\
       (rate_independent p = true ->
          r = recompute_sets o s1 /\ the_active_set o r = the_active_set o s1) /\
       (rate_independent p = false -> r = s1)).
Proof.
  induction fuel as [|fuel IH]; intros it flag s log HL; cbn [mono_loop].
  - split; [exact HL|discriminate].
  - destruct (Nat.leb_spec (it + 1) (mono_n_max p)) as [Hit|Hit]; [|split; [exact HL|discriminate]].
    destruct (mono_iteration o p flag s) as [[s1 f1]| |] eqn:E;
      [|split; [exact HL|discriminate]|split; [exact HL|discriminate]].
    assert (HL' : forall e, In e (log ++ [MonoIt (it + 1)]) -> within_limits p 1 e).
    { intros e He. apply in_app_or in He. destruct He as [He|[<-|[]]]; [auto|]. cbn [within_limits]; lia. }
    destruct (xltb (norm_total o s1) (Fin (mono_tol p))) eqn:C.
    + apply sqrt_converged in C. fold (norm_total o s1) in C.
      destruct (rate_independent p) eqn:RI.
      * unfold call_active_set. rewrite RI.
        destruct (list_eq_dec _ _ _) as [Eq|Ne].
        -- split; [exact HL'|]. intros r Er. injection Er as <-.
           exists s, flag, s1, f1. repeat split; auto; try congruence.
        -- apply IH. exact HL'.
      * split; [exact HL'|]. intros r Er. injection Er as <-.
        exists s, flag, s1, f1. repeat split; auto; congruence.
    + apply IH. exact HL'.
Qed.

(** A monolithic solve that returns has converged: the norm of the residual, evaluated for the
    trial solution it returns, is a number below the tolerance and, for rate-independent
    behaviour, recomputing the active set from the converged state has not changed it. *)
Theorem C46_return_means_converged : forall fuel s0 s, searches_evaluate o ->
  fst (monolithic_algorithm o p fuel s0) = Done s ->
  exists s1, evaluated o s1 /\ converged (norm_total o s1) (mono_tol p) /\
    (rate_independent p = true ->
       s = recompute_sets o s1 /\ the_active_set o s = the_active_set o s1) /\
    (rate_independent p = false -> s = s1).
Proof.
  intros fuel s0 s HS H. 
  destruct (proj2 (mono_inv fuel 0 true s0 [] ltac:(intros e [])) s H) as (sp & f & s1 & f1 & E & C & A & B).
  exists s1. split; [exact (mono_evaluated HS _ _ _ _ E)|auto].
Qed.

(** No Newton pass exceeds the iteration limit, whatever the outcome. *)
Theorem C46_iterations_respect_the_limit : forall fuel s0 e,
  In e (snd (monolithic_algorithm o p fuel s0)) -> within_limits p 1 e.
Proof. intros fuel s0 e. apply mono_inv. intros x []. Qed.

(** Without active-set restarts the loop ends within n_max + 1 turns. *)

Lemma mono_terminates :
  (rate_independent p = true -> forall s, the_active_set o (recompute_sets o s) = the_active_set o s) ->
  forall fuel it flag s log, (mono_n_max p < fuel + it)%nat -> (0 < fuel)%nat ->
  fst (mono_loop o p fuel it flag s log) <> Running.
Proof.
  intros HS. induction fuel as [|fuel IH]; intros it flag s log Hf Hp; [lia|]. cbn [mono_loop].
  destruct (Nat.leb_spec (it + 1) (mono_n_max p)) as [Hit|Hit]; [|discriminate].
  destruct (mono_iteration o p flag s) as [[s1 f1]| |]; [|discriminate|discriminate].
  destruct (xltb (norm_total o s1) (Fin (mono_tol p))).
  - destruct (rate_independent p) eqn:RI; [|discriminate].
    unfold call_active_set. rewrite RI. destruct (list_eq_dec _ _ _) as [Eq|Ne]; [discriminate|].
    exfalso. apply Ne. symmetry. apply HS; reflexivity.
  - apply IH; lia.
Qed.

Theorem C46_terminates_if_the_active_set_is_stable : forall fuel s0,
  (rate_independent p = true -> forall s, the_active_set o (recompute_sets o s) = the_active_set o s) ->
  (mono_n_max p < fuel)%nat -> fst (monolithic_algorithm o p fuel s0) <> Running.
Proof. intros fuel s0 HS Hf. apply mono_terminates; auto; lia. Qed.

(** A solve whose residual never gets below the tolerance is never accepted. *)
Lemma mono_divergence : forall fuel it flag s log,
  (forall f sp s1 f1, mono_iteration o p f sp = Ok (s1, f1) -> ~ converged (norm_total o s1) (mono_tol p)) ->
  (mono_n_max p < fuel + it)%nat -> (0 < fuel)%nat ->
  fst (mono_loop o p fuel it flag s log) = Thrown \/ fst (mono_loop o p fuel it flag s log) = Undefined.
Proof.
  induction fuel as [|fuel IH]; intros it flag s log HC Hf Hp; [lia|]. cbn [mono_loop].
  destruct (Nat.leb_spec (it + 1) (mono_n_max p)) as [Hit|Hit]; [|auto].
  destruct (mono_iteration o p flag s) as [[s1 f1]| |] eqn:E; auto.
  destruct (xltb (norm_total o s1) (Fin (mono_tol p))) eqn:C.
  - exfalso. apply sqrt_converged in C. eapply HC; eauto.
  - apply IH; auto; lia.
Qed.
Theorem C46_divergence_is_reported : forall fuel s0, searches_evaluate o ->
  (forall s1, evaluated o s1 -> ~ converged (norm_total o s1) (mono_tol p)) ->
  (mono_n_max p < fuel)%nat ->
  fst (monolithic_algorithm o p fuel s0) = Thrown \/
  fst (monolithic_algorithm o p fuel s0) = Undefined.
Proof.
  intros fuel s0 HS HC Hf. apply mono_divergence; try lia.
  intros f sp s1 f1 E. apply HC. exact (mono_evaluated HS _ _ _ _ E).
Qed.

(** ** Micro loop *)
Lemma micro_inv loops loop : (1 <= loop <= loops)%nat ->
  forall left it s log,
  (it + left <= micro_n_max p)%nat ->
  (forall e, In e log -> within_limits p loops e) ->
  (forall e, In e (snd (micro_loop o p loop left it s log)) -> within_limits p loops e) /\
  fst (micro_loop o p loop left it s log) <> Running /\
  (forall r, fst (micro_loop o p loop left it s log) = Done r ->
     converged (norm_micro o r) (micro_tol p) /\ exists sp, micro_iteration o p sp = Ok r).
Proof.
  intros Hloop. induction left as [|left IH]; intros it s log Hb HL; cbn [micro_loop].
  - split; [exact HL|]. split; discriminate.
  - destruct (micro_iteration o p s) as [s1| |] eqn:E;
      [|split; [exact HL|split; discriminate]|split; [exact HL|split; discriminate]].
    assert (HL' : forall e, In e (log ++ [MicroIt loop (it + 1)]) -> within_limits p loops e).
    { intros e He. apply in_app_or in He. destruct He as [He|[<-|[]]]; [auto|]. cbn [within_limits]; lia. }
    destruct (xltb (norm_micro o s1) (Fin (micro_tol p))) eqn:C.
    + apply sqrt_converged in C. split; [exact HL'|]. split; [discriminate|].
      intros r Er. injection Er as <-. split; [exact C|eauto].
    + apply IH; [lia|exact HL'].
Qed.

Lemma micro_ends : forall loop left it s log, fst (micro_loop o p loop left it s log) <> Running.
Proof.
  intros loop. induction left as [|left IH]; intros it s log; cbn [micro_loop]; [discriminate|].
  destruct (micro_iteration o p s); try discriminate.
  destruct (xltb _ _); [discriminate|apply IH].
Qed.

(** ** Bouncing *)
Lemma bounce_inv : forall fuel mit mloop uloop fmicro s log,
  (searches_evaluate o -> (mloop = 1 /\ mit = 0)%nat \/ evaluated o s) ->
  (fmicro = true -> converged (norm_micro o s) (micro_tol p)) ->
  (1 <= mloop)%nat -> (mloop <= Nat.max 1 (max_n_solution_loops p))%nat -> (uloop + 1 <= mloop)%nat ->
  (forall e, In e log -> within_limits p (Nat.max 1 (max_n_solution_loops p)) e) ->
  (forall e, In e (snd (bounce o p fuel mit mloop uloop fmicro s log)) ->
      within_limits p (Nat.max 1 (max_n_solution_loops p)) e) /\
  (forall r, fst (bounce o p fuel mit mloop uloop fmicro s log) = Done r ->
     converged (norm_macro o r) (macro_tol p) /\ converged (norm_micro o r) (micro_tol p) /\
     (searches_evaluate o -> evaluated o r)).
Proof.
  induction fuel as [|fuel IH]; intros mit mloop uloop fmicro s log HE HM H1 H2 H3 HL; cbn [bounce].
  - split; [exact HL|discriminate].
  - destruct (if andb _ _ then false else _) eqn:F.
    + assert (C : converged (norm_macro o s) (macro_tol p)).
      { destruct (andb _ _); [discriminate|]. apply sqrt_converged in F. exact F. }
      assert (EV : searches_evaluate o -> evaluated o s).
      { intros HS. destruct (HE HS) as [[-> ->]|X]; [discriminate|exact X]. }
      destruct fmicro.
      * split; [exact HL|]. intros r Er. injection Er as <-. auto.
      * destruct (call_active_set o p true s) as [s1 f1].
        set (s3 := if reset_at_micro_loop p then _ else _).
        destruct (micro_inv (Nat.max 1 (max_n_solution_loops p)) (uloop + 1) ltac:(lia)
                    (micro_n_max p) 0 s3 log ltac:(lia) HL) as (A & B & D).
        destruct (micro_loop o p (uloop + 1) (micro_n_max p) 0 s3 log) as [[s4| | |] log'];
          cbn [fst snd] in A, B, D; try (split; [exact A|discriminate]).
        destruct (Nat.leb_spec (mloop + 1) (max_n_solution_loops p)) as [Hl|Hl];
          [|split; [exact A|discriminate]].
        apply IH; try lia; auto.
        -- intros HS. right. destruct (D s4 eq_refl) as (_ & sp & E). exact (micro_evaluated HS _ _ E).
        -- intros _. apply D; reflexivity.
    + destruct (Nat.leb_spec (mit + 1) (macro_n_max p)) as [Hit|Hit]; [|split; [exact HL|discriminate]].
      destruct (macro_iteration o p (mit + 1) s) as [s1| |] eqn:E;
        [|split; [exact HL|discriminate]|split; [exact HL|discriminate]].
      apply IH; auto; [|discriminate|].
      { intros HS. right. exact (macro_evaluated HS _ _ _ E). }
      intros e He. apply in_app_or in He. destruct He as [He|[<-|[]]]; [auto|]. cbn [within_limits]; lia.
Qed.

(** A bouncing solve that returns has both residual norms below their tolerance, for the
    residual stored when it returns, which is the residual of the returned trial solution. *)
Theorem C47_return_means_converged : forall fuel s0 s, searches_evaluate o ->
  fst (bouncing_algorithm o p fuel s0) = Done s ->
  evaluated o s /\
  converged (norm_macro o s) (macro_tol p) /\ converged (norm_micro o s) (micro_tol p).
Proof.
  intros fuel s0 s HS H.
  destruct (proj2 (bounce_inv fuel 0 1 0 false s0 [] ltac:(auto) ltac:(discriminate) ltac:(lia) ltac:(lia) ltac:(lia)
    ltac:(intros e [])) s H) as (A & B & C). auto.
Qed.

(** Loops and inner iterations respect their limits, whatever the outcome. *)
Theorem C47_iterations_respect_the_limits : forall fuel s0 e,
  In e (snd (bouncing_algorithm o p fuel s0)) ->
  within_limits p (Nat.max 1 (max_n_solution_loops p)) e.
Proof.
  intros fuel s0 e. refine (proj1 (bounce_inv fuel 0 1 0 false s0 [] _ _ _ _ _ _) e); try lia; try discriminate; auto; intros x [].
Qed.

Lemma bounce_terminates : forall fuel mit mloop uloop fmicro s log,
  (mit <= macro_n_max p)%nat -> (1 <= mloop)%nat ->
  ((Nat.max 1 (max_n_solution_loops p) - mloop) * (macro_n_max p + 2) + (macro_n_max p - mit) + 2 <= fuel)%nat ->
  fst (bounce o p fuel mit mloop uloop fmicro s log) <> Running.
Proof.
  induction fuel as [|fuel IH]; intros mit mloop uloop fmicro s log Hm Hl Hf; [exfalso; clear - Hf; revert Hf; generalize ((Nat.max 1 (max_n_solution_loops p) - mloop) * (macro_n_max p + 2))%nat; intros; lia|]. cbn [bounce].
  destruct (if andb _ _ then false else _).
  - destruct fmicro; [discriminate|].
    destruct (call_active_set o p true s) as [s1 f1].
    set (s3 := if reset_at_micro_loop p then _ else _).
    pose proof (micro_ends (uloop + 1) (micro_n_max p) 0 s3 log) as B.
    destruct (micro_loop o p (uloop + 1) (micro_n_max p) 0 s3 log) as [[s4| | |] log'];
      cbn [fst] in B; try discriminate; [|exfalso; apply B; reflexivity].
    destruct (Nat.leb_spec (mloop + 1) (max_n_solution_loops p)) as [Hll|Hll]; [|discriminate].
    apply IH; try lia.
    assert (E : (Nat.max 1 (max_n_solution_loops p) - mloop =
                 Datatypes.S (Nat.max 1 (max_n_solution_loops p) - (mloop + 1)))%nat) by lia.
    rewrite E in Hf. rewrite Nat.mul_succ_l in Hf. revert Hf.
    generalize ((Nat.max 1 (max_n_solution_loops p) - (mloop + 1)) * (macro_n_max p + 2))%nat. intros; lia.
  - destruct (Nat.leb_spec (mit + 1) (macro_n_max p)) as [Hit|Hit]; [|discriminate].
    destruct (macro_iteration o p (mit + 1) s) as [s1| |]; try discriminate.
    apply IH; lia.
Qed.

(** The bouncing algorithm always ends, by returning or by an exception. *)
Theorem C47_always_ends : forall fuel s0,
  ((max_n_solution_loops p + 1) * (macro_n_max p + 2) <= fuel)%nat ->
  fst (bouncing_algorithm o p fuel s0) <> Running.
Proof.
  intros fuel s0 H. apply bounce_terminates; lia.
Qed.

(** With a single admissible solution loop it can never return. *)
Lemma bounce_one : (max_n_solution_loops p <= 1)%nat ->
  forall fuel mit uloop s log r, fst (bounce o p fuel mit 1 uloop false s log) <> Done r.
Proof.
  intros HM. induction fuel as [|fuel IH]; intros mit uloop s log r; cbn [bounce]; [discriminate|].
  destruct (if andb _ _ then false else _).
  - destruct (call_active_set o p true s) as [s1 f1].
    destruct (micro_loop o p (uloop + 1) (micro_n_max p) 0 _ log) as [[s4| | |] log'] eqn:E; try discriminate.
    destruct (Nat.leb_spec (1 + 1) (max_n_solution_loops p)); [lia|discriminate].
  - destruct (Nat.leb_spec (mit + 1) (macro_n_max p)); [|discriminate].
    destruct (macro_iteration o p (mit + 1) s); try discriminate. apply IH.
Qed.
Theorem C47_one_loop_never_suffices : forall fuel s0 s,
  (max_n_solution_loops p <= 1)%nat -> fst (bouncing_algorithm o p fuel s0) <> Done s.
Proof. intros fuel s0 s H. apply bounce_one. exact H. Qed.

(** ** Embracing *)
Lemma embrace_inv : forall fuel mit flag fmicro s log,
  (fmicro = true -> converged (norm_micro o s) (micro_tol p) /\ exists sp, micro_iteration o p sp = Ok s) ->
  (mit <= macro_n_max p)%nat ->
  (forall e, In e log -> within_limits p (Nat.max 1 (macro_n_max p)) e) ->
  (forall e, In e (snd (embrace o p fuel mit flag fmicro s log)) ->
      within_limits p (Nat.max 1 (macro_n_max p)) e) /\
  (forall r, fst (embrace o p fuel mit flag fmicro s log) = Done r ->
     converged (norm_macro o r) (macro_tol p) /\
     exists sp s1, micro_iteration o p sp = Ok s1 /\
       converged (norm_micro o s1) (micro_tol p) /\ r = reevaluate o s1).
Proof.
  induction fuel as [|fuel IH]; intros mit flag fmicro s log HM Hm HL; cbn [embrace].
  - split; [exact HL|discriminate].
  - destruct (xltb (norm_macro o (reevaluate o s)) (Fin (macro_tol p)) && fmicro)%bool eqn:F.
    + apply Bool.andb_true_iff in F. destruct F as [F ->]. apply sqrt_converged in F.
      destruct (HM eq_refl) as (C & sp & E).
      split; [exact HL|]. intros r Er. injection Er as <-. split; [exact F|].
      exists sp, s. auto.
    + destruct (Nat.leb_spec (mit + 1) (macro_n_max p)) as [Hit|Hit]; [|split; [exact HL|discriminate]].
      destruct (embrace_macro o p (mit + 1) (reevaluate o s)) as [s1| |];
        [|split; [exact HL|discriminate]|split; [exact HL|discriminate]].
      assert (HL' : forall e, In e (log ++ [MacroIt 1 (mit + 1)]) ->
                    within_limits p (Nat.max 1 (macro_n_max p)) e).
      { intros e He. apply in_app_or in He. destruct He as [He|[<-|[]]]; [auto|]. cbn [within_limits]; lia. }
      destruct (call_active_set o p flag s1) as [s2 f2].
      set (s3 := if reset_at_micro_loop p then _ else _).
      destruct (micro_inv (Nat.max 1 (macro_n_max p)) (mit + 1) ltac:(lia)
                  (micro_n_max p) 0 s3 _ ltac:(lia) HL') as (A & B & D).
      destruct (micro_loop o p (mit + 1) (micro_n_max p) 0 s3 _) as [[s4| | |] log'];
        cbn [fst snd] in A, B, D; try (split; [exact A|discriminate]).
      apply IH; auto.
Qed.

(** An embracing solve that returns: the macro residual norm is below tolerance for the
    residual of the returned trial solution; the micro residual norm was below tolerance at
    the end of the micro loop just before, and the final residual is the re-evaluation at the
    same state. *)
Theorem C48_return_means_converged : forall fuel s0 s, searches_evaluate o ->
  fst (embracing_algorithm o p fuel s0) = Done s ->
  evaluated o s /\ converged (norm_macro o s) (macro_tol p) /\
  exists s1, evaluated o s1 /\ converged (norm_micro o s1) (micro_tol p) /\
    s = assemble_res o (update_internal o (store_trial o s1)).
Proof.
  intros fuel s0 s HS H.
  destruct (proj2 (embrace_inv fuel 0 true false (distribute_affine o s0) [] ltac:(discriminate) ltac:(lia)
    ltac:(intros e [])) s H) as (A & sp & s1 & E & C & ->).
  split; [exists (store_trial o s1); reflexivity|]. split; [exact A|].
  exists s1. split; [exact (micro_evaluated HS _ _ E)|]. split; [exact C|reflexivity].
Qed.

(** If re-evaluating the residual of an unchanged trial solution reproduces its norms, both
    norms are below tolerance in the returned state. *)
Theorem C48_both_residuals_converged : forall fuel s0 s, searches_evaluate o ->
  (forall s1, evaluated o s1 ->
     squares o (assemble_res o (update_internal o (store_trial o s1))) = squares o s1) ->
  fst (embracing_algorithm o p fuel s0) = Done s ->
  converged (norm_macro o s) (macro_tol p) /\ converged (norm_micro o s) (micro_tol p).
Proof.
  intros fuel s0 s HS HR H. destruct (C48_return_means_converged fuel s0 s HS H) as (_ & A & s1 & E & C & ->).
  split; [exact A|]. unfold norm_micro in *. rewrite (HR s1 E). exact C.
Qed.

(** The algorithm selected in the parameters is the one whose criterion is met. *)
Theorem C47_selected_algorithm : forall a fuel s0 s, searches_evaluate o ->
  (forall s1, evaluated o s1 ->
     squares o (assemble_res o (update_internal o (store_trial o s1))) = squares o s1) ->
  solve_nonlinear o p a fuel s0 = Done s ->
  match a with
  | Monolithic => exists s1, evaluated o s1 /\ converged (norm_total o s1) (mono_tol p) /\
      s = if rate_independent p then recompute_sets o s1 else s1
  | Bouncing | Embracing =>
      evaluated o s /\ converged (norm_macro o s) (macro_tol p) /\
      converged (norm_micro o s) (micro_tol p)
  end /\
  (a = Bouncing -> 2 <= max_n_solution_loops p)%nat.
Proof.
  intros a fuel s0 s HS HR. unfold solve_nonlinear. destruct a; intros H.
  - destruct (C46_return_means_converged fuel s0 s HS H) as (s1 & A & B & C & D).
    split; [|discriminate]. exists s1. split; [exact A|]. split; [exact B|].
    destruct (rate_independent p); [apply C|apply D]; reflexivity.
  - split; [exact (C47_return_means_converged fuel s0 s HS H)|]. intros _.
    destruct (Nat.le_gt_cases 2 (max_n_solution_loops p)) as [L|L]; [exact L|].
    exfalso. exact (C47_one_loop_never_suffices fuel s0 s ltac:(lia) H).
  - split; [|discriminate].
    split; [exact (proj1 (C48_return_means_converged fuel s0 s HS H))|].
    exact (C48_both_residuals_converged fuel s0 s HS HR H).
Qed.

Theorem C48_iterations_respect_the_limits : forall fuel s0 e,
  In e (snd (embracing_algorithm o p fuel s0)) ->
  within_limits p (Nat.max 1 (macro_n_max p)) e.
Proof.
  intros fuel s0 e. refine (proj1 (embrace_inv fuel 0 true false (distribute_affine o s0) [] _ _ _) e); [discriminate|lia|intros x []].
Qed.

Lemma embrace_terminates : forall fuel mit flag fmicro s log,
  (mit <= macro_n_max p)%nat -> (macro_n_max p - mit + 1 <= fuel)%nat ->
  fst (embrace o p fuel mit flag fmicro s log) <> Running.
Proof.
  induction fuel as [|fuel IH]; intros mit flag fmicro s log Hm Hf; [lia|]. cbn [embrace].
  destruct (_ && fmicro)%bool; [discriminate|].
  destruct (Nat.leb_spec (mit + 1) (macro_n_max p)) as [Hit|Hit]; [|discriminate].
  destruct (embrace_macro o p (mit + 1) (reevaluate o s)) as [s1| |]; try discriminate.
  destruct (call_active_set o p flag s1) as [s2 f2].
  pose proof (micro_ends (mit + 1) (micro_n_max p) 0%nat
    (if reset_at_micro_loop p then reset_micro_to_initial o s2 else s2) (log ++ [MacroIt 1 (mit + 1)])) as G.
  destruct (micro_loop o p (mit + 1) (micro_n_max p) 0 _ _) as [[s4| | |] log'];
    cbn [fst] in G; try discriminate; [|exfalso; apply G; reflexivity].
  apply IH; lia.
Qed.
Theorem C48_always_ends : forall fuel s0,
  (macro_n_max p + 1 <= fuel)%nat -> fst (embracing_algorithm o p fuel s0) <> Running.
Proof. intros fuel s0 H. apply embrace_terminates; lia. Qed.

(** The active set is determined once, after the first macro iteration, and never again:
    the returned state still carries that set even if the final state would give another. *)
Lemma micro_keeps_set : active_set_only_changed_by_recompute o ->
  forall loop left it s log r, fst (micro_loop o p loop left it s log) = Done r ->
  the_active_set o r = the_active_set o s.
Proof.
  intros (A1 & A2 & A3 & A4 & A5 & A6 & A7 & A8 & A9 & A10 & A11 & A12 & A13) loop.
  assert (HI : forall s r, micro_iteration o p s = Ok r -> the_active_set o r = the_active_set o s).
  { intros s r. unfold micro_iteration.
    destruct (solve_micro o _) as [s1| |] eqn:E; simpl; try discriminate.
    apply A7 in E. rewrite A3, A2, A1 in E.
    unfold maybe_search. destruct (micro_line_search p).
    - intros H. apply A12 in H. rewrite H, A5, A2, A10. exact E.
    - intros H. injection H as <-. rewrite A5, A2, A10. exact E. }
  induction left as [|left IH]; intros it s log r; cbn [micro_loop]; [discriminate|].
  destruct (micro_iteration o p s) as [s1| |] eqn:E; try discriminate.
  apply HI in E. destruct (xltb _ _).
  - intros H. injection H as <-. exact E.
  - intros H. apply IH in H. congruence.
Qed.

Lemma embrace_keeps_set : active_set_only_changed_by_recompute o ->
  rate_independent p = true ->
  forall fuel mit fmicro s log r,
  fst (embrace o p fuel mit false fmicro s log) = Done r ->
  the_active_set o r = the_active_set o s.
Proof.
  intros HA HR. pose proof HA as (A1 & A2 & A3 & A4 & A5 & A6 & A7 & A8 & A9 & A10 & A11 & A12 & A13).
  induction fuel as [|fuel IH]; intros mit fmicro s log r; cbn [embrace]; [discriminate|].
  assert (ER : the_active_set o (reevaluate o s) = the_active_set o s)
    by (unfold reevaluate; rewrite A5, A2, A1; reflexivity).
  destruct (_ && fmicro)%bool.
  - intros H. injection H as <-. exact ER.
  - destruct (Nat.leb _ _); [|discriminate].
    destruct (embrace_macro o p (mit + 1) (reevaluate o s)) as [s1| |] eqn:E; try discriminate.
    assert (E1 : the_active_set o s1 = the_active_set o s).
    { rewrite <- ER. unfold embrace_macro in E.
      destruct (if Nat.eqb _ _ then _ else _) as [s2| |] eqn:E2; simpl in E; try discriminate.
      assert (E3 : the_active_set o s2 = the_active_set o (reevaluate o s)).
      { destruct (Nat.eqb _ _); [apply A6 in E2|apply A8 in E2]; rewrite A4 in E2; exact E2. }
      rewrite <- E3. unfold maybe_search in E. destruct (macro_line_search p).
      - apply A11 in E. rewrite E, A5, A2, A9. reflexivity.
      - injection E as <-. rewrite A5, A2, A9. reflexivity. }
    unfold call_active_set. rewrite HR.
    destruct (micro_loop o p (mit + 1) (micro_n_max p) 0 _ _) as [[s4| | |] log'] eqn:EM; try discriminate.
    intros H. apply IH in H.
    assert (E4 : fst (micro_loop o p (mit + 1) (micro_n_max p) 0
       (if reset_at_micro_loop p then reset_micro_to_initial o s1 else s1) (log ++ [MacroIt 1 (mit + 1)])) = Done s4)
      by (rewrite EM; reflexivity).
    apply (micro_keeps_set HA) in E4. rewrite H, E4.
    destruct (reset_at_micro_loop p); [rewrite A13|]; exact E1.
Qed.

Theorem C48_active_set_is_frozen_after_the_first_iteration : forall fuel s0 s,
  active_set_only_changed_by_recompute o -> rate_independent p = true ->
  fst (embracing_algorithm o p fuel s0) = Done s ->
  exists s1, embrace_macro o p 1 (reevaluate o (distribute_affine o s0)) = Ok s1 /\
    the_active_set o s = the_active_set o (recompute_sets o s1).
Proof.
  intros fuel s0 s HA HR. unfold embracing_algorithm.
  destruct fuel as [|fuel]; cbn [embrace]; [discriminate|]. rewrite Bool.andb_false_r.
  destruct (Nat.leb _ _); [|discriminate]. simpl Nat.add.
  destruct (embrace_macro o p 1 (reevaluate o (distribute_affine o s0))) as [s1| |] eqn:E; try discriminate.
  unfold call_active_set. rewrite HR.
  destruct (micro_loop o p 1 (micro_n_max p) 0 _ _) as [[s4| | |] log'] eqn:EM; try discriminate.
  intros H. exists s1. split; [reflexivity|].
  apply (embrace_keeps_set HA HR) in H.
  match type of EM with micro_loop _ _ _ _ _ ?a ?b = _ =>
    assert (E4 : fst (micro_loop o p 1 (micro_n_max p) 0 a b) = Done s4) by (rewrite EM; reflexivity) end.
  apply (micro_keeps_set HA) in E4. rewrite H, E4.
  destruct (reset_at_micro_loop p); [apply HA|]; reflexivity.
Qed.
(** ** Order of the calls *)
Section Rules.
Variables (current jac res : S -> Prop).
Hypothesis HR : calling_rules o current jac res.

Lemma rules_search b f x : (forall a a', res a -> f a = Ok a' -> res a') -> (forall a, res a -> f a <> UB) ->
  match maybe_search b f (assemble_res o (update_internal o x)) with
  | Ok s => res s | Throw => True | UB => False end.
Proof.
  intros H H'. unfold maybe_search. 
  assert (X : res (assemble_res o (update_internal o x)))
    by (apply (r_res _ _ _ _ HR), (r_update _ _ _ _ HR)).
  destruct b; [|exact X]. destruct (f _) eqn:E; [exact (H _ _ X E)|exact I|exact (H' _ X E)].
Qed.
Lemma rules_sets f s : current s -> current (fst (call_active_set o p f s)).
Proof.
  intros H. unfold call_active_set. destruct (rate_independent p); [destruct f; [|exact H]|]; simpl.
  - apply (r_current_sets _ _ _ _ HR), H.
  - apply (r_current_all _ _ _ _ HR), H.
Qed.
Lemma rules_mono f s : match mono_iteration o p f s with
  | Ok (r, _) => res r | Throw => True | UB => False end.
Proof.
  unfold mono_iteration.
  pose proof (rules_sets f _ (r_update _ _ _ _ HR (store_trial o s))) as C.
  destruct (call_active_set o p f _) as [s1 f1]; cbn [fst] in C.
  apply (r_current_affine _ _ _ _ HR) in C. apply (r_system _ _ _ _ HR) in C. destruct C as [J Q].
  destruct (solve_mono o _) as [s2| |] eqn:E; [|exact I|exact (u_mono _ _ _ _ HR _ J Q E)]. cbn [rbind].
  pose proof (rules_search (mono_line_search p) (search_mono o) (apply_mono o s2)
    (s_mono _ _ _ _ HR) (u_search_mono _ _ _ _ HR)) as X.
  destruct (maybe_search _ _ _); [exact X|exact I|exact X].
Qed.
Lemma rules_micro s : match micro_iteration o p s with
  | Ok r => res r | Throw => True | UB => False end.
Proof.
  unfold micro_iteration.
  destruct (r_system _ _ _ _ HR _ (r_update _ _ _ _ HR (store_trial o s))) as [J Q].
  destruct (solve_micro o _) as [s2| |] eqn:E; [|exact I|exact (u_micro _ _ _ _ HR _ J Q E)]. cbn [rbind].
  exact (rules_search (micro_line_search p) (search_micro o) (apply_micro o s2)
    (s_micro _ _ _ _ HR) (u_search_micro _ _ _ _ HR)).
Qed.
Lemma rules_jac_search x s' : jac x ->
  maybe_search (macro_line_search p) (search_macro o) (assemble_res o (update_internal o x)) = Ok s' -> jac s'.
Proof.
  intros J. apply (k_update _ _ _ _ HR), (k_res _ _ _ _ HR) in J.
  unfold maybe_search. destruct (macro_line_search p); intros E; [exact (k_search _ _ _ _ HR _ _ E J)|].
  injection E as <-. exact J.
Qed.
Lemma rules_macro it s : (it = 1%nat \/ jac s) -> match macro_iteration o p it s with
  | Ok r => res r /\ jac r | Throw => True | UB => False end.
Proof.
  intros Hj. unfold macro_iteration.
  set (x := if Nat.eqb it 1 then _ else _).
  assert (C : current x /\ jac x).
  { unfold x. pose proof (r_update _ _ _ _ HR (store_trial o s)) as C.
    destruct (Nat.eqb_spec it 1) as [->|N].
    - split; [apply (r_current_jac _ _ _ _ HR), C|apply (r_jac _ _ _ _ HR), C].
    - destruct Hj as [->|J]; [congruence|]. split; [exact C|].
      apply (k_update _ _ _ _ HR), (k_store _ _ _ _ HR), J. }
  destruct C as [C J]. clearbody x.
  apply (k_res _ _ _ _ HR) in J. apply (r_res _ _ _ _ HR) in C.
  destruct (solve_macro o _) as [s2| |] eqn:E; [|exact I|exact (u_macro _ _ _ _ HR _ J C E)]. cbn [rbind].
  pose proof (rules_search (macro_line_search p) (search_macro o) (apply_macro o s2)
    (s_macro _ _ _ _ HR) (u_search_macro _ _ _ _ HR)) as X.
  pose proof (rules_jac_search (apply_macro o s2)) as Y.
  destruct (maybe_search _ _ _) as [s3| |]; [|exact I|exact X].
  split; [exact X|]. apply (Y s3); [|reflexivity].
  apply (k_apply _ _ _ _ HR). exact (k_solve _ _ _ _ HR _ _ E J).
Qed.
Lemma rules_embrace it s : current s -> res s -> match embrace_macro o p it s with
  | Ok r => res r | Throw => True | UB => False end.
Proof.
  intros C Q. unfold embrace_macro.
  pose proof (r_jac _ _ _ _ HR _ C) as J. pose proof (k_keep _ _ _ _ HR _ Q) as Q'.
  assert (U : (if Nat.eqb it 1 then solve_macro o (assemble_jac o s) else solve_reduced o (assemble_jac o s)) <> UB).
  { destruct (Nat.eqb it 1); [exact (u_macro _ _ _ _ HR _ J Q')|exact (u_reduced _ _ _ _ HR _ J Q')]. }
  destruct (if Nat.eqb it 1 then _ else _) as [s2| |]; [|exact I|exact (U eq_refl)]. cbn [rbind].
  exact (rules_search (macro_line_search p) (search_macro o) (apply_macro o s2)
    (s_macro _ _ _ _ HR) (u_search_macro _ _ _ _ HR)).
Qed.
Lemma rules_micro_loop loop : forall left it s log,
  match fst (micro_loop o p loop left it s log) with
  | Done r => res r | Undefined => False | _ => True end.
Proof.
  induction left as [|left IH]; intros it s log; cbn [micro_loop]; [exact I|].
  pose proof (rules_micro s) as X. destruct (micro_iteration o p s); [|exact I|destruct X].
  destruct (xltb _ _); [exact X|apply IH].
Qed.
End Rules.

(** No algorithm breaks the calling rules: whatever the parameters, no linear solve runs
    without a jacobian and residual assembled for the current internal variables and no line
    search starts from an outdated residual. *)
Theorem C74_calling_rules_respected : forall current jac res a fuel s0,
  calling_rules o current jac res ->
  solve_nonlinear o p a fuel s0 <> Undefined.
Proof.
  intros current jac res a fuel s0 HR. destruct a; unfold solve_nonlinear.
  - unfold monolithic_algorithm. generalize 0%nat, true, s0, (@nil event).
    induction fuel as [|fuel IH]; intros it flag s log; cbn [mono_loop]; [discriminate|].
    destruct (Nat.leb _ _); [|discriminate].
    pose proof (rules_mono _ _ _ HR flag s) as X.
    destruct (mono_iteration o p flag s) as [[s1 f1]| |]; [|discriminate|destruct X].
    destruct (xltb _ _); [|apply IH]. destruct (rate_independent p) eqn:E; [|discriminate].
    destruct (call_active_set o p true s1) as [s2 f2]. destruct (list_eq_dec _ _ _); [discriminate|apply IH].
  - unfold bouncing_algorithm.
    cut (forall mit ml ul fm s log, mit = 0%nat \/ jac s ->
      fst (bounce o p fuel mit ml ul fm s log) <> Undefined).
    { intros G. apply G. left; reflexivity. }
    induction fuel as [|fuel IH]; intros mit ml ul fm s log H; cbn [bounce]; [discriminate|].
    destruct (if andb _ _ then false else _).
    + destruct fm; [discriminate|]. destruct (call_active_set o p true s) as [s1 f1].
      match goal with |- context [micro_loop o p ?a ?b ?c ?d ?e] =>
        pose proof (rules_micro_loop _ _ _ HR a b c d e) as X;
        destruct (micro_loop o p a b c d e) as [[s4| | |] log'] end; cbn [fst] in X |- *;
        try discriminate; try (exfalso; exact X).
      destruct (Nat.leb _ _); [|discriminate]. apply IH. auto.
    + destruct (Nat.leb _ _); [|discriminate].
      pose proof (rules_macro _ _ _ HR (mit + 1) s ltac:(destruct H as [->|H]; auto)) as X.
      destruct (macro_iteration o p (mit + 1) s) as [s1| |]; [|discriminate|destruct X].
      apply IH. right. apply X.
  - unfold embracing_algorithm. generalize 0%nat, true, false, (distribute_affine o s0), (@nil event).
    induction fuel as [|fuel IH]; intros mit fl fm s log; cbn [embrace]; [discriminate|].
    destruct (_ && fm)%bool; [discriminate|]. destruct (Nat.leb _ _); [|discriminate].
    assert (X : match embrace_macro o p (mit + 1) (reevaluate o s) with
                | Ok r => res r | Throw => True | UB => False end).
    { pose proof (r_update _ _ _ _ HR (store_trial o s)) as C.
      apply (rules_embrace _ _ _ HR); [apply (r_current_res _ _ _ _ HR), C|apply (r_res _ _ _ _ HR), C]. }
    destruct (embrace_macro o p (mit + 1) (reevaluate o s)) as [s1| |]; [|discriminate|destruct X].
    destruct (call_active_set o p fl s1) as [s2 f2].
      match goal with |- context [micro_loop o p ?a ?b ?c ?d ?e] =>
        pose proof (rules_micro_loop _ _ _ HR a b c d e) as Y;
        destruct (micro_loop o p a b c d e) as [[s4| | |] log'] end; cbn [fst] in Y |- *;
        try discriminate; try (exfalso; exact Y).
    apply IH.
Qed.
End Algorithms.

(** An active set that keeps alternating makes the monolithic algorithm run forever: every
    restart resets the iteration counter. *)
Definition alternating : ops (nat * bool) :=
  let id := fun s : nat * bool => s in
  let ok := fun s : nat * bool => Ok s in
  mk_ops _ id id (fun s => (fst s, negb (snd s))) id
    (fun s => if snd s then [1%nat] else []) id id id id
    ok ok ok ok id id id ok ok ok id id (fun _ => (Fin 0, Fin 0)).
Definition sample_parameters : solver_parameters :=
  mk_solver_parameters true 5 1 false 5 1 false 5 1 false 3 false.

Theorem C46_restarts_are_unbounded_refuted :
  exists (o : ops (nat * bool)) p s0, forall fuel,
    fst (monolithic_algorithm o p fuel s0) = Running.
Proof.
  exists alternating, sample_parameters, (0%nat, true).
  assert (N : forall s, xltb (norm_total alternating s) (Fin 1) = true).
  { intros s. unfold norm_total, norm_macro, norm_micro; simpl.
    assert (X : Rltb 0 0 = false) by (apply Rltb_false; lra). rewrite X, sqrt_0. simpl.
    assert (Y : 0 * 0 + 0 * 0 = 0) by ring. rewrite Y, X, sqrt_0. apply Rltb_true. lra. }
  assert (G : forall fuel flag s log,
    fst (mono_loop alternating sample_parameters fuel 0 flag s log) = Running).
  { induction fuel as [|fuel IH]; intros flag s log; [reflexivity|].
    cbn [mono_loop]. simpl Nat.leb.
    assert (exists s1 f1, mono_iteration alternating sample_parameters flag s = Ok (s1, f1)) as (s1 & f1 & E).
    { unfold mono_iteration, call_active_set; simpl. destruct flag; simpl; eauto. }
    rewrite E. change (mono_tol sample_parameters) with 1. rewrite N.
    change (rate_independent sample_parameters) with true. cbv iota.
    unfold call_active_set. change (rate_independent sample_parameters) with true. cbv iota.
    destruct (list_eq_dec _ _ _) as [Eq|Ne]; [|apply IH].
    exfalso. destruct s1 as [n [|]]; simpl in Eq; discriminate. }
  intros fuel. apply G.
Qed.

(** The hypotheses are met: a problem whose residual falls below the tolerance. *)
Definition converging : ops nat :=
  let id := fun s : nat => s in let ok := fun s : nat => Ok s in
  let next := fun s : nat => Ok (S s) in
  mk_ops _ id id id id (fun _ => []) id id id id next next next next id id id ok ok ok id id
    (fun s => (Fin (/ (INR s + 1)), Fin 0)).
Lemma converging_norms :
  (forall s, (0 < s)%nat -> xltb (norm_macro converging s) (Fin 1) = true) /\
  (forall s, xltb (norm_micro converging s) (Fin 1) = true) /\
  (forall s, (0 < s)%nat -> xltb (norm_total converging s) (Fin 1) = true).
Proof.
  assert (P : forall x, 0 < x -> x < 1 -> Rltb (sqrt x) 1 = true).
  { intros x H0 H1. apply Rltb_true. rewrite <- sqrt_1. apply sqrt_lt_1; lra. }
  assert (I : forall s, (0 < s)%nat -> 0 < / (INR s + 1) < 1).
  { intros s H. apply lt_INR in H. simpl in H. split; [apply Rinv_0_lt_compat; lra|].
    rewrite <- Rinv_1. apply Rinv_lt_contravar; lra. }
  assert (Y : Rltb 0 0 = false) by (apply Rltb_false; lra).
  split; [|split].
  - intros s H. unfold norm_macro; simpl. destruct (I s H).
    assert (X : Rltb (/ (INR s + 1)) 0 = false) by (apply Rltb_false; lra). rewrite X. simpl.
    apply P; lra.
  - intros s. unfold norm_micro; simpl. rewrite Y, sqrt_0. simpl. apply Rltb_true; lra.
  - intros s H. unfold norm_total, norm_macro, norm_micro; simpl. destruct (I s H).
    assert (X : Rltb (/ (INR s + 1)) 0 = false) by (apply Rltb_false; lra).
    rewrite X, Y, sqrt_0. simpl. rewrite sqrt_sqrt by lra.
    assert (Z : Rltb (/ (INR s + 1) + 0 * 0) 0 = false) by (apply Rltb_false; lra).
    rewrite Z. simpl. apply P; lra.
Qed.

Example C46_C47_C48_example :
  fst (monolithic_algorithm converging sample_parameters 20 0%nat) = Done 1%nat /\
  fst (bouncing_algorithm converging sample_parameters 40 0%nat) = Done 2%nat /\
  fst (embracing_algorithm converging sample_parameters 20 0%nat) = Done 2%nat /\
  active_set_only_changed_by_recompute converging /\ searches_evaluate converging.
Proof.
  destruct converging_norms as (A & B & C).
  split; [|split; [|split; [|split]]].
  - unfold monolithic_algorithm. cbn -[norm_total xltb].
    rewrite C by lia. reflexivity.
  - unfold bouncing_algorithm. cbn -[norm_macro norm_micro xltb].
    rewrite !A, !B by lia. cbn -[norm_macro norm_micro xltb].
    rewrite !A by lia. reflexivity.
  - unfold embracing_algorithm. cbn -[norm_macro norm_micro xltb].
    rewrite !Bool.andb_false_r. cbn -[norm_macro norm_micro xltb].
    rewrite !B by lia. cbn -[norm_macro norm_micro xltb].
    rewrite !A by lia. reflexivity.
  - unfold active_set_only_changed_by_recompute; simpl. repeat split; intros; congruence.
  - unfold searches_evaluate, evaluated; simpl. repeat split; intros; eauto.
Qed.

(** The calling rules can be met and broken: a ledger that records whether the internal
    variables are current, whether there is a jacobian and whether the residual is up to date,
    and whose solvers misbehave on anything else. *)
Definition ledger : ops (bool * bool * bool) :=
  let id := fun s : bool * bool * bool => s in
  let solve := fun s : bool * bool * bool => let '(c, j, r) := s in
    if andb j r then Ok s else UB in
  let search := fun s : bool * bool * bool => let '(c, j, r) := s in if r then Ok s else UB in
  let changed := fun s : bool * bool * bool => let '(c, j, r) := s in (false, j, false) in
  mk_ops _ id (fun s => let '(c, j, r) := s in (true, j, r)) id id (fun _ => []) id
    (fun s => let '(c, j, r) := s in (c, orb c j, orb c r))
    (fun s => let '(c, j, r) := s in (c, orb c j, r))
    (fun s => let '(c, j, r) := s in (c, j, orb c r))
    solve solve solve solve changed changed changed search search search changed changed
    (fun _ => (Fin 0, Fin 0)).
Example C74_example :
  calling_rules ledger (fun s => fst (fst s) = true) (fun s => snd (fst s) = true)
    (fun s => snd s = true) /\
  solve_nonlinear ledger sample_parameters Bouncing 50 (false, false, false) = Done (true, true, true) /\
  solve_macro ledger (assemble_res ledger (false, true, false)) = UB.
Proof.
  split; [|split].
  - split; repeat (match goal with
      | |- forall s : bool * bool * bool, _ => intros [[[] []] []]
      end; simpl); intros; try discriminate; auto.
  - unfold solve_nonlinear, bouncing_algorithm.
    assert (N : forall s, xltb (norm_macro ledger s) (Fin 1) = true /\ xltb (norm_micro ledger s) (Fin 1) = true).
    { intros s. unfold norm_macro, norm_micro; simpl.
      assert (X : Rltb 0 0 = false) by (apply Rltb_false; lra). rewrite X, sqrt_0.
      split; apply Rltb_true; lra. }
    cbn -[norm_macro norm_micro xltb]. rewrite !(proj1 (N _)). cbn -[norm_macro norm_micro xltb].
    rewrite !(proj2 (N _)). cbn -[norm_macro norm_micro xltb]. rewrite !(proj1 (N _)). reflexivity.
  - reflexivity.
Qed.

(** ** Extrapolation *)
Theorem C49_extrapolation_formula : forall n factor dt dt0 hanging newton old old_old d,
  hanging d = None ->
  fst (extrapolate n factor dt dt0 false hanging newton old old_old) d =
  old d + (if Nat.ltb 0 n then factor * dt / dt0 else 1) * (old d - old_old d).
Proof.
  intros n factor dt dt0 hanging newton old old_old d H. unfold extrapolate, distribute; simpl.
  rewrite H. unfold sadd, step_size_ratio. ring.
Qed.

Lemma fold_left_ext_in : forall (es : list (nat * R)) (x y : vec) b,
  (forall e, In e es -> x (fst e) = y (fst e)) ->
  fold_left (fun acc e => acc + snd e * x (fst e)) es b =
  fold_left (fun acc e => acc + snd e * y (fst e)) es b.
Proof.
  induction es as [|e es IH]; intros x y b H; [reflexivity|]. simpl.
  rewrite (H e) by (left; reflexivity). apply IH. intros e' He. apply H. right; exact He.
Qed.
Lemma distribute_satisfied c x y : (forall d, x d = y d) -> satisfies c y ->
  forall d, distribute c x d = y d.
Proof.
  intros E H d. unfold distribute. destruct (c d) as [[es b]|] eqn:C; [|apply E].
  rewrite (H d es b C). apply fold_left_ext_in. intros; apply E.
Qed.

(** From the second step on, with extrapolation factor one, the start value of the Newton
    iteration is exact for solutions that are linear in time, for any two step sizes. *)
Theorem C49_exact_for_linear_fields :
  forall n dt dt0 hanging newton (u : R -> vec) t,
  (0 < n)%nat -> dt0 <> 0 -> linear_in_time u -> satisfies hanging (u (t + dt)) ->
  forall d,
  fst (extrapolate n 1 dt dt0 false hanging newton (u t) (u (t - dt0))) d = u (t + dt) d.
Proof.
  intros n dt dt0 hanging newton u t Hn H0 (a & b & HU) HS.
  unfold extrapolate; cbn [fst]. apply distribute_satisfied; [|exact HS].
  intros d. unfold sadd, step_size_ratio. destruct (Nat.ltb_spec 0 n) as [_|]; [|lia].
  rewrite !HU. field. exact H0.
Qed.

(** Nothing is extrapolated when it is to be skipped or when nothing has changed. *)
Theorem C49_nothing_beyond_the_data :
  forall n factor dt dt0 skip hanging newton old old_old d,
  skip = true \/ (forall d, old d = old_old d) -> satisfies hanging old ->
  fst (extrapolate n factor dt dt0 skip hanging newton old old_old) d = old d.
Proof.
  intros n factor dt dt0 skip hanging newton old old_old d H HS. unfold extrapolate; cbn [fst].
  apply distribute_satisfied; [|exact HS]. intros x. destruct skip; [reflexivity|].
  destruct H as [H|H]; [discriminate|]. unfold sadd. rewrite <- (H x). ring.
Qed.

(** The initial Newton update is the extrapolation increment; when extrapolation is skipped
    it is the whole previous solution although nothing has been added to it. *)
Theorem C49_initial_update : forall n factor dt dt0 skip hanging newton old old_old d,
  newton d = None ->
  snd (extrapolate n factor dt dt0 skip hanging newton old old_old) d =
  if skip then old d
  else (if Nat.ltb 0 n then factor * dt / dt0 else 1) * (old d - old_old d).
Proof.
  intros n factor dt dt0 skip hanging newton old old_old d H. unfold extrapolate, distribute; cbn [snd].
  rewrite H. destruct skip; [reflexivity|]. unfold sadd, step_size_ratio. ring.
Qed.

Theorem C49_skipped_update_is_zero_refuted :
  exists n factor dt dt0 hanging newton old old_old d,
    newton d = None /\ hanging d = None /\
    fst (extrapolate n factor dt dt0 true hanging newton old old_old) d = old d /\
    snd (extrapolate n factor dt dt0 true hanging newton old old_old) d <> 0.
Proof.
  exists 3%nat, 1, 1, 1, (fun _ => None), (fun _ => None), (fun _ => 1), (fun _ => 0), 0%nat.
  unfold extrapolate, distribute; simpl. repeat split. lra.
Qed.

(** Two steps of sizes 1/2 and 2 of the field 1 + 3 t with dof 1 tied to dof 0. *)
Example C49_example :
  let u : R -> vec := fun t d => if Nat.ltb d 2 then 1 + 3 * t else 0 in
  let tied : constraints := fun d => if Nat.eqb d 1 then Some ([(0%nat, 1)], 0) else None in
  linear_in_time u /\ satisfies tied (u (2 + 2)) /\
  fst (extrapolate 3 1 2 (1 / 2) false tied tied (u 2) (u (2 - 1 / 2))) 1%nat = 13.
Proof.
  intros u tied.
  assert (L : linear_in_time u).
  { exists (fun d => if Nat.ltb d 2 then 1 else 0), (fun d => if Nat.ltb d 2 then 3 else 0).
    intros t d. unfold u. destruct (Nat.ltb d 2); ring. }
  assert (T : satisfies tied (u (2 + 2))).
  { intros d es b. unfold tied. destruct (Nat.eqb_spec d 1) as [->|]; [|discriminate].
    intros E. injection E as <- <-. unfold u; simpl. ring. }
  split; [exact L|]. split; [exact T|].
  rewrite (C49_exact_for_linear_fields 3 2 (1 / 2) tied tied u 2); try assumption; try lia; try lra.
  unfold u; simpl. ring.
Qed.
