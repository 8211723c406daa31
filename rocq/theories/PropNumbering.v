(** * C114: the numbering of the dofs does not matter. *)
From Coq Require Import ZArith Lra Lia FunctionalExtensionality.
From Verif Require Import Num Tensors SumLemmas ModelElastic ModelMicro ModelCohesive ModelHistory ModelFEField ModelLineSearch ModelActiveSet SpecActiveSet ModelSolver ModelLoading ModelShear SpecShear ModelProgram SpecProgram
  ModelLinear SpecLinear ModelAssembly ModelInterface ModelSweep ModelStep ModelBody SpecBody ModelTangent SpecMirror ProofSimulation SpecNumbering ProofNumbering.
Open Scope R_scope.

Section Vectors.
Variables (to of : nat -> nat).
Hypothesis of_to : forall d, of (to d) = d.
Hypothesis to_of : forall d, to (of d) = d.
Local Notation rv := (renumber of). Local Notation rk := (renumber_lines to of).

Lemma fold_entries_numbered x es : forall z, fold_left (fun acc e => acc + snd e * rv x (fst e)) (map (fun e => (to (fst e), snd e)) es) z = fold_left (fun acc e => acc + snd e * x (fst e)) es z.
Proof. induction es as [|e es IH]; intros z; cbn [fold_left map]; [reflexivity|]. rewrite IH. unfold renumber. cbn [fst snd]. rewrite of_to. reflexivity. Qed.
Lemma distribute_numbered k x : ModelActiveSet.distribute (rk k) (rv x) = rv (ModelActiveSet.distribute k x).
Proof.
  apply functional_extensionality. intros d. unfold ModelActiveSet.distribute, renumber_lines. change (rv (fun d0 => match k d0 with Some (es, b) => fold_left (fun acc e => acc + snd e * x (fst e)) es b | None => x d0 end) d)
    with (match k (of d) with Some (es, b) => fold_left (fun acc e => acc + snd e * x (fst e)) es b | None => x (of d) end).
  destruct (k (of d)) as [[es z]|]; cbn [option_map renumber_line fst snd]; [apply fold_entries_numbered|reflexivity].
Qed.
Lemma merge_numbered k k' : merge (rk k) (rk k') = rk (merge k k').
Proof. apply functional_extensionality. intros d. unfold merge, renumber_lines. destruct (k' (of d)) as [[es z]|]; reflexivity. Qed.
Lemma fresh_numbered k : merge no_constraints (rk k) = rk (merge no_constraints k).
Proof. rewrite <- merge_numbered. reflexivity. Qed.
Lemma is_constrained_numbered k d : is_constrained (rk k) (to d) = is_constrained k d.
Proof. unfold is_constrained, renumber_lines. rewrite of_to. destruct (k d); reflexivity. Qed.
Lemma identity_numbered k d : is_identity_constrained (rk k) (to d) = is_identity_constrained k d.
Proof. unfold is_identity_constrained, renumber_lines. rewrite of_to. destruct (k d) as [[es z]|]; [|reflexivity]. destruct es as [|[m w] [|]]; reflexivity. Qed.

(** ** Sets *)
Lemma mem_In d l : mem d l = true <-> In d l.
Proof. unfold mem. rewrite existsb_exists. split; [intros (x & A & B); apply Nat.eqb_eq in B; subst; exact A|intros A; exists d; split; [exact A|apply Nat.eqb_refl]]. Qed.
Lemma mem_numbered l l' d : renumbered_set to l l' -> mem (to d) l' = mem d l.
Proof. intros A. apply Bool.eq_true_iff_eq. rewrite !mem_In. symmetry. apply A. Qed.
Lemma mem_of l l' d : renumbered_set to l l' -> mem d l' = mem (of d) l.
Proof. intros A. rewrite <- (mem_numbered l l' (of d) A), to_of. reflexivity. Qed.
Lemma filter_numbered (f f' : nat -> bool) l l' : renumbered_set to l l' -> (forall d, f' (to d) = f d) -> renumbered_set to (filter f l) (filter f' l').
Proof. intros A B d. rewrite !filter_In, B, (A d). reflexivity. Qed.
Definition ordered (owned l : list nat) : Prop := l = filter (fun d => mem d l) owned.
Lemma ordered_filter (f : nat -> bool) owned : ordered owned (filter f owned).
Proof.
  unfold ordered. apply filter_ext_in. intros d D. apply Bool.eq_true_iff_eq. rewrite mem_In, filter_In. tauto.
Qed.
Lemma ordered_eq owned l m : ordered owned l -> ordered owned m -> (l = m <-> forall d, In d l <-> In d m).
Proof.
  intros A B. split; [intros ->; reflexivity|]. intros E. rewrite A, B. apply filter_ext. intros d. apply Bool.eq_true_iff_eq. rewrite !mem_In. apply E.
Qed.
Lemma same_sets owned owned' l m l' m' : ordered owned l -> ordered owned m -> ordered owned' l' -> ordered owned' m' ->
  renumbered_set to l l' -> renumbered_set to m m' -> (l = m <-> l' = m').
Proof.
  intros A B A' B' C D. rewrite (ordered_eq owned l m A B), (ordered_eq owned' l' m' A' B'). split; intros E d.
  - rewrite <- (to_of d), <- (C (of d)), <- (D (of d)). apply E.
  - rewrite (C d), (D d). apply E.
Qed.

(** ** Active sets: without copies, the order in which the dofs are visited does not matter. *)
Section Loop.
Variables (affine : constraints) (trial ys : nat -> R) (hanging : constraints).
Definition yields (d : nat) : bool := (Rltb (ys d) (Rabs (trial d)) && negb (is_constrained affine d))%bool.
Definition fixed_line (ina : constraints) (d : nat) : option line := match ina d with Some l => Some l | None => Some zero_line end.
Lemma loop_result dofs : (forall d m, In d dofs -> ~ slave_of affine d m) ->
  forall act ina, (forall d, In d act -> yields d = true) ->
  fst (fold_left (active_step affine trial ys) dofs (act, ina)) = act ++ filter yields dofs /\
  forall k, snd (fold_left (active_step affine trial ys) dofs (act, ina)) k = if (mem k dofs && negb (yields k))%bool then fixed_line ina k else ina k.
Proof.
  induction dofs as [|d dofs IH]; intros N act ina Y; cbn [fold_left filter].
  - cbn. rewrite app_nil_r. split; reflexivity.
  - assert (Z : is_identity_constrained affine d = false).
    { unfold is_identity_constrained. destruct (affine d) as [[[|[m w] [|]] b]|] eqn:E; try reflexivity. apply Reqb_false. intros W. subst w. destruct (N d m (or_introl eq_refl)). exists b. exact E. }
    assert (M : yields d = false -> mem d act = false).
    { intros E. apply Bool.not_true_iff_false. rewrite mem_In. intros A. apply Y in A. congruence. }
    assert (S1 : active_step affine trial ys (act, ina) d = (if yields d then act ++ [d] else act, if yields d then ina else add_line ina d)).
    { assert (F : active_step affine trial ys (act, ina) d = (let act1 := if yields d then act ++ [d] else act in (act1, if negb (mem d act1) then add_line ina d else ina))).
      { unfold active_step. rewrite Z. unfold yields. destruct (Rltb (ys d) (Rabs (trial d))), (is_constrained affine d); reflexivity. }
      rewrite F. cbv zeta. destruct (yields d) eqn:E.
      - replace (mem d (act ++ [d])) with true; [reflexivity|]. symmetry. apply mem_In, in_or_app. right. left. reflexivity.
      - rewrite (M eq_refl). reflexivity. }
    rewrite S1. assert (N' : forall d' m, In d' dofs -> ~ slave_of affine d' m) by (intros d' m A; apply N; right; exact A).
    destruct (yields d) eqn:E.
    + destruct (IH N' (act ++ [d]) ina) as (P & Q). { intros d' A. apply in_app_or in A. destruct A as [A|[<-|[]]]; [apply Y; exact A|exact E]. }
      rewrite P. split; [rewrite <- app_assoc; reflexivity|]. intros k. rewrite Q. unfold mem at 2. cbn [existsb]. fold (mem k dofs).
      destruct (Nat.eqb_spec k d) as [K|K]; [|reflexivity]. subst k. rewrite E. cbn. rewrite Bool.andb_false_r. reflexivity.
    + destruct (IH N' act (add_line ina d) Y) as (P & Q). rewrite P. split; [reflexivity|]. intros k. rewrite Q. unfold mem at 2. cbn [existsb]. fold (mem k dofs).
      unfold add_line, fixed_line. destruct (Nat.eqb_spec k d) as [K|K]; [|reflexivity]. subst k. rewrite E. cbn. destruct (mem d dofs); cbn; destruct (ina d); reflexivity.
Qed.
End Loop.
Lemma sets_numbered p p' trial s s' : (forall d m, In d (p_owned_slip p) -> ~ slave_of (p_affine p) d m) ->
  p_n_slips p' = p_n_slips p -> p_rate_independent p = true -> p_rate_independent p' = true -> p_hardening p' = p_hardening p -> p_char_resistance p' = p_char_resistance p ->
  renumbered_set to (p_owned p) (p_owned p') -> renumbered_set to (p_owned_slip p) (p_owned_slip p') -> p_affine p' = rk (p_affine p) -> p_newton p' = rk (p_newton p) ->
  p_hanging p' = rk (p_hanging p) -> p_old_solution p' = rv (p_old_solution p) -> p_slip_resistance p' = rv (p_slip_resistance p) ->
  renumbered_set to (active_set s) (active_set s') -> ordered (p_owned_slip p) (active_set s) -> ordered (p_owned_slip p') (active_set s') -> trial_solution s' = rv (trial_solution s) ->
  let r := fst (active_set_algorithm p trial true s) in let r' := fst (active_set_algorithm p' (rv trial) true s') in
  renumbered_set to (active_set r) (active_set r') /\ ordered (p_owned_slip p) (active_set r) /\ ordered (p_owned_slip p') (active_set r') /\
  renumbered_set to (inactive_set r) (inactive_set r') /\ internal_constraints r' = rk (internal_constraints r) /\ trial_solution r' = rv (trial_solution r).
Proof.
  intros NC E1 E2 E2' E3 E4 E5 E6 E7 E8 E9 E10 E11 A O O' T. cbv zeta. unfold active_set_algorithm. rewrite E2, E2'. cbn [fst].
  set (q := determine_active_set p trial (reset_internal p s)). set (q' := determine_active_set p' (rv trial) (reset_internal p' s')).
  assert (G : renumbered_set to (active_set q) (active_set q') /\ ordered (p_owned_slip p) (active_set q) /\ ordered (p_owned_slip p') (active_set q') /\
    internal_constraints q' = rk (internal_constraints q) /\ trial_solution q' = rv (trial_solution q)).
  { unfold q, q', determine_active_set. rewrite E1. destruct (Nat.eqb (p_n_slips p) 0).
    - unfold reset_internal. cbn [active_set internal_constraints trial_solution]. split; [exact A|]. split; [exact O|]. split; [exact O'|]. split; [|exact T].
      rewrite E8. apply fresh_numbered.
    - set (ys := yield_stress (p_hardening p) (p_char_resistance p) (p_slip_resistance p)).
      set (ys' := yield_stress (p_hardening p') (p_char_resistance p') (p_slip_resistance p')).
      assert (Y : forall d, ys' (to d) = ys d).
      { intros d. unfold ys, ys', yield_stress. rewrite E3, E4, E11. unfold renumber. rewrite of_to. reflexivity. }
      assert (F : forall d, yields (p_affine p') (rv trial) ys' (to d) = yields (p_affine p) trial ys d).
      { intros d. unfold yields. rewrite Y, E7, is_constrained_numbered. unfold renumber. rewrite of_to. reflexivity. }
      assert (NC' : forall d m, In d (p_owned_slip p') -> ~ slave_of (p_affine p') d m).
      { intros d m D (z & Z). rewrite E7 in Z. unfold renumber_lines in Z. destruct (p_affine p (of d)) as [[es w]|] eqn:K; cbn in Z; [|discriminate].
        injection Z as Z1 Z2. destruct es as [|[m0 w0] [|]]; try discriminate. cbn in Z1. injection Z1 as Z1 Z3. apply (NC (of d) m0); [apply E6; rewrite to_of; exact D|]. exists w. rewrite K, Z3. reflexivity. }
      destruct (loop_result (p_affine p) trial ys (p_owned_slip p) NC [] (merge no_constraints (p_hanging p)) (fun d D => match D with end)) as (P & Q).
      destruct (loop_result (p_affine p') (rv trial) ys' (p_owned_slip p') NC' [] (merge no_constraints (p_hanging p')) (fun d D => match D with end)) as (P' & Q').
      unfold active_loop. destruct (fold_left (active_step (p_affine p) trial ys) _ _) as [act ina]. destruct (fold_left (active_step (p_affine p') (rv trial) ys') _ _) as [act' ina'].
      cbn [fst snd app] in P, Q, P', Q'. unfold reset_internal. cbn [active_set internal_constraints trial_solution]. subst act act'.
      split; [apply filter_numbered; assumption|]. split; [apply ordered_filter|]. split; [apply ordered_filter|]. split; [|exact T].
      rewrite E8, fresh_numbered.
      replace ina' with (rk ina); [apply merge_numbered|]. apply functional_extensionality. intros k. rewrite Q'. unfold renumber_lines at 1. rewrite Q.
      rewrite (mem_of _ _ k E6). rewrite <- (F (of k)), to_of, E9, fresh_numbered.
      unfold fixed_line, renumber_lines. destruct (_ && _)%bool; [|reflexivity]. destruct (merge no_constraints (p_hanging p) (of k)); reflexivity. }
  destruct G as (G1 & G2 & G3 & G4 & G5). unfold reset_inactive_set_values, determine_inactive_set. cbn [active_set inactive_set internal_constraints trial_solution].
  match goal with |- context [filter ?f (p_owned p)] => set (f1 := f) end. match goal with |- context [filter ?f (p_owned p')] => set (f2 := f) end.
  assert (FN : renumbered_set to (filter f1 (p_owned p)) (filter f2 (p_owned p'))).
  { apply filter_numbered; [exact E5|]. intros d. unfold f1, f2. rewrite E7, (mem_numbered _ _ d E6), (mem_numbered _ _ d G1), identity_numbered, is_constrained_numbered. reflexivity. }
  split; [exact G1|]. split; [exact G2|]. split; [exact G3|]. split; [exact FN|]. split; [exact G4|].
  rewrite E7, <- distribute_numbered. f_equal. apply functional_extensionality. intros d. rewrite (mem_of _ _ d FN), E10, G5. unfold renumber. destruct (mem _ _); reflexivity.
Qed.

(** ** Trial solutions *)
Definition numbered_mesh (m : mesh) : mesh := mk_mesh (fun d => block_of m (of d)) (rk (constraint m)).
Lemma combine_numbered x l : ModelLineSearch.combine (rv x) (map (fun e => (to (fst e), snd e)) l) = ModelLineSearch.combine x l.
Proof. unfold ModelLineSearch.combine. induction l as [|e l IH]; cbn [map fold_right fst snd]; [reflexivity|]. rewrite IH. unfold renumber. rewrite of_to. reflexivity. Qed.
Lemma distribute_mesh_numbered m x : ModelLineSearch.distribute (numbered_mesh m) (rv x) = rv (ModelLineSearch.distribute m x).
Proof.
  apply functional_extensionality. intros d. unfold renumber at 2. unfold ModelLineSearch.distribute, numbered_mesh, renumber_lines. cbn [constraint].
  destruct (constraint m (of d)) as [[es z]|]; cbn [option_map renumber_line fst snd]; [rewrite combine_numbered|]; reflexivity.
Qed.
Lemma set_block_numbered m b x y : set_block (numbered_mesh m) b (rv x) (rv y) = rv (set_block m b x y).
Proof. reflexivity. Qed.
Lemma update_trial_numbered m x u l b : update_trial (numbered_mesh m) (rv x) (rv u) l b = rv (update_trial m x u l b).
Proof. unfold update_trial. cbv zeta. rewrite <- set_block_numbered, <- distribute_mesh_numbered. reflexivity. Qed.
Lemma reset_trial_numbered m x y b : reset_trial (numbered_mesh m) (rv x) (rv y) b = rv (reset_trial m x y b).
Proof. unfold reset_trial. rewrite distribute_mesh_numbered. apply set_block_numbered. Qed.
Lemma extrapolate_numbered k f n pr sk hg nw old oo :
  extrapolate k f n pr sk (rk hg) (rk nw) (rv old) (rv oo) = (rv (fst (extrapolate k f n pr sk hg nw old oo)), rv (snd (extrapolate k f n pr sk hg nw old oo))).
Proof.
  unfold extrapolate. cbn [fst snd]. set (r := step_size_ratio k f n pr).
  assert (A : forall u v x y, sadd (rv x) u v (rv y) = rv (sadd x u v y)) by reflexivity.
  destruct sk; rewrite ?A, !distribute_numbered; reflexivity.
Qed.
End Vectors.

(** ** The time step *)
Section Step.
Context {H : Type} (to of : nat -> nat) (e e' : env H).
Hypothesis of_to : forall d, of (to d) = d.
Hypothesis to_of : forall d, to (of d) = d.
Local Notation rv := (renumber of). Local Notation rk := (renumber_lines to of).
Hypothesis RD : renumbered_dofs to of e e'.
Hypothesis NP : no_preferred_numbering to of e e'.
Hypothesis Hstore : forall h, e_store e' h = e_store e h.
Hypothesis Hupdate : forall old x h, e_update e' (rv old) (rv x) h = e_update e old x h.
Hypothesis Hfinish : forall x h, e_finish e' (rv x) h = e_finish e x h.
Hypothesis Hnorms : forall old x h k, e_norms e' (rv old) (rv x) h (rk k) = e_norms e old x h k.

Definition Related (s s' : sstate H) : Prop := renumbered_state to of s s' /\ in_order (slips e) s /\ in_order (slips e') s'.
Definition related_result (r r' : result (sstate H)) : Prop := rel_result Related r r'.
Ltac open A := let Q := fresh "Q" in destruct A as (Q & ? & ?); destruct Q as (? & ? & ? & ? & ? & ? & ? & ? & ? & ? & ? & ?).
Ltac members := cbn [st_active st_inactive st_internal st_trial st_tmp st_initial st_newton st_old st_hist st_res st_res_tmp st_norms].
Ltac close := split; [unfold renumbered_state; members; repeat (match goal with |- _ /\ _ => split end); try assumption; try reflexivity|unfold in_order in *; members; split; assumption].

Lemma layout_numbered : layout e' = numbered_mesh to of (layout e).
Proof.
  destruct RD as (_ & _ & _ & _ & _ & A & B & _). unfold layout, numbered_mesh. cbn [block_of constraint]. rewrite B. f_equal. apply functional_extensionality. exact A.
Qed.
Lemma n_store s s' : Related s s' -> Related (op_store s) (op_store s').
Proof. intros A. open A. unfold op_store. close. Qed.
Lemma n_update s s' : Related s s' -> Related (op_update e s) (op_update e' s').
Proof.
  intros A. open A. unfold op_update. close.
  - congruence || (match goal with [A1 : st_old s' = _, A2 : st_trial s' = _, A3 : st_hist s' = _ |- _] => rewrite A1, A2, A3 end; apply Hupdate).
  - match goal with [A1 : st_old s' = _, A2 : st_trial s' = _, A3 : st_res_tmp s' = _ |- _] => rewrite A1, A2, A3 end. apply NP. assumption.
Qed.
Lemma n_sets s s' : no_copies e -> Related s s' -> Related (op_sets e s) (op_sets e' s').
Proof.
  intros NC A. pose proof A as A0. destruct RD as (B1 & B2 & B3 & B4 & B5 & B6 & B7 & B8 & B9). destruct A as (Q & O & O'). destruct NP as (_ & N). destruct (N s s' Q) as (N1 & _).
  destruct Q as (Q1 & Q2 & Q3 & Q4 & Q5 & Q6 & Q7 & Q8 & Q9 & Q10 & Q11 & Q12).
  pose proof (sets_numbered to of of_to to_of (current_problem e s) (current_problem e' s') (e_microstress e s) (mk_state (st_active s) (st_inactive s) (st_internal s) (st_trial s))
    (mk_state (st_active s') (st_inactive s') (st_internal s') (st_trial s')) NC B1 eq_refl eq_refl B2 B3 B4 B5 B7 B8 B9 Q8 Q10 Q1 O O' Q4) as P.
  cbv zeta in P. unfold op_sets. rewrite N1. destruct P as (P1 & P2 & P3 & P4 & P5 & P6).
  split; [unfold renumbered_state; members; repeat (match goal with |- _ /\ _ => split end); assumption|]. unfold in_order. members. split; assumption.
Qed.
Lemma n_active s s' : Related s s' -> Related (all_active (step_ops e) s) (all_active (step_ops e') s').
Proof.
  intros A. open A. destruct RD as (_ & _ & _ & _ & B & _). cbn [step_ops all_active].
  split; [unfold renumbered_state; members; repeat (match goal with |- _ /\ _ => split end); assumption|]. unfold in_order. members.
  assert (G : forall l : list nat, l = filter (fun d => mem d l) l).
  { intros l. assert (Z : forall m : list nat, (forall d, In d m -> In d l) -> m = filter (fun d => mem d l) m).
    { induction m as [|d m IH]; intros K; cbn [filter]; [reflexivity|]. replace (mem d l) with true by (symmetry; apply mem_In; apply K; left; reflexivity). f_equal. apply IH. intros x X. apply K. right. exact X. }
    apply Z. auto. }
  split; apply G.
Qed.
Lemma n_affine s s' : Related s s' -> Related (op_affine e s) (op_affine e' s').
Proof.
  intros A. open A. destruct RD as (_ & _ & _ & _ & _ & _ & B & _). unfold op_affine, set_trial. close.
  rewrite B. match goal with [A2 : st_trial s' = _ |- _] => rewrite A2 end. apply distribute_numbered; exact of_to.
Qed.
Lemma n_residual s s' : Related s s' -> Related (op_residual e s) (op_residual e' s').
Proof.
  intros A. open A. unfold op_residual, set_norms. close.
  match goal with [A1 : st_old s' = _, A2 : st_trial s' = _, A3 : st_hist s' = _, A4 : st_internal s' = _ |- _] => rewrite A1, A2, A3, A4 end. apply Hnorms.
Qed.
Lemma n_apply l b s s' : Related s s' -> Related (op_apply e l b s) (op_apply e' l b s').
Proof.
  intros A. open A. unfold op_apply, set_trial. close. rewrite layout_numbered. match goal with [A1 : st_newton s' = _, A2 : st_trial s' = _ |- _] => rewrite A1, A2 end. apply update_trial_numbered; exact of_to.
Qed.
Lemma n_reset b s s' : Related s s' -> Related (op_reset e b s) (op_reset e' b s').
Proof.
  intros A. open A. unfold op_reset, set_trial. close. rewrite layout_numbered. match goal with [A1 : st_initial s' = _, A2 : st_trial s' = _ |- _] => rewrite A1, A2 end. apply reset_trial_numbered; exact of_to.
Qed.
Lemma n_back s s' : Related s s' -> Related (set_trial s (reset_trial (layout e) (st_trial s) (st_tmp s) Macro)) (set_trial s' (reset_trial (layout e') (st_trial s') (st_tmp s') Macro)).
Proof.
  intros A. open A. unfold set_trial. close. rewrite layout_numbered. match goal with [A1 : st_tmp s' = _, A2 : st_trial s' = _ |- _] => rewrite A1, A2 end. apply reset_trial_numbered; exact of_to.
Qed.
Lemma n_pass b s s' l : Related s s' -> Related (op_search_pass e b s l) (op_search_pass e' b s' l).
Proof. intros A. unfold op_search_pass. apply n_residual, n_update, n_apply, n_back. exact A. Qed.
Lemma n_search (f f' : sstate H -> list R) b s s' : Related s s' -> f' s' = f s -> rel_result Related (op_search e f b s) (op_search e' f' b s').
Proof.
  intros A E. unfold op_search. cbn [rel_result]. rewrite E. generalize (f s). intros l. clear E. revert s s' A.
  induction l as [|x l IH]; intros s s' A; cbn [fold_left]; [exact A|]. apply IH. apply n_pass. exact A.
Qed.
Lemma n_block (f f' : sstate H -> result vec) b s s' : Related s s' -> f' s' = renumber_result of (f s) -> rel_result Related (op_solve_block e f b s) (op_solve_block e' f' b s').
Proof.
  intros A E. unfold op_solve_block. rewrite E. destruct (f s) as [x| |]; cbn [renumber_result rbind rel_result]; auto. open A. unfold set_newton. close.
  rewrite layout_numbered. match goal with [A1 : st_internal s' = _ |- _] => rewrite A1 end. rewrite distribute_numbered by exact of_to. reflexivity.
Qed.
Lemma n_mono s s' : Related s s' -> rel_result Related (op_solve_mono e s) (op_solve_mono e' s').
Proof.
  intros A. destruct NP as (_ & N). destruct (N s s' (proj1 A)) as (_ & N2 & _). unfold op_solve_mono. rewrite N2.
  destruct (e_solve_mono e s) as [x| |]; cbn [renumber_result rbind rel_result]; auto. open A. unfold set_newton. close.
  rewrite layout_numbered. match goal with [A1 : st_internal s' = _, A2 : st_newton s' = _ |- _] => rewrite A1, A2 end. rewrite distribute_numbered by exact of_to. reflexivity.
Qed.
Lemma n_begin t oo s s' : Related s s' -> Related (begin_step e t oo s) (begin_step e' t (rv oo) s').
Proof.
  intros A. open A. destruct RD as (_ & _ & _ & _ & _ & _ & _ & B2 & B3). unfold begin_step. rewrite B2, B3. match goal with [A1 : st_old s' = _ |- _] => rewrite A1 end.
  rewrite extrapolate_numbered by exact of_to. destruct (extrapolate _ _ _ _ _ _ _ _ _) as [tr up]. cbn [fst snd]. close.
  - apply fresh_numbered.
  - rewrite Hstore. congruence.
Qed.
Lemma n_sets_equal s t s' t' : Related s s' -> Related t t' -> (st_active s = st_active t <-> st_active s' = st_active t').
Proof.
  intros (A & O1 & O2) (B & O3 & O4). exact (same_sets to of to_of _ _ _ _ _ _ O1 O3 O2 O4 (proj1 A) (proj1 B)).
Qed.
Ltac same_operations sp NC tac :=
  tac; cbn [step_ops store_trial update_internal recompute_sets the_active_set distribute_affine assemble_system assemble_jac assemble_res solve_mono solve_macro solve_micro solve_reduced
      apply_mono apply_macro apply_micro search_mono search_macro search_micro reset_to_initial reset_micro_to_initial squares];
  [intros s0 t0 A0; apply n_store; exact A0
  |intros s0 t0 A0; apply n_update; exact A0
  |intros RI s0 t0 A0; apply n_sets; [exact (NC RI)|exact A0]
  |intros s0 t0 A0; apply n_active; exact A0
  |intros s0 t0 s1 t1 A0 A1; apply n_sets_equal; assumption
  |intros s0 t0 A0; apply n_affine; exact A0
  |intros s0 t0 A0; apply n_residual; exact A0
  |intros s0 t0 A0; exact A0
  |intros s0 t0 A0; apply n_residual; exact A0
  |intros s0 t0 A0; apply n_mono; exact A0
  |intros s0 t0 A0; apply n_block; [exact A0|apply NP; exact (proj1 A0)]
  |intros s0 t0 A0; apply n_block; [exact A0|apply NP; exact (proj1 A0)]
  |intros s0 t0 A0; apply n_block; [exact A0|apply NP; exact (proj1 A0)]
  |intros s0 t0 A0; apply n_apply; exact A0
  |intros s0 t0 A0; apply n_apply; exact A0
  |intros s0 t0 A0; apply n_apply; exact A0
  |intros s0 t0 A0; apply n_search; [exact A0|apply NP; exact (proj1 A0)]
  |intros s0 t0 A0; apply n_search; [exact A0|apply NP; exact (proj1 A0)]
  |intros s0 t0 A0; apply n_search; [exact A0|apply NP; exact (proj1 A0)]
  |intros s0 t0 A0; apply n_reset; exact A0
  |intros s0 t0 A0; apply n_reset; exact A0
  |intros s0 t0 A0; symmetry; apply A0
  |].
Lemma log_numbered sp a fuel t oo s s' : (rate_independent sp = true -> no_copies e) -> Related s s' ->
  iterations e' sp a fuel t (rv oo) s' = iterations e sp a fuel t oo s.
Proof.
  intros NC A. unfold iterations. symmetry. same_operations sp NC ltac:(apply (rel_log (step_ops e) (step_ops e') sp Related)).
  apply n_begin. exact A.
Qed.
Lemma step_numbered sp a fuel t oo s s' : (rate_independent sp = true -> no_copies e) -> Related s s' ->
  renumbered_outcome to of (slips e) (slips e') (solve_nonlinear_system e sp a fuel t oo s) (solve_nonlinear_system e' sp a fuel t (rv oo) s').
Proof.
  intros NC A. unfold solve_nonlinear_system.
  assert (Q : rel_outcome Related (solve_nonlinear (step_ops e) sp a fuel (begin_step e t oo s)) (solve_nonlinear (step_ops e') sp a fuel (begin_step e' t (rv oo) s'))).
  { same_operations sp NC ltac:(apply (rel_solve (step_ops e) (step_ops e') sp Related)). apply n_begin. exact A. }
  destruct (solve_nonlinear (step_ops e) sp a fuel _) as [r| | |], (solve_nonlinear (step_ops e') sp a fuel _) as [r'| | |]; cbn in Q; try tauto; try exact Logic.I.
  open Q. cbn [renumbered_outcome]. close. match goal with [A1 : st_trial r' = _, A2 : st_hist r' = _ |- _] => rewrite A1, A2 end. apply Hfinish.
Qed.
End Step.

Lemma related_problem b to of e e' : renumbering (b_ndofs b) to of -> dofs_complete b -> renumbered_problem b to of e e' ->
  forall sp a fuel t oo s s', (rate_independent sp = true -> no_copies e) -> renumbered_state to of s s' -> in_order (slips e) s -> in_order (slips e') s' ->
  renumbered_outcome to of (slips e) (slips e') (solve_nonlinear_system e sp a fuel t oo s) (solve_nonlinear_system e' sp a fuel t (renumber of oo) s') /\
  iterations e' sp a fuel t (renumber of oo) s' = iterations e sp a fuel t oo s.
Proof.
  intros RN DC ((W1 & W2 & W3) & W4 & (V1 & V2 & V3) & V4 & RD & NP) sp a fuel t oo s s' NC Q O O'.
  assert (K1 : forall h, e_store e' h = e_store e h) by (intros h; rewrite W1, V1; reflexivity).
  assert (K2 : forall old x h, e_update e' (renumber of old) (renumber of x) h = e_update e old x h) by (intros old x h; rewrite W2, V2; apply update_numbered; assumption).
  assert (K3 : forall x h, e_finish e' (renumber of x) h = e_finish e x h) by (intros x h; rewrite W4, V4; apply finish_numbered; assumption).
  assert (K4 : forall old x h k, e_norms e' (renumber of old) (renumber of x) h (renumber_lines to of k) = e_norms e old x h k) by (intros old x h k; rewrite W3, V3; apply norms_numbered; assumption).
  split; [apply (step_numbered to of)|apply (log_numbered to of)]; try assumption; try apply RN; (split; [exact Q|split; assumption]).
Qed.

(** A time step. *)
Theorem C114_renumbered_step : forall b to of e e' sp a fuel t oo s s',
  renumbering (b_ndofs b) to of -> dofs_complete b -> renumbered_problem b to of e e' -> (rate_independent sp = true -> no_copies e) ->
  renumbered_state to of s s' -> in_order (slips e) s -> in_order (slips e') s' ->
  renumbered_outcome to of (slips e) (slips e') (solve_nonlinear_system e sp a fuel t oo s) (solve_nonlinear_system e' sp a fuel t (renumber of oo) s') /\
  iterations e' sp a fuel t (renumber of oo) s' = iterations e sp a fuel t oo s.
Proof. intros b to of e e' sp a fuel t oo s s' RN DC RP NC Q O O'. apply (related_problem b to of e e' RN DC RP); assumption. Qed.

(** Any number of time steps. *)
Theorem C114_renumbered_run : forall b to of sp a fuel owned owned' es es',
  renumbering (b_ndofs b) to of -> dofs_complete b ->
  Forall2 (fun x x' => renumbered_problem b to of (fst x) (fst x') /\ snd x' = snd x /\ slips (fst x) = owned /\ slips (fst x') = owned' /\ (rate_independent sp = true -> no_copies (fst x))) es es' ->
  forall oo s s', renumbered_state to of s s' -> in_order owned s -> in_order owned' s' ->
  renumbered_run to of (run sp a fuel es oo s) (run sp a fuel es' (renumber of oo) s').
Proof.
  intros b to of sp a fuel owned owned' es es' RN DC F. induction F as [|[e t] [e' t'] es es' E F IH]; intros oo s s' Q O O'; cbn [run].
  - split; cbn [fst snd]; [split; [reflexivity|exact Q]|constructor].
  - cbn [fst snd] in E. destruct E as (RP & -> & S1 & S2 & NC). rewrite <- S1 in O. rewrite <- S2 in O'.
    destruct (related_problem b to of e e' RN DC RP sp a fuel t oo s s' NC Q O O') as (P & _).
    destruct (solve_nonlinear_system e _ _ _ _ _ _) as [r| | |], (solve_nonlinear_system e' _ _ _ _ _ _) as [r'| | |]; cbn [renumbered_outcome] in P; try tauto; try (split; cbn; [exact Logic.I|constructor]).
    destruct P as (P & P1 & P2). unfold shift_solutions.
    match goal with |- renumbered_run _ _ (let '(o, l) := run _ _ _ _ ?x ?u in _) (let '(o', l') := run _ _ _ _ ?y ?v in _) => assert (G : renumbered_run to of (run sp a fuel es x u) (run sp a fuel es' y v)) end.
    { assert (P8 : st_old r' = renumber of (st_old r)) by apply P. rewrite P8. apply IH.
      - destruct P as (Q1 & Q2 & Q3 & Q4 & Q5 & Q6 & Q7 & Q8 & Q9 & Q10 & Q11 & Q12). unfold renumbered_state. cbn [st_active st_inactive st_internal st_trial st_tmp st_initial st_newton st_old st_hist st_res st_res_tmp st_norms].
        repeat (match goal with |- _ /\ _ => split end); assumption.
      - rewrite <- S1. exact P1.
      - rewrite <- S2. exact P2. }
    destruct (run sp a fuel es _ _) as [o l], (run sp a fuel es' _ _) as [o' l']. destruct G as (G1 & G2). split; cbn [fst snd] in *; [exact G1|constructor; assumption].
Qed.

(** What is assembled. *)
Theorem C114_assembled_systems : forall b to of old x r k pattern pattern', renumbering (b_ndofs b) to of -> dofs_complete b -> same_pattern to pattern pattern' ->
  let b' := renumber_body to of b in
  body_residual b' (renumber of old) (renumber of x) r (renumber_lines to of k) = renumber of (body_residual b old x r k) /\
  body_jacobian b' (renumber of old) (renumber of x) r pattern' (renumber_lines to of k) = renumber_matrix to (body_jacobian b old x r pattern k) /\
  body_norms b' (renumber of old) (renumber of x) r (renumber_lines to of k) = body_norms b old x r k /\
  body_objective b' (renumber of old) r (renumber_lines to of k) (renumber of x) = body_objective b old r k x.
Proof.
  intros b to of old x r k pattern pattern' RN DC SP. cbv zeta. split; [apply residual_numbered; assumption|]. split; [apply jacobian_numbered; assumption|].
  split; [apply norms_numbered; assumption|apply objective_numbered; assumption].
Qed.
(** Histories at the quadrature points. *)
Theorem C114_histories : forall b to of old x r, renumbering (b_ndofs b) to of -> dofs_complete b ->
  let b' := renumber_body to of b in
  body_update b' (renumber of old) (renumber of x) r = body_update b old x r /\ body_finish b' (renumber of x) r = body_finish b x r /\ body_store b' r = body_store b r.
Proof.
  intros b to of old x r RN DC. cbv zeta. split; [apply update_numbered; assumption|]. split; [apply finish_numbered; assumption|reflexivity].
Qed.
(** The renumbered system has the renumbered solutions. *)
Theorem C114_linear_systems : forall b to of ws f x, renumbering (b_ndofs b) to of ->
  solution_of (b_ndofs b) ws f x <-> solution_of (b_ndofs b) (renumber_writes to ws) (renumber of f) (renumber of x).
Proof.
  intros b to of ws f x RN. set (n := b_ndofs b). pose proof RN as (OT & TO & B). fold n in B.
  assert (Bf : forall d, (of d < n)%nat <-> (d < n)%nat) by (intros d; rewrite <- (B (of d)), TO; reflexivity).
  assert (E : forall i, sumn n (fun j => matrix_of (renumber_writes to ws) i j * renumber of x j) = sumn n (fun j => matrix_of ws (of i) j * x j)).
  { intros i. rewrite <- (sum_numbered to of b RN n (fun j => matrix_of ws (of i) j * x j) B). apply sumn_ext. intros j _. rewrite (matrix_of_numbered to of b RN). reflexivity. }
  unfold solution_of. split; intros A i Hi.
  - rewrite E. apply A. apply Bf. exact Hi.
  - rewrite <- (OT i), <- E. rewrite OT. rewrite A by (apply B; exact Hi). unfold renumber. rewrite OT. reflexivity.
Qed.
(** Solvers called with the assembled systems. *)
Theorem C114_linear_solvers : forall b to of pattern pattern' LS LS' solver solver' s s', renumbering (b_ndofs b) to of -> dofs_complete b -> same_pattern to pattern pattern' ->
  solver_without_numbering to of LS LS' -> solves_assembled b pattern LS solver -> solves_assembled (renumber_body to of b) pattern' LS' solver' ->
  renumbered_state to of s s' -> solver' s' = renumber_result of (solver s).
Proof.
  intros b to of pattern pattern' LS LS' solver solver' s s' RN DC SP O S1 S2 (_ & _ & Q3 & Q4 & _ & _ & Q7 & Q8 & Q9 & _).
  rewrite S1, S2, Q3, Q4, Q7, Q8, Q9. rewrite (residual_numbered to of b RN DC), (jacobian_numbered to of b RN DC _ _ _ pattern pattern' _ SP). apply O.
Qed.

(** Slip dofs which copy others are another matter: whether the master of an active dof keeps its
    own line depends on which of the two is visited first. *)
Definition swap (d : nat) : nat := match d with 0%nat => 1%nat | 1%nat => 0%nat | _ => d end.
Lemma swap_swap d : swap (swap d) = d.
Proof. destruct d as [|[|d]]; reflexivity. Qed.
Lemma sets_of_loop p trial s : p_rate_independent p = true -> Nat.eqb (p_n_slips p) 0 = false ->
  let l := active_loop (p_affine p) trial (yield_stress (p_hardening p) (p_char_resistance p) (p_slip_resistance p)) (p_hanging p) (p_owned_slip p) in
  active_set (fst (active_set_algorithm p trial true s)) = fst l /\
  internal_constraints (fst (active_set_algorithm p trial true s)) = merge (merge no_constraints (p_newton p)) (snd l).
Proof. intros E N. unfold active_set_algorithm, determine_active_set. rewrite E, N. destruct (active_loop _ _ _ _ _) as [act ina]. split; reflexivity. Qed.
Lemma quiet_step affine trial ys act ina d : Rltb (ys d) (Rabs (trial d)) = false -> active_step affine trial ys (act, ina) d = (act, if negb (mem d act) then add_line ina d else ina).
Proof. intros E. unfold active_step. rewrite E. reflexivity. Qed.
Lemma copy_step affine trial ys ina d m b : Rltb (ys d) (Rabs (trial d)) = true -> affine d = Some ([(m, 1)], b) -> active_step affine trial ys ([], ina) d = ([d; m], ina).
Proof.
  intros E A. unfold active_step, is_constrained, is_identity_constrained, master. rewrite E, A. rewrite (proj2 (Reqb_true 1 1) eq_refl). cbn [negb app]. unfold mem. cbn [existsb]. rewrite Nat.eqb_refl. reflexivity.
Qed.
Theorem C114_copies_order_matters_refuted : exists p p' trial s,
  p_rate_independent p = true /\ p_rate_independent p' = true /\ p_n_slips p' = p_n_slips p /\ p_hardening p' = p_hardening p /\ p_char_resistance p' = p_char_resistance p /\
  renumbered_set swap (p_owned p) (p_owned p') /\ renumbered_set swap (p_owned_slip p) (p_owned_slip p') /\ p_affine p' = renumber_lines swap swap (p_affine p) /\
  p_newton p' = renumber_lines swap swap (p_newton p) /\ p_hanging p' = renumber_lines swap swap (p_hanging p) /\ p_old_solution p' = renumber swap (p_old_solution p) /\
  p_slip_resistance p' = renumber swap (p_slip_resistance p) /\
  let r := fst (active_set_algorithm p trial true s) in let r' := fst (active_set_algorithm p' (renumber swap trial) true s) in
  renumbered_set swap (active_set r) (active_set r') /\ In 0%nat (active_set r) /\
  internal_constraints r 0%nat = Some zero_line /\ internal_constraints r' (swap 0%nat) = None.
Proof.
  set (copy := fun d : nat => match d with 1%nat => Some ([(0%nat, 1)], 0) | _ => None end : option line).
  set (trial := fun d : nat => match d with 1%nat => 2 | _ => 0 end).
  assert (SS : renumbered_set swap [0; 1]%nat [0; 1]%nat) by (intros d; destruct d as [|[|d]]; cbn; intuition lia).
  exists (mk_problem 1 true (mk_hardening 1 0 0 true) 1 [0; 1]%nat [0; 1]%nat copy no_constraints no_constraints (fun _ => 0) (fun _ => 0)),
    (mk_problem 1 true (mk_hardening 1 0 0 true) 1 [0; 1]%nat [0; 1]%nat (renumber_lines swap swap copy) no_constraints no_constraints (fun _ => 0) (fun _ => 0)),
    trial, (mk_state [] [] no_constraints (fun _ => 0)).
  cbn [p_rate_independent p_n_slips p_hardening p_char_resistance p_owned p_owned_slip p_affine p_newton p_hanging p_old_solution p_slip_resistance].
  split; [reflexivity|]. split; [reflexivity|]. split; [reflexivity|]. split; [reflexivity|]. split; [reflexivity|]. split; [exact SS|]. split; [exact SS|]. split; [reflexivity|].
  split; [reflexivity|]. split; [reflexivity|]. split; [reflexivity|]. split; [reflexivity|]. cbv zeta.
  assert (Y : 1 / 1 = 1) by field.
  assert (T0 : Rltb (1 / 1) (Rabs 0) = false) by (apply Rltb_false; rewrite Y, Rabs_R0; lra).
  assert (T1 : Rltb (1 / 1) (Rabs 2) = true) by (apply Rltb_true; rewrite Y, Rabs_right; lra).
  assert (W : Reqb 1 1 = true) by (apply Reqb_true; reflexivity).
  match goal with |- context [active_set_algorithm ?p trial true ?s] => destruct (sets_of_loop p trial s eq_refl eq_refl) as (A1 & A2) end.
  match goal with |- context [active_set_algorithm ?p (renumber swap trial) true ?s] => destruct (sets_of_loop p (renumber swap trial) s eq_refl eq_refl) as (B1 & B2) end.
  rewrite A1, A2, B1, B2. clear A1 A2 B1 B2.
  cbn [p_rate_independent p_n_slips p_hardening p_char_resistance p_owned p_owned_slip p_affine p_newton p_hanging p_old_solution p_slip_resistance].
  unfold active_loop. cbn [fold_left].
  assert (Q : forall z d, yield_stress (mk_hardening 1 0 0 true) 1 z d = 1 / 1) by reflexivity.
  rewrite (quiet_step copy) by (rewrite Q; exact T0). rewrite (copy_step copy _ _ _ 1 0 0) by (try reflexivity; rewrite Q; exact T1).
  rewrite (copy_step (renumber_lines swap swap copy) _ _ _ 0 1 0) by (try reflexivity; rewrite Q; exact T1).
  rewrite (quiet_step (renumber_lines swap swap copy)) by (rewrite Q; exact T0).
  cbn [fst snd]. split; [|split; [right; left; reflexivity|split; reflexivity]].
  intros d; destruct d as [|[|d]]; cbn; intuition lia.
Qed.
