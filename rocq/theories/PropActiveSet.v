(** * C43-C45: active set. *)
From Verif Require Import Num SumLemmas ModelHistory SpecHistory ModelFEField ModelActiveSet SpecActiveSet.
Open Scope R_scope.

Lemma mem_In d l : mem d l = true <-> In d l.
Proof.
  unfold mem. rewrite existsb_exists. split.
  - intros (x & Hx & E). apply Nat.eqb_eq in E; subst; auto.
  - intros H. exists d; split; auto. apply Nat.eqb_refl.
Qed.
Lemma mem_not_In d l : mem d l = false <-> ~ In d l.
Proof. rewrite <- mem_In. destruct (mem d l); split; congruence. Qed.

Lemma identity_slave c d :
  is_identity_constrained c d = true <-> slave_of c d (master c d).
Proof.
  unfold is_identity_constrained, slave_of, master. split.
  - destruct (c d) as [[[|[m w] [|]] b]|]; intros H; try discriminate.
    apply Reqb_true in H; subst. eauto.
  - destruct (c d) as [[[|[m w] es] b]|]; intros (b' & E); try discriminate.
    injection E as -> -> ->. apply Reqb_true; reflexivity.
Qed.
Lemma slave_master c d m : slave_of c d m -> m = master c d.
Proof. intros (b & E). unfold master. rewrite E. reflexivity. Qed.
Lemma constrained_free c d : is_constrained c d = false <-> free c d.
Proof. unfold is_constrained, free. destruct (c d); split; congruence. Qed.
Lemma slave_not_free c d m : slave_of c d m -> ~ free c d.
Proof. intros (b & E) F. unfold free in F. congruence. Qed.
Lemma not_dirichlet c d : ~ dirichlet c d <-> free c d \/ slave_of c d (master c d).
Proof.
  unfold dirichlet, free. split.
  - intros H. destruct (c d) eqn:E; [|auto]. right.
    destruct (is_identity_constrained c d) eqn:I; [apply identity_slave; exact I|].
    exfalso. apply H. split; [congruence|]. intros m Hm.
    pose proof (slave_master _ _ _ Hm); subst. apply identity_slave in Hm. congruence.
  - intros [H|H] [H1 H2]; [contradiction|]. eapply H2; eauto.
Qed.
Lemma flag_no_dirichlet c d :
  orb (is_identity_constrained c d) (negb (is_constrained c d)) = true <-> ~ dirichlet c d.
Proof.
  rewrite not_dirichlet, Bool.orb_true_iff, Bool.negb_true_iff, identity_slave, constrained_free.
  tauto.
Qed.

(** ** The loop *)
Definition activates (affine : constraints) (trial ys : nat -> R) (d k : nat) : Prop :=
  yields trial ys d /\ ((k = d /\ ~ dirichlet affine d) \/ slave_of affine d k).

Lemma step_active affine trial ys act ina d k :
  In k (fst (active_step affine trial ys (act, ina) d)) <->
  In k act \/ activates affine trial ys d k.
Proof.
  unfold active_step, activates, yields. cbn [fst].
  destruct (Rltb (ys d) (Rabs (trial d))) eqn:Y.
  - apply Rltb_true in Y. rewrite not_dirichlet.
    destruct (is_identity_constrained affine d) eqn:I.
    + apply identity_slave in I.
      assert (F : is_constrained affine d = true).
      { destruct (is_constrained affine d) eqn:F; auto. apply constrained_free in F.
        apply slave_not_free in I; contradiction. }
      rewrite F. simpl. rewrite in_app_iff. simpl. split.
      * intros [H|[H|[H|[]]]]; subst; auto 8.
      * intros [H|(_ & [[-> _]|H])]; auto. apply slave_master in H. auto.
    + assert (NS : forall m, ~ slave_of affine d m).
      { intros m Hm. pose proof (slave_master _ _ _ Hm); subst. apply identity_slave in Hm. congruence. }
      destruct (is_constrained affine d) eqn:F; simpl.
      * split; auto. intros [H|(_ & [[-> [H|H]]|H])]; auto.
        -- apply constrained_free in H. congruence.
        -- exfalso; eapply NS; eauto.
        -- exfalso; eapply NS; eauto.
      * apply constrained_free in F. rewrite in_app_iff. simpl. split.
        -- intros [H|[H|[]]]; subst; auto 8.
        -- intros [H|(_ & [[-> _]|H])]; auto. exfalso; eapply NS; eauto.
  - apply Rltb_false in Y. split; auto. intros [H|[H _]]; auto. lra.
Qed.

Lemma loop_snoc affine trial ys h ds d :
  active_loop affine trial ys h (ds ++ [d]) =
  active_step affine trial ys (active_loop affine trial ys h ds) d.
Proof. unfold active_loop. rewrite fold_left_app. reflexivity. Qed.

Lemma loop_active affine trial ys h ds k :
  In k (fst (active_loop affine trial ys h ds)) <->
  exists d, In d ds /\ activates affine trial ys d k.
Proof.
  induction ds as [|d ds IH] using rev_ind.
  - simpl. split; [intros []|intros (d & [] & _)].
  - rewrite loop_snoc. destruct (active_loop affine trial ys h ds) as [act ina].
    rewrite step_active. cbn [fst] in IH. rewrite IH. split.
    + intros [(x & Hx & A)|A]; [exists x|exists d]; split; auto; apply in_or_app; simpl; auto.
    + intros (x & Hx & A). apply in_app_or in Hx. destruct Hx as [Hx|[<-|[]]]; eauto.
Qed.

Lemma step_lines affine trial ys act ina d k :
  snd (active_step affine trial ys (act, ina) d) k =
  if Nat.eqb k d && negb (mem d (fst (active_step affine trial ys (act, ina) d)))
  then match ina d with Some l => Some l | None => Some zero_line end
  else ina k.
Proof.
  unfold active_step. cbn [fst snd].
  destruct (negb _); cbn [andb]; [|rewrite Bool.andb_false_r; reflexivity].
  unfold add_line. rewrite Bool.andb_true_r. reflexivity.
Qed.

(** Lines added by the loop: a dof gets a zero line iff it is not active at the moment it
    is visited; hanging nodes keep their lines. *)
Lemma loop_lines_out affine trial ys h ds k :
  ~ In k ds -> snd (active_loop affine trial ys h ds) k = h k.
Proof.
  induction ds as [|d ds IH] using rev_ind; intros Hk.
  - simpl. unfold merge. destruct (h k); reflexivity.
  - rewrite loop_snoc.
    assert (Hk1 : ~ In k ds) by (intros H; apply Hk; apply in_or_app; auto).
    assert (Hk2 : k <> d) by (intros ->; apply Hk; apply in_or_app; simpl; auto).
    specialize (IH Hk1). destruct (active_loop affine trial ys h ds) as [act ina].
    rewrite step_lines. apply Nat.eqb_neq in Hk2. rewrite Hk2. exact IH.
Qed.
Lemma loop_lines_at affine trial ys h l1 k l2 :
  ~ In k l1 -> ~ In k l2 ->
  snd (active_loop affine trial ys h (l1 ++ k :: l2)) k =
  if mem k (fst (active_loop affine trial ys h (l1 ++ [k]))) then h k
  else match h k with Some l => Some l | None => Some zero_line end.
Proof.
  intros H1 H2. induction l2 as [|d l2 IH] using rev_ind.
  - rewrite loop_snoc. pose proof (loop_lines_out affine trial ys h l1 k H1) as E.
    destruct (active_loop affine trial ys h l1) as [act ina]. cbn [snd] in E.
    rewrite step_lines. rewrite Nat.eqb_refl, E.
    destruct (mem k _); reflexivity.
  - rewrite app_comm_cons, app_assoc, loop_snoc.
    assert (Hk1 : ~ In k l2) by (intros H; apply H2; apply in_or_app; auto).
    assert (Hk2 : k <> d) by (intros ->; apply H2; apply in_or_app; simpl; auto).
    specialize (IH Hk1). destruct (active_loop affine trial ys h (l1 ++ k :: l2)) as [act ina].
    rewrite step_lines. apply Nat.eqb_neq in Hk2. rewrite Hk2. exact IH.
Qed.

(** ** The state after the algorithm *)
Lemma yield_is p :
  yield_stress (p_hardening p) (p_char_resistance p) (p_slip_resistance p) = yield_of p.
Proof. reflexivity. Qed.

Lemma recomputed_active p trial s :
  p_rate_independent p = true -> (0 < p_n_slips p)%nat ->
  active_set (recomputed p trial s) =
  fst (active_loop (p_affine p) trial (yield_of p) (p_hanging p) (p_owned_slip p)) /\
  internal_constraints (recomputed p trial s) =
  merge (merge no_constraints (p_newton p))
    (snd (active_loop (p_affine p) trial (yield_of p) (p_hanging p) (p_owned_slip p))).
Proof.
  intros HR HN. unfold recomputed, active_set_algorithm, determine_active_set. rewrite HR.
  destruct (Nat.eqb_spec (p_n_slips p) 0); [lia|]. rewrite yield_is.
  destruct (active_loop _ _ _ _ _) as [act ina]. split; reflexivity.
Qed.
Lemma recomputed_inactive p trial s d :
  p_rate_independent p = true ->
  In d (inactive_set (recomputed p trial s)) <->
  In d (p_owned p) /\ In d (p_owned_slip p) /\ ~ dirichlet (p_affine p) d /\
  ~ In d (active_set (recomputed p trial s)).
Proof.
  intros HR. unfold recomputed, active_set_algorithm. rewrite HR. cbn [fst].
  set (s1 := determine_active_set p trial (reset_internal p s)).
  unfold reset_inactive_set_values, determine_inactive_set. cbn [active_set inactive_set].
  rewrite filter_In, !Bool.andb_true_iff, Bool.negb_true_iff, mem_In, mem_not_In, flag_no_dirichlet.
  tauto.
Qed.

(** *** C43 *)
(** Which dofs are active, for any constraints: a dof is active iff it yields and is not
    Dirichlet constrained, or it is the periodic master of a yielding dof. *)
Theorem C43_active_iff_yielding : forall p trial s k,
  p_rate_independent p = true -> (0 < p_n_slips p)%nat ->
  (In k (active_set (recomputed p trial s)) <->
   (In k (p_owned_slip p) /\ yields trial (yield_of p) k /\ ~ dirichlet (p_affine p) k) \/
   (exists d, In d (p_owned_slip p) /\ yields trial (yield_of p) d /\ slave_of (p_affine p) d k)).
Proof.
  intros p trial s k HR HN. rewrite (proj1 (recomputed_active p trial s HR HN)), loop_active.
  unfold activates. split.
  - intros (d & Hd & Y & [[-> HD]|HS]); [left; auto|right; eauto].
  - intros [(Hk & Y & HD)|(d & Hd & Y & HS)]; [exists k|exists d]; auto.
Qed.

(** Every owned slip dof that is not Dirichlet constrained is in exactly one of the sets. *)
Theorem C43_sets_partition_the_slip_dofs : forall p trial s d,
  p_rate_independent p = true ->
  incl (p_owned_slip p) (p_owned p) ->
  let t := recomputed p trial s in
  (In d (inactive_set t) -> In d (p_owned_slip p) /\ ~ dirichlet (p_affine p) d) /\
  (In d (p_owned_slip p) -> ~ dirichlet (p_affine p) d ->
     (In d (active_set t) /\ ~ In d (inactive_set t)) \/
     (~ In d (active_set t) /\ In d (inactive_set t))).
Proof.
  intros p trial s d HR HI t. unfold t. rewrite recomputed_inactive by exact HR. split.
  - tauto.
  - intros Hd HD. destruct (in_dec Nat.eq_dec d (active_set (recomputed p trial s))); [left|right]; split;
      try tauto. repeat split; auto.
Qed.

(** Without periodic constraints the sets are exactly the yielding and the non-yielding
    unconstrained slip dofs. *)
Theorem C43_sets_without_periodicity : forall p trial s d,
  p_rate_independent p = true -> (0 < p_n_slips p)%nat ->
  incl (p_owned_slip p) (p_owned p) ->
  (forall k m, ~ slave_of (p_affine p) k m) ->
  let t := recomputed p trial s in
  (In d (active_set t) <->
     In d (p_owned_slip p) /\ free (p_affine p) d /\ yield_of p d < Rabs (trial d)) /\
  (In d (inactive_set t) <->
     In d (p_owned_slip p) /\ free (p_affine p) d /\ Rabs (trial d) <= yield_of p d).
Proof.
  intros p trial s d HR HN HI HS t. unfold t.
  assert (HD : ~ dirichlet (p_affine p) d <-> free (p_affine p) d).
  { rewrite not_dirichlet. split; [intros [H|H]; auto; exfalso; eapply HS; eauto|auto]. }
  assert (A : In d (active_set (recomputed p trial s)) <->
     In d (p_owned_slip p) /\ free (p_affine p) d /\ yield_of p d < Rabs (trial d)).
  { rewrite C43_active_iff_yielding by assumption. unfold yields. rewrite HD. split.
    - intros [H|(k & _ & _ & H)]; [tauto|exfalso; eapply HS; eauto].
    - tauto. }
  split; [exact A|].
  rewrite recomputed_inactive by exact HR. rewrite A, HD. split.
  - intros (H1 & H2 & H3 & H4). repeat split; auto.
    destruct (Rle_lt_dec (Rabs (trial d)) (yield_of p d)); auto. tauto.
  - intros (H1 & H2 & H3). repeat split; auto. intros (_ & _ & H). lra.
Qed.

Theorem C43_rate_dependent_all_active : forall p trial b s,
  p_rate_independent p = false ->
  active_set (fst (active_set_algorithm p trial b s)) = p_owned_slip p.
Proof. intros p trial b s HR. unfold active_set_algorithm. rewrite HR. reflexivity. Qed.

(** *** C44 *)
(** Without periodic constraints a free slip dof gets a zero-increment constraint iff it
    is inactive, and all other dofs keep the constraints of the field. *)
Theorem C44_constraints_without_periodicity_partial : forall p trial s d,
  p_rate_independent p = true -> (0 < p_n_slips p)%nat ->
  NoDup (p_owned_slip p) -> incl (p_owned_slip p) (p_owned p) ->
  (forall k m, ~ slave_of (p_affine p) k m) ->
  p_hanging p d = None ->
  let t := recomputed p trial s in
  (In d (inactive_set t) -> internal_constraints t d = Some zero_line) /\
  (In d (active_set t) \/ ~ In d (p_owned_slip p) -> internal_constraints t d = p_newton p d).
Proof.
  intros p trial s d HR HN HU HI HS HH t. unfold t.
  destruct (recomputed_active p trial s HR HN) as (EA & EI). rewrite EI. unfold merge.
  assert (Edn : match p_newton p d with Some l => Some l | None => no_constraints d end = p_newton p d)
    by (destruct (p_newton p d); reflexivity).
  rewrite Edn. split.
  - intros Hin. pose proof Hin as Hin'. apply recomputed_inactive in Hin'; [|exact HR].
    destruct Hin' as (_ & Hslip & _ & Hna).
    destruct (in_split _ _ Hslip) as (l1 & l2 & E). rewrite E in HU |- *.
    apply NoDup_remove_2 in HU.
    rewrite loop_lines_at by (intros X; apply HU; apply in_or_app; auto).
    rewrite HH. destruct (mem d _) eqn:M; [|reflexivity]. exfalso.
    apply mem_In, loop_active in M. destruct M as (x & Hx & A).
    apply Hna. rewrite EA, E. apply loop_active. exists x; split; auto.
    apply in_app_or in Hx. apply in_or_app. destruct Hx as [Hx|[<-|[]]]; simpl; auto.
  - intros Hor. destruct (in_dec Nat.eq_dec d (p_owned_slip p)) as [Hslip|Hslip].
    + destruct Hor as [Hact|]; [|contradiction].
      destruct (in_split _ _ Hslip) as (l1 & l2 & E).
      pose proof HU as HU'. rewrite E in HU'. apply NoDup_remove_2 in HU'.
      rewrite E, loop_lines_at by (intros X; apply HU'; apply in_or_app; auto).
      rewrite HH. replace (mem d _) with true; [reflexivity|]. symmetry.
      apply mem_In, loop_active. exists d. split; [apply in_or_app; simpl; auto|].
      apply (C43_active_iff_yielding p trial s d HR HN) in Hact.
      destruct Hact as [(_ & Y & HD)|(x & _ & _ & HSl)]; [split; auto|exfalso; eapply HS; eauto].
    + rewrite loop_lines_out by exact Hslip. rewrite HH. reflexivity.
Qed.

(** In general a slip dof gets the constraint iff neither it nor a periodic slave of it
    visited before it makes it active. *)
Theorem C44_constraint_is_decided_at_the_visit : forall p trial s l1 d l2,
  p_rate_independent p = true -> (0 < p_n_slips p)%nat ->
  p_owned_slip p = l1 ++ d :: l2 -> ~ In d l1 -> ~ In d l2 ->
  p_hanging p d = None -> p_newton p d = None ->
  internal_constraints (recomputed p trial s) d =
    Some zero_line <->
  ~ (yields trial (yield_of p) d /\ ~ dirichlet (p_affine p) d) /\
  ~ (exists k, In k l1 /\ yields trial (yield_of p) k /\ slave_of (p_affine p) k d) /\
  ~ (yields trial (yield_of p) d /\ slave_of (p_affine p) d d).
Proof.
  intros p trial s l1 d l2 HR HN E H1 H2 HH HNn.
  destruct (recomputed_active p trial s HR HN) as (_ & EI). rewrite EI. unfold merge.
  rewrite E, loop_lines_at by assumption. rewrite HH, HNn. unfold no_constraints.
  destruct (mem d _) eqn:M.
  - apply mem_In, loop_active in M. destruct M as (x & Hx & Y & [[Ex HD]|HSl]).
    + subst x. split; [discriminate|]. intros (A & _). tauto.
    + split; [discriminate|]. intros (A & B & C). exfalso.
      apply in_app_or in Hx. destruct Hx as [Hx|[<-|[]]]; [apply B; eauto|apply C; auto].
  - apply mem_not_In in M. rewrite loop_active in M. split; [|reflexivity]. intros _.
    repeat split.
    + intros [Y HD]. apply M. exists d. split; [apply in_or_app; simpl; auto|]. split; auto.
    + intros (k & Hk & Y & HSl). apply M. exists k. split; [apply in_or_app; auto|]. split; auto.
    + intros [Y HSl]. apply M. exists d. split; [apply in_or_app; simpl; auto|]. split; auto.
Qed.

(** Reset: free inactive dofs get their old value, all other free dofs keep the trial value
    (constrained dofs follow their constraint). *)
Theorem C44_inactive_values_are_reset : forall p trial s d,
  p_rate_independent p = true -> (0 < p_n_slips p)%nat ->
  free (p_affine p) d ->
  let t := recomputed p trial s in
  (In d (inactive_set t) -> trial_solution t d = p_old_solution p d) /\
  (~ In d (inactive_set t) -> trial_solution t d = trial_solution s d).
Proof.
  intros p trial s d HR HN HF t.
  assert (E : trial_solution t d =
    if mem d (inactive_set t) then p_old_solution p d else trial_solution s d).
  { unfold t, recomputed, active_set_algorithm. rewrite HR. cbn [fst].
    unfold reset_inactive_set_values, distribute. cbn [trial_solution inactive_set].
    unfold free in HF. rewrite HF.
    replace (trial_solution (determine_inactive_set p (determine_active_set p trial (reset_internal p s))) d)
      with (trial_solution s d); [reflexivity|].
    unfold determine_inactive_set, determine_active_set, reset_internal. cbn [trial_solution].
    destruct (Nat.eqb _ _); [reflexivity|]. destruct (active_loop _ _ _ _ _); reflexivity. }
  rewrite E. split; intros H.
  - apply mem_In in H. rewrite H. reflexivity.
  - apply mem_not_In in H. rewrite H. reflexivity.
Qed.

(** With periodicity the claim fails: a master visited before its yielding slave ends up
    active and constrained at the same time. *)
Definition periodic_problem : problem :=
  mk_problem 1 true (mk_hardening 1 0 0 false) 1 [0; 1]%nat [0; 1]%nat
    (fun d => if Nat.eqb d 1 then Some ([(0%nat, 1)], 0) else None)
    no_constraints no_constraints (fun _ => 0) (fun _ => 1).
Theorem C44_active_master_is_constrained_refuted :
  exists trial s, let t := recomputed periodic_problem trial s in
    closed (p_affine periodic_problem) /\
    In 0%nat (active_set t) /\ ~ In 0%nat (inactive_set t) /\
    internal_constraints t 0%nat = Some zero_line.
Proof.
  exists (fun d => if Nat.eqb d 1 then 2 else 1/2), (mk_state [] [] no_constraints (fun _ => 0)).
  cbv zeta.
  assert (A : In 0%nat (active_set (recomputed periodic_problem
     (fun d => if Nat.eqb d 1 then 2 else 1/2) (mk_state [] [] no_constraints (fun _ => 0))))).
  { apply C43_active_iff_yielding; [reflexivity|simpl; lia|]. right. exists 1%nat.
    split; [simpl; auto|]. split.
    - unfold yields, yield_of; simpl. rewrite Rabs_pos_eq; lra.
    - exists 0. reflexivity. }
  split; [|split; [exact A|split]].
  - intros d es b e w H Hin. simpl in H. destruct (Nat.eqb d 1); [|discriminate].
    injection H as <- <-. destruct Hin as [E|[]]. injection E as <- _. reflexivity.
  - intros H. apply recomputed_inactive in H; [|reflexivity]. tauto.
  - apply (C44_constraint_is_decided_at_the_visit periodic_problem _ _ [] 0%nat [1%nat]);
      try reflexivity; try (simpl; lia).
    split; [|split].
    + intros [Y _]. unfold yields, yield_of in Y; simpl in Y. rewrite Rabs_pos_eq in Y; lra.
    + intros (k & [] & _).
    + intros [_ (b & H)]. discriminate.
Qed.

(** Conversely a non-yielding slave of an active master loses its periodicity constraint:
    its increment is set to zero although the master moves. *)
Theorem C44_slave_loses_periodicity_refuted :
  exists p trial s, let t := recomputed p trial s in
    closed (p_affine p) /\ p_newton p 1%nat = Some ([(0%nat, 1)], 0) /\
    In 0%nat (active_set t) /\ internal_constraints t 1%nat = Some zero_line.
Proof.
  set (per := fun d => if Nat.eqb d 1 then Some ([(0%nat, 1)], 0) else None).
  set (p := mk_problem 1 true (mk_hardening 1 0 0 false) 1 [0; 1]%nat [0; 1]%nat per per
    no_constraints (fun _ => 0) (fun _ => 1)).
  set (trial := fun d => if Nat.eqb d 1 then 1/2 else 2).
  set (s := mk_state [] [] no_constraints (fun _ => 0)).
  exists p, trial, s. cbv zeta. split; [|split; [reflexivity|split]].
  - intros d es b e w H Hin. simpl in H. unfold per in H. destruct (Nat.eqb d 1); [|discriminate].
    injection H as <- <-. destruct Hin as [E|[]]. injection E as <- _. reflexivity.
  - apply C43_active_iff_yielding; [reflexivity|simpl; lia|]. left. split; [simpl; auto|]. split.
    + unfold yields, yield_of, trial; simpl. rewrite Rabs_pos_eq; lra.
    + apply not_dirichlet. left. reflexivity.
  - destruct (recomputed_active p trial s eq_refl ltac:(simpl; lia)) as (_ & E). rewrite E.
    unfold merge. change (p_owned_slip p) with ([0%nat] ++ 1%nat :: []).
    rewrite loop_lines_at by (simpl; lia).
    replace (mem 1%nat _) with false; [reflexivity|]. symmetry. apply mem_not_In.
    rewrite loop_active. intros (x & Hx & Y & [[Ex HD]|HSl]).
    + subst x. unfold yields, yield_of, trial in Y; simpl in Y. rewrite Rabs_pos_eq in Y; lra.
    + destruct HSl as (b & HSl). simpl in HSl. unfold per in HSl.
      destruct (Nat.eqb x 1); discriminate.
Qed.

Example C43_example :
  let p := mk_problem 1 true (mk_hardening 1 0 0 false) 1 [0; 1; 2]%nat [1; 2]%nat
    no_constraints no_constraints no_constraints (fun _ => 7) (fun _ => 1) in
  let t := recomputed p (fun d => if Nat.eqb d 1 then -3 else 1) (mk_state [] [] no_constraints (fun _ => 5)) in
  In 1%nat (active_set t) /\ In 2%nat (inactive_set t) /\ trial_solution t 2%nat = 7 /\
  internal_constraints t 2%nat = Some zero_line /\ internal_constraints t 1%nat = None.
Proof.
  intros p t.
  assert (HS : forall k m, ~ slave_of (p_affine p) k m) by (intros k m (b & H); discriminate).
  assert (HI : incl (p_owned_slip p) (p_owned p)) by (intros x Hx; simpl in *; tauto).
  assert (A : In 1%nat (active_set t)).
  { apply C43_sets_without_periodicity; auto; try (simpl; lia). split; [simpl; auto|].
    split; [reflexivity|]. unfold yield_of; simpl. rewrite Rabs_left; lra. }
  assert (B : In 2%nat (inactive_set t)).
  { apply C43_sets_without_periodicity; auto; try (simpl; lia). split; [simpl; auto|].
    split; [reflexivity|]. unfold yield_of; simpl. rewrite Rabs_pos_eq; lra. }
  split; [exact A|]. split; [exact B|]. split; [|split].
  - apply C44_inactive_values_are_reset; auto; try (simpl; lia). reflexivity.
  - apply C44_constraints_without_periodicity_partial; auto; try (simpl; lia).
    simpl. constructor; [intros [|[]]; lia|]. constructor; [intros []|constructor].
  - transitivity (p_newton p 1%nat); [|reflexivity].
    apply C44_constraints_without_periodicity_partial; auto; try (simpl; lia).
    simpl. constructor; [intros [|[]]; lia|]. constructor; [intros []|constructor].
Qed.

(** ** Trial microstress *)
(** The lumped solve divides by a non-zero mass at every owned slip dof or throws. *)
Theorem C43_trial_microstress_is_lumped_quotient : forall ds rhs lumped hanging,
  (forall t, compute_trial_microstress ds rhs lumped hanging = Ok t ->
     forall d, In d ds -> hanging d = None -> lumped d <> 0 /\ t d = rhs d / lumped d) /\
  (compute_trial_microstress ds rhs lumped hanging = Throw <->
     exists d, In d ds /\ lumped d = 0).
Proof.
  intros ds rhs lumped hanging. unfold compute_trial_microstress.
  destruct (forallb _ ds) eqn:F.
  - rewrite forallb_forall in F. split.
    + intros t E d Hd HH. injection E as <-. specialize (F d Hd).
      apply Bool.negb_true_iff, Reqb_false in F. split; auto.
      unfold distribute. rewrite HH. apply mem_In in Hd. rewrite Hd. reflexivity.
    + split; [discriminate|]. intros (d & Hd & E). specialize (F d Hd).
      apply Bool.negb_true_iff, Reqb_false in F. contradiction.
  - split; [discriminate|]. split; [|reflexivity]. intros _.
    apply Bool.not_true_iff_false in F. rewrite forallb_forall in F.
    destruct (existsb (fun d => Reqb (lumped d) 0) ds) eqn:X.
    + apply existsb_exists in X. destruct X as (d & Hd & E). apply Reqb_true in E. eauto.
    + exfalso. apply F. intros d Hd. apply Bool.negb_true_iff.
      destruct (Reqb (lumped d) 0) eqn:E; auto.
      assert (existsb (fun d => Reqb (lumped d) 0) ds = true) by (apply existsb_exists; eauto).
      congruence.
Qed.

(** ** C45 *)
Lemma key_eqb_eq a b : key_eqb a b = true <-> a = b.
Proof.
  destruct a as [[p c] s], b as [[p' c'] s']. unfold key_eqb.
  rewrite !Bool.andb_true_iff, !Nat.eqb_eq. split; [intros [[-> ->] ->]; auto|intros E; injection E; auto].
Qed.

Lemma filter_unique {A} (f : A -> bool) l x :
  NoDup l -> In x l -> (forall y, In y l -> f y = true <-> y = x) -> filter f l = [x].
Proof.
  induction l as [|a l IH]; intros HN Hin Hf; [destruct Hin|].
  inversion HN as [|? ? Hna HN']; subst. simpl.
  destruct (f a) eqn:E.
  - apply Hf in E; [|simpl; auto]. subst a. f_equal.
    assert (Hz : forall y, In y l -> f y = false).
    { intros y Hy. destruct (f y) eqn:Ey; auto. apply Hf in Ey; [|simpl; auto]. subst. contradiction. }
    clear -Hz. induction l; simpl; auto. rewrite Hz by (simpl; auto). apply IHl. intros; apply Hz; simpl; auto.
  - destruct Hin as [->|Hin]; [|apply IH; auto; intros y Hy; apply Hf; simpl; auto].
    assert (f x = true) by (apply Hf; simpl; auto). congruence.
Qed.

Lemma dof_info_complete ns keys owned_slip dof_at d p c s :
  complete_keys ns keys owned_slip dof_at -> In d owned_slip -> keys d = (p, c, s) ->
  dof_info ns keys owned_slip d = (map (dof_at p c) (seq 0 ns), s).
Proof.
  intros (HN & _ & HK) Hd E. unfold dof_info. rewrite E. f_equal.
  assert (X : forall m b0, (b0 + m <= ns)%nat ->
    flat_map (fun b => filter (fun d' => key_eqb (keys d') (p, c, b)) owned_slip) (seq b0 m) =
    map (dof_at p c) (seq b0 m)).
  { induction m as [|m IH]; intros b0 H; simpl; auto. rewrite IH by lia.
    destruct (HK d p c s b0 Hd E ltac:(lia)) as (H1 & H2 & H3).
    rewrite (filter_unique _ _ (dof_at p c b0)); auto.
    intros y Hy. rewrite key_eqb_eq. split; [apply H3; auto|intros ->; auto]. }
  apply X. lia.
Qed.

Lemma harden_dof_sum h char trial old f current n : forall m b0 acc,
  (b0 + m <= n)%nat ->
  harden_dof h char trial old (map f (seq 0 n)) current (seq b0 m) acc =
  Ok (acc + sumn m (fun i => hardening_modulus h char (Nat.eqb current (b0 + i)) *
                             Rabs (trial (f (b0 + i)%nat) - old (f (b0 + i)%nat)))).
Proof.
  induction m as [|m IH]; intros b0 acc H; simpl; [f_equal; ring|].
  assert (E : nth_error (map f (seq 0 n)) b0 = Some (f b0)).
  { rewrite nth_error_map. assert (G : forall a k j, (j < k)%nat -> nth_error (seq a k) j = Some (a + j)%nat).
    { clear. intros a k; revert a; induction k; intros a j Hj; [lia|].
      destruct j; simpl; [f_equal; lia|]. rewrite IHk by lia. f_equal; lia. }
    rewrite G by lia. reflexivity. }
  rewrite E, IH by lia. f_equal.
  transitivity (acc + sumn (S m) (fun i => hardening_modulus h char (Nat.eqb current (b0 + i)) *
                             Rabs (trial (f (b0 + i)%nat) - old (f (b0 + i)%nat)))); [|reflexivity].
  replace (S m) with (1 + m)%nat by lia. rewrite sumn_app, sumn_1, Nat.add_0_r.
  rewrite Rplus_assoc. f_equal. f_equal. apply sumn_ext. intros i _.
  replace (b0 + (1 + i))%nat with (S b0 + i)%nat by lia. reflexivity.
Qed.

Lemma modulus_is h char s b :
  hardening_modulus h char (Nat.eqb s b) =
  linear_hardening_modulus h / char *
  (hardening_parameter h + (1 - hardening_parameter h) * kron s b).
Proof. unfold hardening_modulus, kron. destruct (Nat.eqb s b); reflexivity. Qed.

Definition law_at (h : hardening) (char : R) ns dof_at (trial old : vec) (p c s : nat) : R :=
  hardening_increment (linear_hardening_modulus h / char) (hardening_parameter h) ns s
    (increment_at dof_at trial old p c).

Lemma update_loop ns h char keys owned_slip active trial old dof_at :
  complete_keys ns keys owned_slip dof_at ->
  forall todo res, NoDup todo -> incl todo owned_slip ->
  exists res', update_resistances ns h char keys owned_slip active trial old todo res = Ok res' /\
    forall d, res' d =
      if andb (mem d todo) (mem d active)
      then res d + (let '(p, c, s) := keys d in law_at h char ns dof_at trial old p c s)
      else res d.
Proof.
  intros HC. induction todo as [|d todo IH]; intros res HN HI.
  - exists res. split; reflexivity.
  - inversion HN as [|? ? Hnd HN']; subst. simpl.
    assert (HI' : incl todo owned_slip) by (intros x Hx; apply HI; simpl; auto).
    destruct (mem d active) eqn:M.
    + destruct (proj1 (proj2 HC) d (HI d (or_introl eq_refl))) as (p & c & s & E & _).
      rewrite (dof_info_complete _ _ _ _ d p c s HC (HI d (or_introl eq_refl)) E).
      rewrite harden_dof_sum by lia. cbn [rbind].
      match goal with |- context [update_resistances _ _ _ _ _ _ _ _ todo ?r] =>
        destruct (IH r HN' HI') as (res' & E' & HR) end.
      exists res'. split; [exact E'|]. intros k. rewrite HR.
      destruct (Nat.eqb_spec k d) as [->|Hne]; simpl.
      * replace (mem d todo) with false by (symmetry; apply mem_not_In; exact Hnd).
        simpl. rewrite M, E. f_equal. unfold law_at, hardening_increment, increment_at.
        rewrite Rplus_0_l. apply sumn_ext. intros i _. rewrite modulus_is. reflexivity.
      * destruct (mem k todo && mem k active)%bool; reflexivity.
    + destruct (IH res HN' HI') as (res' & E' & HR). exists res'. split; [exact E'|].
      intros k. rewrite HR. destruct (Nat.eqb_spec k d) as [->|Hne]; simpl; [|reflexivity].
      rewrite M, Bool.andb_false_r. reflexivity.
Qed.

(** The new resistance of an active dof is the committed one plus the hardening law (the
    one proved for quadrature points in C10) evaluated with the slip increments of all
    systems of the same crystal at the same support point; inactive dofs keep theirs. *)
Theorem C45_active_dofs_follow_the_hardening_law : forall ns h char keys owned_slip active
  trial old dof_at res tmp,
  complete_keys ns keys owned_slip dof_at -> flag_perfect_plasticity h = false ->
  exists res', reset_and_update_slip_resistances ns h char keys owned_slip active trial old res tmp = Ok res' /\
    forall d,
      (In d owned_slip -> In d active -> forall p c s, keys d = (p, c, s) ->
         res' d = tmp d + hardening_increment (linear_hardening_modulus h / char)
                    (hardening_parameter h) ns s (increment_at dof_at trial old p c)) /\
      (~ In d active -> res' d = tmp d) /\
      (~ In d owned_slip -> res' d = tmp d).
Proof.
  intros ns h char keys owned_slip active trial old dof_at res tmp HC HP.
  unfold reset_and_update_slip_resistances. rewrite HP.
  destruct (update_loop ns h char keys owned_slip active trial old dof_at HC owned_slip tmp
    (proj1 HC) (incl_refl _)) as (res' & E & HR).
  exists res'. split; [exact E|]. intros d. repeat split.
  - intros H1 H2 p c s K. rewrite HR. apply mem_In in H1, H2. rewrite H1, H2, K. reflexivity.
  - intros H. rewrite HR. apply mem_not_In in H. rewrite H, Bool.andb_false_r. reflexivity.
  - intros H. rewrite HR. apply mem_not_In in H. rewrite H. reflexivity.
Qed.

(** Agreement with the quadrature-point object: same stored resistance, same increments,
    same result (for the same system of the same crystal). *)
Lemma harden_row_sum st slips old q alpha : forall m b0 acc,
  (forall b, (b < b0 + m)%nat -> exists x y, at2 slips b q = Some x /\ at2 old b q = Some y) ->
  harden_row st slips old q alpha (seq b0 m) acc =
  Ok (acc + sumn m (fun i => hardening_entry st (Nat.eqb alpha (b0 + i)) *
                             Rabs (dgamma slips old q (b0 + i)))).
Proof.
  induction m as [|m IH]; intros b0 acc H; simpl; [f_equal; ring|].
  destruct (H b0 ltac:(lia)) as (x & y & Ex & Ey). rewrite Ex, Ey.
  rewrite IH by (intros b Hb; apply H; lia). f_equal.
  change (sumn m ?f + ?g) with (sumn (S m) f). 
  transitivity (acc + sumn (S m) (fun i => hardening_entry st (Nat.eqb alpha (b0 + i)) *
                             Rabs (dgamma slips old q (b0 + i)))); [|reflexivity].
  replace (S m) with (1 + m)%nat by lia. rewrite sumn_app, sumn_1, Nat.add_0_r.
  rewrite Rplus_assoc. f_equal. f_equal.
  - unfold dgamma. rewrite Ex, Ey. reflexivity.
  - apply sumn_ext. intros i _. replace (b0 + (1 + i))%nat with (S b0 + i)%nat by lia. reflexivity.
Qed.

Theorem C45_dof_and_quadrature_hardening_agree : forall ns h char keys owned_slip active
  trial old dof_at res tmp res' d p c a (st : qph) slips olds q g0,
  complete_keys ns keys owned_slip dof_at -> flag_perfect_plasticity h = false ->
  reset_and_update_slip_resistances ns h char keys owned_slip active trial old res tmp = Ok res' ->
  In d owned_slip -> In d active -> keys d = (p, c, a) ->
  prm st = h -> char_res st = char -> g0 = tmp d ->
  (forall b, (b < ns)%nat -> at2 slips b q = Some (trial (dof_at p c b)) /\
                             at2 olds b q = Some (old (dof_at p c b))) ->
  harden_row st slips olds q a (seq 0 ns) g0 = Ok (res' d).
Proof.
  intros ns h char keys owned_slip active trial old dof_at res tmp res' d p c a st slips olds q g0
    HC HP HU H1 H2 K Eh Ec Eg Hs.
  destruct (C45_active_dofs_follow_the_hardening_law ns h char keys owned_slip active trial old
    dof_at res tmp HC HP) as (r & Er & HR).
  rewrite HU in Er. injection Er as <-.
  rewrite (proj1 (HR d) H1 H2 p c a K), harden_row_sum.
  - rewrite Eg. f_equal. f_equal. unfold hardening_increment. apply sumn_ext. intros i Hi.
    simpl. unfold hardening_entry, dgamma, increment_at, kron.
    destruct (Hs i Hi) as (E1 & E2). rewrite E1, E2, Eh, Ec.
    destruct (Nat.eqb a i); f_equal; ring.
  - intros b Hb. destruct (Hs b Hb) as (E1 & E2). eauto.
Qed.

(** Repeated updates within a step start from the stored values: nothing accumulates. *)
Theorem C45_updates_do_not_accumulate : forall ns h char keys owned_slip a1 t1 a2 t2 old r0 r1 tmp,
  flag_perfect_plasticity h = false ->
  reset_and_update_slip_resistances ns h char keys owned_slip a1 t1 old r0 tmp = Ok r1 ->
  reset_and_update_slip_resistances ns h char keys owned_slip a2 t2 old r1 tmp =
  reset_and_update_slip_resistances ns h char keys owned_slip a2 t2 old r0 tmp.
Proof. intros. unfold reset_and_update_slip_resistances. rewrite H. reflexivity. Qed.

(** With perfect plasticity nothing changes. *)
Theorem C45_perfect_plasticity_keeps : forall ns h char keys owned_slip a t old r tmp,
  flag_perfect_plasticity h = true ->
  reset_and_update_slip_resistances ns h char keys owned_slip a t old r tmp = Ok r.
Proof. intros. unfold reset_and_update_slip_resistances. rewrite H. reflexivity. Qed.

(** Finding the owner: the pair found is the crystal and slip system whose extractor
    selects the dof, when the extractors are disjoint (C39). *)
Theorem C45_owner_is_found : forall nc ns extracted d c s,
  (c < nc)%nat -> (s < ns)%nat -> extracted c s d = true ->
  (forall c' s', (c' < nc)%nat -> (s' < ns)%nat -> extracted c' s' d = true -> c' = c /\ s' = s) ->
  find_owner nc ns extracted d = (c, s).
Proof.
  intros nc ns ex d c s Hc Hs E HU. unfold find_owner.
  destruct (find _ _) as [[c' s']|] eqn:F.
  - apply find_some in F. destruct F as [Hin Ex]. apply in_flat_map in Hin.
    destruct Hin as (i & Hi & Hin). apply in_map_iff in Hin. destruct Hin as (j & Ej & Hj).
    injection Ej as <- <-. apply in_seq in Hi, Hj. simpl in Ex.
    destruct (HU i j ltac:(lia) ltac:(lia) Ex) as [-> ->]. reflexivity.
  - exfalso. pose proof (find_none _ _ F (c, s)) as N. simpl in N. rewrite N in E; [discriminate|].
    apply in_flat_map. exists c. split; [apply in_seq; lia|]. apply in_map_iff. exists s.
    split; auto. apply in_seq; lia.
Qed.

(** An inactive dof does not see the latent hardening that the quadrature points of its
    crystal see: with two systems of which only one is active the two laws differ. *)
Definition two_keys (d : nat) : key := (0%nat, 0%nat, d).
Lemma two_complete : complete_keys 2 two_keys [0; 1]%nat (fun _ _ b => b).
Proof.
  split; [|split].
  - constructor; [intros [|[]]; lia|]. constructor; [intros []|constructor].
  - intros d [<-|[<-|[]]]; unfold two_keys; [exists 0%nat, 0%nat, 0%nat|exists 0%nat, 0%nat, 1%nat]; split; auto with arith.
  - intros d p c s b Hd E Hb. unfold two_keys in *. injection E as <- <- <-.
    split; [destruct b as [|[|]]; simpl; try lia; auto|]. split; [reflexivity|].
    intros d' Hd' E'. injection E'; auto.
Qed.
Theorem C45_inactive_dof_misses_latent_hardening_refuted :
  exists trial res',
    reset_and_update_slip_resistances 2 (mk_hardening 1 1 1 false) 1 two_keys [0; 1]%nat [0%nat]
      trial (fun _ => 0) (fun _ => 1) (fun _ => 1) = Ok res' /\
    res' 1%nat = 1 /\
    1 + hardening_increment 1 1 2 1 (increment_at (fun _ _ b => b) trial (fun _ => 0) 0 0) = 2.
Proof.
  set (trial := fun d : nat => if Nat.eqb d 0 then 1 else 0).
  destruct (C45_active_dofs_follow_the_hardening_law 2 (mk_hardening 1 1 1 false) 1 two_keys
    [0; 1]%nat [0%nat] trial (fun _ => 0) (fun _ b c => c) (fun _ => 1) (fun _ => 1)
    two_complete eq_refl) as (res' & E & HR).
  exists trial, res'. split; [exact E|]. split.
  - apply (proj1 (proj2 (HR 1%nat))). intros [E1|[]]; discriminate.
  - unfold hardening_increment, increment_at, trial; simpl.
    rewrite !Rminus_0_r, Rabs_R0, Rabs_R1. ring.
Qed.
Example C45_example : complete_keys 2 two_keys [0; 1]%nat (fun _ _ b => b).
Proof. exact two_complete. Qed.
