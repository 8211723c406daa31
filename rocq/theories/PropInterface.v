(** * C12-C17: interface (grain-boundary) histories. *)
From Coquelicot Require Import Coquelicot.
From Verif Require Import Num SumLemmas Tensors TensorLemmas ModelUtilities ProofUtilities
  ModelCohesive ModelInterface SpecInterface ProofInterface.
Open Scope R_scope.

(** C12. For every call history of the exponential model the damage is the stated function of
    the recorded maximum opening, lies in [0,1) (and no call fails). *)
Theorem C12_exponential_damage_law : forall p os,
  0 < i_crit_opening p -> Forall exp_call os ->
  exists s, irun i_construct (IInit p :: os) = Ok s /\ 0 <= i_max s /\
  i_damage s = Fin (if i_zero_damage p then 0
                    else 1 - (1 + i_max s / i_crit_opening p) * exp (- (i_max s / i_crit_opening p))) /\
  exists x, i_damage s = Fin x /\ 0 <= x < 1.
Proof. exact exp_damage_law. Qed.
Print Assumptions C12_exponential_damage_law.

(** C12. Irreversibility: committed damage after more calls is at least the earlier committed
    damage, and the current damage at least the committed one. *)
Theorem C12_committed_damage_never_decreases : forall p os1 os2 s1 s2,
  0 < i_crit_opening p -> Forall exp_call os1 -> Forall exp_call os2 ->
  irun i_construct (IInit p :: os1) = Ok s1 -> irun s1 os2 = Ok s2 ->
  exists a b x, i_tmp0 s1 = Fin a /\ i_tmp0 s2 = Fin b /\ i_damage s2 = Fin x /\ a <= b <= x.
Proof. exact exp_committed_monotone. Qed.
Print Assumptions C12_committed_damage_never_decreases.

(** C13. *)
Theorem C13_recorded_maximum_is_history_maximum : forall os p s,
  Forall upd_call os -> irun i_construct (IInit p :: os) = Ok s -> i_max s = expected_max os.
Proof. exact recorded_max. Qed.
Print Assumptions C13_recorded_maximum_is_history_maximum.

(** The specification on a concrete history: 3 is rolled back, 2 committed, 1 pending. *)
Example C13_expected_example :
  expected_max [IUpdateExp 3; IReset; IUpdateExp 5; IUpdateExp 2; IStore; IUpdateExp 1] = Rmax 1 (Rmax 2 0).
Proof. reflexivity. Qed.

(** C14. Never above one, for every history and all non-negative parameters. *)
Theorem C14_rate_damage_at_most_one_partial : forall p os,
  0 <= i_accumulation p -> 0 <= i_decay p -> 0 <= i_decay_exp p -> Forall rate_call os ->
  exists s x, irun i_construct (IInit p :: os) = Ok s /\ i_damage s = Fin x /\ x <= 1.
Proof. intros p os A B C. exact (rate_damage_at_most_one p os (conj A (conj B C))). Qed.
Print Assumptions C14_rate_damage_at_most_one_partial.

(** C14. The update is the rate law, from the committed damage and the stored opening, whatever
    uncommitted values the point holds. *)
Theorem C14_update_is_rate_law : forall p s d0 eff char force,
  i_prm s = Some p -> i_zero_damage p = false -> i_tmp0 s = Fin d0 -> 0 < 1 - d0 + i_decay p ->
  exists s', istep s (IUpdateRate eff char force) = Ok s' /\
  i_damage s' = Fin (M1_law (i_accumulation p) (i_decay p) (i_decay_exp p) (i_endurance p) char
                            d0 (i_old s) eff force) /\
  i_max s' = Rmax (i_tmp1 s) eff /\ i_tmp0 s' = i_tmp0 s /\ i_tmp1 s' = i_tmp1 s.
Proof.
  intros p s d0 eff char force Hp Z T B. eexists. unfold istep. rewrite Hp, Z. split; [reflexivity|].
  cbn [i_damage i_max i_tmp0 i_tmp1]. rewrite max_if. split; [|auto].
  rewrite T. unfold rate_damage, M1_law, cpow. rewrite (proj2 (Rltb_true _ _) B).
  cbn [xmul xadd xgtb]. rewrite macaulay_max. unfold xgtb, xltb.
  match goal with |- (if Rltb 1 ?v then _ else _) = _ => set (d1 := v) end.
  destruct (Rltb 1 d1) eqn:C.
  - apply Rltb_true in C. rewrite Rmin_left by lra. reflexivity.
  - apply Rltb_false in C. rewrite Rmin_right by lra. reflexivity.
Qed.
Print Assumptions C14_update_is_rate_law.

(** C14. The driving force is minus the derivative of (1-d)^m times the free energy: for a damage
    d < 1 at the point it is m (1-d)^(m-1) psi. *)
Theorem C14_driving_force : forall m energy eff char s dmg,
  i_damage s = Fin dmg -> dmg < 1 ->
  update_point_M1 m energy eff char s =
  istep s (IUpdateRate eff char (m * Rpower (1 - dmg) (m - 1) * energy)) /\
  is_derive (fun x => Rpower (1 - x) m * energy) dmg (- (m * Rpower (1 - dmg) (m - 1) * energy)).
Proof.
  intros m energy eff char s dmg H L. split.
  - unfold update_point_M1, degradation_derivative. rewrite H. unfold cpow.
    rewrite (proj2 (Rltb_true _ _)) by lra. cbn [xmul xneg].
    f_equal. f_equal. ring.
  - unfold Rpower. auto_derive; [lra|].
    replace (exp ((m - 1) * ln (1 - dmg))) with (exp (m * ln (1 - dmg)) / (1 - dmg)).
    + change (1 + - dmg) with (1 - dmg). field. lra.
    + replace ((m - 1) * ln (1 - dmg)) with (m * ln (1 - dmg) + - ln (1 - dmg)) by ring.
      rewrite exp_plus, exp_Ropp, exp_ln by lra. reflexivity.
Qed.
Print Assumptions C14_driving_force.

(** C14. Irreversible as long as every force reaches the endurance limit. *)
Theorem C14_rate_damage_irreversible_partial : forall p os1 os2 s1 s2,
  0 <= i_accumulation p -> 0 <= i_decay p -> 0 <= i_decay_exp p -> i_zero_damage p = false ->
  Forall (forced p) os1 -> Forall (forced p) os2 ->
  irun i_construct (IInit p :: os1) = Ok s1 -> irun s1 os2 = Ok s2 ->
  exists a b x, i_tmp0 s1 = Fin a /\ i_tmp0 s2 = Fin b /\ i_damage s2 = Fin x /\ 0 <= a <= b /\ b <= x.
Proof.
  intros p os1 os2 s1 s2 A B C. exact (rate_committed_monotone p os1 os2 s1 s2 (conj A (conj B C))).
Qed.
Print Assumptions C14_rate_damage_irreversible_partial.

(** C14, second half refuted: with an endurance limit above the force the interface heals,
    down to negative damage (force 1, endurance limit 2, opening 1). *)
Theorem C14_rate_damage_irreversible_refuted : exists p s x,
  0 <= i_accumulation p /\ 0 <= i_decay p /\ 0 <= i_decay_exp p /\ 0 <= i_endurance p /\
  irun i_construct [IInit p; IUpdateRate 1 1 1; IStore] = Ok s /\ i_damage s = Fin x /\ x < 0.
Proof. exact rate_heals. Qed.
Print Assumptions C14_rate_damage_irreversible_refuted.

(** C15. Exponential model: a second evaluation for the same trial changes nothing. *)
Theorem C15_exponential_update_repeatable : forall eff s s1,
  update_point_exp eff s = Ok s1 -> update_point_exp eff s1 = Ok s1.
Proof. exact exp_idempotent. Qed.
Print Assumptions C15_exponential_update_repeatable.

(** C15. Rate model: repeatable for degradation exponent one ... *)
Theorem C15_rate_update_repeatable_partial : forall p energy eff char s s1,
  0 <= i_accumulation p -> 0 <= i_decay p -> 0 <= i_decay_exp p -> rate_inv p s ->
  update_point_M1 1 energy eff char s = Ok s1 -> update_point_M1 1 energy eff char s1 = Ok s1.
Proof. intros p energy eff char s s1 A B C. exact (rate_idempotent_linear p energy eff char s s1 (conj A (conj B C))). Qed.
Print Assumptions C15_rate_update_repeatable_partial.

(** ... and not repeatable in general: exponent 2 gives damage 1/2, then 1/4, for the same trial
    (the force is evaluated with the not yet rolled back damage). *)
Theorem C15_rate_update_repeatable_refuted : exists m energy eff char s s1 s2,
  update_point_M1 m energy eff char s = Ok s1 /\ update_point_M1 m energy eff char s1 = Ok s2 /\
  i_damage s1 = Fin (1/2) /\ i_damage s2 = Fin (1/4).
Proof. exact rate_not_idempotent. Qed.
Print Assumptions C15_rate_update_repeatable_refuted.

Example C15_state_is_reachable : irun i_construct [IInit prm_m1] = Ok st_m1 /\ rate_inv prm_m1 st_m1.
Proof. split; [reflexivity|]. split; [reflexivity|]. exists 0, 0. simpl. repeat split; lra. Qed.

(** A second init keeps the parameters (and the state) of the first. *)
Theorem C14_second_init_ignored : forall p q, 
  exists s, irun i_construct [IInit p] = Ok s /\ irun i_construct [IInit p; IInit q] = Ok s /\
  forall os r, irun s os = Ok r -> irun s (os ++ [IInit q]) = Ok r.
Proof.
  intros p q. eexists. split; [reflexivity|]. split; [reflexivity|].
  assert (K : forall os s r, i_prm s <> None -> irun s os = Ok r -> i_prm r <> None).
  { induction os as [|o os IH]; intros s r N H.
    - inversion H; subst; auto.
    - cbn in H. destruct (istep s o) as [s1| |] eqn:E; try discriminate. cbn in H.
      apply (IH s1 r); auto. destruct o; cbn in E; destruct (i_prm s) eqn:P; try congruence;
      inversion E; subst; cbn; congruence. }
  intros os r H. assert (N : i_prm r <> None) by (eapply K; [|exact H]; cbn; discriminate).
  revert H. generalize (mk_ihist (Some p) (i_damage i_construct) (i_max i_construct) (i_old i_construct)
     (i_tmp0 i_construct) (i_tmp1 i_construct)). induction os as [|o os IH]; intros s H.
  - inversion H; subst. cbn. destruct (i_prm r); [reflexivity|congruence].
  - cbn in *. destruct (istep s o) as [s1| |]; try discriminate. cbn in *. apply IH; auto.
Qed.
Print Assumptions C14_second_init_ignored.

(** Setting the damage by hand does not commit it: a reset brings back the committed value. *)
Theorem C12_set_damage_is_uncommitted : forall s v s1 s2,
  istep s (ISet v) = Ok s1 -> istep s1 IReset = Ok s2 ->
  i_damage s1 = Fin v /\ i_damage s2 = i_tmp0 s /\ i_max s1 = i_max s /\ i_tmp0 s1 = i_tmp0 s.
Proof. intros s v s1 s2 A B. inversion A; subst. inversion B; subst. repeat split. Qed.
Print Assumptions C12_set_damage_is_uncommitted.

(** C72. *)
Theorem C72_running_maximum : forall os s v, Forall id_call os ->
  id_value (id_run s (DInit v :: DPrepare :: os)) = fold_left Rmax (counted os true) v.
Proof.
  intros os s v H. change (id_run s (DInit v :: DPrepare :: os)) with
    (id_run (id_step (id_step s (DInit v)) DPrepare) os). cbn [id_step id_init id_prepare id_value].
  assert (G : forall t, id_value (id_run t os) = fold_left Rmax (counted os (negb (id_updated t))) (id_value t));
    [|exact (G (mk_idata v false))].
  clear s v.
  induction os as [|o os IH]; intros s; [reflexivity|].
  inversion H as [|? ? Ho Hos]; subst. cbn [id_run fold_left]. fold (id_run (id_step s o) os).
  rewrite (IH Hos). destruct o as [v| |d a b]; [destruct Ho| |].
  - reflexivity.
  - cbn [id_step counted]. unfold id_update. destruct s as [x u]; destruct u; cbn [id_updated negb id_value].
    + reflexivity.
    + cbn [fold_left]. rewrite max_if. reflexivity.
Qed.
Print Assumptions C72_running_maximum.

(** It never falls and bounds every counted jump. *)
Theorem C72_maximum_bounds : forall os s v x, Forall id_call os ->
  In x (v :: counted os true) -> x <= id_value (id_run s (DInit v :: DPrepare :: os)).
Proof.
  intros os s v x H I. rewrite C72_running_maximum by auto. generalize (counted os true) v I. clear.
  assert (M : forall l a, a <= fold_left Rmax l a).
  { induction l as [|y l IH]; intros a; cbn; [lra|]. eapply Rle_trans; [|apply IH]. apply Rmax_l. }
  induction l as [|y l IH]; intros v [->|I]; cbn; try lra; try (destruct I; fail).
  - eapply Rle_trans; [|apply M]. apply Rmax_l.
  - destruct I as [->|I].
    + eapply Rle_trans; [|apply M]. apply Rmax_r.
    + apply (IH (Rmax v y)). right; exact I.
Qed.
Print Assumptions C72_maximum_bounds.

Definition e00 : vec := fun i => match i with 0%nat => 1 | _ => 0 end.
Example C72_example : counted [DUpdate 2 e00 vzero; DUpdate 2 vzero vzero; DPrepare; DUpdate 2 vzero e00] true
   = [1; 1].
Proof.
  cbn. f_equal; [|f_equal].
  - unfold e00, vzero. replace (0 + _ + _) with 1 by ring. apply sqrt_1.
  - unfold e00, vzero. replace (0 + _ + _) with 1 by ring. apply sqrt_1.
Qed.

(** C16. The stored opening equals the law's opening exactly when the interface is not
    compressed; otherwise it overestimates it. *)
Theorem C16_stored_opening_is_law_opening_partial : forall d r uc un n,
  unit_vec d n ->
  (stored_opening r d uc un n = effective_opening d r (vsub un uc) n
     <-> 0 <= dot d n (vsub un uc)) /\
  effective_opening d r (vsub un uc) n <= stored_opening r d uc un n.
Proof.
  intros d r uc un n U. exact (conj (stored_is_effective_iff d r uc un n U) (stored_ge_effective d r uc un n U)).
Qed.
Print Assumptions C16_stored_opening_is_law_opening_partial.

Definition e0 : vec := fun i => kron i 0.
Theorem C16_stored_opening_is_law_opening_refuted : exists d r uc un n,
  unit_vec d n /\ stored_opening r d uc un n <> effective_opening d r (vsub un uc) n.
Proof.
  exists 2%nat, 1, e0, vzero, e0.
  assert (U : unit_vec 2 e0) by (unfold unit_vec, dot, e0, kron; simpl; lra).
  split; auto. intros H. apply stored_is_effective_iff in H; auto.
  unfold dot, vsub, vzero, e0, kron in H. simpl in H. lra.
Qed.
Print Assumptions C16_stored_opening_is_law_opening_refuted.

(** C17. Order of the two cells does not matter ... *)
Theorem C17_lookup_symmetric : forall os a b,
  snd (get_data (srun os) a b) = snd (get_data (srun os) b a).
Proof. intros os a b. exact (proj1 (get_symmetric (srun os) a b)). Qed.
Print Assumptions C17_lookup_symmetric.

(** ... different unordered pairs never share a history object ... *)
Theorem C17_no_aliasing : forall os a b a' b' x,
  In x (snd (get_data (srun os) a b)) -> In x (snd (get_data (srun os) a' b')) ->
  (a = a' /\ b = b') \/ (a = b' /\ b = a').
Proof. exact get_no_alias. Qed.
Print Assumptions C17_no_aliasing.

(** ... later initialisations and lookups keep the existing objects ... *)
Theorem C17_existing_data_is_kept : forall os os' a b,
  snd (get_data (srun os) a b) <> [] ->
  snd (get_data (srun (os ++ os')) a b) = snd (get_data (srun os) a b).
Proof. exact get_stable. Qed.
Print Assumptions C17_existing_data_is_kept.

(** ... and every interface face of the first initialisation gets one distinct object per
    quadrature point, from whichever side it was visited. *)
Theorem C17_initialised_faces_have_data : forall nq faces a b,
  In (a, b) faces \/ In (b, a) faces ->
  length (snd (get_data (srun [SInit nq faces]) a b)) = nq /\
  NoDup (snd (get_data (srun [SInit nq faces]) a b)).
Proof. exact get_after_init. Qed.
Print Assumptions C17_initialised_faces_have_data.

(** Finding: a lookup *before* initialize (release build) inserts an empty vector which a
    later initialize never replaces. *)
Theorem C17_lookup_before_initialise_poisons : forall nq a b,
  snd (get_data (srun [SGet a b; SInit nq [(a, b)]]) a b) = [].
Proof. exact poisoned. Qed.
Print Assumptions C17_lookup_before_initialise_poisons.

Example C17_nonvacuous :
  snd (get_data (srun [SInit 2 [(3, 7); (7, 3); (9, 3)]%nat]) 7 3) = [0; 1]%nat /\
  snd (get_data (srun [SInit 2 [(3, 7); (7, 3); (9, 3)]%nat]) 3 9) = [2; 3]%nat.
Proof. split; reflexivity. Qed.

Definition prm_ex12 : iprm := mk_iprm (25/1000) 1 1 0 1 0 false.
Example C12_nonvacuous : 0 < i_crit_opening prm_ex12 /\
  Forall exp_call [IUpdateExp (1/100); IStore; IUpdateExp (1/200); IReset] /\
  Forall (forced prm_ex12) [IUpdateRate 1 1 2; IStore].
Proof.
  simpl. split; [lra|]. split; repeat constructor; simpl; lra.
Qed.
