From Verif Require Import Num SumLemmas ModelHistory SpecHistory.
Open Scope R_scope.

Definition wf (s : qph) : Prop :=
  flag_init s = true -> length (slip_res s) = n_slips s /\ length (tmp_res s) = n_slips s.

Lemma harden_all_length s sl old q : forall res a v,
  harden_all s sl old q a res = Ok v -> length v = length res.
Proof.
  induction res as [|r rs IH]; simpl; intros a v H.
  - inversion H; reflexivity.
  - destruct (harden_row _ _ _ _ _ _ _) eqn:E1; simpl in H; try discriminate.
    destruct (harden_all s sl old q (S a) rs) eqn:E2; simpl in H; try discriminate.
    inversion H; subst. simpl. f_equal. eapply IH; eauto.
Qed.

Lemma step_wf s o s' : wf s -> step s o = Ok s' -> wf s'.
Proof.
  intros W H. destruct o; simpl in H.
  - inversion H; subst; intro; simpl. rewrite repeat_length. auto.
  - destruct (flag_init s) eqn:F; inversion H; subst; intro; simpl. destruct (W F). auto.
  - destruct (flag_init s) eqn:F; inversion H; subst; intro; simpl. destruct (W F). auto.
  - destruct (flag_init s) eqn:F; [|discriminate]. destruct (W F).
    destruct (flag_perfect_plasticity (prm s)).
    + inversion H; subst; intro; simpl; auto.
    + destruct (harden_all _ _ _ _ _ _) eqn:E; simpl in H; try discriminate.
      inversion H; subst; intro; simpl. apply harden_all_length in E. split; auto; congruence.
Qed.

Lemma run_wf os : forall s s', wf s -> run s os = Ok s' -> wf s'.
Proof.
  induction os as [|o os IH]; simpl; intros s s' W H.
  - inversion H; subst; auto.
  - destruct (step s o) eqn:E; try discriminate; eauto using step_wf.
Qed.

(** ** C11 *)
Lemma run_uninit os : forall s s', flag_init s = false -> Forall not_init os ->
  run s os = Ok s' -> s' = s.
Proof.
  induction os as [|o os IH]; simpl; intros s s' F A H.
  - inversion H; auto.
  - inversion A; subst. destruct o; simpl in *; try contradiction; rewrite F in H; eauto.
Qed.

Lemma run_uninit_ok os s : flag_init s = false -> Forall not_init os -> run s os = Ok s.
Proof.
  intros F. induction os as [|o os IH]; simpl; intros A; [reflexivity|].
  inversion A; subst. destruct o; simpl in *; try contradiction; rewrite F; auto.
Qed.

(** ** C09 *)
Lemma step_uncommitted s o s' : uncommitted o -> step s o = Ok s' ->
  flag_init s' = flag_init s /\ n_slips s' = n_slips s /\ prm s' = prm s /\
  char_res s' = char_res s /\ tmp_res s' = tmp_res s.
Proof.
  intros U H. destruct o; simpl in *; try contradiction.
  - destruct (flag_init s) eqn:F; inversion H; subst; simpl; auto.
  - destruct (flag_init s) eqn:F; [|discriminate].
    destruct (flag_perfect_plasticity (prm s)).
    + inversion H; subst; simpl; auto.
    + destruct (harden_all _ _ _ _ _ _); simpl in H; try discriminate.
      inversion H; subst; simpl; auto.
Qed.

Lemma run_uncommitted os : forall s s', Forall uncommitted os -> run s os = Ok s' ->
  flag_init s' = flag_init s /\ n_slips s' = n_slips s /\ prm s' = prm s /\
  char_res s' = char_res s /\ tmp_res s' = tmp_res s.
Proof.
  induction os as [|o os IH]; simpl; intros s s' A H.
  - inversion H; subst; auto.
  - inversion A; subst. destruct (step s o) as [s1| |] eqn:E; try discriminate.
    + destruct (step_uncommitted s o s1) as (A1&A2&A3&A4&A5); auto.
      destruct (IH s1 s') as (B1&B2&B3&B4&B5); auto.
      repeat split; congruence.
    + apply IH; auto.
Qed.

Lemma harden_row_ext s1 s2 sl old q a : n_slips s1 = n_slips s2 ->
  prm s1 = prm s2 -> char_res s1 = char_res s2 -> forall bs acc,
  harden_row s1 sl old q a bs acc = harden_row s2 sl old q a bs acc.
Proof.
  intros E1 E2 E3. induction bs as [|b bs IH]; simpl; intros; auto.
  destruct (at2 sl b q), (at2 old b q); auto.
  rewrite IH. unfold hardening_entry. rewrite E2, E3. reflexivity.
Qed.

Lemma harden_all_ext s1 s2 sl old q : n_slips s1 = n_slips s2 ->
  prm s1 = prm s2 -> char_res s1 = char_res s2 -> forall res a,
  harden_all s1 sl old q a res = harden_all s2 sl old q a res.
Proof.
  intros E1 E2 E3. induction res as [|r rs IH]; simpl; intros; auto.
  rewrite E1, (harden_row_ext s1 s2) by auto. rewrite IH. reflexivity.
Qed.

Lemma update_no_trace os s s' q sl old : Forall uncommitted os -> run s os = Ok s' ->
  step s' (Update q sl old) = step s (Update q sl old).
Proof.
  intros A H. destruct (run_uncommitted os s s' A H) as (E1&E2&E3&E4&E5).
  simpl. rewrite E1, E3, E2, E4, E5.
  rewrite (harden_all_ext s' s) by auto. reflexivity.
Qed.

Lemma reset_restores os s s' : Forall uncommitted os -> run s os = Ok s' ->
  flag_init s = true ->
  exists s'', step s' Reset = Ok s'' /\ slip_res s'' = tmp_res s.
Proof.
  intros A H F. destruct (run_uncommitted os s s' A H) as (E1&E2&E3&E4&E5).
  simpl. rewrite E1, F. eexists; split; [reflexivity|]. simpl. auto.
Qed.

(** ** C10 *)
Lemma harden_row_value s sl old q a n : forall (k : nat) acc,
  (forall b, (k <= b < k + n)%nat -> (exists x, at2 sl b q = Some x) /\ (exists x, at2 old b q = Some x)) ->
  harden_row s sl old q a (seq k n) acc =
  Ok (acc + sumn n (fun i => hardening_entry s (Nat.eqb a (k + i)) * Rabs (dgamma sl old q (k + i)))).
Proof.
  induction n as [|n IH]; intros k acc H; simpl.
  - f_equal; lra.
  - destruct (H k) as [[x Hx] [y Hy]]; [lia|]. rewrite Hx, Hy.
    rewrite IH by (intros; apply H; lia). f_equal.
    pose proof (sumn_app 1 n (fun i => hardening_entry s (a =? k + i) * Rabs (dgamma sl old q (k + i)))) as K.
    simpl in K. rewrite Rplus_0_l in K. rewrite K. rewrite Nat.add_0_r.
    unfold dgamma at 2. rewrite Hx, Hy.
    rewrite Rplus_assoc. f_equal. f_equal.
    apply sumn_ext; intros. replace (k + S i)%nat with (S (k + i)) by lia. reflexivity.
Qed.

Lemma hardening_entry_value s a b :
  hardening_entry s (Nat.eqb a b) =
  linear_hardening_modulus (prm s) / char_res s *
  (hardening_parameter (prm s) + (1 - hardening_parameter (prm s)) * kron a b).
Proof. unfold hardening_entry, kron. destruct (Nat.eqb a b); ring. Qed.

Definition incr (s : qph) (sl old : list (list R)) (q a : nat) : R :=
  hardening_increment (linear_hardening_modulus (prm s) / char_res s)
    (hardening_parameter (prm s)) (n_slips s) a (dgamma sl old q).

Lemma harden_all_value s sl old q :
  readable (n_slips s) sl q -> readable (n_slips s) old q -> forall res a,
  exists v, harden_all s sl old q a res = Ok v /\ length v = length res /\
  forall i r, nth_error res i = Some r -> nth_error v i = Some (r + incr s sl old q (a + i)).
Proof.
  intros R1 R2. induction res as [|r rs IH]; simpl; intros a.
  - exists []. repeat split; auto. intros [|i] ? H; discriminate H.
  - rewrite harden_row_value by (intros; split; [apply R1|apply R2]; lia).
    simpl. destruct (IH (S a)) as (v & E & L & V). rewrite E. simpl.
    eexists; split; [reflexivity|]. split; [simpl; congruence|].
    intros [|i] x H; simpl in *.
    + inversion H; subst. rewrite Nat.add_0_r. f_equal. f_equal. unfold incr, hardening_increment.
      apply sumn_ext; intros. rewrite hardening_entry_value. reflexivity.
    + rewrite (V i x H). replace (a + S i)%nat with (S a + i)%nat by lia. reflexivity.
Qed.

Lemma update_value s sl old q :
  wf s -> flag_init s = true -> flag_perfect_plasticity (prm s) = false ->
  readable (n_slips s) sl q -> readable (n_slips s) old q ->
  exists s', step s (Update q sl old) = Ok s' /\
  forall a r, get_old_slip_resistance s a = Ok r ->
    get_slip_resistance s' a = Ok (r + incr s sl old q a) /\
    get_old_slip_resistance s' a = Ok r.
Proof.
  intros W F P R1 R2. simpl. rewrite F, P.
  destruct (harden_all_value s sl old q R1 R2 (tmp_res s) 0) as (v & E & L & V).
  rewrite E. simpl. eexists; split; [reflexivity|].
  intros a r H. unfold get_old_slip_resistance, get_slip_resistance in *. rewrite F in H. simpl.
  destruct (nth_error (tmp_res s) a) eqn:N; [|discriminate]. inversion H; subst.
  rewrite (V a r N). auto.
Qed.

Definition good_prm (p : hardening) (c : R) : Prop :=
  0 <= linear_hardening_modulus p /\ 0 <= hardening_parameter p /\ 0 < c.

Lemma incr_nonneg s sl old q a : good_prm (prm s) (char_res s) -> (0 <= incr s sl old q a).
Proof.
  intros (H1 & H2 & H3). unfold incr, hardening_increment. apply sumn_nonneg. intros b _.
  apply Rmult_le_pos; [|apply Rabs_pos].
  apply Rmult_le_pos.
  - apply Rmult_le_pos; auto. apply Rlt_le, Rinv_0_lt_compat; auto.
  - unfold kron. destruct (Nat.eqb a b); lra.
Qed.

Definition ge_list (u v : list R) : Prop :=
  length u = length v /\ forall i x y, nth_error u i = Some x -> nth_error v i = Some y -> y <= x.

Lemma ge_list_refl v : ge_list v v.
Proof. split; auto. intros i x y A B. rewrite A in B; inversion B; lra. Qed.

Lemma ge_list_trans u v w : ge_list u v -> ge_list v w -> ge_list u w.
Proof.
  intros [L1 H1] [L2 H2]. split; [congruence|]. intros i x y A B.
  destruct (nth_error v i) as [z|] eqn:N.
  - pose proof (H1 i x z A N). pose proof (H2 i z y N B). lra.
  - apply nth_error_None in N. assert (i < length u)%nat by (apply nth_error_Some; congruence). lia.
Qed.

(** An Ok result of the row loop needs no readability hypothesis. *)
Lemma harden_row_ge s sl old q a : good_prm (prm s) (char_res s) -> forall bs acc r,
  harden_row s sl old q a bs acc = Ok r -> acc <= r.
Proof.
  intros (H1 & H2 & H3). induction bs as [|b bs IH]; simpl; intros acc r H.
  - inversion H; lra.
  - destruct (at2 sl b q) as [g|], (at2 old b q) as [g0|]; try discriminate.
    apply IH in H.
    assert (0 <= hardening_entry s (a =? b) * Rabs (g - g0)); [|lra].
    apply Rmult_le_pos; [|apply Rabs_pos]. rewrite hardening_entry_value.
    apply Rmult_le_pos.
    + apply Rmult_le_pos; auto. apply Rlt_le, Rinv_0_lt_compat; auto.
    + unfold kron. destruct (Nat.eqb a b); lra.
Qed.

Lemma harden_all_ge s sl old q : good_prm (prm s) (char_res s) -> forall res a v,
  harden_all s sl old q a res = Ok v -> ge_list v res.
Proof.
  intros G. induction res as [|r rs IH]; simpl; intros a v H.
  - inversion H; subst. apply ge_list_refl.
  - destruct (harden_row _ _ _ _ _ _ _) as [r'| |] eqn:E1; simpl in H; try discriminate.
    destruct (harden_all s sl old q (S a) rs) as [rs'| |] eqn:E2; simpl in H; try discriminate.
    inversion H; subst. destruct (IH _ _ E2) as [L K]. split; [simpl; congruence|].
    intros [|i] x y A B; simpl in *.
    + inversion A; inversion B; subst. eapply harden_row_ge; eauto.
    + eauto.
Qed.

(** Invariant: current >= committed >= floor. *)
Definition above (fl : list R) (s : qph) : Prop :=
  flag_init s = true /\ ge_list (slip_res s) (tmp_res s) /\ ge_list (tmp_res s) fl.

Lemma step_above fl s o s' : good_prm (prm s) (char_res s) -> not_init o ->
  above fl s -> step s o = Ok s' ->
  above fl s' /\ prm s' = prm s /\ char_res s' = char_res s /\ ge_list (tmp_res s') (tmp_res s).
Proof.
  intros G N (F & A & B) H. destruct o; simpl in *; try contradiction; rewrite F in H.
  - inversion H; subst; simpl. split; [|repeat split; auto; apply A].
    split; auto. split; [apply ge_list_refl|apply (ge_list_trans _ _ _ A B)].
  - inversion H; subst; simpl. split; [|repeat split; auto; apply ge_list_refl].
    split; auto. split; [apply ge_list_refl|auto].
  - destruct (flag_perfect_plasticity (prm s)).
    + inversion H; subst; simpl. split; [|repeat split; auto; apply ge_list_refl].
      split; auto. split; [apply ge_list_refl|auto].
    + destruct (harden_all _ _ _ _ _ _) as [v| |] eqn:E; simpl in H; try discriminate.
      inversion H; subst; simpl. apply harden_all_ge in E; auto.
      split; [|repeat split; auto; apply ge_list_refl]. split; auto.
Qed.

Lemma run_above fl os : forall s s', good_prm (prm s) (char_res s) -> Forall not_init os ->
  above fl s -> run s os = Ok s' -> above fl s' /\ ge_list (tmp_res s') (tmp_res s) /\
  prm s' = prm s /\ char_res s' = char_res s.
Proof.
  induction os as [|o os IH]; simpl; intros s s' G N A H.
  - inversion H; subst; repeat split; auto; apply ge_list_refl || apply A.
  - inversion N; subst. destruct (step s o) as [s1| |] eqn:E; try discriminate.
    + destruct (step_above fl s o s1) as (B1 & B2 & B3 & B4); auto.
      destruct (IH s1 s') as (C1 & C2 & C3 & C4); auto; [congruence|].
      split; auto. split; [eapply ge_list_trans; eauto|split; congruence].
    + apply IH; auto.
Qed.

Lemma nth_error_repeat {A} (x : A) n i : (i < n)%nat -> nth_error (repeat x n) i = Some x.
Proof. revert i; induction n; intros [|i] H; simpl; try lia; auto. apply IHn; lia. Qed.

Lemma never_softens os s0 p n c s' a r r0 :
  good_prm p c -> Forall not_init os ->
  run s0 (Init p n c :: os) = Ok s' ->
  get_slip_resistance s' a = Ok r -> get_old_slip_resistance s' a = Ok r0 ->
  initial_slip_resistance p / c <= r0 <= r.
Proof.
  intros G N H A B. simpl in H.
  set (v := repeat (initial_slip_resistance p / c) n) in *.
  destruct (run_above v os (mk_qph true n p c v v) s') as [(F & K1 & K2) _]; auto.
  { split; simpl; auto. split; apply ge_list_refl. }
  unfold get_slip_resistance, get_old_slip_resistance in *. rewrite F in *.
  destruct (nth_error (slip_res s') a) as [x|] eqn:E1; [|discriminate].
  destruct (nth_error (tmp_res s') a) as [y|] eqn:E2; [|discriminate].
  inversion A; inversion B; subst. split.
  - destruct K2 as [L K2]. eapply K2; eauto. apply nth_error_repeat.
    unfold v in L. rewrite repeat_length in L. rewrite <- L.
    apply nth_error_Some. congruence.
  - destruct K1 as [_ K1]. eapply K1; eauto.
Qed.

(** Committed values only grow: the committed value after [os1 ++ os2] is at least the
    committed value after [os1]. *)
Lemma committed_grows os1 os2 s0 p n c s1 s2 a r1 r2 :
  good_prm p c -> Forall not_init os1 -> Forall not_init os2 ->
  run s0 (Init p n c :: os1) = Ok s1 -> run s1 os2 = Ok s2 ->
  get_old_slip_resistance s1 a = Ok r1 -> get_old_slip_resistance s2 a = Ok r2 ->
  r1 <= r2.
Proof.
  intros G N1 N2 H1 H2 A B. simpl in H1.
  set (v := repeat (initial_slip_resistance p / c) n) in *.
  assert (I0 : above v (mk_qph true n p c v v)) by (split; simpl; auto; split; apply ge_list_refl).
  destruct (run_above v os1 (mk_qph true n p c v v) s1 G N1 I0 H1) as (A1 & _ & P1 & P2). simpl in P1, P2.
  destruct (run_above v os2 s1 s2) as (A2 & K & _); auto; [congruence|].
  destruct A1 as [F1 _], A2 as [F2 _].
  unfold get_old_slip_resistance in *. rewrite F1 in A. rewrite F2 in B.
  destruct (nth_error (tmp_res s1) a) as [x|] eqn:E1; [|discriminate].
  destruct (nth_error (tmp_res s2) a) as [y|] eqn:E2; [|discriminate].
  inversion A; inversion B; subst. destruct K as [_ K]. eapply K; eauto.
Qed.

(** Perfect plasticity: nothing ever changes. *)
Definition frozen (v : list R) (s : qph) : Prop :=
  flag_init s = true /\ flag_perfect_plasticity (prm s) = true /\ slip_res s = v /\ tmp_res s = v.

Lemma run_frozen v os : forall s s', Forall not_init os -> frozen v s -> run s os = Ok s' -> frozen v s'.
Proof.
  induction os as [|o os IH]; simpl; intros s s' N A H.
  - inversion H; subst; auto.
  - inversion N; subst. destruct A as (F & P & S1 & S2).
    destruct o; simpl in *; try contradiction; rewrite ?F, ?P in H;
      (eapply IH; [auto| |exact H]); repeat split; auto.
Qed.

Lemma perfect_plasticity_constant os s0 p n c s' :
  flag_perfect_plasticity p = true -> Forall not_init os ->
  run s0 (Init p n c :: os) = Ok s' ->
  get_slip_resistances s' = Ok (repeat (initial_slip_resistance p / c) n).
Proof.
  intros P N H. simpl in H.
  set (v := repeat (initial_slip_resistance p / c) n) in *.
  assert (I0 : frozen v (mk_qph true n p c v v)) by (repeat split; auto).
  destruct (run_frozen v os _ s' N I0 H) as (F & _ & S & _).
  unfold get_slip_resistances. rewrite F, S. reflexivity.
Qed.

Lemma run_app os1 os2 s s1 : run s os1 = Ok s1 -> run s (os1 ++ os2) = run s1 os2.
Proof.
  revert s. induction os1 as [|o os1 IH]; simpl; intros s H.
  - inversion H; auto.
  - destruct (step s o); try discriminate; auto.
Qed.

Lemma run_uncommitted_uninit os s s' : flag_init s = false -> Forall uncommitted os ->
  run s os = Ok s' -> s' = s.
Proof.
  intros F U. apply run_uninit; auto.
  eapply Forall_impl; [|exact U]. intros []; simpl; auto.
Qed.

Lemma no_trace os s s' o : uncommitted o -> Forall uncommitted os -> run s os = Ok s' ->
  run s (os ++ [o]) = run s [o].
Proof.
  intros U A H. rewrite (run_app os [o] s s' H).
  destruct (flag_init s) eqn:F.
  - simpl. assert (E : step s' o = step s o).
    { destruct o; try contradiction.
      - destruct (run_uncommitted os s s' A H) as (E1&E2&E3&E4&E5). simpl.
        rewrite E1, E2, E3, E4, E5. reflexivity.
      - eapply update_no_trace; eauto. }
    rewrite E. destruct (step s o) eqn:K; auto.
    destruct o; try contradiction; simpl in K; rewrite F in K; try discriminate.
    destruct (flag_perfect_plasticity (prm s)); try discriminate.
    destruct (harden_all s slips old q 0 (tmp_res s)) eqn:Q; simpl in K; try discriminate.
    exfalso. clear - Q. revert Q. generalize (tmp_res s) 0%nat.
    assert (R : forall a bs acc, harden_row s slips old q a bs acc <> Throw).
    { intros a bs; induction bs as [|b bs IH]; simpl; intros acc; [discriminate|].
      destruct (at2 slips b q), (at2 old b q); auto; discriminate. }
    induction l as [|r rs IH]; simpl; intros a Q; [discriminate|].
    destruct (harden_row s slips old q a (seq 0 (n_slips s)) r) eqn:E; simpl in Q.
    + destruct (harden_all s slips old q (S a) rs) eqn:E2; simpl in Q; try discriminate. eauto.
    + eapply R; eauto.
    + discriminate.
  - rewrite (run_uncommitted_uninit os s s' F A H). reflexivity.
Qed.

Lemma reset_restores_committed os s s' :
  flag_init s = true -> Forall uncommitted os -> run s os = Ok s' ->
  get_old_slip_resistances s' = get_old_slip_resistances s /\
  exists s'', step s' Reset = Ok s'' /\ get_slip_resistances s'' = get_old_slip_resistances s.
Proof.
  intros F A H. destruct (run_uncommitted os s s' A H) as (E1&E2&E3&E4&E5).
  unfold get_old_slip_resistances, get_slip_resistances. simpl. rewrite E1, F, E5.
  split; auto. eexists; split; reflexivity.
Qed.

Lemma run_keeps_prm os : forall s s', Forall not_init os -> flag_init s = true -> run s os = Ok s' ->
  flag_init s' = true /\ n_slips s' = n_slips s /\ prm s' = prm s /\ char_res s' = char_res s.
Proof.
  induction os as [|o os IH]; simpl; intros s s' N F H.
  - inversion H; subst; auto.
  - inversion N; subst. destruct (step s o) as [s1| |] eqn:E; try discriminate.
    + assert (K : flag_init s1 = true /\ n_slips s1 = n_slips s /\ prm s1 = prm s /\ char_res s1 = char_res s).
      { destruct o; simpl in *; try contradiction; rewrite F in E.
        - inversion E; subst; auto.
        - inversion E; subst; auto.
        - destruct (flag_perfect_plasticity (prm s)); [inversion E; subst; auto|].
          destruct (harden_all _ _ _ _ _ _); simpl in E; inversion E; subst; auto. }
      destruct K as (K1&K2&K3&K4). destruct (IH s1 s') as (L1&L2&L3&L4); auto.
      repeat split; congruence.
    + apply IH; auto.
Qed.

Lemma update_is_hardening_law os s0 p n c s q sl old :
  Forall not_init os -> run s0 (Init p n c :: os) = Ok s ->
  flag_perfect_plasticity p = false -> readable n sl q -> readable n old q ->
  exists s', run s [Update q sl old] = Ok s' /\
  forall a, (a < n)%nat -> exists g0,
    get_old_slip_resistance s a = Ok g0 /\
    get_slip_resistance s' a =
      Ok (g0 + hardening_increment (linear_hardening_modulus p / c) (hardening_parameter p)
                 n a (dgamma sl old q)).
Proof.
  intros N H P R1 R2. simpl in H.
  set (s1 := mk_qph true n p c (repeat (initial_slip_resistance p / c) n)
                    (repeat (initial_slip_resistance p / c) n)) in *.
  assert (W1 : wf s1) by (intro; simpl; rewrite repeat_length; auto).
  pose proof (run_wf os s1 s W1 H) as W.
  destruct (run_keeps_prm os s1 s N eq_refl H) as (F & En & Ep & Ec).
  unfold s1 in En, Ep, Ec. simpl in En, Ep, Ec.
  destruct (update_value s sl old q) as (s' & E & V); try rewrite En; try rewrite Ep; auto.
  exists s'. split.
  - cbn [run]. rewrite E. reflexivity.
  - intros a Ha. destruct (W F) as [_ L].
    destruct (nth_error (tmp_res s) a) as [g0|] eqn:G.
    + exists g0. assert (O : get_old_slip_resistance s a = Ok g0)
        by (unfold get_old_slip_resistance; rewrite F, G; auto).
      split; auto. destruct (V a g0 O) as [V1 _]. rewrite V1. unfold incr. rewrite Ep, Ec, En. reflexivity.
    + apply nth_error_None in G. lia.
Qed.

Lemma no_use_before_init os p0 c0 o a :
  Forall not_init os -> not_init o ->
  exists s, run (construct p0 c0) os = Ok s /\ step s o = Throw /\
    get_slip_resistance s a = Throw /\ get_old_slip_resistance s a = Throw /\
    get_slip_resistances s = Throw /\ get_old_slip_resistances s = Throw.
Proof.
  intros A B. exists (construct p0 c0). split; [apply run_uninit_ok; auto|].
  destruct o; simpl in *; try contradiction; repeat split; reflexivity.
Qed.

Lemma init_sets os p0 c0 s p n c a :
  run (construct p0 c0) os = Ok s -> (a < n)%nat ->
  exists s', step s (Init p n c) = Ok s' /\
    get_slip_resistance s' a = Ok (initial_slip_resistance p / c) /\
    get_old_slip_resistance s' a = Ok (initial_slip_resistance p / c).
Proof.
  intros _ Ha. simpl. eexists; split; [reflexivity|].
  unfold get_slip_resistance, get_old_slip_resistance. simpl.
  rewrite nth_error_repeat by auto. auto.
Qed.
