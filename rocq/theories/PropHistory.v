(** * C09-C11: slip resistances at a quadrature point. *)
From Verif Require Import Num SumLemmas ModelHistory SpecHistory ProofHistory.
Open Scope R_scope.

(** C09. Whatever uncommitted calls [os] were made before, an update (or a reset) leaves
    the object exactly as if it had been the first call after the last commit. *)
Theorem C09_uncommitted_calls_leave_no_trace : forall os s s' o,
  uncommitted o -> Forall uncommitted os -> run s os = Ok s' ->
  run s (os ++ [o]) = run s [o].
Proof. exact no_trace. Qed.
Print Assumptions C09_uncommitted_calls_leave_no_trace.

(** C09. A reset restores the committed resistances; the committed ones never move. *)
Theorem C09_reset_restores_committed : forall os s s',
  flag_init s = true -> Forall uncommitted os -> run s os = Ok s' ->
  get_old_slip_resistances s' = get_old_slip_resistances s /\
  exists s'', step s' Reset = Ok s'' /\ get_slip_resistances s'' = get_old_slip_resistances s.
Proof. exact reset_restores_committed. Qed.
Print Assumptions C09_reset_restores_committed.

(** C09. A commit makes the current resistances the committed ones and changes nothing else
    that can be observed. *)
Theorem C09_store_commits_current : forall s s', step s Store = Ok s' ->
  get_old_slip_resistances s' = get_slip_resistances s /\
  get_slip_resistances s' = get_slip_resistances s /\
  (forall q slips old, flag_perfect_plasticity (prm s) = true -> run s' [Update q slips old] = run s' []).
Proof.
  intros s s' H. unfold step in H. destruct (flag_init s) eqn:F; [|discriminate].
  inversion H; subst. unfold get_old_slip_resistances, get_slip_resistances. cbn. rewrite F.
  repeat split. intros q sl old P. rewrite P. reflexivity.
Qed.
Print Assumptions C09_store_commits_current.

(** C09, whole histories: after a commit followed by uncommitted calls, a reset brings back the
    resistances that were current at the commit. *)
Theorem C09_reset_returns_to_last_commit : forall s s1 os s2,
  step s Store = Ok s1 -> Forall uncommitted os -> run s1 os = Ok s2 ->
  exists s3, step s2 Reset = Ok s3 /\ get_slip_resistances s3 = get_slip_resistances s.
Proof.
  intros s s1 os s2 H U R1. destruct (C09_store_commits_current s s1 H) as (A & B & _).
  assert (F : flag_init s1 = true).
  { unfold step in H. destruct (flag_init s); inversion H; reflexivity. }
  destruct (reset_restores_committed os s1 s2 F U R1) as (_ & s3 & S3 & G).
  exists s3. split; [exact S3|]. rewrite G. exact A.
Qed.
Print Assumptions C09_reset_returns_to_last_commit.

(** C10. The increment is the textbook hardening law, from the committed value. *)
Theorem C10_update_is_hardening_law : forall os s0 p n c s q sl old,
  Forall not_init os -> run s0 (Init p n c :: os) = Ok s ->
  flag_perfect_plasticity p = false -> readable n sl q -> readable n old q ->
  exists s', run s [Update q sl old] = Ok s' /\
  forall a, (a < n)%nat -> exists g0,
    get_old_slip_resistance s a = Ok g0 /\
    get_slip_resistance s' a =
      Ok (g0 + hardening_increment (linear_hardening_modulus p / c) (hardening_parameter p)
                 n a (dgamma sl old q)).
Proof. exact update_is_hardening_law. Qed.
Print Assumptions C10_update_is_hardening_law.

Theorem C10_resistance_never_below_committed_or_initial : forall os s0 p n c s' a r r0,
  0 <= linear_hardening_modulus p -> 0 <= hardening_parameter p -> 0 < c ->
  Forall not_init os -> run s0 (Init p n c :: os) = Ok s' ->
  get_slip_resistance s' a = Ok r -> get_old_slip_resistance s' a = Ok r0 ->
  initial_slip_resistance p / c <= r0 <= r.
Proof. intros os s0 p n c s' a r r0 A B C. exact (never_softens os s0 p n c s' a r r0 (conj A (conj B C))). Qed.
Print Assumptions C10_resistance_never_below_committed_or_initial.

Theorem C10_committed_resistance_never_falls : forall os1 os2 s0 p n c s1 s2 a r1 r2,
  0 <= linear_hardening_modulus p -> 0 <= hardening_parameter p -> 0 < c ->
  Forall not_init os1 -> Forall not_init os2 ->
  run s0 (Init p n c :: os1) = Ok s1 -> run s1 os2 = Ok s2 ->
  get_old_slip_resistance s1 a = Ok r1 -> get_old_slip_resistance s2 a = Ok r2 -> r1 <= r2.
Proof.
  intros os1 os2 s0 p n c s1 s2 a r1 r2 A B C.
  exact (committed_grows os1 os2 s0 p n c s1 s2 a r1 r2 (conj A (conj B C))).
Qed.
Print Assumptions C10_committed_resistance_never_falls.

Theorem C10_perfect_plasticity_never_changes : forall os s0 p n c s',
  flag_perfect_plasticity p = true -> Forall not_init os ->
  run s0 (Init p n c :: os) = Ok s' ->
  get_slip_resistances s' = Ok (repeat (initial_slip_resistance p / c) n).
Proof. exact perfect_plasticity_constant. Qed.
Print Assumptions C10_perfect_plasticity_never_changes.

(** C11. *)
Theorem C11_no_use_before_init : forall os p0 c0 o a,
  Forall not_init os -> not_init o ->
  exists s, run (construct p0 c0) os = Ok s /\ step s o = Throw /\
    get_slip_resistance s a = Throw /\ get_old_slip_resistance s a = Throw /\
    get_slip_resistances s = Throw /\ get_old_slip_resistances s = Throw.
Proof. exact no_use_before_init. Qed.
Print Assumptions C11_no_use_before_init.

Theorem C11_init_sets_initial_resistance : forall os p0 c0 s p n c a,
  run (construct p0 c0) os = Ok s -> (a < n)%nat ->
  exists s', step s (Init p n c) = Ok s' /\
    get_slip_resistance s' a = Ok (initial_slip_resistance p / c) /\
    get_old_slip_resistance s' a = Ok (initial_slip_resistance p / c).
Proof. exact init_sets. Qed.
Print Assumptions C11_init_sets_initial_resistance.

(** Non-vacuity: two slip systems, an update, a commit, a second update. *)
Definition prm_ex : hardening := mk_hardening 10 100 (14/10) false.
Definition sl_ex : list (list R) := [[1/10]; [2/10]].
Definition old_ex : list (list R) := [[0]; [0]].
Definition ops_ex : list op := [Update 0 sl_ex old_ex; Store; Update 0 old_ex sl_ex].

Example C10_nonvacuous : exists s,
  run (construct prm_ex 0) (Init prm_ex 2 10 :: ops_ex) = Ok s /\ Forall not_init ops_ex /\
  readable 2 sl_ex 0 /\ readable 2 old_ex 0 /\
  get_old_slip_resistance s 0 = Ok (10/10 + (0 + 1 + 28/10)).
Proof.
  eexists. split; [reflexivity|]. split; [repeat constructor|].
  split; [|split].
  - intros [|[|b]] H; try lia; eexists; reflexivity.
  - intros [|[|b]] H; try lia; eexists; reflexivity.
  - unfold get_old_slip_resistance. simpl. f_equal. unfold hardening_entry. simpl.
    rewrite !Rabs_right by lra. lra.
Qed.
