(** * C80: the two visits of an interface point. *)
From Verif Require Import Num SumLemmas Tensors TensorLemmas ModelUtilities ModelCohesive SpecCohesive ProofCohesive
  ModelMicro ProofMicro PropMicro ModelInterface ProofInterface PropInterface ModelRace.
Open Scope R_scope.

(** Both cells pass the same effective opening and the same interface energy. *)
Theorem C80_both_sides_pass_the_same_values : forall d c delta n ns fa fb lambda ga gb,
  (d = 2 \/ d = 3)%nat ->
  opening_of_side d c delta n true = opening_of_side d c delta n false /\
  interface_energy lambda d ns fb fa n gb ga = interface_energy lambda d ns fa fb (vneg n) ga gb.
Proof.
  intros d c delta n ns fa fb lambda ga gb Hd. split.
  - unfold opening_of_side. rewrite !eff_eq, opening_neg. reflexivity.
  - unfold interface_energy. destruct Hd as [-> | ->].
    + assert (E : forall i, burgers_2d ns fa fb (vneg n) ga gb i = burgers_2d ns fb fa n gb ga i).
      { intros i. apply sumn_ext; intros a _. unfold cross2, vneg. ring. }
      cbv zeta. f_equal. apply sumn_ext; intros i _. rewrite !E. reflexivity.
    + assert (E : forall i j, burgers_3d ns fa fb (vneg n) ga gb i j = burgers_3d ns fb fa n gb ga i j).
      { intros i j. apply sumn_ext; intros a _. unfold outer, vneg. destruct j as [|[|[|j]]]; cbn [cross]; ring. }
      cbv zeta. f_equal. apply sumn_ext; intros i _; apply sumn_ext; intros j _. rewrite !E. reflexivity.
Qed.

(** One visit after the other, in either order, leaves the result of a single visit
    (exponential damage). *)
Theorem C80_sequential_visits_are_one_update : forall p s eff s1,
  i_prm s = Some p -> update_point_exp eff s = Ok s1 ->
  forall first_before_second : bool,
  exists a b, let '(t, a', b') := interleave p s (enter eff) (enter eff)
      (repeat first_before_second 7 ++ repeat (negb first_before_second) 7) in
    t = s1 /\ a' = a /\ b' = b /\ finished a /\ finished b.
Proof.
  intros p s eff s1 HP H o. unfold update_point_exp, istep in H. rewrite HP in H. injection H as <-.
  destruct s as [prm dm mx old t0 t1]. cbn [i_prm i_tmp0 i_tmp1 i_old] in *. subst prm.
  assert (M : forall x, (if Rltb x x then x else x) = x) by (intros; destruct (Rltb x x); reflexivity).
  destruct o; cbn [repeat app negb interleave visit_step enter v_pc v_reg v_eff with_damage with_max i_prm i_damage i_max i_old i_tmp0 i_tmp1];
    destruct (i_zero_damage p) eqn:Z; cbn [with_damage i_prm i_damage i_max i_old i_tmp0 i_tmp1];
    eexists _, _; (repeat split; reflexivity).
Qed.

(** ** All interleavings *)
Section Schedules.
Variables (p : iprm) (s : ihist) (eff : R).
Let t1 := i_tmp1 s.
Let mx := if Rltb t1 eff then eff else t1.
Definition early (v : visit) : Prop := (v_pc v <= 1)%nat.
Definition rewriting (v : visit) : Prop := v_pc v = 2%nat \/ v_pc v = 3%nat.
Definition recorded (x : R) : Prop := x = t1 \/ x = mx.
Definition visit_ok (v : visit) : Prop :=
  v_eff v = eff /\ (v_pc v = 3%nat \/ v_pc v = 5%nat -> recorded (v_reg v)).
Definition final_damage (x : xr) : Prop :=
  if i_zero_damage p then x = Fin 0
  else x = Fin (exponential_damage t1 (i_crit_opening p)) \/ x = Fin (exponential_damage mx (i_crit_opening p)).
Definition pending (v : visit) : Prop := (1 <= v_pc v <= if i_zero_damage p then 6 else 5)%nat.
Definition race_inv (t : ihist) (a b : visit) : Prop :=
  i_prm t = i_prm s /\ i_old t = i_old s /\ i_tmp0 t = i_tmp0 s /\ i_tmp1 t = t1 /\
  visit_ok a /\ visit_ok b /\
  (early a /\ early b \/ recorded (i_max t) /\ (i_max t = mx \/ rewriting a \/ rewriting b)) /\
  (v_pc a = 0%nat /\ v_pc b = 0%nat \/ final_damage (i_damage t) \/ pending a \/ pending b).
Lemma race_sym t a b : race_inv t a b -> race_inv t b a.
Proof. unfold race_inv. tauto. Qed.
Lemma max_recorded x : recorded x -> (if Rltb x eff then eff else x) = mx.
Proof.
  intros [->| ->]; [reflexivity|]. unfold mx. destruct (Rltb t1 eff) eqn:E; [|rewrite E; reflexivity].
  destruct (Rltb eff eff); reflexivity.
Qed.
Lemma race_step t a b : race_inv t a b -> let '(t', a') := visit_step p t a in race_inv t' a' b.
Proof.
  intros (H1 & H2 & H3 & H4 & (Ea & Ra) & (Eb & Rb) & HM & HD).
  destruct a as [pc reg e]. cbn [v_pc v_reg v_eff] in *. subst e.
  assert (E7 : forall k, race_inv t (mk_visit (7 + k) reg eff) b \/ (pc <> 7 + k)%nat).
  { intros k. destruct (Nat.eq_dec pc (7 + k)) as [->|N]; [left|right; exact N].
    unfold race_inv, visit_ok. cbn [v_pc v_reg v_eff]. tauto. }
  assert (MB : forall q, (q <= 1)%nat -> (pc <= 1)%nat -> (1 <= pc -> 1 <= q)%nat ->
    early (mk_visit q 0 eff) /\ early b \/ recorded (i_max t) /\ (i_max t = mx \/ rewriting b)).
  { intros q Hq Hpc _. destruct HM as [[_ B]|[R [M|[W|W]]]]; [left|right|right|right]; auto.
    - split; auto. - unfold rewriting in W. cbn in W. lia. }
  destruct pc as [|[|[|[|[|[|[|pc]]]]]]]; cbn [visit_step v_pc v_reg v_eff].
  - (* D := tmp0 *) unfold race_inv, with_damage. cbn [i_prm i_damage i_max i_old i_tmp0 i_tmp1].
    split; auto. split; auto. split; auto. split; auto. split; [split; cbn; auto; lia|]. split; [split; auto|]. split.
    + unfold early, rewriting in *. cbn [v_pc] in *. destruct HM as [[A B]|[R [M|[W|W]]]]; auto; lia.
    + right. right. left. unfold pending. cbn. destruct (i_zero_damage p); lia.
  - (* M := tmp1 *) unfold race_inv, with_max. cbn [i_prm i_damage i_max i_old i_tmp0 i_tmp1].
    split; auto. split; auto. split; auto. split; auto. split; [split; cbn; auto; lia|]. split; [split; auto|]. split.
    + right. split; [left; exact H4|]. right. left. left. reflexivity.
    + right. right. left. unfold pending. cbn. destruct (i_zero_damage p); lia.
  - (* read M *) unfold race_inv. 
    assert (R : recorded (i_max t)) by (unfold early in HM; cbn in HM; destruct HM as [[A _]|[R _]]; [lia|exact R]).
    split; auto. split; auto. split; auto. split; auto. split; [split; cbn; auto|]. split; [split; auto|]. split.
    + right. split; [exact R|]. right. left. right. reflexivity.
    + right. right. left. unfold pending. cbn. destruct (i_zero_damage p); lia.
  - (* M := max *) unfold race_inv, with_max. cbn [i_prm i_damage i_max i_old i_tmp0 i_tmp1].
    rewrite max_recorded by (apply Ra; auto).
    split; auto. split; auto. split; auto. split; auto. split; [split; cbn; auto; lia|]. split; [split; auto|]. split.
    + right. split; [right; reflexivity|]. left. reflexivity.
    + right. right. left. unfold pending. cbn. destruct (i_zero_damage p); lia.
  - (* ratio *) unfold race_inv.
    assert (R : recorded (i_max t)) by (unfold early in HM; cbn in HM; destruct HM as [[A _]|[R _]]; [lia|exact R]).
    split; auto. split; auto. split; auto. split; auto. split; [split; cbn; auto|]. split; [split; auto|]. split.
    + right. split; [exact R|]. unfold early, rewriting in HM |- *. cbn [v_pc] in *. destruct HM as [[A _]|[_ [M|[W|W]]]]; auto; lia.
    + right. right. left. unfold pending. cbn. destruct (i_zero_damage p); lia.
  - (* D := damage *) unfold race_inv, with_damage. cbn [i_prm i_damage i_max i_old i_tmp0 i_tmp1].
    split; auto. split; auto. split; auto. split; auto. split; [split; cbn; auto; lia|]. split; [split; auto|]. split.
    + right. unfold early, rewriting in *. cbn [v_pc] in *. destruct HM as [[A _]|[R [M|[W|W]]]]; auto; lia.
    + destruct (i_zero_damage p) eqn:Z.
      * right. right. left. unfold pending. rewrite Z. cbn. lia.
      * right. left. unfold final_damage. rewrite Z. destruct (Ra (or_intror eq_refl)) as [->| ->]; auto.
  - (* if zero *) destruct (i_zero_damage p) eqn:Z; unfold race_inv, with_damage; cbn [i_prm i_damage i_max i_old i_tmp0 i_tmp1];
    (split; auto; split; auto; split; auto; split; auto; split; [split; cbn; auto; lia|]; split; [split; auto|]; split).
    + right. unfold early, rewriting in *. cbn [v_pc] in *. destruct HM as [[A _]|[R [M|[W|W]]]]; auto; lia.
    + right. left. unfold final_damage. rewrite Z. reflexivity.
    + right. unfold early, rewriting in *. cbn [v_pc] in *. destruct HM as [[A _]|[R [M|[W|W]]]]; auto; lia.
    + unfold pending in *. rewrite Z in *. cbn [v_pc] in *. destruct HD as [[A _]|[D|[P|P]]]; auto; lia.
  - unfold race_inv, visit_ok. cbn [v_pc v_reg v_eff]. tauto.
Qed.
Lemma race_run sched : forall t a b, race_inv t a b ->
  let '(t', a', b') := interleave p t a b sched in race_inv t' a' b'.
Proof.
  induction sched as [|x sched IH]; intros t a b H; [exact H|]. destruct x; cbn [interleave].
  - pose proof (race_step t a b H) as S. destruct (visit_step p t a) as [t' a']. apply IH. exact S.
  - pose proof (race_step t b a (race_sym _ _ _ H)) as S. destruct (visit_step p t b) as [t' b']. apply IH, race_sym, S.
Qed.
End Schedules.

(** Whatever the interleaving of the two visits, when both are over the maximum opening is the
    right one, nothing else has changed, and the damage is the one belonging either to this
    maximum or to the maximum of the last committed step. *)
Theorem C80_every_schedule_partial : forall p s eff sched t a b,
  interleave p s (enter eff) (enter eff) sched = (t, a, b) -> finished a -> finished b ->
  i_max t = Rmax (i_tmp1 s) eff /\ i_old t = i_old s /\ i_tmp0 t = i_tmp0 s /\ i_tmp1 t = i_tmp1 s /\
  (i_zero_damage p = true -> i_damage t = Fin 0) /\
  (i_zero_damage p = false ->
     i_damage t = Fin (exponential_damage (Rmax (i_tmp1 s) eff) (i_crit_opening p)) \/
     i_damage t = Fin (exponential_damage (i_tmp1 s) (i_crit_opening p))).
Proof.
  intros p s eff sched t a b H Fa Fb. unfold finished in *.
  assert (I : race_inv p s eff s (enter eff) (enter eff)).
  { unfold race_inv, visit_ok, early. cbn. repeat split; auto; try lia; left; lia. }
  pose proof (race_run p s eff sched s _ _ I) as R. rewrite H in R.
  destruct R as (_ & H2 & H3 & H4 & _ & _ & HM & HD).
  assert (M : (if Rltb (i_tmp1 s) eff then eff else i_tmp1 s) = Rmax (i_tmp1 s) eff).
  { unfold Rmax. destruct (Rltb (i_tmp1 s) eff) eqn:E; [apply Rltb_true in E|apply Rltb_false in E];
      destruct (Rle_dec (i_tmp1 s) eff); lra. }
  unfold early, rewriting, recorded in HM. rewrite M in HM.
  split; [destruct HM as [[A _]|[_ [E|[W|W]]]]; [lia|exact E|lia|lia]|].
  split; auto. split; auto. split; auto.
  unfold pending in HD. rewrite Fa, Fb in HD.
  assert (D : final_damage p s eff (i_damage t)).
  { destruct HD as [[A _]|[D|[W|W]]]; [lia|exact D| |]; destruct (i_zero_damage p); lia. }
  unfold final_damage in D. rewrite M in D. split; intros Z; rewrite Z in D; tauto.
Qed.

(** The damage is not schedule independent: with the second visit rolling the maximum back
    between the first visit's update of the maximum and its use, the damage of the step is
    lost, although either visit alone, or both in turn, record it. *)
Theorem C80_race_loses_damage_refuted : exists p s eff sched t a b s1,
  i_prm s = Some p /\ update_point_exp eff s = Ok s1 /\
  interleave p s (enter eff) (enter eff) sched = (t, a, b) /\ finished a /\ finished b /\
  i_damage t = Fin 0 /\ exists x, i_damage s1 = Fin x /\ 0 < x.
Proof.
  set (p := mk_iprm 1 1 0 0 0 0 false).
  set (s := mk_ihist (Some p) (Fin 0) 0 0 (Fin 0) 0).
  exists p, s, 1, [true; true; true; true; false; false; true; false; false; false; false; true; true; false].
  assert (L : Rltb 0 1 = true) by (destruct (Rltb 0 1) eqn:E; [reflexivity|apply Rltb_false in E; lra]).
  eexists _, _, _, _. split; [reflexivity|]. split; [reflexivity|]. split; [|split; [|split; [|split]]].
  - cbn [interleave visit_step enter v_pc v_reg v_eff with_damage with_max i_prm i_damage i_max i_old i_tmp0 i_tmp1 s p i_zero_damage i_crit_opening].
    reflexivity.
  - reflexivity.
  - reflexivity.
  - cbn. unfold exponential_damage. f_equal. replace (- (0 / 1)) with 0 by field. rewrite exp_0. field.
  - cbn. rewrite L. eexists. split; [reflexivity|]. unfold exponential_damage.
    replace (1 / 1) with 1 by field. rewrite exp_Ropp.
    pose proof (exp_ineq1 1 ltac:(lra)). pose proof (exp_pos 1).
    assert (/ exp 1 < / 2) by (apply Rinv_lt_contravar; lra). lra.
Qed.

(** With the rate model even visits in turn are not one update. *)
Theorem C80_rate_model_counts_both_visits_refuted : exists m energy eff char s s1 s2,
  update_point_M1 m energy eff char s = Ok s1 /\ update_point_M1 m energy eff char s1 = Ok s2 /\
  i_damage s1 = Fin (1/2) /\ i_damage s2 = Fin (1/4).
Proof. exact rate_not_idempotent. Qed.

Example C80_example : exists p s s1, i_prm s = Some p /\ update_point_exp 1 s = Ok s1 /\
  i_max s1 = 1 /\ exists t a b, interleave p s (enter 1) (enter 1) (repeat true 7 ++ repeat false 7) = (t, a, b) /\ finished a /\ finished b.
Proof.
  set (p := mk_iprm 1 1 0 0 0 0 false). exists p, (mk_ihist (Some p) (Fin 0) 0 0 (Fin 0) 0).
  eexists. split; [reflexivity|]. split; [reflexivity|]. split.
  - cbn. destruct (Rltb 0 1) eqn:E; [reflexivity|apply Rltb_false in E; lra].
  - eexists _, _, _. split; [reflexivity|]. split; reflexivity.
Qed.
