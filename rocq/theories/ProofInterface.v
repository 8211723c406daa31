From Coquelicot Require Import Coquelicot.
From Verif Require Import Num SumLemmas Tensors TensorLemmas ModelUtilities ProofUtilities
  ModelCohesive ModelInterface SpecInterface.
Open Scope R_scope.

Lemma max_if a b : (if Rltb a b then b else a) = Rmax a b.
Proof.
  destruct (Rltb a b) eqn:E; [apply Rltb_true in E|apply Rltb_false in E].
  - rewrite Rmax_right; lra.
  - rewrite Rmax_left; lra.
Qed.

(** ** The exponential damage function *)
Definition dmg (r : R) : R := 1 - (1 + r) * exp (- r).

Lemma dmg_derive r : is_derive dmg r (r * exp (- r)).
Proof. unfold dmg. auto_derive; auto. ring. Qed.

Lemma dmg_0 : dmg 0 = 0.
Proof. unfold dmg. rewrite Ropp_0, exp_0. ring. Qed.

Lemma dmg_incr a b : 0 <= a -> a < b -> dmg a < dmg b.
Proof.
  intros Ha Hab.
  destruct (MVT_cor2 dmg (fun r => r * exp (- r)) a b Hab) as (c & Hc & Hc1 & Hc2).
  - intros; apply is_derive_Reals, dmg_derive.
  - assert (0 < c * exp (- c)) by (apply Rmult_lt_0_compat; [lra|apply exp_pos]).
    assert (0 < b - a) by lra. nra.
Qed.

Lemma dmg_mono a b : 0 <= a -> a <= b -> dmg a <= dmg b.
Proof. intros Ha [H|H]; [left; apply dmg_incr; auto|right; congruence]. Qed.

Lemma dmg_range r : 0 <= r -> 0 <= dmg r < 1.
Proof.
  intros H. split.
  - rewrite <- dmg_0. apply dmg_mono; lra.
  - unfold dmg. pose proof (exp_pos (- r)). nra.
Qed.

Lemma exponential_damage_dmg mx dc : exponential_damage mx dc = dmg (mx / dc).
Proof. reflexivity. Qed.

Lemma ratio_nonneg mx dc : 0 <= mx -> 0 < dc -> 0 <= mx / dc.
Proof. intros. apply Rmult_le_pos; auto. apply Rlt_le, Rinv_0_lt_compat; auto. Qed.

Lemma exponential_damage_range mx dc : 0 <= mx -> 0 < dc -> 0 <= exponential_damage mx dc < 1.
Proof. intros. rewrite exponential_damage_dmg. apply dmg_range, ratio_nonneg; auto. Qed.

Lemma exponential_damage_mono a b dc : 0 <= a -> a <= b -> 0 < dc ->
  exponential_damage a dc <= exponential_damage b dc.
Proof.
  intros. rewrite !exponential_damage_dmg. apply dmg_mono; [apply ratio_nonneg; auto|].
  apply Rmult_le_compat_r; auto. apply Rlt_le, Rinv_0_lt_compat; auto.
Qed.

Lemma exponential_damage_0 dc : 0 < dc -> exponential_damage 0 dc = 0.
Proof. intros. rewrite exponential_damage_dmg. replace (0 / dc) with 0 by (field; lra). apply dmg_0. Qed.

(** ** C12 *)
Definition exp_value (p : iprm) (mx : R) : R :=
  if i_zero_damage p then 0 else exponential_damage mx (i_crit_opening p).

Definition exp_inv (p : iprm) (s : ihist) : Prop :=
  i_prm s = Some p /\ 0 <= i_tmp1 s <= i_max s /\
  i_damage s = Fin (exp_value p (i_max s)) /\ i_tmp0 s = Fin (exp_value p (i_tmp1 s)).

Lemma exp_value_0 p : 0 < i_crit_opening p -> exp_value p 0 = 0.
Proof. intros. unfold exp_value. destruct (i_zero_damage p); auto. apply exponential_damage_0; auto. Qed.

Lemma exp_inv_init p : 0 < i_crit_opening p ->
  exists s, istep i_construct (IInit p) = Ok s /\ exp_inv p s.
Proof.
  intros H. simpl. eexists; split; [reflexivity|]. unfold exp_inv; simpl.
  rewrite exp_value_0 by auto. repeat split; auto; lra.
Qed.

Lemma exp_inv_step p s o s' : exp_call o -> exp_inv p s -> istep s o = Ok s' -> exp_inv p s'.
Proof.
  intros C (E & B & D1 & D2) H. destruct o; simpl in *; try contradiction.
  - inversion H; subst; unfold exp_inv; simpl. repeat split; auto; try lra; congruence.
  - inversion H; subst; unfold exp_inv; simpl. repeat split; auto; try lra; congruence.
  - rewrite E in H. inversion H; subst; unfold exp_inv; simpl. rewrite max_if.
    pose proof (Rmax_l (i_tmp1 s) eff). repeat split; auto; try lra.
  - inversion H; subst; unfold exp_inv; simpl. repeat split; auto; lra.
Qed.

Lemma irun_inv (P : iop -> Prop) (I : ihist -> Prop) :
  (forall s o s', P o -> I s -> istep s o = Ok s' -> I s') ->
  forall os s s', Forall P os -> I s -> irun s os = Ok s' -> I s'.
Proof.
  intros S. induction os as [|o os IH]; simpl; intros s s' A B H.
  - inversion H; subst; auto.
  - inversion A; subst. destruct (istep s o) as [s1| |] eqn:E; simpl in H; try discriminate.
    apply (IH s1 s'); auto. apply (S s o s1); auto.
Qed.

Lemma exp_never_fails p os : forall s, Forall exp_call os -> exp_inv p s -> exists s', irun s os = Ok s'.
Proof.
  induction os as [|o os IH]; simpl; intros s A B; [eexists; reflexivity|].
  inversion A; subst.
  assert (E : exists s1, istep s o = Ok s1).
  { destruct B as (E & _). destruct o; simpl in *; try contradiction; rewrite ?E; eexists; reflexivity. }
  destruct E as [s1 E]. rewrite E. simpl. apply IH; auto. eapply exp_inv_step; eauto.
Qed.

Lemma exp_damage_law p os : 0 < i_crit_opening p -> Forall exp_call os ->
  exists s, irun i_construct (IInit p :: os) = Ok s /\ 0 <= i_max s /\
  i_damage s = Fin (if i_zero_damage p then 0
                    else 1 - (1 + i_max s / i_crit_opening p) * exp (- (i_max s / i_crit_opening p))) /\
  exists x, i_damage s = Fin x /\ 0 <= x < 1.
Proof.
  intros H A. destruct (exp_inv_init p H) as (s0 & E0 & I0).
  destruct (exp_never_fails p os s0 A I0) as (s & E).
  exists s. split; [cbn [irun]; rewrite E0; exact E|].
  pose proof (irun_inv _ _ (exp_inv_step p) os s0 s A I0 E) as (_ & B & D1 & _).
  split; [lra|]. split; [rewrite D1; reflexivity|].
  exists (exp_value p (i_max s)). split; auto.
  unfold exp_value. destruct (i_zero_damage p); [lra|]. apply exponential_damage_range; lra.
Qed.

Lemma exp_committed_step p s o s' : 0 < i_crit_opening p -> exp_call o -> exp_inv p s ->
  istep s o = Ok s' ->
  exists a b, i_tmp0 s = Fin a /\ i_tmp0 s' = Fin b /\ a <= b.
Proof.
  intros Hc C I H. pose proof (exp_inv_step p s o s' C I H) as I'.
  destruct I as (E & B & D1 & D2), I' as (E' & B' & D1' & D2').
  exists (exp_value p (i_tmp1 s)), (exp_value p (i_tmp1 s')). repeat split; auto.
  assert (i_tmp1 s <= i_tmp1 s').
  { destruct o; simpl in *; try contradiction; try rewrite E in H; inversion H; subst; simpl; lra. }
  unfold exp_value. destruct (i_zero_damage p); [lra|]. apply exponential_damage_mono; lra.
Qed.

Lemma exp_committed_monotone p os1 os2 s1 s2 : 0 < i_crit_opening p ->
  Forall exp_call os1 -> Forall exp_call os2 ->
  irun i_construct (IInit p :: os1) = Ok s1 -> irun s1 os2 = Ok s2 ->
  exists a b x, i_tmp0 s1 = Fin a /\ i_tmp0 s2 = Fin b /\ i_damage s2 = Fin x /\ a <= b <= x.
Proof.
  intros Hc A1 A2 H1 H2.
  destruct (exp_inv_init p Hc) as (s0 & E0 & I0). cbn [irun] in H1. rewrite E0 in H1. simpl in H1.
  pose proof (irun_inv _ _ (exp_inv_step p) os1 s0 s1 A1 I0 H1) as I1. clear H1.
  revert s1 s2 I1 H2. induction os2 as [|o os2 IH]; simpl; intros s1 s2 I1 H2.
  - inversion H2; subst. destruct I1 as (E & B & D1 & D2).
    do 3 eexists. repeat split; eauto; try lra.
    unfold exp_value. destruct (i_zero_damage p); [lra|]. apply exponential_damage_mono; lra.
  - inversion A2; subst. destruct (istep s1 o) as [s| |] eqn:E; simpl in H2; try discriminate.
    destruct (exp_committed_step p s1 o s Hc) as (a & b & K1 & K2 & K3); auto.
    destruct (IH H3 s s2) as (a' & b' & x & L1 & L2 & L3 & L4); auto.
    { eapply exp_inv_step; eauto. }
    exists a, b', x. repeat split; auto; rewrite K2 in L1; inversion L1; subst; lra.
Qed.

(** ** C13 *)
Definition upd_call (o : iop) : Prop :=
  match o with
  | IStore | IReset | IUpdateExp _ | IUpdateRate _ _ _ | IStoreOpening _ _ _ _ => True
  | _ => False end.

Definition pend (c : list R) (p : option R) : R :=
  list_max (match p with Some e => e :: c | None => c end).

Lemma list_max_nonneg l : 0 <= list_max l.
Proof. induction l; simpl; [lra|]. eapply Rle_trans; [exact IHl|apply Rmax_r]. Qed.

Lemma irun_max os : forall s s' c p, Forall upd_call os -> 
  i_tmp1 s = list_max c -> i_max s = pend c p -> irun s os = Ok s' ->
  let (c', p') := openings os c p in i_tmp1 s' = list_max c' /\ i_max s' = pend c' p'.
Proof.
  induction os as [|o os IH]; intros s s' c p A B C H.
  - cbn in *. inversion H; subst; auto.
  - inversion A as [|? ? A1 A2]; subst. cbn [irun] in H.
    destruct (istep s o) as [s1| |] eqn:E; cbn [rbind] in H; try discriminate.
    assert (K : forall c1 p1, i_tmp1 s1 = list_max c1 -> i_max s1 = pend c1 p1 ->
            openings (o :: os) c p = openings os c1 p1 ->
            let (c', p') := openings (o :: os) c p in i_tmp1 s' = list_max c' /\ i_max s' = pend c' p').
    { intros c1 p1 X1 X2 X3. rewrite X3. apply (IH s1); auto. }
    destruct o; simpl in A1; try contradiction; cbn [istep] in E.
    + inversion E; subst. apply (K (match p with Some e => e :: c | None => c end) None); auto.
    + inversion E; subst. apply (K c None); auto.
    + destruct (i_prm s); [|discriminate]. inversion E; subst. apply (K c (Some eff)); auto.
      cbn [i_max]. rewrite max_if, B. unfold pend. simpl. apply Rmax_comm.
    + destruct (i_prm s); [|discriminate]. inversion E; subst. apply (K c (Some eff)); auto.
      cbn [i_max]. rewrite max_if, B. unfold pend. simpl. apply Rmax_comm.
    + inversion E; subst. apply (K c p); auto.
Qed.

Lemma recorded_max os p s : Forall upd_call os ->
  irun i_construct (IInit p :: os) = Ok s -> i_max s = expected_max os.
Proof.
  intros A H. cbn [irun istep i_construct i_prm rbind] in H.
  match type of H with irun ?s0 _ = _ => pose proof (irun_max os s0 s [] None A) as K end.
  specialize (K eq_refl eq_refl H). unfold expected_max.
  destruct (openings os [] None) as [c q]. apply K.
Qed.

(** ** C14 *)
Definition good_rate (p : iprm) : Prop :=
  0 <= i_accumulation p /\ 0 <= i_decay p /\ 0 <= i_decay_exp p.

Lemma cpow_nonneg x y : 0 <= x -> 0 <= y -> exists z, cpow x y = Fin z /\ 0 <= z.
Proof.
  intros Hx Hy. unfold cpow.
  destruct (Rltb 0 x) eqn:E.
  - eexists; split; [reflexivity|]. left. apply exp_pos.
  - apply Rltb_false in E. assert (x = 0) by lra. subst.
    destruct (Reqb 0 0) eqn:E1; [|apply Reqb_false in E1; lra].
    destruct (Rltb 0 y) eqn:E2; [eexists; split; [reflexivity|lra]|].
    apply Rltb_false in E2. destruct (Reqb y 0) eqn:E3; [eexists; split; [reflexivity|lra]|].
    apply Reqb_false in E3. lra.
Qed.

Lemma macaulay_nonneg x : 0 <= macaulay_brackets x.
Proof. rewrite macaulay_max. apply Rmax_r. Qed.

Lemma rate_damage_bound p d0 old eff char force : good_rate p -> d0 <= 1 ->
  exists x, rate_damage p (Fin d0) old eff char force = Fin x /\ x <= 1 /\
  (0 <= char -> i_endurance p <= force -> d0 <= x).
Proof.
  intros (G1 & G2 & G3) H. unfold rate_damage.
  destruct (cpow_nonneg (1 - d0 + i_decay p) (i_decay_exp p)) as (z & Ez & Hz); try lra.
  rewrite Ez. cbn [xmul xadd]. unfold xgtb. cbn [xltb].
  set (inc := i_accumulation p * char * macaulay_brackets (eff - old) * z * (force - i_endurance p)).
  assert (I : 0 <= char -> i_endurance p <= force -> 0 <= inc).
  { intros. unfold inc. pose proof (macaulay_nonneg (eff - old)).
    repeat apply Rmult_le_pos; auto; lra. }
  destruct (Rltb 1 (d0 + inc)) eqn:E.
  - exists 1. repeat split; auto; lra.
  - apply Rltb_false in E. exists (d0 + inc). repeat split; auto. intros A B. specialize (I A B). lra.
Qed.

Definition rate_inv (p : iprm) (s : ihist) : Prop :=
  i_prm s = Some p /\ exists x y, i_damage s = Fin x /\ i_tmp0 s = Fin y /\ x <= 1 /\ y <= 1.

Lemma rate_inv_init p : exists s, istep i_construct (IInit p) = Ok s /\ rate_inv p s.
Proof.
  simpl. eexists; split; [reflexivity|]. split; auto. exists 0, 0. simpl. repeat split; auto; lra.
Qed.

Lemma rate_inv_step p s o s' : good_rate p -> rate_call o -> rate_inv p s -> istep s o = Ok s' -> rate_inv p s'.
Proof.
  intros G C (E & x & y & D1 & D2 & B1 & B2) H. destruct o; simpl in *; try contradiction.
  - inversion H; subst; split; auto. exists x, x; auto.
  - inversion H; subst; split; auto. exists y, y; auto.
  - rewrite E in H. inversion H; subst; split; auto. simpl.
    destruct (i_zero_damage p).
    + exists 0, y. repeat split; auto; lra.
    + rewrite D2. destruct (rate_damage_bound p y (i_old s) eff char force G B2) as (z & K1 & K2 & _).
      exists z, y. auto.
  - inversion H; subst; split; auto. exists x, y; auto.
Qed.

Lemma rate_never_fails p os : good_rate p -> forall s, Forall rate_call os -> rate_inv p s ->
  exists s', irun s os = Ok s' /\ rate_inv p s'.
Proof.
  intros G. induction os as [|o os IH]; simpl; intros s A B; [eexists; split; [reflexivity|auto]|].
  inversion A; subst.
  assert (E : exists s1, istep s o = Ok s1).
  { destruct B as (E & _). destruct o; simpl in *; try contradiction; rewrite ?E; eexists; reflexivity. }
  destruct E as [s1 E]. rewrite E. simpl. apply IH; auto. eapply rate_inv_step; eauto.
Qed.

Lemma rate_damage_at_most_one p os : good_rate p -> Forall rate_call os ->
  exists s x, irun i_construct (IInit p :: os) = Ok s /\ i_damage s = Fin x /\ x <= 1.
Proof.
  intros G A. destruct (rate_inv_init p) as (s0 & E0 & I0).
  destruct (rate_never_fails p os G s0 A I0) as (s & E & _ & x & y & D & _ & B & _).
  exists s, x. split; auto. cbn [irun]. rewrite E0. exact E.
Qed.

(** Irreversibility under the condition force >= endurance limit. *)
Definition forced (p : iprm) (o : iop) : Prop :=
  rate_call o /\ match o with IUpdateRate _ c f => 0 <= c /\ i_endurance p <= f | _ => True end.

Definition mono_inv (p : iprm) (s : ihist) : Prop :=
  i_prm s = Some p /\ exists x y, i_damage s = Fin x /\ i_tmp0 s = Fin y /\ y <= x <= 1.

Lemma mono_step p s o s' : good_rate p -> i_zero_damage p = false -> forced p o -> mono_inv p s ->
  istep s o = Ok s' -> mono_inv p s' /\
  exists a b, i_tmp0 s = Fin a /\ i_tmp0 s' = Fin b /\ a <= b.
Proof.
  intros G Z [C F] (E & x & y & D1 & D2 & B) H. destruct o; simpl in *; try contradiction.
  - inversion H; subst. split; [split; auto; exists x, x; simpl; repeat split; auto; lra|].
    exists y, x. simpl. repeat split; auto; lra.
  - inversion H; subst. split; [split; auto; exists y, y; simpl; repeat split; auto; lra|].
    exists y, y. simpl. repeat split; auto; lra.
  - rewrite E, Z in H. inversion H; subst. rewrite D2.
    destruct (rate_damage_bound p y (i_old s) eff char force G) as (z & K1 & K2 & K3); [lra|].
    split; [split; auto; exists z, y; simpl; repeat split; auto; apply K3; tauto|].
    exists y, y. simpl. repeat split; auto; lra.
  - inversion H; subst. split; [split; auto; exists x, y; simpl; repeat split; auto; lra|].
    exists y, y. simpl. repeat split; auto; lra.
Qed.

Lemma rate_committed_monotone p os1 os2 s1 s2 : good_rate p -> i_zero_damage p = false ->
  Forall (forced p) os1 -> Forall (forced p) os2 ->
  irun i_construct (IInit p :: os1) = Ok s1 -> irun s1 os2 = Ok s2 ->
  exists a b x, i_tmp0 s1 = Fin a /\ i_tmp0 s2 = Fin b /\ i_damage s2 = Fin x /\ 0 <= a <= b /\ b <= x.
Proof.
  intros G Z A1 A2 H1 H2. cbn [irun istep i_construct i_prm rbind] in H1.
  assert (L : forall os s s' a0, Forall (forced p) os -> mono_inv p s -> irun s os = Ok s' ->
              i_tmp0 s = Fin a0 ->
              mono_inv p s' /\ exists b, i_tmp0 s' = Fin b /\ a0 <= b).
  { induction os as [|o os IH]; simpl; intros s s' a0 A I H E0.
    - inversion H; subst. split; auto. exists a0; split; auto; lra.
    - inversion A; subst. destruct (istep s o) as [s3| |] eqn:E; simpl in H; try discriminate.
      destruct (mono_step p s o s3) as [I3 (a & b & K1 & K2 & K3)]; auto.
      destruct (IH s3 s' b) as [I' (b' & L1 & L2)]; auto.
      split; auto. exists b'. split; auto. rewrite E0 in K1; inversion K1; subst. lra. }
  destruct (L os1 (mk_ihist (Some p) (Fin 0) 0 0 (Fin 0) 0) s1 0 A1) as [I1 (a & K1 & K2)]; auto.
  { split; auto. exists 0, 0. simpl. repeat split; auto; lra. }
  destruct (L os2 s1 s2 a A2 I1 H2 K1) as [(_ & x & y & D1 & D2 & B) (b & K3 & K4)].
  exists a, b, x. rewrite D2 in K3. inversion K3; subst. repeat split; auto; lra.
Qed.

(** ** C15 *)
Lemma exp_idempotent eff s s1 : update_point_exp eff s = Ok s1 -> update_point_exp eff s1 = Ok s1.
Proof.
  unfold update_point_exp. simpl. destruct (i_prm s) eqn:E; [|discriminate].
  intros H; inversion H; subst. simpl. reflexivity.
Qed.

Lemma degradation_derivative_linear x : x <= 1 -> degradation_derivative 1 x true = Fin (-1).
Proof.
  intros H. unfold degradation_derivative. replace (1 - 1) with 0 by ring. unfold cpow.
  destruct (Rltb 0 (1 - x)) eqn:E.
  - apply Rltb_true in E. rewrite Rpower_O by lra. simpl. f_equal. lra.
  - apply Rltb_false in E. assert (1 - x = 0) as -> by lra.
    destruct (Reqb 0 0) eqn:K; [|apply Reqb_false in K; lra].
    destruct (Rltb 0 0) eqn:L; [apply Rltb_true in L; lra|]. simpl. f_equal. lra.
Qed.

Lemma rate_idempotent_linear p energy eff char s s1 : good_rate p -> rate_inv p s ->
  update_point_M1 1 energy eff char s = Ok s1 -> update_point_M1 1 energy eff char s1 = Ok s1.
Proof.
  intros G I H. pose proof I as (E & x & y & D1 & D2 & B1 & B2).
  unfold update_point_M1 in H. rewrite D1, degradation_derivative_linear in H by auto.
  cbn [xneg xmul] in H.
  assert (I1 : rate_inv p s1) by (eapply (rate_inv_step p s (IUpdateRate eff char (- -1 * energy)) s1); eauto; exact Logic.I).
  destruct I1 as (E1 & x1 & y1 & D1' & D2' & B1' & B2').
  unfold update_point_M1. rewrite D1', degradation_derivative_linear by auto. cbn [xneg xmul].
  cbn [istep] in *. rewrite E in H. rewrite E1. inversion H; subst. cbn [i_prm i_tmp0 i_tmp1 i_old].
  reflexivity.
Qed.

Definition prm_m1 : iprm := mk_iprm 1 1 1 0 1 0 false.
Definition st_m1 : ihist := mk_ihist (Some prm_m1) (Fin 0) 0 0 (Fin 0) 0.

Lemma cpow_1 x : 0 < x -> cpow x 1 = Fin x.
Proof. intros. unfold cpow. rewrite (proj2 (Rltb_true 0 x)) by auto. rewrite Rpower_1; auto. Qed.

Lemma m1_update x : 0 < 1 - x -> 
  update_point_M1 2 (1/4) 1 1 (mk_ihist (Some prm_m1) (Fin x) 0 0 (Fin 0) 0)
  = Ok (mk_ihist (Some prm_m1) (if Rltb 1 ((1 - x) / 2) then Fin 1 else Fin ((1-x)/2)) 1 0 (Fin 0) 0).
Proof.
  intros H. unfold update_point_M1, degradation_derivative. cbn [i_damage].
  replace (2 - 1) with 1 by ring. rewrite cpow_1 by auto. cbn [xmul xneg].
  cbn [istep i_prm i_tmp1 i_tmp0 i_old prm_m1 i_zero_damage].
  rewrite (proj2 (Rltb_true 0 1)) by lra. unfold rate_damage.
  cbn [i_accumulation i_decay i_decay_exp i_endurance prm_m1].
  replace (1 - 0 + 0) with 1 by ring. rewrite cpow_1 by lra.
  unfold macaulay_brackets. rewrite (proj2 (Rltb_true 0 (1 - 0))) by lra.
  cbn [xmul xadd]. unfold xgtb; cbn [xltb].
  match goal with |- context [Rltb 1 ?y] => replace y with ((1 - x) / 2) by field end.
  destruct (Rltb 1 ((1 - x)/2)); reflexivity.
Qed.

(** ** C16 *)
Lemma normal_projection d n delta i : (i < d)%nat ->
  mv d (normal_projector n) delta i = dot d n delta * n i.
Proof.
  intros _. unfold mv, normal_projector, symmetrize, outer, dot.
  rewrite <- sumn_scal_r. apply sumn_ext; intros. field.
Qed.

Lemma norm_normal_projection d n delta : unit_vec d n ->
  norm d (mv d (normal_projector n) delta) = Rabs (dot d n delta).
Proof.
  intros U. rewrite (norm_ext d _ (vscal (dot d n delta) n)).
  - rewrite norm_scal. unfold norm. rewrite U, sqrt_1. ring.
  - intros i Hi. rewrite normal_projection by auto. reflexivity.
Qed.

Lemma stored_is_effective_iff d r uc un n : unit_vec d n ->
  (stored_opening r d uc un n = effective_opening d r (vsub un uc) n
   <-> 0 <= dot d n (vsub un uc)).
Proof.
  intros U. unfold stored_opening, effective_opening.
  rewrite norm_normal_projection by auto.
  set (x := dot d n (vsub un uc)).
  set (t := norm d (mv d (tangential_projector n) (vsub un uc))).
  rewrite !macaulay_max. rewrite (Rmax_left (Rabs x) 0) by apply Rabs_pos.
  assert (Ht : 0 <= r * r * t * t).
  { replace (r * r * t * t) with ((r * t) * (r * t)) by ring. apply Rle_0_sqr. }
  assert (Hx : Rabs x * Rabs x = x * x) by (unfold Rabs; destruct (Rcase_abs x); ring).
  rewrite Hx. split.
  - intros H. destruct (Rle_dec 0 x) as [|N]; auto.
    rewrite (Rmax_right x 0) in H by lra.
    apply sqrt_inj in H; nra.
  - intros H. rewrite Rmax_left by lra. reflexivity.
Qed.

Lemma stored_ge_effective d r uc un n : unit_vec d n ->
  effective_opening d r (vsub un uc) n <= stored_opening r d uc un n.
Proof.
  intros U. unfold stored_opening, effective_opening.
  rewrite norm_normal_projection by auto.
  apply sqrt_le_1_alt. apply Rplus_le_compat_r. rewrite !macaulay_max.
  rewrite (Rmax_left (Rabs _) 0) by apply Rabs_pos.
  set (x := dot d n (vsub un uc)). unfold Rmax, Rabs.
  destruct (Rle_dec x 0), (Rcase_abs x); nra.
Qed.

(** ** C17 *)
Lemma make_key_sym a b : make_key a b = make_key b a.
Proof.
  unfold make_key. destruct (Nat.ltb_spec a b), (Nat.ltb_spec b a); auto; try lia.
  assert (a = b) by lia. subst; auto.
Qed.

Lemma make_key_inj a b a' b' : make_key a b = make_key a' b' ->
  (a = a' /\ b = b') \/ (a = b' /\ b = a').
Proof.
  unfold make_key. destruct (Nat.ltb a b), (Nat.ltb a' b'); intros H; inversion H; auto.
Qed.

Lemma key_eqb_true k l : key_eqb k l = true <-> k = l.
Proof.
  destruct k as [a b], l as [c e]. unfold key_eqb; simpl.
  rewrite andb_true_iff, !Nat.eqb_eq. split; [intros []; congruence|intros H; inversion H; auto].
Qed.

Lemma find_cons k l v m : find k ((l, v) :: m) = if key_eqb k l then Some v else find k m.
Proof. reflexivity. Qed.

(** Addresses of different keys are disjoint, and all below [s_next]. *)
Definition sinv (st : storage) : Prop :=
  (forall k v x, find k (s_map st) = Some v -> In x v -> (x < s_next st)%nat) /\
  (forall k l v w x, find k (s_map st) = Some v -> find l (s_map st) = Some w ->
     In x v -> In x w -> k = l) /\
  (forall k v, find k (s_map st) = Some v -> NoDup v).

Lemma sinv_empty : sinv empty_storage.
Proof. repeat split; simpl; intros; discriminate. Qed.

Lemma sinv_init_face nq st ab : sinv st -> sinv (init_face nq st ab).
Proof.
  intros (I1 & I2 & I3). unfold init_face. set (k := make_key (fst ab) (snd ab)).
  destruct (find k (s_map st)) eqn:F; [repeat split; auto|].
  repeat split; cbn [s_map s_next]; intros.
  - rewrite find_cons in H. destruct (key_eqb k0 k) eqn:E.
    + inversion H; subst. apply in_seq in H0. lia.
    + pose proof (I1 _ _ _ H H0). lia.
  - rewrite find_cons in H, H0.
    destruct (key_eqb k0 k) eqn:E1, (key_eqb l k) eqn:E2.
    + apply key_eqb_true in E1, E2. congruence.
    + inversion H; subst. apply in_seq in H1. pose proof (I1 _ _ _ H0 H2). lia.
    + inversion H0; subst. apply in_seq in H2. pose proof (I1 _ _ _ H H1). lia.
    + eauto.
  - rewrite find_cons in H. destruct (key_eqb k0 k) eqn:E.
    + inversion H; subst. apply seq_NoDup.
    + eauto.
Qed.

Lemma sinv_initialize nq faces : forall st, sinv st -> sinv (initialize nq faces st).
Proof.
  unfold initialize. induction faces; simpl; intros; auto. apply IHfaces, sinv_init_face; auto.
Qed.

Lemma sinv_get st a b : sinv st -> sinv (fst (get_data st a b)).
Proof.
  intros (I1 & I2 & I3). unfold get_data. destruct (find (make_key a b) (s_map st)) eqn:F; simpl.
  - repeat split; auto.
  - repeat split; cbn [s_map s_next]; intros.
    + rewrite find_cons in H. destruct (key_eqb k (make_key a b)); [inversion H; subst; inversion H0|eauto].
    + rewrite find_cons in H, H0.
      destruct (key_eqb k (make_key a b)); [inversion H; subst; inversion H1|].
      destruct (key_eqb l (make_key a b)); [inversion H0; subst; inversion H2|]. eauto.
    + rewrite find_cons in H. destruct (key_eqb k (make_key a b)); [inversion H; constructor|eauto].
Qed.

Lemma sinv_run_from os : forall st, sinv st -> sinv (fold_left sstep os st).
Proof.
  induction os as [|o os IH]; simpl; intros; auto. apply IH.
  destruct o; simpl; [apply sinv_initialize|apply sinv_get]; auto.
Qed.

Lemma sinv_run os : sinv (srun os).
Proof. apply sinv_run_from, sinv_empty. Qed.

Lemma find_preserved_face nq st ab k v : find k (s_map st) = Some v ->
  find k (s_map (init_face nq st ab)) = Some v.
Proof.
  intros H. unfold init_face. destruct (find (make_key _ _) _) eqn:F; auto.
  cbn [s_map]. rewrite find_cons. destruct (key_eqb k _) eqn:E; auto.
  apply key_eqb_true in E. subst. rewrite H in F. discriminate.
Qed.

Lemma find_preserved_init nq faces k v : forall st, find k (s_map st) = Some v ->
  find k (s_map (initialize nq faces st)) = Some v.
Proof.
  unfold initialize. induction faces; simpl; intros; auto. apply IHfaces, find_preserved_face; auto.
Qed.

Lemma find_preserved_run os k v : forall st, find k (s_map st) = Some v ->
  find k (s_map (fold_left sstep os st)) = Some v.
Proof.
  induction os as [|o os IH]; simpl; intros st H; auto. apply IH.
  destruct o; simpl; [apply find_preserved_init; auto|].
  unfold get_data. destruct (find (make_key a b) (s_map st)) eqn:F; simpl; auto.
  destruct (key_eqb k (make_key a b)) eqn:E; auto.
  apply key_eqb_true in E. subst. congruence.
Qed.

Lemma find_after_init nq faces ab : In ab faces -> forall st,
  find (make_key (fst ab) (snd ab)) (s_map st) = None ->
  exists v, find (make_key (fst ab) (snd ab)) (s_map (initialize nq faces st)) = Some v /\ length v = nq.
Proof.
  unfold initialize. induction faces as [|f faces IH]; [contradiction|].
  intros Hin st F. simpl.
  destruct (key_eqb (make_key (fst ab) (snd ab)) (make_key (fst f) (snd f))) eqn:E.
  - apply key_eqb_true in E. exists (seq (s_next st) nq). split; [|apply seq_length].
    apply find_preserved_init. unfold init_face. rewrite <- E, F. cbn [s_map].
    rewrite find_cons. rewrite (proj2 (key_eqb_true _ _)); auto.
  - destruct Hin as [->|Hin].
    + rewrite (proj2 (key_eqb_true _ _)) in E by auto. discriminate.
    + apply IH; auto. unfold init_face. destruct (find (make_key (fst f) _) _); auto.
      cbn [s_map]. rewrite find_cons, E. auto.
Qed.

Lemma get_symmetric st a b : snd (get_data st a b) = snd (get_data st b a) /\
  fst (get_data st a b) = fst (get_data st b a).
Proof. unfold get_data. rewrite (make_key_sym b a). destruct (find _ _); auto. Qed.

Lemma get_no_alias os a b a' b' x :
  In x (snd (get_data (srun os) a b)) -> In x (snd (get_data (srun os) a' b')) ->
  (a = a' /\ b = b') \/ (a = b' /\ b = a').
Proof.
  destruct (sinv_run os) as (I1 & I2 & I3). unfold get_data.
  destruct (find (make_key a b) (s_map (srun os))) eqn:F1; simpl; [|contradiction].
  destruct (find (make_key a' b') (s_map (srun os))) eqn:F2; simpl; [|contradiction].
  intros A B. apply make_key_inj. eapply I2; eauto.
Qed.

Lemma get_stable os os' a b : snd (get_data (srun os) a b) <> [] ->
  snd (get_data (srun (os ++ os')) a b) = snd (get_data (srun os) a b).
Proof.
  unfold srun. rewrite fold_left_app. set (st := fold_left sstep os empty_storage).
  unfold get_data. destruct (find (make_key a b) (s_map st)) as [v|] eqn:F; simpl; [|congruence].
  intros _. rewrite (find_preserved_run os' _ v st F). reflexivity.
Qed.

Lemma get_after_init nq faces a b : In (a, b) faces \/ In (b, a) faces ->
  length (snd (get_data (srun [SInit nq faces]) a b)) = nq /\
  NoDup (snd (get_data (srun [SInit nq faces]) a b)).
Proof.
  intros H.
  assert (K : exists v, find (make_key a b) (s_map (srun [SInit nq faces])) = Some v /\ length v = nq).
  { destruct H as [H|H].
    - apply (find_after_init nq faces (a, b) H empty_storage eq_refl).
    - rewrite make_key_sym. apply (find_after_init nq faces (b, a) H empty_storage eq_refl). }
  destruct K as (v & F & L). unfold get_data. rewrite F. simpl. split; auto.
  destruct (sinv_run [SInit nq faces]) as (_ & _ & I3). eapply I3; eauto.
Qed.

Lemma poisoned nq a b : snd (get_data (srun [SGet a b; SInit nq [(a, b)]]) a b) = [].
Proof.
  assert (K : key_eqb (make_key a b) (make_key a b) = true) by (apply key_eqb_true; auto).
  unfold srun, sstep, initialize, init_face, get_data, empty_storage.
  cbn [fold_left s_map find fst snd]. rewrite K. cbn [s_map find fst snd]. rewrite K. reflexivity.
Qed.

Lemma rate_not_idempotent : exists m energy eff char s s1 s2,
  update_point_M1 m energy eff char s = Ok s1 /\ update_point_M1 m energy eff char s1 = Ok s2 /\
  i_damage s1 = Fin (1/2) /\ i_damage s2 = Fin (1/4).
Proof.
  exists 2, (1/4), 1, 1, st_m1,
    (mk_ihist (Some prm_m1) (Fin (1/2)) 1 0 (Fin 0) 0),
    (mk_ihist (Some prm_m1) (Fin (1/4)) 1 0 (Fin 0) 0).
  split; [|split; [|split; reflexivity]].
  - unfold st_m1. rewrite m1_update by lra. rewrite (proj2 (Rltb_false _ _)) by lra.
    replace ((1 - 0) / 2) with (1/2) by field. reflexivity.
  - pose proof (m1_update (1/2)) as H.
    assert (E : update_point_M1 2 (1/4) 1 1 (mk_ihist (Some prm_m1) (Fin (1/2)) 1 0 (Fin 0) 0)
              = update_point_M1 2 (1/4) 1 1 (mk_ihist (Some prm_m1) (Fin (1/2)) 0 0 (Fin 0) 0)) by reflexivity.
    rewrite E, H by lra. rewrite (proj2 (Rltb_false _ _)) by lra.
    replace ((1 - 1/2) / 2) with (1/4) by field. reflexivity.
Qed.

Lemma rate_heals : exists p s x,
  0 <= i_accumulation p /\ 0 <= i_decay p /\ 0 <= i_decay_exp p /\ 0 <= i_endurance p /\
  irun i_construct [IInit p; IUpdateRate 1 1 1; IStore] = Ok s /\ i_damage s = Fin x /\ x < 0.
Proof.
  exists (mk_iprm 1 1 1 0 1 2 false).
  exists (mk_ihist (Some (mk_iprm 1 1 1 0 1 2 false)) (Fin (-1)) 1 0 (Fin (-1)) 1), (-1).
  repeat split; simpl; try lra.
  rewrite (proj2 (Rltb_true 0 1)) by lra. unfold rate_damage. cbn [i_decay i_decay_exp i_accumulation i_endurance].
  replace (1 - 0 + 0) with 1 by ring. rewrite cpow_1 by lra.
  unfold macaulay_brackets. rewrite (proj2 (Rltb_true 0 (1 - 0))) by lra.
  cbn [xmul xadd]. unfold xgtb; cbn [xltb].
  match goal with |- context [Rltb 1 ?y] => replace y with (-1) by field end.
  rewrite (proj2 (Rltb_false 1 (-1))) by lra. reflexivity.
Qed.
