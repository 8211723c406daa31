(** * C50-C56: loading programme, time loop, command line. *)
From Coq Require Import ZArith String Ascii Znumtheory.
From Flocq Require Import Core Relative.
From Verif Require Import Num SumLemmas ModelLoading SpecLoading.
Open Scope R_scope.

(** ** Floating point *)
#[export] Instance prec53 : Prec_gt_0 53 := eq_refl.
#[export] Instance valid_double : Valid_exp double_exp := FLT_exp_valid (-1074) 53.

Lemma rnd_double x : is_double x -> rnd x = x.
Proof. intros H. apply round_generic; [apply valid_rnd_N|exact H]. Qed.
Lemma is_double_rnd x : is_double (rnd x).
Proof. apply generic_format_round; [apply valid_double|apply valid_rnd_N]. Qed.
Lemma rnd_le x y : x <= y -> rnd x <= rnd y.
Proof. intros H. apply round_le; [apply valid_double|apply valid_rnd_N|exact H]. Qed.

Lemma double_dyadic m e : (Z.abs m < 2 ^ 53)%Z -> (-1074 <= e)%Z -> is_double (IZR m * bpow radix2 e).
Proof.
  intros Hm He. apply generic_format_FLT. exists (Float radix2 m e); auto.
Qed.
Lemma double_int z : (Z.abs z < 2 ^ 53)%Z -> is_double (IZR z).
Proof.
  intros H. rewrite <- (Rmult_1_r (IZR z)). change 1 with (bpow radix2 0).
  apply double_dyadic; [exact H|lia].
Qed.
Lemma rnd_int z : (Z.abs z < 2 ^ 53)%Z -> rnd (IZR z) = IZR z.
Proof. intros H. apply rnd_double, double_int, H. Qed.
Lemma double_quarters z : (Z.abs z < 2 ^ 53)%Z -> is_double (IZR z / 4).
Proof.
  intros H. replace (IZR z / 4) with (IZR z * bpow radix2 (-2)).
  - apply double_dyadic; [exact H|lia].
  - reflexivity.
Qed.

(** Relative error of one rounding, away from underflow. *)
Lemma rnd_error x : / 2 ^ 1000 <= Rabs x -> Rabs (rnd x - x) <= / 2 ^ 53 * Rabs x.
Proof.
  intros H.
  assert (B : bpow radix2 (-1000) = / 2 ^ 1000).
  { replace (-1000)%Z with (- (1000))%Z by lia. rewrite bpow_opp. f_equal.
    change 1000%Z with (Z.of_nat 1000). rewrite bpow_powerRZ, <- pow_powerRZ. reflexivity. }
  assert (Hx : bpow radix2 (-1074 + 53 - 1) <= Rabs x).
  { apply Rle_trans with (2 := H). rewrite <- B. apply bpow_le. lia. }
  pose proof (relative_error_N_FLT radix2 (-1074) 53 ltac:(lia) (fun z => negb (Z.even z)) x Hx) as E.
  apply Rle_trans with (1 := E). apply Rmult_le_compat_r; [apply Rabs_pos|].
  assert (C : bpow radix2 (-53 + 1) = / 2 ^ 52).
  { change (-53 + 1)%Z with (Z.opp (Z.of_nat 52)). rewrite bpow_opp, bpow_powerRZ, <- pow_powerRZ. reflexivity. }
  apply Rle_trans with (/ 2 * / 2 ^ 52); [right; f_equal; exact C|].
  rewrite <- Rinv_mult. apply Req_le. f_equal.
Qed.

(** ** C51 *)
Lemma pow2_IZR n : 2 ^ n = IZR (2 ^ Z.of_nat n).
Proof. rewrite pow_IZR. reflexivity. Qed.
Lemma quarter_fraction k nq q : (0 <= k < 2 ^ 32)%Z -> (1 <= nq < 2 ^ 29)%Z -> (q = 1 \/ q = 3)%Z ->
  (modf_frac (rnd (IZR k / rnd (4 * IZR nq))) = IZR q / 4 <-> exists m, k = ((4 * m + q) * nq)%Z).
Proof.
  intros Hk Hn Hq.
  assert (R4 : rnd (4 * IZR nq) = 4 * IZR nq).
  { replace (4 * IZR nq) with (IZR (4 * nq)) by (rewrite mult_IZR; reflexivity).
    apply rnd_int. lia. }
  rewrite R4. clear R4.
  assert (Hnr : 1 <= IZR nq) by (apply (IZR_le 1); lia).
  assert (Hkr : 0 <= IZR k) by (apply (IZR_le 0); lia).
  set (x := IZR k / (4 * IZR nq)).
  assert (Hx : 0 <= x) by (apply Rmult_le_pos; [exact Hkr|]; apply Rlt_le, Rinv_0_lt_compat; lra).
  unfold modf_frac.
  split.
  - intros H. set (m := Ztrunc (rnd x)) in *. exists m.
    assert (Hm : (0 <= m)%Z).
    { assert (0 <= rnd x). { rewrite <- (rnd_int 0) by lia. apply rnd_le. exact Hx. }
      unfold m. rewrite Ztrunc_floor by assumption. apply Zfloor_lub. simpl. assumption. }
    destruct (Z.eq_dec k ((4 * m + q) * nq)) as [|Ne]; [assumption|exfalso].
    assert (E : rnd x = IZR (4 * m + q) / 4).
    { rewrite plus_IZR, mult_IZR. simpl IZR. lra. }
    assert (D : Rabs (rnd x - x) = Rabs (IZR (k - (4 * m + q) * nq)) / (4 * IZR nq)).
    { rewrite E. unfold x. rewrite minus_IZR, mult_IZR, <- Rabs_Ropp.
      replace (- (IZR (4 * m + q) / 4 - IZR k / (4 * IZR nq)))
        with ((IZR k - IZR (4 * m + q) * IZR nq) / (4 * IZR nq)) by (field; lra).
      unfold Rdiv. rewrite Rabs_mult, (Rabs_right (/ (4 * IZR nq))); [reflexivity|].
      apply Rle_ge, Rlt_le, Rinv_0_lt_compat; lra. }
    assert (D1 : 1 <= Rabs (IZR (k - (4 * m + q) * nq))).
    { rewrite <- abs_IZR. apply (IZR_le 1). lia. }
    assert (Hk0 : (k <> 0)%Z).
    { intros ->. assert (X : rnd x = 0).
      { unfold x. unfold Rdiv. rewrite Rmult_0_l. apply (rnd_int 0). lia. }
      rewrite X in E. assert (Y : IZR (4 * m + q) = 0) by lra. apply (eq_IZR _ 0) in Y. lia. }
    assert (Hk1 : 1 <= IZR k) by (apply (IZR_le 1); lia).
    assert (Hn2 : IZR nq <= 2 ^ 29) by (rewrite pow2_IZR; apply IZR_le; simpl Z.of_nat; lia).
    assert (Hk2 : IZR k <= 2 ^ 32) by (rewrite pow2_IZR; apply IZR_le; simpl Z.of_nat; lia).
    assert (Hlow : / 2 ^ 1000 <= Rabs x).
    { rewrite Rabs_right by lra. apply Rle_trans with (/ (4 * 2 ^ 29)).
      - apply Rinv_le_contravar; [nra|].
        replace (4 * 2 ^ 29) with (2 ^ 31) by ring. apply Rle_pow; [lra|lia].
      - unfold x, Rdiv. apply Rle_trans with (1 * / (4 * IZR nq)).
        + rewrite Rmult_1_l. apply Rinv_le_contravar; lra.
        + apply Rmult_le_compat_r; [|exact Hk1]. apply Rlt_le, Rinv_0_lt_compat; lra. }
    pose proof (rnd_error x Hlow) as RE. rewrite D in RE.
    rewrite (Rabs_right x) in RE by lra.
    assert (P4 : 0 < / (4 * IZR nq)) by (apply Rinv_0_lt_compat; lra).
    assert (F : / 2 ^ 53 * x <= / 2 ^ 21 * / (4 * IZR nq)).
    { unfold x, Rdiv. rewrite <- Rmult_assoc. apply Rmult_le_compat_r; [lra|].
      apply Rle_trans with (/ 2 ^ 53 * 2 ^ 32).
      - apply Rmult_le_compat_l; [|exact Hk2]. apply Rlt_le, Rinv_0_lt_compat, pow_lt; lra.
      - apply Req_le. replace (2 ^ 53) with (2 ^ 21 * 2 ^ 32) by ring. field. }
    assert (G : 1 * / (4 * IZR nq) <= Rabs (IZR (k - (4 * m + q) * nq)) / (4 * IZR nq)).
    { apply Rmult_le_compat_r; lra. }
    assert (I : / 2 ^ 21 < 1).
    { rewrite <- Rinv_1. apply Rinv_lt_contravar; [|apply Rlt_pow_R1; [lra|lia]].
      rewrite Rmult_1_l. apply pow_lt; lra. }
    nra.
  - intros (m & E).
    assert (Hm : (0 <= m)%Z) by nia.
    assert (Hm2 : (4 * m + q < 2 ^ 33)%Z) by nia.
    assert (X : x = IZR (4 * m + q) / 4).
    { unfold x. rewrite E, mult_IZR. field. lra. }
    assert (Rx : rnd x = x) by (rewrite X; apply rnd_double, double_quarters; lia).
    rewrite Rx, Ztrunc_floor by exact Hx.
    assert (Fl : Zfloor x = m).
    { apply Zfloor_imp. rewrite X, plus_IZR, mult_IZR, plus_IZR. destruct Hq as [-> | ->]; simpl; lra. }
    rewrite Fl, X, plus_IZR, mult_IZR. simpl. lra.
Qed.

(** Extrapolation is skipped exactly at load reversals, including the exact floating-point
    comparison of the cycle fraction with 0.25 and 0.75. *)
Theorem C51_skip_exactly_at_load_reversals : forall l step,
  valid_loading l -> (0 <= step < 2 ^ 32)%Z ->
  (skip_extrapolation l step = true <-> load_reversal l step).
Proof.
  intros l step (_ & _ & _ & Hl & _ & Hq & Hc & Hov) Hs.
  unfold skip_extrapolation, load_reversal.
  destruct (l_type l); [split; [discriminate|intros [H _]; discriminate]|].
  assert (W : forall z, (0 <= z < 2 ^ 32)%Z -> u32 z = z) by (intros z Hz; apply Z.mod_small; exact Hz).
  assert (NN : (0 <= 4 * l_n_quarter l * l_n_cycles l)%Z) by nia.
  rewrite (W (4 * l_n_quarter l)%Z) by lia.
  rewrite (W (4 * l_n_quarter l * l_n_cycles l)%Z) by lia.
  rewrite !W by lia.
  set (nc := (4 * l_n_quarter l * l_n_cycles l)%Z) in *.
  destruct (Z.eqb_spec step (l_n_load l)) as [E1|E1]; cbn [orb].
  { split; [intros _; split; [reflexivity|left; exact E1]|reflexivity]. }
  destruct (Z.eqb_spec step (l_n_load l + nc)) as [E2|E2]; cbn [orb].
  { split; [intros _; split; [reflexivity|right; left; exact E2]|reflexivity]. }
  destruct (Z.ltb_spec (l_n_load l) step) as [L1|L1]; cbn [andb].
  2: { split; [discriminate|]. intros [_ [H|[H|[H _]]]]; lia. }
  destruct (Z.ltb_spec step (nc + l_n_load l)) as [L2|L2]; cbn [andb].
  2: { split; [discriminate|]. intros [_ [H|[H|[H _]]]]; lia. }
  rewrite W by lia. rewrite Bool.orb_true_iff, !Reqb_true.
  assert (K : (0 <= step - l_n_load l < 2 ^ 32)%Z) by lia.
  pose proof (quarter_fraction _ _ 1 K Hq (or_introl eq_refl)) as Q1.
  pose proof (quarter_fraction _ _ 3 K Hq (or_intror eq_refl)) as Q3.
  rewrite Q1, Q3. split.
  - intros H. split; [reflexivity|]. right; right. split; [lia|].
    destruct H as [(m & H)|(m & H)]; exists m; auto.
  - intros [_ [H|[H|[_ (m & [H|H])]]]]; try lia; [left|right]; exists m; exact H.
Qed.

(** Inside the cyclic phase the skipped steps are exactly those that start where the rate of
    the sinusoidal load vanishes: step [k] starts at the time start of the cyclic phase +
    (k - n_load) * period / (4 n_quarter). *)
Theorem C51_reversals_are_load_extrema : forall l step,
  valid_loading l -> l_type l = Cyclic ->
  (l_n_load l < step < l_n_load l + 4 * l_n_quarter l * l_n_cycles l)%Z ->
  (skip_extrapolation l step = true <->
   cos (2 * PI / l_period l * (IZR (step - l_n_load l) * dt_cyclic exact l)) = 0).
Proof.
  intros l step HV HT HB.
  pose proof HV as (_ & _ & _ & Hl & Hp & Hq & Hc & Hov).
  assert (HS : (0 <= step < 2 ^ 32)%Z) by lia.
  rewrite (C51_skip_exactly_at_load_reversals l step HV HS).
  set (j := (step - l_n_load l)%Z) in *.
  assert (Hnr : 1 <= IZR (l_n_quarter l)) by (apply (IZR_le 1); lia).
  assert (A : 2 * PI / l_period l * (IZR j * dt_cyclic exact l) = IZR j / (2 * IZR (l_n_quarter l)) * PI).
  { unfold dt_cyclic; simpl. field. lra. }
  rewrite A. pose proof PI_RGT_0 as HPI.
  assert (B : cos (IZR j / (2 * IZR (l_n_quarter l)) * PI) = 0 <->
              exists z, j = ((2 * z + 1) * l_n_quarter l)%Z).
  { split.
    - intros H. apply cos_eq_0_0 in H. destruct H as (z & H). exists z. apply eq_IZR.
      rewrite mult_IZR, plus_IZR, mult_IZR.
      assert (X : IZR j / (2 * IZR (l_n_quarter l)) = IZR z + 1 / 2).
      { apply (Rmult_eq_reg_r PI); [|lra]. rewrite H. field. }
      apply (Rmult_eq_compat_r (2 * IZR (l_n_quarter l))) in X.
      replace (IZR j / (2 * IZR (l_n_quarter l)) * (2 * IZR (l_n_quarter l))) with (IZR j) in X by (field; lra).
      rewrite X. field.
    - intros (z & H). apply cos_eq_0_1. exists z. rewrite H, mult_IZR, plus_IZR, mult_IZR. field. lra. }
  rewrite B. unfold load_reversal. split.
  - intros [_ [H|[H|[_ (m & [H|H])]]]]; try lia.
    + exists (2 * m)%Z. fold j in H. rewrite H. ring.
    + exists (2 * m + 1)%Z. fold j in H. rewrite H. ring.
  - intros (z & H). split; [exact HT|]. right; right. split; [lia|].
    fold j. destruct (Z.Even_or_Odd z) as [(m & ->)|(m & ->)].
    + exists m. left. rewrite H. ring.
    + exists m. right. rewrite H. ring.
Qed.

Definition sample_cyclic : loading :=
  mk_loading Cyclic 2 1 1 20 1 10 2 3 5 false.
Example C51_example :
  valid_loading sample_cyclic /\
  skip_extrapolation sample_cyclic 15 = true /\ skip_extrapolation sample_cyclic 16 = false /\
  skip_extrapolation sample_cyclic 25 = true.
Proof.
  assert (V : valid_loading sample_cyclic)
    by (unfold valid_loading; simpl; repeat split; try lia; lra).
  split; [exact V|]. split; [|split].
  - apply C51_skip_exactly_at_load_reversals; [exact V|lia|]. split; [reflexivity|]. simpl.
    right; right. split; [lia|]. exists 0%Z. left. reflexivity.
  - destruct (skip_extrapolation sample_cyclic 16) eqn:E; [|reflexivity].
    apply C51_skip_exactly_at_load_reversals in E; [|exact V|lia].
    destruct E as [_ [H|[H|[_ (m & [H|H])]]]]; simpl in H; lia.
  - apply C51_skip_exactly_at_load_reversals; [exact V|lia|]. split; [reflexivity|]. simpl.
    right; right. split; [lia|]. exists 0%Z. right. reflexivity.
Qed.

(** ** C50 *)
Lemma cyclic_end_exact l : valid_loading l ->
  cyclic_end_double l = IZR (l_n_load l + 4 * l_n_quarter l * l_n_cycles l).
Proof.
  intros (_ & _ & _ & Hl & _ & Hq & Hc & Hov). unfold cyclic_end_double.
  assert (NN : (0 <= 4 * l_n_quarter l * l_n_cycles l)%Z) by nia.
  replace (4 * IZR (l_n_quarter l)) with (IZR (4 * l_n_quarter l)) by (rewrite mult_IZR; reflexivity).
  rewrite rnd_int by lia. rewrite <- mult_IZR, rnd_int by lia. rewrite <- plus_IZR, rnd_int by lia.
  reflexivity.
Qed.
Lemma next_dt_planned l k : valid_loading l -> next_dt exact l (Z.of_nat k) = planned_dt l k.
Proof.
  intros HV. unfold planned_dt, next_dt. rewrite (cyclic_end_exact l HV).
  destruct HV as (_ & _ & _ & Hl & _ & Hq & Hc & Hov).
  assert (NN : (0 <= 4 * l_n_quarter l * l_n_cycles l)%Z) by nia.
  destruct (l_type l); [reflexivity|].
  destruct (Z.ltb_spec (Z.of_nat k) (l_n_load l)) as [A|A];
    destruct (Nat.ltb_spec k (Z.to_nat (l_n_load l))) as [B|B]; try lia; [reflexivity|].
  destruct (Nat.ltb_spec k (Z.to_nat (l_n_load l + 4 * l_n_quarter l * l_n_cycles l))) as [C|C].
  - assert (X : Rltb (IZR (Z.of_nat k)) (IZR (l_n_load l + 4 * l_n_quarter l * l_n_cycles l)) = true)
      by (apply Rltb_true, IZR_lt; lia).
    rewrite X. reflexivity.
  - assert (X : Rltb (IZR (Z.of_nat k)) (IZR (l_n_load l + 4 * l_n_quarter l * l_n_cycles l)) = false)
      by (apply Rltb_false, IZR_le; lia).
    rewrite X. reflexivity.
Qed.
Lemma planned_dt_phases l k : valid_loading l ->
  planned_dt l k =
  match l_type l with
  | Monotonic => l_duration_mono l / IZR (l_n_mono l)
  | Cyclic =>
      if Nat.ltb k (Z.to_nat (l_n_load l)) then l_duration l / IZR (l_n_load l)
      else if Nat.ltb k (Z.to_nat (l_n_load l) + Z.to_nat (4 * l_n_quarter l * l_n_cycles l))
      then l_period l / 4 / IZR (l_n_quarter l)
      else l_duration l / IZR (l_n_load l)
  end.
Proof.
  intros (_ & _ & _ & Hl & _ & Hq & Hc & Hov). unfold planned_dt.
  rewrite Z2Nat.inj_add by nia. reflexivity.
Qed.
Lemma planned_time_sum l n : valid_loading l ->
  sumn n (fun j => next_dt exact l (Z.of_nat j)) = planned_time l n.
Proof. intros HV. apply sumn_ext. intros k _. apply next_dt_planned, HV. Qed.
Lemma sumn_split' : forall m n f, sumn (n + m) f = sumn n f + sumn m (fun k => f (n + k)%nat).
Proof.
  induction m as [|m IH]; intros n f; simpl.
  - rewrite Nat.add_0_r. ring.
  - rewrite Nat.add_succ_r. simpl. rewrite IH. ring.
Qed.
Lemma sumn_const' : forall n f c, (forall k, (k < n)%nat -> f k = c) -> sumn n f = INR n * c.
Proof.
  induction n as [|n IH]; intros f c H; [simpl; ring|].
  rewrite S_INR. simpl sumn. rewrite (IH f c), (H n) by (intros; auto; lia). ring.
Qed.
Lemma INR_to_nat z : (0 <= z)%Z -> INR (Z.to_nat z) = IZR z.
Proof. intros H. rewrite INR_IZR_INZ, Z2Nat.id by exact H. reflexivity. Qed.

(** The planned step sizes add up to the configured simulated time. *)
Theorem C50_plan_fills_the_configured_time : forall l, valid_loading l ->
  planned_time l (Z.to_nat (planned_steps l)) = configured_time l /\
  end_time exact l = start_time + configured_time l.
Proof.
  intros l HV. split.
  - unfold planned_time. pose proof (fun k => planned_dt_phases l k HV) as P.
    destruct HV as (_ & Hm & _ & Hl & _ & Hq & Hc & Hov).
    assert (NN : (0 <= 4 * l_n_quarter l * l_n_cycles l)%Z) by nia.
    unfold planned_steps, configured_time. destruct (l_type l) eqn:T.
    + rewrite (sumn_const' _ _ (l_duration_mono l / IZR (l_n_mono l))) by (intros; apply P).
      rewrite INR_to_nat by lia. field. apply not_0_IZR. lia.
    + set (N1 := Z.to_nat (l_n_load l)). set (N2 := Z.to_nat (4 * l_n_quarter l * l_n_cycles l)).
      assert (E : Z.to_nat (l_n_load l + 4 * l_n_quarter l * l_n_cycles l +
                    (if l_skip_unloading l then 0 else l_n_load l)) =
                  (N1 + (N2 + if l_skip_unloading l then 0 else N1))%nat)
        by (unfold N1, N2; destruct (l_skip_unloading l); lia).
      rewrite E, !sumn_split'.
      rewrite (sumn_const' N1 _ (l_duration l / IZR (l_n_load l))).
      2: { intros k Hk. rewrite P. fold N1. destruct (Nat.ltb_spec k N1); [reflexivity|lia]. }
      rewrite (sumn_const' N2 _ (l_period l / 4 / IZR (l_n_quarter l))).
      2: { intros k Hk. rewrite P. fold N1 N2. destruct (Nat.ltb_spec (N1 + k) N1); [lia|].
           destruct (Nat.ltb_spec (N1 + k) (N1 + N2)); [reflexivity|lia]. }
      rewrite (sumn_const' (if l_skip_unloading l then 0 else N1) _ (l_duration l / IZR (l_n_load l))).
      2: { intros k Hk. rewrite P. fold N1 N2. destruct (Nat.ltb_spec (N1 + (N2 + k)) N1); [lia|].
           destruct (Nat.ltb_spec (N1 + (N2 + k)) (N1 + N2)); [lia|reflexivity]. }
      unfold N1, N2. rewrite (INR_to_nat (4 * _ * _)) by exact NN.
      rewrite !mult_IZR.
      destruct (l_skip_unloading l); [simpl INR|]; rewrite !INR_to_nat by lia;
        field; split; apply not_0_IZR; lia.
  - unfold end_time, configured_time; simpl. unfold start_time.
    destruct (l_type l); [reflexivity|]. destruct (l_skip_unloading l); ring.
Qed.

Lemma planned_dt_pos l k : valid_loading l -> 0 < planned_dt l k.
Proof.
  intros HV. rewrite (planned_dt_phases l k HV).
  destruct HV as (H1 & H2 & H3 & H4 & H5 & H6 & _).
  assert (A1 : 0 < IZR (l_n_mono l)) by (apply (IZR_lt 0); lia).
  assert (A2 : 0 < IZR (l_n_load l)) by (apply (IZR_lt 0); lia).
  assert (A3 : 0 < IZR (l_n_quarter l)) by (apply (IZR_lt 0); lia).
  assert (B1 : 0 < l_duration_mono l / IZR (l_n_mono l)) by (apply Rdiv_lt_0_compat; lra).
  assert (B2 : 0 < l_duration l / IZR (l_n_load l)) by (apply Rdiv_lt_0_compat; lra).
  assert (B3 : 0 < l_period l / 4 / IZR (l_n_quarter l)) by (apply Rdiv_lt_0_compat; lra).
  destruct (l_type l); [exact B1|].
  destruct (Nat.ltb _ _); [exact B2|]. destruct (Nat.ltb _ _); assumption.
Qed.

(** The time loop in an arithmetic whose sums are off by at most [eps]. *)
Lemma loop_core a l freq solves N eps :
  (1 <= N)%nat -> 0 <= eps -> freq <> 0%Z -> (forall k, solves k = true) ->
  (forall k t, (k < N)%nat -> 0 <= t < end_time a l ->
     Rabs (a_add a t (next_dt a l (Z.of_nat k)) - (t + next_dt a l (Z.of_nat k))) <= eps) ->
  (forall k, (k < N)%nat ->
     Rabs (a_thr a (end_time a l) (next_dt a l (Z.of_nat k))
           - (end_time a l - next_dt a l (Z.of_nat k) / 20)) <= eps) ->
  (forall k, (k < N)%nat -> 0 < next_dt a l (Z.of_nat k) /\ eps <= next_dt a l (Z.of_nat k)) ->
  (forall k, (k + 1 < N)%nat ->
     sumn (k + 1) (fun j => next_dt a l (Z.of_nat j)) + INR (k + 2) * eps
     <= end_time a l - next_dt a l (Z.of_nat k) / 20) ->
  end_time a l - next_dt a l (Z.of_nat (N - 1)) / 20
     < sumn N (fun j => next_dt a l (Z.of_nat j)) - INR (N + 1) * eps ->
  forall m k t fuel, (k + m = N)%nat -> (1 <= m)%nat -> (m <= fuel)%nat ->
    0 <= t < end_time a l ->
    Rabs (t - sumn k (fun j => next_dt a l (Z.of_nat j))) <= INR k * eps ->
    exists tr, time_loop a l freq solves fuel (Z.of_nat k) t = (tr, Finished) /\
      length tr = m /\
      forall j r, nth_error tr j = Some r ->
        st_number r = Z.of_nat (k + j + 1) /\
        ((k + j + 1 < N)%nat ->
           Rabs (st_time r - sumn (k + j + 1) (fun i => next_dt a l (Z.of_nat i)))
             <= INR (k + j + 1) * eps) /\
        ((k + j + 1 = N)%nat -> st_time r = end_time a l).
Proof.
  intros HN He Hf Hs Hadd Hthr HD HB HC.
  set (E := end_time a l) in *. set (D := fun j => next_dt a l (Z.of_nat j)) in *.
  induction m as [|m IH]; intros k t fuel Hk Hm Hfuel Ht Hc; [lia|].
  destruct fuel as [|fuel]; [lia|].
  assert (HkN : (k < N)%nat) by lia.
  pose proof (Hadd k t HkN Ht) as A. pose proof (Hthr k HkN) as T. destruct (HD k HkN) as [P1 P2].
  fold (D k) in A, T, P1, P2.
  cbn [time_loop]. fold E.
  assert (X : Rltb t E = true) by (apply Rltb_true; lra). rewrite X, Hs.
  destruct (Z.eqb_spec freq 0) as [|_]; [contradiction|].
  unfold clipped_next. fold (D k).
  apply Rabs_le_inv in A. apply Rabs_le_inv in T. apply Rabs_le_inv in Hc.
  assert (SS : sumn (k + 1) D = sumn k D + D k) by (rewrite Nat.add_1_r; reflexivity).
  assert (I1 : INR (k + 1) = INR k + 1) by (rewrite plus_INR; reflexivity).
  assert (I2 : INR (k + 2) = INR k + 2) by (rewrite plus_INR; simpl; ring).
  destruct (Nat.eq_dec m 0) as [->|Hm0].
  - (* last step: clipped *)
    assert (EN : N = (k + 1)%nat) by lia.
    assert (Y : Rltb (a_thr a E (D k)) (a_add a t (D k)) = true).
    { apply Rltb_true. rewrite EN in HC. replace (k + 1 - 1)%nat with k in HC by lia.
      fold (D k) in HC. rewrite SS in HC. replace (INR (k + 1 + 1)) with (INR k + 2) in HC
        by (rewrite !plus_INR; simpl; ring). lra. }
    rewrite Y.
    assert (Z0 : time_loop a l freq solves fuel (Z.of_nat k + 1) E = ([], Finished)).
    { destruct fuel; cbn [time_loop]; fold E;
        (assert (W : Rltb E E = false) by (apply Rltb_false; lra)); rewrite W; reflexivity. }
    rewrite Z0. eexists. split; [reflexivity|]. split; [reflexivity|].
    intros j r Hj. destruct j as [|j]; [|destruct j; discriminate].
    simpl in Hj. injection Hj as <-. cbn [st_number st_time]. split; [lia|]. split; [lia|reflexivity].
  - (* not clipped *)
    assert (Hk1 : (k + 1 < N)%nat) by lia.
    pose proof (HB k Hk1) as B. fold (D k) in B. rewrite SS, I2 in B.
    assert (Y : Rltb (a_thr a E (D k)) (a_add a t (D k)) = false) by (apply Rltb_false; lra).
    rewrite Y.
    destruct (IH (k + 1)%nat (a_add a t (D k)) fuel) as (tr & E1 & E2 & E3); try lia.
    + split; lra.
    + rewrite SS, I1. apply Rabs_le. lra.
    + rewrite Nat2Z.inj_add in E1. simpl (Z.of_nat 1) in E1. rewrite E1.
      eexists. split; [reflexivity|]. split; [simpl; lia|].
      intros [|j] r Hj.
      * simpl in Hj. injection Hj as <-. cbn [st_number st_time].
        replace (k + 0 + 1)%nat with (k + 1)%nat by lia.
        split; [lia|]. split; [|lia]. intros _. rewrite SS, I1. apply Rabs_le. lra.
      * simpl in Hj. destruct (E3 j r Hj) as (F1 & F2 & F3).
        replace (k + S j + 1)%nat with (k + 1 + j + 1)%nat by lia. auto.
Qed.

(** The time loop performs exactly the planned steps and ends at the configured end,
    provided no step leaves a rest shorter than 5% of itself. *)
Theorem C50_run_follows_the_plan : forall l freq solves fuel,
  valid_loading l -> no_negligible_rest l -> freq <> 0%Z -> (forall k, solves k = true) ->
  (Z.to_nat (planned_steps l) <= fuel)%nat ->
  exists tr, run exact l freq solves fuel = (tr, Finished) /\
    length tr = Z.to_nat (planned_steps l) /\
    forall k r, nth_error tr k = Some r ->
      st_number r = Z.of_nat (k + 1) /\ st_time r = planned_time l (k + 1).
Proof.
  intros l freq solves fuel HV HR Hf Hs Hfuel.
  destruct (C50_plan_fills_the_configured_time l HV) as [PT EE].
  assert (HN : (1 <= Z.to_nat (planned_steps l))%nat).
  { destruct HV as (_ & A & _ & B & _ & C & C' & _). unfold planned_steps.
    destruct (l_type l); [lia|]. destruct (l_skip_unloading l); nia. }
  assert (E' : end_time exact l = configured_time l) by (rewrite EE; unfold start_time; ring).
  assert (DD : forall k, next_dt exact l (Z.of_nat k) = planned_dt l k) by (intros k; apply next_dt_planned, HV).
  destruct (loop_core exact l freq solves (Z.to_nat (planned_steps l)) 0 HN (Rle_refl 0) Hf Hs)
    with (m := Z.to_nat (planned_steps l)) (k := 0%nat) (t := start_time) (fuel := fuel)
    as (tr & E1 & E2 & E3); try lia.
  - intros k t _ _. simpl a_add. rewrite Rminus_eq_0, Rabs_R0. lra.
  - intros k _. simpl a_thr. rewrite Rminus_eq_0, Rabs_R0. lra.
  - intros k _. pose proof (planned_dt_pos l k HV). rewrite DD. lra.
  - intros k Hk. pose proof (HR k Hk) as X. rewrite DD, E', (planned_time_sum l _ HV). lra.
  - rewrite DD, E', (planned_time_sum l _ HV).
    pose proof (planned_dt_pos l (Z.to_nat (planned_steps l) - 1) HV). lra.
  - unfold start_time. split; [lra|]. rewrite E', <- PT. unfold planned_time.
    destruct (Z.to_nat (planned_steps l)) as [|N]; [lia|]. simpl.
    pose proof (planned_dt_pos l N HV).
    assert (0 <= sumn N (planned_dt l)).
    { clear - HV. induction N; simpl; [lra|]. pose proof (planned_dt_pos l N HV). lra. }
    lra.
  - unfold start_time. simpl. rewrite Rminus_eq_0, Rabs_R0. lra.
  - exists tr. split; [exact E1|]. split; [lia|]. intros k r Hr.
    assert (Hk : (k < length tr)%nat) by (apply nth_error_Some; congruence).
    destruct (E3 k r Hr) as (F1 & F2 & F3).
    split; [exact F1|]. simpl (0 + k + 1)%nat in *.
    destruct (Nat.eq_dec (k + 1) (Z.to_nat (planned_steps l))) as [Ek|Nk].
    + rewrite F3 by exact Ek. rewrite E', <- PT, Ek. reflexivity.
    + specialize (F2 ltac:(lia)). rewrite Rmult_0_r in F2. apply Rabs_le_inv in F2.
      rewrite (planned_time_sum l _ HV) in F2. lra.
Qed.

(** Sufficient: consecutive planned steps differ at most by a factor of twenty. *)
Lemma rest_at_least_next l k : valid_loading l -> (k + 1 < Z.to_nat (planned_steps l))%nat ->
  planned_dt l (k + 1) <= configured_time l - planned_time l (k + 1).
Proof.
  intros HV Hk. destruct (C50_plan_fills_the_configured_time l HV) as [PT _]. rewrite <- PT.
  unfold planned_time. set (N := Z.to_nat (planned_steps l)) in *.
  replace N with ((k + 1 + 1) + (N - (k + 2)))%nat by lia.
  rewrite sumn_split', (Nat.add_1_r (k + 1)). cbn [sumn].
  assert (0 <= sumn (N - (k + 2)) (fun i => planned_dt l (S (k + 1) + i))).
  { induction (N - (k + 2))%nat; simpl; [lra|].
    pose proof (planned_dt_pos l (S (k + 1 + n)) HV). simpl in *. lra. }
  lra.
Qed.
Theorem C50_comparable_steps_suffice : forall l, valid_loading l ->
  (l_type l = Cyclic -> dt_load exact l <= 20 * dt_cyclic exact l /\
                        dt_cyclic exact l <= 20 * dt_load exact l) ->
  no_negligible_rest l.
Proof.
  intros l HV HC k Hk. pose proof (rest_at_least_next l k HV Hk) as R.
  pose proof (planned_dt_pos l k HV) as P. pose proof (planned_dt_pos l (k + 1) HV) as P'.
  enough (planned_dt l k <= 20 * planned_dt l (k + 1)) by lra.
  rewrite (planned_dt_phases l k HV) in *. rewrite (planned_dt_phases l (k + 1) HV) in *.
  destruct (l_type l); [lra|]. destruct (HC eq_refl) as [C1 C2].
  unfold dt_load, dt_cyclic in C1, C2; simpl in C1, C2.
  repeat destruct (Nat.ltb _ _); lra.
Qed.

Example C50_example : valid_loading sample_cyclic /\ no_negligible_rest sample_cyclic /\
  planned_steps sample_cyclic = 60%Z /\ configured_time sample_cyclic = 8.
Proof.
  assert (V : valid_loading sample_cyclic)
    by (unfold valid_loading; simpl; repeat split; try lia; lra).
  split; [exact V|]. split; [|split].
  - apply C50_comparable_steps_suffice; [exact V|]. intros _. unfold dt_load, dt_cyclic; simpl. lra.
  - reflexivity.
  - unfold configured_time; simpl. lra.
Qed.

(** A final phase shorter than 5% of the preceding step is silently dropped: here the whole
    cyclic phase. *)
Definition tiny_cycles : loading := mk_loading Cyclic 2 1 1 1 1 1 1 (1 / 100) 1 true.
Theorem C50_short_phases_are_dropped_refuted :
  exists l, valid_loading l /\ planned_steps l = 5%Z /\
    forall freq solves fuel, freq <> 0%Z -> (forall k, solves k = true) -> (1 <= fuel)%nat ->
    exists r, run exact l freq solves fuel = ([r], Finished).
Proof.
  exists tiny_cycles. split; [unfold valid_loading; simpl; repeat split; try lia; lra|].
  split; [reflexivity|]. intros freq solves fuel Hf Hs Hfuel.
  destruct fuel as [|fuel]; [lia|]. unfold run. cbn [time_loop].
  assert (E : end_time exact tiny_cycles = 101 / 100)
    by (unfold end_time, start_time; simpl; field).
  rewrite E, Hs.
  assert (X : Rltb start_time (101 / 100) = true) by (apply Rltb_true; unfold start_time; lra).
  rewrite X. destruct (Z.eqb_spec freq 0) as [|_]; [contradiction|].
  assert (D : next_dt exact tiny_cycles 0 = 1) by (unfold next_dt, dt_load; simpl; lra).
  rewrite D. unfold clipped_next.
  assert (Y : Rltb (a_thr exact (101 / 100) 1) (a_add exact start_time 1) = true)
    by (apply Rltb_true; simpl; unfold start_time; lra).
  rewrite Y.
  assert (Z0 : time_loop exact tiny_cycles freq solves fuel (0 + 1) (101 / 100) = ([], Finished)).
  { assert (W : Rltb (101 / 100) (101 / 100) = false) by (apply Rltb_false; lra).
    destruct fuel; cbn [time_loop]; rewrite E, W; reflexivity. }
  rewrite Z0. eexists. reflexivity.
Qed.

(** ** Double precision *)
Lemma rnd_between x : / 2 ^ 1000 <= x -> x * (1 - / 2 ^ 53) <= rnd x <= x * (1 + / 2 ^ 53).
Proof.
  intros H. assert (P : 0 < / 2 ^ 1000) by (apply Rinv_0_lt_compat, pow_lt; lra).
  pose proof (rnd_error x) as E. rewrite Rabs_right in E by lra.
  specialize (E H). apply Rabs_le_inv in E. lra.
Qed.
Lemma inv_pow_le m n : (m <= n)%nat -> / 2 ^ n <= / 2 ^ m.
Proof. intros H. apply Rinv_le_contravar; [apply pow_lt; lra|]. apply Rle_pow; [lra|exact H]. Qed.

Theorem C50_double_precision_monotonic : forall l freq solves fuel,
  l_type l = Monotonic -> is_double (l_duration_mono l) -> / 2 ^ 900 <= l_duration_mono l ->
  (1 <= l_n_mono l <= 1000000)%Z -> freq <> 0%Z -> (forall k, solves k = true) ->
  (Z.to_nat (l_n_mono l) <= fuel)%nat ->
  exists tr, run double l freq solves fuel = (tr, Finished) /\
    length tr = Z.to_nat (l_n_mono l) /\
    forall k r, nth_error tr k = Some r ->
      st_number r = Z.of_nat (k + 1) /\
      ((k + 1)%nat = Z.to_nat (l_n_mono l) -> st_time r = l_duration_mono l) /\
      Rabs (st_time r - IZR (st_number r) * (l_duration_mono l / IZR (l_n_mono l)))
        <= / 2 ^ 30 * l_duration_mono l.
Proof.
  intros l freq solves fuel HT HD HL Hn Hf Hs Hfuel.
  set (T := l_duration_mono l) in *.
  assert (P9 : 0 < / 2 ^ 900) by (apply Rinv_0_lt_compat, pow_lt; lra).
  assert (HT0 : 0 < T) by lra.
  assert (EE : end_time double l = T).
  { unfold end_time. rewrite HT. simpl. unfold start_time. fold T. rewrite Rplus_0_l.
    apply rnd_double, HD. }
  set (n := IZR (l_n_mono l)).
  assert (Hn1 : 1 <= n) by (apply (IZR_le 1); lia).
  assert (Hn2 : n <= 1000000) by (apply (IZR_le _ 1000000); lia).
  assert (Hnn : n * n <= 1000000 * 1000000) by (apply Rmult_le_compat; lra).
  set (v := T / n). assert (Tv : T = n * v) by (unfold v; field; lra).
  assert (Hv : 0 < v) by (unfold v; apply Rdiv_lt_0_compat; lra).
  set (D := rnd v).
  assert (DD : forall k, next_dt double l k = D).
  { intros k. unfold next_dt. rewrite HT. reflexivity. }
  set (u := / 2 ^ 53).
  assert (U : u = / 9007199254740992) by (unfold u; f_equal; lra).
  assert (Up : 0 < u) by (rewrite U; lra).
  assert (big : 1000000 * 2 ^ 900 <= 2 ^ 920).
  { replace (2 ^ 920) with (2 ^ 20 * 2 ^ 900) by (rewrite <- pow_add; reflexivity).
    apply Rmult_le_compat_r; [apply pow_le; lra|]. simpl. lra. }
  assert (Lv : / 2 ^ 920 <= v).
  { unfold v, Rdiv. apply Rle_trans with (/ 2 ^ 900 * / 1000000).
    - rewrite <- Rinv_mult. apply Rinv_le_contravar.
      + apply Rmult_lt_0_compat; [apply pow_lt|]; lra.
      + rewrite Rmult_comm. exact big.
    - apply Rmult_le_compat; try lra. apply Rinv_le_contravar; lra. }
  assert (P920 : 0 < / 2 ^ 920) by (apply Rinv_0_lt_compat, pow_lt; lra).
  assert (L1000 : / 2 ^ 1000 <= / 2 ^ 920 / 1000).
  { apply Rle_trans with (/ 2 ^ 930); [apply inv_pow_le; lia|].
    replace (2 ^ 930) with (2 ^ 10 * 2 ^ 920) by (rewrite <- pow_add; reflexivity).
    rewrite Rinv_mult. unfold Rdiv. rewrite Rmult_comm. apply Rmult_le_compat_l; [lra|].
    apply Rinv_le_contravar; simpl; lra. }
  assert (P1000 : 0 < / 2 ^ 1000) by (apply Rinv_0_lt_compat, pow_lt; lra).
  pose proof (rnd_between v ltac:(lra)) as BD. fold u D in BD.
  assert (D1 : v * (99 / 100) <= D) by (apply Rle_trans with (2 := proj1 BD); rewrite U; apply Rmult_le_compat_l; lra).
  assert (D2 : D <= v * (101 / 100)) by (apply Rle_trans with (1 := proj2 BD); rewrite U; apply Rmult_le_compat_l; lra).
  assert (vT : v <= T) by (rewrite Tv; rewrite <- (Rmult_1_l v) at 1; apply Rmult_le_compat_r; lra).
  set (eps := 4 * u * T).
  assert (eps0 : 0 <= eps) by (unfold eps; apply Rmult_le_pos; lra).
  assert (epsv : eps = 4 * (u * n) * v) by (unfold eps; rewrite Tv; ring).
  assert (un : u * n <= / 9000000000) by (rewrite U; lra).
  assert (un0 : 0 <= u * n) by (apply Rmult_le_pos; lra).
  assert (unn : u * n * n <= 1 / 8000).
  { rewrite Rmult_assoc. rewrite U. lra. }
  assert (eps1 : eps <= v / 1000000).
  { rewrite epsv. unfold Rdiv. rewrite (Rmult_comm v). apply Rmult_le_compat_r; lra. }
  assert (neps : forall x, 0 <= x <= n + 1 -> x * eps <= v / 1000).
  { intros x [Hx0 Hx]. apply Rle_trans with ((n + 1) * eps); [apply Rmult_le_compat_r; lra|].
    rewrite epsv. replace ((n + 1) * (4 * (u * n) * v)) with (4 * (u * n * n + u * n) * v) by ring.
    unfold Rdiv. rewrite (Rmult_comm v). apply Rmult_le_compat_r; lra. }
  assert (HN : (1 <= Z.to_nat (l_n_mono l))%nat) by lia.
  assert (IN : INR (Z.to_nat (l_n_mono l)) = n) by (apply INR_to_nat; lia).
  assert (SUM : forall k, sumn k (fun j => next_dt double l (Z.of_nat j)) = INR k * D).
  { intros k. apply sumn_const'. intros. apply DD. }
  assert (ERR : forall x, 0 <= x <= n -> Rabs (x * D - x * v) <= v / 1000).
  { intros x Hx. apply Rabs_le.
    assert (Q : 0 <= x * v <= n * v) by (split; [apply Rmult_le_pos|apply Rmult_le_compat_r]; lra).
    assert (Q1 : x * v - u * (n * v) <= x * D).
    { apply Rle_trans with (x * (v * (1 - u))); [|apply Rmult_le_compat_l; lra].
      assert (u * (x * v) <= u * (n * v)) by (apply Rmult_le_compat_l; lra). lra. }
    assert (Q2 : x * D <= x * v + u * (n * v)).
    { apply Rle_trans with (x * (v * (1 + u))); [apply Rmult_le_compat_l; lra|].
      assert (u * (x * v) <= u * (n * v)) by (apply Rmult_le_compat_l; lra). lra. }
    assert (Q3 : u * (n * v) <= v / 1000).
    { rewrite <- Rmult_assoc. unfold Rdiv. rewrite (Rmult_comm v). apply Rmult_le_compat_r; lra. }
    lra. }
  destruct (loop_core double l freq solves (Z.to_nat (l_n_mono l)) eps HN eps0 Hf Hs)
    with (m := Z.to_nat (l_n_mono l)) (k := 0%nat) (t := start_time) (fuel := fuel)
    as (tr & E1 & E2 & E3); try lia.
  - intros k t _ Ht. rewrite EE in Ht. rewrite DD. simpl a_add.
    apply Rle_trans with (1 := rnd_error (t + D) ltac:(rewrite Rabs_right; lra)).
    rewrite Rabs_right by lra. fold u. unfold eps. rewrite Rmult_assoc, (Rmult_comm 4), Rmult_assoc.
    apply Rmult_le_compat_l; lra.
  - intros k _. rewrite DD, EE. simpl a_thr.
    pose proof (rnd_between (1 / 20)) as C. fold u in C.
    assert (C0 : / 2 ^ 1000 <= 1 / 20).
    { apply Rle_trans with (/ 2 ^ 5); [apply inv_pow_le; lia|]. simpl; lra. }
    specialize (C C0). set (c := rnd (1 / 20)) in *.
    assert (c1 : 49 / 1000 <= c <= 51 / 1000) by (rewrite U in C; lra).
    assert (cD1 : 49 / 1000 * D <= c * D <= 51 / 1000 * D) by (split; apply Rmult_le_compat_r; lra).
    pose proof (rnd_between (c * D) ltac:(lra)) as CD. fold u in CD. set (w := rnd (c * D)) in *.
    assert (cD2 : Rabs (c * D - D / 20) <= u * (D / 20)).
    { replace (c * D - D / 20) with ((c - 1 / 20) * D) by field.
      rewrite Rabs_mult, (Rabs_right D) by lra. replace (u * (D / 20)) with (u * (1 / 20) * D) by field.
      apply Rmult_le_compat_r; [lra|]. apply Rabs_le. lra. }
    apply Rabs_le_inv in cD2.
    assert (uD : 0 <= u * D <= u * (101 / 100 * T)).
    { split; [apply Rmult_le_pos; lra|apply Rmult_le_compat_l; lra]. }
    assert (ucD : 0 <= u * (c * D) <= u * (51 / 1000 * D)).
    { split; [apply Rmult_le_pos; [lra|]; lra|]. apply Rmult_le_compat_l; lra. }
    assert (W : Rabs (w - D / 20) <= 2 * (u * T)) by (apply Rabs_le; lra).
    apply Rabs_le_inv in W.
    assert (uT : 0 <= u * T <= / 9000000000 * T).
    { split; [apply Rmult_le_pos; lra|]. apply Rmult_le_compat_r; [lra|]. rewrite U; lra. }
    assert (uDD : u * D <= / 1000 * D) by (apply Rmult_le_compat_r; [lra|]; rewrite U; lra).
    assert (w0 : 0 <= w) by lra.
    assert (TW : 9 / 10 * T <= T - w <= T) by lra.
    pose proof (rnd_between (T - w) ltac:(lra)) as TR. fold u in TR.
    assert (uTW : u * (T - w) <= u * T) by (apply Rmult_le_compat_l; lra).
    apply Rabs_le. unfold eps. lra.
  - intros k _. rewrite DD. lra.
  - intros k Hk. rewrite SUM, DD, EE.
    assert (K : INR (k + 1) <= n - 1).
    { rewrite <- IN. replace 1 with (INR 1) by reflexivity. rewrite <- minus_INR by lia. apply le_INR. lia. }
    assert (K0 : 0 <= INR (k + 1)) by apply pos_INR.
    replace (INR (k + 2)) with (INR (k + 1) + 1) by (rewrite !plus_INR; simpl; ring).
    pose proof (neps (INR (k + 1) + 1) ltac:(lra)) as Q.
    pose proof (ERR (INR (k + 1)) ltac:(lra)) as R. apply Rabs_le_inv in R.
    assert (INR (k + 1) * v <= (n - 1) * v) by (apply Rmult_le_compat_r; lra).
    rewrite Tv. lra.
  - rewrite SUM, DD, EE, IN.
    pose proof (ERR n ltac:(lra)) as R. apply Rabs_le_inv in R.
    pose proof (neps (n + 1) ltac:(lra)) as Q. rewrite plus_INR, IN. simpl (INR 1). rewrite Tv in *. lra.
  - unfold start_time. rewrite EE. lra.
  - unfold start_time. simpl. rewrite Rminus_eq_0, Rabs_R0. lra.
  - exists tr. split; [exact E1|]. split; [lia|]. intros k r Hr.
    assert (Hk : (k < length tr)%nat) by (apply nth_error_Some; congruence).
    destruct (E3 k r Hr) as (F1 & F2 & F3). simpl (0 + k + 1)%nat in *.
    rewrite EE in F3. split; [exact F1|]. split; [exact F3|].
    assert (tol : v / 1000 + v / 1000 <= v) by lra.
    rewrite F1, <- INR_IZR_INZ. fold n v.
    assert (FIN : forall x, 0 <= x <= n -> x * eps + u * (x * v) <= / 2 ^ 30 * T).
    { intros x Hx. unfold eps. rewrite Tv.
      assert (Q : x * v <= n * v) by (apply Rmult_le_compat_r; lra).
      assert (Q' : u * (x * v) <= u * (n * v)) by (apply Rmult_le_compat_l; lra).
      assert (Q2 : x * (4 * u * (n * v)) <= n * (4 * u * (n * v))).
      { apply Rmult_le_compat_r; [|lra]. apply Rmult_le_pos; [lra|]. apply Rmult_le_pos; lra. }
      replace (n * (4 * u * (n * v))) with (4 * (u * n) * (n * v)) in Q2 by ring.
      assert (Q3 : 4 * (u * n) * (n * v) <= 4 / 9000000000 * (n * v)).
      { apply Rmult_le_compat_r; [apply Rmult_le_pos; lra|]. lra. }
      assert (Q4 : u * (n * v) <= / 9000000000 * (n * v)).
      { apply Rmult_le_compat_r; [apply Rmult_le_pos; lra|]. rewrite U; lra. }
      assert (Q5 : 5 / 9000000000 * (n * v) <= / 2 ^ 30 * (n * v)).
      { apply Rmult_le_compat_r; [apply Rmult_le_pos; lra|]. simpl; lra. }
      lra. }
    assert (K0 : 0 <= INR (k + 1)) by apply pos_INR.
    assert (K1 : INR (k + 1) <= n) by (rewrite <- IN; apply le_INR; lia).
    destruct (Nat.eq_dec (k + 1) (Z.to_nat (l_n_mono l))) as [Ek|Nk].
    + rewrite F3 by exact Ek. rewrite Ek, IN, <- Tv, Rminus_eq_0, Rabs_R0.
      apply Rmult_le_pos; [|lra]. simpl; lra.
    + specialize (F2 ltac:(lia)). rewrite SUM in F2. apply Rabs_le_inv in F2.
      specialize (FIN (INR (k + 1)) ltac:(lra)).
      assert (Q : 0 <= INR (k + 1) * v) by (apply Rmult_le_pos; lra).
      assert (Q1 : INR (k + 1) * v - u * (INR (k + 1) * v) <= INR (k + 1) * D).
      { apply Rle_trans with (INR (k + 1) * (v * (1 - u))); [lra|apply Rmult_le_compat_l; lra]. }
      assert (Q2 : INR (k + 1) * D <= INR (k + 1) * v + u * (INR (k + 1) * v)).
      { apply Rle_trans with (INR (k + 1) * (v * (1 + u))); [apply Rmult_le_compat_l; lra|lra]. }
      apply Rabs_le. lra.
Qed.

Example C50_double_example :
  is_double 1 /\ / 2 ^ 900 <= 1.
Proof.
  split; [apply (double_int 1); lia|].
  apply Rle_trans with (/ 2 ^ 0); [apply inv_pow_le; lia|]. simpl; lra.
Qed.

(** ** C55 *)
Lemma loop_trace a l freq solves : freq <> 0%Z ->
  (forall k, a_thr a (end_time a l) (next_dt a l k) <= end_time a l) ->
  forall fuel step cur tr e, cur <= end_time a l ->
  time_loop a l freq solves fuel step cur = (tr, e) ->
  numbered (step + 1) tr /\
  (e = Finished ->
     (cur < end_time a l -> exists r, last tr r = r /\ nth_error tr (length tr - 1) = Some r /\
                            st_time r = end_time a l /\ st_written r = true) /\
     written_as_documented freq tr) /\
  (e <> Finished ->
     forall k r, nth_error tr k = Some r ->
       st_time r < end_time a l /\ (st_written r = true <-> (freq | st_number r)%Z)).
Proof.
  intros Hf Hthr. set (E := end_time a l) in *.
  assert (NX : forall c k, clipped_next a c (next_dt a l k) E <= E).
  { intros c k. unfold clipped_next. destruct (Rltb _ _) eqn:X; [lra|].
    apply Rltb_false in X. specialize (Hthr k). lra. }
  induction fuel as [|fuel IH]; intros step cur tr e Hc H; cbn [time_loop] in H; fold E in H.
  - destruct (Rltb cur E) eqn:X; injection H as <- <-.
    + split; [intros [|k] r Hr; discriminate|]. split; [discriminate|].
      intros _ [|k] r Hr; discriminate.
    + apply Rltb_false in X. split; [intros [|k] r Hr; discriminate|]. split.
      * intros _. split; [lra|]. intros [|k] r Hr; discriminate.
      * intros _ [|k] r Hr; discriminate.
  - destruct (Rltb cur E) eqn:X.
    2: { injection H as <- <-. apply Rltb_false in X.
         split; [intros [|k] r Hr; discriminate|]. split.
         - intros _. split; [lra|]. intros [|k] r Hr; discriminate.
         - intros _ [|k] r Hr; discriminate. }
    destruct (solves step).
    2: { injection H as <- <-. split; [intros [|k] r Hr; discriminate|]. split; [discriminate|].
         intros _ [|k] r Hr; discriminate. }
    destruct (Z.eqb_spec freq 0) as [|_]; [contradiction|].
    set (nx := clipped_next a cur (next_dt a l step) E) in *.
    destruct (time_loop a l freq solves fuel (step + 1) nx) as [tr' e'] eqn:TL.
    injection H as <- <-.
    pose proof (NX cur step) as Hnx. fold nx in Hnx.
    destruct (IH (step + 1)%Z nx tr' e' Hnx TL) as (I1 & I2 & I3).
    assert (W : forall b, orb ((step + 1) mod freq =? 0)%Z b = true <-> ((freq | step + 1)%Z \/ b = true)).
    { intros b. rewrite Bool.orb_true_iff, Z.eqb_eq, Z.mod_divide by exact Hf. reflexivity. }
    split; [|split].
    + intros [|k] r Hr; simpl in Hr.
      * injection Hr as <-. simpl. lia.
      * rewrite (I1 k r Hr). lia.
    + intros ->. destruct (I2 eq_refl) as [L Wr]. clear I2 I3.
      assert (Cases : (nx = E /\ tr' = []) \/ (nx < E /\ tr' <> [])).
      { destruct (Rle_lt_or_eq_dec nx E Hnx) as [Hlt|Heq]; [right|left].
        - split; [exact Hlt|]. destruct (L Hlt) as (r & _ & Hr & _). intros ->. discriminate.
        - split; [exact Heq|]. assert (Y : Rltb nx E = false) by (apply Rltb_false; lra).
          destruct fuel; cbn [time_loop] in TL; fold E in TL; rewrite Y in TL; congruence. }
      split.
      * intros _. destruct Cases as [[Eq ->]|[Hlt Ne]].
        -- eexists. split; [reflexivity|]. split; [reflexivity|]. cbn [st_time st_written].
           split; [exact Eq|]. apply W. right. apply Reqb_true. exact Eq.
        -- destruct (L Hlt) as (r & L1 & L2 & L3 & L4). exists r.
           destruct tr' as [|r0 tr']; [congruence|]. split; [exact L1|]. split; [|auto].
           simpl length in *. replace (S (length tr') - 1)%nat with (length tr') in L2 by lia.
           replace (S (S (length tr')) - 1)%nat with (S (length tr')) by lia. exact L2.
      * intros [|k] r Hr; simpl in Hr.
        -- injection Hr as <-. cbn [st_written st_number]. rewrite W, Reqb_true.
           destruct Cases as [[Eq ->]|[Hlt Ne]].
           ++ simpl. split; auto.
           ++ destruct tr' as [|r0 tr']; [congruence|]. simpl length.
              split; (intros [A|A]; [left; exact A|]); [lra|lia].
        -- rewrite (Wr k r Hr). simpl length.
           assert (k < length tr')%nat by (apply nth_error_Some; congruence).
           split; (intros [A|A]; [left; exact A|right; lia]).
    + intros Ne k r Hr. destruct k as [|k]; simpl in Hr.
      * injection Hr as <-. cbn [st_written st_number st_time].
        assert (Hlt : nx < E).
        { destruct (Rle_lt_or_eq_dec nx E Hnx) as [Hlt|Heq]; [exact Hlt|exfalso].
          assert (Y : Rltb nx E = false) by (apply Rltb_false; lra).
          destruct fuel; cbn [time_loop] in TL; fold E in TL; rewrite Y in TL; congruence. }
        split; [exact Hlt|]. rewrite W, Reqb_true. split; [intros [A|A]; [exact A|lra]|auto].
      * apply (I3 Ne k r Hr).
Qed.

Lemma next_dt_double_nonneg l step : valid_loading l -> 0 <= next_dt double l step.
Proof.
  intros (H1 & H2 & H3 & H4 & H5 & H6 & _).
  assert (A1 : 0 < IZR (l_n_mono l)) by (apply (IZR_lt 0); lia).
  assert (A2 : 0 < IZR (l_n_load l)) by (apply (IZR_lt 0); lia).
  assert (A3 : 0 < IZR (l_n_quarter l)) by (apply (IZR_lt 0); lia).
  assert (Z0 : rnd 0 = 0) by (apply (rnd_int 0); lia).
  assert (Q : forall x y, 0 <= x -> 0 < y -> 0 <= rnd (x / y)).
  { intros x y Hx Hy. rewrite <- Z0. apply rnd_le. apply Rmult_le_pos; [exact Hx|].
    apply Rlt_le, Rinv_0_lt_compat, Hy. }
  assert (B1 : 0 <= dt_mono double l) by (apply Q; lra).
  assert (B2 : 0 <= dt_load double l) by (apply Q; lra).
  assert (B3 : 0 <= dt_cyclic double l) by (apply Q; [apply Q|]; lra).
  unfold next_dt. destruct (l_type l); [exact B1|].
  destruct (Z.ltb _ _); [exact B2|]. destruct (Rltb _ _); assumption.
Qed.
Lemma next_dt_exact_nonneg l step : valid_loading l -> 0 <= next_dt exact l step.
Proof.
  intros (H1 & H2 & H3 & H4 & H5 & H6 & _).
  assert (A1 : 0 < IZR (l_n_mono l)) by (apply (IZR_lt 0); lia).
  assert (A2 : 0 < IZR (l_n_load l)) by (apply (IZR_lt 0); lia).
  assert (A3 : 0 < IZR (l_n_quarter l)) by (apply (IZR_lt 0); lia).
  assert (B1 : 0 < dt_mono exact l) by (apply Rdiv_lt_0_compat; lra).
  assert (B2 : 0 < dt_load exact l) by (apply Rdiv_lt_0_compat; lra).
  assert (B3 : 0 < dt_cyclic exact l) by (unfold dt_cyclic; simpl; apply Rdiv_lt_0_compat; lra).
  unfold next_dt. destruct (l_type l); [lra|].
  destruct (Z.ltb _ _); [lra|]. destruct (Rltb _ _); lra.
Qed.
Lemma end_time_double l : is_double (end_time double l).
Proof. unfold end_time. destruct (l_type l); apply is_double_rnd. Qed.
Lemma threshold_below_end a l step : valid_loading l -> a = exact \/ a = double ->
  a_thr a (end_time a l) (next_dt a l step) <= end_time a l.
Proof.
  intros HV [-> | ->]; simpl a_thr.
  - pose proof (next_dt_exact_nonneg l step HV). lra.
  - rewrite <- (rnd_double (end_time double l)) at 2 by apply end_time_double.
    apply rnd_le.
    assert (Z0 : rnd 0 = 0) by (apply (rnd_int 0); lia).
    assert (0 <= rnd (rnd (1 / 20) * next_dt double l step)).
    { rewrite <- Z0. apply rnd_le. apply Rmult_le_pos; [|apply next_dt_double_nonneg, HV].
      rewrite <- Z0. apply rnd_le. lra. }
    lra.
Qed.

(** In exact and in double-precision arithmetic, whatever the parameters: if the time loop
    finishes, its last record is at the end time and written; steps are numbered 1, 2, ...;
    output is written exactly at multiples of the frequency and at the last step. *)
Theorem C55_final_state_is_written : forall a l freq solves fuel tr,
  a = exact \/ a = double -> valid_loading l -> freq <> 0%Z -> start_time < end_time a l ->
  run a l freq solves fuel = (tr, Finished) ->
  numbered 1 tr /\ written_as_documented freq tr /\
  exists r, nth_error tr (length tr - 1) = Some r /\ st_time r = end_time a l /\ st_written r = true.
Proof.
  intros a l freq solves fuel tr Ha HV Hf H0 H.
  destruct (loop_trace a l freq solves Hf (fun k => threshold_below_end a l k HV Ha) fuel 0 start_time tr Finished
             ltac:(lra) H) as (A & B & _).
  destruct (B eq_refl) as [C D]. split; [exact A|]. split; [exact D|].
  destruct (C H0) as (r & _ & R). exists r. exact R.
Qed.

(** If a solve throws, everything due before has been written and nothing else. *)
Theorem C55_interrupted_runs : forall a l freq solves fuel tr,
  a = exact \/ a = double -> valid_loading l -> freq <> 0%Z -> start_time <= end_time a l ->
  run a l freq solves fuel = (tr, SolverThrew) ->
  numbered 1 tr /\
  forall k r, nth_error tr k = Some r ->
    st_time r < end_time a l /\ (st_written r = true <-> (freq | st_number r)%Z).
Proof.
  intros a l freq solves fuel tr Ha HV Hf H0 H.
  destruct (loop_trace a l freq solves Hf (fun k => threshold_below_end a l k HV Ha) fuel 0 start_time tr SolverThrew
             H0 H) as (A & _ & C).
  split; [exact A|]. apply C. discriminate.
Qed.

(** Together with C50: the final state of the monotonic programme is written in double
    precision. *)
Theorem C55_monotonic_double_run_writes_the_end : forall l freq fuel,
  valid_loading l -> l_type l = Monotonic -> is_double (l_duration_mono l) ->
  / 2 ^ 900 <= l_duration_mono l -> (l_n_mono l <= 1000000)%Z -> freq <> 0%Z ->
  (Z.to_nat (l_n_mono l) <= fuel)%nat ->
  exists tr r, run double l freq (fun _ => true) fuel = (tr, Finished) /\
    nth_error tr (length tr - 1) = Some r /\ st_number r = l_n_mono l /\
    st_time r = l_duration_mono l /\ st_written r = true.
Proof.
  intros l freq fuel HV HT HD HL Hn Hf Hfuel.
  assert (Hn' : (1 <= l_n_mono l <= 1000000)%Z) by (destruct HV as (_ & A & _); lia).
  destruct (C50_double_precision_monotonic l freq (fun _ => true) fuel HT HD HL Hn' Hf (fun _ => eq_refl) Hfuel)
    as (tr & E1 & E2 & E3).
  assert (EE : end_time double l = l_duration_mono l).
  { unfold end_time. rewrite HT. simpl. unfold start_time. rewrite Rplus_0_l. apply rnd_double, HD. }
  destruct (C55_final_state_is_written double l freq (fun _ => true) fuel tr (or_intror eq_refl) HV Hf)
    as (_ & _ & r & R1 & R2 & R3); [rewrite EE; unfold start_time; destruct HV; lra|exact E1|].
  exists tr, r. rewrite EE in R2. repeat split; auto.
  destruct (E3 _ _ R1) as (N1 & _). rewrite N1, E2. lia.
Qed.

(** The parameter file admits the output frequency 0, which divides by zero. *)
Theorem C55_frequency_zero_refuted : forall l solves fuel,
  start_time < end_time exact l -> (1 <= fuel)%nat -> solves 0%Z = true ->
  run exact l 0 solves fuel = ([], DivisionByZero).
Proof.
  intros l solves fuel H Hf Hs. destruct fuel as [|fuel]; [lia|]. unfold run. cbn [time_loop].
  assert (X : Rltb start_time (end_time exact l) = true) by (apply Rltb_true; exact H).
  rewrite X, Hs. reflexivity.
Qed.

(** ** C52 *)
Lemma fold_set (v : R) dim component : (component < dim)%nat ->
  forall is_ (base : nat -> R) (c : nat),
  fold_left (fun acc i => fun c => if Nat.eqb c (component + i * dim) then v else acc c) is_ base c
  = if existsb (fun i => Nat.eqb c (component + i * dim)) is_ then v else base c.
Proof.
  intros Hd. induction is_ as [|i is_ IH]; intros base c; [reflexivity|]. simpl. rewrite IH.
  destruct (Nat.eqb c (component + i * dim)); simpl; [|reflexivity].
  destruct (existsb _ is_); reflexivity.
Qed.

(** Monotonic loading: every loaded displacement component - the chosen component of the
    first crystal, and of every crystal if decohesion is allowed - gets
    t * height * max load / characteristic displacement, all others zero. *)
Theorem C52_monotonic_load : forall dim l n_crystals height (decohesion : bool) char component t (c : nat),
  (component < dim)%nat -> l_type l = Monotonic ->
  let loaded := exists i, c = (component + i * dim)%nat /\
                  (i = 0 \/ (decohesion = true /\ i < n_crystals))%nat in
  let d := make_displacement_control l n_crystals height decohesion char component in
  (loaded -> vector_value dim d t c = t * height * l_max l / char) /\
  (~ loaded -> vector_value dim d t c = 0).
Proof.
  intros dim l n h dec ch comp t c Hc HT loaded d.
  assert (V : vector_value dim d t c =
     if (Nat.eqb c comp || (dec && existsb (fun i => Nat.eqb c (comp + i * dim)) (seq 1 (n - 1))))%bool
     then t * h * l_max l / ch else 0).
  { unfold vector_value, d, make_displacement_control, displacement_load; simpl.
    destruct dec; simpl.
    - rewrite fold_set by exact Hc. destruct (existsb _ _); destruct (Nat.eqb c comp); reflexivity.
    - rewrite Bool.orb_false_r. reflexivity. }
  rewrite V.
  assert (L : (Nat.eqb c comp || (dec && existsb (fun i => Nat.eqb c (comp + i * dim)) (seq 1 (n - 1))))%bool
              = true <-> loaded).
  { rewrite Bool.orb_true_iff, Bool.andb_true_iff, existsb_exists, Nat.eqb_eq. unfold loaded. split.
    - intros [->|[-> (i & Hi & E)]].
      + exists 0%nat. split; [lia|left; reflexivity].
      + apply Nat.eqb_eq in E. apply in_seq in Hi. exists i. split; [exact E|right; split; [reflexivity|lia]].
    - intros (i & -> & [->|[-> Hi]]); [left; lia|].
      destruct i as [|i]; [left; lia|]. right. split; [reflexivity|]. exists (S i).
      rewrite in_seq, Nat.eqb_refl. split; [lia|reflexivity]. }
  destruct (_ || _)%bool; split; intros H; try reflexivity; exfalso.
  - apply H, L. reflexivity.
  - apply L in H. discriminate.
Qed.

(** At the end of the monotonic programme the prescribed shear strain is duration * maximum
    load: the configured maximum only if the duration is one. *)
Theorem C52_final_strain : forall dim l n_crystals height decohesion component,
  (component < dim)%nat -> l_type l = Monotonic -> height <> 0 ->
  vector_value dim (make_displacement_control l n_crystals height decohesion 1 component)
    (end_time exact l) component / height = l_duration_mono l * l_max l.
Proof.
  intros dim l n h dec comp Hc HT Hh.
  destruct (C52_monotonic_load dim l n h dec 1 comp (end_time exact l) comp Hc HT) as [A _].
  rewrite A by (exists 0%nat; split; [lia|left; reflexivity]).
  unfold end_time. rewrite HT. simpl. unfold start_time. field. exact Hh.
Qed.

(** The loading type, the minimum load and the period have no effect on the prescribed
    displacement: cyclic loading is not applied. *)
Theorem C52_cyclic_parameters_have_no_effect : forall dim l l' n height dec char component t c,
  l_max l = l_max l' ->
  vector_value dim (make_displacement_control l n height dec char component) t c =
  vector_value dim (make_displacement_control l' n height dec char component) t c.
Proof.
  intros dim l l' n h dec ch comp t c H. unfold vector_value, make_displacement_control, displacement_load; simpl.
  rewrite H. reflexivity.
Qed.
Theorem C52_cyclic_load_refuted :
  exists l t, valid_loading l /\ l_type l = Cyclic /\
    start_of_unloading_phase exact l <= t /\ t = end_time exact l /\
    (* back at rest after unloading, according to the programme *)
    displacement_load (mk_dc Cyclic (l_max l) (l_min l) 0 (l_period l) (start_of_cyclic_phase exact l)
       (start_of_unloading_phase exact l) 1 1 1 false) t = 0 /\
    vector_value 2 (make_displacement_control l 1 1 false 1 0) t 0%nat = 16.
Proof.
  exists sample_cyclic, 8.
  assert (S1 : start_of_cyclic_phase exact sample_cyclic = 1)
    by (unfold start_of_cyclic_phase, start_time; simpl; lra).
  assert (S2 : start_of_unloading_phase exact sample_cyclic = 7)
    by (unfold start_of_unloading_phase; rewrite S1; simpl; lra).
  split; [unfold valid_loading; simpl; repeat split; try lia; lra|].
  split; [reflexivity|]. rewrite S1, S2. split; [lra|]. split; [|split].
  - unfold end_time, start_time; simpl. lra.
  - unfold displacement_load; simpl.
    assert (X : Rltb 8 1 = false) by (apply Rltb_false; lra).
    assert (Y : Rltb 8 7 = false) by (apply Rltb_false; lra). rewrite X, Y. lra.
  - unfold vector_value, displacement_load; simpl. lra.
Qed.

(** The (unreachable) cyclic branch would not be continuous either: at the start of the
    cyclic phase it jumps from duration * height * offset to offset. *)
Theorem C52_dead_cyclic_branch_jumps : forall mx mn comp per t1 t2 h nc ch dec,
  let d := mk_dc Cyclic mx mn comp per t1 t2 h nc ch dec in
  t1 < t2 ->
  displacement_load d t1 = (mx + mn) / 2 /\
  forall t, t < t1 -> displacement_load d t = t * h * ((mx + mn) / 2).
Proof.
  intros mx mn comp per t1 t2 h nc ch dec d H. unfold d, displacement_load; simpl. split.
  - assert (X : Rltb t1 t1 = false) by (apply Rltb_false; lra).
    assert (Y : Rltb t1 t2 = true) by (apply Rltb_true; lra).
    rewrite X, Y, Rminus_eq_0, Rmult_0_r, sin_0. ring.
  - intros t Ht. assert (X : Rltb t t1 = true) by (apply Rltb_true; lra). rewrite X. reflexivity.
Qed.

Example C52_example :
  vector_value 2 (make_displacement_control (mk_loading Monotonic (2 / 100) 0 1 20 1 1 1 1 1 true) 3 10 true 1 0)
    (1 / 2) 4%nat = 1 / 10.
Proof.
  destruct (C52_monotonic_load 2 (mk_loading Monotonic (2 / 100) 0 1 20 1 1 1 1 1 true) 3 10 true 1 0
              (1 / 2) 4 ltac:(lia) eq_refl) as [A _].
  rewrite A; [simpl; field|]. exists 2%nat. split; [reflexivity|right; split; [reflexivity|lia]].
Qed.

(** ** C53 *)
Theorem C53_load_control_is_always_zero : forall dim l char t c,
  load_control_value dim l char t c = 0.
Proof.
  intros. unfold load_control_value. destruct (Nat.eqb c 0); [|reflexivity].
  rewrite Rmult_0_r. unfold Rdiv. ring.
Qed.
Theorem C53_configured_load_refuted :
  ~ (forall dim l char t, char <> 0 -> load_control_value dim l char t 0%nat = t * l_max l / char).
Proof.
  intros H. specialize (H 2%nat sample_cyclic 1 1 ltac:(lra)).
  rewrite C53_load_control_is_always_zero in H. simpl in H. lra.
Qed.

(** ** C54 *)
Lemma find_first_band f n : forall start,
  match find f (seq start n) with
  | Some i => (start <= i < start + n)%nat /\ f i = true /\
              forall j, (start <= j < i)%nat -> f j = false
  | None => forall j, (start <= j < start + n)%nat -> f j = false
  end.
Proof.
  induction n as [|n IH]; intros start; simpl; [intros j H; lia|].
  destruct (f start) eqn:E.
  - split; [lia|]. split; [exact E|]. intros j H; lia.
  - specialize (IH (S start)). destruct (find f (seq (S start) n)) as [i|].
    + destruct IH as (A & B & C). split; [lia|]. split; [exact B|].
      intros j H. destruct (Nat.eq_dec j start) as [->|]; [exact E|apply C; lia].
    + intros j H. destruct (Nat.eq_dec j start) as [->|]; [exact E|apply IH; lia].
Qed.

(** Every cell centre inside the strip gets the crystal of the band that contains it. *)
Theorem C54_material_id_is_the_band : forall height n y,
  (1 <= n)%nat -> 0 < height -> 0 <= y < height ->
  (material_id height n y < n)%nat /\
  INR (material_id height n y) * (height / INR n) <= y <
    (INR (material_id height n y) + 1) * (height / INR n).
Proof.
  intros h n y Hn Hh Hy. unfold material_id.
  assert (Nr : 1 <= INR n) by (apply (le_INR 1); exact Hn).
  assert (Q : forall i, INR i * h / INR n = INR i * (h / INR n)) by (intros; field; lra).
  pose proof (find_first_band (fun i => Rltb (Rabs y) (INR i * h / INR n)) n 1) as F.
  rewrite Rabs_right in F by lra.
  rewrite Rabs_right by lra.
  destruct (find _ (seq 1 n)) as [i|].
  - destruct F as (A & B & C). split; [lia|].
    apply Rltb_true in B. rewrite Q in B.
    assert (I : INR (i - 1) + 1 = INR i) by (rewrite minus_INR by lia; simpl; ring).
    rewrite I. split; [|exact B].
    destruct (Nat.eq_dec i 1) as [->|Hi].
    + simpl. rewrite Rmult_0_l. lra.
    + specialize (C (i - 1)%nat ltac:(lia)). apply Rltb_false in C. rewrite Q in C. exact C.
  - exfalso. specialize (F n ltac:(lia)). apply Rltb_false in F.
    assert (INR n * h / INR n = h) by (field; lra). lra.
Qed.
(** The band is unique, so exactly one crystal is possible. *)
Theorem C54_band_is_unique : forall height n y i,
  (1 <= n)%nat -> 0 < height -> 0 <= y < height ->
  INR i * (height / INR n) <= y < (INR i + 1) * (height / INR n) ->
  i = material_id height n y.
Proof.
  intros h n y i Hn Hh Hy Hi.
  destruct (C54_material_id_is_the_band h n y Hn Hh Hy) as [_ B].
  assert (Nr : 1 <= INR n) by (apply (le_INR 1); exact Hn).
  assert (W : 0 < h / INR n) by (apply Rdiv_lt_0_compat; lra).
  set (m := material_id h n y) in *.
  assert (A1 : INR i < INR m + 1) by (apply Rmult_lt_reg_r with (h / INR n); lra).
  assert (A2 : INR m < INR i + 1) by (apply Rmult_lt_reg_r with (h / INR n); lra).
  rewrite <- S_INR in A1, A2. apply INR_lt in A1, A2. lia.
Qed.
Example C54_example : material_id 3 3 (5 / 2) = 2%nat.
Proof.
  symmetry. apply C54_band_is_unique; [lia|lra|lra|]. simpl. lra.
Qed.

(** ** C56 *)
Lemma after_last_dot_aux_spec s : forall acc,
  match after_last_dot_aux s acc with
  | Some e => (exists p, s = (p ++ String "." e)%string /\ (forall q r, e <> (q ++ String "." r)%string)) \/
              (acc = Some e /\ forall q r, s <> (q ++ String "." r)%string)
  | None => acc = None /\ forall q r, s <> (q ++ String "." r)%string
  end.
Proof.
  induction s as [|c s IH]; intros acc; simpl.
  - destruct acc; [right|]; (split; [reflexivity|]); intros [|c q] r; discriminate.
  - destruct (Ascii.eqb_spec c ".") as [->|Hc].
    + specialize (IH (Some s)). destruct (after_last_dot_aux s (Some s)) as [e|].
      * left. destruct IH as [(p & E & N)|[E N]].
        -- exists (String "." p). simpl. rewrite E. split; [reflexivity|exact N].
        -- injection E as <-. exists EmptyString. split; [reflexivity|exact N].
      * destruct IH; discriminate.
    + specialize (IH acc). destruct (after_last_dot_aux s acc) as [e|].
      * destruct IH as [(p & E & N)|[E N]].
        -- left. exists (String c p). simpl. rewrite E. split; [reflexivity|exact N].
        -- right. split; [exact E|]. intros [|c' q] r H; simpl in H; injection H as H1 H2; [congruence|].
           apply (N q r H2).
      * destruct IH as [E N]. split; [exact E|].
        intros [|c' q] r H; simpl in H; injection H as H1 H2; [congruence|]. apply (N q r H2).
Qed.
Lemma last_dot_unique : forall p q e f,
  (p ++ String "." e)%string = (q ++ String "." f)%string ->
  (forall a b, e <> (a ++ String "." b)%string) -> (forall a b, f <> (a ++ String "." b)%string) ->
  e = f.
Proof.
  induction p as [|c p IH]; intros [|d q] e f H He Hf; simpl in H.
  - injection H as H. exact H.
  - injection H as H1 H2. exfalso. apply (He q f). exact H2.
  - injection H as H1 H2. exfalso. apply (Hf p e). symmetry. exact H2.
  - injection H as H1 H2. apply (IH q e f H2 He Hf).
Qed.
Lemma prm_no_dot : forall a b, "prm"%string <> (a ++ String "." b)%string.
Proof.
  intros [|c1 [|c2 [|c3 [|c4 a]]]] b H; simpl in H; try discriminate.
Qed.

(** The default file without argument; with one argument that argument iff it ends in .prm;
    an exception in all other cases. *)
Theorem C56_command_line : forall args path,
  parameters_filepath args = Ok path <->
  (args = [] /\ path = "input/parameter_files/simple_shear.prm"%string) \/
  (args = [path] /\ has_prm_extension path).
Proof.
  intros args path. split.
  - destruct args as [|arg [|b args]]; simpl; [intros H; injection H as <-; auto| |discriminate].
    pose proof (after_last_dot_aux_spec arg None) as S. unfold after_last_dot.
    destruct (after_last_dot_aux arg None) as [e|]; [|discriminate].
    destruct (String.eqb_spec e "prm") as [->|]; [|discriminate].
    intros H. injection H as <-. right. split; [reflexivity|].
    destruct S as [(p & E & _)|[E _]]; [|discriminate]. exists p. exact E.
  - intros [[-> ->]|[-> (s & E)]]; [reflexivity|]. simpl.
    pose proof (after_last_dot_aux_spec path None) as S. unfold after_last_dot.
    destruct (after_last_dot_aux path None) as [e|].
    + destruct S as [(p & E' & N)|[E' _]]; [|discriminate].
      assert (e = "prm"%string) as ->.
      { rewrite E in E'. apply (last_dot_unique p s e "prm"); [symmetry; exact E'|exact N|exact prm_no_dot]. }
      reflexivity.
    + destruct S as [_ N]. exfalso. apply (N s "prm"%string). exact E.
Qed.
Theorem C56_otherwise_an_exception : forall args,
  (forall path, parameters_filepath args <> Ok path) -> parameters_filepath args = Throw.
Proof.
  intros [|arg [|b args]] H; simpl in *; [exfalso; eapply H; reflexivity| |reflexivity].
  destruct (after_last_dot arg) as [e|]; [|reflexivity].
  destruct (String.eqb e "prm"); [exfalso; eapply H; reflexivity|reflexivity].
Qed.
Example C56_example :
  parameters_filepath ["dir.v2/case.prm"%string] = Ok "dir.v2/case.prm"%string /\
  parameters_filepath ["case.prm.txt"%string] = Throw /\
  parameters_filepath ["a.prm"; "b.prm"]%string = Throw.
Proof. repeat split. Qed.
