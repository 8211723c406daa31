(** * C64: the dimensionless problem is the dimensional one. *)
From Verif Require Import Num SumLemmas Tensors TensorLemmas ModelUtilities ModelElastic ModelMicro ModelCohesive ModelAssembly ModelPost
  SpecAssembly SpecPost ProofMicro PropPost.
From Verif Require ModelHistory.
Open Scope R_scope.

(** ** Scaling exceptional values by positive numbers *)
Lemma xsign_pos r : 0 < r -> xsign r = PInf.
Proof. intros H. unfold xsign. destruct (Rltb 0 r) eqn:E; [reflexivity|apply Rltb_false in E; lra]. Qed.
Lemma xsign_scale c r : 0 < c -> xsign (c * r) = xsign r.
Proof.
  intros H. unfold xsign.
  destruct (Rltb 0 r) eqn:E1; [apply Rltb_true in E1|apply Rltb_false in E1].
  - replace (Rltb 0 (c * r)) with true; [reflexivity|]. symmetry. apply Rltb_true. apply Rmult_lt_0_compat; assumption.
  - replace (Rltb 0 (c * r)) with false by (symmetry; apply Rltb_false; nra).
    destruct (Rltb r 0) eqn:E2; [apply Rltb_true in E2|apply Rltb_false in E2].
    + replace (Rltb (c * r) 0) with true; [reflexivity|]. symmetry. apply Rltb_true. nra.
    + replace (Rltb (c * r) 0) with false; [reflexivity|]. symmetry. apply Rltb_false. nra.
Qed.
Lemma xmul_pos_pinf c : 0 < c -> xmul (Fin c) PInf = PInf.
Proof. intros H. simpl. apply xsign_pos; assumption. Qed.
Lemma xmul_pos_ninf c : 0 < c -> xmul (Fin c) NInf = NInf.
Proof. intros H. simpl. rewrite xsign_pos by assumption. reflexivity. Qed.
Lemma xmul_pos_sign c r : 0 < c -> xmul (Fin c) (xsign r) = xsign r.
Proof.
  intros H. unfold xsign at 1 2. destruct (Rltb 0 r); [apply xmul_pos_pinf; assumption|].
  destruct (Rltb r 0); [apply xmul_pos_ninf; assumption|reflexivity].
Qed.
Lemma xmul_pos_neg c a : 0 < c -> xmul (Fin c) (xneg a) = xneg (xmul (Fin c) a).
Proof.
  intros H. destruct a; [simpl; f_equal; ring| | |reflexivity].
  - change (xneg PInf) with NInf. rewrite xmul_pos_pinf, xmul_pos_ninf by assumption. reflexivity.
  - change (xneg NInf) with PInf. rewrite xmul_pos_pinf, xmul_pos_ninf by assumption. reflexivity.
Qed.
Lemma xmul_pos_add c a b : 0 < c -> xmul (Fin c) (xadd a b) = xadd (xmul (Fin c) a) (xmul (Fin c) b).
Proof.
  intros H. destruct a, b; try reflexivity;
    rewrite ?xmul_pos_pinf, ?xmul_pos_ninf by assumption; simpl; rewrite ?xsign_pos by assumption;
    simpl; rewrite ?xsign_pos by assumption; try reflexivity. f_equal. ring.
Qed.
Lemma xmul_pos_sumn c n f : 0 < c -> xsumn n (fun i => xmul (Fin c) (f i)) = xmul (Fin c) (xsumn n f).
Proof.
  intros H. induction n; cbn [xsumn]; [cbn; f_equal; ring|]. rewrite IHn, xmul_pos_add by assumption. reflexivity.
Qed.
(** [a * X * (s * b)] for a positive scale [s]. *)
Lemma xmul_scale_r c X b : 0 < c -> xmul X (Fin (c * b)) = xmul (Fin c) (xmul X (Fin b)).
Proof.
  intros H. destruct X; cbn [xmul].
  - f_equal. ring.
  - rewrite xsign_scale by assumption. symmetry. apply xmul_pos_sign; assumption.
  - rewrite xsign_scale by assumption. rewrite <- (xmul_pos_sign c b H) at 1. symmetry. apply xmul_pos_neg; assumption.
  - reflexivity.
Qed.
Lemma xmul_comm a b : xmul a b = xmul b a.
Proof. destruct a, b; try reflexivity; simpl; f_equal; ring. Qed.
Lemma xmul_scale_l c X b : 0 < c -> xmul (Fin (c * b)) X = xmul (Fin c) (xmul (Fin b) X).
Proof. intros H. rewrite (xmul_comm _ X), (xmul_comm (Fin b) X). apply xmul_scale_r; assumption. Qed.
Lemma xmul_pos_assoc c X Y : 0 < c -> xmul (xmul (Fin c) X) Y = xmul (Fin c) (xmul X Y).
Proof.
  intros H. destruct X.
  - destruct Y.
    + simpl; f_equal; ring.
    + cbn [xmul]. rewrite xsign_scale by assumption. symmetry. apply xmul_pos_sign; assumption.
    + cbn [xmul]. rewrite xsign_scale by assumption. rewrite <- (xmul_pos_sign c r H) at 1. symmetry. apply xmul_pos_neg; assumption.
    + reflexivity.
  - rewrite xmul_pos_pinf by assumption. destruct Y; cbn [xmul].
    + symmetry. apply xmul_pos_sign; assumption.
    + rewrite xsign_pos by assumption. reflexivity.
    + rewrite xsign_pos by assumption. reflexivity.
    + reflexivity.
  - rewrite xmul_pos_ninf by assumption. destruct Y; cbn [xmul].
    + rewrite <- (xmul_pos_sign c r H) at 1. symmetry. apply xmul_pos_neg; assumption.
    + rewrite xsign_pos by assumption. reflexivity.
    + rewrite xsign_pos by assumption. reflexivity.
    + reflexivity.
  - destruct Y; reflexivity.
Qed.
Lemma xmul_pos_pos a b X : 0 < a -> 0 < b -> xmul (Fin a) (xmul (Fin b) X) = xmul (Fin (a * b)) X.
Proof. intros Ha Hb. rewrite <- xmul_pos_assoc by assumption. reflexivity. Qed.
Lemma xmul_comm_pos a c X : 0 < c -> xmul (Fin a) (xmul (Fin c) X) = xmul (Fin c) (xmul (Fin a) X).
Proof. intros H. rewrite xmul_comm, xmul_pos_assoc, (xmul_comm X) by assumption. reflexivity. Qed.
Lemma xmul_one X : xmul (Fin 1) X = X.
Proof.
  destruct X; simpl; try reflexivity.
  - f_equal; ring.
  - apply xsign_pos; lra.
  - rewrite xsign_pos by lra. reflexivity.
Qed.

(** ** Powers *)
Lemma cpow_scale L x y : 0 < L -> 0 <= x -> cpow (L * x) y = xmul (Fin (Rpower L y)) (cpow x y).
Proof.
  intros HL Hx. assert (HP : 0 < Rpower L y) by (apply exp_pos). unfold cpow.
  destruct (Rltb 0 x) eqn:E.
  - apply Rltb_true in E. replace (Rltb 0 (L * x)) with true
      by (symmetry; apply Rltb_true; apply Rmult_lt_0_compat; assumption).
    simpl. f_equal. rewrite Rpower_mult_distr by assumption. reflexivity.
  - apply Rltb_false in E. assert (x = 0) by lra. subst x. rewrite Rmult_0_r.
    replace (Rltb 0 0) with false by (symmetry; apply Rltb_false; lra).
    replace (Reqb 0 0) with true by (symmetry; apply Reqb_true; reflexivity).
    destruct (Rltb 0 y) eqn:Ey; [simpl; f_equal; ring|].
    destruct (Reqb y 0) eqn:Ey0.
    + apply Reqb_true in Ey0. subst y. rewrite Rpower_O by assumption. simpl. f_equal. ring.
    + symmetry. apply xmul_pos_pinf; assumption.
Qed.

Lemma vl_tensor_scale p d dir ort g g' L i j : 0 < L -> (forall r, g' r = L * g r) ->
  vl_tensor p d dir ort g' i j = xmul (Fin (Rpower L (p - 2))) (vl_tensor p d dir ort g i j).
Proof.
  intros HL Hg. unfold vl_tensor.
  assert (HP : 0 < Rpower L (p - 2)) by (apply exp_pos).
  assert (D : forall v, Rabs (dot d v g') = L * Rabs (dot d v g)).
  { intros v. rewrite (dot_ext d v g' v (vscal L g)); [|reflexivity|intros r _; apply Hg].
    rewrite dot_scal_r, Rabs_mult, (Rabs_pos_eq L) by lra. reflexivity. }
  rewrite !D, !cpow_scale by (try assumption; apply Rabs_pos).
  rewrite !xmul_pos_assoc, xmul_pos_add by assumption. reflexivity.
Qed.
Lemma vectorial_scale f p d dir ort g g' L i : 0 < L -> 0 < f -> (forall r, g' r = L * g r) ->
  vectorial_microstress 1 p d dir ort g' i
  = xmul (Fin (Rpower L (p - 1) / f)) (vectorial_microstress f p d dir ort g i).
Proof.
  intros HL Hf Hg. unfold vectorial_microstress.
  assert (HP : 0 < Rpower L (p - 2)) by (apply exp_pos).
  assert (HK : 0 < Rpower L (p - 1) / f) by (apply Rdiv_lt_0_compat; [apply exp_pos|assumption]).
  rewrite <- xmul_pos_sumn by assumption. apply xsumn_ext. intros j Hj.
  rewrite (vl_tensor_scale p d dir ort g g' L) by assumption. rewrite Hg.
  rewrite xmul_one, xmul_scale_r, (xmul_pos_assoc f), xmul_pos_assoc, !xmul_pos_pos by assumption.
  f_equal. f_equal. replace (Rpower L (p - 1)) with (L * Rpower L (p - 2)); [field; lra|].
  rewrite <- (Rpower_1 L) at 1 by assumption. rewrite <- Rpower_plus. f_equal. ring.
Qed.
Lemma xdot_scale d a a' b b' L k : 0 < L -> 0 < k -> (forall r, a' r = L * a r) ->
  (forall r, (r < d)%nat -> b' r = xmul (Fin k) (b r)) -> xdot d a' b' = xmul (Fin (L * k)) (xdot d a b).
Proof.
  intros HL Hk Ha Hb. unfold xdot. rewrite <- xmul_pos_sumn by (apply Rmult_lt_0_compat; assumption).
  apply xsumn_ext. intros r Hr. rewrite Ha, Hb by assumption.
  rewrite xmul_scale_l, (xmul_comm_pos (a r)), !xmul_pos_pos by assumption. reflexivity.
Qed.

(** ** The residual *)
Section Bulk.
  Variables (r : reference) (H : R) (v : vector_law) (k : crystal) (e : element) (U Uold : nat -> R)
            (g : nat -> nat -> R).
  Hypothesis HL : 0 < rf_length r.
  Hypothesis Hu : 0 < rf_displacement r.
  Hypothesis HK : 0 < rf_stiffness r.
  Hypothesis Hg : 0 < rf_slip_resistance r.
  Hypothesis Hg0 : 0 < vl_g0 v.
  Hypothesis Hl : 0 < vl_length v.
  Hypothesis HN : forall n, cr_N k n = 1.
  Hypothesis Hp : cr_p k = vl_p v.
  Hypothesis Hf : Fin (cr_factor k) = vl_factor v false.
  Hypothesis Hprim : primitive (cr_dim k) (cr_ns k) e.

  Let ch := fst (dimensionless_init true r H v).
  Let N := snd (dimensionless_init true r H v).
  Let d := cr_dim k.
  Let kh := scaled_crystal ch N k.
  Let eh := scaled_element (rf_length r) d e.
  Let Uh := scaled_dofs ch d e U.
  Let Uoldh := scaled_dofs ch d e Uold.
  Let gh := fun q a => g q a / ch_slip_resistance ch.

  Lemma factor_value : cr_factor k = vl_g0 v * Rpower (vl_length v) (vl_p v).
  Proof.
    unfold vl_factor, cpow in Hf. replace (Rltb 0 (vl_length v)) with true in Hf by (symmetry; apply Rltb_true; assumption).
    cbn [xmul] in Hf. injection Hf as ->. reflexivity.
  Qed.
  Lemma slip_scaled (W : nat -> R) q a : (q < el_nq e)%nat -> (a < cr_ns k)%nat ->
    slip_at eh (scaled_dofs ch d e W) q a = slip_at e W q a.
  Proof.
    intros Hq Ha. unfold slip_at. apply sumn_ext. intros n Hn. simpl. unfold scaled_dofs.
    destruct (Nat.ltb (el_comp e n) d) eqn:E; [|reflexivity].
    apply Nat.ltb_lt in E. destruct (Hprim n q Hn Hq) as (_ & _ & Z).
    destruct (Z a Ha ltac:(unfold d in E; lia) 0%nat) as (Z1 & _). rewrite Z1. ring.
  Qed.
  Lemma slip_gradient_scaled (W : nat -> R) q a s : (q < el_nq e)%nat -> (a < cr_ns k)%nat ->
    slip_gradient_at eh (scaled_dofs ch d e W) q a s = rf_length r * slip_gradient_at e W q a s.
  Proof.
    intros Hq Ha. unfold slip_gradient_at. rewrite <- sumn_scal. apply sumn_ext. intros n Hn. simpl. unfold scaled_dofs.
    destruct (Nat.ltb (el_comp e n) d) eqn:E; [|ring].
    apply Nat.ltb_lt in E. destruct (Hprim n q Hn Hq) as (_ & _ & Z).
    destruct (Z a Ha ltac:(unfold d in E; lia) s) as (_ & Z1). rewrite Z1. ring.
  Qed.
  Lemma strain_scaled (W : nat -> R) q s t : (q < el_nq e)%nat ->
    strain_at eh (scaled_dofs ch d e W) q s t = strain_at e W q s t / ch_strain ch.
  Proof.
    intros Hq. unfold strain_at. rewrite <- sumn_div_r. apply sumn_ext. intros n Hn. simpl. unfold scaled_dofs. simpl.
    destruct (Nat.ltb (el_comp e n) d) eqn:E; [field; lra|].
    apply Nat.ltb_ge in E. destruct (Hprim n q Hn Hq) as (_ & Z & _).
    destruct (Z E s t) as (_ & Z1). rewrite Z1. field. lra.
  Qed.
  Lemma stress_scaled q s t : (q < el_nq e)%nat ->
    stress_at kh eh Uh q s t = stress_at k e U q s t / ch_stress ch.
  Proof.
    intros Hq. unfold stress_at, c4. rewrite <- sumn_div_r. apply sumn_ext; intros m _.
    rewrite <- sumn_div_r. apply sumn_ext; intros n _. unfold madd. rewrite !elastic_sum.
    change (cr_dim kh) with d.
    replace (sumn (cr_ns kh) (fun a => slip_at eh Uh q a * cr_P kh a m n))
      with (sumn (cr_ns k) (fun a => slip_at e U q a * cr_P k a m n)).
    2: { apply sumn_ext. intros a Ha. unfold Uh. rewrite slip_scaled by assumption. reflexivity. }
    unfold Uh. rewrite strain_scaled by assumption. rewrite (HN 0).
    generalize (sumn (cr_ns k) (fun a => slip_at e U q a * cr_P k a m n)) (strain_at e U q m n).
    intros S T. subst kh ch N. cbn. field.
    repeat split; lra.
  Qed.
  Lemma pow_pos : 0 < rf_length r ^ d.
  Proof. apply pow_lt; assumption. Qed.

  Definition residual_scale (i : nat) : R :=
    (if Nat.ltb (el_comp e i) d then rf_displacement r else 1) / (rf_slip_resistance r * rf_length r ^ d).
  Lemma residual_scale_pos i : 0 < residual_scale i.
  Proof.
    unfold residual_scale. assert (P := pow_pos). apply Rdiv_lt_0_compat; [destruct (Nat.ltb _ _); lra|].
    apply Rmult_lt_0_compat; assumption.
  Qed.
  Lemma residual_scaled i : (i < el_nd e)%nat ->
    residual_bulk kh eh Uh Uoldh gh i = xmul (Fin (residual_scale i)) (residual_bulk k e U Uold g i).
  Proof.
    intros Hi. unfold residual_bulk. rewrite <- xmul_pos_sumn by apply residual_scale_pos.
    assert (P := pow_pos).
    change (el_nq eh) with (el_nq e). apply xsumn_ext. intros q Hq.
    rewrite xmul_pos_neg by apply residual_scale_pos. f_equal.
    change (el_comp eh i) with (el_comp e i). change (cr_dim kh) with d. fold d.
    unfold residual_scale. destruct (Nat.ltb (el_comp e i) d) eqn:E.
    - cbn [xmul]. f_equal.
      assert (E1 : ddot d (el_eps eh i q) (stress_at kh eh Uh q)
        = rf_length r / ch_stress ch * ddot d (el_eps e i q) (stress_at k e U q)).
      { unfold ddot. rewrite <- sumn_scal. apply sumn_ext; intros s _. rewrite <- sumn_scal. apply sumn_ext; intros t _.
        rewrite stress_scaled by assumption. unfold eh, ch. generalize (stress_at k e U q). intros S.
        cbn. field. repeat split; lra. }
      assert (E2 : dot d (el_phi eh i q) (cr_supply kh q) = dot d (el_phi e i q) (cr_supply k q) / ch_body_force ch).
      { unfold dot. rewrite <- sumn_div_r. apply sumn_ext; intros s _. subst kh ch N eh. cbn. field. repeat split; lra. }
      rewrite E1, E2. unfold balance_factor. rewrite !HN.
      generalize (ddot d (el_eps e i q) (stress_at k e U q)) (dot d (el_phi e i q) (cr_supply k q)). intros S T.
      clear E1 E2. subst kh ch N eh. cbn. field. repeat split; lra.
    - apply Nat.ltb_ge in E. cbv zeta. set (a := (el_comp e i - d)%nat).
      destruct (Hprim i q Hi Hq) as (Hc & _). fold d in Hc. assert (Ha : (a < cr_ns k)%nat) by (unfold a; lia).
      set (X := xdot d (el_dpsi e a i q) (vectorial_microstress (cr_factor k) (cr_p k) d (cr_dir k a) (cr_ort k a) (slip_gradient_at e U q a))).
      assert (HfP : 0 < cr_factor k) by (rewrite factor_value; apply Rmult_lt_0_compat; [assumption|apply exp_pos]).
      assert (HkP : 0 < Rpower (rf_length r) (cr_p k - 1) / cr_factor k)
        by (apply Rdiv_lt_0_compat; [apply exp_pos|assumption]).
      assert (EX : xdot d (el_dpsi eh a i q)
         (vectorial_microstress (cr_factor kh) (cr_p kh) d (cr_dir kh a) (cr_ort kh a) (slip_gradient_at eh Uh q a))
         = xmul (Fin (rf_length r * (Rpower (rf_length r) (cr_p k - 1) / cr_factor k))) X).
      { apply xdot_scale; try assumption; [reflexivity|]. intros s Hs.
        apply vectorial_scale; try assumption. intros t. apply slip_gradient_scaled; assumption. }
      rewrite EX.
      assert (EN : N 2 * (rf_length r * (Rpower (rf_length r) (cr_p k - 1) / cr_factor k)) = 1 / rf_slip_resistance r).
      { rewrite factor_value, Hp. unfold N. cbn [dimensionless_init snd].
        assert (E1 : rpow (vl_length v / rf_length r) (vl_p v) = Rpower (vl_length v) (vl_p v) * / Rpower (rf_length r) (vl_p v)).
        { unfold rpow, Rdiv. rewrite <- Rpower_mult_distr by (try assumption; apply Rinv_0_lt_compat; assumption).
          f_equal. unfold Rpower. rewrite ln_Rinv by assumption. rewrite <- exp_Ropp. f_equal. ring. }
        assert (E2 : rf_length r * Rpower (rf_length r) (vl_p v - 1) = Rpower (rf_length r) (vl_p v)).
        { rewrite <- (Rpower_1 (rf_length r)) at 1 by assumption. rewrite <- Rpower_plus. f_equal. ring. }
        rewrite E1.
        transitivity (vl_g0 v / rf_slip_resistance r * (Rpower (vl_length v) (vl_p v) * / Rpower (rf_length r) (vl_p v))
           * (rf_length r * Rpower (rf_length r) (vl_p v - 1)) / (vl_g0 v * Rpower (vl_length v) (vl_p v))).
        { field. repeat split; try lra; apply Rgt_not_eq, exp_pos. }
        rewrite E2. field. repeat split; try lra; apply Rgt_not_eq, exp_pos. }
      change (cr_N kh) with N.
      assert (HN2 : 0 < N 2).
      { unfold N. cbn [dimensionless_init snd]. apply Rmult_lt_0_compat; [apply Rdiv_lt_0_compat; assumption|apply exp_pos]. }
      rewrite xmul_pos_pos by (try assumption; apply Rmult_lt_0_compat; assumption).
      rewrite EN, (HN 2), xmul_one, (HN 3).
      assert (Hcg : 0 < 1 / rf_slip_resistance r) by (apply Rdiv_lt_0_compat; lra).
      assert (EY : el_psi eh a i q * (N 3 * resolved_shear_stress d (cr_P kh a) (stress_at kh eh Uh q)
          - scalar_microstress (cr_law kh) (slip_at eh Uh q a) (slip_at eh Uoldh q a) (gh q a) (cr_dt kh))
        = 1 / rf_slip_resistance r * (el_psi e a i q * (1 * resolved_shear_stress d (cr_P k a) (stress_at k e U q)
          - scalar_microstress (cr_law k) (slip_at e U q a) (slip_at e Uold q a) (g q a) (cr_dt k)))).
      { unfold Uh at 2, Uoldh. rewrite !slip_scaled by assumption.
        assert (ER : resolved_shear_stress d (cr_P kh a) (stress_at kh eh Uh q)
           = resolved_shear_stress d (cr_P k a) (stress_at k e U q) / ch_stress ch).
        { unfold resolved_shear_stress, ddot. rewrite <- sumn_div_r. apply sumn_ext; intros s _.
          rewrite <- sumn_div_r. apply sumn_ext; intros t _. rewrite stress_scaled by assumption.
          generalize (stress_at k e U q). intros S. subst kh ch N eh. cbn. field. repeat split; lra. }
        rewrite ER. unfold scalar_microstress, gh. cbn [sl_rate_independent scaled_law cr_law kh scaled_crystal].
        replace (reg_value (scaled_law ch (cr_law k))) with (reg_value (cr_law k)) by reflexivity.
        cbn [cr_dt kh scaled_crystal el_psi eh scaled_element].
        generalize (resolved_shear_stress d (cr_P k a) (stress_at k e U q)) (slip_at e U q a) (slip_at e Uold q a).
        intros S T T0. clear ER EX EN. subst kh ch N eh. cbn [dimensionless_init fst snd ch_stress ch_slip_resistance].
        destruct (sl_rate_independent (cr_law k)); [generalize (sl_sgn ((T - T0) / cr_dt k))|generalize (reg_value (cr_law k) ((T - T0) / cr_dt k))];
          intros Z; field; repeat split; lra. }
      rewrite EY.
      replace (Fin (1 / rf_slip_resistance r * (el_psi e a i q * (1 * resolved_shear_stress d (cr_P k a) (stress_at k e U q)
          - scalar_microstress (cr_law k) (slip_at e U q a) (slip_at e Uold q a) (g q a) (cr_dt k)))))
        with (xmul (Fin (1 / rf_slip_resistance r)) (Fin (el_psi e a i q * (1 * resolved_shear_stress d (cr_P k a) (stress_at k e U q)
          - scalar_microstress (cr_law k) (slip_at e U q a) (slip_at e Uold q a) (g q a) (cr_dt k))))) by reflexivity.
      unfold xsub. rewrite <- xmul_pos_neg, <- xmul_pos_add by assumption.
      cbn [el_w eh scaled_element].
      replace (el_w e q / rf_length r ^ d) with (/ rf_length r ^ d * el_w e q) by (field; lra).
      assert (HPi : 0 < / rf_length r ^ d) by (apply Rinv_0_lt_compat; assumption).
      rewrite xmul_scale_r, xmul_pos_assoc, xmul_pos_pos by assumption.
      f_equal. f_equal. field. split; lra.
  Qed.
End Bulk.

(** All reference values, all states: the residual assembled by the dimensionless code from the
    scaled inputs is, per equation, a positive constant times the one assembled from the physical
    inputs with all characteristic quantities and numbers equal to 1 (exceptional values included).
    The constants are  ref. displacement / (ref. slip resistance L^d)  for the momentum balance and
    1 / (ref. slip resistance L^d)  for the slip equations. *)
Theorem C64_same_residual : forall r H v k e U Uold g i,
  0 < rf_length r -> 0 < rf_displacement r -> 0 < rf_stiffness r -> 0 < rf_slip_resistance r ->
  0 < vl_g0 v -> 0 < vl_length v ->
  primitive (cr_dim k) (cr_ns k) e -> (i < el_nd e)%nat ->
  cr_N k = snd (dimensionless_init false r H v) -> cr_p k = vl_p v -> Fin (cr_factor k) = vl_factor v false ->
  let ch := fst (dimensionless_init true r H v) in
  let N := snd (dimensionless_init true r H v) in
  let kh := scaled_crystal ch N k in
  Fin (cr_factor kh) = vl_factor v true /\
  residual_bulk kh (scaled_element (ch_length ch) (cr_dim k) e)
      (scaled_dofs ch (cr_dim k) e U) (scaled_dofs ch (cr_dim k) e Uold)
      (fun q a => g q a / ch_slip_resistance ch) i
  = xmul (Fin ((if Nat.ltb (el_comp e i) (cr_dim k) then rf_displacement r else 1)
               / (rf_slip_resistance r * rf_length r ^ cr_dim k)))
         (residual_bulk k e U Uold g i).
Proof.
  intros r H v k e U Uold g i HL Hu HK Hg Hg0 Hl Hprim Hi HN Hp Hf ch N kh. split; [reflexivity|].
  apply (residual_scaled r H v k e U Uold g HL Hu HK Hg Hg0 Hl); try assumption.
  intros n. rewrite HN. reflexivity.
Qed.
(** So the two problems have the same solutions. *)
Theorem C64_same_solutions : forall r H v k e U Uold g i,
  0 < rf_length r -> 0 < rf_displacement r -> 0 < rf_stiffness r -> 0 < rf_slip_resistance r ->
  0 < vl_g0 v -> 0 < vl_length v ->
  primitive (cr_dim k) (cr_ns k) e -> (i < el_nd e)%nat ->
  cr_N k = snd (dimensionless_init false r H v) -> cr_p k = vl_p v -> Fin (cr_factor k) = vl_factor v false ->
  let ch := fst (dimensionless_init true r H v) in
  let N := snd (dimensionless_init true r H v) in
  residual_bulk (scaled_crystal ch N k) (scaled_element (ch_length ch) (cr_dim k) e)
      (scaled_dofs ch (cr_dim k) e U) (scaled_dofs ch (cr_dim k) e Uold)
      (fun q a => g q a / ch_slip_resistance ch) i = Fin 0
  <-> residual_bulk k e U Uold g i = Fin 0.
Proof.
  intros r H v k e U Uold g i HL Hu HK Hg Hg0 Hl Hprim Hi HN Hp Hf ch N.
  destruct (C64_same_residual r H v k e U Uold g i HL Hu HK Hg Hg0 Hl Hprim Hi HN Hp Hf) as (_ & E).
  fold ch N in E. rewrite E. clear E.
  set (s := _ / _). assert (Hs : 0 < s).
  { unfold s. apply Rdiv_lt_0_compat; [destruct (Nat.ltb _ _); lra|].
    apply Rmult_lt_0_compat; [assumption|apply pow_lt; assumption]. }
  destruct (residual_bulk k e U Uold g i); rewrite ?xmul_pos_pinf, ?xmul_pos_ninf by assumption;
    split; intros E; try discriminate.
  - simpl in E. injection E as E. f_equal. apply Rmult_integral in E. destruct E; lra.
  - injection E as ->. simpl. f_equal. ring.
Qed.

(** The stored slip resistances scale likewise through every history of calls. *)
Definition divided (c : R) (s s' : ModelHistory.qph) : Prop :=
  ModelHistory.flag_init s = ModelHistory.flag_init s' /\
  (ModelHistory.flag_init s = true ->
   ModelHistory.n_slips s = ModelHistory.n_slips s' /\ ModelHistory.prm s = ModelHistory.prm s' /\
   ModelHistory.char_res s = 1 /\ ModelHistory.char_res s' = c /\
   ModelHistory.slip_res s' = map (fun x => x / c) (ModelHistory.slip_res s) /\
   ModelHistory.tmp_res s' = map (fun x => x / c) (ModelHistory.tmp_res s)).
(** The same call, with the characteristic slip resistance given to init replaced. *)
Definition with_characteristic (c : R) (o : ModelHistory.op) : ModelHistory.op :=
  match o with ModelHistory.Init p n _ => ModelHistory.Init p n c | _ => o end.
Lemma harden_row_scaled c s s' sl old q a : divided c s s' -> ModelHistory.flag_init s = true -> c <> 0 ->
  forall bs acc, ModelHistory.harden_row s' sl old q a bs (acc / c) =
    match ModelHistory.harden_row s sl old q a bs acc with Ok x => Ok (x / c) | Throw => Throw | UB => UB end.
Proof.
  intros (_ & H) Hi Hc. destruct (H Hi) as (_ & Hp & H1 & H2 & _). induction bs as [|b bs IH]; intros acc; simpl; [reflexivity|].
  destruct (ModelHistory.at2 sl b q); [|reflexivity]. destruct (ModelHistory.at2 old b q); [|reflexivity].
  rewrite <- IH. f_equal. unfold ModelHistory.hardening_entry. rewrite H1, H2, <- Hp. field. assumption.
Qed.
Lemma harden_all_scaled c s s' sl old q : divided c s s' -> ModelHistory.flag_init s = true -> c <> 0 ->
  forall res a, ModelHistory.harden_all s' sl old q a (map (fun x => x / c) res) =
    match ModelHistory.harden_all s sl old q a res with Ok l => Ok (map (fun x => x / c) l) | Throw => Throw | UB => UB end.
Proof.
  intros Hd Hi Hc. induction res as [|x res IH]; intros a; [reflexivity|]. cbn [map ModelHistory.harden_all].
  assert (Hns : ModelHistory.n_slips s' = ModelHistory.n_slips s) by (destruct Hd as (_ & Hd); destruct (Hd Hi) as (-> & _); reflexivity).
  rewrite Hns, (harden_row_scaled c s s' sl old q a Hd Hi Hc).
  destruct (ModelHistory.harden_row s sl old q a _ x); cbn [rbind]; try reflexivity.
  rewrite IH. destruct (ModelHistory.harden_all s sl old q (S a) res); reflexivity.
Qed.
Theorem C64_history : forall c os s s', c <> 0 -> divided c s s' ->
  (forall o, In o os -> match o with ModelHistory.Init _ _ x => x = 1 | _ => True end) ->
  match ModelHistory.run s os with
  | Ok t => exists t', ModelHistory.run s' (map (with_characteristic c) os) = Ok t' /\ divided c t t'
  | Throw => ModelHistory.run s' (map (with_characteristic c) os) = Throw
  | UB => ModelHistory.run s' (map (with_characteristic c) os) = UB
  end.
Proof.
  intros c os. induction os as [|o os IH]; intros s s' Hc Hd Hos; [cbn; exists s'; auto|].
  cbn [map ModelHistory.run].
  assert (S : match ModelHistory.step s o with
    | Ok t => exists t', ModelHistory.step s' (with_characteristic c o) = Ok t' /\ divided c t t'
    | Throw => ModelHistory.step s' (with_characteristic c o) = Throw
    | UB => ModelHistory.step s' (with_characteristic c o) = UB end).
  { assert (Ho := Hos o (or_introl eq_refl)). destruct Hd as (Hfl & Hd). destruct o as [p n x| | |q sl old]; cbn.
    - subst x. eexists; split; [reflexivity|]. split; [reflexivity|]. intros _. simpl.
      repeat split; auto; clear - Hc; induction n as [|n IHn]; cbn [repeat map]; [reflexivity|rewrite <- IHn; f_equal; field; assumption|reflexivity|rewrite <- IHn; f_equal; field; assumption].
    - rewrite <- Hfl. destruct (ModelHistory.flag_init s) eqn:E; [|reflexivity].
      destruct (Hd eq_refl) as (H1 & H2 & H3 & H4 & H5 & H6).
      eexists; split; [reflexivity|]. split; [reflexivity|]. intros _. simpl. auto 10.
    - rewrite <- Hfl. destruct (ModelHistory.flag_init s) eqn:E; [|reflexivity].
      destruct (Hd eq_refl) as (H1 & H2 & H3 & H4 & H5 & H6).
      eexists; split; [reflexivity|]. split; [reflexivity|]. intros _. simpl. auto 10.
    - rewrite <- Hfl. destruct (ModelHistory.flag_init s) eqn:E; [|reflexivity].
      destruct (Hd eq_refl) as (H1 & H2 & H3 & H4 & H5 & H6). rewrite <- H2.
      destruct (ModelHistory.flag_perfect_plasticity (ModelHistory.prm s)).
      + eexists; split; [reflexivity|]. split; [reflexivity|]. intros _. simpl. auto 10.
      + rewrite H6. rewrite (harden_all_scaled c s s' sl old q); [|split; [congruence|intros _; auto 10]|assumption|assumption].
        destruct (ModelHistory.harden_all s sl old q 0 (ModelHistory.tmp_res s)); cbn [rbind]; try reflexivity.
        eexists; split; [reflexivity|]. split; [reflexivity|]. intros _. simpl. auto 10. }
  assert (Hos' : forall o', In o' os -> match o' with ModelHistory.Init _ _ x => x = 1 | _ => True end)
    by (intros o' Ho'; apply Hos; right; assumption).
  destruct (ModelHistory.step s o) as [t| |].
  - destruct S as (t' & -> & Hdt). apply IH; assumption.
  - rewrite S. apply IH; assumption.
  - rewrite S. reflexivity.
Qed.

(** A concrete instance: micrometres, GPa and so on. *)
Definition ex_ref : reference := mk_reference (1 / 1000) (1 / 100000) 100000 10.
Definition ex_vl : vector_law := mk_vector_law (2 / 1000) 10 2.
Definition ex_crystal64 : crystal :=
  mk_crystal 2 1 (snd (dimensionless_init false ex_ref 1 ex_vl)) (fun i j k l => 100000 * identity_tensor i j k l) (fun _ => fun _ _ => 1 / 2)
    (mk_scalar_law Tanh (1 / 1000) 0 1 1 false false) (10 * Rpower (2 / 1000) 2) 2 (fun _ => vzero) (fun _ => vzero)
    (fun _ _ => 0) (fun _ => vzero) 1.
Definition ex_el64 : element :=
  mk_element 1 3 (fun i => i) (fun _ => 1) (fun i q r => if Nat.ltb i 2 then 1 else 0) (fun i q r s => if Nat.ltb i 2 then 1 else 0)
    (fun a i q => if Nat.eqb i 2 then 1 else 0) (fun a i q r => if Nat.eqb i 2 then 1 else 0).
Example C64_example :
  0 < rf_length ex_ref /\ 0 < rf_displacement ex_ref /\ 0 < rf_stiffness ex_ref /\ 0 < rf_slip_resistance ex_ref /\
  0 < vl_g0 ex_vl /\ 0 < vl_length ex_vl /\
  primitive (cr_dim ex_crystal64) (cr_ns ex_crystal64) ex_el64 /\
  cr_N ex_crystal64 = snd (dimensionless_init false ex_ref 1 ex_vl) /\ cr_p ex_crystal64 = vl_p ex_vl /\
  Fin (cr_factor ex_crystal64) = vl_factor ex_vl false.
Proof.
  cbn [rf_length rf_displacement rf_stiffness rf_slip_resistance vl_g0 vl_length ex_ref ex_vl].
  do 6 (split; [lra|]). split; [|split; [|split]].
  - unfold primitive. intros j q Hj _. cbn in Hj |- *. split; [lia|]. split.
    + intros Hd r0 s0. destruct (Nat.leb_spec j 1); [lia|]. auto.
    + intros a Ha Hne r0. destruct (Nat.eqb_spec j 2); [lia|]. auto.
  - reflexivity.
  - reflexivity.
  - unfold vl_factor, cpow. cbn [vl_length vl_p vl_g0 ex_vl cr_factor ex_crystal64].
    destruct (Rltb 0 (2 / 1000)) eqn:E; [reflexivity|apply Rltb_false in E; lra].
Qed.
