From Coquelicot Require Import Coquelicot.
From Verif Require Import Num ModelUtilities ProofErf.
Open Scope R_scope.

Lemma macaulay_max x : macaulay_brackets x = Rmax x 0.
Proof.
  unfold macaulay_brackets. destruct (Rltb 0 x) eqn:E.
  - apply Rltb_true in E. rewrite Rmax_left; lra.
  - apply Rltb_false in E. rewrite Rmax_right; lra.
Qed.

Lemma signum_cases x :
  (0 < x -> signum_function x = 1) /\ (x = 0 -> signum_function x = 0) /\
  (x < 0 -> signum_function x = -1).
Proof.
  unfold signum_function, b2R.
  destruct (Rltb 0 x) eqn:E1; destruct (Rltb x 0) eqn:E2;
    try apply Rltb_true in E1; try apply Rltb_false in E1;
    try apply Rltb_true in E2; try apply Rltb_false in E2; repeat split; intros; lra.
Qed.

Lemma signum_abs x : x = signum_function x * Rabs x.
Proof.
  destruct (signum_cases x) as (H1 & H2 & H3).
  destruct (Rtotal_order x 0) as [H|[H|H]].
  - rewrite H3, Rabs_left by lra. lra.
  - rewrite H2 by lra. lra.
  - rewrite H1, Rabs_right by lra. lra.
Qed.

Lemma macaulay_split x : x = macaulay_brackets x - macaulay_brackets (- x).
Proof. rewrite !macaulay_max. unfold Rmax. repeat destruct Rle_dec; lra. Qed.

Lemma cosh_pos x : 0 < cosh x.
Proof. unfold cosh. pose proof (exp_pos x). pose proof (exp_pos (- x)). lra. Qed.

Lemma cosh_sinh x : cosh x * cosh x - sinh x * sinh x = 1.
Proof.
  unfold cosh, sinh.
  assert (exp x * exp (- x) = 1) by (rewrite <- exp_plus; replace (x + - x) with 0 by ring; apply exp_0).
  nra.
Qed.

Lemma sumsq_pos v p : 0 < p -> 0 < v * v + p * p.
Proof. intros. pose proof (Rle_0_sqr v). unfold Rsqr in *. nra. Qed.

Lemma Rpower_15 s : 0 < s -> Rpower s (15/10) = s * sqrt s.
Proof.
  intros H. replace (15/10) with (1 + /2) by field.
  rewrite Rpower_plus, Rpower_1, Rpower_sqrt by auto. reflexivity.
Qed.

Lemma is_derive_atan (x : R) : is_derive atan x (/ (1 + x * x)).
Proof.
  rewrite is_derive_Reals. replace (/ (1 + x*x)) with (/ (1 + x^2)) by (f_equal; ring).
  apply derivable_pt_lim_atan.
Qed.

Lemma is_derive_sinh (x : R) : is_derive sinh x (cosh x).
Proof. rewrite is_derive_Reals. apply derivable_pt_lim_sinh. Qed.

Lemma is_derive_cosh (x : R) : is_derive cosh x (sinh x).
Proof. rewrite is_derive_Reals. apply derivable_pt_lim_cosh. Qed.

Lemma lin_derive (c p x : R) : is_derive (fun v => c * v / p) x (c / p).
Proof.
  unfold Rdiv. auto_derive; auto. ring.
Qed.

Lemma sigmoid_derive k x p : 0 < p ->
  is_derive (fun v => sigmoid_function v p k) x (sigmoid_function_derivative x p k).
Proof.
  intros Hp. pose proof PI_RGT_0 as Hpi. destruct k; unfold sigmoid_function, sigmoid_function_derivative.
  - (* Atan *)
    set (y := PI / 2 * x / p).
    assert (Hy : 0 < 1 + y * y) by (pose proof (Rle_0_sqr y); unfold Rsqr in *; lra).
    assert (H : is_derive (fun v => 2 / PI * atan (PI / 2 * v / p)) x
              (2 / PI * ((PI / 2 / p) * / (1 + y * y)))).
    { apply (is_derive_scal (fun v => atan (PI / 2 * v / p))).
      apply (is_derive_comp atan (fun v => PI / 2 * v / p)).
      - apply is_derive_atan.
      - apply lin_derive. }
    replace (p / (p * p + PI * PI * x * x / 4)) with (2 / PI * (PI / 2 / p * / (1 + y * y))); [exact H|].
    unfold y in *. field.
    assert (0 < 4 * (p * p) + PI * PI * x * x).
    { pose proof (Rle_0_sqr (PI * x)). unfold Rsqr in *. nra. }
    assert (K : p ^ 2 * 2 ^ 2 + (PI * x) ^ 2 = 4 * (p * p) + PI * PI * x * x) by ring.
    repeat split; try lra; nra.
  - (* Sqrt *)
    pose proof (sumsq_pos x p Hp) as Hs.
    rewrite Rpower_15 by auto.
    assert (Hq : 0 < sqrt (x * x + p * p)) by (apply sqrt_lt_R0; auto).
    auto_derive.
    + repeat split; auto. lra.
    + set (q := sqrt (x * x + p * p)) in *.
      assert (E : q * q = x * x + p * p) by (unfold q; apply sqrt_sqrt; lra).
      rewrite <- E.
      assert (E2 : p * p = q * q - x * x) by lra.
      rewrite E2. field. lra.
  - (* Gd *)
    set (y := PI / 2 * x / p).
    assert (Hy : 0 < 1 + sinh y * sinh y) by (pose proof (Rle_0_sqr (sinh y)); unfold Rsqr in *; lra).
    assert (H : is_derive (fun v => 2 / PI * atan (sinh (PI / 2 * v / p))) x
              (2 / PI * ((PI / 2 / p * cosh y) * / (1 + sinh y * sinh y)))).
    { apply (is_derive_scal (fun v => atan (sinh (PI / 2 * v / p)))).
      apply (is_derive_comp atan (fun v => sinh (PI / 2 * v / p))).
      - apply is_derive_atan.
      - apply (is_derive_comp sinh (fun v => PI / 2 * v / p)).
        + apply is_derive_sinh.
        + apply lin_derive. }
    match goal with H : is_derive _ _ ?a |- is_derive _ _ ?b => replace b with a; [exact H|] end.
    pose proof (cosh_pos y) as Hc. pose proof (cosh_sinh y) as Hcs.
    replace (1 + sinh y * sinh y) with (cosh y * cosh y) by lra.
    field. repeat split; lra.
  - (* Tanh *)
    set (y := x / p).
    assert (H : is_derive (fun v => sinh (v / p) / cosh (v / p)) x
              ((/ p * cosh y * cosh y - sinh y * (/ p * sinh y)) / (cosh y) ^ 2)).
    { apply (is_derive_div (fun v => sinh (v / p)) (fun v => cosh (v / p))).
      - apply (is_derive_comp sinh (fun v => v / p)); [apply is_derive_sinh|].
        unfold Rdiv. auto_derive; auto. ring.
      - apply (is_derive_comp cosh (fun v => v / p)); [apply is_derive_cosh|].
        unfold Rdiv. auto_derive; auto. ring.
      - pose proof (cosh_pos y). unfold y in *. lra. }
    apply (is_derive_ext (fun v => sinh (v / p) / cosh (v / p))); [intros; reflexivity|].
    match goal with H : is_derive _ _ ?a |- is_derive _ _ ?b => replace b with a; [exact H|] end.
    pose proof (cosh_pos y) as Hc. pose proof (cosh_sinh y) as Hcs.
    replace (/ p * cosh y * cosh y - sinh y * (/ p * sinh y))
      with (/ p * (cosh y * cosh y - sinh y * sinh y)) by ring.
    rewrite Hcs. field. split; lra.
  - (* Erf *)
    assert (Hs : 0 < sqrt PI) by (apply sqrt_lt_R0; auto).
    set (y := sqrt PI / 2 * x / p).
    assert (H : is_derive (fun v => erf (sqrt PI / 2 * v / p)) x
              ((sqrt PI / 2 / p) * (2 / sqrt PI * gauss y))).
    { apply (is_derive_comp erf (fun v => sqrt PI / 2 * v / p)).
      - apply erf_derive.
      - apply lin_derive. }
    match goal with H : is_derive _ _ ?a |- is_derive _ _ ?b => replace b with a; [exact H|] end.
    unfold gauss.
    replace (- (y * y)) with (- PI * x * x / p / p / 4).
    + field. split; lra.
    + unfold y.
      replace (sqrt PI / 2 * x / p * (sqrt PI / 2 * x / p))
        with ((sqrt PI * sqrt PI) * x * x / p / p / 4) by (field; lra).
      rewrite sqrt_sqrt by lra. field. lra.
Qed.

Lemma sigmoid_derivative_pos k x p : 0 < p -> 0 < sigmoid_function_derivative x p k.
Proof.
  intros Hp. pose proof PI_RGT_0 as Hpi.
  pose proof (sumsq_pos x p Hp) as Hs.
  destruct k; unfold sigmoid_function_derivative.
  - apply Rdiv_lt_0_compat; auto. pose proof (Rle_0_sqr (PI * x)). unfold Rsqr in *. nra.
  - apply Rdiv_lt_0_compat; [nra|]. unfold Rpower. apply exp_pos.
  - apply Rdiv_lt_0_compat; auto. apply Rdiv_lt_0_compat; [lra|apply cosh_pos].
  - apply Rdiv_lt_0_compat; auto. apply pow_lt. apply Rdiv_lt_0_compat; [lra|apply cosh_pos].
  - apply Rmult_lt_0_compat; [|apply exp_pos]. apply Rdiv_lt_0_compat; lra.
Qed.

Lemma strict_incr (f f' : R -> R) :
  (forall x, is_derive f x (f' x)) -> (forall x, 0 < f' x) -> forall x y, x < y -> f x < f y.
Proof.
  intros D P x y Hxy.
  destruct (MVT_gen f x y f') as (c & _ & Hc).
  - intros; apply D.
  - intros z _. apply derivable_continuous_pt. exists (f' z). apply is_derive_Reals, D.
  - pose proof (P c). nra.
Qed.

Lemma sigmoid_increasing k p x y : 0 < p -> x < y ->
  sigmoid_function x p k < sigmoid_function y p k.
Proof.
  intros Hp. apply (strict_incr (fun v => sigmoid_function v p k)
                                (fun v => sigmoid_function_derivative v p k)).
  - intros; apply sigmoid_derive; auto.
  - intros; apply sigmoid_derivative_pos; auto.
Qed.

Lemma sinh_odd x : sinh (- x) = - sinh x.
Proof. unfold sinh. rewrite Ropp_involutive. field. Qed.
Lemma cosh_even x : cosh (- x) = cosh x.
Proof. unfold cosh. rewrite Ropp_involutive. field. Qed.

Lemma sigmoid_odd k p x : sigmoid_function (- x) p k = - sigmoid_function x p k.
Proof.
  destruct k; unfold sigmoid_function.
  - replace (PI / 2 * - x / p) with (- (PI / 2 * x / p)) by (unfold Rdiv; ring). rewrite atan_opp. ring.
  - replace (- x * - x) with (x * x) by ring. unfold Rdiv; ring.
  - replace (PI / 2 * - x / p) with (- (PI / 2 * x / p)) by (unfold Rdiv; ring).
    rewrite sinh_odd, atan_opp. ring.
  - replace (- x / p) with (- (x / p)) by (unfold Rdiv; ring).
    unfold tanh. rewrite sinh_odd, cosh_even. unfold Rdiv; ring.
  - replace (sqrt PI / 2 * - x / p) with (- (sqrt PI / 2 * x / p)) by (unfold Rdiv; ring).
    apply erf_odd.
Qed.

Lemma atan_scaled_bound y : -1 < 2 / PI * atan y < 1.
Proof.
  pose proof PI_RGT_0 as Hpi. destruct (atan_bound y) as [H1 H2].
  assert (0 < 2 / PI) by (apply Rdiv_lt_0_compat; lra).
  split.
  - apply (Rmult_lt_compat_l (2/PI)) in H1; auto.
    replace (2 / PI * (- PI / 2)) with (-1) in H1 by (field; lra). exact H1.
  - apply (Rmult_lt_compat_l (2/PI)) in H2; auto.
    replace (2 / PI * (PI / 2)) with 1 in H2 by (field; lra). exact H2.
Qed.

Lemma sigmoid_bound k p x : 0 < p -> -1 < sigmoid_function x p k < 1.
Proof.
  intros Hp. destruct k; unfold sigmoid_function.
  - apply atan_scaled_bound.
  - pose proof (sumsq_pos x p Hp) as Hs.
    assert (Hq : 0 < sqrt (x * x + p * p)) by (apply sqrt_lt_R0; auto).
    set (q := sqrt (x * x + p * p)) in *.
    assert (E : q * q = x * x + p * p) by (unfold q; apply sqrt_sqrt; lra).
    assert (- q < x < q) by (split; nra).
    split.
    + apply (Rmult_lt_reg_r q); auto. unfold Rdiv. rewrite Rmult_assoc, Rinv_l by lra. lra.
    + apply (Rmult_lt_reg_r q); auto. unfold Rdiv. rewrite Rmult_assoc, Rinv_l by lra. lra.
  - apply atan_scaled_bound.
  - unfold tanh. set (y := x / p). pose proof (cosh_pos y).
    assert (- cosh y < sinh y < cosh y).
    { unfold cosh, sinh. pose proof (exp_pos y). pose proof (exp_pos (- y)). lra. }
    split; (apply (Rmult_lt_reg_r (cosh y)); auto; unfold Rdiv; rewrite Rmult_assoc, Rinv_l by lra; lra).
  - set (y := sqrt PI / 2 * x / p). pose proof (erf_bound y) as H.
    apply Rabs_def2 in H. lra.
Qed.

Lemma sigmoid_zero k p : sigmoid_function 0 p k = 0.
Proof. pose proof (sigmoid_odd k p 0) as H. rewrite Ropp_0 in H. lra. Qed.

Lemma sigmoid_sign k p x : 0 < p ->
  signum_function (sigmoid_function x p k) = signum_function x.
Proof.
  intros Hp.
  destruct (signum_cases x) as (H1 & H2 & H3).
  destruct (signum_cases (sigmoid_function x p k)) as (K1 & K2 & K3).
  destruct (Rtotal_order x 0) as [H|[H|H]].
  - rewrite H3 by auto. apply K3. rewrite <- (sigmoid_zero k p). apply sigmoid_increasing; auto.
  - rewrite H2 by auto. apply K2. rewrite H. apply sigmoid_zero.
  - rewrite H1 by auto. apply K1. rewrite <- (sigmoid_zero k p). apply sigmoid_increasing; auto.
Qed.

Lemma sigmoid_slope_zero k p : 0 < p -> sigmoid_function_derivative 0 p k = 1 / p.
Proof.
  intros Hp. pose proof PI_RGT_0 as Hpi. destruct k; unfold sigmoid_function_derivative.
  - field. lra.
  - replace (0 * 0 + p * p) with (p * p) by ring. rewrite Rpower_15 by nra.
    rewrite sqrt_square by lra. field. lra.
  - replace (PI / 2 * 0 / p) with 0 by (field; lra).
    rewrite cosh_0. field. lra.
  - replace (0 / p) with 0 by (field; lra). rewrite cosh_0. field. lra.
  - replace (- PI * 0 * 0 / p / p / 4) with 0 by (field; lra). rewrite exp_0. ring.
Qed.

Lemma sigmoid_sign_iff k p x : 0 < p ->
  (0 < x <-> 0 < sigmoid_function x p k) /\ (x < 0 <-> sigmoid_function x p k < 0) /\
  (x = 0 <-> sigmoid_function x p k = 0).
Proof.
  intros Hp. pose proof (sigmoid_zero k p) as Z.
  assert (A : 0 < x -> 0 < sigmoid_function x p k)
    by (intro; rewrite <- Z; apply sigmoid_increasing; auto).
  assert (B : x < 0 -> sigmoid_function x p k < 0)
    by (intro; rewrite <- Z; apply sigmoid_increasing; auto).
  assert (C : x = 0 -> sigmoid_function x p k = 0) by (intros ->; auto).
  repeat split; auto; intro H; destruct (Rtotal_order x 0) as [K|[K|K]];
    auto; try (pose proof (A K)); try (pose proof (B K)); try (pose proof (C K)); lra.
Qed.

Lemma sigmoid_negative_parameter : sigmoid_function 1 (-1) Atan < 0.
Proof.
  pose proof PI_RGT_0 as Hpi. unfold sigmoid_function.
  replace (PI / 2 * 1 / -1) with (- (PI / 2)) by field. rewrite atan_opp.
  assert (0 < atan (PI / 2)) by (rewrite <- atan_0; apply atan_increasing; lra).
  assert (0 < 2 / PI) by (apply Rdiv_lt_0_compat; lra). nra.
Qed.
