(** * The regularised laws reach every stress below the resistance (used for C111). *)
From Coq Require Import Reals Lra Lia.
From Coquelicot Require Import Coquelicot.
From Verif Require Import Num SumLemmas ModelUtilities ProofUtilities ProofErf ModelMicro SpecMicro ProofMicro PropMicro ProofBound PropUnique ProofPotential.
Open Scope R_scope.

Lemma root_reaches k u : 0 < k -> 0 <= u < 1 -> exists t, 0 < t /\ u <= t / sqrt (t * t + k * k).
Proof.
  intros K (U0 & U1). set (t := k / (1 - u)). assert (T : 0 < t) by (apply Rdiv_lt_0_compat; lra). exists t. split; [exact T|].
  assert (P : 0 < t * t + k * k) by nra. pose proof (sqrt_lt_R0 _ P) as S. apply (Rmult_le_reg_r (sqrt (t * t + k * k))); [exact S|].
  replace (t / sqrt (t * t + k * k) * sqrt (t * t + k * k)) with t by (field; lra).
  assert (E : t * (1 - u) = k) by (unfold t; field; lra).
  apply Rsqr_incr_0_var; [|lra]. rewrite Rsqr_mult, Rsqr_sqrt by lra. unfold Rsqr.
  assert (Q : k * k = t * t * ((1 - u) * (1 - u))) by (rewrite <- E; ring). rewrite Q.
  assert (D : t * t - u * u * (t * t + t * t * ((1 - u) * (1 - u))) = t * t * ((1 - u) * (1 + u - u * u * (1 - u)))) by ring.
  assert (0 <= t * t * ((1 - u) * (1 + u - u * u * (1 - u)))) by (apply Rmult_le_pos; [nra|apply Rmult_le_pos; [lra|assert (u * u * (1 - u) <= 1) by nra; lra]]). lra.
Qed.
Lemma atan_reaches u : 0 <= u < 1 -> exists t, 0 <= t /\ u <= 2 / PI * atan t.
Proof.
  intros (U0 & U1). pose proof PI_RGT_0 as P. set (a := u * (PI / 2)). assert (A : 0 <= a < PI / 2) by (unfold a; split; nra).
  exists (tan a). split.
  - destruct (Req_dec a 0) as [->|N]; [rewrite tan_0; lra|]. apply Rlt_le, tan_gt_0; lra.
  - rewrite atan_tan by lra. right. unfold a. field. lra.
Qed.
Lemma sinh_reaches s : 0 <= s -> exists t, 0 <= t /\ s = sinh t.
Proof.
  intros S. exists (arcsinh s). split; [|symmetry; apply sinh_arcsinh]. rewrite <- arcsinh_0. destruct S as [S|<-]; [left; apply arcsinh_lt, S|lra].
Qed.
Lemma tanh_reaches u : 0 <= u < 1 -> exists t, 0 <= t /\ u <= tanh t.
Proof.
  intros U. destruct (root_reaches 1 u Rlt_0_1 U) as (s & S & H). destruct (sinh_reaches s ltac:(lra)) as (t & T & ->). exists t. split; [exact T|].
  unfold tanh. assert (E : cosh t = sqrt (sinh t * sinh t + 1 * 1)); [|rewrite E; exact H].
  symmetry. apply sqrt_lem_1; [nra|apply Rlt_le, cosh_pos|]. pose proof (cosh_sinh t). lra.
Qed.
Lemma gaussian_rest_small x : G x <= exp (- (x * x)).
Proof.
  assert (E : exp (- (x * x)) = RInt (fun _ => exp (- (x * x))) 0 1) by (rewrite RInt_const; unfold scal; cbn; unfold mult; cbn; ring).
  rewrite E. unfold G. apply RInt_le; [lra| |apply ex_RInt_const|].
  - apply (ex_RInt_continuous (V:=R_CompleteNormedModule)). intros; apply gk_cont.
  - intros t _. unfold gk. assert (S : 0 <= t * t) by nra. pose proof (exp_pos (- (x * x))) as P.
    apply (Rmult_le_reg_r (1 + t * t)); [lra|]. unfold Rdiv. rewrite Rmult_assoc, Rinv_l, Rmult_1_r by lra.
    assert (M : exp (- (x * x * (1 + t * t))) <= exp (- (x * x))); [|nra].
    destruct (Req_dec (x * x * (t * t)) 0) as [Z|Z]; [right; f_equal; lra|]. left. apply exp_increasing.
    assert (0 <= x * x) by nra. assert (0 <= x * x * (t * t)) by (apply Rmult_le_pos; lra). lra.
Qed.
Lemma erf_reaches u : 0 <= u < 1 -> exists t, 0 <= t /\ u <= erf t.
Proof.
  intros (U0 & U1). pose proof PI_RGT_0 as P. set (d := (1 - u * u) * (PI / 4)). assert (D : 0 < d) by (unfold d; apply Rmult_lt_0_compat; nra).
  set (x := 1 + / d). assert (I : 0 < / d) by (apply Rinv_0_lt_compat, D). exists x. split; [unfold x; lra|].
  assert (S : G x <= d).
  { eapply Rle_trans; [apply gaussian_rest_small|]. rewrite exp_Ropp. rewrite <- (Rinv_inv d). apply Rinv_le_contravar; [exact I|].
    pose proof (exp_ineq1_le (x * x)) as E. unfold x in *. nra. }
  pose proof (gauss_identity x) as Q. assert (E : u * u * (PI / 4) <= E0 x * E0 x) by (unfold d in S; lra).
  assert (N : 0 <= E0 x). { unfold E0. apply RInt_ge_0; [unfold x; lra|apply gauss_ex|]. intros t _. apply Rlt_le, gauss_pos. }
  assert (SP : 0 < sqrt PI) by (apply sqrt_lt_R0, P). assert (SS : sqrt PI * sqrt PI = PI) by (apply sqrt_sqrt; lra).
  unfold erf. change (RInt (fun t => exp (- (t * t))) 0 x) with (E0 x). apply (Rmult_le_reg_l (sqrt PI / 2)); [lra|].
  replace (sqrt PI / 2 * (2 / sqrt PI * E0 x)) with (E0 x) by (field; lra). apply Rsqr_incr_0_var; [|exact N]. unfold Rsqr.
  replace (sqrt PI / 2 * u * (sqrt PI / 2 * u)) with (u * u * (sqrt PI * sqrt PI / 4)) by field. rewrite SS. exact E.
Qed.
Lemma rate_reaches l u : 0 < sl_k l -> 0 <= u < 1 -> exists r, 0 < r /\ u <= reg_value l r.
Proof.
  intros K U. pose proof PI_RGT_0 as P. assert (SP : 0 < sqrt PI) by (apply sqrt_lt_R0, P).
  assert (W : exists r, 0 <= r /\ u <= reg_value l r).
  { unfold reg_value. destruct (sl_reg l).
    - destruct (atan_reaches u U) as (t & T & H). exists (2 / PI * t * sl_k l). split; [apply Rmult_le_pos; [apply Rmult_le_pos; [apply Rlt_le, Rdiv_lt_0_compat; lra|exact T]|lra]|].
      replace (PI / 2 * (2 / PI * t * sl_k l) / sl_k l) with t by (field; lra). exact H.
    - destruct (root_reaches (sl_k l) u K U) as (t & T & H). exists t. split; [lra|exact H].
    - destruct (atan_reaches u U) as (s & S & H). destruct (sinh_reaches s S) as (t & T & ->). exists (2 / PI * t * sl_k l).
      split; [apply Rmult_le_pos; [apply Rmult_le_pos; [apply Rlt_le, Rdiv_lt_0_compat; lra|exact T]|lra]|].
      replace (PI / 2 * (2 / PI * t * sl_k l) / sl_k l) with t by (field; lra). exact H.
    - destruct (tanh_reaches u U) as (t & T & H). exists (t * sl_k l). split; [apply Rmult_le_pos; lra|]. replace (t * sl_k l / sl_k l) with t by (field; lra). exact H.
    - destruct (erf_reaches u U) as (t & T & H). exists (2 / sqrt PI * t * sl_k l). split; [apply Rmult_le_pos; [apply Rmult_le_pos; [apply Rlt_le, Rdiv_lt_0_compat; lra|exact T]|lra]|].
      replace (sqrt PI / 2 * (2 / sqrt PI * t * sl_k l) / sl_k l) with t by (field; lra). exact H. }
  destruct W as (r & R0 & H). exists (r + 1). split; [lra|]. eapply Rle_trans; [exact H|]. rewrite !reg_value_sigmoid. left. apply sigmoid_increasing; [exact K|lra].
Qed.

(** ** The potential of one system grows faster than the work of any stress below the resistance *)
Section System.
Variables (l : scalar_law) (old g0 h dt : R).
Hypothesis viscous : sl_rate_independent l = false.
Hypothesis DT : 0 < dt.
Hypothesis K : 0 < sl_k l.
Hypothesis G0 : 0 < g0.
Hypothesis Hh : 0 <= h.
Lemma system_grows_to a : 0 <= a -> a < g0 \/ 0 < h -> exists z, forall s, a * Rabs (s - old) - z <= potential (trial_stress l old g0 h dt) old s.
Proof.
  intros A [L|Hp]; [|exact (system_grows_fast l old g0 h dt viscous DT K G0 Hh Hp a)].
  destruct (rate_reaches l (a / g0) K) as (r & R0 & H).
  { split; [apply Rmult_le_pos; [exact A|apply Rlt_le, Rinv_0_lt_compat, G0]|]. apply (Rmult_lt_reg_r g0); [exact G0|]. unfold Rdiv. rewrite Rmult_assoc, Rinv_l, Rmult_1_r, Rmult_1_l by lra. exact L. }
  set (T := r * dt). assert (HT : 0 < T) by (apply Rmult_lt_0_compat; assumption). destruct (trial_at l old g0 h dt T HT) as (E & F).
  assert (Q : a <= trial_stress l old g0 h dt (old + T)).
  { rewrite E. unfold scalar_microstress. rewrite viscous, Rmult_1_l. replace ((old + T - old) / dt) with r by (unfold T; field; lra).
    apply Rle_trans with (g0 * (a / g0)); [right; field; lra|]. assert (0 <= a / g0) by (apply Rmult_le_pos; [exact A|apply Rlt_le, Rinv_0_lt_compat, G0]).
    apply Rmult_le_compat; try lra. nra. }
  exists (a * T). intros s. apply potential_grows; [apply trial_continuous; assumption|apply trial_increasing; assumption|apply trial_rest; assumption|lra|exact Q|rewrite F; lra|exact A].
Qed.
(** What is left when a stress [s] below the resistance does work on the slip. *)
Lemma system_margin s : Rabs s < g0 \/ 0 < h -> exists m z, 0 < m /\ forall x, m * Rabs (x - old) - z <= potential (trial_stress l old g0 h dt) old x - s * (x - old).
Proof.
  intros H. assert (E : exists a, Rabs s < a /\ (a < g0 \/ 0 < h)).
  { destruct H as [L|Hp]; [exists ((Rabs s + g0) / 2); split; [lra|left; lra]|exists (Rabs s + 1); split; [lra|auto]]. }
  destruct E as (a & A & B). pose proof (Rabs_pos s). destruct (system_grows_to a ltac:(lra) B) as (z & Z). exists (a - Rabs s), z. split; [lra|].
  intros x. specialize (Z x). assert (s * (x - old) <= Rabs s * Rabs (x - old)) by (rewrite <- Rabs_mult; apply Rle_abs). lra.
Qed.
End System.
