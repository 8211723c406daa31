(** * The potential of an increasing microstress (used for C109). *)
From Coq Require Import Reals Lra Lia.
From Coquelicot Require Import Coquelicot.
From Verif Require Import Num SumLemmas ModelUtilities ProofUtilities ModelMicro SpecMicro ProofMicro PropMicro ProofBound PropUnique.
Open Scope R_scope.

Section Potential.
Variables (m : R -> R) (o : R).
Hypothesis cont : continuity m.
Hypothesis incr : forall s1 s2, s1 < s2 -> m s1 <= m s2.
Definition potential (s : R) : R := RInt m o s.
Lemma integrable a c : ex_RInt m a c.
Proof. apply (ex_RInt_continuous m). intros z _. apply continuity_pt_filterlim, cont. Qed.
Lemma potential_diff s t : potential t - potential s = RInt m s t.
Proof.
  unfold potential. rewrite <- (RInt_Chasles m o s t (integrable _ _) (integrable _ _)). unfold plus. cbn. ring.
Qed.
Lemma incr_le s t : s <= t -> m s <= m t.
Proof. intros [H|H]; [apply incr, H|subst; lra]. Qed.
Lemma potential_slope s t : potential s + m s * (t - s) <= potential t.
Proof.
  enough (m s * (t - s) <= RInt m s t) by (pose proof (potential_diff s t); lra).
  destruct (Rle_dec s t) as [L|L].
  - assert (E : RInt (fun _ => m s) s t = m s * (t - s)) by (rewrite RInt_const; unfold scal; cbn; unfold mult; cbn; ring). rewrite <- E.
    apply RInt_le; [exact L|apply ex_RInt_const|apply integrable|]. intros z Hz. apply incr_le. apply Rlt_le, (proj1 Hz).
  - apply Rnot_le_lt in L.
    assert (E : RInt (fun _ => m s) t s = m s * (s - t)) by (rewrite RInt_const; unfold scal; cbn; unfold mult; cbn; ring).
    assert (Q : RInt m t s <= RInt (fun _ => m s) t s) by (apply RInt_le; [lra|apply integrable|apply ex_RInt_const|]; intros z Hz; apply incr_le; apply Rlt_le, (proj2 Hz)).
    rewrite E in Q. pose proof (opp_RInt_swap m t s (integrable _ _)) as W. change (- RInt m t s = RInt m s t) in W. rewrite <- W. lra.
Qed.
Hypothesis rest : m o = 0.
Lemma potential_nonneg s : 0 <= potential s.
Proof.
  pose proof (potential_slope o s) as H. rewrite rest in H. assert (Z : potential o = 0) by exact (RInt_point o m). lra.
Qed.
Lemma potential_grows a T s : 0 <= T -> a <= m (o + T) -> m (o - T) <= - a -> 0 <= a -> a * Rabs (s - o) - a * T <= potential s.
Proof.
  intros HT H1 H2 Ha. destruct (Rle_dec (Rabs (s - o)) T) as [N|F]; [pose proof (potential_nonneg s); nra|]. apply Rnot_le_lt in F.
  destruct (Rle_dec o s) as [L|L].
  - rewrite (Rabs_pos_eq (s - o)) in * by lra. pose proof (potential_slope (o + T) s) as P. pose proof (potential_nonneg (o + T)). nra.
  - apply Rnot_le_lt in L. rewrite (Rabs_left (s - o)) in * by lra. pose proof (potential_slope (o - T) s) as P. pose proof (potential_nonneg (o - T)). nra.
Qed.
End Potential.

(** ** One slip system *)
Section System.
Variables (l : scalar_law) (old g0 h dt : R).
Hypothesis viscous : sl_rate_independent l = false.
Hypothesis DT : 0 < dt.
Hypothesis K : 0 < sl_k l.
Hypothesis G : 0 < g0.
Hypothesis Hh : 0 <= h.
Definition trial_stress (s : R) : R := scalar_microstress l s old (g0 + h * Rabs (s - old)) dt.
Lemma trial_continuous : continuity trial_stress.
Proof.
  intros s. apply continuity_pt_filterlim. unfold trial_stress, scalar_microstress. rewrite viscous.
  apply (continuous_mult (fun s => g0 + h * Rabs (s - old)) (fun s => reg_value l ((s - old) / dt))).
  - apply (continuous_plus (fun _ => g0) (fun s => h * Rabs (s - old))); [apply continuous_const|].
    apply (continuous_mult (fun _ => h) (fun s => Rabs (s - old))); [apply continuous_const|].
    apply (continuous_comp (fun s => s - old) Rabs); [apply (continuous_minus (fun s => s) (fun _ => old)); [apply continuous_id|apply continuous_const]|apply continuous_Rabs].
  - apply (continuous_comp (fun s => (s - old) / dt) (reg_value l)).
    + apply (continuous_mult (fun s => s - old) (fun _ => / dt)); [apply (continuous_minus (fun s => s) (fun _ => old)); [apply continuous_id|apply continuous_const]|apply continuous_const].
    + apply (ex_derive_continuous (reg_value l)). exists (reg_derivative l ((s - old) / dt)). rewrite reg_derivative_sigmoid.
      apply (is_derive_ext (fun r => sigmoid_function r (sl_k l) (sl_reg l))); [intros; symmetry; apply reg_value_sigmoid|apply sigmoid_derive; exact K].
Qed.
Lemma trial_increasing s1 s2 : s1 < s2 -> trial_stress s1 <= trial_stress s2.
Proof. intros L. exact (proj1 (system_increasing l old g0 h dt s1 s2 DT K G Hh L)). Qed.
Lemma trial_rest : trial_stress old = 0.
Proof.
  pose proof (C25_odd l 0 old 1 dt) as E. unfold trial_stress. rewrite microstress_unit. rewrite Rminus_0_r, Rplus_0_r in E. 
  replace (scalar_microstress l old old 1 dt) with 0 by lra. ring.
Qed.
Lemma unit_positive T : 0 < T -> 0 < scalar_microstress l (old + T) old 1 dt.
Proof.
  intros HT. destruct (C25_increasing l old (old + T) old 1 dt DT K Rlt_0_1 ltac:(lra)) as (_ & I). specialize (I viscous).
  pose proof (C25_odd l 0 old 1 dt) as E. rewrite Rminus_0_r, Rplus_0_r in E. lra.
Qed.
Lemma trial_at T : 0 < T -> trial_stress (old + T) = (g0 + h * T) * scalar_microstress l (old + T) old 1 dt /\ trial_stress (old - T) = - trial_stress (old + T).
Proof.
  intros HT. unfold trial_stress. rewrite (microstress_unit l (old + T)), (microstress_unit l (old - T)), C25_odd.
  replace (old + T - old) with T by ring. replace (old - T - old) with (- T) by ring. rewrite Rabs_Ropp, Rabs_pos_eq by lra. split; ring.
Qed.
Lemma system_grows : exists a z, 0 < a /\ forall s, a * Rabs (s - old) - z <= potential trial_stress old s.
Proof.
  destruct (trial_at 1 Rlt_0_1) as (A & B). pose proof (unit_positive 1 Rlt_0_1) as U.
  assert (P : 0 < trial_stress (old + 1)) by (rewrite A; apply Rmult_lt_0_compat; [nra|exact U]).
  exists (trial_stress (old + 1)), (trial_stress (old + 1) * 1). split; [exact P|]. intros s.
  apply potential_grows; [exact trial_continuous|exact trial_increasing|exact trial_rest|lra|lra|lra|lra].
Qed.
Lemma system_grows_fast : 0 < h -> forall a, exists z, forall s, a * Rabs (s - old) - z <= potential trial_stress old s.
Proof.
  intros Hp a. pose proof (unit_positive 1 Rlt_0_1) as U. set (u := scalar_microstress l (old + 1) old 1 dt) in *.
  set (T := 1 + Rabs a / (h * u)). assert (HU : 0 < h * u) by (apply Rmult_lt_0_compat; assumption).
  assert (HT : 1 <= T). { unfold T. assert (0 <= Rabs a / (h * u)) by (apply Rmult_le_pos; [apply Rabs_pos|left; apply Rinv_0_lt_compat, HU]). lra. }
  destruct (trial_at T ltac:(lra)) as (A & B).
  assert (M : u <= scalar_microstress l (old + T) old 1 dt).
  { destruct (Req_dec 1 T) as [<-|Ne]; [unfold u; lra|]. apply (C25_increasing l (old + 1) (old + T) old 1 dt DT K Rlt_0_1). lra. }
  assert (Q : Rabs a <= trial_stress (old + T)).
  { rewrite A. apply Rle_trans with (h * T * u).
    - unfold T. replace (h * (1 + Rabs a / (h * u)) * u) with (h * u + Rabs a) by (field; split; lra). lra.
    - apply Rmult_le_compat; [nra|lra|nra|exact M]. }
  exists (Rabs a * T). intros s. apply Rle_trans with (Rabs a * Rabs (s - old) - Rabs a * T).
  - pose proof (Rle_abs a). pose proof (Rabs_pos (s - old)). nra.
  - apply potential_grows; [exact trial_continuous|exact trial_increasing|exact trial_rest|lra|exact Q|lra|apply Rabs_pos].
Qed.
End System.
Lemma phi_continuous p : 2 <= p -> continuity (phi p).
Proof. intros Hp x. apply continuity_pt_filterlim. apply (ex_derive_continuous (phi p)). eexists. apply derive_phi, Hp. Qed.
