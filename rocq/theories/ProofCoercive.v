(** * Convex functions with bounded level sets grow linearly. *)
From Verif Require Import Num SumLemmas Tensors ModelFEField.
Open Scope R_scope.

Lemma sumn_abs n f : Rabs (sumn n f) <= sumn n (fun i => Rabs (f i)).
Proof. induction n as [|n IH]; cbn [sumn]; [rewrite Rabs_R0; lra|]. eapply Rle_trans; [apply Rabs_triang|]. lra. Qed.
Definition bounded_levels (n : nat) (f : vec -> R) : Prop := forall r, exists B, 0 < B /\ forall y, f y <= r -> forall d, (d < n)%nat -> Rabs (y d) <= B.
Definition size (n : nat) (y : vec) : R := sumn n (fun d => Rabs (y d)).
Definition grows (n : nat) (f : vec -> R) : Prop := exists a K, 0 < a /\ forall y, a * size n y - K <= f y.
Lemma size_nonneg n y : 0 <= size n y.
Proof. apply sumn_nonneg. intros. apply Rabs_pos. Qed.
Lemma size_ge n y d : (d < n)%nat -> Rabs (y d) <= size n y.
Proof. intros H. apply (sumn_term_le n (fun d => Rabs (y d)) d); [intros; apply Rabs_pos|exact H]. Qed.
Lemma grows_bounded n f : grows n f -> bounded_levels n f.
Proof.
  intros (a & K & A & H) r. exists (Rabs ((r + K) / a) + 1). split; [pose proof (Rabs_pos ((r + K) / a)); lra|]. intros y Y d Hd. specialize (H y). pose proof (size_ge n y d Hd) as S.
  assert (Q : size n y <= (r + K) / a) by (apply (Rmult_le_reg_l a); [exact A|]; replace (a * ((r + K) / a)) with (r + K) by (field; lra); lra).
  pose proof (Rle_abs ((r + K) / a)). lra.
Qed.
Lemma bounded_grows n f (slope : vec -> nat -> R) : (forall x y : vec, f x + sumn n (fun d => slope x d * (y d - x d)) <= f y) -> bounded_levels n f -> grows n f.
Proof.
  intros CV BL. set (o := fun _ : nat => 0). destruct (BL (f o + 1)) as (B & B0 & HB).
  set (K := sumn n (fun d => Rabs (slope o d) * B)). assert (K0 : 0 <= K) by (apply sumn_nonneg; intros; apply Rmult_le_pos; [apply Rabs_pos|lra]).
  assert (LO : forall y, f o - K <= f y).
  { intros y. destruct (Rle_dec (f y) (f o + 1)) as [L|L]; [|lra]. specialize (CV o y). eapply Rle_trans; [|exact CV]. unfold K, Rminus. apply Rplus_le_compat_l. rewrite <- sumn_opp. apply sumn_le. intros d Hd. cbv beta.
    specialize (HB y L d Hd). change (o d) with 0. replace (y d + - 0) with (y d) by ring. pose proof (Rmult_le_compat_l _ _ _ (Rabs_pos (slope o d)) HB) as Q. rewrite <- Rabs_mult in Q. pose proof (Rle_abs (- (slope o d * y d))) as P. rewrite Rabs_Ropp in P. lra. }
  assert (G : forall y d, (d < n)%nat -> Rabs (y d) / (2 * B) <= f y - f o + K + 1).
  { intros y d Hd. destruct (Rle_dec (Rabs (y d)) (2 * B)) as [L|L].
    - specialize (LO y). assert (Rabs (y d) / (2 * B) <= 1); [|lra]. apply (Rmult_le_reg_r (2 * B)); [lra|]. unfold Rdiv. rewrite Rmult_assoc, Rinv_l by lra. lra.
    - set (t := 2 * B / Rabs (y d)). assert (T : 0 < t < 1).
      { split; [apply Rdiv_lt_0_compat; lra|]. apply (Rmult_lt_reg_r (Rabs (y d))); [lra|]. unfold t, Rdiv. rewrite Rmult_assoc, Rinv_l by lra. lra. }
      set (p := fun i => t * y i).
      assert (FP : f o + 1 < f p).
      { apply Rnot_le_lt. intros Q. specialize (HB p Q d Hd). unfold p in HB. rewrite Rabs_mult, (Rabs_pos_eq t) in HB by lra. unfold t, Rdiv in HB. rewrite Rmult_assoc, Rinv_l in HB by lra. lra. }
      assert (CX : f p <= t * f y + (1 - t) * f o).
      { pose proof (CV p y) as A1. pose proof (CV p o) as A2. set (s := sumn n (fun i => slope p i * y i)).
        replace (sumn n (fun i => slope p i * (y i - p i))) with ((1 - t) * s) in A1 by (unfold s; rewrite <- sumn_scal; apply sumn_ext; intros; unfold p; ring).
        replace (sumn n (fun i => slope p i * (o i - p i))) with (- t * s) in A2 by (unfold s; rewrite <- sumn_scal; apply sumn_ext; intros; unfold p, o; ring).
        pose proof (Rmult_le_compat_l t _ _ ltac:(lra) A1) as M1. pose proof (Rmult_le_compat_l (1 - t) _ _ ltac:(lra) A2) as M2. lra. }
      assert (Q : Rabs (y d) / (2 * B) = / t) by (unfold t; field; lra). rewrite Q. apply (Rmult_le_reg_l t); [lra|]. rewrite Rinv_r by lra. nra. }
  exists (/ (2 * B * (INR n + 1))), (K + 1 - f o). pose proof (pos_INR n) as N0. split; [apply Rinv_0_lt_compat; nra|]. intros y.
  assert (S : size n y / (2 * B) <= INR n * (f y - f o + K + 1)).
  { unfold size, Rdiv. rewrite <- sumn_scal_r. rewrite <- (sumn_const n). apply sumn_le. intros d Hd. apply (G y d Hd). }
  specialize (LO y). apply (Rmult_le_reg_l (INR n + 1)); [lra|]. replace ((INR n + 1) * (/ (2 * B * (INR n + 1)) * size n y - (K + 1 - f o))) with (size n y / (2 * B) - (INR n + 1) * (K + 1 - f o)) by (field; split; lra). nra.
Qed.
(** ** Sums and small changes *)
Lemma grows_ext n f g : (forall y, f y = g y) -> grows n f -> grows n g.
Proof. intros E (a & K & A & H). exists a, K. split; [exact A|]. intros y. rewrite <- E. apply H. Qed.
Lemma grows_mean n f g t : 0 <= t <= 1 -> grows n f -> grows n g -> grows n (fun y => t * f y + (1 - t) * g y).
Proof.
  intros T (a & K & A & H) (a' & K' & A' & H'). set (m := Rmin a a'). assert (M : 0 < m) by (apply Rmin_glb_lt; assumption).
  exists m, (t * K + (1 - t) * K'). split; [exact M|]. intros y. specialize (H y). specialize (H' y). pose proof (size_nonneg n y) as S0.
  pose proof (Rmult_le_compat_r _ _ _ S0 (Rmin_l a a')) as L1. pose proof (Rmult_le_compat_r _ _ _ S0 (Rmin_r a a')) as L2. fold m in L1, L2.
  pose proof (Rmult_le_compat_l t _ _ ltac:(lra) (Rle_trans _ _ _ (Rplus_le_compat_r (- K) _ _ L1) H)). pose proof (Rmult_le_compat_l (1 - t) _ _ ltac:(lra) (Rle_trans _ _ _ (Rplus_le_compat_r (- K') _ _ L2) H')). lra.
Qed.
Lemma grows_near n f : grows n f -> exists e, 0 < e /\ forall g K, (forall y, f y - e * size n y - K <= g y) -> grows n g.
Proof.
  intros (a & K & A & H). exists (a / 2). split; [lra|]. intros g K' G. exists (a / 2), (K + K'). split; [lra|]. intros y. specialize (H y). specialize (G y). lra.
Qed.
