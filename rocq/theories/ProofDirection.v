(** * Convex functions without directions in which they do not grow have bounded level sets (used for C113). *)
From Coq Require Import List Reals Lra Lia ConstructiveEpsilon Classical Rtopology Rseries.
From Verif Require Import Num SumLemmas Tensors ProofMinimum ProofCoercive.
Import ListNotations.
Open Scope R_scope.

Lemma Exists_pick {A} (P : A -> Prop) (dec : forall x, {P x} + {~ P x}) l : Exists P l -> {x | P x}.
Proof.
  induction l as [|a l IH]; intros H; [exfalso; inversion H|]. destruct (dec a) as [p|p]; [exists a; exact p|].
  apply IH. inversion H; [contradiction|assumption].
Qed.
Lemma size_near n u v t : 0 <= t -> (forall d, (d < n)%nat -> Rabs (u d - v d) <= t) -> Rabs (size n u - size n v) <= INR n * t.
Proof.
  intros Ht H. unfold size. rewrite <- sumn_minus. eapply Rle_trans; [apply sumn_abs|]. rewrite <- (sumn_const n t). apply sumn_le. intros d Hd.
  eapply Rle_trans; [|apply H, Hd]. apply Rabs_triang_inv2.
Qed.
Lemma size_scal n a v : 0 <= a -> size n (fun d => a * v d) = a * size n v.
Proof. intros A. unfold size. rewrite <- sumn_scal. apply sumn_ext. intros d _. rewrite Rabs_mult, Rabs_pos_eq by exact A. reflexivity. Qed.
Lemma some_nat x : exists m, x < INR m.
Proof.
  destruct (archimed_cor1 (/ (Rabs x + 1)) ltac:(apply Rinv_0_lt_compat; pose proof (Rabs_pos x); lra)) as (m & A & B). exists m. pose proof (Rabs_pos x). pose proof (Rle_abs x).
  assert (P : 0 < INR m) by (apply lt_0_INR; exact B). apply Rnot_le_lt. intros L. assert (Q : / (Rabs x + 1) <= / INR m) by (apply Rinv_le_contravar; lra). lra.
Qed.
Section Directions.
Variables (n : nat) (f : vec -> R) (F : vec -> nat -> R).
Hypothesis convex : forall x y, f x + sumn n (fun d => F x d * (y d - x d)) <= f y.
Hypothesis continuous : forall x d e, (d < n)%nat -> 0 < e -> exists t, 0 < t /\ forall y, (forall i, (i < n)%nat -> Rabs (y i - x i) <= t) -> Rabs (F y d - F x d) <= e.
Lemma midway l x y : 0 <= l <= 1 -> f (fun d => l * x d + (1 - l) * y d) <= l * f x + (1 - l) * f y.
Proof.
  intros L. set (p := fun d => l * x d + (1 - l) * y d). pose proof (convex p x) as A1. pose proof (convex p y) as A2. set (s := sumn n (fun d => F p d * (x d - y d))).
  replace (sumn n (fun d => F p d * (x d - p d))) with ((1 - l) * s) in A1 by (unfold s; rewrite <- sumn_scal; apply sumn_ext; intros; unfold p; ring).
  replace (sumn n (fun d => F p d * (y d - p d))) with (- l * s) in A2 by (unfold s; rewrite <- sumn_scal; apply sumn_ext; intros; unfold p; ring).
  pose proof (Rmult_le_compat_l l _ _ ltac:(lra) A1). pose proof (Rmult_le_compat_l (1 - l) _ _ ltac:(lra) A2). lra.
Qed.
Lemma nearby y e : 0 < e -> exists t, 0 < t /\ forall v, (forall d, (d < n)%nat -> Rabs (v d - y d) <= t) -> f v <= f y + e.
Proof.
  intros E0. destruct (all_continuous n F y (continuous y) 1 n (le_n n) Rlt_0_1) as (t & Ht & C).
  set (Q := sumn n (fun d => Rabs (F y d)) + INR n). assert (HQ : 0 <= Q) by (apply Rplus_le_le_0_compat; [apply sumn_nonneg; intros; apply Rabs_pos|apply pos_INR]).
  set (r := Rmin t (e / (Q + 1))). assert (Hr : 0 < r) by (apply Rmin_pos; [exact Ht|apply Rdiv_lt_0_compat; lra]).
  exists r. split; [exact Hr|]. intros v V. pose proof (convex v y) as A.
  pose proof (small_sum n (F v) (fun d => y d - v d) r ltac:(lra) ltac:(intros d Hd; cbv beta; rewrite Rabs_minus_sym; apply V, Hd)) as Sm. apply abs_between in Sm.
  assert (Bd : sumn n (fun d => Rabs (F v d)) <= Q).
  { unfold Q. rewrite <- (Rmult_1_r (INR n)), <- (sumn_const n 1), <- sumn_plus. apply sumn_le. intros d Hd.
    assert (W : Rabs (F v d - F y d) <= 1) by (apply C; [|exact Hd]; intros i Hi; eapply Rle_trans; [apply V, Hi|apply Rmin_l]).
    replace (F v d) with (F y d + (F v d - F y d)) by ring. eapply Rle_trans; [apply Rabs_triang|]. lra. }
  assert (Z : sumn n (fun d => Rabs (F v d)) * r <= e).
  { apply Rle_trans with (Q * (e / (Q + 1))); [apply Rmult_le_compat; [apply sumn_nonneg; intros; apply Rabs_pos|lra|exact Bd|apply Rmin_r]|].
    apply (Rmult_le_reg_r (Q + 1)); [lra|]. replace (Q * (e / (Q + 1)) * (Q + 1)) with (Q * e) by (field; lra). nra. }
  lra.
Qed.
Section Unbounded.
Variable r : R.
Hypothesis far : forall B, 0 < B -> exists y, f y <= r /\ exists d, (d < n)%nat /\ B < Rabs (y d).
Definition good (N : nat) (v : vec) : Prop := f v <= r + 1 /\ INR N <= size n v.
Lemma good_dec N v : {good N v} + {~ good N v}.
Proof. destruct (Rle_dec (f v) (r + 1)) as [A|A]; [|right; intros (? & ?); contradiction]. destruct (Rle_dec (INR N) (size n v)) as [B|B]; [left; split; assumption|right; intros (? & ?); contradiction]. Qed.
Definition lattice (m : nat) : list vec := grid (INR (S m)) (S m * S m) n.
Lemma good_found N : exists m, Exists (good N) (lattice m).
Proof.
  pose proof (pos_INR N) as N0. destruct (far (INR N + 1) ltac:(lra)) as (y & Y & d & Hd & L). destruct (nearby y 1 Rlt_0_1) as (t & Ht & H).
  pose proof (pos_INR n) as n0. assert (P : 0 < Rmin t (/ (INR n + 1))) by (apply Rmin_pos; [exact Ht|apply Rinv_0_lt_compat; lra]).
  set (e := Rmin t (/ (INR n + 1))) in *. destruct (archimed_cor1 (e / 2) ltac:(lra)) as (m1 & A1 & A2).
  destruct (some_nat (size n y)) as (m2 & A3). set (m := max m1 m2). exists m.
  assert (Mp : 0 < INR (S m)) by (apply lt_0_INR; lia).
  destruct (near_grid (INR (S m)) (S m * S m) n y Mp ltac:(lia)) as (v & V & Nv).
  { intros i Hi. apply abs_between. eapply Rle_trans; [apply size_ge, Hi|]. assert (INR m2 <= INR (S m)) by (apply le_INR; lia). lra. }
  assert (St : 2 * INR (S m) / INR (S m * S m) <= e).
  { rewrite mult_INR. replace (2 * INR (S m) / (INR (S m) * INR (S m))) with (2 * / INR (S m)) by (field; lra).
    assert (/ INR (S m) <= / INR m1) by (apply Rinv_le_contravar; [apply lt_0_INR; exact A2|apply le_INR; lia]). lra. }
  assert (Nv' : forall i, (i < n)%nat -> Rabs (v i - y i) <= e) by (intros i Hi; eapply Rle_trans; [apply Nv, Hi|exact St]).
  apply Exists_exists. exists v. split; [exact V|]. split.
  - assert (f v <= f y + 1); [|lra]. apply H. intros i Hi. eapply Rle_trans; [apply Nv', Hi|apply Rmin_l].
  - pose proof (size_near n v y e ltac:(lra) Nv') as SN. apply abs_between in SN. pose proof (size_ge n y d Hd).
    assert (INR n * e <= 1); [|lra]. apply Rle_trans with (INR n * / (INR n + 1)); [apply Rmult_le_compat_l; [exact n0|apply Rmin_r]|].
    apply (Rmult_le_reg_r (INR n + 1)); [lra|]. rewrite Rmult_assoc, Rinv_l by lra. lra.
Qed.
Lemma good_sig N : {v | good N v}.
Proof.
  destruct (constructive_indefinite_ground_description_nat (fun m => Exists (good N) (lattice m)) (fun m => Exists_dec _ _ (good_dec N)) (good_found N)) as (m & E).
  exact (Exists_pick _ (good_dec N) _ E).
Qed.
Definition away (N : nat) : vec := proj1_sig (good_sig (S N)).
Lemma away_spec N : f (away N) <= r + 1 /\ INR (S N) <= size n (away N).
Proof. exact (proj2_sig (good_sig (S N))). Qed.
Lemma flat_direction : exists x, size n x = 1 /\ forall t, 0 <= t -> f (fun d => t * x d) <= f (fun _ => 0).
Proof.
  set (u := fun N d => / size n (away N) * away N d).
  assert (SP : forall N, 1 <= size n (away N)) by (intros N; pose proof (proj2 (away_spec N)) as A; rewrite S_INR in A; pose proof (pos_INR N); lra).
  assert (SU : forall N, size n (u N) = 1). { intros N. specialize (SP N). unfold u. rewrite size_scal by (apply Rlt_le, Rinv_0_lt_compat; lra). field. lra. }
  assert (RU : forall N d, (d < n)%nat -> - 1 <= u N d <= 1) by (intros N d Hd; apply abs_between; rewrite <- (SU N); apply size_ge, Hd).
  destruct (convergent_subsequence 1 u n RU) as (s & x & G & CV). exists x.
  pose proof (pos_INR n) as n0.
  split.
  - apply Rminus_diag_uniq. apply NNPP. intros Ne. assert (P : 0 < Rabs (size n x - 1)) by (apply Rabs_pos_lt, Ne).
    set (e := Rabs (size n x - 1) / (2 * (INR n + 1))). assert (E0 : 0 < e) by (apply Rdiv_lt_0_compat; lra).
    destruct (all_close n (fun k => u (s k)) x CV e E0) as (K & HK). pose proof (size_near n (u (s K)) x e ltac:(lra) (HK K (le_n _))) as SN.
    rewrite SU, Rabs_minus_sym in SN. assert (INR n * e < Rabs (size n x - 1)); [|lra].
    apply Rle_lt_trans with ((INR n + 1) * e); [nra|]. unfold e. replace ((INR n + 1) * (Rabs (size n x - 1) / (2 * (INR n + 1)))) with (Rabs (size n x - 1) / 2) by (field; lra). lra.
  - intros t Ht. apply Rnot_lt_le. intros L. set (tx := fun d => t * x d) in *. set (g := f tx - f (fun _ => 0)). assert (G0 : 0 < g) by (unfold g; lra).
    set (P := sumn n (fun d => Rabs (F tx d))). assert (P0 : 0 <= P) by (apply sumn_nonneg; intros; apply Rabs_pos).
    set (e := g / (3 * (P + 1) * (t + 1))). assert (E0 : 0 < e) by (apply Rdiv_lt_0_compat; [exact G0|]; nra).
    destruct (all_close n (fun k => u (s k)) x CV e E0) as (K1 & H1).
    set (D := Rabs (r + 1 - f (fun _ => 0))). assert (D0 : 0 <= D) by apply Rabs_pos.
    destruct (some_nat (t + 3 * t * D / g)) as (K2 & H2). set (k := max K1 K2). specialize (H1 k ltac:(lia)).
    destruct (away_spec (s k)) as (A1 & A2). set (v := away (s k)) in *. set (z := size n v) in *.
    assert (Z : t + 3 * t * D / g < z).
    { pose proof (grows_id s G k). assert (INR K2 <= INR (S (s k))) by (apply le_INR; lia). lra. }
    assert (Q0 : 0 <= 3 * t * D / g) by (apply Rmult_le_pos; [nra|apply Rlt_le, Rinv_0_lt_compat; exact G0]).
    set (l := t / z). assert (Lr : 0 <= l <= 1).
    { unfold l. split; [apply Rmult_le_pos; [exact Ht|apply Rlt_le, Rinv_0_lt_compat; lra]|]. apply (Rmult_le_reg_r z); [lra|]. unfold Rdiv. rewrite Rmult_assoc, Rinv_l by lra. lra. }
    pose proof (midway l v (fun _ => 0) Lr) as MW.
    assert (LD : l * D <= g / 3).
    { unfold l. apply (Rmult_le_reg_r (z * 3)); [lra|]. replace (t / z * D * (z * 3)) with (3 * t * D / g * g) by (field; lra). replace (g / 3 * (z * 3)) with (z * g) by field. apply Rmult_le_compat_r; lra. }
    assert (FB : f (fun d => l * v d + (1 - l) * 0) <= f (fun _ => 0) + g / 3).
    { eapply Rle_trans; [exact MW|]. pose proof (Rmult_le_compat_l l _ _ (proj1 Lr) A1). pose proof (Rle_abs (r + 1 - f (fun _ => 0))) as AB. fold D in AB.
      pose proof (Rmult_le_compat_l l _ _ (proj1 Lr) AB). lra. }
    pose proof (convex tx (fun d => l * v d + (1 - l) * 0)) as C. cbv beta in C.
    assert (Nr : forall d, (d < n)%nat -> Rabs (l * v d + (1 - l) * 0 - tx d) <= t * e).
    { intros d Hd. replace (l * v d + (1 - l) * 0 - tx d) with (t * (u (s k) d - x d)) by (unfold u, tx, l; fold v z; field; lra).
      rewrite Rabs_mult, (Rabs_pos_eq t Ht). apply Rmult_le_compat_l; [exact Ht|apply H1, Hd]. }
    pose proof (small_sum n (F tx) _ (t * e) ltac:(apply Rmult_le_pos; lra) Nr) as Sm. fold P in Sm. apply abs_between in Sm.
    assert (PE : P * (t * e) <= g / 3).
    { apply Rle_trans with ((P + 1) * (t + 1) * e).
      - rewrite <- Rmult_assoc. apply Rmult_le_compat_r; [lra|]. nra.
      - unfold e. right. field. split; lra. }
    unfold g in *. lra.
Qed.
End Unbounded.
Lemma directions_bounded : (forall w, (exists d, (d < n)%nat /\ w d <> 0) -> exists t, 0 < t /\ f (fun _ => 0) < f (fun d => t * w d)) -> bounded_levels n f.
Proof.
  intros H r. apply NNPP. intros NB.
  assert (far : forall B, 0 < B -> exists y, f y <= r /\ exists d, (d < n)%nat /\ B < Rabs (y d)).
  { intros B B0. apply NNPP. intros NE. apply NB. exists B. split; [exact B0|]. intros y Y d Hd. apply Rnot_lt_le. intros L. apply NE. exists y. split; [exact Y|]. exists d. split; assumption. }
  destruct (flat_direction r far) as (x & SX & FX).
  assert (NZ : exists d, (d < n)%nat /\ x d <> 0).
  { apply NNPP. intros NE. assert (Z : size n x = 0); [|lra]. unfold size. apply sumn_zero. intros d Hd. destruct (Req_dec (x d) 0) as [->|N]; [apply Rabs_R0|]. elim NE. exists d. split; assumption. }
  destruct (H x NZ) as (t & Ht & L). specialize (FX t ltac:(lra)). lra.
Qed.
End Directions.
