(** * Algebra of loop sums. *)
From Verif Require Import Num.
Open Scope R_scope.

Lemma sumn_ext n f g : (forall i, (i < n)%nat -> f i = g i) -> sumn n f = sumn n g.
Proof.
  induction n as [|n IH]; intros H; simpl; [reflexivity|].
  rewrite IH by (intros; apply H; lia). rewrite (H n) by lia. reflexivity.
Qed.

Lemma sumn_0 n : sumn n (fun _ => 0) = 0.
Proof. induction n as [|n IH]; simpl; [|rewrite IH]; lra. Qed.

Lemma sumn_zero n f : (forall i, (i < n)%nat -> f i = 0) -> sumn n f = 0.
Proof. intros H. rewrite (sumn_ext n f (fun _ => 0)) by exact H. apply sumn_0. Qed.

Lemma sumn_plus n f g : sumn n (fun i => f i + g i) = sumn n f + sumn n g.
Proof. induction n as [|n IH]; simpl; [|rewrite IH]; lra. Qed.

Lemma sumn_minus n f g : sumn n (fun i => f i - g i) = sumn n f - sumn n g.
Proof. induction n as [|n IH]; simpl; [|rewrite IH]; lra. Qed.

Lemma sumn_opp n f : sumn n (fun i => - f i) = - sumn n f.
Proof. induction n as [|n IH]; simpl; [|rewrite IH]; lra. Qed.

Lemma sumn_scal n c f : sumn n (fun i => c * f i) = c * sumn n f.
Proof. induction n as [|n IH]; simpl; [|rewrite IH]; lra. Qed.

Lemma sumn_scal_r n c f : sumn n (fun i => f i * c) = sumn n f * c.
Proof. induction n as [|n IH]; simpl; [|rewrite IH]; lra. Qed.

Lemma sumn_div_r n c f : sumn n (fun i => f i / c) = sumn n f / c.
Proof. unfold Rdiv. apply sumn_scal_r. Qed.

Lemma sumn_swap n m f :
  sumn n (fun i => sumn m (fun j => f i j)) = sumn m (fun j => sumn n (fun i => f i j)).
Proof.
  induction n as [|n IH]; simpl.
  - symmetry; apply sumn_0.
  - rewrite IH, <- sumn_plus. reflexivity.
Qed.

Lemma sumn_kron n k f : (k < n)%nat -> sumn n (fun i => kron i k * f i) = f k.
Proof.
  intros H. induction n as [|n IH]; [lia|]. simpl.
  destruct (Nat.eq_dec n k) as [->|Hne].
  - rewrite sumn_zero; [unfold kron; rewrite Nat.eqb_refl; lra|].
    intros i Hi. unfold kron. destruct (Nat.eqb_spec i k); [lia|lra].
  - rewrite IH by lia. unfold kron. destruct (Nat.eqb_spec n k); [lia|lra].
Qed.

Lemma sumn_kron_r n k f : (k < n)%nat -> sumn n (fun i => f i * kron i k) = f k.
Proof.
  intros H. rewrite <- (sumn_kron n k f H). apply sumn_ext; intros; ring.
Qed.

Lemma kron_sym i j : kron i j = kron j i.
Proof. unfold kron. rewrite Nat.eqb_sym. reflexivity. Qed.

Lemma sumn_kron' n k f : (k < n)%nat -> sumn n (fun i => kron k i * f i) = f k.
Proof.
  intros H. rewrite <- (sumn_kron n k f H). apply sumn_ext; intros; rewrite kron_sym; ring.
Qed.

Lemma sumn_kron_r' n k f : (k < n)%nat -> sumn n (fun i => f i * kron k i) = f k.
Proof.
  intros H. rewrite <- (sumn_kron n k f H). apply sumn_ext; intros; rewrite kron_sym; ring.
Qed.

Lemma sumn_nonneg n f : (forall i, (i < n)%nat -> 0 <= f i) -> 0 <= sumn n f.
Proof.
  induction n as [|n IH]; intros H; simpl; [lra|].
  assert (0 <= sumn n f) by (apply IH; intros; apply H; lia).
  assert (0 <= f n) by (apply H; lia). lra.
Qed.

Lemma sumn_le n f g : (forall i, (i < n)%nat -> f i <= g i) -> sumn n f <= sumn n g.
Proof.
  induction n as [|n IH]; intros H; simpl; [lra|].
  assert (sumn n f <= sumn n g) by (apply IH; intros; apply H; lia).
  assert (f n <= g n) by (apply H; lia). lra.
Qed.

Lemma sumn_term_le n f k :
  (forall i, (i < n)%nat -> 0 <= f i) -> (k < n)%nat -> f k <= sumn n f.
Proof.
  intros H Hk. induction n as [|n IH]; [lia|]. simpl.
  destruct (Nat.eq_dec k n) as [->|Hne].
  - assert (0 <= sumn n f) by (apply sumn_nonneg; intros; apply H; lia). lra.
  - assert (f k <= sumn n f) by (apply IH; [intros; apply H; lia|lia]).
    assert (0 <= f n) by (apply H; lia). lra.
Qed.

Lemma sumn_zero_inv n f :
  (forall i, (i < n)%nat -> 0 <= f i) -> sumn n f = 0 -> forall i, (i < n)%nat -> f i = 0.
Proof.
  intros H H0 i Hi.
  assert (f i <= sumn n f) by (apply sumn_term_le; auto).
  assert (0 <= f i) by auto. lra.
Qed.

Lemma sumn_const n c : sumn n (fun _ => c) = INR n * c.
Proof.
  induction n as [|n IH].
  - simpl; lra.
  - change (sumn (S n) (fun _ => c)) with (sumn n (fun _ => c) + c).
    rewrite IH, S_INR. ring.
Qed.

Lemma sumn_app n m f : sumn (n + m) f = sumn n f + sumn m (fun i => f (n + i)%nat).
Proof.
  induction m as [|m IH]; simpl.
  - rewrite Nat.add_0_r; lra.
  - rewrite Nat.add_succ_r; simpl. rewrite IH. lra.
Qed.

Lemma sumn_mult n m f g :
  sumn n f * sumn m g = sumn n (fun i => sumn m (fun j => f i * g j)).
Proof.
  rewrite <- sumn_scal_r. apply sumn_ext; intros.
  rewrite <- sumn_scal. reflexivity.
Qed.

Lemma sumn_abs_le n f : Rabs (sumn n f) <= sumn n (fun i => Rabs (f i)).
Proof.
  induction n as [|n IH]; simpl; [rewrite Rabs_R0; lra|].
  eapply Rle_trans; [apply Rabs_triang|]. lra.
Qed.

(** Cauchy-Schwarz for loop sums. *)
Lemma cauchy_schwarz n f g :
  Rsqr (sumn n (fun i => f i * g i)) <= sumn n (fun i => f i * f i) * sumn n (fun i => g i * g i).
Proof.
  set (A := sumn n (fun i => f i * f i)).
  set (B := sumn n (fun i => f i * g i)).
  set (C := sumn n (fun i => g i * g i)).
  assert (HA : 0 <= A) by (apply sumn_nonneg; intros; apply Rle_0_sqr).
  assert (HC : 0 <= C) by (apply sumn_nonneg; intros; apply Rle_0_sqr).
  assert (Q : forall t, 0 <= A * (t * t) - 2 * t * B + C).
  { intros t.
    assert (E : A * (t * t) - 2 * t * B + C = sumn n (fun i => (t * f i - g i) * (t * f i - g i))).
    { unfold A, B, C.
      rewrite <- sumn_scal_r.
      rewrite <- (sumn_scal n (2 * t)).
      rewrite <- sumn_minus, <- sumn_plus.
      apply sumn_ext; intros; ring. }
    rewrite E. apply sumn_nonneg; intros. apply Rle_0_sqr. }
  unfold Rsqr.
  destruct (Rle_lt_or_eq_dec 0 A HA) as [Hp|Hz].
  - specialize (Q (B / A)).
    assert (E : A * (B / A * (B / A)) - 2 * (B / A) * B + C = C - B * B / A) by (field; lra).
    rewrite E in Q.
    assert (B * B / A <= C) by lra.
    apply (Rmult_le_compat_r A) in H; [|lra].
    replace (B * B / A * A) with (B * B) in H by (field; lra). lra.
  - assert (HB : B = 0).
    { destruct (Req_dec B 0) as [|HB]; [assumption|exfalso].
      pose proof (Q ((C + 1) / B)) as Q3. rewrite <- Hz in Q3.
      replace (2 * ((C + 1) / B) * B) with (2 * (C + 1)) in Q3 by (field; assumption).
      lra. }
    rewrite HB. rewrite <- Hz. lra.
Qed.

Lemma sumn_1 f : sumn 1 f = f 0%nat. Proof. simpl; lra. Qed.
Lemma sumn_2 f : sumn 2 f = f 0%nat + f 1%nat. Proof. simpl; lra. Qed.
Lemma sumn_3 f : sumn 3 f = f 0%nat + f 1%nat + f 2%nat. Proof. simpl; lra. Qed.
