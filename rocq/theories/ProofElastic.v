From Verif Require Import Num SumLemmas Tensors TensorLemmas ModelCrystal SpecCrystal ProofCrystal
  ModelElastic SpecElastic.
Open Scope R_scope.

(** ** Double sums *)
Definition sum2 (d : nat) (f : nat -> nat -> R) : R := sumn d (fun i => sumn d (fun j => f i j)).
Lemma sum2_ext d f g : (forall i j, (i < d)%nat -> (j < d)%nat -> f i j = g i j) -> sum2 d f = sum2 d g.
Proof. intros H. apply sumn_ext; intros; apply sumn_ext; intros; auto. Qed.
Lemma sum2_scal d c f : sum2 d (fun i j => c * f i j) = c * sum2 d f.
Proof. unfold sum2. rewrite <- sumn_scal. apply sumn_ext; intros. apply sumn_scal. Qed.
Lemma sum2_scal_r d c f : sum2 d (fun i j => f i j * c) = sum2 d f * c.
Proof. unfold sum2. rewrite <- sumn_scal_r. apply sumn_ext; intros. apply sumn_scal_r. Qed.
Lemma sum2_plus d f g : sum2 d (fun i j => f i j + g i j) = sum2 d f + sum2 d g.
Proof. unfold sum2. rewrite <- sumn_plus. apply sumn_ext; intros. apply sumn_plus. Qed.
Lemma sum2_transp d f : sum2 d f = sum2 d (fun i j => f j i).
Proof. unfold sum2. apply sumn_swap. Qed.
Lemma sum2_swap d f :
  sum2 d (fun i j => sum2 d (fun k l => f i j k l)) = sum2 d (fun k l => sum2 d (fun i j => f i j k l)).
Proof.
  unfold sum2.
  transitivity (sumn d (fun i => sumn d (fun k => sumn d (fun j => sumn d (fun l => f i j k l))))).
  { apply sumn_ext; intros. apply sumn_swap. }
  rewrite sumn_swap. apply sumn_ext; intros k Hk.
  transitivity (sumn d (fun i => sumn d (fun l => sumn d (fun j => f i j k l)))).
  { apply sumn_ext; intros. apply sumn_swap. }
  apply sumn_swap.
Qed.
Lemma sum2_kron d f : forall i j, (i < d)%nat -> (j < d)%nat ->
  sum2 d (fun k l => f k l * (kron i k * kron j l)) = f i j.
Proof.
  intros i j Hi Hj. unfold sum2.
  rewrite (sumn_ext d _ (fun k => f k j * kron i k)).
  - apply (sumn_kron_r' d i (fun k => f k j)); auto.
  - intros k Hk. rewrite (sumn_ext d _ (fun l => (f k l * kron i k) * kron j l)) by (intros; ring).
    rewrite (sumn_kron_r' d j (fun l => f k l * kron i k)); auto.
Qed.
Lemma sum2_mult d a b : sum2 d (fun i j => a i * b j) = sumn d a * sumn d b.
Proof. unfold sum2. rewrite sumn_mult. reflexivity. Qed.

(** ** C21 *)
Lemma elastic_sum N P eps gamma n i j :
  elastic_strain N P eps gamma n i j = eps i j - N * sumn n (fun a => gamma a * P a i j).
Proof. induction n; simpl; [lra|]. unfold msub, mscal. rewrite IHn. ring. Qed.
Lemma plastic_sum P gamma n i j : plastic_strain P gamma n i j = sumn n (fun a => gamma a * P a i j).
Proof. induction n; simpl; auto. unfold madd, mscal. rewrite IHn. ring. Qed.

Lemma split N P eps gamma n i j :
  eps i j = elastic_strain N P eps gamma n i j + N * plastic_strain P gamma n i j.
Proof. rewrite elastic_sum, plastic_sum. ring. Qed.

Lemma elastic_linear N P eps1 eps2 g1 g2 c n i j :
  elastic_strain N P (madd eps1 (mscal c eps2)) (fun a => g1 a + c * g2 a) n i j
  = elastic_strain N P eps1 g1 n i j + c * elastic_strain N P eps2 g2 n i j.
Proof.
  rewrite !elastic_sum. unfold madd, mscal.
  rewrite (sumn_ext n _ (fun a => g1 a * P a i j + c * (g2 a * P a i j))) by (intros; ring).
  rewrite sumn_plus, sumn_scal. ring.
Qed.

Lemma plastic_trace d P gamma n : (forall a, (a < n)%nat -> trace d (P a) = 0) ->
  trace d (plastic_strain P gamma n) = 0.
Proof.
  intros H. unfold trace.
  rewrite (sumn_ext d _ (fun i => sumn n (fun a => gamma a * P a i i))) by (intros; apply plastic_sum).
  rewrite sumn_swap. apply sumn_zero. intros a Ha. rewrite sumn_scal. fold (trace d (P a)).
  rewrite H; auto. ring.
Qed.
Lemma elastic_trace d N P eps gamma n : (forall a, (a < n)%nat -> trace d (P a) = 0) ->
  trace d (elastic_strain N P eps gamma n) = trace d eps.
Proof.
  intros H. assert (K := plastic_trace d P gamma n H). unfold trace in *.
  rewrite (sumn_ext d _ (fun i => eps i i - N * plastic_strain P gamma n i i)).
  - rewrite sumn_minus, sumn_scal, K. ring.
  - intros i Hi. rewrite elastic_sum, plastic_sum. reflexivity.
Qed.
Lemma elastic_symmetric d N P eps gamma n : symmetric d eps ->
  (forall a, (a < n)%nat -> symmetric d (P a)) -> symmetric d (elastic_strain N P eps gamma n).
Proof.
  intros He HP i j Hi Hj. rewrite !elastic_sum, (He i j) by auto. f_equal. f_equal.
  apply sumn_ext; intros a Ha. rewrite (HP a Ha i j); auto.
Qed.

(** ** Reference stiffness *)
Ltac ix3 i H := destruct i as [|[|[|i]]]; [| | |exfalso; lia].
Ltac ix2 i H := destruct i as [|[|i]]; [| |exfalso; lia].

Lemma reference_entry_3 : forall i j k l, (i < 3)%nat -> (j < 3)%nat -> (k < 3)%nat -> (l < 3)%nat ->
  reference_entry 3 i j k l =
  if (Nat.eqb i j && Nat.eqb k l)%bool then Some (if Nat.eqb i k then E1111 else E1122)
  else if ((Nat.eqb i k && Nat.eqb j l) || (Nat.eqb i l && Nat.eqb j k))%bool then Some E1212 else None.
Proof.
  intros i j k l Hi Hj Hk Hl.
  ix3 i Hi; ix3 j Hj; ix3 k Hk; ix3 l Hl; vm_compute; reflexivity.
Qed.
Lemma reference_entry_2 : forall i j k l, (i < 2)%nat -> (j < 2)%nat -> (k < 2)%nat -> (l < 2)%nat ->
  reference_entry 2 i j k l =
  if (Nat.eqb i j && Nat.eqb k l)%bool then Some (if Nat.eqb i k then E1111 else E1122)
  else if ((Nat.eqb i k && Nat.eqb j l) || (Nat.eqb i l && Nat.eqb j k))%bool then Some E1212 else None.
Proof.
  intros i j k l Hi Hj Hk Hl.
  ix2 i Hi; ix2 j Hj; ix2 k Hk; ix2 l Hl; vm_compute; reflexivity.
Qed.

Lemma reference_is_cubic p d i j k l : (d = 2 \/ d = 3)%nat -> char_stiffness p <> 0 ->
  (i < d)%nat -> (j < d)%nat -> (k < d)%nat -> (l < d)%nat ->
  reference_stiffness p d i j k l =
  cubic d (C1111 p / char_stiffness p) (C1122 p / char_stiffness p) (C1212 p / char_stiffness p) i j k l.
Proof.
  intros [-> | ->] Hc Hi Hj Hk Hl; unfold reference_stiffness.
  - rewrite reference_entry_2 by auto.
    ix2 i Hi; ix2 j Hj; ix2 k Hk; ix2 l Hl; cbn; unfold cubic, kron; cbn; field; auto.
  - rewrite reference_entry_3 by auto.
    ix3 i Hi; ix3 j Hj; ix3 k Hk; ix3 l Hl; cbn; unfold cubic, kron; cbn; field; auto.
Qed.

Lemma reference_minor p d : (d = 2 \/ d = 3)%nat -> minor_symmetric d (reference_stiffness p d).
Proof.
  intros [-> | ->] i j k l Hi Hj Hk Hl; unfold reference_stiffness.
  - rewrite !reference_entry_2 by auto. ix2 i Hi; ix2 j Hj; ix2 k Hk; ix2 l Hl; cbn; auto.
  - rewrite !reference_entry_3 by auto. ix3 i Hi; ix3 j Hj; ix3 k Hk; ix3 l Hl; cbn; auto.
Qed.
Lemma reference_major p d : (d = 2 \/ d = 3)%nat -> major_symmetric d (reference_stiffness p d).
Proof.
  intros [-> | ->] i j k l Hi Hj Hk Hl; unfold reference_stiffness.
  - rewrite !reference_entry_2 by auto. ix2 i Hi; ix2 j Hj; ix2 k Hk; ix2 l Hl; cbn; auto.
  - rewrite !reference_entry_3 by auto. ix3 i Hi; ix3 j Hj; ix3 k Hk; ix3 l Hl; cbn; auto.
Qed.

(** ** Rotation of fourth-order tensors *)
Lemma rotate4_sum2 d Q C i j k l : rotate4 d Q C i j k l =
  sum2 d (fun o p => (Q i o * Q j p) * sum2 d (fun q r => (Q k q * Q l r) * C o p q r)).
Proof.
  unfold rotate4. apply sum2_ext. intros o p Ho Hp. rewrite <- sum2_scal.
  apply sum2_ext; intros; ring.
Qed.

Lemma rotate4_minor d Q C : minor_symmetric d C -> forall i j k l,
  rotate4 d Q C i j k l = rotate4 d Q C j i k l /\ rotate4 d Q C i j k l = rotate4 d Q C i j l k.
Proof.
  intros H i j k l. rewrite !rotate4_sum2. split.
  - rewrite sum2_transp. apply sum2_ext; intros o p Ho Hp.
    rewrite (Rmult_comm (Q i p)). f_equal. apply sum2_ext; intros q r Hq Hr.
    rewrite (proj1 (H p o q r Hp Ho Hq Hr)). reflexivity.
  - apply sum2_ext; intros o p Ho Hp. f_equal. rewrite sum2_transp.
    apply sum2_ext; intros q r Hq Hr. rewrite (proj2 (H o p q r Ho Hp Hq Hr)). ring.
Qed.
Lemma rotate4_major d Q C : major_symmetric d C -> forall i j k l,
  rotate4 d Q C i j k l = rotate4 d Q C k l i j.
Proof.
  intros H i j k l. rewrite !rotate4_sum2.
  rewrite (sum2_ext d _ (fun o p => sum2 d (fun q r => (Q i o * Q j p) * ((Q k q * Q l r) * C o p q r))))
    by (intros; rewrite sum2_scal; reflexivity).
  rewrite sum2_swap. apply sum2_ext; intros q r Hq Hr. rewrite <- sum2_scal.
  apply sum2_ext; intros o p Ho Hp. rewrite (H o p q r); auto. ring.
Qed.

Lemma rotated_is_rotate4 d Q C : minor_symmetric d C -> forall i j k l,
  rotated_stiffness d Q C i j k l = rotate4 d Q C i j k l.
Proof.
  intros H i j k l. change (rotated_stiffness d Q C i j k l)
    with (rotate4 d Q C (Nat.min i j) (Nat.max i j) (Nat.min k l) (Nat.max k l)).
  assert (A : forall k' l', rotate4 d Q C (Nat.min i j) (Nat.max i j) k' l' = rotate4 d Q C i j k' l').
  { intros. destruct (Nat.le_ge_cases i j).
    - rewrite Nat.min_l, Nat.max_r by auto. reflexivity.
    - rewrite Nat.min_r, Nat.max_l by auto. apply rotate4_minor; auto. }
  rewrite A. destruct (Nat.le_ge_cases k l).
  - rewrite Nat.min_l, Nat.max_r by auto. reflexivity.
  - rewrite Nat.min_r, Nat.max_l by auto. apply rotate4_minor; auto.
Qed.

(** Pull the rotation off the contraction. *)
Lemma c4_rotate4 d Q C A i j :
  c4 d (rotate4 d Q C) A i j = conjugate d Q (c4 d C (conjugate d (transpose Q) A)) i j.
Proof.
  unfold c4 at 1. change (sumn d (fun k => sumn d (fun l => rotate4 d Q C i j k l * A k l)))
    with (sum2 d (fun k l => rotate4 d Q C i j k l * A k l)).
  rewrite (sum2_ext d _ (fun k l => sum2 d (fun o p => sum2 d (fun q r =>
      (Q i o * Q j p * C o p q r) * (Q k q * A k l * Q l r))))).
  2:{ intros k l Hk Hl. rewrite rotate4_sum2, <- sum2_scal_r. apply sum2_ext; intros o p Ho Hp.
      rewrite <- sum2_scal, <- sum2_scal_r. apply sum2_ext; intros; ring. }
  rewrite sum2_swap. unfold conjugate at 1, c4.
  apply sum2_ext; intros o p Ho Hp. rewrite sum2_swap.
  change (sumn d (fun k => sumn d (fun l => C o p k l * conjugate d (transpose Q) A k l)))
    with (sum2 d (fun q r => C o p q r * conjugate d (transpose Q) A q r)).
  rewrite <- sum2_scal, <- sum2_scal_r. apply sum2_ext; intros q r Hq Hr.
  rewrite sum2_scal. unfold conjugate, transpose. fold (sum2 d (fun k l => Q k q * A k l * Q l r)). ring.
Qed.

Lemma c4_ext d C C' A A' i j : (forall k l, (k < d)%nat -> (l < d)%nat -> C i j k l = C' i j k l) ->
  meq d A A' -> c4 d C A i j = c4 d C' A' i j.
Proof. intros H K. apply sum2_ext; intros. rewrite H, K; auto. Qed.
Lemma conjugate_ext d Q A B i j : meq d A B -> conjugate d Q A i j = conjugate d Q B i j.
Proof. intros H. apply sum2_ext; intros. rewrite H; auto. Qed.

Lemma conjugate_inv d Q A : orthogonal_mat d Q -> meq d (conjugate d (transpose Q) (conjugate d Q A)) A.
Proof.
  intros H i j Hi Hj.
  change (sum2 d (fun k l => transpose Q i k * sum2 d (fun m n => Q k m * A m n * Q l n) * transpose Q j l) = A i j).
  rewrite (sum2_ext d _ (fun k l => sum2 d (fun m n => A m n * ((Q k i * Q k m) * (Q l j * Q l n))))).
  2:{ intros k l Hk Hl. rewrite <- sum2_scal, <- sum2_scal_r. apply sum2_ext; intros. unfold transpose. ring. }
  rewrite sum2_swap.
  rewrite (sum2_ext d _ (fun m n => A m n * (kron i m * kron j n))).
  - apply sum2_kron; auto.
  - intros m n Hm Hn. rewrite sum2_scal. f_equal.
    rewrite (sum2_mult d (fun k => Q k i * Q k m) (fun l => Q l j * Q l n)).
    rewrite (proj1 (H i m Hi Hm)), (proj1 (H j n Hj Hn)). reflexivity.
Qed.
Lemma orthogonal_transpose d Q : orthogonal_mat d Q -> orthogonal_mat d (transpose Q).
Proof. intros H i j Hi Hj. destruct (H i j Hi Hj). split; auto. Qed.
Lemma conjugate_inv' d Q A : orthogonal_mat d Q -> meq d (conjugate d Q (conjugate d (transpose Q) A)) A.
Proof. intros H. exact (conjugate_inv d (transpose Q) A (orthogonal_transpose d Q H)). Qed.

Lemma conjugate_symmetric d Q A : symmetric d A -> forall i j, conjugate d Q A i j = conjugate d Q A j i.
Proof.
  intros H i j. unfold conjugate.
  fold (sum2 d (fun k l => Q i k * A k l * Q j l)). rewrite sum2_transp.
  apply sum2_ext; intros k l Hk Hl. rewrite (H l k); auto. ring.
Qed.
Lemma ddot_conjugate d Q A B : ddot d A (conjugate d Q B) = ddot d (conjugate d (transpose Q) A) B.
Proof.
  unfold ddot, conjugate, transpose.
  change (sum2 d (fun i j => A i j * sum2 d (fun k l => Q i k * B k l * Q j l)) =
          sum2 d (fun k l => sum2 d (fun i j => Q i k * A i j * Q j l) * B k l)).
  rewrite (sum2_ext d _ (fun i j => sum2 d (fun k l => A i j * (Q i k * B k l * Q j l))))
    by (intros; rewrite sum2_scal; reflexivity).
  rewrite sum2_swap. apply sum2_ext; intros k l Hk Hl. rewrite <- sum2_scal_r.
  apply sum2_ext; intros; ring.
Qed.

(** ** C22 *)
Lemma stiffness_is_rotated_cubic p d Q i j k l : (d = 2 \/ d = 3)%nat -> char_stiffness p <> 0 ->
  (i < d)%nat -> (j < d)%nat -> (k < d)%nat -> (l < d)%nat ->
  stiffness p d Q i j k l =
  rotate4 d Q (cubic d (C1111 p / char_stiffness p) (C1122 p / char_stiffness p) (C1212 p / char_stiffness p)) i j k l.
Proof.
  intros Hd Hc Hi Hj Hk Hl. unfold stiffness. rewrite rotated_is_rotate4 by (apply reference_minor; auto).
  rewrite !rotate4_sum2. apply sum2_ext; intros; f_equal; apply sum2_ext; intros; f_equal.
  apply reference_is_cubic; auto.
Qed.

Lemma stiffness_symmetries p d Q : (d = 2 \/ d = 3)%nat ->
  minor_symmetric d (stiffness p d Q) /\ major_symmetric d (stiffness p d Q).
Proof.
  intros Hd. unfold stiffness. split.
  - intros i j k l _ _ _ _. rewrite !rotated_is_rotate4 by (apply reference_minor; auto).
    apply rotate4_minor, reference_minor; auto.
  - intros i j k l _ _ _ _. rewrite !rotated_is_rotate4 by (apply reference_minor; auto).
    apply rotate4_major, reference_major; auto.
Qed.

Lemma stress_symmetric p d Q eps : (d = 2 \/ d = 3)%nat -> symmetric d (c4 d (stiffness p d Q) eps).
Proof.
  intros Hd i j Hi Hj. apply sum2_ext; intros k l Hk Hl.
  rewrite (proj1 (proj1 (stiffness_symmetries p d Q Hd) i j k l Hi Hj Hk Hl)). reflexivity.
Qed.
Lemma stress_linear d C e1 e2 c i j : c4 d C (madd e1 (mscal c e2)) i j = c4 d C e1 i j + c * c4 d C e2 i j.
Proof.
  unfold c4, madd, mscal. rewrite <- sumn_scal, <- sumn_plus. apply sumn_ext; intros k _.
  rewrite <- sumn_scal, <- sumn_plus. apply sumn_ext; intros; ring.
Qed.

Lemma stress_pull p d Q eps i j : (d = 2 \/ d = 3)%nat ->
  c4 d (stiffness p d Q) eps i j =
  conjugate d Q (c4 d (reference_stiffness p d) (conjugate d (transpose Q) eps)) i j.
Proof.
  intros Hd. rewrite <- c4_rotate4. apply c4_ext; [|intros a b Ha Hb; reflexivity].
  intros. apply rotated_is_rotate4, reference_minor; auto.
Qed.

Lemma stress_covariant p d Q eps : (d = 2 \/ d = 3)%nat -> orthogonal_mat d Q ->
  meq d (c4 d (stiffness p d Q) (conjugate d Q eps)) (conjugate d Q (c4 d (reference_stiffness p d) eps)).
Proof.
  intros Hd HQ i j Hi Hj. rewrite stress_pull by auto. apply conjugate_ext. intros a b Ha Hb.
  apply c4_ext; auto. apply conjugate_inv; auto.
Qed.

(** The reference crystal is the crystal with rotation the identity. *)
Lemma rotate4_id d C i j k l : (i < d)%nat -> (j < d)%nat -> (k < d)%nat -> (l < d)%nat ->
  rotate4 d kron C i j k l = C i j k l.
Proof.
  intros Hi Hj Hk Hl. rewrite rotate4_sum2.
  rewrite (sum2_ext d _ (fun o p => C o p k l * (kron i o * kron j p))).
  - apply (sum2_kron d (fun o p => C o p k l)); auto.
  - intros o p Ho Hp. rewrite Rmult_comm. f_equal.
    rewrite (sum2_ext d _ (fun q r => C o p q r * (kron k q * kron l r))) by (intros; ring).
    apply (sum2_kron d (fun q r => C o p q r)); auto.
Qed.

(** 2D: the three-dimensional tetrad of an in-plane rotated crystal extends the 2D one. *)
Lemma stiffness_3d_extends p e Q2 Q3 i j k l :
  rotation 2 e = Ok Q2 -> rotation_for_stiffness 2 e = Ok Q3 ->
  (i < 2)%nat -> (j < 2)%nat -> (k < 2)%nat -> (l < 2)%nat ->
  stiffness_3d p 2 Q2 Q3 i j k l = stiffness p 2 Q2 i j k l.
Proof.
  intros H2 H3 Hi Hj Hk Hl. destruct (stiffness_rotation_2d e Q2 Q3 H2 H3) as (A & B & _).
  unfold stiffness_3d, stiffness.
  rewrite !rotated_is_rotate4 by (apply reference_minor; auto). unfold rotate4.
  assert (Z : forall m, (m < 2)%nat -> Q3 m 2%nat = 0) by (intros; apply B; auto).
  assert (S3 : forall f, f 2%nat = 0 -> sumn 3 f = sumn 2 f) by (intros f Hf; cbn [sumn]; rewrite Hf; ring).
  rewrite S3.
  2:{ apply sumn_zero; intros; apply sumn_zero; intros; apply sumn_zero; intros. rewrite (Z i Hi), ?Rmult_0_r, ?Rmult_0_l. reflexivity. }
  apply sumn_ext; intros o Ho. rewrite S3.
  2:{ apply sumn_zero; intros; apply sumn_zero; intros. rewrite (Z j Hj), ?Rmult_0_r, ?Rmult_0_l. reflexivity. }
  apply sumn_ext; intros q Hq. rewrite S3.
  2:{ apply sumn_zero; intros. rewrite (Z k Hk), ?Rmult_0_r, ?Rmult_0_l. reflexivity. }
  apply sumn_ext; intros r Hr. rewrite S3 by (rewrite (Z l Hl), ?Rmult_0_r, ?Rmult_0_l; reflexivity).
  apply sumn_ext; intros s Hs. rewrite !A by auto. f_equal.
  unfold reference_stiffness. rewrite reference_entry_2, reference_entry_3 by lia. reflexivity.
Qed.

(** ** C23 *)
Lemma energy_reference_3 p A : char_stiffness p <> 0 -> symmetric 3 A ->
  ddot 3 A (c4 3 (reference_stiffness p 3) A) =
  ((C1111 p - C1122 p) * (((A 0%nat 0%nat - A 1%nat 1%nat)^2 + (A 1%nat 1%nat - A 2%nat 2%nat)^2 + (A 0%nat 0%nat - A 2%nat 2%nat)^2) / 3)
   + (C1111 p + 2 * C1122 p) / 3 * (A 0%nat 0%nat + A 1%nat 1%nat + A 2%nat 2%nat)^2
   + 4 * C1212 p * ((A 0%nat 1%nat)^2 + (A 1%nat 2%nat)^2 + (A 0%nat 2%nat)^2)) / char_stiffness p.
Proof.
  intros Hc HA. assert (E1 : A 1%nat 0%nat = A 0%nat 1%nat) by (apply HA; lia).
  assert (E2 : A 2%nat 0%nat = A 0%nat 2%nat) by (apply HA; lia).
  assert (E3 : A 2%nat 1%nat = A 1%nat 2%nat) by (apply HA; lia).
  unfold ddot, c4, reference_stiffness.
  cbn -[Rplus Rmult reference_entry].
  repeat match goal with |- context [reference_entry 3 ?i ?j ?k ?l] =>
    let v := eval vm_compute in (reference_entry 3 i j k l) in change (reference_entry 3 i j k l) with v end.
  cbv iota. rewrite E1, E2, E3. field. auto.
Qed.
Lemma energy_reference_2 p A : char_stiffness p <> 0 -> symmetric 2 A ->
  ddot 2 A (c4 2 (reference_stiffness p 2) A) =
  ((C1111 p - C1122 p) / 2 * (A 0%nat 0%nat - A 1%nat 1%nat)^2
   + (C1111 p + C1122 p) / 2 * (A 0%nat 0%nat + A 1%nat 1%nat)^2
   + 4 * C1212 p * (A 0%nat 1%nat)^2) / char_stiffness p.
Proof.
  intros Hc HA. assert (E1 : A 1%nat 0%nat = A 0%nat 1%nat) by (apply HA; lia).
  unfold ddot, c4, reference_stiffness.
  cbn -[Rplus Rmult reference_entry].
  repeat match goal with |- context [reference_entry 2 ?i ?j ?k ?l] =>
    let v := eval vm_compute in (reference_entry 2 i j k l) in change (reference_entry 2 i j k l) with v end.
  cbv iota. rewrite E1. field. auto.
Qed.

Lemma energy_rotated p d Q eps : (d = 2 \/ d = 3)%nat ->
  ddot d eps (c4 d (stiffness p d Q) eps) =
  ddot d (conjugate d (transpose Q) eps) (c4 d (reference_stiffness p d) (conjugate d (transpose Q) eps)).
Proof.
  intros Hd. rewrite <- ddot_conjugate. apply ddot_ext; auto. intros. apply stress_pull; auto.
Qed.

Definition positive_definite (p : hooke) (d : nat) (Q : mat) : Prop :=
  forall eps, symmetric d eps -> (exists i j, (i < d)%nat /\ (j < d)%nat /\ eps i j <> 0) ->
  0 < ddot d eps (c4 d (stiffness p d Q) eps).

Lemma sq_pos_neq x : x <> 0 -> 0 < x ^ 2.
Proof. intros. nra. Qed.
Lemma pos_div a b : 0 < b -> 0 < a -> 0 < a / b.
Proof. intros. apply Rdiv_lt_0_compat; auto. Qed.

Lemma pd_reference_3 p A : 0 < char_stiffness p -> 0 < C1111 p - C1122 p -> 0 < C1111 p + 2 * C1122 p ->
  0 < C1212 p -> symmetric 3 A -> (exists i j, (i < 3)%nat /\ (j < 3)%nat /\ A i j <> 0) ->
  0 < ddot 3 A (c4 3 (reference_stiffness p 3) A).
Proof.
  intros Hc H1 H2 H3 HA NZ. rewrite energy_reference_3 by (auto; lra).
  apply pos_div; auto.
  assert (E1 : A 1%nat 0%nat = A 0%nat 1%nat) by (apply HA; lia).
  assert (E2 : A 2%nat 0%nat = A 0%nat 2%nat) by (apply HA; lia).
  assert (E3 : A 2%nat 1%nat = A 1%nat 2%nat) by (apply HA; lia).
  set (a := A 0%nat 0%nat) in *. set (b := A 1%nat 1%nat) in *. set (c := A 2%nat 2%nat) in *.
  set (x := A 0%nat 1%nat) in *. set (y := A 1%nat 2%nat) in *. set (z := A 0%nat 2%nat) in *.
  set (dev := ((a - b)^2 + (b - c)^2 + (a - c)^2) / 3). set (tr := (a + b + c)^2).
  set (sh := x^2 + y^2 + z^2).
  assert (SQ : forall t, 0 <= t ^ 2) by (intros; apply pow2_ge_0).
  assert (SZ : forall t, t ^ 2 = 0 -> t = 0) by (intros; nra).
  assert (D0 : 0 <= dev) by (pose proof (SQ (a - b)); pose proof (SQ (b - c)); pose proof (SQ (a - c)); unfold dev; lra).
  assert (T0 : 0 <= tr) by (apply SQ).
  assert (S0 : 0 <= sh) by (pose proof (SQ x); pose proof (SQ y); pose proof (SQ z); unfold sh; lra).
  assert (0 < dev + tr + sh).
  { destruct (Rle_lt_or_eq_dec 0 (dev + tr + sh)) as [|E]; [lra|auto|exfalso].
    assert (dev = 0) by lra. assert (tr = 0) by lra. assert (sh = 0) by lra.
    pose proof (SQ (a - b)); pose proof (SQ (b - c)); pose proof (SQ (a - c)).
    pose proof (SQ x); pose proof (SQ y); pose proof (SQ z).
    assert (a - b = 0) by (apply SZ; unfold dev in *; lra).
    assert (b - c = 0) by (apply SZ; unfold dev in *; lra).
    assert (a + b + c = 0) by (apply SZ; assumption).
    assert (x = 0) by (apply SZ; unfold sh in *; lra). assert (y = 0) by (apply SZ; unfold sh in *; lra).
    assert (z = 0) by (apply SZ; unfold sh in *; lra).
    destruct NZ as (i & j & Hi & Hj & Hn). apply Hn.
    ix3 i Hi; ix3 j Hj; rewrite ?E1, ?E2, ?E3; fold a b c x y z; lra. }
  clearbody dev tr sh.
  assert (0 <= (C1111 p - C1122 p) * dev) by nra. assert (0 <= (C1111 p + 2 * C1122 p) / 3 * tr) by nra.
  assert (0 <= 4 * C1212 p * sh) by nra.
  destruct (Rle_lt_or_eq_dec 0 dev D0) as [|D1]; [nra|].
  destruct (Rle_lt_or_eq_dec 0 tr T0) as [|T1]; [nra|].
  assert (0 < sh) by lra. nra.
Qed.
Lemma pd_reference_2 p A : 0 < char_stiffness p -> 0 < C1111 p - C1122 p -> 0 < C1111 p + C1122 p ->
  0 < C1212 p -> symmetric 2 A -> (exists i j, (i < 2)%nat /\ (j < 2)%nat /\ A i j <> 0) ->
  0 < ddot 2 A (c4 2 (reference_stiffness p 2) A).
Proof.
  intros Hc H1 H2 H3 HA NZ. rewrite energy_reference_2 by (auto; lra).
  apply pos_div; auto.
  assert (E1 : A 1%nat 0%nat = A 0%nat 1%nat) by (apply HA; lia).
  set (a := A 0%nat 0%nat) in *. set (b := A 1%nat 1%nat) in *. set (x := A 0%nat 1%nat) in *.
  assert (N : a <> 0 \/ b <> 0 \/ x <> 0).
  { destruct NZ as (i & j & Hi & Hj & Hn). ix2 i Hi; ix2 j Hj; auto. rewrite E1 in Hn; auto. }
  assert (0 <= (C1111 p - C1122 p) / 2 * (a - b)^2) by (apply Rmult_le_pos; [lra|apply pow2_ge_0]).
  assert (0 <= (C1111 p + C1122 p) / 2 * (a + b)^2) by (apply Rmult_le_pos; [lra|apply pow2_ge_0]).
  assert (0 <= 4 * C1212 p * x^2) by (apply Rmult_le_pos; [lra|apply pow2_ge_0]).
  destruct (Req_dec x 0) as [X|X].
  - destruct (Req_dec (a - b) 0) as [Y|Y].
    + assert (0 < (a + b)^2) by (apply sq_pos_neq; intros Z; destruct N as [N|[N|N]]; apply N; lra). nra.
    + apply sq_pos_neq in Y. nra.
  - apply sq_pos_neq in X. nra.
Qed.

Lemma rotated_nonzero d Q eps : orthogonal_mat d Q ->
  (exists i j, (i < d)%nat /\ (j < d)%nat /\ eps i j <> 0) ->
  exists i j, (i < d)%nat /\ (j < d)%nat /\ conjugate d (transpose Q) eps i j <> 0.
Proof.
  intros HQ (i & j & Hi & Hj & Hn).
  assert (D : ddot d (conjugate d (transpose Q) eps) (conjugate d (transpose Q) eps) <> 0).
  { intros E. apply Hn. rewrite <- (conjugate_inv' d Q eps HQ i j Hi Hj).
    unfold conjugate at 1. apply sumn_zero; intros k Hk; apply sumn_zero; intros l Hl.
    rewrite (ddot_zero d _ E k l Hk Hl). ring. }
  clear - D. set (B := conjugate d (transpose Q) eps) in *.
  (* finite search *)
  assert (K : forall n, (exists i, (i < n)%nat /\ sumn d (fun j => B i j * B i j) <> 0) \/
                        sumn n (fun i => sumn d (fun j => B i j * B i j)) = 0).
  { induction n as [|n [ (i & Hi & H) | IH]]; [right; reflexivity|left; exists i; split; [lia|auto]|].
    destruct (Req_dec (sumn d (fun j => B n j * B n j)) 0) as [E|E].
    - right. simpl. rewrite IH, E. ring.
    - left. exists n. split; auto. }
  destruct (K d) as [(i & Hi & H)|H]; [|contradiction].
  assert (K2 : forall n, (exists j, (j < n)%nat /\ B i j <> 0) \/ sumn n (fun j => B i j * B i j) = 0).
  { induction n as [|n [(j & Hj & G)|IH]]; [right; reflexivity|left; exists j; split; [lia|auto]|].
    destruct (Req_dec (B i n) 0) as [E|E].
    - right. simpl. rewrite IH, E. ring.
    - left. exists n. split; auto. }
  destruct (K2 d) as [(j & Hj & G)|G]; [|contradiction]. exists i, j. auto.
Qed.

Lemma stiffness_positive_3 p Q : 0 < char_stiffness p -> orthogonal_mat 3 Q ->
  0 < C1111 p - C1122 p -> 0 < C1111 p + 2 * C1122 p -> 0 < C1212 p -> positive_definite p 3 Q.
Proof.
  intros Hc HQ H1 H2 H3 eps He NZ. rewrite energy_rotated by auto.
  apply pd_reference_3; auto.
  - intros i j _ _. apply conjugate_symmetric; auto.
  - apply rotated_nonzero; auto.
Qed.
Lemma stiffness_positive_2 p Q : 0 < char_stiffness p -> orthogonal_mat 2 Q ->
  0 < C1111 p - C1122 p -> 0 < C1111 p + C1122 p -> 0 < C1212 p -> positive_definite p 2 Q.
Proof.
  intros Hc HQ H1 H2 H3 eps He NZ. rewrite energy_rotated by auto.
  apply pd_reference_2; auto.
  - intros i j _ _. apply conjugate_symmetric; auto.
  - apply rotated_nonzero; auto.
Qed.

(** Necessity: test strains in the crystal frame. *)
Lemma div_pos_inv a b : 0 < b -> 0 < a / b -> 0 < a.
Proof. intros Hb H. apply (Rmult_lt_compat_r b) in H; auto. unfold Rdiv in H.
  rewrite Rmult_assoc, Rinv_l in H by lra. lra. Qed.

Lemma energy_pushed p d Q A : (d = 2 \/ d = 3)%nat -> orthogonal_mat d Q ->
  ddot d (conjugate d Q A) (c4 d (stiffness p d Q) (conjugate d Q A)) = ddot d A (c4 d (reference_stiffness p d) A).
Proof.
  intros Hd HQ. rewrite energy_rotated by auto. apply ddot_ext.
  - apply conjugate_inv; auto.
  - intros i j Hi Hj. apply c4_ext; auto. apply conjugate_inv; auto.
Qed.
Lemma pushed_nonzero d Q A : orthogonal_mat d Q ->
  (exists i j, (i < d)%nat /\ (j < d)%nat /\ A i j <> 0) ->
  exists i j, (i < d)%nat /\ (j < d)%nat /\ conjugate d Q A i j <> 0.
Proof. intros HQ. apply (rotated_nonzero d (transpose Q) A). apply orthogonal_transpose; auto. Qed.

Lemma positive_necessary_3 p Q : 0 < char_stiffness p -> orthogonal_mat 3 Q -> positive_definite p 3 Q ->
  0 < C1111 p - C1122 p /\ 0 < C1111 p + 2 * C1122 p /\ 0 < C1212 p.
Proof.
  intros Hc HQ PD.
  assert (T : forall A, symmetric 3 A -> (exists i j, (i < 3)%nat /\ (j < 3)%nat /\ A i j <> 0) ->
     0 < ddot 3 A (c4 3 (reference_stiffness p 3) A)).
  { intros A HA NZ. rewrite <- (energy_pushed p 3 Q A) by auto. apply PD.
    - intros i j _ _. apply conjugate_symmetric; auto.
    - apply pushed_nonzero; auto. }
  assert (B : forall A, symmetric 3 A -> (exists i j, (i < 3)%nat /\ (j < 3)%nat /\ A i j <> 0) ->
    0 < ((C1111 p - C1122 p) * (((A 0%nat 0%nat - A 1%nat 1%nat)^2 + (A 1%nat 1%nat - A 2%nat 2%nat)^2 + (A 0%nat 0%nat - A 2%nat 2%nat)^2) / 3)
   + (C1111 p + 2 * C1122 p) / 3 * (A 0%nat 0%nat + A 1%nat 1%nat + A 2%nat 2%nat)^2
   + 4 * C1212 p * ((A 0%nat 1%nat)^2 + (A 1%nat 2%nat)^2 + (A 0%nat 2%nat)^2))).
  { intros A HA NZ. apply (div_pos_inv _ (char_stiffness p)); auto.
    rewrite <- energy_reference_3 by (auto; lra). auto. }
  split; [|split].
  - specialize (B (mat3 1 0 0 0 (-1) 0 0 0 0)). cbn in B.
    assert (S : symmetric 3 (mat3 1 0 0 0 (-1) 0 0 0 0)).
    { intros i j Hi Hj. ix3 i Hi; ix3 j Hj; reflexivity. }
    assert (N : exists i j, (i < 3)%nat /\ (j < 3)%nat /\ mat3 1 0 0 0 (-1) 0 0 0 0 i j <> 0).
    { exists 0%nat, 0%nat. cbn. repeat split; try lia; lra. }
    specialize (B S N). lra.
  - specialize (B (mat3 1 0 0 0 1 0 0 0 1)). cbn in B.
    assert (S : symmetric 3 (mat3 1 0 0 0 1 0 0 0 1)).
    { intros i j Hi Hj. ix3 i Hi; ix3 j Hj; reflexivity. }
    assert (N : exists i j, (i < 3)%nat /\ (j < 3)%nat /\ mat3 1 0 0 0 1 0 0 0 1 i j <> 0).
    { exists 0%nat, 0%nat. cbn. repeat split; try lia; lra. }
    specialize (B S N). lra.
  - specialize (B (mat3 0 1 0 1 0 0 0 0 0)). cbn in B.
    assert (S : symmetric 3 (mat3 0 1 0 1 0 0 0 0 0)).
    { intros i j Hi Hj. ix3 i Hi; ix3 j Hj; reflexivity. }
    assert (N : exists i j, (i < 3)%nat /\ (j < 3)%nat /\ mat3 0 1 0 1 0 0 0 0 0 i j <> 0).
    { exists 0%nat, 1%nat. cbn. repeat split; try lia; lra. }
    specialize (B S N). lra.
Qed.

(** ** C24 *)
Lemma resolved_is_d_sigma_n d s sigma : symmetric d sigma ->
  resolved_shear_stress d (sym_schmid s) sigma = dot d (s_dir s) (mv d sigma (s_nrm s)).
Proof.
  intros H. unfold resolved_shear_stress, sym_schmid, schmid, symmetrize, outer, dot, mv.
  set (a := s_dir s). set (b := s_nrm s).
  assert (E1 : sum2 d (fun i j => sigma i j * (a i * b j)) = sumn d (fun i => a i * sumn d (fun j => sigma i j * b j))).
  { apply sumn_ext; intros. rewrite <- sumn_scal. apply sumn_ext; intros; ring. }
  rewrite <- E1. change (sum2 d (fun i j => sigma i j * ((a i * b j + a j * b i) / 2)) =
    sum2 d (fun i j => sigma i j * (a i * b j))).
  rewrite (sum2_ext d _ (fun i j => / 2 * (sigma i j * (a i * b j)) + / 2 * (sigma i j * (a j * b i)))) by (intros; field).
  rewrite sum2_plus, !sum2_scal.
  rewrite (sum2_transp d (fun i j => sigma i j * (a j * b i))).
  rewrite (sum2_ext d (fun i j => sigma j i * (a i * b j)) (fun i j => sigma i j * (a i * b j))).
  - lra.
  - intros i j Hi Hj. rewrite (H j i); auto.
Qed.

Lemma power_identity d P sigma dgamma n :
  sumn n (fun a => resolved_shear_stress d (P a) sigma * dgamma a) = ddot d sigma (plastic_strain P dgamma n).
Proof.
  unfold resolved_shear_stress, ddot.
  change (sumn n (fun a => sum2 d (fun i j => sigma i j * P a i j) * dgamma a) =
          sum2 d (fun i j => sigma i j * plastic_strain P dgamma n i j)).
  induction n as [|n IH]; cbn [sumn plastic_strain].
  - symmetry. unfold sum2. apply sumn_zero; intros; apply sumn_zero; intros; ring.
  - rewrite IH. unfold madd, mscal.
    rewrite <- sum2_scal_r, <- sum2_plus. apply sum2_ext; intros; ring.
Qed.
