From Verif Require Import Num SumLemmas Tensors.
Open Scope R_scope.

Lemma dot_comm d a b : dot d a b = dot d b a.
Proof. apply sumn_ext; intros; ring. Qed.
Lemma dot_add_r d a b c : dot d a (vadd b c) = dot d a b + dot d a c.
Proof. unfold dot, vadd. rewrite <- sumn_plus. apply sumn_ext; intros; ring. Qed.
Lemma dot_sub_r d a b c : dot d a (vsub b c) = dot d a b - dot d a c.
Proof. unfold dot, vsub. rewrite <- sumn_minus. apply sumn_ext; intros; ring. Qed.
Lemma dot_scal_r d a k b : dot d a (vscal k b) = k * dot d a b.
Proof. unfold dot, vscal. rewrite <- sumn_scal. apply sumn_ext; intros; ring. Qed.
Lemma dot_neg_r d a b : dot d a (vneg b) = - dot d a b.
Proof. unfold dot, vneg. rewrite <- sumn_opp. apply sumn_ext; intros; ring. Qed.
Lemma dot_neg_l d a b : dot d (vneg a) b = - dot d a b.
Proof. rewrite dot_comm, dot_neg_r, dot_comm. reflexivity. Qed.
Lemma dot_scal_l d a k b : dot d (vscal k a) b = k * dot d a b.
Proof. rewrite dot_comm, dot_scal_r, dot_comm. reflexivity. Qed.
Lemma dot_add_l d a b c : dot d (vadd a b) c = dot d a c + dot d b c.
Proof. rewrite dot_comm, dot_add_r, (dot_comm d c a), (dot_comm d c b). reflexivity. Qed.
Lemma dot_sub_l d a b c : dot d (vsub a b) c = dot d a c - dot d b c.
Proof. rewrite dot_comm, dot_sub_r, (dot_comm d c a), (dot_comm d c b). reflexivity. Qed.
Lemma dot_ext d a b a' b' : (forall i, (i < d)%nat -> a i = a' i) ->
  (forall i, (i < d)%nat -> b i = b' i) -> dot d a b = dot d a' b'.
Proof. intros A B. apply sumn_ext; intros; rewrite A, B; auto. Qed.
Lemma dot_nonneg d a : 0 <= dot d a a.
Proof. apply sumn_nonneg; intros; apply Rle_0_sqr. Qed.
Lemma dot_zero d a : dot d a a = 0 -> forall i, (i < d)%nat -> a i = 0.
Proof.
  intros H i Hi. assert (E : a i * a i = 0).
  { apply (sumn_zero_inv d (fun i => a i * a i)); auto. intros; apply Rle_0_sqr. }
  apply Rsqr_0_uniq. exact E.
Qed.
Lemma dot_cauchy d a b : dot d a b * dot d a b <= dot d a a * dot d b b.
Proof. apply cauchy_schwarz. Qed.

Lemma norm_nonneg d a : 0 <= norm d a.
Proof. apply sqrt_pos. Qed.
Lemma norm_sq d a : norm d a * norm d a = dot d a a.
Proof. apply sqrt_sqrt, dot_nonneg. Qed.
Lemma norm_ext d a b : (forall i, (i < d)%nat -> a i = b i) -> norm d a = norm d b.
Proof. intros H. unfold norm. f_equal. apply dot_ext; auto. Qed.
Lemma norm_neg d a : norm d (vneg a) = norm d a.
Proof. unfold norm. f_equal. rewrite dot_neg_l, dot_neg_r. ring. Qed.
Lemma norm_zero d a : norm d a = 0 -> forall i, (i < d)%nat -> a i = 0.
Proof. intros H. apply dot_zero. rewrite <- norm_sq, H. ring. Qed.
Lemma norm_scal d k a : norm d (vscal k a) = Rabs k * norm d a.
Proof.
  unfold norm. rewrite dot_scal_l, dot_scal_r.
  replace (k * (k * dot d a a)) with ((k * k) * dot d a a) by ring.
  rewrite sqrt_mult_alt by apply Rle_0_sqr. f_equal. apply sqrt_Rsqr_abs.
Qed.

Lemma mv_ext d A v w : (forall i, (i < d)%nat -> v i = w i) -> forall i, mv d A v i = mv d A w i.
Proof. intros H i. apply sumn_ext; intros; rewrite H; auto. Qed.
Lemma mv_add d A v w i : mv d A (vadd v w) i = mv d A v i + mv d A w i.
Proof. unfold mv, vadd. rewrite <- sumn_plus. apply sumn_ext; intros; ring. Qed.
Lemma mv_scal d A k v i : mv d A (vscal k v) i = k * mv d A v i.
Proof. unfold mv, vscal. rewrite <- sumn_scal. apply sumn_ext; intros; ring. Qed.
Lemma mv_neg d A v i : mv d A (vneg v) i = - mv d A v i.
Proof. unfold mv, vneg. rewrite <- sumn_opp. apply sumn_ext; intros; ring. Qed.

Lemma ddot_comm d A B : ddot d A B = ddot d B A.
Proof. apply sumn_ext; intros; apply sumn_ext; intros; ring. Qed.
Lemma ddot_ext d A B A' B' : (forall i j, (i < d)%nat -> (j < d)%nat -> A i j = A' i j) ->
  (forall i j, (i < d)%nat -> (j < d)%nat -> B i j = B' i j) -> ddot d A B = ddot d A' B'.
Proof. intros H K. apply sumn_ext; intros; apply sumn_ext; intros. rewrite H, K; auto. Qed.
Lemma ddot_add_r d A B C : ddot d A (madd B C) = ddot d A B + ddot d A C.
Proof.
  unfold ddot, madd. rewrite <- sumn_plus. apply sumn_ext; intros.
  rewrite <- sumn_plus. apply sumn_ext; intros; ring.
Qed.
Lemma ddot_scal_r d A k B : ddot d A (mscal k B) = k * ddot d A B.
Proof.
  unfold ddot, mscal. rewrite <- sumn_scal. apply sumn_ext; intros.
  rewrite <- sumn_scal. apply sumn_ext; intros; ring.
Qed.
Lemma ddot_nonneg d A : 0 <= ddot d A A.
Proof. apply sumn_nonneg; intros; apply sumn_nonneg; intros; apply Rle_0_sqr. Qed.
Lemma ddot_zero d A : ddot d A A = 0 -> forall i j, (i < d)%nat -> (j < d)%nat -> A i j = 0.
Proof.
  intros H i j Hi Hj.
  assert (E : sumn d (fun j => A i j * A i j) = 0).
  { apply (sumn_zero_inv d (fun i => sumn d (fun j => A i j * A i j))); auto.
    intros; apply sumn_nonneg; intros; apply Rle_0_sqr. }
  apply (dot_zero d (A i) E j Hj).
Qed.
