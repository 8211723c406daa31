From Coq Require Import FunctionalExtensionality.
From Coquelicot Require Import Coquelicot.
From Verif Require Import Num SumLemmas Tensors TensorLemmas ModelUtilities ProofErf ProofUtilities
  ModelElastic SpecElastic ProofElastic ModelMicro SpecMicro ProofMicro PropMicro ModelCohesive SpecCohesive ProofCohesive
  SpecInterface ModelAssembly SpecAssembly ProofAssembly.
Open Scope R_scope.

(** ** Scalar microstress along a direction of all slips *)
Lemma along_0 U V j : along U V 0 j = U j. Proof. unfold along. ring. Qed.

Lemma derive_hardened_along n h g0 old gamma v a :
  (forall b, (b < n)%nat -> h a b = 0 \/ v b = 0 \/ gamma b <> old b) ->
  is_derive (fun t => hardened n h g0 old (along gamma v t) a) 0
    (sumn n (fun b => h a b * (v b * sl_sgn (gamma b - old b)))).
Proof.
  intros H. unfold hardened, along.
  assert (D : is_derive (fun t => sumn n (fun b => h a b * Rabs (gamma b + t * v b - old b))) 0
     (sumn n (fun b => h a b * (v b * sl_sgn (gamma b - old b))))).
  { apply (derive_sumn n (fun b t => h a b * Rabs (gamma b + t * v b - old b))). intros b Hb.
    destruct (H b Hb) as [Z|K].
    - rewrite Z. apply (is_derive_ext (fun _ => 0)); [intros; toR; ring|].
      replace (0 * _) with 0 by ring. apply @is_derive_const.
    - apply is_derive_scal. apply derive_const_abs. exact K. }
  assert (E := is_derive_plus _ _ _ _ _ (is_derive_const (V:=R_CompleteNormedModule) (g0 a) 0) D).
  match type of E with is_derive _ _ ?d => match goal with |- is_derive _ _ ?d' => replace d' with d end end; [exact E|].
  unfold plus, zero; simpl. ring.
Qed.

Lemma derive_reg_along l gamma v old dt a : 0 < dt -> 0 < sl_k l ->
  is_derive (fun t => reg_value l ((along gamma v t a - old a) / dt)) 0
    (v a / dt * reg_derivative l ((gamma a - old a) / dt)).
Proof.
  intros Hdt Hk.
  assert (D : is_derive (fun t => (along gamma v t a - old a) / dt) 0 (v a / dt)).
  { unfold along. auto_derive; auto. field. lra. }
  assert (A : is_derive (fun r => reg_value l r) ((along gamma v 0 a - old a) / dt)
     (reg_derivative l ((gamma a - old a) / dt))).
  { rewrite along_0, reg_derivative_sigmoid.
    apply (is_derive_ext (fun r => sigmoid_function r (sl_k l) (sl_reg l))).
    - intros; symmetry; apply reg_value_sigmoid.
    - apply sigmoid_derive; auto. }
  exact (is_derive_comp (fun r => reg_value l r) (fun t => (along gamma v t a - old a) / dt) 0 _ _ A D).
Qed.

Lemma hardened_along_0 n h g0 old gamma v a : hardened n h g0 old (along gamma v 0) a = hardened n h g0 old gamma a.
Proof. unfold hardened. f_equal. apply sumn_ext; intros. rewrite along_0. reflexivity. Qed.

(** What the coded Jacobian misses under rate-dependent hardening. *)
Definition jac_defect (l : scalar_law) (gamma old : nat -> R) (dt : R) (a b : nat) : R :=
  hmat l a b * reg_value l ((gamma a - old a) / dt) *
  (sl_sgn (gamma b - old b) - reg_value l ((gamma b - old b) / dt)).

Lemma jacobian_split l gamma old g dt a b : 0 < dt -> sl_rate_independent l = false ->
  scalar_jacobian l gamma old g dt a b =
  hmat l a b * (reg_value l ((gamma a - old a) / dt) * reg_value l ((gamma b - old b) / dt))
  + kron a b * (g a / dt * reg_derivative l ((gamma a - old a) / dt)).
Proof.
  intros Hdt Hr. unfold scalar_jacobian, hmat, kron. rewrite Hr. cbn [negb].
  destruct (Nat.eqb a b); cbn [andb]; destruct (sl_perfect l); ring.
Qed.

Lemma derive_microstress_along l n g0 old gamma v dt a : 0 < dt -> 0 < sl_k l -> sl_rate_independent l = false ->
  (a < n)%nat -> (forall b, (b < n)%nat -> hmat l a b = 0 \/ v b = 0 \/ gamma b <> old b) ->
  is_derive (fun t => scalar_microstress l (along gamma v t a) (old a)
                        (hardened n (hmat l) g0 old (along gamma v t) a) dt) 0
    (sumn n (fun b => (scalar_jacobian l gamma old (hardened n (hmat l) g0 old gamma) dt a b
                       + jac_defect l gamma old dt a b) * v b)).
Proof.
  intros Hdt Hk Hr Ha Hd. unfold scalar_microstress. rewrite Hr.
  assert (DG := derive_hardened_along n (hmat l) g0 old gamma v a Hd).
  assert (DR := derive_reg_along l gamma v old dt a Hdt Hk).
  assert (D := is_derive_mult _ _ 0 _ _ DG DR Rmult_comm).
  cbv beta in D. rewrite along_0, hardened_along_0 in D.
  match type of D with is_derive _ _ ?d => match goal with |- is_derive _ _ ?d' => replace d' with d end end; [exact D|].
  unfold plus, mult; simpl.
  rewrite (sumn_ext n (fun b => (scalar_jacobian _ _ _ _ _ _ _ + _) * v b)
    (fun b => hmat l a b * (v b * sl_sgn (gamma b - old b)) * reg_value l ((gamma a - old a) / dt)
       + kron a b * (hardened n (hmat l) g0 old gamma a / dt * reg_derivative l ((gamma a - old a) / dt) * v b))).
  - rewrite sumn_plus, sumn_scal_r, (sumn_kron' n a) by auto. field. lra.
  - intros b Hb. rewrite jacobian_split by auto. unfold jac_defect. ring.
Qed.

Lemma derive_microstress_ri_along l n g0 old gamma v dt a : 0 < dt -> sl_rate_independent l = true ->
  (a < n)%nat -> (forall b, (b < n)%nat -> gamma b <> old b) ->
  is_derive (fun t => scalar_microstress l (along gamma v t a) (old a)
                        (hardened n (hmat l) g0 old (along gamma v t) a) dt) 0
    (sumn n (fun b => scalar_jacobian l gamma old (hardened n (hmat l) g0 old gamma) dt a b * v b)).
Proof.
  intros Hdt Hr Ha Hf. unfold scalar_microstress. rewrite Hr.
  assert (DG := derive_hardened_along n (hmat l) g0 old gamma v a ltac:(intros; right; right; auto)).
  assert (L : locally 0 (fun t => Rltb 0 (gamma a - old a + t * v a) = Rltb 0 (gamma a - old a) /\
                                  gamma a - old a + t * v a <> 0)).
  { assert (Hx : gamma a - old a <> 0) by (pose proof (Hf a Ha); lra). set (x := gamma a - old a) in *.
    assert (C : continuous (fun t => x + t * v a) 0).
    { apply (ex_derive_continuous (fun t => x + t * v a)). auto_derive; auto. }
    destruct (Rtotal_order x 0) as [K|[K|K]]; [|contradiction|].
    - assert (O : locally (x + 0 * v a) (fun y => y < 0)).
      { apply open_lt. lra. }
      destruct (C _ O) as [e He]. exists e. intros t Ht. specialize (He t Ht). cbv beta in He. split; [|lra].
      rewrite !(proj2 (Rltb_false _ _)); auto; lra.
    - assert (O : locally (x + 0 * v a) (fun y => 0 < y)).
      { apply open_gt. lra. }
      destruct (C _ O) as [e He]. exists e. intros t Ht. specialize (He t Ht). cbv beta in He. split; [|lra].
      rewrite !(proj2 (Rltb_true _ _)); auto; lra. }
  apply (is_derive_ext_loc (fun t => hardened n (hmat l) g0 old (along gamma v t) a * sl_sgn (gamma a - old a))).
  { destruct L as [e L]. exists e. intros t Ht. destruct (L t Ht) as [S Z]. rewrite sgn_div by auto. f_equal.
    unfold along. replace (gamma a + t * v a - old a) with (gamma a - old a + t * v a) by ring.
    pose proof (Hf a Ha). unfold sl_sgn. rewrite S.
    assert (Q : forall x, x <> 0 -> Rltb x 0 = negb (Rltb 0 x)).
    { intros x Hx. destruct (Rltb 0 x) eqn:E; cbn.
      - apply Rltb_true in E. apply Rltb_false. lra.
      - apply Rltb_false in E. apply Rltb_true. lra. }
    rewrite !Q, S by (auto; lra). reflexivity. }
  assert (D := is_derive_mult _ _ 0 _ _ DG (is_derive_const (sl_sgn (gamma a - old a)) 0) Rmult_comm).
  match type of D with is_derive _ _ ?d => match goal with |- is_derive _ _ ?d' => replace d' with d end end; [exact D|].
  unfold plus, mult, zero; simpl. rewrite Rmult_0_r, Rplus_0_r, <- sumn_scal_r. apply sumn_ext; intros b Hb.
  unfold scalar_jacobian, hmat. rewrite Hr. cbn [negb]. rewrite andb_false_r. rewrite !sgn_div by auto.
  destruct (sl_perfect l); ring.
Qed.

(** ** Fields along a direction *)
Lemma slip_at_along e U V t q : slip_at e (along U V t) q = along (slip_at e U q) (slip_at e V q) t.
Proof.
  apply functional_extensionality. intros a. unfold slip_at, along. rewrite <- sumn_scal, <- sumn_plus.
  apply sumn_ext; intros; ring.
Qed.
Lemma slip_gradient_at_along e U V t q a :
  slip_gradient_at e (along U V t) q a = vadd (slip_gradient_at e U q a) (vscal t (slip_gradient_at e V q a)).
Proof.
  apply functional_extensionality. intros r. unfold slip_gradient_at, along, vadd, vscal.
  rewrite <- sumn_scal, <- sumn_plus. apply sumn_ext; intros; ring.
Qed.
Lemma stress_at_along c e U V t q r s :
  stress_at c e (along U V t) q r s
  = stress_at c e U q r s + t * c4 (cr_dim c) (cr_C c) (field_strain c e V q) r s.
Proof.
  unfold stress_at. rewrite <- stress_linear. apply c4_ext; auto. intros k l _ _.
  unfold madd, mscal, field_strain. rewrite slip_at_along.
  assert (E : strain_at e (along U V t) q = madd (strain_at e U q) (mscal t (strain_at e V q))).
  { apply functional_extensionality; intros i. apply functional_extensionality; intros j.
    unfold strain_at, along, madd, mscal. rewrite <- sumn_scal, <- sumn_plus. apply sumn_ext; intros; ring. }
  rewrite E. unfold along. rewrite elastic_linear. ring.
Qed.

Definition jac_form_with (D : nat -> nat -> nat -> R) (c : crystal) (e : element) (U : nat -> R) (i j q : nat) : R :=
  balance_factor c * ddot (cr_dim c) (dof_strain c e i q) (c4 (cr_dim c) (cr_C c) (dof_strain c e j q))
  + cr_N c 2 * sumn (cr_ns c) (fun a => dot (cr_dim c) (el_dpsi e a i q) (mv (cr_dim c) (point_jac c e U q a) (el_dpsi e a j q)))
  + sumn (cr_ns c) (fun a => el_psi e a i q * sumn (cr_ns c) (fun b => D q a b * el_psi e b j q)).

Lemma jac_form_field D c e U V i q :
  sumn (el_nd e) (fun j => V j * jac_form_with D c e U i j q) =
  balance_factor c * ddot (cr_dim c) (dof_strain c e i q) (c4 (cr_dim c) (cr_C c) (field_strain c e V q))
  + cr_N c 2 * sumn (cr_ns c) (fun a => dot (cr_dim c) (el_dpsi e a i q) (mv (cr_dim c) (point_jac c e U q a) (slip_gradient_at e V q a)))
  + sumn (cr_ns c) (fun a => el_psi e a i q * sumn (cr_ns c) (fun b => D q a b * slip_at e V q b)).
Proof.
  unfold jac_form_with.
  rewrite (sumn_ext (el_nd e) _ (fun j =>
    balance_factor c * (V j * ddot (cr_dim c) (dof_strain c e i q) (c4 (cr_dim c) (cr_C c) (dof_strain c e j q)))
    + cr_N c 2 * (V j * sumn (cr_ns c) (fun a => dot (cr_dim c) (el_dpsi e a i q) (mv (cr_dim c) (point_jac c e U q a) (el_dpsi e a j q))))
    + V j * sumn (cr_ns c) (fun a => el_psi e a i q * sumn (cr_ns c) (fun b => D q a b * el_psi e b j q)))) by (intros; ring).
  rewrite !sumn_plus, !sumn_scal. f_equal; [f_equal|].
  - f_equal. symmetry. apply ddot_sum_r. intros r s Hr Hs. apply c4_sum. intros k l _ _. apply field_strain_sum.
  - f_equal. rewrite (sumn_ext (el_nd e) _ (fun j => sumn (cr_ns c) (fun a => V j * dot (cr_dim c) (el_dpsi e a i q) (mv (cr_dim c) (point_jac c e U q a) (el_dpsi e a j q)))))
      by (intros; rewrite sumn_scal; reflexivity).
    rewrite sumn_swap. apply sumn_ext; intros a Ha. symmetry. apply dot_sum_r. intros r Hr.
    apply (dot_sum_r (cr_dim c) (el_nd e) (fun s => point_jac c e U q a r s) V (fun j => el_dpsi e a j q)). intros s Hs. reflexivity.
  - rewrite (sumn_ext (el_nd e) _ (fun j => sumn (cr_ns c) (fun a => el_psi e a i q * (V j * sumn (cr_ns c) (fun b => D q a b * el_psi e b j q)))))
      by (intros; rewrite <- sumn_scal; apply sumn_ext; intros; ring).
    rewrite sumn_swap. apply sumn_ext; intros a Ha. rewrite sumn_scal. f_equal. symmetry.
    apply (dot_sum_r (cr_ns c) (el_nd e) (fun b => D q a b) V (fun j b => el_psi e b j q)). intros b Hb. reflexivity.
Qed.

Lemma is_derive_val (f g : R -> R) x d : (forall t, f t = g t) -> is_derive f x d -> is_derive g x d.
Proof. intros. eapply is_derive_ext; eauto. Qed.

Lemma derive_ddot_line d A (M : R -> mat) (M0 M1 : mat) :
  (forall t r s, M t r s = M0 r s + t * M1 r s) -> is_derive (fun t => ddot d A (M t)) 0 (ddot d A M1).
Proof.
  intros H. apply (is_derive_ext (fun t => ddot d A M0 + t * ddot d A M1)).
  - intros t. rewrite (ddot_ext d A (M t) A (madd M0 (mscal t M1))); auto.
    + rewrite ddot_add_r, ddot_scal_r. reflexivity.
    + intros. rewrite H. reflexivity.
  - auto_derive; auto. ring.
Qed.
Lemma derive_dot d a (M : R -> vec) (M1 : vec) x :
  (forall r, (r < d)%nat -> is_derive (fun t => M t r) x (M1 r)) -> is_derive (fun t => dot d a (M t)) x (dot d a M1).
Proof.
  intros H. apply (derive_sumn d (fun r t => a r * M t r) (fun r => a r * M1 r)).
  intros r Hr. apply is_derive_scal. auto.
Qed.

Lemma derive_residual c e U Uold V (G : R -> nat -> nat -> R) (D : nat -> nat -> nat -> R) i :
  primitive (cr_dim c) (cr_ns c) e -> 2 <= cr_p c -> cr_N c 0 <> 0 -> (i < el_nd e)%nat ->
  (forall q a, (q < el_nq e)%nat -> (a < cr_ns c)%nat ->
     is_derive (fun t => scalar_microstress (cr_law c) (slip_at e (along U V t) q a) (slip_at e Uold q a) (G t q a) (cr_dt c)) 0
       (sumn (cr_ns c) (fun b => D q a b * slip_at e V q b))) ->
  is_derive (fun t => val (residual_bulk c e (along U V t) Uold (G t) i)) 0
    (- sumn (el_nd e) (fun j => V j * sumn (el_nq e) (fun q => jac_form_with D c e U i j q * el_w e q))).
Proof.
  intros H Hp HN Hi HD.
  apply (is_derive_val (fun t => - sumn (el_nq e) (fun q => res_form c e (along U V t) Uold (G t) i q * el_w e q))).
  { intros t. rewrite residual_form by auto. reflexivity. }
  assert (E : sumn (el_nd e) (fun j => V j * sumn (el_nq e) (fun q => jac_form_with D c e U i j q * el_w e q))
     = sumn (el_nq e) (fun q => sumn (el_nd e) (fun j => V j * jac_form_with D c e U i j q) * el_w e q)).
  { rewrite (sumn_ext (el_nd e) _ (fun j => sumn (el_nq e) (fun q => V j * jac_form_with D c e U i j q * el_w e q))).
    - rewrite sumn_swap. apply sumn_ext; intros q _. rewrite <- sumn_scal_r. reflexivity.
    - intros j _. rewrite <- sumn_scal. apply sumn_ext; intros; ring. }
  rewrite E. apply (is_derive_opp (fun t => sumn (el_nq e) (fun q => res_form c e (along U V t) Uold (G t) i q * el_w e q))).
  apply (derive_sumn (el_nq e) (fun q t => res_form c e (along U V t) Uold (G t) i q * el_w e q)). intros q Hq.
  rewrite jac_form_field.
  assert (D1 : is_derive (fun t => ddot (cr_dim c) (dof_strain c e i q) (stress_at c e (along U V t) q)) 0
     (ddot (cr_dim c) (dof_strain c e i q) (c4 (cr_dim c) (cr_C c) (field_strain c e V q)))).
  { apply (derive_ddot_line _ _ _ (stress_at c e U q)). intros; apply stress_at_along. }
  assert (D2 : is_derive (fun t => sumn (cr_ns c) (fun a => dot (cr_dim c) (el_dpsi e a i q) (point_xi c e (along U V t) q a))) 0
     (sumn (cr_ns c) (fun a => dot (cr_dim c) (el_dpsi e a i q) (mv (cr_dim c) (point_jac c e U q a) (slip_gradient_at e V q a))))).
  { apply (derive_sumn (cr_ns c) (fun a t => dot (cr_dim c) (el_dpsi e a i q) (point_xi c e (along U V t) q a))). intros a Ha.
    apply derive_dot. intros r Hr. unfold point_xi, point_jac, mv.
    apply (is_derive_ext (fun t => vm (cr_factor c) (cr_p c) (cr_dim c) (cr_dir c a) (cr_ort c a)
       (vadd (slip_gradient_at e U q a) (vscal t (slip_gradient_at e V q a))) r)).
    - intros t. rewrite slip_gradient_at_along. reflexivity.
    - apply vm_derivative; auto. }
  assert (D3 : is_derive (fun t => sumn (cr_ns c) (fun a => el_psi e a i q *
        scalar_microstress (cr_law c) (slip_at e (along U V t) q a) (slip_at e Uold q a) (G t q a) (cr_dt c))) 0
      (sumn (cr_ns c) (fun a => el_psi e a i q * sumn (cr_ns c) (fun b => D q a b * slip_at e V q b)))).
  { apply (derive_sumn (cr_ns c) (fun a t => el_psi e a i q *
        scalar_microstress (cr_law c) (slip_at e (along U V t) q a) (slip_at e Uold q a) (G t q a) (cr_dt c))).
    intros a Ha. apply is_derive_scal. apply HD; auto. }
  assert (A1 := is_derive_scal _ 0 (balance_factor c) _ (is_derive_minus _ _ 0 _ _ D1 (is_derive_const (V:=R_CompleteNormedModule) (dot (cr_dim c) (el_phi e i q) (cr_supply c q)) 0))).
  assert (A2 := is_derive_scal _ 0 (cr_N c 2) _ D2).
  assert (A := is_derive_plus _ _ 0 _ _ (is_derive_plus _ _ 0 _ _ A1 A2) D3).
  assert (B := is_derive_scal_l _ 0 _ (el_w e q) A).
  match type of B with is_derive _ _ ?d => match goal with |- is_derive _ _ ?d' => replace d' with d end end.
  - eapply is_derive_ext; [|exact B]. intros t. unfold res_form. unfold plus, minus, opp, plus, scal; simpl. unfold mult; simpl. ring.
  - unfold minus, plus, opp, scal, zero; simpl. unfold mult; simpl. rewrite Ropp_0, Rplus_0_r. reflexivity.
Qed.
