From Coquelicot Require Import Coquelicot.
From Verif Require Import Num SumLemmas Tensors TensorLemmas ModelUtilities ProofErf ProofUtilities
  SpecCrystal ProofCrystal ModelMicro SpecMicro.
Open Scope R_scope.

Lemma reg_value_sigmoid l r : reg_value l r = sigmoid_function r (sl_k l) (sl_reg l).
Proof. unfold reg_value, sigmoid_function. destruct (sl_reg l); reflexivity. Qed.
Lemma reg_derivative_sigmoid l r : reg_derivative l r = sigmoid_function_derivative r (sl_k l) (sl_reg l).
Proof. unfold reg_derivative, sigmoid_function_derivative. destruct (sl_reg l); reflexivity. Qed.

Lemma sgn_cases x : (0 < x /\ sl_sgn x = 1) \/ (x < 0 /\ sl_sgn x = -1) \/ (x = 0 /\ sl_sgn x = 0).
Proof.
  unfold sl_sgn. destruct (Rlt_dec 0 x) as [H|H]; [|destruct (Rlt_dec x 0) as [K|K]].
  - left. split; auto. rewrite (proj2 (Rltb_true 0 x) H), (proj2 (Rltb_false x 0)) by lra. unfold b2R; lra.
  - right; left. split; auto. rewrite (proj2 (Rltb_true x 0) K), (proj2 (Rltb_false 0 x)) by lra. unfold b2R; lra.
  - right; right. assert (x = 0) by lra. split; auto. subst.
    rewrite (proj2 (Rltb_false 0 0)) by lra. unfold b2R; lra.
Qed.
Lemma sgn_abs x : sl_sgn x * x = Rabs x.
Proof.
  destruct (sgn_cases x) as [[H E]|[[H E]|[H E]]]; rewrite E.
  - rewrite Rabs_right by lra. lra.
  - rewrite Rabs_left by lra. lra.
  - subst. rewrite Rabs_R0. lra.
Qed.

(** ** C25 *)
Lemma div_pos_sign x dt : 0 < dt -> (0 < x / dt <-> 0 < x) /\ (x / dt < 0 <-> x < 0) /\ (x / dt = 0 <-> x = 0).
Proof.
  intros H. assert (K : 0 < / dt) by (apply Rinv_0_lt_compat; auto). unfold Rdiv.
  repeat split; intros; nra.
Qed.

Lemma microstress_bounded l slip old g dt : 0 < dt -> 0 < sl_k l -> 0 < g -> sl_rate_independent l = false ->
  Rabs (scalar_microstress l slip old g dt) < g.
Proof.
  intros Hdt Hk Hg Hr. unfold scalar_microstress. rewrite Hr, reg_value_sigmoid.
  destruct (sigmoid_bound (sl_reg l) (sl_k l) ((slip - old) / dt) Hk).
  rewrite Rabs_mult, (Rabs_right g) by lra.
  assert (Rabs (sigmoid_function ((slip - old) / dt) (sl_k l) (sl_reg l)) < 1) by (apply Rabs_def1; lra). nra.
Qed.
Lemma microstress_dissipative l slip old g dt : 0 < dt -> 0 < sl_k l -> 0 < g ->
  0 <= scalar_microstress l slip old g dt * ((slip - old) / dt) /\
  (scalar_microstress l slip old g dt * ((slip - old) / dt) = 0 <-> slip = old).
Proof.
  intros Hdt Hk Hg. unfold scalar_microstress. set (r := (slip - old) / dt).
  assert (R0 : r = 0 <-> slip = old).
  { destruct (div_pos_sign (slip - old) dt Hdt) as (_ & _ & E). fold r in E. rewrite E. split; lra. }
  destruct (sl_rate_independent l).
  - rewrite Rmult_assoc, sgn_abs. pose proof (Rabs_pos r). split; [nra|]. split; intros.
    + apply R0. destruct (Req_dec r 0); auto. apply Rabs_pos_lt in H1. nra.
    + rewrite (proj2 R0 H0), Rabs_R0. ring.
  - rewrite reg_value_sigmoid. destruct (sigmoid_sign_iff (sl_reg l) (sl_k l) r Hk) as (A & B & C).
    set (s := sigmoid_function r (sl_k l) (sl_reg l)) in *.
    destruct (Rtotal_order r 0) as [H|[H|H]].
    + assert (s < 0) by (apply B; auto). assert (0 < s * r) by nra.
      split; [nra|]. split; intros; [nra|]. apply R0 in H2. lra.
    + assert (s = 0) by (apply C; auto). rewrite H. split; [nra|]. split; intros; [apply R0; auto|ring].
    + assert (0 < s) by (apply A; auto). assert (0 < s * r) by nra.
      split; [nra|]. split; intros; [nra|]. apply R0 in H2. lra.
Qed.
Lemma microstress_odd l slip old g dt : 
  scalar_microstress l (old - (slip - old)) old g dt = - scalar_microstress l slip old g dt.
Proof.
  unfold scalar_microstress. replace ((old - (slip - old) - old) / dt) with (- ((slip - old) / dt)) by (unfold Rdiv; ring).
  destruct (sl_rate_independent l).
  - set (r := (slip - old) / dt). assert (E : sl_sgn (- r) = - sl_sgn r).
    { destruct (sgn_cases r) as [[H E]|[[H E]|[H E]]], (sgn_cases (- r)) as [[H' E']|[[H' E']|[H' E']]];
        rewrite E, E'; lra. }
    rewrite E. ring.
  - rewrite !reg_value_sigmoid, sigmoid_odd. ring.
Qed.
Lemma microstress_increasing l s1 s2 old g dt : 0 < dt -> 0 < sl_k l -> 0 < g -> s1 < s2 ->
  scalar_microstress l s1 old g dt <= scalar_microstress l s2 old g dt /\
  (sl_rate_independent l = false -> scalar_microstress l s1 old g dt < scalar_microstress l s2 old g dt).
Proof.
  intros Hdt Hk Hg Hs. unfold scalar_microstress.
  assert (R : (s1 - old) / dt < (s2 - old) / dt).
  { unfold Rdiv. apply Rmult_lt_compat_r; [apply Rinv_0_lt_compat; auto|lra]. }
  destruct (sl_rate_independent l).
  - split; [|discriminate].
    apply Rmult_le_compat_l; [lra|].
    destruct (sgn_cases ((s1 - old) / dt)) as [[H E]|[[H E]|[H E]]],
      (sgn_cases ((s2 - old) / dt)) as [[H' E']|[[H' E']|[H' E']]]; rewrite E, E'; lra.
  - assert (scalar_microstress (mk_scalar_law (sl_reg l) (sl_k l) 0 0 0 false false) s1 old g dt
          < scalar_microstress (mk_scalar_law (sl_reg l) (sl_k l) 0 0 0 false false) s2 old g dt).
    { unfold scalar_microstress. cbn [sl_rate_independent]. rewrite !reg_value_sigmoid. cbn [sl_k sl_reg].
      apply Rmult_lt_compat_l; auto. apply sigmoid_increasing; auto. }
    unfold scalar_microstress in H. cbn [sl_rate_independent] in H. rewrite !reg_value_sigmoid in *.
    cbn [sl_k sl_reg] in H. split; [lra|auto].
Qed.
Lemma microstress_rate_independent l slip old g dt : 0 < dt -> 0 < g -> sl_rate_independent l = true ->
  slip <> old -> Rabs (scalar_microstress l slip old g dt) = g.
Proof.
  intros Hdt Hg Hr Hn. unfold scalar_microstress. rewrite Hr.
  destruct (div_pos_sign (slip - old) dt Hdt) as (_ & _ & E).
  rewrite Rabs_mult, (Rabs_right g) by lra.
  destruct (sgn_cases ((slip - old) / dt)) as [[H F]|[[H F]|[H F]]]; rewrite F.
  - rewrite Rabs_R1. ring.
  - replace (-1) with (-(1)) by ring. rewrite Rabs_Ropp, Rabs_R1. ring.
  - exfalso. apply E in H. apply Hn. lra.
Qed.

(** ** C26 *)
Lemma perturb_at0 gamma b c : perturb gamma b 0 c = gamma c.
Proof. unfold perturb. ring. Qed.

Lemma derive_abs x : x <> 0 -> is_derive Rabs x (sl_sgn x).
Proof.
  intros H. destruct (sgn_cases x) as [[K E]|[[K E]|[K E]]]; rewrite E; [| |contradiction].
  - apply (is_derive_ext_loc (fun y => y)); [|apply @is_derive_id].
    exists (mkposreal x K). intros y Hy. unfold ball in Hy; simpl in Hy.
    unfold AbsRing_ball, abs, minus, plus, opp in Hy; simpl in Hy.
    apply Rabs_def2 in Hy. symmetry. apply Rabs_right. lra.
  - apply (is_derive_ext_loc (fun y => - y)).
    + assert (K' : 0 < - x) by lra. exists (mkposreal (- x) K'). intros y Hy. unfold ball in Hy; simpl in Hy.
      unfold AbsRing_ball, abs, minus, plus, opp in Hy; simpl in Hy.
      apply Rabs_def2 in Hy. symmetry. apply Rabs_left. lra.
    + auto_derive; auto.
Qed.

Lemma derive_const_abs (g old : R) (k : R) : (k = 0 \/ g <> old) ->
  is_derive (fun t => Rabs (g + t * k - old)) 0 (k * sl_sgn (g - old)).
Proof.
  intros [-> | H].
  - apply (is_derive_ext (fun _ => Rabs (g - old))).
    + intros t. f_equal. ring.
    + replace (0 * _) with 0 by ring. apply @is_derive_const.
  - assert (D : is_derive (fun t => g + t * k - old) 0 k) by (auto_derive; auto; ring).
    assert (A : is_derive Rabs (g + 0 * k - old) (sl_sgn (g - old))).
    { replace (g + 0 * k - old) with (g - old) by ring. apply derive_abs. lra. }
    exact (is_derive_comp Rabs (fun t => g + t * k - old) 0 _ _ A D).
Qed.

Lemma derive_sumn n (f : nat -> R -> R) (df : nat -> R) x :
  (forall i, (i < n)%nat -> is_derive (f i) x (df i)) ->
  is_derive (fun t => sumn n (fun i => f i t)) x (sumn n df).
Proof.
  induction n as [|n IH]; intros H; simpl.
  - apply @is_derive_const.
  - apply @is_derive_plus; [apply IH; auto|apply H; auto].
Qed.

(** Derivative of the hardened resistance. *)
Lemma derive_hardened n h g0 old gamma a b : (b < n)%nat -> (gamma b <> old b \/ h a b = 0) ->
  is_derive (fun t => hardened n h g0 old (perturb gamma b t) a) 0 (h a b * sl_sgn (gamma b - old b)).
Proof.
  intros Hb Hd. unfold hardened, perturb.
  assert (D : is_derive (fun t => sumn n (fun c => h a c * Rabs (gamma c + t * kron c b - old c))) 0
    (sumn n (fun c => h a c * (kron c b * sl_sgn (gamma c - old c))))).
  { apply (derive_sumn n (fun c t => h a c * Rabs (gamma c + t * kron c b - old c))). intros c Hc.
    destruct (Nat.eq_dec c b) as [->|Hne].
    - destruct Hd as [Hd|Hd].
      + apply (is_derive_scal (fun t => Rabs (gamma b + t * kron b b - old b))). apply derive_const_abs. auto.
      + rewrite Hd. apply (is_derive_ext (fun _ => 0)); [intros; toR; ring|].
        replace (0 * _) with 0 by ring. apply @is_derive_const.
    - apply (is_derive_scal (fun t => Rabs (gamma c + t * kron c b - old c))). apply derive_const_abs. left.
      unfold kron. apply Nat.eqb_neq in Hne. rewrite Hne. reflexivity. }
  rewrite (sumn_ext n _ (fun c => (h a c * sl_sgn (gamma c - old c)) * kron c b)) in D by (intros; ring).
  rewrite (sumn_kron_r n b (fun c => h a c * sl_sgn (gamma c - old c))) in D by auto.
  replace (h a b * _) with (0 + h a b * sl_sgn (gamma b - old b)) by ring.
  apply @is_derive_plus; [apply @is_derive_const|exact D].
Qed.

Lemma sgn_div x dt : 0 < dt -> sl_sgn (x / dt) = sl_sgn x.
Proof.
  intros H. destruct (div_pos_sign x dt H) as (A & B & C).
  destruct (sgn_cases x) as [[K E]|[[K E]|[K E]]], (sgn_cases (x / dt)) as [[K' E']|[[K' E']|[K' E']]];
    rewrite E, E'; try reflexivity; exfalso.
  all: try (apply A in K'); try (apply B in K'); try (apply C in K'); lra.
Qed.

(** Derivative of the regularised sign along a slip perturbation. *)
Lemma derive_reg l gamma old dt a b : 0 < dt -> 0 < sl_k l ->
  is_derive (fun t => reg_value l ((perturb gamma b t a - old a) / dt)) 0
    (kron a b / dt * reg_derivative l ((gamma a - old a) / dt)).
Proof.
  intros Hdt Hk.
  assert (D : is_derive (fun t => (perturb gamma b t a - old a) / dt) 0 (kron a b / dt)).
  { unfold perturb. auto_derive; auto. field. lra. }
  assert (A : is_derive (fun r => reg_value l r) ((perturb gamma b 0 a - old a) / dt)
     (reg_derivative l ((gamma a - old a) / dt))).
  { rewrite perturb_at0, reg_derivative_sigmoid.
    apply (is_derive_ext (fun r => sigmoid_function r (sl_k l) (sl_reg l))).
    - intros; symmetry; apply reg_value_sigmoid.
    - apply sigmoid_derive; auto. }
  exact (is_derive_comp (fun r => reg_value l r) (fun t => (perturb gamma b t a - old a) / dt) 0 _ _ A D).
Qed.

Definition hmat (l : scalar_law) (a b : nat) : R :=
  if sl_perfect l then 0 else sl_entry l (Nat.eqb a b).

(** The true derivative of the regularised law. *)
Lemma derive_microstress l n g0 old gamma dt a b : 0 < dt -> 0 < sl_k l -> sl_rate_independent l = false ->
  (b < n)%nat -> (gamma b <> old b \/ hmat l a b = 0) ->
  is_derive (fun t => scalar_microstress l (perturb gamma b t a) (old a)
                        (hardened n (hmat l) g0 old (perturb gamma b t) a) dt) 0
    (scalar_jacobian l gamma old (hardened n (hmat l) g0 old gamma) dt a b
     + hmat l a b * reg_value l ((gamma a - old a) / dt) *
       (sl_sgn (gamma b - old b) - reg_value l ((gamma b - old b) / dt))).
Proof.
  intros Hdt Hk Hr Hb Hd. unfold scalar_microstress. rewrite Hr.
  assert (DG := derive_hardened n (hmat l) g0 old gamma a b Hb Hd).
  assert (DR := derive_reg l gamma old dt a b Hdt Hk).
  assert (D := is_derive_mult _ _ 0 _ _ DG DR Rmult_comm).
  cbv beta in D. rewrite perturb_at0 in D.
  assert (E : hardened n (hmat l) g0 old (perturb gamma b 0) a = hardened n (hmat l) g0 old gamma a).
  { unfold hardened. f_equal. apply sumn_ext; intros. rewrite perturb_at0. reflexivity. }
  rewrite E in D.
  match type of D with is_derive _ _ ?d => match goal with |- is_derive _ _ ?d' => replace d' with d end end;
    [exact D|].
  unfold plus, mult; simpl. unfold scalar_jacobian. rewrite Hr. cbn [negb].
  set (ra := reg_value l ((gamma a - old a) / dt)). set (rb := reg_value l ((gamma b - old b) / dt)).
  set (G := hardened n (hmat l) g0 old gamma a).
  assert (Hh : hmat l a b = if sl_perfect l then 0 else sl_entry l (Nat.eqb a b)) by reflexivity.
  rewrite Hh. clear - Hdt. unfold rb, ra, kron. clear rb ra.
  destruct (Nat.eqb_spec a b) as [->|Hne]; cbn [andb]; destruct (sl_perfect l); field; lra.
Qed.

Lemma derive_microstress_rate_independent l n g0 old gamma dt a b :
  0 < dt -> sl_rate_independent l = true -> (b < n)%nat -> gamma a <> old a -> gamma b <> old b ->
  is_derive (fun t => scalar_microstress l (perturb gamma b t a) (old a)
                        (hardened n (hmat l) g0 old (perturb gamma b t) a) dt) 0
    (scalar_jacobian l gamma old (hardened n (hmat l) g0 old gamma) dt a b).
Proof.
  intros Hdt Hr Hb Ha Hbb. unfold scalar_microstress. rewrite Hr.
  assert (DG := derive_hardened n (hmat l) g0 old gamma a b Hb (or_introl Hbb)).
  (* near 0 the sign of the rate is constant *)
  assert (L : locally 0 (fun t => sl_sgn ((perturb gamma b t a - old a) / dt) = sl_sgn (gamma a - old a))).
  { assert (P : 0 < Rabs (gamma a - old a)) by (apply Rabs_pos_lt; lra).
    exists (mkposreal _ P). intros t Ht. unfold ball in Ht; simpl in Ht.
    unfold AbsRing_ball, abs, minus, plus, opp in Ht; simpl in Ht.
    rewrite sgn_div by auto. unfold perturb.
    assert (K : Rabs (t * kron a b) <= Rabs t).
    { rewrite Rabs_mult. unfold kron. destruct (Nat.eqb a b); rewrite ?Rabs_R1, ?Rabs_R0; pose proof (Rabs_pos t); nra. }
    rewrite Ropp_0, Rplus_0_r in Ht.
    set (x := gamma a - old a) in *. replace (gamma a + t * kron a b - old a) with (x + t * kron a b) by (unfold x; ring).
    set (y := t * kron a b) in *. assert (Y : Rabs y < Rabs x) by lra.
    destruct (sgn_cases x) as [[H E]|[[H E]|[H E]]].
    - rewrite (Rabs_right x) in Y by lra. apply Rabs_def2 in Y.
      destruct (sgn_cases (x + y)) as [[H' E']|[[H' E']|[H' E']]]; rewrite E, E'; lra.
    - rewrite (Rabs_left x) in Y by lra. apply Rabs_def2 in Y.
      destruct (sgn_cases (x + y)) as [[H' E']|[[H' E']|[H' E']]]; rewrite E, E'; lra.
    - rewrite H, Rabs_R0 in P. lra. }
  apply (is_derive_ext_loc (fun t => hardened n (hmat l) g0 old (perturb gamma b t) a * sl_sgn (gamma a - old a))).
  { destruct L as [e L]. exists e. intros t Ht. rewrite (L t Ht). reflexivity. }
  assert (D := is_derive_mult _ _ 0 _ _ DG (is_derive_const (sl_sgn (gamma a - old a)) 0) Rmult_comm).
  match type of D with is_derive _ _ ?d => match goal with |- is_derive _ _ ?d' => replace d' with d end end;
    [exact D|].
  unfold plus, mult, zero; simpl. unfold scalar_jacobian. rewrite Hr. cbn [negb]. rewrite andb_false_r.
  rewrite !sgn_div by auto. unfold hmat. destruct (sl_perfect l); ring.
Qed.

Lemma jacobian_symmetric l gamma old g dt a b : scalar_jacobian l gamma old g dt a b = scalar_jacobian l gamma old g dt b a.
Proof.
  unfold scalar_jacobian. rewrite (Nat.eqb_sym b a).
  destruct (Nat.eqb_spec a b) as [->|H]; [reflexivity|]. cbn [andb].
  destruct (sl_perfect l), (sl_rate_independent l); ring.
Qed.

(** Quadratic form of the Jacobian. *)
Lemma jacobian_psd l n gamma old g dt v : 0 < dt -> 0 < sl_k l -> 0 < sl_chi l -> 0 <= sl_H l -> 0 <= sl_q l <= 1 ->
  (forall a, (a < n)%nat -> 0 <= g a) ->
  0 <= sumn n (fun a => v a * sumn n (fun b => scalar_jacobian l gamma old g dt a b * v b)).
Proof.
  intros Hdt Hk Hchi HH Hq Hg.
  set (w := fun a => (if sl_rate_independent l then sl_sgn ((gamma a - old a) / dt)
                     else reg_value l ((gamma a - old a) / dt)) * v a).
  set (D := fun a => if sl_rate_independent l then 0 else g a / dt * reg_derivative l ((gamma a - old a) / dt)).
  set (H := if sl_perfect l then 0 else sl_H l / sl_chi l).
  assert (H0 : 0 <= H).
  { unfold H. destruct (sl_perfect l); [lra|]. unfold Rdiv. apply Rmult_le_pos; auto.
    apply Rlt_le, Rinv_0_lt_compat; auto. }
  assert (D0 : forall a, (a < n)%nat -> 0 <= D a).
  { intros a Ha. unfold D. destruct (sl_rate_independent l); [lra|].
    apply Rmult_le_pos.
    - unfold Rdiv. apply Rmult_le_pos; auto. apply Rlt_le, Rinv_0_lt_compat; auto.
    - rewrite reg_derivative_sigmoid. apply Rlt_le, sigmoid_derivative_pos; auto. }
  assert (E : sumn n (fun a => v a * sumn n (fun b => scalar_jacobian l gamma old g dt a b * v b)) =
    sumn n (fun a => D a * (v a * v a)) + H * (sl_q l * (sumn n w * sumn n w) + (1 - sl_q l) * sumn n (fun a => w a * w a))).
  { rewrite (sumn_ext n _ (fun a => D a * (v a * v a) + H * (sl_q l * (w a * sumn n w) + (1 - sl_q l) * (w a * w a)))).
    - rewrite sumn_plus, sumn_scal. f_equal. f_equal. rewrite sumn_plus, !sumn_scal. f_equal. f_equal.
      apply sumn_scal_r.
    - intros a Ha.
      rewrite (sumn_ext n _ (fun b => (D a * v b) * kron a b + (if sl_rate_independent l then sl_sgn ((gamma a - old a) / dt)
                     else reg_value l ((gamma a - old a) / dt)) * H * (sl_q l * w b + (1 - sl_q l) * (w b * kron a b)))).
      + rewrite sumn_plus. rewrite (sumn_kron_r' n a (fun b => D a * v b)) by auto.
        rewrite sumn_scal, sumn_plus, !sumn_scal. rewrite (sumn_kron_r' n a w) by auto.
        assert (Wa : w a = (if sl_rate_independent l then sl_sgn ((gamma a - old a) / dt)
                     else reg_value l ((gamma a - old a) / dt)) * v a) by reflexivity.
        rewrite !Wa. ring.
      + intros b Hb. unfold scalar_jacobian, D, H, w, sl_entry, kron.
        destruct (Nat.eqb_spec a b) as [->|Hne]; cbn [andb];
          destruct (sl_rate_independent l); cbn [negb]; destruct (sl_perfect l); field; lra. }
  rewrite E.
  assert (0 <= sumn n (fun a => D a * (v a * v a))).
  { apply sumn_nonneg. intros. apply Rmult_le_pos; [auto|apply Rle_0_sqr]. }
  assert (0 <= sumn n (fun a => w a * w a)) by (apply sumn_nonneg; intros; apply Rle_0_sqr).
  assert (0 <= sumn n w * sumn n w) by apply Rle_0_sqr.
  assert (0 <= sl_q l * (sumn n w * sumn n w)) by nra.
  assert (0 <= (1 - sl_q l) * sumn n (fun a => w a * w a)) by nra. nra.
Qed.

(** ** C27: powers *)
Lemma pow_abs_cpow x q : 0 <= q -> cpow (Rabs x) q = Fin (pow_abs x q).
Proof.
  intros Hq. unfold cpow, pow_abs. destruct (Req_EM_T x 0) as [->|H].
  - rewrite Rabs_R0. rewrite (proj2 (Rltb_false 0 0)) by lra. rewrite (proj2 (Reqb_true 0 0)) by auto.
    destruct (Req_EM_T q 0) as [->|K].
    + rewrite (proj2 (Rltb_false 0 0)) by lra. rewrite (proj2 (Reqb_true 0 0)) by auto. reflexivity.
    + rewrite (proj2 (Rltb_true 0 q)) by lra. reflexivity.
  - rewrite (proj2 (Rltb_true 0 (Rabs x))) by (apply Rabs_pos_lt; auto). reflexivity.
Qed.
Lemma pow_abs_nonneg x q : 0 <= pow_abs x q.
Proof.
  unfold pow_abs. destruct (Req_EM_T x 0); [destruct (Req_EM_T q 0); lra|]. apply Rlt_le, exp_pos.
Qed.
Lemma pow_abs_opp x q : pow_abs (- x) q = pow_abs x q.
Proof.
  unfold pow_abs. rewrite Rabs_Ropp. destruct (Req_EM_T (- x) 0), (Req_EM_T x 0); auto; lra.
Qed.
Lemma pow_abs_pos x q : 0 < x -> pow_abs x q = Rpower x q.
Proof. intros H. unfold pow_abs. destruct (Req_EM_T x 0); [lra|]. rewrite Rabs_right by lra. reflexivity. Qed.

Lemma power_small q eps : 0 < q -> 0 < eps ->
  exists delta : posreal, forall h, h <> 0 -> Rabs h < delta -> Rpower (Rabs h) q < eps.
Proof.
  intros Hq He. assert (P : 0 < Rpower eps (/ q)) by apply exp_pos. exists (mkposreal _ P). simpl.
  intros h Hh Hd. assert (0 < Rabs h) by (apply Rabs_pos_lt; auto).
  replace eps with (Rpower (Rpower eps (/ q)) q) at 1.
  - apply Rlt_Rpower_l; auto.
  - rewrite Rpower_mult, Rinv_l, Rpower_1 by lra. reflexivity.
Qed.

(** d/dx |x|^p = p |x|^(p-2) x for p > 1. *)
Definition phi (p x : R) : R := pow_abs x (p - 2) * x.

Lemma locally_pos x (P : R -> Prop) : 0 < x -> (forall y, 0 < y -> P y) -> locally x P.
Proof.
  intros H K. exists (mkposreal x H). intros y Hy. apply K. unfold ball in Hy; simpl in Hy.
  unfold AbsRing_ball, abs, minus, plus, opp in Hy; simpl in Hy. apply Rabs_def2 in Hy. lra.
Qed.

Lemma derive_pow_pos p x : 0 < x -> is_derive (fun y => pow_abs y p) x (p * phi p x).
Proof.
  intros H. apply (is_derive_ext_loc (fun y => exp (p * ln y))).
  - apply locally_pos; auto. intros y Hy. rewrite pow_abs_pos by auto. reflexivity.
  - unfold phi. rewrite pow_abs_pos by auto.
    replace (p * (Rpower x (p - 2) * x)) with (p * / x * exp (p * ln x)).
    + auto_derive; auto. ring.
    + change (exp (p * ln x)) with (Rpower x p).
      assert (E : Rpower x p = Rpower x (p - 2) * x * x).
      { replace p with ((p - 2) + 1 + 1) at 1 by ring. rewrite !Rpower_plus, Rpower_1 by auto. reflexivity. }
      rewrite E. field. lra.
Qed.
Lemma derive_phi_pos p x : 0 < x -> is_derive (phi p) x ((p - 1) * pow_abs x (p - 2)).
Proof.
  intros H. apply (is_derive_ext_loc (fun y => exp ((p - 2) * ln y) * y)).
  - apply locally_pos; auto. intros y Hy. unfold phi. rewrite pow_abs_pos by auto. reflexivity.
  - rewrite pow_abs_pos by auto. unfold Rpower. auto_derive; auto. field. lra.
Qed.
Lemma phi_odd p x : phi p (- x) = - phi p x.
Proof. unfold phi. rewrite pow_abs_opp. ring. Qed.

Lemma derive_pow p x : 1 < p -> is_derive (fun y => pow_abs y p) x (p * phi p x).
Proof.
  intros Hp. destruct (Rtotal_order x 0) as [H|[H|H]].
  - assert (D := derive_pow_pos p (- x) ltac:(lra)).
    assert (N : is_derive (fun y : R => - y) x (-1)) by (auto_derive; auto; ring).
    assert (C := is_derive_comp (fun y => pow_abs y p) (fun y => - y) x _ _ D N).
    apply (is_derive_ext (fun t => pow_abs (- t) p)); [intros; apply pow_abs_opp|].
    replace (p * phi p x) with (scal (-1) (p * phi p (- x))); [exact C|].
    unfold scal; simpl. unfold mult; simpl. rewrite phi_odd. ring.
  - subst. unfold phi. rewrite Rmult_0_r, Rmult_0_r.
    apply is_derive_Reals. intros eps He. destruct (power_small (p - 1) eps ltac:(lra) He) as [dl Hd].
    exists dl. intros h Hh Hs. specialize (Hd h Hh Hs).
    replace (pow_abs 0 p) with 0.
    2:{ unfold pow_abs. destruct (Req_EM_T 0 0); [|lra]. destruct (Req_EM_T p 0); lra. }
    replace (0 + h) with h by ring. unfold pow_abs. destruct (Req_EM_T h 0); [contradiction|].
    replace ((Rpower (Rabs h) p - 0) / h - 0) with (Rpower (Rabs h) p * / h) by (unfold Rdiv; ring).
    rewrite Rabs_mult, (Rabs_right (Rpower _ _)) by (apply Rle_ge, Rlt_le, exp_pos).
    rewrite Rabs_inv. replace p with ((p - 1) + 1) by ring.
    assert (0 < Rabs h) by (apply Rabs_pos_lt; auto).
    rewrite Rpower_plus, Rpower_1 by auto. replace (Rpower (Rabs h) (p - 1 + 1 - 1)) with (Rpower (Rabs h) (p - 1)) in * by (f_equal; ring).
    rewrite Rmult_assoc, Rinv_r, Rmult_1_r by lra. exact Hd.
  - apply derive_pow_pos; auto.
Qed.

Lemma derive_phi p x : 2 <= p -> is_derive (phi p) x ((p - 1) * pow_abs x (p - 2)).
Proof.
  intros Hp. destruct (Rtotal_order x 0) as [H|[H|H]].
  - assert (D := derive_phi_pos p (- x) ltac:(lra)).
    assert (N : is_derive (fun y : R => - y) x (-1)) by (auto_derive; auto; ring).
    assert (C := is_derive_comp (phi p) (fun y => - y) x _ _ D N).
    apply (is_derive_ext (fun t => opp (phi p (- t)))); [intros t; unfold opp; simpl; rewrite phi_odd; ring|].
    replace ((p - 1) * pow_abs x (p - 2)) with (opp (scal (-1) ((p - 1) * pow_abs (- x) (p - 2)))).
    + exact (is_derive_opp _ _ _ C).
    + unfold scal, opp; simpl. unfold mult; simpl. rewrite pow_abs_opp. ring.
  - subst. destruct (Req_EM_T p 2) as [->|Hp2].
    + apply (is_derive_ext (fun y => y)).
      * intros t. unfold phi, pow_abs. destruct (Req_EM_T t 0) as [->|K]; [toR; ring|].
        replace (2 - 2) with 0 by ring. rewrite Rpower_O by (apply Rabs_pos_lt; auto). toR; rewrite Rmult_1_l; reflexivity.
      * unfold pow_abs. destruct (Req_EM_T 0 0); [|lra]. destruct (Req_EM_T (2 - 2) 0); [|lra].
        replace ((2 - 1) * 1) with 1 by ring. apply @is_derive_id.
    + replace ((p - 1) * pow_abs 0 (p - 2)) with 0.
      2:{ unfold pow_abs. destruct (Req_EM_T 0 0); [|lra]. destruct (Req_EM_T (p - 2) 0); [lra|ring]. }
      apply is_derive_Reals. intros eps He. destruct (power_small (p - 2) eps ltac:(lra) He) as [dl Hd].
      exists dl. intros h Hh Hs. specialize (Hd h Hh Hs). unfold phi.
      replace ((pow_abs (0 + h) (p - 2) * (0 + h) - pow_abs 0 (p - 2) * 0) / h - 0) with (pow_abs h (p - 2)).
      * unfold pow_abs. destruct (Req_EM_T h 0); [contradiction|].
        rewrite Rabs_right by (apply Rle_ge, Rlt_le, exp_pos). exact Hd.
      * replace (0 + h) with h by ring. field. auto.
  - apply derive_phi_pos; auto.
Qed.

Lemma phi_monotone p x y : 2 <= p -> x <= y -> phi p x <= phi p y.
Proof.
  intros Hp Hxy. destruct (Req_dec x y) as [->|Hne]; [lra|].
  destruct (MVT_gen (phi p) x y (fun t => (p - 1) * pow_abs t (p - 2))) as (c & Hc & E).
  - intros; apply derive_phi; auto.
  - intros. apply continuity_pt_filterlim, (ex_derive_continuous (phi p)). eexists. apply derive_phi; auto.
  - assert (0 <= (p - 1) * pow_abs c (p - 2)) by (apply Rmult_le_pos; [lra|apply pow_abs_nonneg]). nra.
Qed.
Lemma phi_monotone2 p x y : 2 <= p -> 0 <= (phi p x - phi p y) * (x - y).
Proof.
  intros Hp. destruct (Rle_dec x y).
  - pose proof (phi_monotone p x y Hp r). nra.
  - pose proof (phi_monotone p y x Hp ltac:(lra)). nra.
Qed.

(** ** C27: the law *)
Lemma dyad_entry v i j : dyad v i j = v i * v j.
Proof. unfold dyad, symmetrize, outer. field. Qed.

Definition vm_tensor (p : R) (d : nat) (dir ort grad : vec) (i j : nat) : R :=
  pow_abs (dot d dir grad) (p - 2) * (dir i * dir j) + pow_abs (dot d ort grad) (p - 2) * (ort i * ort j).
Lemma vl_tensor_fin p d dir ort grad i j : 2 <= p ->
  vl_tensor p d dir ort grad i j = Fin (vm_tensor p d dir ort grad i j).
Proof.
  intros Hp. unfold vl_tensor. rewrite dot_neg_l, Rabs_Ropp, !pow_abs_cpow by lra.
  cbn [xmul xadd]. rewrite !dyad_entry. reflexivity.
Qed.
Lemma xsumn_fin n f : xsumn n (fun i => Fin (f i)) = Fin (sumn n f).
Proof. induction n; simpl; auto. rewrite IHn. reflexivity. Qed.
Lemma xsumn_ext n f g : (forall i, (i < n)%nat -> f i = g i) -> xsumn n f = xsumn n g.
Proof. induction n; simpl; intros H; auto. rewrite IHn, H; auto. Qed.

Definition vm (factor p : R) (d : nat) (dir ort grad : vec) : vec := fun i =>
  factor * (phi p (dot d dir grad) * dir i + phi p (dot d ort grad) * ort i).
Lemma microstress_fin factor p d dir ort grad i : 2 <= p ->
  vectorial_microstress factor p d dir ort grad i = Fin (vm factor p d dir ort grad i).
Proof.
  intros Hp. unfold vectorial_microstress.
  rewrite (xsumn_ext d _ (fun j => Fin (factor * vm_tensor p d dir ort grad i j * grad j))).
  2:{ intros j Hj. rewrite vl_tensor_fin by auto. reflexivity. }
  rewrite xsumn_fin. f_equal. unfold vm, vm_tensor, phi.
  rewrite (sumn_ext d _ (fun j => (factor * pow_abs (dot d dir grad) (p - 2) * dir i) * (dir j * grad j)
                       + (factor * pow_abs (dot d ort grad) (p - 2) * ort i) * (ort j * grad j))) by (intros; ring).
  rewrite sumn_plus, !sumn_scal. fold (dot d dir grad) (dot d ort grad). ring.
Qed.
Lemma vjacobian_fin factor p d dir ort grad i j : 2 <= p ->
  vectorial_jacobian factor p d dir ort grad i j = Fin (factor * (p - 1) * vm_tensor p d dir ort grad i j).
Proof. intros Hp. unfold vectorial_jacobian. rewrite vl_tensor_fin by auto. reflexivity. Qed.

Lemma dot_line d a g w t : dot d a (vadd g (vscal t w)) = dot d a g + t * dot d a w.
Proof. rewrite dot_add_r, dot_scal_r. reflexivity. Qed.

Lemma derive_line (f : R -> R) (f' a b : R) : is_derive f a f' -> is_derive (fun t => f (a + t * b)) 0 (b * f').
Proof.
  intros H. assert (D : is_derive (fun t => a + t * b) 0 b) by (auto_derive; auto; ring).
  assert (H' : is_derive f (a + 0 * b) f') by (replace (a + 0 * b) with a by ring; auto).
  exact (is_derive_comp f (fun t => a + t * b) 0 _ _ H' D).
Qed.

Lemma energy_gradient factor p d dir ort grad w : 2 <= p ->
  is_derive (fun t => defect_energy factor p d dir ort (vadd grad (vscal t w))) 0
    (dot d (vm factor p d dir ort grad) w).
Proof.
  intros Hp.
  assert (A := derive_line _ _ _ (dot d dir w) (derive_pow p (dot d dir grad) ltac:(lra))).
  assert (B := derive_line _ _ _ (dot d ort w) (derive_pow p (dot d ort grad) ltac:(lra))).
  assert (C := is_derive_plus _ _ _ _ _ A B).
  assert (D := is_derive_scal _ 0 (factor / p) _ C).
  apply (is_derive_ext (fun t => factor / p * plus (pow_abs (dot d dir grad + t * dot d dir w) p)
                                                  (pow_abs (dot d ort grad + t * dot d ort w) p))).
  - intros t. unfold defect_energy. rewrite !dot_line. reflexivity.
  - replace (dot d (vm factor p d dir ort grad) w) with
      (factor / p * plus (dot d dir w * (p * phi p (dot d dir grad))) (dot d ort w * (p * phi p (dot d ort grad)))).
    + exact D.
    + unfold plus; simpl. unfold vm, dot at 5.
      rewrite (sumn_ext d _ (fun i => (factor * phi p (dot d dir grad)) * (dir i * w i)
                 + (factor * phi p (dot d ort grad)) * (ort i * w i))) by (intros; ring).
      rewrite sumn_plus, !sumn_scal. fold (dot d dir w) (dot d ort w). field. lra.
Qed.

Lemma vm_derivative factor p d dir ort grad w i : 2 <= p ->
  is_derive (fun t => vm factor p d dir ort (vadd grad (vscal t w)) i) 0
    (sumn d (fun j => factor * (p - 1) * vm_tensor p d dir ort grad i j * w j)).
Proof.
  intros Hp.
  assert (A := derive_line _ _ _ (dot d dir w) (derive_phi p (dot d dir grad) Hp)).
  assert (B := derive_line _ _ _ (dot d ort w) (derive_phi p (dot d ort grad) Hp)).
  assert (A' := is_derive_scal _ 0 (dir i) _ A). assert (B' := is_derive_scal _ 0 (ort i) _ B).
  assert (C := is_derive_scal _ 0 factor _ (is_derive_plus _ _ _ _ _ A' B')).
  apply (is_derive_ext (fun t => factor * plus (dir i * phi p (dot d dir grad + t * dot d dir w))
                                              (ort i * phi p (dot d ort grad + t * dot d ort w)))).
  - intros t. unfold vm. rewrite !dot_line. unfold plus; simpl. ring.
  - match type of C with is_derive _ _ ?e => replace (sumn d _) with e end; [exact C|].
    unfold plus; simpl. unfold vm_tensor.
    rewrite (sumn_ext d _ (fun j => (factor * (p - 1) * pow_abs (dot d dir grad) (p - 2) * dir i) * (dir j * w j)
                + (factor * (p - 1) * pow_abs (dot d ort grad) (p - 2) * ort i) * (ort j * w j))) by (intros; ring).
    rewrite sumn_plus, !sumn_scal. fold (dot d dir w) (dot d ort w). ring.
Qed.

Lemma vm_in_plane factor p d dir ort nrm grad : dot d dir nrm = 0 -> dot d ort nrm = 0 ->
  dot d (vm factor p d dir ort grad) nrm = 0.
Proof.
  intros H1 H2. unfold vm, dot.
  rewrite (sumn_ext d _ (fun i => (factor * phi p (dot d dir grad)) * (dir i * nrm i)
                 + (factor * phi p (dot d ort grad)) * (ort i * nrm i))).
  - rewrite sumn_plus, !sumn_scal. fold (dot d dir nrm) (dot d ort nrm). rewrite H1, H2. ring.
  - intros. fold (dot d dir grad) (dot d ort grad). ring.
Qed.
Lemma vm_dot factor p d dir ort grad w :
  dot d (vm factor p d dir ort grad) w = factor * (phi p (dot d dir grad) * dot d dir w + phi p (dot d ort grad) * dot d ort w).
Proof.
  unfold vm. unfold dot at 1.
  rewrite (sumn_ext d _ (fun i => (factor * phi p (dot d dir grad)) * (dir i * w i)
                 + (factor * phi p (dot d ort grad)) * (ort i * w i))) by (intros; ring).
  rewrite sumn_plus, !sumn_scal. fold (dot d dir w) (dot d ort w). ring.
Qed.
Lemma vm_monotone factor p d dir ort g1 g2 : 2 <= p -> 0 <= factor ->
  0 <= dot d (vsub (vm factor p d dir ort g1) (vm factor p d dir ort g2)) (vsub g1 g2).
Proof.
  intros Hp Hf. rewrite dot_sub_l, !vm_dot, !dot_sub_r.
  pose proof (phi_monotone2 p (dot d dir g1) (dot d dir g2) Hp) as A.
  pose proof (phi_monotone2 p (dot d ort g1) (dot d ort g2) Hp) as B.
  nra.
Qed.
Lemma vm_tensor_psd p d dir ort grad w :
  0 <= sumn d (fun i => w i * sumn d (fun j => vm_tensor p d dir ort grad i j * w j)).
Proof.
  rewrite (sumn_ext d _ (fun i => (pow_abs (dot d dir grad) (p - 2) * dot d dir w) * (dir i * w i)
     + (pow_abs (dot d ort grad) (p - 2) * dot d ort w) * (ort i * w i))).
  - rewrite sumn_plus, !sumn_scal. fold (dot d dir w) (dot d ort w).
    pose proof (pow_abs_nonneg (dot d dir grad) (p - 2)). pose proof (pow_abs_nonneg (dot d ort grad) (p - 2)).
    pose proof (Rle_0_sqr (dot d dir w)) as S1. pose proof (Rle_0_sqr (dot d ort w)) as S2. unfold Rsqr in *.
    rewrite !Rmult_assoc. apply Rplus_le_le_0_compat; apply Rmult_le_pos; auto.
  - intros i Hi. unfold vm_tensor.
    rewrite (sumn_ext d _ (fun j => (pow_abs (dot d dir grad) (p - 2) * dir i) * (dir j * w j)
       + (pow_abs (dot d ort grad) (p - 2) * ort i) * (ort j * w j))) by (intros; ring).
    rewrite sumn_plus, !sumn_scal. fold (dot d dir w) (dot d ort w). ring.
Qed.

Lemma xadd_nan_r a : xadd a NaN = NaN.
Proof. destruct a; reflexivity. Qed.
Lemma microstress_2d_nan factor p dir grad i : p < 2 ->
  vectorial_microstress factor p 2 dir vzero grad i = NaN.
Proof.
  intros Hp. assert (T : forall j, vl_tensor p 2 dir vzero grad i j = NaN).
  { intros j. unfold vl_tensor.
    replace (dot 2 vzero grad) with 0 by (unfold dot, vzero; simpl; ring). rewrite Rabs_R0.
    unfold cpow at 2. rewrite (proj2 (Rltb_false 0 0)) by lra. rewrite (proj2 (Reqb_true 0 0)) by auto.
    rewrite (proj2 (Rltb_false 0 (p - 2))) by lra. rewrite (proj2 (Reqb_false (p - 2) 0)) by lra.
    rewrite !dyad_entry. replace (vzero i * vzero j) with 0 by (unfold vzero; ring).
    assert (Z : xmul PInf (Fin 0) = NaN).
    { unfold xmul, xsign. rewrite ?(proj2 (Rltb_false 0 0)) by lra. reflexivity. }
    rewrite Z. apply xadd_nan_r. }
  unfold vectorial_microstress. cbn [xsumn]. rewrite !T. cbn [xmul]. apply xadd_nan_r.
Qed.

(** ** C28 *)
Lemma cross2_bound a n : dot 2 a a = 1 -> dot 2 n n = 1 -> Rabs (cross2 a n) <= 1.
Proof.
  unfold dot, cross2; simpl. intros H K. apply Rabs_le.
  assert ((a 0%nat * n 1%nat - a 1%nat * n 0%nat)^2 <= 1).
  { assert ((a 0%nat * n 1%nat - a 1%nat * n 0%nat)^2 + (a 0%nat * n 0%nat + a 1%nat * n 1%nat)^2
       = (0 + a 0%nat * a 0%nat + a 1%nat * a 1%nat) * (0 + n 0%nat * n 0%nat + n 1%nat * n 1%nat)) by ring.
    rewrite H, K in H0. pose proof (pow2_ge_0 (a 0%nat * n 0%nat + a 1%nat * n 1%nat)). lra. }
  split; nra.
Qed.
Lemma dot_unit_bound d a b : dot d a a = 1 -> dot d b b = 1 -> Rabs (dot d a b) <= 1.
Proof. intros H K. pose proof (dot_cauchy d a b) as C. rewrite H, K in C. apply Rabs_le. split; nra. Qed.
Lemma dot_le_bound d a b : dot d a a <= 1 -> dot d b b <= 1 -> Rabs (dot d a b) <= 1.
Proof.
  intros H K. pose proof (dot_cauchy d a b) as C. pose proof (dot_nonneg d a). pose proof (dot_nonneg d b).
  assert (dot d a b * dot d a b <= 1) by nra. apply Rabs_le. split; nra.
Qed.

Lemma modulus_bound d da na db nb n : (d = 2 \/ d = 3)%nat ->
  dot d da da = 1 -> dot d na na = 1 -> dot d db db = 1 -> dot d nb nb = 1 -> dot d n n = 1 ->
  Rabs (modulus d da na db nb n) <= 1.
Proof.
  intros [-> | ->] H1 H2 H3 H4 H5; cbn [modulus]; rewrite !Rabs_mult.
  - pose proof (dot_unit_bound 2 da db H1 H3). pose proof (cross2_bound na n H2 H5). pose proof (cross2_bound nb n H4 H5).
    pose proof (Rabs_pos (dot 2 da db)). pose proof (Rabs_pos (cross2 na n)). pose proof (Rabs_pos (cross2 nb n)).
    assert (Rabs (dot 2 da db) * Rabs (cross2 na n) <= 1) by nra.
    assert (0 <= Rabs (dot 2 da db) * Rabs (cross2 na n)) by nra. nra.
  - assert (A : forall v, dot 3 v v = 1 -> dot 3 (cross v n) (cross v n) <= 1).
    { intros v Hv. rewrite cross_lagrange, Hv, H5. pose proof (Rle_0_sqr (dot 3 v n)). unfold Rsqr in *. lra. }
    pose proof (dot_unit_bound 3 da db H1 H3). pose proof (dot_le_bound 3 _ _ (A na H2) (A nb H4)).
    pose proof (Rabs_pos (dot 3 da db)). pose proof (Rabs_pos (dot 3 (cross na n) (cross nb n))). nra.
Qed.

Lemma modulus_swap d da na db nb n : modulus d da na db nb n = modulus d db nb da na n.
Proof.
  unfold modulus. destruct d as [|[|[|d]]]; rewrite (dot_comm _ da db), ?(dot_comm _ (cross na n)); ring.
Qed.
Lemma modulus_neg d da na db nb n : modulus d da na db nb (vneg n) = modulus d da na db nb n.
Proof.
  unfold modulus. destruct d as [|[|[|d]]]; unfold cross2, cross, vneg, dot; simpl; ring.
Qed.

Lemma moduli_ok d ns frames cur nb n : (d = 2 \/ d = 3)%nat -> cur <> nb ->
  (forall c a, (c = cur \/ c = nb) -> (a < ns)%nat ->
     dot d (f_dir (frames c) a) (f_dir (frames c) a) = 1 /\ dot d (f_nrm (frames c) a) (f_nrm (frames c) a) = 1) ->
  dot d n n = 1 ->
  interaction_moduli d ns frames cur nb n = Ok (intra d (frames cur) n, inter d (frames cur) (frames nb) n).
Proof.
  intros Hd Hne Hf Hn. unfold interaction_moduli. rewrite (proj2 (Nat.eqb_neq cur nb) Hne).
  assert (L : forall x, Rabs x <= 1 -> modulus_ok d x = true).
  { intros x Hx. unfold modulus_ok. apply Rleb_true. destruct Hd as [-> | ->]; cbn [modulus_limit]; auto.
    assert (0 < / 10 ^ 14) by (apply Rinv_0_lt_compat, pow_lt; lra). lra. }
  rewrite (proj2 (forallb_forall _ _)); auto.
  intros a Ha. apply in_seq in Ha. apply forallb_forall. intros b Hb. apply in_seq in Hb.
  destruct (Hf cur a (or_introl eq_refl)) as [A1 A2]; [lia|].
  destruct (Hf cur b (or_introl eq_refl)) as [B1 B2]; [lia|].
  destruct (Hf nb b (or_intror eq_refl)) as [C1 C2]; [lia|].
  rewrite !L; auto; apply modulus_bound; auto.
Qed.

(** ** C29 *)
Definition ddotr (d m : nat) (A B : mat) : R := sumn d (fun i => sumn m (fun j => A i j * B i j)).
(** Interface Burgers tensor of unit slip: direction (x) (normal x n); one column in 2D. *)
Definition slip_burgers (d : nat) (f : frame) (n : vec) (a : nat) : mat := fun i j =>
  match d with
  | 2%nat => f_dir f a i * cross2 (f_nrm f a) n
  | _ => f_dir f a i * cross (f_nrm f a) n j
  end.
Definition cols (d : nat) : nat := match d with 2%nat => 1%nat | _ => 3%nat end.
Lemma modulus_inner d f f' n a b : (d = 2 \/ d = 3)%nat ->
  modulus d (f_dir f a) (f_nrm f a) (f_dir f' b) (f_nrm f' b) n =
  ddotr d (cols d) (slip_burgers d f n a) (slip_burgers d f' n b).
Proof. intros [-> | ->]; unfold modulus, ddotr, slip_burgers, dot; simpl; ring. Qed.

Definition jump (d ns : nat) (nb cur : frame) (n : vec) (g_nb g_cur : nat -> R) : mat := fun i j =>
  sumn ns (fun a => g_nb a * slip_burgers d nb n a i j - g_cur a * slip_burgers d cur n a i j).
Lemma energy_jump lambda d ns nb cur n g_nb g_cur : (d = 2 \/ d = 3)%nat ->
  interface_energy lambda d ns nb cur n g_nb g_cur =
  1/2 * lambda * ddotr d (cols d) (jump d ns nb cur n g_nb g_cur) (jump d ns nb cur n g_nb g_cur).
Proof.
  intros [-> | ->]; unfold interface_energy; cbn [cols].
  - f_equal. unfold dot, ddotr. apply sumn_ext; intros i Hi. rewrite sumn_1.
    assert (E : burgers_2d ns nb cur n g_nb g_cur i = jump 2 ns nb cur n g_nb g_cur i 0%nat).
    { apply sumn_ext; intros; unfold slip_burgers; ring. }
    rewrite E. reflexivity.
  - reflexivity.
Qed.

Lemma ddotr_comm d m A B : ddotr d m A B = ddotr d m B A.
Proof. apply sumn_ext; intros; apply sumn_ext; intros; ring. Qed.
Lemma ddotr_ext d m A A' B B' : (forall i j, A i j = A' i j) -> (forall i j, B i j = B' i j) ->
  ddotr d m A B = ddotr d m A' B'.
Proof. intros H K. apply sumn_ext; intros; apply sumn_ext; intros. rewrite H, K. reflexivity. Qed.
Lemma ddotr_sub d m A B t : ddotr d m (fun i j => A i j - t * B i j) (fun i j => A i j - t * B i j) =
  ddotr d m A A - t * (2 * ddotr d m A B) + t * t * ddotr d m B B.
Proof.
  unfold ddotr. rewrite <- !sumn_scal, <- sumn_minus, <- sumn_plus. apply sumn_ext; intros.
  rewrite <- !sumn_scal, <- sumn_minus, <- sumn_plus. apply sumn_ext; intros. ring.
Qed.
Lemma ddotr_sum_l d m n (F : nat -> mat) B :
  ddotr d m (fun i j => sumn n (fun a => F a i j)) B = sumn n (fun a => ddotr d m (F a) B).
Proof.
  unfold ddotr. symmetry. rewrite sumn_swap. apply sumn_ext; intros i Hi. rewrite sumn_swap. apply sumn_ext; intros j Hj.
  rewrite sumn_scal_r. reflexivity.
Qed.
Lemma ddotr_lin d m c1 c2 A B C : ddotr d m (fun i j => c1 * A i j - c2 * B i j) C = c1 * ddotr d m A C - c2 * ddotr d m B C.
Proof.
  unfold ddotr. rewrite <- !sumn_scal, <- sumn_minus. apply sumn_ext; intros.
  rewrite <- !sumn_scal, <- sumn_minus. apply sumn_ext; intros. ring.
Qed.
Lemma ddotr_nonneg d m A : 0 <= ddotr d m A A.
Proof. apply sumn_nonneg; intros; apply sumn_nonneg; intros; apply Rle_0_sqr. Qed.

Lemma jump_perturb d ns nb cur n g_nb g_cur a t i j : (a < ns)%nat ->
  jump d ns nb cur n g_nb (perturb g_cur a t) i j =
  jump d ns nb cur n g_nb g_cur i j - t * slip_burgers d cur n a i j.
Proof.
  intros Ha. unfold jump, perturb.
  rewrite (sumn_ext ns _ (fun b => (g_nb b * slip_burgers d nb n b i j - g_cur b * slip_burgers d cur n b i j)
     - (t * slip_burgers d cur n b i j) * kron b a)) by (intros; ring).
  rewrite sumn_minus. rewrite (sumn_kron_r ns a (fun b => t * slip_burgers d cur n b i j)) by auto. ring.
Qed.

Lemma energy_derivative lambda chi d ns nb cur n g_nb g_cur a : (d = 2 \/ d = 3)%nat -> (a < ns)%nat -> chi <> 0 ->
  is_derive (fun t => interface_energy lambda d ns nb cur n g_nb (perturb g_cur a t)) 0
    (- chi * microtraction lambda chi ns (intra d cur n, inter d cur nb n) g_cur g_nb a).
Proof.
  intros Hd Ha Hchi.
  set (J := jump d ns nb cur n g_nb g_cur). set (E := slip_burgers d cur n a). set (m := cols d).
  apply (is_derive_ext (fun t => 1/2 * lambda * (ddotr d m J J - t * (2 * ddotr d m J E) + t * t * ddotr d m E E))).
  - intros t. rewrite energy_jump by auto. f_equal. rewrite <- ddotr_sub.
    apply ddotr_ext; intros i j; symmetry; apply jump_perturb; auto.
  - replace (- chi * _) with (- lambda * ddotr d m J E).
    + auto_derive; auto. field.
    + unfold J, jump. rewrite (ddotr_sum_l d m ns (fun b i j => g_nb b * slip_burgers d nb n b i j - g_cur b * slip_burgers d cur n b i j)).
      rewrite (sumn_ext ns _ (fun b => (-1) * (intra d cur n a b * g_cur b - inter d cur nb n a b * g_nb b))).
      * rewrite sumn_scal. unfold microtraction. cbn [fst snd]. field. auto.
      * intros b Hb. rewrite ddotr_lin. unfold intra, inter. rewrite !modulus_inner by auto.
        rewrite (ddotr_comm d (cols d) (slip_burgers d cur n a) (slip_burgers d cur n b)),
          (ddotr_comm d (cols d) (slip_burgers d cur n a) (slip_burgers d nb n b)).
        unfold E, m. ring.
Qed.

Lemma intra_gateaux_exact lambda chi ns M gc gn a b : (b < ns)%nat ->
  is_derive (fun t => microtraction lambda chi ns M (perturb gc b t) gn a) 0 (intra_gateaux lambda chi M a b).
Proof.
  intros Hb. unfold microtraction, intra_gateaux.
  apply (is_derive_ext (fun t => (sumn ns (fun c => fst M a c * gc c - snd M a c * gn c) + t * fst M a b) * (- lambda / chi))).
  - intros t. f_equal. unfold perturb.
    rewrite (sumn_ext ns (fun b0 => fst M a b0 * (gc b0 + t * kron b0 b) - snd M a b0 * gn b0)
      (fun c => (fst M a c * gc c - snd M a c * gn c) + (t * fst M a c) * kron c b)) by (intros; ring).
    rewrite sumn_plus. rewrite (sumn_kron_r ns b (fun c => t * fst M a c)) by auto. reflexivity.
  - auto_derive; auto. ring.
Qed.
Lemma inter_gateaux_exact lambda chi ns M gc gn a b : (b < ns)%nat ->
  is_derive (fun t => microtraction lambda chi ns M gc (perturb gn b t) a) 0 (inter_gateaux lambda chi M a b).
Proof.
  intros Hb. unfold microtraction, inter_gateaux.
  apply (is_derive_ext (fun t => (sumn ns (fun c => fst M a c * gc c - snd M a c * gn c) - t * snd M a b) * (- lambda / chi))).
  - intros t. f_equal. unfold perturb.
    rewrite (sumn_ext ns (fun b0 => fst M a b0 * gc b0 - snd M a b0 * (gn b0 + t * kron b0 b))
      (fun c => (fst M a c * gc c - snd M a c * gn c) - (t * snd M a c) * kron c b)) by (intros; ring).
    rewrite (sumn_minus ns (fun c => fst M a c * gc c - snd M a c * gn c)).
    rewrite (sumn_kron_r ns b (fun c => t * snd M a c)) by auto. reflexivity.
  - auto_derive; auto. unfold Rdiv. ring.
Qed.

Lemma energy_nonneg lambda d ns nb cur n g_nb g_cur : (d = 2 \/ d = 3)%nat -> 0 <= lambda ->
  0 <= interface_energy lambda d ns nb cur n g_nb g_cur.
Proof.
  intros Hd Hl. rewrite energy_jump by auto.
  pose proof (ddotr_nonneg d (cols d) (jump d ns nb cur n g_nb g_cur)). nra.
Qed.
Lemma energy_exchange lambda d ns nb cur n g_nb g_cur : (d = 2 \/ d = 3)%nat ->
  interface_energy lambda d ns nb cur n g_nb g_cur = interface_energy lambda d ns cur nb (vneg n) g_cur g_nb.
Proof.
  intros Hd. rewrite !energy_jump by auto. f_equal. apply ddotr_ext; intros i j; apply sumn_ext; intros a Ha;
    destruct Hd as [-> | ->]; unfold slip_burgers, cross2, cross, vneg;
    try (destruct j as [|[|[|j]]]); ring.
Qed.

Lemma intra_psd d f n ns v : (d = 2 \/ d = 3)%nat ->
  0 <= sumn ns (fun a => v a * sumn ns (fun b => intra d f n a b * v b)).
Proof.
  intros Hd. set (X := fun i j => sumn ns (fun a => v a * slip_burgers d f n a i j)).
  replace (sumn ns _) with (ddotr d (cols d) X X); [apply ddotr_nonneg|].
  assert (S : forall c A B, ddotr d (cols d) (fun i j => c * A i j) B = c * ddotr d (cols d) A B).
  { intros c A B. unfold ddotr. rewrite <- sumn_scal. apply sumn_ext; intros. rewrite <- sumn_scal.
    apply sumn_ext; intros; ring. }
  unfold X at 1. rewrite (ddotr_sum_l d (cols d) ns (fun a i j => v a * slip_burgers d f n a i j)).
  apply sumn_ext; intros a Ha. rewrite S. f_equal. rewrite ddotr_comm. unfold X.
  rewrite (ddotr_sum_l d (cols d) ns (fun a i j => v a * slip_burgers d f n a i j)).
  apply sumn_ext; intros b Hb. rewrite S, ddotr_comm. unfold intra. rewrite modulus_inner by auto. ring.
Qed.
