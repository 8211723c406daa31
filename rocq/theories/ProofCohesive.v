From Coquelicot Require Import Coquelicot.
From Verif Require Import Num SumLemmas Tensors TensorLemmas ModelUtilities ProofErf ProofUtilities
  ModelCohesive ModelInterface SpecInterface ProofInterface SpecMicro ProofMicro SpecCohesive.
Open Scope R_scope.

(** ** Effective quantities *)
Lemma tang_eq d n delta i : (i < d)%nat -> mv d (tangential_projector n) delta i = tangential d n delta i.
Proof.
  intros Hi. unfold tangential_projector. unfold mv, msub.
  rewrite (sumn_ext d _ (fun j => unit_mat i j * delta j - normal_projector n i j * delta j)) by (intros; ring).
  rewrite sumn_minus. fold (mv d (normal_projector n) delta i). rewrite normal_projection by auto.
  unfold tangential. f_equal.
  rewrite (sumn_ext d _ (fun j => delta j * kron i j)) by (intros; unfold unit_mat; ring).
  apply (sumn_kron_r' d i delta); auto.
Qed.
Lemma tang_norm d n delta : norm d (mv d (tangential_projector n) delta) = norm d (tangential d n delta).
Proof. apply norm_ext. intros; apply tang_eq; auto. Qed.
Lemma norm_sq d a : norm d a * norm d a = dot d a a.
Proof. unfold norm. apply sqrt_sqrt, dot_nonneg. Qed.

Definition opening_sq (r : R) (d : nat) (n delta : vec) : R :=
  (Rmax (dot d n delta) 0) ^ 2 + r ^ 2 * dot d (tangential d n delta) (tangential d n delta).
Lemma opening_sq_nonneg r d n delta : 0 <= opening_sq r d n delta.
Proof.
  unfold opening_sq. pose proof (pow2_ge_0 (Rmax (dot d n delta) 0)). pose proof (pow2_ge_0 r).
  pose proof (dot_nonneg d (tangential d n delta)). assert (0 <= r ^ 2 * dot d (tangential d n delta) (tangential d n delta)).
  { apply Rmult_le_pos; auto. } lra.
Qed.
Lemma mixed_sq r d n delta : mixed_opening r d n delta = sqrt (opening_sq r d n delta).
Proof. reflexivity. Qed.
Lemma eff_eq d r delta n : effective_opening d r delta n = mixed_opening r d n delta.
Proof.
  unfold effective_opening, mixed_opening. f_equal. rewrite macaulay_max, tang_norm, <- norm_sq. ring.
Qed.
Lemma mixed_nonneg r d n delta : 0 <= mixed_opening r d n delta.
Proof. apply sqrt_pos. Qed.
Lemma mixed_times r d n delta : mixed_opening r d n delta * mixed_opening r d n delta = opening_sq r d n delta.
Proof. rewrite mixed_sq. apply sqrt_sqrt, opening_sq_nonneg. Qed.

Lemma dot_zero_all d a : dot d a a = 0 -> forall i, (i < d)%nat -> a i = 0.
Proof.
  induction d as [|d IH]; intros H i Hi; [lia|].
  unfold dot in H. simpl in H. fold (dot d a a) in H.
  pose proof (dot_nonneg d a). pose proof (Rle_0_sqr (a d)) as S. unfold Rsqr in S.
  destruct (Nat.eq_dec i d) as [->|Hne].
  - assert (a d * a d = 0) by lra. apply Rmult_integral in H1. tauto.
  - apply IH; [lra|lia].
Qed.

Lemma pull_zero r d n delta i : (i < d)%nat -> mixed_opening r d n delta = 0 -> pull r d n delta i = 0.
Proof.
  intros Hi H. assert (S := mixed_times r d n delta). rewrite H, Rmult_0_l in S.
  unfold opening_sq in S. pose proof (pow2_ge_0 (Rmax (dot d n delta) 0)) as A.
  pose proof (dot_nonneg d (tangential d n delta)) as B. pose proof (pow2_ge_0 r) as C.
  assert (D : 0 <= r ^ 2 * dot d (tangential d n delta) (tangential d n delta)) by (apply Rmult_le_pos; auto).
  assert (E : (Rmax (dot d n delta) 0) ^ 2 = 0) by lra.
  assert (F : r ^ 2 * dot d (tangential d n delta) (tangential d n delta) = 0) by lra.
  assert (G : Rmax (dot d n delta) 0 = 0).
  { simpl in E. rewrite Rmult_1_r in E. apply Rmult_integral in E. tauto. }
  unfold pull. rewrite G. apply Rmult_integral in F. destruct F as [F|F].
  - rewrite F. ring.
  - rewrite (dot_zero_all d _ F i Hi). ring.
Qed.

Lemma dir_times d r delta n i : (i < d)%nat ->
  effective_direction d r delta n i * mixed_opening r d n delta = pull r d n delta i.
Proof.
  intros Hi. unfold effective_direction. rewrite eff_eq.
  assert (V : vadd (vscal (macaulay_brackets (dot d n delta)) n) (vscal (r * r) (mv d (tangential_projector n) delta)) i
     = pull r d n delta i).
  { unfold vadd, vscal, pull. rewrite macaulay_max, tang_eq by auto. ring. }
  destruct (Reqb (mixed_opening r d n delta) 0) eqn:E.
  - apply Reqb_true in E. rewrite E, (pull_zero r d n delta i Hi E). ring.
  - apply Reqb_false in E. rewrite V. field. auto.
Qed.
Lemma dir_zero d r delta n i : (i < d)%nat -> mixed_opening r d n delta = 0 -> effective_direction d r delta n i = 0.
Proof.
  intros Hi H. unfold effective_direction. rewrite eff_eq. rewrite (proj2 (Reqb_true _ _) H).
  unfold vadd, vscal. rewrite macaulay_max, tang_eq by auto.
  replace (r * r) with (r ^ 2) by ring. exact (pull_zero r d n delta i Hi H).
Qed.
Lemma dir_eq d r delta n i : (i < d)%nat -> mixed_opening r d n delta <> 0 ->
  effective_direction d r delta n i = pull r d n delta i / mixed_opening r d n delta.
Proof. intros Hi H. rewrite <- (dir_times d r delta n i Hi). field. auto. Qed.

(** ** C30: envelope *)
Lemma traction_envelope c x : crit_opening c <> 0 -> effective_traction c x = envelope (crit_traction c) (crit_opening c) x.
Proof. intros H. unfold effective_traction, envelope. field. auto. Qed.

Lemma exp_lower y : y <> 0 -> 1 + y < exp y.
Proof. intros H. apply exp_ineq1. auto. Qed.
Lemma peak_le y : y * exp (1 - y) <= 1 /\ (y * exp (1 - y) = 1 <-> y = 1).
Proof.
  destruct (Req_dec y 1) as [->|H].
  - replace (1 - 1) with 0 by ring. rewrite exp_0. split; [lra|]. split; intros; lra.
  - assert (L := exp_lower (y - 1) ltac:(lra)). replace (1 + (y - 1)) with y in L by ring.
    assert (P := exp_pos (1 - y)).
    assert (E : exp (y - 1) * exp (1 - y) = 1) by (rewrite <- exp_plus; replace (y - 1 + (1 - y)) with 0 by ring; apply exp_0).
    assert (y * exp (1 - y) < 1) by (apply (Rmult_lt_compat_r (exp (1 - y))) in L; lra).
    split; [lra|]. split; intros; lra.
Qed.
Lemma envelope_peak Tc dc x : 0 < Tc -> 0 < dc ->
  envelope Tc dc x <= Tc /\ (envelope Tc dc x = Tc <-> x = dc).
Proof.
  intros HT Hd. unfold envelope. destruct (peak_le (x / dc)) as [A B].
  rewrite Rmult_assoc. split; [nra|].
  assert (Q : x / dc = 1 <-> x = dc).
  { split; intros H; [|subst; field; lra]. replace x with (x / dc * dc) by (field; lra). rewrite H. ring. }
  rewrite <- Q, <- B. split; intros H; nra.
Qed.
Lemma envelope_zero Tc dc : envelope Tc dc 0 = 0.
Proof. unfold envelope, Rdiv. ring. Qed.
Lemma envelope_pos Tc dc x : 0 < Tc -> 0 < dc -> 0 < x -> 0 < envelope Tc dc x.
Proof.
  intros A B C. unfold envelope. apply Rmult_lt_0_compat; [apply Rmult_lt_0_compat; auto|apply exp_pos].
  apply Rdiv_lt_0_compat; auto.
Qed.
Lemma envelope_nonneg Tc dc x : 0 < Tc -> 0 < dc -> 0 <= x -> 0 <= envelope Tc dc x.
Proof. intros A B [C|C]; [left; apply envelope_pos; auto|rewrite <- C, envelope_zero; lra]. Qed.
(** Hardening before the peak, softening after. *)
Lemma derive_envelope Tc dc x : 0 < dc ->
  is_derive (envelope Tc dc) x (Tc / dc * (1 - x / dc) * exp (1 - x / dc)).
Proof. intros H. unfold envelope. auto_derive; auto. unfold Rdiv, Rminus. field. lra. Qed.
Lemma envelope_rises Tc dc x y : 0 < Tc -> 0 < dc -> x < y -> y <= dc -> envelope Tc dc x < envelope Tc dc y.
Proof.
  intros HT Hd Hxy Hy.
  destruct (MVT_cor2 (envelope Tc dc) (fun t => Tc / dc * (1 - t / dc) * exp (1 - t / dc)) x y Hxy) as (c & Ec & Hc).
  { intros. apply is_derive_Reals, derive_envelope; auto. }
  assert (0 < Tc / dc * (1 - c / dc) * exp (1 - c / dc)).
  { apply Rmult_lt_0_compat; [|apply exp_pos]. apply Rmult_lt_0_compat; [apply Rdiv_lt_0_compat; auto|].
    assert (c / dc < 1); [|lra]. apply Rmult_lt_reg_r with dc; auto. unfold Rdiv. rewrite Rmult_assoc, Rinv_l by lra. lra. }
  nra.
Qed.
Lemma envelope_falls Tc dc x y : 0 < Tc -> 0 < dc -> dc <= x -> x < y -> envelope Tc dc y < envelope Tc dc x.
Proof.
  intros HT Hd Hx Hxy.
  destruct (MVT_cor2 (envelope Tc dc) (fun t => Tc / dc * (1 - t / dc) * exp (1 - t / dc)) x y Hxy) as (c & Ec & Hc).
  { intros. apply is_derive_Reals, derive_envelope; auto. }
  assert (0 < - (Tc / dc * (1 - c / dc) * exp (1 - c / dc))).
  { replace (- (Tc / dc * (1 - c / dc) * exp (1 - c / dc))) with (Tc / dc * (c / dc - 1) * exp (1 - c / dc)) by ring.
    apply Rmult_lt_0_compat; [|apply exp_pos]. apply Rmult_lt_0_compat; [apply Rdiv_lt_0_compat; auto|].
    assert (1 < c / dc); [|lra]. apply Rmult_lt_reg_r with dc; auto. unfold Rdiv. rewrite Rmult_assoc, Rinv_l by lra. lra. }
  nra.
Qed.

(** ** C30: the traction *)
Definition good_cohesive (c : cohesive) : Prop :=
  0 < crit_traction c /\ 0 < crit_opening c /\ 0 < char_stress c /\ 0 < char_disp c.

Lemma branch_loading e old dt : 0 < dt -> old <= e -> branch_of e e (rate e old dt) = Loading.
Proof.
  intros Hdt Ho. unfold branch_of, rate, xdiv. rewrite (proj2 (Reqb_false dt 0)) by lra.
  rewrite (proj2 (Reqb_true e e)) by auto. cbn [xltb].
  rewrite (proj2 (Rltb_false ((e - old) / dt) 0)); [reflexivity|].
  apply Rmult_le_pos; [lra|]. apply Rlt_le, Rinv_0_lt_compat; auto.
Qed.
Lemma branch_unloading e mx rt : e < mx -> branch_of e mx rt = Unloading.
Proof.
  intros H. unfold branch_of. rewrite (proj2 (Reqb_false e mx)) by lra. cbn [andb].
  rewrite (proj2 (Rltb_true e mx)) by auto. reflexivity.
Qed.
Lemma branch_eq_cases e old dt : dt <> 0 -> branch_of e e (rate e old dt) = Loading \/ branch_of e e (rate e old dt) = Unloading.
Proof.
  intros Hdt. unfold branch_of, rate, xdiv. rewrite (proj2 (Reqb_false dt 0)) by lra.
  rewrite (proj2 (Reqb_true e e)) by auto. cbn [xltb]. rewrite (proj2 (Rltb_false e e)) by lra.
  destruct (Rltb ((e - old) / dt) 0); cbn; auto.
Qed.
Lemma branch_neither e mx rt : mx < e -> branch_of e mx rt = Neither.
Proof.
  intros H. unfold branch_of. rewrite (proj2 (Reqb_false e mx)) by lra. cbn [andb].
  rewrite (proj2 (Rltb_false e mx)) by lra. reflexivity.
Qed.

Lemma xdiv_fin x y : y <> 0 -> xdiv (Fin x) (Fin y) = Fin (x / y).
Proof. intros H. unfold xdiv. rewrite (proj2 (Reqb_false y 0)) by auto. reflexivity. Qed.

(** Secant stiffness of the envelope. *)
Definition secant (c : cohesive) (mx : R) : R :=
  crit_traction c * char_disp c / crit_opening c * exp (1 - char_disp c * mx / crit_opening c).

Lemma loading_traction d c delta n old dt i : good_cohesive c -> 0 < dt -> (i < d)%nat ->
  let e := mixed_opening (ratio c) d n delta in old <= e ->
  cohesive_traction d c delta n e old dt i = Fin (secant c e / char_stress c * pull (ratio c) d n delta i).
Proof.
  intros (A & B & C & D) Hdt Hi e Ho. unfold cohesive_traction. rewrite eff_eq. fold e.
  rewrite branch_loading by auto. cbn [traction_factor xmul]. rewrite xdiv_fin by lra. f_equal.
  rewrite <- (dir_times d (ratio c) delta n i Hi). fold e. unfold effective_traction, secant. field. lra.
Qed.
Lemma unloading_traction d c delta n mx old dt i : good_cohesive c -> dt <> 0 -> (i < d)%nat -> 0 < mx ->
  let e := mixed_opening (ratio c) d n delta in e <= mx ->
  cohesive_traction d c delta n mx old dt i = Fin (secant c mx / char_stress c * pull (ratio c) d n delta i).
Proof.
  intros (A & B & C & D) Hdt Hi Hm e He. unfold cohesive_traction. rewrite eff_eq. fold e.
  assert (U : xdiv (xmul (Fin (effective_direction d (ratio c) delta n i)) (traction_factor c e mx Unloading)) (Fin (char_stress c))
     = Fin (secant c mx / char_stress c * pull (ratio c) d n delta i)).
  { cbn [traction_factor]. rewrite xdiv_fin by lra. cbn [xmul]. rewrite xdiv_fin by lra. f_equal.
    rewrite <- (dir_times d (ratio c) delta n i Hi). fold e. unfold effective_traction, secant. field. lra. }
  destruct (Rlt_dec e mx) as [L|L].
  - rewrite branch_unloading by auto. exact U.
  - assert (E : e = mx) by lra. destruct (branch_eq_cases mx old dt Hdt) as [K|K]; rewrite E in *; rewrite K.
    + rewrite <- U. f_equal. f_equal. cbn [traction_factor]. rewrite xdiv_fin by lra. f_equal. field. lra.
    + exact U.
Qed.

Lemma tang_orth d n delta : unit_vec d n -> dot d n (tangential d n delta) = 0.
Proof.
  intros U. unfold tangential. rewrite (dot_ext d n _ n (vsub delta (vscal (dot d n delta) n))) by reflexivity.
  rewrite dot_sub_r, dot_scal_r. rewrite U. ring.
Qed.
Lemma pull_sq r d n delta : unit_vec d n ->
  dot d (pull r d n delta) (pull r d n delta) =
  (Rmax (dot d n delta) 0) ^ 2 + r ^ 4 * dot d (tangential d n delta) (tangential d n delta).
Proof.
  intros U. set (m := Rmax (dot d n delta) 0). set (t := tangential d n delta).
  rewrite (dot_ext d _ _ (vadd (vscal m n) (vscal (r ^ 2) t)) (vadd (vscal m n) (vscal (r ^ 2) t))) by reflexivity.
  rewrite dot_add_l, !dot_add_r, !dot_scal_l, !dot_scal_r. rewrite (dot_comm d t n).
  assert (O : dot d n t = 0) by (apply tang_orth; auto). rewrite O, U. ring.
Qed.
Lemma pull_norm_le r d n delta : unit_vec d n -> Rabs r <= 1 ->
  norm d (pull r d n delta) <= mixed_opening r d n delta.
Proof.
  intros U Hr. unfold norm. rewrite pull_sq by auto. apply sqrt_le_1_alt.
  set (T := dot d (tangential d n delta) (tangential d n delta)).
  assert (0 <= T) by apply dot_nonneg.
  assert (r ^ 2 <= 1). { rewrite <- (pow2_abs r). pose proof (Rabs_pos r). simpl. nra. }
  pose proof (pow2_ge_0 r). assert (r ^ 4 <= r ^ 2) by (replace (r ^ 4) with (r ^ 2 * r ^ 2) by ring; nra).
  assert (r ^ 4 * T <= r ^ 2 * T) by (apply Rmult_le_compat_r; auto).
  lra.
Qed.
Lemma secant_pos c mx : good_cohesive c -> 0 < secant c mx.
Proof.
  intros (A & B & C & D). unfold secant. apply Rmult_lt_0_compat; [|apply exp_pos].
  apply Rdiv_lt_0_compat; auto. apply Rmult_lt_0_compat; auto.
Qed.
Lemma secant_envelope c mx : good_cohesive c ->
  secant c mx * mx = envelope (crit_traction c) (crit_opening c) (char_disp c * mx).
Proof. intros (A & B & C & D). unfold secant, envelope. field. lra. Qed.

(** ** C31 *)
Lemma free_energy_dmg c x : crit_opening c <> 0 ->
  free_energy c x = crit_traction c * crit_opening c * exp 1 * dmg (x / crit_opening c).
Proof. intros H. unfold free_energy, dmg. do 4 f_equal. f_equal. field. auto. Qed.
Lemma free_energy_derive c x : 0 < crit_opening c ->
  is_derive (free_energy c) x (effective_traction c x).
Proof.
  intros H. unfold free_energy. auto_derive; auto. unfold effective_traction.
  replace (exp (1 - x / crit_opening c)) with (exp 1 * exp (- x / crit_opening c)).
  - unfold Rdiv. field. lra.
  - rewrite <- exp_plus. f_equal. field. lra.
Qed.
Lemma free_energy_range c x : 0 < crit_traction c -> 0 < crit_opening c -> 0 <= x ->
  0 <= free_energy c x < exp 1 * crit_traction c * crit_opening c.
Proof.
  intros A B X. rewrite free_energy_dmg by lra.
  destruct (dmg_range (x / crit_opening c)) as [L U].
  { apply Rmult_le_pos; auto. apply Rlt_le, Rinv_0_lt_compat; auto. }
  assert (P : 0 < crit_traction c * crit_opening c * exp 1) by (apply Rmult_lt_0_compat; [apply Rmult_lt_0_compat; auto|apply exp_pos]).
  split; nra.
Qed.
Lemma free_energy_incr c x y : 0 < crit_traction c -> 0 < crit_opening c -> 0 <= x -> x < y ->
  free_energy c x < free_energy c y.
Proof.
  intros A B X H. rewrite !free_energy_dmg by lra.
  assert (P : 0 < crit_traction c * crit_opening c * exp 1) by (apply Rmult_lt_0_compat; [apply Rmult_lt_0_compat; auto|apply exp_pos]).
  apply Rmult_lt_compat_l; auto. apply dmg_incr.
  - apply Rmult_le_pos; auto. apply Rlt_le, Rinv_0_lt_compat; auto.
  - apply Rmult_lt_compat_r; auto. apply Rinv_0_lt_compat; auto.
Qed.

(** ** C32 *)
Lemma switch_eq x : x <> 0 -> normal_switch x = if Rltb 0 x then 1 else 0.
Proof.
  intros H. unfold normal_switch. assert (P : 0 < Rabs x) by (apply Rabs_pos_lt; auto).
  rewrite xdiv_fin by lra. unfold xmacaulay, xgtb, xltb.
  destruct (Rltb 0 x) eqn:E.
  - apply Rltb_true in E. rewrite Rabs_right by lra. replace (x / x) with 1 by (field; auto).
    rewrite (proj2 (Rltb_true 0 1)) by lra. reflexivity.
  - apply Rltb_false in E. rewrite Rabs_left by lra. replace (x / - x) with (-1) by (field; auto).
    rewrite (proj2 (Rltb_false 0 (-1))) by lra. reflexivity.
Qed.
Lemma locally_sign a b : a <> 0 -> locally 0 (fun t => Rltb 0 (a + t * b) = Rltb 0 a).
Proof.
  intros H. assert (C : continuous (fun t => a + t * b) 0) by (apply (ex_derive_continuous (fun t => a + t * b)); auto_derive; auto).
  destruct (Rltb 0 a) eqn:E.
  - apply Rltb_true in E.
    assert (L : locally (a + 0 * b) (fun y => 0 < y)) by (apply locally_pos; [lra|auto]).
    apply C in L. destruct L as [e L]. exists e. intros t Ht. apply Rltb_true. apply (L t Ht).
  - apply Rltb_false in E.
    assert (L : locally (a + 0 * b) (fun y => y < 0)).
    { assert (K : 0 < - a) by lra. exists (mkposreal (- a) K). intros y Hy. unfold ball in Hy; simpl in Hy.
      unfold AbsRing_ball, abs, minus, plus, opp in Hy; simpl in Hy. apply Rabs_def2 in Hy. lra. }
    apply C in L. destruct L as [e L]. exists e. intros t Ht. apply Rltb_false. apply Rlt_le, (L t Ht).
Qed.
Lemma rmax_switch x : Rmax x 0 = (if Rltb 0 x then 1 else 0) * x.
Proof.
  destruct (Rltb 0 x) eqn:E.
  - apply Rltb_true in E. rewrite Rmax_left by lra. ring.
  - apply Rltb_false in E. rewrite Rmax_right by lra. ring.
Qed.
Lemma tang_line d n delta w t i : tangential d n (vadd delta (vscal t w)) i = tangential d n delta i + t * tangential d n w i.
Proof. unfold tangential. rewrite dot_line. unfold vadd, vscal. ring. Qed.

Lemma derive_rmax a b : a <> 0 -> is_derive (fun t => Rmax (a + t * b) 0) 0 ((if Rltb 0 a then 1 else 0) * b).
Proof.
  intros H. apply (is_derive_ext_loc (fun t => (if Rltb 0 a then 1 else 0) * (a + t * b))).
  - destruct (locally_sign a b H) as [e L]. exists e. intros t Ht. rewrite rmax_switch, (L t Ht). reflexivity.
  - auto_derive; auto. ring.
Qed.

(** The effective identity, applied. *)
Lemma identity_mv d r delta n w i : (i < d)%nat -> dot d n delta <> 0 ->
  sumn d (fun j => effective_identity d r delta n i j * w j)
  = (if Rltb 0 (dot d n delta) then 1 else 0) * dot d n w * n i + r ^ 2 * tangential d n w i.
Proof.
  intros Hi H. unfold effective_identity, madd, mscal. rewrite switch_eq by auto.
  set (s := if Rltb 0 (dot d n delta) then 1 else 0).
  rewrite (sumn_ext d _ (fun j => s * (normal_projector n i j * w j) + (r * r) * (tangential_projector n i j * w j))) by (intros; ring).
  rewrite sumn_plus, !sumn_scal.
  fold (mv d (normal_projector n) w i) (mv d (tangential_projector n) w i).
  rewrite normal_projection, tang_eq by auto. ring.
Qed.

Lemma derive_pull d r n delta w i : dot d n delta <> 0 ->
  is_derive (fun t => pull r d n (vadd delta (vscal t w)) i) 0
    ((if Rltb 0 (dot d n delta) then 1 else 0) * dot d n w * n i + r ^ 2 * tangential d n w i).
Proof.
  intros H. unfold pull.
  assert (A := derive_rmax (dot d n delta) (dot d n w) H).
  assert (A' := is_derive_scal_l _ 0 _ (n i) A).
  assert (B : is_derive (fun t => r ^ 2 * (tangential d n delta i + t * tangential d n w i)) 0 (r ^ 2 * tangential d n w i))
    by (auto_derive; auto; ring).
  assert (C := is_derive_plus _ _ _ _ _ A' B).
  apply (is_derive_ext (fun t => plus (scal (Rmax (dot d n delta + t * dot d n w) 0) (n i)) 
     (r ^ 2 * (tangential d n delta i + t * tangential d n w i)))).
  - intros t. rewrite dot_line, tang_line. reflexivity.
  - exact C.
Qed.

Lemma pull_dot d r n delta w : unit_vec d n ->
  dot d (pull r d n delta) w =
  Rmax (dot d n delta) 0 * dot d n w + r ^ 2 * dot d (tangential d n delta) (tangential d n w).
Proof.
  intros U. set (m := Rmax (dot d n delta) 0).
  rewrite (dot_ext d _ w (vadd (vscal m n) (vscal (r ^ 2) (tangential d n delta))) w) by reflexivity.
  rewrite dot_add_l, !dot_scal_l. f_equal. f_equal.
  rewrite (dot_ext d (tangential d n delta) (tangential d n w) (tangential d n delta) (vsub w (vscal (dot d n w) n))) by reflexivity.
  rewrite dot_sub_r, dot_scal_r, (dot_comm d _ n), tang_orth by auto. ring.
Qed.
Lemma derive_opening_sq d r n delta w : unit_vec d n -> dot d n delta <> 0 ->
  is_derive (fun t => opening_sq r d n (vadd delta (vscal t w))) 0 (2 * dot d (pull r d n delta) w).
Proof.
  intros U H. set (a := dot d n delta). set (b := dot d n w).
  set (ta := tangential d n delta). set (tw := tangential d n w).
  set (s := if Rltb 0 a then 1 else 0).
  assert (S2 : s * s = s) by (unfold s; destruct (Rltb 0 a); ring).
  apply (is_derive_ext_loc (fun t => s * (a + t * b) ^ 2 + r ^ 2 * (dot d ta ta + t * (2 * dot d ta tw) + t * t * dot d tw tw))).
  - destruct (locally_sign a b H) as [e L]. exists e. intros t Ht. unfold opening_sq.
    rewrite dot_line. fold a b. rewrite rmax_switch, (L t Ht). fold s.
    rewrite (dot_ext d (tangential d n (vadd delta (vscal t w))) (tangential d n (vadd delta (vscal t w)))
      (vadd ta (vscal t tw)) (vadd ta (vscal t tw))) by (intros; apply tang_line).
    rewrite dot_add_l, !dot_add_r, !dot_scal_l, !dot_scal_r, (dot_comm d tw ta).
    replace ((s * (a + t * b)) ^ 2) with (s * s * (a + t * b) ^ 2) by ring. rewrite S2. toR. ring.
  - rewrite pull_dot by auto. fold a b ta tw. rewrite rmax_switch. fold s. auto_derive; auto. ring.
Qed.
Lemma derive_mixed d r n delta w : unit_vec d n -> dot d n delta <> 0 -> mixed_opening r d n delta <> 0 ->
  is_derive (fun t => mixed_opening r d n (vadd delta (vscal t w))) 0
    (dot d (pull r d n delta) w / mixed_opening r d n delta).
Proof.
  intros U H E. assert (D := derive_opening_sq d r n delta w U H).
  assert (P : 0 < opening_sq r d n delta).
  { destruct (opening_sq_nonneg r d n delta) as [P|P]; auto. exfalso. apply E. rewrite mixed_sq, <- P. apply sqrt_0. }
  assert (Z : opening_sq r d n (vadd delta (vscal 0 w)) = opening_sq r d n delta).
  { unfold opening_sq. rewrite dot_line. replace (dot d n delta + 0 * dot d n w) with (dot d n delta) by ring.
    f_equal. f_equal. apply dot_ext; intros; rewrite tang_line; ring. }
  assert (S : is_derive sqrt (opening_sq r d n (vadd delta (vscal 0 w))) (/ (2 * sqrt (opening_sq r d n delta)))).
  { rewrite Z. apply is_derive_Reals, derivable_pt_lim_sqrt. auto. }
  assert (C := is_derive_comp sqrt (fun t => opening_sq r d n (vadd delta (vscal t w))) 0 _ _ S D).
  replace (dot d (pull r d n delta) w / mixed_opening r d n delta) with
    (scal (2 * dot d (pull r d n delta) w) (/ (2 * sqrt (opening_sq r d n delta)))); [exact C|].
  unfold scal; simpl. unfold mult; simpl. rewrite mixed_sq. field. rewrite <- mixed_sq. auto.
Qed.

Lemma locally_mixed_pos d r n delta w : unit_vec d n -> dot d n delta <> 0 -> 0 < mixed_opening r d n delta ->
  locally 0 (fun t => 0 < mixed_opening r d n (vadd delta (vscal t w))).
Proof.
  intros U H E. assert (D := derive_mixed d r n delta w U H ltac:(lra)).
  assert (C : continuous (fun t => mixed_opening r d n (vadd delta (vscal t w))) 0).
  { apply (ex_derive_continuous (fun t => mixed_opening r d n (vadd delta (vscal t w)))). eexists. exact D. }
  assert (Z : mixed_opening r d n (vadd delta (vscal 0 w)) = mixed_opening r d n delta).
  { rewrite !mixed_sq. f_equal. unfold opening_sq. rewrite dot_line.
    replace (dot d n delta + 0 * dot d n w) with (dot d n delta) by ring.
    f_equal. f_equal. apply dot_ext; intros; rewrite tang_line; ring. }
  assert (L : locally (mixed_opening r d n (vadd delta (vscal 0 w))) (fun y => 0 < y)).
  { rewrite Z. apply locally_pos; auto. }
  apply C in L. destruct L as [e L]. exists e. intros t Ht. apply (L t Ht).
Qed.

(** When the recorded maximum is the current opening, the value does not depend on the branch. *)
Lemma traction_at_max d c delta n old dt i : good_cohesive c -> dt <> 0 -> (i < d)%nat ->
  0 < mixed_opening (ratio c) d n delta ->
  cohesive_traction d c delta n (mixed_opening (ratio c) d n delta) old dt i =
  Fin (secant c (mixed_opening (ratio c) d n delta) / char_stress c * pull (ratio c) d n delta i).
Proof. intros G Hdt Hi Hp. apply unloading_traction; auto. lra. Qed.

Lemma derive_secant c x : 0 < crit_opening c ->
  is_derive (secant c) x (- char_disp c / crit_opening c * secant c x).
Proof. intros H. unfold secant. auto_derive; auto. unfold Rdiv, Rminus. field. lra. Qed.

Lemma jacobian_loading_mv d c delta n old dt w i : good_cohesive c -> 0 < dt -> (i < d)%nat ->
  dot d n delta <> 0 -> 0 < mixed_opening (ratio c) d n delta -> old <= mixed_opening (ratio c) d n delta ->
  let e := mixed_opening (ratio c) d n delta in
  char_disp c * sumn d (fun j => val (cohesive_jacobian d c delta n e old dt i j) * w j) =
  secant c e / char_stress c *
    ((if Rltb 0 (dot d n delta) then 1 else 0) * dot d n w * n i + ratio c ^ 2 * tangential d n w i
     - char_disp c / crit_opening c * pull (ratio c) d n delta i * dot d (pull (ratio c) d n delta) w / e).
Proof.
  intros (A & B & C & D) Hdt Hi Hn He Ho e.
  assert (Ne : mixed_opening (ratio c) d n delta <> 0) by lra. assert (Ne' : e <> 0) by exact Ne.
  set (k := crit_traction c / crit_opening c * exp (1 - char_disp c * e / crit_opening c) / char_stress c).
  set (dir := effective_direction d (ratio c) delta n).
  rewrite (sumn_ext d _ (fun j => k * (effective_identity d (ratio c) delta n i j * w j)
             + (- k * (char_disp c * e / crit_opening c) * dir i) * (dir j * w j))).
  - rewrite sumn_plus, !sumn_scal. rewrite identity_mv by auto.
    replace (sumn d (fun j => dir j * w j)) with (dot d (pull (ratio c) d n delta) w / e).
    + unfold dir. rewrite dir_eq by auto. fold e. unfold k, secant. field. repeat split; auto; lra.
    + unfold dot, Rdiv. rewrite <- sumn_scal_r. apply sumn_ext; intros j Hj. unfold dir.
      rewrite dir_eq by auto. fold e. field. auto.
  - intros j Hj. unfold cohesive_jacobian. rewrite eff_eq. fold e. rewrite branch_loading by auto.
    rewrite xdiv_fin by lra. cbn [val]. fold dir. unfold k, symmetrize, outer. field. lra.
Qed.

Lemma derive_loading d c delta n old dt w i : good_cohesive c -> 0 < dt -> (i < d)%nat -> unit_vec d n ->
  dot d n delta <> 0 -> 0 < mixed_opening (ratio c) d n delta -> old <= mixed_opening (ratio c) d n delta ->
  is_derive (fun t => let x := vadd delta (vscal t w) in
               val (cohesive_traction d c x n (mixed_opening (ratio c) d n x) old dt i)) 0
    (char_disp c * sumn d (fun j => val (cohesive_jacobian d c delta n (mixed_opening (ratio c) d n delta) old dt i j) * w j)).
Proof.
  intros G Hdt Hi U Hn He Ho. set (r := ratio c) in *. set (e := mixed_opening r d n delta) in *.
  rewrite jacobian_loading_mv by auto. cbv zeta. fold r e.
  apply (is_derive_ext_loc (fun t => secant c (mixed_opening r d n (vadd delta (vscal t w))) / char_stress c
                                     * pull r d n (vadd delta (vscal t w)) i)).
  - destruct (locally_mixed_pos d r n delta w U Hn He) as [ep L]. exists ep. intros t Ht. specialize (L t Ht).
    unfold r in *. rewrite traction_at_max by (auto; lra). reflexivity.
  - destruct G as (A & B & C & D).
    assert (DE := derive_mixed d r n delta w U Hn ltac:(fold e; lra)).
    assert (Z : mixed_opening r d n (vadd delta (vscal 0 w)) = e).
    { unfold e. rewrite !mixed_sq. f_equal. unfold opening_sq. rewrite dot_line.
      replace (dot d n delta + 0 * dot d n w) with (dot d n delta) by ring.
      f_equal. f_equal. apply dot_ext; intros; rewrite tang_line; ring. }
    assert (Zp : pull r d n (vadd delta (vscal 0 w)) i = pull r d n delta i).
    { unfold pull. rewrite dot_line, tang_line. replace (dot d n delta + 0 * dot d n w) with (dot d n delta) by ring. ring. }
    assert (DS : is_derive (secant c) (mixed_opening r d n (vadd delta (vscal 0 w))) (- char_disp c / crit_opening c * secant c e)).
    { rewrite Z. apply derive_secant; auto. }
    assert (DC := is_derive_comp (secant c) (fun t => mixed_opening r d n (vadd delta (vscal t w))) 0 _ _ DS DE).
    assert (DC' := is_derive_scal _ 0 (/ char_stress c) _ DC).
    assert (DP := derive_pull d r n delta w i Hn).
    assert (DM := is_derive_mult _ _ 0 _ _ DC' DP Rmult_comm).
    cbv beta in DM. rewrite Z, Zp in DM.
    apply (is_derive_ext (fun t => mult (/ char_stress c * secant c (mixed_opening r d n (vadd delta (vscal t w))))
                                     (pull r d n (vadd delta (vscal t w)) i))).
    + intros t. unfold mult; simpl. unfold Rdiv. toR. ring.
    + match type of DM with is_derive _ _ ?y => match goal with |- is_derive _ _ ?x => replace x with y end end; [exact DM|].
      unfold plus, mult, scal; simpl. unfold mult; simpl. fold e. field. fold e in He. lra.
Qed.

Lemma jacobian_unloading_mv d c delta n mx old dt w i : good_cohesive c -> (i < d)%nat ->
  dot d n delta <> 0 -> mixed_opening (ratio c) d n delta < mx ->
  char_disp c * sumn d (fun j => val (cohesive_jacobian d c delta n mx old dt i j) * w j) =
  secant c mx / char_stress c *
    ((if Rltb 0 (dot d n delta) then 1 else 0) * dot d n w * n i + ratio c ^ 2 * tangential d n w i).
Proof.
  intros (A & B & C & D) Hi Hn He. pose proof (mixed_nonneg (ratio c) d n delta) as P.
  rewrite (sumn_ext d _ (fun j => (secant c mx / char_disp c / char_stress c) * (effective_identity d (ratio c) delta n i j * w j))).
  - rewrite sumn_scal, identity_mv by auto. field. lra.
  - intros j Hj. unfold cohesive_jacobian. rewrite eff_eq, branch_unloading by auto.
    rewrite xdiv_fin by lra. cbn [xmul]. rewrite xdiv_fin by lra. cbn [val]. unfold secant, effective_traction. field. lra.
Qed.
Lemma derive_unloading d c delta n mx old dt w i : good_cohesive c -> dt <> 0 -> (i < d)%nat -> unit_vec d n ->
  dot d n delta <> 0 -> 0 < mixed_opening (ratio c) d n delta < mx ->
  is_derive (fun t => val (cohesive_traction d c (vadd delta (vscal t w)) n mx old dt i)) 0
    (char_disp c * sumn d (fun j => val (cohesive_jacobian d c delta n mx old dt i j) * w j)).
Proof.
  intros G Hdt Hi U Hn [He Hm]. rewrite jacobian_unloading_mv by auto.
  set (r := ratio c) in *.
  apply (is_derive_ext_loc (fun t => secant c mx / char_stress c * pull r d n (vadd delta (vscal t w)) i)).
  - assert (DE := derive_mixed d r n delta w U Hn ltac:(lra)).
    assert (C : continuous (fun t => mixed_opening r d n (vadd delta (vscal t w))) 0).
    { apply (ex_derive_continuous (fun t => mixed_opening r d n (vadd delta (vscal t w)))). eexists. exact DE. }
    assert (Z : mixed_opening r d n (vadd delta (vscal 0 w)) = mixed_opening r d n delta).
    { rewrite !mixed_sq. f_equal. unfold opening_sq. rewrite dot_line.
      replace (dot d n delta + 0 * dot d n w) with (dot d n delta) by ring.
      f_equal. f_equal. apply dot_ext; intros; rewrite tang_line; ring. }
    assert (L : locally (mixed_opening r d n (vadd delta (vscal 0 w))) (fun y => y < mx)).
    { rewrite Z. assert (K : 0 < mx - mixed_opening r d n delta) by lra. exists (mkposreal _ K). intros y Hy.
      unfold ball in Hy; simpl in Hy. unfold AbsRing_ball, abs, minus, plus, opp in Hy; simpl in Hy.
      apply Rabs_def2 in Hy. lra. }
    apply C in L. destruct L as [ep L]. exists ep. intros t Ht. specialize (L t Ht). cbv beta in L.
    unfold r in *. rewrite unloading_traction by (auto; lra). reflexivity.
  - apply is_derive_scal. apply derive_pull; auto.
Qed.

(** ** C33 *)
Lemma contact_switch x : x <> 0 ->
  match xmacaulay (xdiv (Fin (- x)) (Fin (Rabs x))) with Fin y => y | _ => 0 end = if Rltb x 0 then 1 else 0.
Proof.
  intros H. pose proof (switch_eq (- x) (Ropp_neq_0_compat x H)) as S. unfold normal_switch in S. rewrite Rabs_Ropp in S. rewrite S.
  destruct (Rltb 0 (- x)) eqn:E, (Rltb x 0) eqn:F; auto.
  - apply Rltb_true in E. apply Rltb_false in F. lra.
  - apply Rltb_false in E. apply Rltb_true in F. lra.
Qed.
Lemma contact_open d c delta n i : 0 <= dot d delta n -> contact_traction d c delta n i = 0.
Proof. intros H. unfold contact_traction. rewrite macaulay_max, Rmax_right by lra. ring. Qed.
Lemma contact_closed d c delta n i : dot d delta n <= 0 ->
  contact_traction d c delta n i = penalty c * ct_disp c / ct_stress c * dot d delta n * n i.
Proof. intros H. unfold contact_traction. rewrite macaulay_max, Rmax_left by lra. unfold Rdiv. ring. Qed.
Lemma dot_line_l d a g w t : dot d (vadd g (vscal t w)) a = dot d g a + t * dot d w a.
Proof. rewrite dot_add_l, dot_scal_l. reflexivity. Qed.
Lemma derive_contact d c delta n w i : dot d delta n <> 0 ->
  is_derive (fun t => contact_traction d c (vadd delta (vscal t w)) n i) 0
    (ct_disp c * sumn d (fun j => contact_jacobian d c delta n i j * w j)).
Proof.
  intros H. set (x := dot d delta n) in *.
  assert (A := derive_rmax (- x) (- dot d w n) (Ropp_neq_0_compat x H)).
  apply (is_derive_ext (fun t => (- (penalty c / ct_stress c * ct_disp c) * n i) * Rmax (- x + t * - dot d w n) 0)).
  - intros t. unfold contact_traction. rewrite macaulay_max, dot_line_l. fold x.
    replace (- (x + t * dot d w n)) with (- x + t * - dot d w n) by ring. toR. ring.
  - assert (B := is_derive_scal _ 0 (- (penalty c / ct_stress c * ct_disp c) * n i) _ A).
    match type of B with is_derive _ _ ?y => match goal with |- is_derive _ _ ?z => replace z with y end end; [exact B|].
    rewrite (sumn_ext d _ (fun j => (penalty c / ct_stress c * (if Rltb x 0 then 1 else 0) * n i) * (w j * n j))).
    + rewrite sumn_scal. fold (dot d w n).
      destruct (Rltb 0 (- x)) eqn:E, (Rltb x 0) eqn:F; try ring.
      * apply Rltb_true in E. apply Rltb_false in F. lra.
      * apply Rltb_false in E. apply Rltb_true in F. lra.
    + intros j Hj. unfold contact_jacobian. fold x. rewrite contact_switch by auto.
      unfold mscal, symmetrize, outer. set (k := penalty c / ct_stress c). field.
Qed.

(** ** C34 *)
Lemma tang_neg d n delta i : tangential d (vneg n) (vneg delta) i = - tangential d n delta i.
Proof. unfold tangential. rewrite dot_neg_l, dot_neg_r. unfold vneg. ring. Qed.
Lemma opening_neg r d n delta : mixed_opening r d (vneg n) (vneg delta) = mixed_opening r d n delta.
Proof.
  unfold mixed_opening. rewrite dot_neg_l, dot_neg_r, Ropp_involutive. do 3 f_equal.
  unfold dot. apply sumn_ext; intros. rewrite !tang_neg. ring.
Qed.
Lemma pull_neg r d n delta i : pull r d (vneg n) (vneg delta) i = - pull r d n delta i.
Proof. unfold pull. rewrite dot_neg_l, dot_neg_r, Ropp_involutive, tang_neg. unfold vneg. ring. Qed.
Lemma dir_neg d r delta n i : (i < d)%nat ->
  effective_direction d r (vneg delta) (vneg n) i = - effective_direction d r delta n i.
Proof.
  intros Hi. destruct (Req_dec (mixed_opening r d n delta) 0) as [E|E].
  - rewrite !dir_zero; auto; try ring. rewrite opening_neg. auto.
  - rewrite !dir_eq by (auto; rewrite opening_neg; auto). rewrite pull_neg, opening_neg. field. auto.
Qed.
Lemma identity_neg d r delta n i j : effective_identity d r (vneg delta) (vneg n) i j = effective_identity d r delta n i j.
Proof.
  unfold effective_identity, madd, mscal, tangential_projector, msub, normal_projector, symmetrize, outer.
  rewrite dot_neg_l, dot_neg_r, Ropp_involutive. unfold vneg.
  replace (- n i * - n j + - n j * - n i) with (n i * n j + n j * n i) by ring. reflexivity.
Qed.
Lemma xsign_neg x : xsign (- x) = xneg (xsign x).
Proof.
  unfold xsign. destruct (Rtotal_order x 0) as [H|[H|H]].
  - rewrite (proj2 (Rltb_true 0 (- x))), (proj2 (Rltb_false 0 x)), (proj2 (Rltb_true x 0)) by lra. reflexivity.
  - subst. rewrite Ropp_0. rewrite (proj2 (Rltb_false 0 0)) by lra. reflexivity.
  - rewrite (proj2 (Rltb_false 0 (- x))), (proj2 (Rltb_true (- x) 0)), (proj2 (Rltb_true 0 x)) by lra. reflexivity.
Qed.
Lemma xneg_invol a : xneg (xneg a) = a.
Proof. destruct a; cbn; auto. rewrite Ropp_involutive. reflexivity. Qed.
Lemma xmul_neg_l a b : xmul (xneg a) b = xneg (xmul a b).
Proof.
  destruct a, b; cbn; auto; try (f_equal; ring); rewrite ?xsign_neg, ?xneg_invol; auto.
Qed.
Lemma xdiv_neg_l a b : b <> 0 -> xdiv (xneg a) (Fin b) = xneg (xdiv a (Fin b)).
Proof.
  intros H. destruct a; cbn; auto.
  - rewrite (proj2 (Reqb_false b 0)) by auto. cbn. f_equal. field. auto.
  - destruct (Rltb b 0); reflexivity.
  - destruct (Rltb b 0); reflexivity.
Qed.
Lemma traction_neg d c delta n mx old dt i : (i < d)%nat -> char_stress c <> 0 ->
  cohesive_traction d c (vneg delta) (vneg n) mx old dt i = xneg (cohesive_traction d c delta n mx old dt i).
Proof.
  intros Hi Hc. unfold cohesive_traction. rewrite !eff_eq, opening_neg, dir_neg by auto.
  change (Fin (- effective_direction d (ratio c) delta n i)) with (xneg (Fin (effective_direction d (ratio c) delta n i))).
  rewrite xmul_neg_l, xdiv_neg_l by auto. reflexivity.
Qed.
Lemma jacobian_neg d c delta n mx old dt i j : (i < d)%nat -> (j < d)%nat ->
  cohesive_jacobian d c (vneg delta) (vneg n) mx old dt i j = cohesive_jacobian d c delta n mx old dt i j.
Proof.
  intros Hi Hj. unfold cohesive_jacobian. rewrite !eff_eq, opening_neg, identity_neg.
  f_equal. destruct (branch_of _ _ _); auto. f_equal. f_equal. f_equal. f_equal.
  unfold symmetrize, outer. rewrite !dir_neg by auto. field.
Qed.
Lemma contact_neg d c delta n i : contact_traction d c (vneg delta) (vneg n) i = - contact_traction d c delta n i.
Proof. unfold contact_traction. rewrite dot_neg_l, dot_neg_r, Ropp_involutive. unfold vneg. ring. Qed.
Lemma contact_jacobian_neg d c delta n i j : contact_jacobian d c (vneg delta) (vneg n) i j = contact_jacobian d c delta n i j.
Proof.
  unfold contact_jacobian, mscal, symmetrize, outer. rewrite dot_neg_l, dot_neg_r, !Ropp_involutive. unfold vneg.
  replace (- n i * - n j + - n j * - n i) with (n i * n j + n j * n i) by ring. reflexivity.
Qed.

(** ** C35 *)
Lemma degradation_lt1 m x : x < 1 -> degradation m x true = Fin (Rpower (1 - x) m).
Proof. intros H. unfold degradation, cpow. rewrite (proj2 (Rltb_true 0 (1 - x))) by lra. reflexivity. Qed.
Lemma degradation_1 m : 0 < m -> degradation m 1 true = Fin 0.
Proof.
  intros H. unfold degradation, cpow. replace (1 - 1) with 0 by ring.
  rewrite (proj2 (Rltb_false 0 0)), (proj2 (Reqb_true 0 0)), (proj2 (Rltb_true 0 m)) by lra. reflexivity.
Qed.
Lemma Rpower_le_1 x m : 0 < x <= 1 -> 0 <= m -> Rpower x m <= 1.
Proof.
  intros [H K] Hm. unfold Rpower. rewrite <- exp_0. 
  assert (ln x <= 0). { rewrite <- ln_1. destruct K as [K|K]; [left; apply ln_increasing; lra|subst; right; reflexivity]. }
  assert (m * ln x <= 0) by nra. destruct H1 as [H1|H1]; [left; apply exp_increasing; auto|rewrite H1; lra].
Qed.
Lemma degradation_range m x : 0 < m -> 0 <= x <= 1 -> exists y, degradation m x true = Fin y /\ 0 <= y <= 1.
Proof.
  intros Hm [H0 [H1|H1]].
  - exists (Rpower (1 - x) m). rewrite degradation_lt1 by auto. split; auto. split; [apply Rlt_le, exp_pos|].
    apply Rpower_le_1; lra.
  - subst. exists 0. rewrite degradation_1 by auto. split; auto. lra.
Qed.
Lemma degradation_decreasing m x y : 0 < m -> x < y -> y <= 1 ->
  val (degradation m y true) < val (degradation m x true).
Proof.
  intros Hm Hxy [Hy|Hy].
  - rewrite !degradation_lt1 by lra. cbn [val]. apply Rlt_Rpower_l; lra.
  - subst. rewrite degradation_1, degradation_lt1 by lra. cbn [val]. apply exp_pos.
Qed.
Lemma degradation_0 m : degradation m 0 true = Fin 1.
Proof. rewrite degradation_lt1 by lra. f_equal. replace (1 - 0) with 1 by ring. unfold Rpower. rewrite ln_1, Rmult_0_r. apply exp_0. Qed.
Lemma locally_lt (a x : R) (P : R -> Prop) : x < a -> (forall y, y < a -> P y) -> locally x P.
Proof.
  intros H K. assert (D : 0 < a - x) by lra. exists (mkposreal _ D). intros y Hy. apply K.
  unfold ball in Hy; simpl in Hy. unfold AbsRing_ball, abs, minus, plus, opp in Hy; simpl in Hy.
  apply Rabs_def2 in Hy. lra.
Qed.
Lemma degradation_derive m x : x < 1 ->
  is_derive (fun y => val (degradation m y true)) x (val (degradation_derivative m x true)).
Proof.
  intros H. apply (is_derive_ext_loc (fun y => exp (m * ln (1 - y)))).
  - apply (locally_lt 1); auto. intros y Hy. rewrite degradation_lt1 by auto. reflexivity.
  - unfold degradation_derivative, cpow. rewrite (proj2 (Rltb_true 0 (1 - x))) by lra. cbn [xmul val].
    replace (- m * Rpower (1 - x) (m - 1)) with (m * (- / (1 - x)) * exp (m * ln (1 - x))).
    + auto_derive; [lra|]. unfold Rminus. field. lra.
    + change (exp (m * ln (1 - x))) with (Rpower (1 - x) m). replace m with ((m - 1) + 1) at 2 by ring.
      rewrite Rpower_plus, Rpower_1 by lra. field. lra.
Qed.
