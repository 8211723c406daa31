(** * C75: trial microstress. *)
From Coq Require Import FunctionalExtensionality.
From Coquelicot Require Import Coquelicot.
From Verif Require Import Num SumLemmas Tensors TensorLemmas ModelUtilities ProofUtilities ModelElastic SpecElastic
  ProofElastic ModelMicro SpecMicro ProofMicro ModelAssembly SpecAssembly ProofAssembly ModelHistory ModelFEField
  ModelActiveSet SpecActiveSet PropActiveSet ModelTrial SpecTrial.
Open Scope R_scope.

Lemma elastic_shear_model t q a :
  elastic_shear t q a =
  cr_N (tc_crystal t) 3 * resolved_shear_stress (cr_dim (tc_crystal t)) (cr_P (tc_crystal t) a)
    (trial_stress_at (tc_crystal t) (tc_element t) (tc_U t) (tc_Uold t) q).
Proof.
  unfold elastic_shear, resolved_shear_stress, trial_stress_at. f_equal. 
  apply sumn_ext; intros r _; apply sumn_ext; intros s _. f_equal.
  unfold c4, sum2. apply sumn_ext; intros k _; apply sumn_ext; intros l _. f_equal.
  unfold madd. f_equal. rewrite elastic_sum. reflexivity.
Qed.

Lemma microstress_at_rest l s g dt : scalar_microstress l s s g dt = 0.
Proof.
  pose proof (microstress_odd l s s g dt) as H. replace (s - (s - s)) with s in H by ring. lra.
Qed.

(** Finite form of the cell integral. *)
Lemma trial_cell_form c e U Uold i : 2 <= cr_p c -> (cr_dim c <= el_comp e i)%nat ->
  let a := (el_comp e i - cr_dim c)%nat in
  trial_rhs_cell c e U Uold i = Fin (sumn (el_nq e) (fun q =>
    (el_psi e a i q * (cr_N c 3 * resolved_shear_stress (cr_dim c) (cr_P c a) (trial_stress_at c e U Uold q))
     - cr_N c 2 * dot (cr_dim c) (el_dpsi e a i q)
         (vm (cr_factor c) (cr_p c) (cr_dim c) (cr_dir c a) (cr_ort c a) (slip_gradient_at e Uold q a))) * el_w e q)).
Proof.
  intros Hp Hi a. unfold trial_rhs_cell. destruct (Nat.ltb_spec (el_comp e i) (cr_dim c)); [lia|].
  cbv zeta. fold a. apply xsumn_fin'. intros q Hq.
  rewrite (xdot_fin _ _ _ (vm (cr_factor c) (cr_p c) (cr_dim c) (cr_dir c a) (cr_ort c a) (slip_gradient_at e Uold q a)))
    by (intros; apply microstress_fin; auto).
  cbn [xmul xsub xadd xneg]. f_equal. ring.
Qed.

(** With the slips kept at their committed values, the right-hand side of the trial microstress
    is, row by row, the slip part of the residual (whose scalar microstress then vanishes): the
    trial microstress is what balance asks of the slip resistance. *)
Theorem C75_right_hand_side_is_the_frozen_residual : forall c e U Uold g i,
  primitive (cr_dim c) (cr_ns c) e -> 2 <= cr_p c -> cr_N c 0 <> 0 ->
  (i < el_nd e)%nat -> (cr_dim c <= el_comp e i)%nat ->
  (forall a q, (a < cr_ns c)%nat -> (q < el_nq e)%nat ->
     slip_at e U q a = slip_at e Uold q a /\
     forall r, slip_gradient_at e U q a r = slip_gradient_at e Uold q a r) ->
  residual_bulk c e U Uold g i = trial_rhs_cell c e U Uold i.
Proof.
  intros c e U Uold g i H Hp HN Hi Ci HF.
  rewrite trial_cell_form by auto. cbv zeta. set (a := (el_comp e i - cr_dim c)%nat).
  apply xsumn_fin'. intros q Hq.
  destruct (Nat.ltb_spec (el_comp e i) (cr_dim c)); [lia|]. cbv zeta. fold a.
  destruct (comp_slip _ _ _ _ _ H Hi Hq ltac:(lia)) as (A & B & K). fold a in A.
  destruct (HF a q A Hq) as [Es Eg].
  assert (G : slip_gradient_at e U q a = slip_gradient_at e Uold q a) by (apply functional_extensionality; exact Eg).
  rewrite G, Es, microstress_at_rest.
  assert (S : forall r s, stress_at c e U q r s = trial_stress_at c e U Uold q r s).
  { intros r s. unfold stress_at, trial_stress_at, c4. apply sumn_ext; intros k _; apply sumn_ext; intros l _.
    f_equal. unfold madd. f_equal. rewrite !elastic_sum. f_equal. f_equal. apply sumn_ext; intros b Hb.
    rewrite (proj1 (HF b q Hb Hq)). reflexivity. }
  unfold resolved_shear_stress.
  rewrite (ddot_ext (cr_dim c) _ _ (trial_stress_at c e U Uold q) (cr_P c a)) by auto.
  rewrite (xdot_fin _ _ _ (vm (cr_factor c) (cr_p c) (cr_dim c) (cr_dir c a) (cr_ort c a) (slip_gradient_at e Uold q a)))
    by (intros; apply microstress_fin; auto).
  cbn [xmul xsub xadd xneg]. f_equal. ring.
Qed.

Lemma vm_zero factor p d dir ort grad i : (forall r, grad r = 0) -> vm factor p d dir ort grad i = 0.
Proof.
  intros H. unfold vm. rewrite !(dot_comm d _ grad), !(dot_zero_l d grad) by exact H. unfold phi. ring.
Qed.

(** Local entries of a slip row. *)
Lemma local_rhs_uniform t i a : trial_cell_ok t -> no_slip_gradient t ->
  (i < el_nd (tc_element t))%nat -> el_comp (tc_element t) i = (cr_dim (tc_crystal t) + a)%nat ->
  (a < cr_ns (tc_crystal t))%nat ->
  trial_rhs_local t i = Fin (sumn (el_nq (tc_element t)) (fun q =>
    el_psi (tc_element t) a i q * el_w (tc_element t) q * elastic_shear t q a)).
Proof.
  intros (HP & Hp & HS) (HG & HF) Hi Hc Ha. unfold trial_rhs_local.
  set (c := tc_crystal t) in *. set (e := tc_element t) in *.
  assert (E : trial_rhs_cell c e (tc_U t) (tc_Uold t) i = Fin (sumn (el_nq e) (fun q =>
    el_psi e a i q * el_w e q * elastic_shear t q a))).
  { rewrite trial_cell_form by (auto; lia). cbv zeta. replace (el_comp e i - cr_dim c)%nat with a by lia.
    f_equal. apply sumn_ext; intros q Hq. rewrite elastic_shear_model. fold c e.
    rewrite (dot_comm _ (el_dpsi e a i q)), dot_zero_l by (intros r; apply vm_zero; intros; apply HG). ring. }
  rewrite E. clear E. revert HF. induction (tc_faces t) as [|f fs IH]; intros HF; [reflexivity|].
  cbn [fold_left].
  assert (Z : trial_rhs_face c e (tc_Uold t) f i = Fin 0).
  { unfold trial_rhs_face. destruct (Nat.ltb_spec (el_comp e i) (cr_dim c)); [lia|]. cbv zeta.
    rewrite (xsumn_fin' _ _ (fun _ => 0)).
    - f_equal. apply sumn_zero; auto.
    - intros q Hq. set (a' := (el_comp e i - cr_dim c)%nat).
      rewrite (xdot_fin _ _ _ (fun _ => 0)).
      + rewrite (dot_comm _ (bf_n f q)), dot_zero_l by auto. cbn [xmul]. f_equal. ring.
      + intros r Hr. rewrite microstress_fin by exact Hp. f_equal. apply vm_zero. intros s. apply HF. left; reflexivity. }
  rewrite Z. cbn [xadd]. rewrite Rplus_0_r. apply IH. intros f' b q r Hf'. apply HF. right; exact Hf'.
Qed.
Lemma local_lumped_rowsum t i a : trial_cell_ok t ->
  (i < el_nd (tc_element t))%nat -> el_comp (tc_element t) i = (cr_dim (tc_crystal t) + a)%nat ->
  (a < cr_ns (tc_crystal t))%nat ->
  lumped_local t i = sumn (el_nq (tc_element t)) (fun q => el_psi (tc_element t) a i q * el_w (tc_element t) q).
Proof.
  intros (HP & Hp & HS) Hi Hc Ha. unfold lumped_local.
  set (c := tc_crystal t) in *. set (e := tc_element t) in *.
  apply sumn_ext; intros q Hq. destruct (Nat.leb_spec (cr_dim c) (el_comp e i)); [|lia].
  replace (el_comp e i - cr_dim c)%nat with a by lia.
  rewrite (sumn_ext (el_nd e) _ (fun j => el_psi e a i q * el_w e q * el_psi e a j q)).
  - rewrite sumn_scal. unfold e. rewrite HS by auto. ring.
  - intros j Hj. destruct (HP j q Hj Hq) as (_ & _ & K).
    destruct (Nat.leb_spec (cr_dim c) (el_comp e j)) as [L|L].
    + destruct (Nat.eqb_spec a (el_comp e j - cr_dim c)) as [Eq|Ne]; simpl.
      * rewrite <- Eq. ring.
      * rewrite (proj1 (K a Ha ltac:(lia) 0%nat)). ring.
    + rewrite (proj1 (K a Ha ltac:(lia) 0%nat)). ring.
Qed.

(** Weighted sums over the rows of dof [k]. *)
Definition weighted (f : trial_cell -> nat -> R) (k a : nat) (cells : list trial_cell) : R :=
  fold_right (fun t acc => sumn (el_nd (tc_element t)) (fun i =>
    if Nat.eqb (tc_dof t i) k then sumn (el_nq (tc_element t)) (fun q =>
      el_psi (tc_element t) a i q * el_w (tc_element t) q * f t q) else 0) + acc) 0 cells.
Lemma global_rhs cells k a :
  (forall t, In t cells -> trial_cell_ok t /\ no_slip_gradient t /\ belongs_to t k a) ->
  trial_rhs cells k = Fin (weighted (fun t q => elastic_shear t q a) k a cells).
Proof.
  intros H. unfold trial_rhs.
  cut (forall x, fold_left (fun acc t => xadd acc
    (xsumn (el_nd (tc_element t)) (fun i => if Nat.eqb (tc_dof t i) k then trial_rhs_local t i else Fin 0))) cells (Fin x)
    = Fin (x + weighted (fun t q => elastic_shear t q a) k a cells)).
  { intros G. rewrite G. f_equal. ring. }
  induction cells as [|t cells IH]; intros x; [simpl; f_equal; ring|]. cbn [fold_left weighted fold_right].
  destruct (H t (or_introl eq_refl)) as (A & B & C).
  rewrite (xsumn_fin' _ _ (fun i => if Nat.eqb (tc_dof t i) k then sumn (el_nq (tc_element t)) (fun q =>
      el_psi (tc_element t) a i q * el_w (tc_element t) q * elastic_shear t q a) else 0)).
  - cbn [xadd]. rewrite IH by (intros; apply H; right; auto). f_equal. unfold weighted. ring.
  - intros i Hi. destruct (Nat.eqb_spec (tc_dof t i) k) as [E|E]; [|reflexivity].
    destruct (C i Hi E). apply local_rhs_uniform; auto.
Qed.
Lemma global_lumped cells k a :
  (forall t, In t cells -> trial_cell_ok t /\ belongs_to t k a) ->
  lumped_matrix cells k = weighted (fun _ _ => 1) k a cells.
Proof.
  intros H. unfold lumped_matrix.
  cut (forall x, fold_left (fun acc t => acc +
    sumn (el_nd (tc_element t)) (fun i => if Nat.eqb (tc_dof t i) k then lumped_local t i else 0)) cells x
    = x + weighted (fun _ _ => 1) k a cells).
  { intros G. rewrite G. ring. }
  induction cells as [|t cells IH]; intros x; [simpl; ring|]. cbn [fold_left weighted fold_right].
  destruct (H t (or_introl eq_refl)) as (A & C). rewrite IH by (intros; apply H; right; auto).
  rewrite (sumn_ext _ (fun i => if Nat.eqb (tc_dof t i) k then lumped_local t i else 0)
    (fun i => if Nat.eqb (tc_dof t i) k then sumn (el_nq (tc_element t)) (fun q =>
      el_psi (tc_element t) a i q * el_w (tc_element t) q * 1) else 0)); [unfold weighted; ring|].
  intros i Hi. destruct (Nat.eqb_spec (tc_dof t i) k) as [E|E]; [|reflexivity].
  destruct (C i Hi E). rewrite (local_lumped_rowsum t i a) by auto. apply sumn_ext; intros; ring.
Qed.
Lemma weighted_scal f v k a cells :
  (forall t q, In t cells -> touches t k -> (q < el_nq (tc_element t))%nat -> f t q = v) ->
  weighted f k a cells = v * weighted (fun _ _ => 1) k a cells.
Proof.
  induction cells as [|t cells IH]; intros H; cbn [weighted fold_right]; [ring|].
  fold (weighted f k a cells) (weighted (fun _ _ => 1) k a cells).
  rewrite IH by (intros; apply H; auto; right; auto).
  rewrite Rmult_plus_distr_l, <- sumn_scal. f_equal. apply sumn_ext; intros i Hi.
  destruct (Nat.eqb_spec (tc_dof t i) k) as [E|E]; [|ring]. rewrite <- sumn_scal. apply sumn_ext; intros q Hq.
  rewrite H by (auto; first [left; reflexivity | exists i; auto]). ring.
Qed.
Lemma weighted_le f g k a cells :
  (forall t, In t cells -> nonnegative_elements t) ->
  (forall t q, In t cells -> touches t k -> (q < el_nq (tc_element t))%nat -> f t q <= g t q) ->
  weighted f k a cells <= weighted g k a cells.
Proof.
  induction cells as [|t cells IH]; intros HN H; cbn [weighted fold_right]; [lra|].
  apply Rplus_le_compat; [|apply IH; intros; [apply HN|apply H]; auto; right; auto].
  apply sumn_le; intros i Hi. destruct (Nat.eqb_spec (tc_dof t i) k) as [E|E]; [|lra]. apply sumn_le; intros q Hq.
  destruct (HN t (or_introl eq_refl) i q a Hi Hq) as [W P].
  apply Rmult_le_compat_l; [apply Rmult_le_pos; assumption|]. apply H; auto; first [left; reflexivity | exists i; auto].
Qed.

(** A homogeneous state is reproduced exactly, for elements of any order: wherever the slip
    shape functions add up to one, the trial microstress is the resolved shear stress. *)
Theorem C75_uniform_shear_is_reproduced : forall cells owned rhs hanging trial k a tau,
  (forall t, In t cells -> trial_cell_ok t /\ no_slip_gradient t /\ belongs_to t k a) ->
  (forall t q, In t cells -> touches t k -> (q < el_nq (tc_element t))%nat -> elastic_shear t q a = tau) ->
  trial_rhs cells k = Fin (rhs k) ->
  compute_trial_microstress owned rhs (lumped_matrix cells) hanging = Ok trial ->
  In k owned -> hanging k = None ->
  trial k = tau.
Proof.
  intros cells owned rhs hanging trial k a tau H HT HR HC Hk Hh.
  destruct (proj1 (C43_trial_microstress_is_lumped_quotient owned rhs (lumped_matrix cells) hanging) trial HC k Hk Hh)
    as [N ->].
  rewrite (global_rhs cells k a H) in HR. injection HR as <-.
  rewrite (weighted_scal _ tau) by exact HT.
  rewrite (global_lumped cells k a) in N |- * by (intros t Ht; destruct (H t Ht) as (A & _ & B); auto).
  field. exact N.
Qed.

(** With non-negative shape functions the trial microstress is a mean value of the resolved
    shear stress in the cells around the node: it never leaves its range. *)
Theorem C75_trial_is_a_mean_of_the_shear : forall cells owned rhs hanging trial k a,
  (forall t, In t cells -> trial_cell_ok t /\ no_slip_gradient t /\ belongs_to t k a) ->
  (forall t, In t cells -> nonnegative_elements t) ->
  trial_rhs cells k = Fin (rhs k) ->
  compute_trial_microstress owned rhs (lumped_matrix cells) hanging = Ok trial ->
  In k owned -> hanging k = None ->
  (forall lo, (forall t q, In t cells -> touches t k -> (q < el_nq (tc_element t))%nat -> lo <= elastic_shear t q a) ->
     lo <= trial k) /\
  (forall hi, (forall t q, In t cells -> touches t k -> (q < el_nq (tc_element t))%nat -> elastic_shear t q a <= hi) ->
     trial k <= hi).
Proof.
  intros cells owned rhs hanging trial k a H HN HR HC Hk Hh.
  destruct (proj1 (C43_trial_microstress_is_lumped_quotient owned rhs (lumped_matrix cells) hanging) trial HC k Hk Hh)
    as [N ->].
  rewrite (global_rhs cells k a H) in HR. injection HR as <-.
  rewrite (global_lumped cells k a) in N |- * by (intros t Ht; destruct (H t Ht) as (A & _ & B); auto).
  set (m := weighted (fun _ _ => 1) k a cells) in *.
  assert (P : 0 < m).
  { enough (0 <= m) by lra. unfold m. rewrite <- (Rmult_0_l m). unfold m.
    rewrite <- (weighted_scal (fun _ _ => 0) 0 k a cells) by auto. apply weighted_le; auto. intros; lra. }
  split; intros v HV; apply Rmult_le_reg_r with m; auto; unfold Rdiv; rewrite Rmult_assoc, Rinv_l, Rmult_1_r by exact N;
    unfold m; rewrite <- (weighted_scal (fun _ _ => v) v k a cells) by auto; apply weighted_le; auto; intros; apply HV; auto.
Qed.

(** Where the resolved shear stress stays below the yield stress no slip is activated, and where
    it exceeds it everywhere around the node, in one sense, the slip is activated. *)
Theorem C75_activation_follows_the_shear : forall p s cells rhs trial k a,
  p_rate_independent p = true -> (0 < p_n_slips p)%nat -> incl (p_owned_slip p) (p_owned p) ->
  (forall d m, ~ slave_of (p_affine p) d m) ->
  (forall t, In t cells -> trial_cell_ok t /\ no_slip_gradient t /\ belongs_to t k a) ->
  (forall t, In t cells -> nonnegative_elements t) ->
  trial_rhs cells k = Fin (rhs k) ->
  compute_trial_microstress (p_owned_slip p) rhs (lumped_matrix cells) (p_hanging p) = Ok trial ->
  In k (p_owned_slip p) -> p_hanging p k = None -> free (p_affine p) k ->
  ((forall t q, In t cells -> touches t k -> (q < el_nq (tc_element t))%nat ->
       - yield_of p k <= elastic_shear t q a <= yield_of p k) ->
     In k (inactive_set (recomputed p trial s)) /\ ~ In k (active_set (recomputed p trial s))) /\
  (forall y, yield_of p k < y ->
     (forall t q, In t cells -> touches t k -> (q < el_nq (tc_element t))%nat -> y <= elastic_shear t q a) \/
     (forall t q, In t cells -> touches t k -> (q < el_nq (tc_element t))%nat -> elastic_shear t q a <= - y) ->
     In k (active_set (recomputed p trial s))).
Proof.
  intros p s cells rhs trial k a HR HN HI HS H HE HRhs HC Hk Hh Hf.
  destruct (C43_sets_without_periodicity p trial s k HR HN HI HS) as [A B]. cbv zeta in A, B.
  destruct (C75_trial_is_a_mean_of_the_shear cells _ rhs _ trial k a H HE HRhs HC Hk Hh) as [Lo Hi].
  split.
  - intros HY.
    assert (M : - yield_of p k <= trial k <= yield_of p k)
      by (split; [apply Lo|apply Hi]; intros t q X Y Z; apply (HY t q X Y Z)).
    apply Rabs_le in M. split; [apply B; auto|]. intros X. apply A in X. lra.
  - intros y Hy [L|L]; apply A; split; auto; split; auto.
    + pose proof (Lo y L). pose proof (Rle_abs (trial k)). lra.
    + pose proof (Hi (- y) L). pose proof (Rle_abs (- trial k)) as Q. rewrite Rabs_Ropp in Q. lra.
Qed.

(** ** Slip gradients *)
Lemma vm_val t a g r : 2 <= cr_p (tc_crystal t) ->
  vm (cr_factor (tc_crystal t)) (cr_p (tc_crystal t)) (cr_dim (tc_crystal t)) (cr_dir (tc_crystal t) a) (cr_ort (tc_crystal t) a) g r
  = microstress_of (tc_crystal t) a g r.
Proof. intros H. unfold microstress_of. rewrite microstress_fin by exact H. reflexivity. Qed.
Lemma dot_ext_lt d u v w : (forall r, (r < d)%nat -> v r = w r) -> dot d u v = dot d u w.
Proof. intros H. unfold dot. apply sumn_ext; intros r Hr. rewrite H by exact Hr. reflexivity. Qed.
Lemma sumn_dot n d f u v : sumn n (fun q => f q * dot d (u q) v) = dot d (fun r => sumn n (fun q => f q * u q r)) v.
Proof.
  unfold dot. rewrite (sumn_ext d _ (fun r => sumn n (fun q => f q * (u q r * v r)))).
  - rewrite sumn_swap. apply sumn_ext; intros q _. rewrite sumn_scal. reflexivity.
  - intros r _. rewrite Rmult_comm, <- sumn_scal. apply sumn_ext; intros; ring.
Qed.
Lemma local_rhs_moments t i a xi : trial_cell_ok t -> uniform_microstress t a xi ->
  (i < el_nd (tc_element t))%nat -> el_comp (tc_element t) i = (cr_dim (tc_crystal t) + a)%nat ->
  trial_rhs_local t i = Fin (
    sumn (el_nq (tc_element t)) (fun q => el_psi (tc_element t) a i q * el_w (tc_element t) q * elastic_shear t q a)
    - cr_N (tc_crystal t) 2 * dot (cr_dim (tc_crystal t))
        (fun r => sumn (el_nq (tc_element t)) (fun q => el_w (tc_element t) q * el_dpsi (tc_element t) a i q r)) xi
    + cr_N (tc_crystal t) 2 * dot (cr_dim (tc_crystal t))
        (fun r => sum_of (tc_faces t) (fun f => sumn (bf_nq f) (fun q => bf_w f q * bf_psi f a i q * bf_n f q r))) xi).
Proof.
  intros (HP & Hp & HS) HX Hi Hc. unfold trial_rhs_local.
  set (c := tc_crystal t) in *. set (e := tc_element t) in *. set (d := cr_dim c) in *.
  assert (E : trial_rhs_cell c e (tc_U t) (tc_Uold t) i = Fin (
    sumn (el_nq e) (fun q => el_psi e a i q * el_w e q * elastic_shear t q a)
    - cr_N c 2 * dot d (fun r => sumn (el_nq e) (fun q => el_w e q * el_dpsi e a i q r)) xi)).
  { rewrite trial_cell_form by (auto; unfold d in *; lia). cbv zeta. fold d. replace (el_comp e i - d)%nat with a by lia.
    f_equal. rewrite <- sumn_dot, <- sumn_scal, <- sumn_minus. apply sumn_ext; intros q Hq.
    rewrite elastic_shear_model. fold c e d.
    rewrite (dot_ext_lt d _ _ xi); [ring|]. intros r Hr. unfold c, d. rewrite vm_val by exact Hp. 
    apply (proj1 (HX r Hr)); exact Hq. }
  rewrite E. clear E.
  assert (F : forall f, In f (tc_faces t) -> trial_rhs_face c e (tc_Uold t) f i =
    Fin (cr_N c 2 * dot d (fun r => sumn (bf_nq f) (fun q => bf_w f q * bf_psi f a i q * bf_n f q r)) xi)).
  { intros f Hf. unfold trial_rhs_face. destruct (Nat.ltb_spec (el_comp e i) (cr_dim c)); [unfold d in *; lia|]. cbv zeta.
    fold d. replace (el_comp e i - d)%nat with a by lia.
    rewrite (xsumn_fin' _ _ (fun q => cr_N c 2 * (bf_w f q * bf_psi f a i q * dot d (bf_n f q) xi))).
    - f_equal. rewrite sumn_scal. f_equal. apply sumn_dot.
    - intros q Hq. rewrite (xdot_fin _ _ _ xi).
      + cbn [xmul]. f_equal. ring.
      + intros r Hr. rewrite microstress_fin by exact Hp. f_equal. unfold d, c. rewrite vm_val by exact Hp.
        apply (proj2 (HX r Hr)); auto. }
  revert F. generalize (sumn (el_nq e) (fun q => el_psi e a i q * el_w e q * elastic_shear t q a)
    - cr_N c 2 * dot d (fun r => sumn (el_nq e) (fun q => el_w e q * el_dpsi e a i q r)) xi).
  induction (tc_faces t) as [|f fs IH]; intros x F; cbn [fold_left sum_of fold_right].
  - f_equal. unfold dot. rewrite (sumn_zero d) by (intros; ring). ring.
  - rewrite F by (left; reflexivity). cbn [xadd]. rewrite IH by (intros; apply F; right; auto). f_equal.
    unfold dot. rewrite Rplus_assoc, <- Rmult_plus_distr_l, <- sumn_plus. do 2 f_equal. apply sumn_ext; intros r _.
    unfold sum_of. ring.
Qed.
Lemma global_rhs_moments cells k a xi d N2 :
  (forall t, In t cells -> trial_cell_ok t /\ uniform_microstress t a xi /\ belongs_to t k a /\
     cr_dim (tc_crystal t) = d /\ cr_N (tc_crystal t) 2 = N2) ->
  trial_rhs cells k = Fin (weighted (fun t q => elastic_shear t q a) k a cells
    - N2 * dot d (gradient_integral cells k a) xi + N2 * dot d (boundary_integral cells k a) xi).
Proof.
  intros H. unfold trial_rhs.
  match goal with |- fold_left ?G cells _ = Fin ?V =>
    cut (forall x, fold_left G cells (Fin x) = Fin (x + V)); [intros X; rewrite X; f_equal; ring|] end.
  induction cells as [|t cells IH]; intros x.
  { cbn [fold_left weighted fold_right]. unfold gradient_integral, boundary_integral, dot. cbn [sum_of fold_right].
    rewrite (sumn_zero d) by (intros; ring). f_equal. ring. }
  cbn [fold_left]. destruct (H t (or_introl eq_refl)) as (A & B & C & D & M).
  rewrite (xsumn_fin' _ _ (fun i =>
    (if Nat.eqb (tc_dof t i) k then sumn (el_nq (tc_element t)) (fun q =>
      el_psi (tc_element t) a i q * el_w (tc_element t) q * elastic_shear t q a) else 0)
    - N2 * dot d (fun r => if Nat.eqb (tc_dof t i) k then sumn (el_nq (tc_element t)) (fun q => el_w (tc_element t) q * el_dpsi (tc_element t) a i q r) else 0) xi
    + N2 * dot d (fun r => if Nat.eqb (tc_dof t i) k then sum_of (tc_faces t) (fun f => sumn (bf_nq f) (fun q => bf_w f q * bf_psi f a i q * bf_n f q r)) else 0) xi)).
  - cbn [xadd]. rewrite IH by (intros; apply H; right; auto). f_equal.
    rewrite sumn_plus, sumn_minus, !sumn_scal.
    assert (SD : forall g : nat -> vec, sumn (el_nd (tc_element t)) (fun i => dot d (g i) xi)
      = dot d (fun r => sumn (el_nd (tc_element t)) (fun i => g i r)) xi).
    { intros g. rewrite (sumn_ext _ (fun i => dot d (g i) xi) (fun i => 1 * dot d (g i) xi)) by (intros; ring).
      rewrite sumn_dot. unfold dot. apply sumn_ext; intros r _. f_equal. apply sumn_ext; intros; ring. }
    rewrite !SD.
    assert (DP : forall u v w, (forall r, u r = v r + w r) -> dot d u xi = dot d v xi + dot d w xi).
    { intros u v w E. unfold dot. rewrite <- sumn_plus. apply sumn_ext; intros r _. rewrite E. ring. }
    rewrite (DP (gradient_integral (t :: cells) k a) _ (gradient_integral cells k a)) by (intros r; reflexivity).
    rewrite (DP (boundary_integral (t :: cells) k a) _ (boundary_integral cells k a)) by (intros r; reflexivity).
    cbn [weighted fold_right]. fold (weighted (fun t q => elastic_shear t q a) k a cells). ring.
  - intros i Hi. destruct (Nat.eqb_spec (tc_dof t i) k) as [E|E].
    + destruct (C i Hi E) as [C1 C2]. rewrite (local_rhs_moments t i a xi A B Hi C1), D, M. reflexivity.
    + unfold dot. rewrite !(sumn_zero d) by (intros; ring). f_equal. ring.
Qed.

(** Slip gradients that carry a constant vectorial microstress do not disturb the trial
    microstress, at inner and at boundary nodes: wherever the quadratures satisfy the divergence
    theorem, the boundary faces cancel what the cells contribute. *)
Theorem C75_uniform_slip_gradient_is_cancelled : forall cells owned rhs hanging trial k a tau xi d N2,
  (forall t, In t cells -> trial_cell_ok t /\ uniform_microstress t a xi /\ belongs_to t k a /\
     cr_dim (tc_crystal t) = d /\ cr_N (tc_crystal t) 2 = N2) ->
  (forall r, (r < d)%nat -> gradient_integral cells k a r = boundary_integral cells k a r) ->
  (forall t q, In t cells -> touches t k -> (q < el_nq (tc_element t))%nat -> elastic_shear t q a = tau) ->
  trial_rhs cells k = Fin (rhs k) ->
  compute_trial_microstress owned rhs (lumped_matrix cells) hanging = Ok trial ->
  In k owned -> hanging k = None ->
  trial k = tau.
Proof.
  intros cells owned rhs hanging trial k a tau xi d N2 H HD HT HR HC Hk Hh.
  destruct (proj1 (C43_trial_microstress_is_lumped_quotient owned rhs (lumped_matrix cells) hanging) trial HC k Hk Hh)
    as [N ->].
  rewrite (global_rhs_moments cells k a xi d N2 H) in HR. injection HR as <-.
  rewrite (weighted_scal _ tau) by exact HT.
  rewrite (global_lumped cells k a) in N |- * by (intros t Ht; destruct (H t Ht) as (A & _ & B & _); auto).
  replace (dot d (gradient_integral cells k a) xi) with (dot d (boundary_integral cells k a) xi)
    by (unfold dot; apply sumn_ext; intros r Hr; rewrite HD by exact Hr; reflexivity).
  field. exact N.
Qed.

(** Two cells sharing the middle one of three nodes, stressed to 2 and to 4: the trial
    microstress of the shared node is 3. *)
Definition bar_element : element :=
  mk_element 1 2 (fun _ => 2%nat) (fun _ => 1) (fun _ _ => vzero) (fun _ _ _ _ => 0)
    (fun a _ _ => if Nat.eqb a 0 then 1/2 else 0) (fun _ _ _ => vzero).
Definition bar_crystal (tau : R) : crystal :=
  mk_crystal 2 1 (fun _ => 1) (fun i j k l => kron i k * kron j l) (fun _ i j => kron i 0 * kron j 0)
    (mk_scalar_law Tanh 1 0 1 1 true true) 1 2 (fun _ => vzero) (fun _ => vzero) (fun i j => tau * (kron i 0 * kron j 0)) (fun _ => vzero) 1.
Definition bar_face : boundary_face :=
  mk_boundary_face 1 (fun _ => 1) (fun _ => vzero) (fun _ _ _ => 1/2) (fun _ _ _ => vzero).
Definition bar : list trial_cell :=
  [mk_trial_cell (bar_crystal 2) bar_element (fun i => i) (fun _ => 0) (fun _ => 0) [bar_face];
   mk_trial_cell (bar_crystal 4) bar_element S (fun _ => 0) (fun _ => 0) []].
Lemma bar_ok : forall t, In t bar -> trial_cell_ok t /\ no_slip_gradient t /\ belongs_to t 1 0.
Proof.
  assert (P : primitive 2 1 bar_element).
  { intros j q Hj Hq. cbn in *. split; [lia|]. split; [intros; split; reflexivity|]. intros a Ha Hn r. lia. }
  assert (SU : forall a q, (a < 1)%nat -> sumn 2 (fun j => el_psi bar_element a j q) = 1).
  { intros a q Ha. replace a with 0%nat by lia. cbn. lra. }
  intros t [<-|[<-|[]]].
  all: split; [split; [exact P|]; split; [cbn; lra|intros a q Ha _; exact (SU a q Ha)]|].
  all: split; [split|].
  all: try (intros a q r; unfold slip_gradient_at, vzero; cbn; unfold vzero; ring).
  all: try (intros i Hi E; cbn in *; lia).
  all: intros f a q r Hf; destruct Hf as [<-|[]]; cbn; unfold vzero; ring.
Qed.
Lemma bar_nonnegative : forall t, In t bar -> nonnegative_elements t.
Proof.
  intros t [<-|[<-|[]]] i q a Hi Hq; cbn; destruct (Nat.eqb a 0); lra.
Qed.
Lemma bar_shear : forall tau dof fs, elastic_shear (mk_trial_cell (bar_crystal tau) bar_element dof (fun _ => 0) (fun _ => 0) fs) 0 0 = tau.
Proof. intros. unfold elastic_shear, ddot. cbn. unfold kron; cbn. ring. Qed.
Example C75_example : exists trial,
  (forall t, In t bar -> trial_cell_ok t /\ no_slip_gradient t /\ belongs_to t 1 0) /\
  (forall t, In t bar -> nonnegative_elements t) /\ trial_rhs bar 1 = Fin 3 /\
  compute_trial_microstress [1]%nat (fun _ => 3) (lumped_matrix bar) no_constraints = Ok trial /\
  (forall t q, In t bar -> touches t 1 -> (q < el_nq (tc_element t))%nat -> 2 <= elastic_shear t q 0 <= 4) /\
  trial 1%nat = 3.
Proof.
  assert (L : lumped_matrix bar 1 = 1).
  { rewrite (global_lumped bar 1 0) by (intros t Ht; destruct (bar_ok t Ht) as (A & _ & B); auto). cbn. lra. }
  eexists. split; [exact bar_ok|]. split; [exact bar_nonnegative|]. split; [|split; [|split]].
  - rewrite (global_rhs bar 1 0 bar_ok). unfold bar, weighted. cbn [fold_right tc_element tc_dof bar_element el_nd el_nq sumn Nat.eqb].
    rewrite !bar_shear. cbn. f_equal. lra.
  - unfold compute_trial_microstress. cbn [forallb]. rewrite L.
    destruct (Reqb 1 0) eqn:E; [apply Reqb_true in E; lra|]. cbn [negb andb]. reflexivity.
  - intros t q [<-|[<-|[]]] _ Hq; cbn [tc_element bar_element el_nq] in Hq; replace q with 0%nat by lia; rewrite bar_shear; lra.
  - unfold distribute, no_constraints. cbn [mem existsb Nat.eqb orb]. rewrite L. lra.
Qed.

(** One square cell with a slip that grows from 0 at the left to 1 at the right edge. *)
Definition ramp_element : element :=
  mk_element 1 2 (fun _ => 2%nat) (fun _ => 1) (fun _ _ => vzero) (fun _ _ _ _ => 0)
    (fun a _ _ => if Nat.eqb a 0 then 1/2 else 0)
    (fun a i _ r => if Nat.eqb a 0 then (if Nat.eqb i 0 then -1 else 1) * kron r 0 else 0).
Definition ramp_face (normal : R) (here : nat -> R) : boundary_face :=
  mk_boundary_face 1 (fun _ => 1) (fun _ r => normal * kron r 0) (fun a i _ => here i)
    (fun a i q => el_dpsi ramp_element a i q).
Definition ramp_crystal : crystal :=
  mk_crystal 2 1 (fun _ => 1) (fun i j k l => kron i k * kron j l) (fun _ i j => kron i 0 * kron j 0)
    (mk_scalar_law Tanh 1 0 1 1 true true) 1 2 (fun _ r => kron r 0) (fun _ => vzero) (fun i j => 7 * (kron i 0 * kron j 0)) (fun _ => vzero) 1.
Definition ramp : list trial_cell :=
  [mk_trial_cell ramp_crystal ramp_element (fun i => i) (fun _ => 0) (fun j => INR j)
     [ramp_face (-1) (fun i => kron i 0); ramp_face 1 (fun i => kron i 1)]].
Lemma ramp_ok : forall t, In t ramp -> trial_cell_ok t /\ uniform_microstress t 0 (fun r => kron r 0) /\ belongs_to t 1 0 /\
  cr_dim (tc_crystal t) = 2%nat /\ cr_N (tc_crystal t) 2 = 1.
Proof.
  assert (M : forall g r, g 0%nat = 1 -> microstress_of ramp_crystal 0 g r = kron r 0).
  { intros g r Hg. unfold microstress_of. rewrite microstress_fin by (cbn; lra). cbn [val].
    unfold vm, phi. cbn [cr_factor cr_p cr_dim cr_dir cr_ort ramp_crystal].
    replace (dot 2 (fun r0 : nat => kron r0 0) g) with 1 by (unfold dot, kron; cbn; rewrite Hg; ring).
    replace (pow_abs 1 (2 - 2)) with 1; [unfold vzero; ring|].
    unfold pow_abs. replace (2 - 2) with 0 by ring. destruct (Req_EM_T 1 0); try lra.
    all: try (rewrite Rabs_R1; rewrite Rpower_O; lra). }
  intros t [<-|[]]. split; [|split; [|split; [|split; reflexivity]]].
  - split; [|split; [cbn; lra|]].
    + intros j q Hj Hq. cbn in *. split; [lia|]. split; [intros; split; reflexivity|]. intros a Ha Hn r. lia.
    + intros a q Ha _. cbn in Ha. replace a with 0%nat by lia. cbn. lra.
  - intros r _. split.
    + intros q _. apply M. unfold slip_gradient_at. cbn. unfold kron; cbn. lra.
    + intros f q [<-|[<-|[]]] _; apply M; cbn; unfold kron; cbn; lra.
  - intros i Hi E. cbn in *. lia.
Qed.
Example C75_gradient_example :
  (forall r, (r < 2)%nat -> gradient_integral ramp 1 0 r = boundary_integral ramp 1 0 r) /\
  gradient_integral ramp 1 0 0 = 1 /\
  (forall t q, In t ramp -> touches t 1 -> (q < el_nq (tc_element t))%nat -> elastic_shear t q 0 = 13/2).
Proof.
  split; [|split].
  - intros r Hr. unfold gradient_integral, boundary_integral. cbn. unfold kron. cbn. destruct (Nat.eqb r 0); cbn; ring.
  - unfold gradient_integral. cbn. unfold kron. cbn. ring.
  - intros t q [<-|[]] _ Hq. cbn in Hq. replace q with 0%nat by lia.
    unfold elastic_shear, ddot. cbn. unfold kron; cbn. lra.
Qed.
