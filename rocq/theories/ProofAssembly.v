From Coq Require Import FunctionalExtensionality.
From Coquelicot Require Import Coquelicot.
From Verif Require Import Num SumLemmas Tensors TensorLemmas ModelUtilities ProofErf ProofUtilities
  ModelElastic SpecElastic ProofElastic ModelMicro SpecMicro ProofMicro ModelCohesive SpecCohesive ProofCohesive
  SpecInterface ModelAssembly SpecAssembly.
Open Scope R_scope.

Lemma sumn_single n k f : (k < n)%nat -> (forall i, (i < n)%nat -> i <> k -> f i = 0) -> sumn n f = f k.
Proof.
  intros Hk H. rewrite (sumn_ext n f (fun i => kron i k * f i)).
  - apply sumn_kron; auto.
  - intros i Hi. unfold kron. destruct (Nat.eqb_spec i k) as [->|Hn]; [ring|]. rewrite H; auto; ring.
Qed.

(** Strain caused by a unit value of one degree of freedom, and by a coefficient vector. *)
Definition dof_strain (c : crystal) (e : element) (j q : nat) : mat :=
  elastic_strain (cr_N c 0) (cr_P c) (el_eps e j q) (fun a => el_psi e a j q) (cr_ns c).
Definition field_strain (c : crystal) (e : element) (V : nat -> R) (q : nat) : mat :=
  elastic_strain (cr_N c 0) (cr_P c) (strain_at e V q) (slip_at e V q) (cr_ns c).

Lemma field_strain_sum c e V q r s : field_strain c e V q r s = sumn (el_nd e) (fun j => V j * dof_strain c e j q r s).
Proof.
  unfold field_strain, dof_strain. rewrite elastic_sum. unfold strain_at, slip_at.
  rewrite (sumn_ext (el_nd e) (fun j => V j * elastic_strain _ _ _ _ _ _ _)
    (fun j => V j * el_eps e j q r s - cr_N c 0 * sumn (cr_ns c) (fun a => V j * el_psi e a j q * cr_P c a r s))).
  - rewrite sumn_minus, sumn_scal. f_equal. f_equal. rewrite sumn_swap. apply sumn_ext; intros a _.
    rewrite <- sumn_scal_r. reflexivity.
  - intros j _. rewrite elastic_sum.
    rewrite (sumn_ext (cr_ns c) (fun a => V j * el_psi e a j q * cr_P c a r s) (fun a => V j * (el_psi e a j q * cr_P c a r s)))
      by (intros; ring). rewrite sumn_scal. ring.
Qed.

Lemma ddot_sum_r d n (A : mat) (v : nat -> R) (B : nat -> mat) M :
  (forall r s, (r < d)%nat -> (s < d)%nat -> M r s = sumn n (fun j => v j * B j r s)) ->
  ddot d A M = sumn n (fun j => v j * ddot d A (B j)).
Proof.
  intros H. unfold ddot.
  rewrite (sumn_ext d _ (fun r => sumn n (fun j => v j * sumn d (fun s => A r s * B j r s)))).
  - rewrite sumn_swap. apply sumn_ext; intros j _. rewrite sumn_scal. reflexivity.
  - intros r Hr. rewrite (sumn_ext d _ (fun s => sumn n (fun j => v j * (A r s * B j r s)))).
    + rewrite sumn_swap. apply sumn_ext; intros. rewrite sumn_scal. reflexivity.
    + intros s Hs. rewrite H by auto. rewrite <- sumn_scal. apply sumn_ext; intros; ring.
Qed.
Lemma c4_sum d n C (v : nat -> R) (B : nat -> mat) M r s :
  (forall k l, (k < d)%nat -> (l < d)%nat -> M k l = sumn n (fun j => v j * B j k l)) ->
  c4 d C M r s = sumn n (fun j => v j * c4 d C (B j) r s).
Proof. intros H. exact (ddot_sum_r d n (fun k l => C r s k l) v B M H). Qed.
Lemma dot_sum_r d n (x : vec) (v : nat -> R) (B : nat -> vec) M :
  (forall r, (r < d)%nat -> M r = sumn n (fun j => v j * B j r)) ->
  dot d x M = sumn n (fun j => v j * dot d x (B j)).
Proof.
  intros H. unfold dot. rewrite (sumn_ext d _ (fun r => sumn n (fun j => v j * (x r * B j r)))).
  - rewrite sumn_swap. apply sumn_ext; intros. rewrite sumn_scal. reflexivity.
  - intros r Hr. rewrite H by auto. rewrite <- sumn_scal. apply sumn_ext; intros; ring.
Qed.

Lemma ddot_major d C A B : major_symmetric d C -> ddot d A (c4 d C B) = ddot d B (c4 d C A).
Proof.
  intros H. unfold ddot, c4.
  change (sum2 d (fun i j => A i j * sum2 d (fun k l => C i j k l * B k l)) =
          sum2 d (fun i j => B i j * sum2 d (fun k l => C i j k l * A k l))).
  rewrite (sum2_ext d _ (fun i j => sum2 d (fun k l => A i j * (C i j k l * B k l)))) by (intros; rewrite sum2_scal; reflexivity).
  rewrite sum2_swap. apply sum2_ext; intros k l Hk Hl. rewrite <- sum2_scal. apply sum2_ext; intros i j Hi Hj.
  rewrite (H k l i j) by auto. ring.
Qed.

(** ** Exceptional values away *)
Lemma xsumn_fin' n f g : (forall i, (i < n)%nat -> f i = Fin (g i)) -> xsumn n f = Fin (sumn n g).
Proof. intros H. rewrite (xsumn_ext n f (fun i => Fin (g i))) by auto. apply xsumn_fin. Qed.
Lemma xdot_fin d a b b' : (forall r, (r < d)%nat -> b r = Fin (b' r)) -> xdot d a b = Fin (dot d a b').
Proof. intros H. apply xsumn_fin'. intros r Hr. rewrite H by auto. reflexivity. Qed.

Definition point_jac (c : crystal) (e : element) (U : nat -> R) (q a : nat) : mat := fun r s =>
  cr_factor c * (cr_p c - 1) * vm_tensor (cr_p c) (cr_dim c) (cr_dir c a) (cr_ort c a) (slip_gradient_at e U q a) r s.
Definition point_xi (c : crystal) (e : element) (U : nat -> R) (q a : nat) : vec :=
  vm (cr_factor c) (cr_p c) (cr_dim c) (cr_dir c a) (cr_ort c a) (slip_gradient_at e U q a).

Lemma comp_displacement d ns e j q : primitive d ns e -> (j < el_nd e)%nat -> (q < el_nq e)%nat ->
  (el_comp e j < d)%nat -> forall a, (a < ns)%nat -> el_psi e a j q = 0 /\ forall r, el_dpsi e a j q r = 0.
Proof.
  intros H Hj Hq Hc a Ha. destruct (H j q Hj Hq) as (_ & _ & K). split; [apply (K a Ha ltac:(lia) 0%nat)|].
  intros r. apply (K a Ha ltac:(lia) r).
Qed.
Lemma comp_slip d ns e j q : primitive d ns e -> (j < el_nd e)%nat -> (q < el_nq e)%nat ->
  ~ (el_comp e j < d)%nat ->
  (el_comp e j - d < ns)%nat /\ (forall r s, el_phi e j q r = 0 /\ el_eps e j q r s = 0) /\
  forall a, (a < ns)%nat -> a <> (el_comp e j - d)%nat -> el_psi e a j q = 0 /\ forall r, el_dpsi e a j q r = 0.
Proof.
  intros H Hj Hq Hc. destruct (H j q Hj Hq) as (A & B & K). split; [lia|]. split; [apply B; lia|].
  intros a Ha Hn. split; [apply (K a Ha ltac:(lia) 0%nat)|]. intros r. apply (K a Ha ltac:(lia) r).
Qed.

Lemma dof_strain_displacement c e j q r s : primitive (cr_dim c) (cr_ns c) e -> (j < el_nd e)%nat -> (q < el_nq e)%nat ->
  (el_comp e j < cr_dim c)%nat -> dof_strain c e j q r s = el_eps e j q r s.
Proof.
  intros H Hj Hq Hc. unfold dof_strain. rewrite elastic_sum, sumn_zero; [ring|]. intros a Ha.
  rewrite (proj1 (comp_displacement _ _ _ _ _ H Hj Hq Hc a Ha)). ring.
Qed.
Lemma dof_strain_slip c e j q r s : primitive (cr_dim c) (cr_ns c) e -> (j < el_nd e)%nat -> (q < el_nq e)%nat ->
  ~ (el_comp e j < cr_dim c)%nat ->
  dof_strain c e j q r s = mscal (- (cr_N c 0 * el_psi e (el_comp e j - cr_dim c) j q)) (cr_P c (el_comp e j - cr_dim c)%nat) r s.
Proof.
  intros H Hj Hq Hc. destruct (comp_slip _ _ _ _ _ H Hj Hq Hc) as (A & B & K). unfold dof_strain, mscal.
  rewrite elastic_sum, (proj2 (B r s)).
  rewrite (sumn_single (cr_ns c) (el_comp e j - cr_dim c)); auto; [ring|].
  intros a Ha Hn. rewrite (proj1 (K a Ha Hn)). ring.
Qed.
Lemma c4_scal d C k A r s : c4 d C (mscal k A) r s = k * c4 d C A r s.
Proof. exact (ddot_scal_r d (fun a b => C r s a b) k A). Qed.
Lemma ddot_scal_l d k A B : ddot d (mscal k A) B = k * ddot d A B.
Proof. rewrite ddot_comm, ddot_scal_r, ddot_comm. reflexivity. Qed.

(** ** Normal forms *)
Definition jac_form (c : crystal) (e : element) (U Uold : nat -> R) (g : nat -> nat -> R) (i j q : nat) : R :=
  balance_factor c * ddot (cr_dim c) (dof_strain c e i q) (c4 (cr_dim c) (cr_C c) (dof_strain c e j q))
  + cr_N c 2 * sumn (cr_ns c) (fun a => dot (cr_dim c) (el_dpsi e a i q) (mv (cr_dim c) (point_jac c e U q a) (el_dpsi e a j q)))
  + sumn (cr_ns c) (fun a => el_psi e a i q * sumn (cr_ns c) (fun b =>
      scalar_jacobian (cr_law c) (slip_at e U q) (slip_at e Uold q) (g q) (cr_dt c) a b * el_psi e b j q)).

Lemma dot_zero_l d a b : (forall r, a r = 0) -> dot d a b = 0.
Proof. intros H. apply sumn_zero. intros r _. rewrite H. ring. Qed.
Lemma mv_zero d A v r : (forall s, v s = 0) -> mv d A v r = 0.
Proof. intros H. apply sumn_zero. intros s _. rewrite H. ring. Qed.

Lemma jacobian_form c e U Uold g i j : primitive (cr_dim c) (cr_ns c) e -> 2 <= cr_p c -> cr_N c 0 <> 0 ->
  (i < el_nd e)%nat -> (j < el_nd e)%nat ->
  jacobian_bulk c e U Uold g i j = Fin (sumn (el_nq e) (fun q => jac_form c e U Uold g i j q * el_w e q)).
Proof.
  intros H Hp HN Hi Hj. apply xsumn_fin'. intros q Hq. cbv zeta. unfold jac_form.
  set (d := cr_dim c) in *. set (ns := cr_ns c) in *.
  set (J := scalar_jacobian (cr_law c) (slip_at e U q) (slip_at e Uold q) (g q) (cr_dt c)).
  destruct (Nat.ltb_spec (el_comp e i) d) as [Ci|Ci]; destruct (Nat.ltb_spec (el_comp e j) d) as [Cj|Cj].
  - f_equal.
    rewrite (ddot_ext d (dof_strain c e i q) (c4 d (cr_C c) (dof_strain c e j q)) (el_eps e i q) (c4 d (cr_C c) (el_eps e j q))).
    + rewrite !sumn_zero; [ring| |].
      * intros a Ha. rewrite (proj1 (comp_displacement _ _ _ _ _ H Hi Hq Ci a Ha)). ring.
      * intros a Ha. apply dot_zero_l. apply (comp_displacement _ _ _ _ _ H Hi Hq Ci a Ha).
    + intros; apply dof_strain_displacement; auto.
    + intros r s _ _. apply c4_ext; auto. intros k l _ _. apply dof_strain_displacement; auto.
  - assert (Cj' : ~ (el_comp e j < d)%nat) by lia. destruct (comp_slip _ _ _ _ _ H Hj Hq Cj') as (A & B & K).
    set (b := (el_comp e j - d)%nat) in *. f_equal.
    rewrite (ddot_ext d (dof_strain c e i q) (c4 d (cr_C c) (dof_strain c e j q)) (el_eps e i q)
       (mscal (- (cr_N c 0 * el_psi e b j q)) (c4 d (cr_C c) (cr_P c b)))).
    + rewrite ddot_scal_r. rewrite !sumn_zero; [ring| |].
      * intros a Ha. rewrite (proj1 (comp_displacement _ _ _ _ _ H Hi Hq Ci a Ha)). ring.
      * intros a Ha. apply dot_zero_l. apply (comp_displacement _ _ _ _ _ H Hi Hq Ci a Ha).
    + intros; apply dof_strain_displacement; auto.
    + intros r s _ _. unfold mscal at 1. rewrite <- c4_scal. apply c4_ext; auto.
      intros k l _ _. apply dof_strain_slip; auto.
  - assert (Ci' : ~ (el_comp e i < d)%nat) by lia. destruct (comp_slip _ _ _ _ _ H Hi Hq Ci') as (A & B & K).
    set (a := (el_comp e i - d)%nat) in *. f_equal.
    rewrite (ddot_ext d (dof_strain c e i q) (c4 d (cr_C c) (dof_strain c e j q))
       (mscal (- (cr_N c 0 * el_psi e a i q)) (cr_P c a)) (c4 d (cr_C c) (el_eps e j q))).
    + rewrite ddot_scal_l. rewrite !sumn_zero; [unfold balance_factor; field; auto| |].
      * intros a' Ha. rewrite (sumn_zero ns); [ring|]. intros b Hb.
        rewrite (proj1 (comp_displacement _ _ _ _ _ H Hj Hq Cj b Hb)). ring.
      * intros a' Ha. rewrite dot_comm. apply dot_zero_l. intros r. apply mv_zero.
        apply (comp_displacement _ _ _ _ _ H Hj Hq Cj a' Ha).
    + intros; apply dof_strain_slip; auto.
    + intros r s _ _. apply c4_ext; auto. intros k l _ _. apply dof_strain_displacement; auto.
  - assert (Ci' : ~ (el_comp e i < d)%nat) by lia. destruct (comp_slip _ _ _ _ _ H Hi Hq Ci') as (A & B & K).
    assert (Cj' : ~ (el_comp e j < d)%nat) by lia. destruct (comp_slip _ _ _ _ _ H Hj Hq Cj') as (A' & B' & K').
    set (a := (el_comp e i - d)%nat) in *. set (b := (el_comp e j - d)%nat) in *.
    assert (G : sumn ns (fun a => dot d (el_dpsi e a i q) (mv d (point_jac c e U q a) (el_dpsi e a j q)))
       = if Nat.eqb a b then dot d (el_dpsi e a i q) (mv d (point_jac c e U q a) (el_dpsi e b j q)) else 0).
    { rewrite (sumn_single ns a); auto.
      - destruct (Nat.eqb_spec a b) as [<-|Hn]; auto. rewrite dot_comm. apply dot_zero_l. intros r. apply mv_zero.
        apply (K' a A Hn).
      - intros a' Ha' Hn. apply dot_zero_l. apply (K a' Ha' Hn). }
    assert (S : sumn ns (fun a => el_psi e a i q * sumn ns (fun b => J a b * el_psi e b j q))
       = el_psi e a i q * (J a b * el_psi e b j q)).
    { rewrite (sumn_single ns a); auto.
      - rewrite (sumn_single ns b); auto. intros b' Hb' Hn. rewrite (proj1 (K' b' Hb' Hn)). ring.
      - intros a' Ha' Hn. rewrite (proj1 (K a' Ha' Hn)). ring. }
    assert (E : ddot d (dof_strain c e i q) (c4 d (cr_C c) (dof_strain c e j q)) =
      (cr_N c 0 * el_psi e a i q) * (cr_N c 0 * el_psi e b j q) * ddot d (cr_P c a) (c4 d (cr_C c) (cr_P c b))).
    { rewrite (ddot_ext d (dof_strain c e i q) (c4 d (cr_C c) (dof_strain c e j q))
         (mscal (- (cr_N c 0 * el_psi e a i q)) (cr_P c a)) (mscal (- (cr_N c 0 * el_psi e b j q)) (c4 d (cr_C c) (cr_P c b)))).
      - rewrite ddot_scal_l, ddot_scal_r. ring.
      - intros; apply dof_strain_slip; auto.
      - intros r s _ _. unfold mscal at 1. rewrite <- c4_scal. apply c4_ext; auto. intros k l _ _. apply dof_strain_slip; auto. }
    rewrite G, S, E.
    assert (X : xdot d (el_dpsi e a i q)
       (fun r => xsumn d (fun s => xmul (vectorial_jacobian (cr_factor c) (cr_p c) d (cr_dir c a) (cr_ort c a)
                                      (slip_gradient_at e U q a) r s) (Fin (el_dpsi e b j q s))))
       = Fin (dot d (el_dpsi e a i q) (mv d (point_jac c e U q a) (el_dpsi e b j q)))).
    { apply xdot_fin. intros r Hr. apply xsumn_fin'. intros s Hs. rewrite vjacobian_fin by auto. reflexivity. }
    rewrite X. destruct (Nat.eqb a b); cbn [xmul xadd]; f_equal; unfold balance_factor; field; auto.
Qed.

Definition res_form (c : crystal) (e : element) (U Uold : nat -> R) (g : nat -> nat -> R) (i q : nat) : R :=
  balance_factor c * (ddot (cr_dim c) (dof_strain c e i q) (stress_at c e U q)
                      - dot (cr_dim c) (el_phi e i q) (cr_supply c q))
  + cr_N c 2 * sumn (cr_ns c) (fun a => dot (cr_dim c) (el_dpsi e a i q) (point_xi c e U q a))
  + sumn (cr_ns c) (fun a => el_psi e a i q *
      scalar_microstress (cr_law c) (slip_at e U q a) (slip_at e Uold q a) (g q a) (cr_dt c)).

Lemma residual_form c e U Uold g i : primitive (cr_dim c) (cr_ns c) e -> 2 <= cr_p c -> cr_N c 0 <> 0 ->
  (i < el_nd e)%nat ->
  residual_bulk c e U Uold g i = Fin (- sumn (el_nq e) (fun q => res_form c e U Uold g i q * el_w e q)).
Proof.
  intros H Hp HN Hi. rewrite <- sumn_opp. apply xsumn_fin'. intros q Hq. unfold res_form. set (d := cr_dim c) in *.
  destruct (Nat.ltb_spec (el_comp e i) d) as [Ci|Ci].
  - cbn [xneg]. f_equal.
    rewrite (ddot_ext d (dof_strain c e i q) (stress_at c e U q) (el_eps e i q) (stress_at c e U q));
      [| intros; apply dof_strain_displacement; auto | auto].
    rewrite !sumn_zero; [ring| |].
    + intros a Ha. rewrite (proj1 (comp_displacement _ _ _ _ _ H Hi Hq Ci a Ha)). ring.
    + intros a Ha. apply dot_zero_l. apply (comp_displacement _ _ _ _ _ H Hi Hq Ci a Ha).
  - assert (Ci' : ~ (el_comp e i < d)%nat) by lia. destruct (comp_slip _ _ _ _ _ H Hi Hq Ci') as (A & B & K).
    cbv zeta. set (a := (el_comp e i - d)%nat) in *.
    rewrite (xdot_fin d _ _ (point_xi c e U q a)) by (intros; apply microstress_fin; auto).
    cbn [xmul xsub xadd xneg]. f_equal. unfold resolved_shear_stress.
    rewrite (ddot_ext d (dof_strain c e i q) (stress_at c e U q)
       (mscal (- (cr_N c 0 * el_psi e a i q)) (cr_P c a)) (stress_at c e U q));
      [| intros; apply dof_strain_slip; auto | auto].
    rewrite ddot_scal_l, (ddot_comm d (cr_P c a)).
    rewrite (dot_zero_l d (el_phi e i q)) by (intros r; apply (B r 0%nat)).
    rewrite (sumn_single _ a); auto; [|intros a' Ha' Hn; apply dot_zero_l; apply (K a' Ha' Hn)].
    rewrite (sumn_single _ a); auto; [|intros a' Ha' Hn; rewrite (proj1 (K a' Ha' Hn)); ring].
    unfold balance_factor. field; auto.
Qed.
