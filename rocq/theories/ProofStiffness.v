(** * Proofs for C96: the forms the Newton matrix is made of. *)
From Coq Require Import FunctionalExtensionality.
From Verif Require Import Num SumLemmas Tensors TensorLemmas ModelUtilities ModelElastic SpecElastic ProofElastic ModelMicro SpecMicro ProofMicro PropMicro ProofUtilities
  ModelCohesive SpecCohesive ProofCohesive PropCohesive ModelHistory ModelInterface SpecInterface
  ModelFEField ModelActiveSet ModelLinear SpecLinear PropLinear ModelAssembly SpecAssembly ProofAssembly ProofNewton ProofFace PropAssembly
  ModelSweep ModelStep ModelBody SpecBody SpecTangent ProofEnergy SpecStiffness.
Open Scope R_scope.

(** ** Grains *)
Definition bulk_form (c : crystal) (e : element) (U Uold : nat -> R) (g : nat -> nat -> R) (W Y : nat -> R) : R :=
  let d := cr_dim c in
  sumn (el_nq e) (fun q => el_w e q *
    (balance_factor c * ddot d (field_strain c e W q) (c4 d (cr_C c) (field_strain c e Y q))
     + cr_N c 2 * sumn (cr_ns c) (fun a => dot d (slip_gradient_at e W q a) (mv d (point_jac c e U q a) (slip_gradient_at e Y q a)))
     + sumn (cr_ns c) (fun a => slip_at e W q a * sumn (cr_ns c) (fun b =>
         scalar_jacobian (cr_law c) (slip_at e U q) (slip_at e Uold q) (g q) (cr_dt c) a b * slip_at e Y q b)))).
Lemma bulk_work c e U Uold g W Y : primitive (cr_dim c) (cr_ns c) e -> 2 <= cr_p c -> cr_N c 0 <> 0 ->
  sumn (el_nd e) (fun i => W i * sumn (el_nd e) (fun j => val (jacobian_bulk c e U Uold g i j) * Y j)) = bulk_form c e U Uold g W Y.
Proof.
  intros H Hp HN.
  set (D := fun q a b => scalar_jacobian (cr_law c) (slip_at e U q) (slip_at e Uold q) (g q) (cr_dt c) a b).
  rewrite (sumn_ext (el_nd e) _ (fun i => sumn (el_nq e) (fun q => el_w e q * (W i * sumn (el_nd e) (fun j => Y j * jac_form_with D c e U i j q))))).
  2: { intros i Hi. rewrite (sumn_ext (el_nd e) _ (fun j => sumn (el_nq e) (fun q => el_w e q * (Y j * jac_form_with D c e U i j q)))).
       - rewrite sumn_swap, <- sumn_scal. apply sumn_ext; intros q _. rewrite sumn_scal. ring.
       - intros j Hj. rewrite jacobian_form by auto. cbn [val]. rewrite <- sumn_scal_r. apply sumn_ext; intros q _.
         unfold jac_form, jac_form_with, D. ring. }
  rewrite sumn_swap. unfold bulk_form. cbv zeta. apply sumn_ext. intros q Hq. rewrite sumn_scal. f_equal.
  rewrite (sumn_ext (el_nd e) _ (fun i =>
     balance_factor c * (W i * ddot (cr_dim c) (dof_strain c e i q) (c4 (cr_dim c) (cr_C c) (field_strain c e Y q)))
     + cr_N c 2 * (W i * sumn (cr_ns c) (fun a => dot (cr_dim c) (el_dpsi e a i q) (mv (cr_dim c) (point_jac c e U q a) (slip_gradient_at e Y q a))))
     + W i * sumn (cr_ns c) (fun a => el_psi e a i q * sumn (cr_ns c) (fun b => D q a b * slip_at e Y q b))))
     by (intros; rewrite jac_form_field; ring).
  rewrite !sumn_plus, !sumn_scal. f_equal; [f_equal|].
  - f_equal. symmetry. rewrite ddot_comm. rewrite (ddot_sum_r _ (el_nd e) _ W (fun j => dof_strain c e j q)) by (intros; apply field_strain_sum).
    apply sumn_ext; intros. f_equal. apply ddot_comm.
  - f_equal. rewrite (sumn_ext (el_nd e) _ (fun i => sumn (cr_ns c) (fun a => W i * dot (cr_dim c) (el_dpsi e a i q) (mv (cr_dim c) (point_jac c e U q a) (slip_gradient_at e Y q a)))))
      by (intros; rewrite sumn_scal; reflexivity).
    rewrite sumn_swap. apply sumn_ext; intros a Ha. symmetry. rewrite dot_comm.
    rewrite (dot_sum_r _ (el_nd e) _ W (fun j => el_dpsi e a j q)) by (intros; reflexivity).
    apply sumn_ext; intros. f_equal. apply dot_comm.
  - rewrite (sumn_ext (el_nd e) _ (fun i => sumn (cr_ns c) (fun a => W i * el_psi e a i q * sumn (cr_ns c) (fun b => D q a b * slip_at e Y q b))))
      by (intros; rewrite <- sumn_scal; apply sumn_ext; intros; ring).
    rewrite sumn_swap. apply sumn_ext; intros a Ha. rewrite sumn_scal_r. reflexivity.
Qed.
Lemma bulk_sym c e U Uold g W Y : major_symmetric (cr_dim c) (cr_C c) -> bulk_form c e U Uold g W Y = bulk_form c e U Uold g Y W.
Proof.
  intros MJ. apply sumn_ext. intros q _. f_equal. f_equal; [f_equal|].
  - f_equal. apply ddot_major. exact MJ.
  - f_equal. apply sumn_ext; intros. apply point_jac_sym.
  - set (J := scalar_jacobian _ _ _ _ _).
    exact (dot_mv_transpose (cr_ns c) (slip_at e W q) J (slip_at e Y q) J (fun r s _ _ => jacobian_symmetric _ _ _ _ _ s r)).
Qed.
Section Bulk.
Variables (c : crystal) (e : element) (U Uold : nat -> R) (g : nat -> nat -> R) (V : nat -> R).
Hypothesis Hp : 2 <= cr_p c.
Hypothesis N3 : 0 <= balance_factor c.
Hypothesis N2 : 0 <= cr_N c 2.
Hypothesis PSD : forall A, symmetric (cr_dim c) A -> 0 <= ddot (cr_dim c) A (c4 (cr_dim c) (cr_C c) A).
Hypothesis SE : forall j q, symmetric (cr_dim c) (el_eps e j q).
Hypothesis SP : forall a, symmetric (cr_dim c) (cr_P c a).
Hypothesis HW : forall q, (q < el_nq e)%nat -> 0 <= el_w e q.
Hypothesis HF : 0 <= cr_factor c.
Hypothesis Hdt : 0 < cr_dt c.
Hypothesis Hk : 0 < sl_k (cr_law c).
Hypothesis Hchi : 0 < sl_chi (cr_law c).
Hypothesis HH : 0 <= sl_H (cr_law c).
Hypothesis Hq : 0 <= sl_q (cr_law c) <= 1.
Hypothesis Hg : forall q a, (q < el_nq e)%nat -> (a < cr_ns c)%nat -> 0 <= g q a.
Lemma strain_symmetric q : symmetric (cr_dim c) (field_strain c e V q).
Proof.
  apply ProofElastic.elastic_symmetric; auto. intros r s Hr Hs. unfold strain_at. apply sumn_ext; intros. rewrite (SE i q r s); auto.
Qed.
Lemma gradient_nonneg q a : 0 <= dot (cr_dim c) (slip_gradient_at e V q a) (mv (cr_dim c) (point_jac c e U q a) (slip_gradient_at e V q a)).
Proof.
  destruct (C27_jacobian_symmetric_psd (cr_factor c) (cr_p c) (cr_dim c) (cr_dir c a) (cr_ort c a) (slip_gradient_at e U q a) Hp HF) as [_ Q].
  specialize (Q (slip_gradient_at e V q a)). unfold dot, mv. erewrite sumn_ext; [exact Q|]. intros r Hr. cbv beta. f_equal.
  apply sumn_ext; intros s Hs. rewrite vjacobian_fin by auto. reflexivity.
Qed.
Lemma slip_nonneg q : (q < el_nq e)%nat -> 0 <= sumn (cr_ns c) (fun a => slip_at e V q a * sumn (cr_ns c) (fun b =>
         scalar_jacobian (cr_law c) (slip_at e U q) (slip_at e Uold q) (g q) (cr_dt c) a b * slip_at e V q b)).
Proof. intros. apply jacobian_psd; auto. Qed.
Lemma point_nonneg q : (q < el_nq e)%nat -> 0 <= el_w e q *
    (balance_factor c * ddot (cr_dim c) (field_strain c e V q) (c4 (cr_dim c) (cr_C c) (field_strain c e V q))
     + cr_N c 2 * sumn (cr_ns c) (fun a => dot (cr_dim c) (slip_gradient_at e V q a) (mv (cr_dim c) (point_jac c e U q a) (slip_gradient_at e V q a)))
     + sumn (cr_ns c) (fun a => slip_at e V q a * sumn (cr_ns c) (fun b =>
         scalar_jacobian (cr_law c) (slip_at e U q) (slip_at e Uold q) (g q) (cr_dt c) a b * slip_at e V q b))).
Proof.
  intros Hqq. apply Rmult_le_pos; [auto|]. apply Rplus_le_le_0_compat; [apply Rplus_le_le_0_compat|].
  - apply Rmult_le_pos; [exact N3|]. apply PSD. apply strain_symmetric.
  - apply Rmult_le_pos; [exact N2|]. apply sumn_nonneg. intros a _. apply gradient_nonneg.
  - apply slip_nonneg. exact Hqq.
Qed.
Lemma bulk_nonneg : 0 <= bulk_form c e U Uold g V V.
Proof. apply sumn_nonneg. exact point_nonneg. Qed.

(** The slips are resisted. *)
Lemma viscous_definite q : sl_rate_independent (cr_law c) = false -> (q < el_nq e)%nat ->
  (forall a, (a < cr_ns c)%nat -> 0 < g q a) ->
  sumn (cr_ns c) (fun a => slip_at e V q a * sumn (cr_ns c) (fun b =>
         scalar_jacobian (cr_law c) (slip_at e U q) (slip_at e Uold q) (g q) (cr_dt c) a b * slip_at e V q b)) = 0 ->
  forall a, (a < cr_ns c)%nat -> slip_at e V q a = 0.
Proof.
  intros RI Hqq Gp Z.
  (* a smaller resistance leaves a form that is still not negative *)
  set (l := cr_law c) in *. set (dt := cr_dt c) in *. set (s := slip_at e V q) in *.
  assert (Split : forall a b, scalar_jacobian l (slip_at e U q) (slip_at e Uold q) (g q) dt a b =
     scalar_jacobian l (slip_at e U q) (slip_at e Uold q) (fun _ => 0) dt a b
     + kron a b * (g q a / dt * reg_derivative l ((slip_at e U q a - slip_at e Uold q a) / dt))).
  { intros a b. unfold scalar_jacobian. rewrite RI. unfold kron. destruct (Nat.eqb a b); cbn [negb andb]; field; lra. }
  rewrite (sumn_ext (cr_ns c) _ (fun a => s a * sumn (cr_ns c) (fun b => scalar_jacobian l (slip_at e U q) (slip_at e Uold q) (fun _ => 0) dt a b * s b)
     + g q a / dt * reg_derivative l ((slip_at e U q a - slip_at e Uold q a) / dt) * (s a * s a))) in Z.
  2:{ intros a Ha.
      rewrite (sumn_ext (cr_ns c) _ (fun b => scalar_jacobian l (slip_at e U q) (slip_at e Uold q) (fun _ => 0) dt a b * s b
        + (g q a / dt * reg_derivative l ((slip_at e U q a - slip_at e Uold q a) / dt) * s b) * kron a b)) by (intros; rewrite Split; ring).
      rewrite sumn_plus. rewrite (sumn_kron_r' (cr_ns c) a (fun b => _ * s b)) by exact Ha. ring. }
  rewrite sumn_plus in Z.
  assert (P1 : 0 <= sumn (cr_ns c) (fun a => s a * sumn (cr_ns c) (fun b => scalar_jacobian l (slip_at e U q) (slip_at e Uold q) (fun _ => 0) dt a b * s b)))
    by (apply jacobian_psd; auto; intros; lra).
  assert (DP : forall a, (a < cr_ns c)%nat -> 0 < g q a / dt * reg_derivative l ((slip_at e U q a - slip_at e Uold q a) / dt)).
  { intros a Ha. apply Rmult_lt_0_compat; [apply Rdiv_lt_0_compat; auto|]. rewrite reg_derivative_sigmoid. apply sigmoid_derivative_pos; auto. }
  set (F := fun a => g q a / dt * reg_derivative l ((slip_at e U q a - slip_at e Uold q a) / dt) * (s a * s a)) in *.
  assert (FP : forall a, (a < cr_ns c)%nat -> 0 <= F a) by (intros a Ha; apply Rmult_le_pos; [left; auto|apply Rle_0_sqr]).
  assert (P2 : sumn (cr_ns c) F = 0) by (pose proof (sumn_nonneg _ F FP); lra).
  intros a Ha. pose proof (sumn_zero_inv _ F FP P2 a Ha) as K. unfold F in K. specialize (DP a Ha).
  apply Rmult_integral in K. destruct K as [K|K]; [lra|]. apply Rsqr_0_uniq. exact K.
Qed.
End Bulk.

(** ** Interfaces *)
(** A point that has been opened, or never was. *)
Definition touched (mx old dt : R) : Prop := 0 < mx \/ (mx = 0 /\ old = 0 /\ 0 < dt).
Lemma untouched_branch e dt : 0 <= e -> 0 < dt -> branch_of e 0 (rate e 0 dt) <> Unloading.
Proof.
  intros E D. unfold branch_of, rate. rewrite xdiv_fin by lra. cbn [xltb]. rewrite (proj2 (Rltb_false e 0)) by lra.
  assert (0 <= (e - 0) / dt) by (apply Rmult_le_pos; [lra|left; apply Rinv_0_lt_compat; exact D]).
  rewrite (proj2 (Rltb_false ((e - 0) / dt) 0)) by lra. destruct (Reqb e 0); cbn; discriminate.
Qed.
Lemma touched_fin d c delta n mx old dt r s : char_stress c <> 0 -> touched mx old dt ->
  cohesive_jacobian d c delta n mx old dt r s = Fin (val (cohesive_jacobian d c delta n mx old dt r s)).
Proof.
  intros Hc [H|(-> & -> & H)]; [apply jacobian_fin; [exact Hc|lra]|].
  pose proof (untouched_branch (mixed_opening (ratio c) d n delta) dt (mixed_nonneg _ _ _ _) H) as B.
  unfold cohesive_jacobian. cbv zeta. rewrite eff_eq. destruct (branch_of _ _ _); [| contradiction B; reflexivity|]; rewrite xdiv_fin by exact Hc; reflexivity.
Qed.
Lemma touched_form p f h U Un q x y : char_stress (if_cohesive p) <> 0 -> touched (fh_max h q) (fh_old h q) (if_dt p) ->
  0 < if_exponent p -> 0 <= damage_at p h q <= 1 ->
  traction_form p f h U Un q x y = Fin (dot (if_dim p) x (mv (if_dim p) (face_K p f h U Un q) y)).
Proof.
  intros Hc Hm He Hd. apply xdot_fin. intros r Hr. apply xsumn_fin'. intros s Hs. unfold face_K.
  unfold deg_macro. rewrite deg_fin by auto. rewrite touched_fin by auto. reflexivity.
Qed.
Lemma displacement_row p f h U Un Y Yn i : primitive_face (if_dim p) (if_ns p) f ->
  char_stress (if_cohesive p) <> 0 -> 0 < if_exponent p -> if_decohesion p = true ->
  (forall q, (q < fa_nq f)%nat -> touched (fh_max h q) (fh_old h q) (if_dt p) /\ 0 <= fh_damage h q <= 1) ->
  (i < fa_nd f)%nat -> (fa_comp f i < if_dim p)%nat ->
  sumn (fa_nd f) (fun j => val (jacobian_face_local p f h U Un i j) * Y j) + sumn (fa_nd f) (fun j => val (jacobian_face_coupling p f h U Un i j) * Yn j)
  = - sumn (fa_nq f) (fun q => fa_w f q * (if_factor p * dot (if_dim p) (fa_phi f i q) (mv (if_dim p) (face_K p f h U Un q) (opening_at f Y Yn q)))) /\
  forall j, (j < fa_nd f)%nat -> jacobian_face_local p f h U Un i j = Fin (val (jacobian_face_local p f h U Un i j)).
Proof.
  intros P Hc He Hde Hq Hi Ci.
  assert (L : forall j, (j < fa_nd f)%nat -> jacobian_face_local p f h U Un i j = Fin (sumn (fa_nq f) (fun q =>
    if_factor p * dot (if_dim p) (fa_phi f i q) (mv (if_dim p) (face_K p f h U Un q) (fa_phi f j q)) * fa_w f q)) /\
  jacobian_face_coupling p f h U Un i j = Fin (sumn (fa_nq f) (fun q =>
    - (if_factor p * dot (if_dim p) (fa_phi f i q) (mv (if_dim p) (face_K p f h U Un q) (fa_nphi f j q)) * fa_w f q)))).
  { intros j Hj.
    split; apply xsumn_fin'; intros q Hqq; cbv zeta; rewrite (proj2 (Nat.ltb_lt _ _) Ci), Hde;
      destruct (Hq q Hqq) as [Hm Hd]; destruct (P j q Hj Hqq) as (_ & _ & Pj & _);
      destruct (Nat.ltb_spec (fa_comp f j) (if_dim p)) as [Cj|Cj].
    1,3: (rewrite touched_form by (auto; try lra; apply damage_range; auto); cbn [xmul xneg]; f_equal; ring).
    - f_equal. rewrite dot_comm, dot_zero_l; [ring|]. intros r. apply mv_zero. intros s. apply (Pj Cj s).
    - f_equal. rewrite dot_comm, dot_zero_l; [ring|]. intros r. apply mv_zero. intros s. apply (Pj Cj s). }
  split; [|intros j Hj; rewrite (proj1 (L j Hj)); reflexivity].
  rewrite (sumn_ext (fa_nd f) (fun j => val (jacobian_face_local p f h U Un i j) * Y j)
    (fun j => sumn (fa_nq f) (fun q => fa_w f q * (if_factor p * (dot (if_dim p) (fa_phi f i q) (mv (if_dim p) (face_K p f h U Un q) (fa_phi f j q)) * Y j)))));
    [|intros j Hj; rewrite (proj1 (L j Hj)); cbn [val]; rewrite <- sumn_scal_r; apply sumn_ext; intros; ring].
  rewrite (sumn_ext (fa_nd f) (fun j => val (jacobian_face_coupling p f h U Un i j) * Yn j)
    (fun j => sumn (fa_nq f) (fun q => - (fa_w f q * (if_factor p * (dot (if_dim p) (fa_phi f i q) (mv (if_dim p) (face_K p f h U Un q) (fa_nphi f j q)) * Yn j))))));
    [|intros j Hj; rewrite (proj2 (L j Hj)); cbn [val]; rewrite <- sumn_scal_r; apply sumn_ext; intros; ring].
  rewrite (sumn_swap (fa_nd f)), (sumn_swap (fa_nd f)), <- sumn_plus, <- sumn_opp. apply sumn_ext; intros q Hqq.
  rewrite sumn_opp, !sumn_scal, !sum_face_disp.
  assert (E : dot (if_dim p) (fa_phi f i q) (mv (if_dim p) (face_K p f h U Un q) (opening_at f Y Yn q)) =
    dot (if_dim p) (fa_phi f i q) (mv (if_dim p) (face_K p f h U Un q) (face_displacement (fa_nd f) (fa_nphi f) Yn q))
    - dot (if_dim p) (fa_phi f i q) (mv (if_dim p) (face_K p f h U Un q) (face_displacement (fa_nd f) (fa_phi f) Y q))).
  { rewrite <- dot_sub_r. apply dot_ext; [reflexivity|]. intros r _. apply mv_sub. }
  rewrite E. ring.
Qed.
Lemma slip_row p f h U Un Y Yn i : primitive_face (if_dim p) (if_ns p) f -> 0 < if_exponent p -> if_microtraction p = true ->
  (forall q, (q < fa_nq f)%nat -> if_decohesion p = true -> 0 <= fh_damage h q <= 1) ->
  (i < fa_nd f)%nat -> ~ (fa_comp f i < if_dim p)%nat ->
  let a := (fa_comp f i - if_dim p)%nat in
  sumn (fa_nd f) (fun j => val (jacobian_face_local p f h U Un i j) * Y j) + sumn (fa_nd f) (fun j => val (jacobian_face_coupling p f h U Un i j) * Yn j)
  = - sumn (fa_nq f) (fun q => fa_w f q * (if_N p 2 * val (deg_micro p h q) * (fa_psi f a i q *
        microtraction (if_lambda p) (if_chi p) (if_ns p) (if_moduli p q) (face_slip (fa_nd f) (fa_psi f) Y q) (face_slip (fa_nd f) (fa_npsi f) Yn q) a))) /\
  forall j, (j < fa_nd f)%nat -> jacobian_face_local p f h U Un i j = Fin (val (jacobian_face_local p f h U Un i j)).
Proof.
  intros P He Hmi Hd Hi Ci a.
  assert (F := fun j Hj => local_slip p f h U Un i j P He Hmi Hd Hi Hj Ci). cbv zeta in F. fold a in F.
  split; [|intros j Hj; rewrite (proj1 (F j Hj)); reflexivity].
  set (w := fun q => if_N p 2 * fa_psi f a i q * val (deg_micro p h q) * fa_w f q).
  rewrite (sumn_ext (fa_nd f) (fun j => val (jacobian_face_local p f h U Un i j) * Y j)
      (fun j => sumn (fa_nq f) (fun q => - w q * (sumn (if_ns p) (fun b => intra_gateaux (if_lambda p) (if_chi p) (if_moduli p q) a b * fa_psi f b j q) * Y j))));
      [|intros j Hj; rewrite (proj1 (F j Hj)); cbn [val]; rewrite <- sumn_scal_r; apply sumn_ext; intros; unfold w; ring].
  rewrite (sumn_ext (fa_nd f) (fun j => val (jacobian_face_coupling p f h U Un i j) * Yn j)
      (fun j => sumn (fa_nq f) (fun q => - w q * (sumn (if_ns p) (fun b => inter_gateaux (if_lambda p) (if_chi p) (if_moduli p q) a b * fa_npsi f b j q) * Yn j))));
      [|intros j Hj; rewrite (proj2 (F j Hj)); cbn [val]; rewrite <- sumn_scal_r; apply sumn_ext; intros; unfold w; ring].
  rewrite (sumn_swap (fa_nd f)), (sumn_swap (fa_nd f)), <- sumn_plus, <- sumn_opp. apply sumn_ext; intros q Hq.
  rewrite !sumn_scal.
  rewrite (sumn_ext (fa_nd f) (fun j => sumn (if_ns p) (fun b => intra_gateaux _ _ _ a b * fa_psi f b j q) * Y j)
      (fun j => Y j * dot (if_ns p) (fun b => intra_gateaux (if_lambda p) (if_chi p) (if_moduli p q) a b) (fun b => fa_psi f b j q))) by (intros; unfold dot; ring).
  rewrite (sumn_ext (fa_nd f) (fun j => sumn (if_ns p) (fun b => inter_gateaux _ _ _ a b * fa_npsi f b j q) * Yn j)
      (fun j => Yn j * dot (if_ns p) (fun b => inter_gateaux (if_lambda p) (if_chi p) (if_moduli p q) a b) (fun b => fa_npsi f b j q))) by (intros; unfold dot; ring).
  rewrite <- !(dot_sum_r (if_ns p) (fa_nd f) _ _ _ (face_slip (fa_nd f) _ _ q)) by (intros; reflexivity).
  assert (M : microtraction (if_lambda p) (if_chi p) (if_ns p) (if_moduli p q) (face_slip (fa_nd f) (fa_psi f) Y q) (face_slip (fa_nd f) (fa_npsi f) Yn q) a
    = dot (if_ns p) (fun b => intra_gateaux (if_lambda p) (if_chi p) (if_moduli p q) a b) (face_slip (fa_nd f) (fa_psi f) Y q)
      + dot (if_ns p) (fun b => inter_gateaux (if_lambda p) (if_chi p) (if_moduli p q) a b) (face_slip (fa_nd f) (fa_npsi f) Yn q)).
  { unfold microtraction, dot. rewrite <- sumn_scal_r, <- sumn_plus. apply sumn_ext. intros b _. unfold intra_gateaux, inter_gateaux, Rdiv. ring. }
  rewrite M. unfold w. ring.
Qed.

(** What one side of a face contributes. *)
Definition side_form (p : interface) (f : gb_face) (h : face_history) (U Un : nat -> R) (W Y Yn : nat -> R) : R :=
  - sumn (fa_nq f) (fun q => fa_w f q *
    ((if if_decohesion p then if_factor p * dot (if_dim p) (face_displacement (fa_nd f) (fa_phi f) W q) (mv (if_dim p) (face_K p f h U Un q) (opening_at f Y Yn q)) else 0)
     + (if if_microtraction p then if_N p 2 * val (deg_micro p h q) * sumn (if_ns p) (fun a => face_slip (fa_nd f) (fa_psi f) W q a *
          microtraction (if_lambda p) (if_chi p) (if_ns p) (if_moduli p q) (face_slip (fa_nd f) (fa_psi f) Y q) (face_slip (fa_nd f) (fa_npsi f) Yn q) a) else 0))).
Lemma side_work p f h U Un W Y Yn : primitive_face (if_dim p) (if_ns p) f -> 0 < if_exponent p ->
  (if_decohesion p = true -> char_stress (if_cohesive p) <> 0 /\ forall q, (q < fa_nq f)%nat -> touched (fh_max h q) (fh_old h q) (if_dt p) /\ 0 <= fh_damage h q <= 1) ->
  sumn (fa_nd f) (fun i => W i * (sumn (fa_nd f) (fun j => val (jacobian_face_local p f h U Un i j) * Y j)
     + sumn (fa_nd f) (fun j => val (jacobian_face_coupling p f h U Un i j) * Yn j))) = side_form p f h U Un W Y Yn /\
  forall i j, (i < fa_nd f)%nat -> (j < fa_nd f)%nat -> jacobian_face_local p f h U Un i j = Fin (val (jacobian_face_local p f h U Un i j)).
Proof.
  intros P He Hd.
  assert (Z : forall k g, (forall q, g q = Fin 0) -> xsumn k g = Fin 0).
  { intros k g G. rewrite (xsumn_fin' _ _ (fun _ => 0)); [rewrite sumn_0; reflexivity|]. intros; apply G. }
  assert (ROW : forall i, (i < fa_nd f)%nat ->
    sumn (fa_nd f) (fun j => val (jacobian_face_local p f h U Un i j) * Y j) + sumn (fa_nd f) (fun j => val (jacobian_face_coupling p f h U Un i j) * Yn j)
    = - sumn (fa_nq f) (fun q => fa_w f q *
       ((if if_decohesion p then if_factor p * dot (if_dim p) (fa_phi f i q) (mv (if_dim p) (face_K p f h U Un q) (opening_at f Y Yn q)) else 0)
        + (if if_microtraction p then if_N p 2 * val (deg_micro p h q) * sumn (if_ns p) (fun a => fa_psi f a i q *
            microtraction (if_lambda p) (if_chi p) (if_ns p) (if_moduli p q) (face_slip (fa_nd f) (fa_psi f) Y q) (face_slip (fa_nd f) (fa_npsi f) Yn q) a) else 0))) /\
    forall j, (j < fa_nd f)%nat -> jacobian_face_local p f h U Un i j = Fin (val (jacobian_face_local p f h U Un i j))).
  { intros i Hi. destruct (le_lt_dec (if_dim p) (fa_comp f i)) as [Ci|Ci].
    - (* a slip dof *)
      assert (Ci' : Nat.ltb (fa_comp f i) (if_dim p) = false) by (apply Nat.ltb_ge; lia).
      assert (PH : forall q, (q < fa_nq f)%nat -> dot (if_dim p) (fa_phi f i q) (mv (if_dim p) (face_K p f h U Un q) (opening_at f Y Yn q)) = 0).
      { intros q Hq. apply dot_zero_l. intros r. destruct (P i q Hi Hq) as (_ & _ & Q & _). apply (Q Ci r). }
      destruct (if_microtraction p) eqn:Hm.
      + destruct (slip_row p f h U Un Y Yn i P He Hm (fun q Hq D => proj2 (proj2 (Hd D) q Hq)) Hi ltac:(lia)) as [A B].
        split; [|exact B]. rewrite A. f_equal. apply sumn_ext. intros q Hq. f_equal. rewrite PH by exact Hq.
        set (a0 := (fa_comp f i - if_dim p)%nat). destruct (P i q Hi Hq) as (CI & _ & _ & Q).
        rewrite (sumn_ext (if_ns p) _ (fun a => kron a a0 * (fa_psi f a0 i q *
            microtraction (if_lambda p) (if_chi p) (if_ns p) (if_moduli p q) (face_slip (fa_nd f) (fa_psi f) Y q) (face_slip (fa_nd f) (fa_npsi f) Yn q) a))).
        * rewrite sumn_kron by (unfold a0; lia). destruct (if_decohesion p); ring.
        * intros a Ha. unfold kron. destruct (Nat.eqb_spec a a0) as [->|N]; [ring|]. rewrite (proj1 (Q a Ha ltac:(unfold a0 in N; lia))). ring.
      + assert (J : forall j, jacobian_face_local p f h U Un i j = Fin 0 /\ jacobian_face_coupling p f h U Un i j = Fin 0).
        { intros j. split; apply Z; intros q; cbv zeta; rewrite Ci', Hm; destruct (Nat.ltb (fa_comp f j) (if_dim p)); reflexivity. }
        split; [|intros j _; rewrite (proj1 (J j)); reflexivity].
        rewrite !(sumn_zero (fa_nd f)) by (intros j _; destruct (J j) as [J1 J2]; rewrite ?J1, ?J2; cbn [val]; ring).
        rewrite (sumn_zero (fa_nq f)); [ring|]. intros q Hq. rewrite PH by exact Hq. destruct (if_decohesion p); ring.
    - (* a displacement dof *)
      assert (Ci' : Nat.ltb (fa_comp f i) (if_dim p) = true) by (apply Nat.ltb_lt; exact Ci).
      assert (PS : forall q (m : nat -> R), (q < fa_nq f)%nat -> sumn (if_ns p) (fun a => fa_psi f a i q * m a) = 0).
      { intros q m Hq. apply sumn_zero. intros a Ha. destruct (P i q Hi Hq) as (_ & _ & _ & Q). rewrite (proj1 (Q a Ha ltac:(lia))). ring. }
      destruct (if_decohesion p) eqn:Hde.
      + destruct (Hd eq_refl) as [Hc Hq]. destruct (displacement_row p f h U Un Y Yn i P Hc He Hde Hq Hi Ci) as [A B].
        split; [|exact B]. rewrite A. f_equal. apply sumn_ext. intros q Hqq. f_equal. rewrite PS by exact Hqq. destruct (if_microtraction p); ring.
      + assert (J : forall j, jacobian_face_local p f h U Un i j = Fin 0 /\ jacobian_face_coupling p f h U Un i j = Fin 0).
        { intros j. split; apply Z; intros q; cbv zeta; rewrite Ci', Hde; destruct (Nat.ltb (fa_comp f j) (if_dim p)); reflexivity. }
        split; [|intros j _; rewrite (proj1 (J j)); reflexivity].
        rewrite !(sumn_zero (fa_nd f)) by (intros j _; destruct (J j) as [J1 J2]; rewrite ?J1, ?J2; cbn [val]; ring).
        rewrite (sumn_zero (fa_nq f)); [ring|]. intros q Hq. rewrite PS by exact Hq. destruct (if_microtraction p); ring. }
  split; [|intros i j Hi Hj; apply (proj2 (ROW i Hi)); exact Hj].
  rewrite (sumn_ext (fa_nd f) _ (fun i => sumn (fa_nq f) (fun q => - (fa_w f q * (W i *
       ((if if_decohesion p then if_factor p * dot (if_dim p) (fa_phi f i q) (mv (if_dim p) (face_K p f h U Un q) (opening_at f Y Yn q)) else 0)
        + (if if_microtraction p then if_N p 2 * val (deg_micro p h q) * sumn (if_ns p) (fun a => fa_psi f a i q *
            microtraction (if_lambda p) (if_chi p) (if_ns p) (if_moduli p q) (face_slip (fa_nd f) (fa_psi f) Y q) (face_slip (fa_nd f) (fa_npsi f) Yn q) a) else 0))))))).
  2:{ intros i Hi. rewrite (proj1 (ROW i Hi)). rewrite <- sumn_opp, <- sumn_scal. apply sumn_ext; intros; ring. }
  rewrite sumn_swap. unfold side_form. rewrite <- sumn_opp. apply sumn_ext. intros q Hq. rewrite sumn_opp, sumn_scal. f_equal. f_equal.
  rewrite (sumn_ext (fa_nd f) _ (fun i =>
      W i * (if if_decohesion p then if_factor p * dot (if_dim p) (fa_phi f i q) (mv (if_dim p) (face_K p f h U Un q) (opening_at f Y Yn q)) else 0)
      + W i * (if if_microtraction p then if_N p 2 * val (deg_micro p h q) * sumn (if_ns p) (fun a => fa_psi f a i q *
            microtraction (if_lambda p) (if_chi p) (if_ns p) (if_moduli p q) (face_slip (fa_nd f) (fa_psi f) Y q) (face_slip (fa_nd f) (fa_npsi f) Yn q) a) else 0))) by (intros; ring).
  rewrite sumn_plus. f_equal.
  - destruct (if_decohesion p); [|rewrite (sumn_zero (fa_nd f)); [reflexivity|intros; ring]].
    rewrite (dot_comm (if_dim p) (face_displacement _ _ _ _)).
    rewrite (dot_sum_r (if_dim p) (fa_nd f) _ W (fun i => fa_phi f i q)) by reflexivity. rewrite <- sumn_scal. apply sumn_ext. intros i _.
    rewrite (dot_comm (if_dim p) (fa_phi f i q)). ring.
  - destruct (if_microtraction p); [|rewrite (sumn_zero (fa_nd f)); [reflexivity|intros; ring]].
    set (m := fun a => microtraction (if_lambda p) (if_chi p) (if_ns p) (if_moduli p q) (face_slip (fa_nd f) (fa_psi f) Y q) (face_slip (fa_nd f) (fa_npsi f) Yn q) a).
    rewrite (sumn_ext (fa_nd f) _ (fun i => if_N p 2 * val (deg_micro p h q) * sumn (if_ns p) (fun a => W i * fa_psi f a i q * m a))).
    2:{ intros i _. rewrite (sumn_ext (if_ns p) (fun a => W i * fa_psi f a i q * m a) (fun a => W i * (fa_psi f a i q * m a))) by (intros; ring). rewrite sumn_scal. unfold m. ring. }
    rewrite sumn_scal. f_equal. rewrite sumn_swap. apply sumn_ext. intros a _. rewrite sumn_scal_r. reflexivity.
Qed.

(** ** Stiffness of an interface point *)
Lemma switch_all x : normal_switch x = if Rltb 0 x then 1 else 0.
Proof.
  destruct (Req_dec x 0) as [->|H]; [|apply switch_eq; exact H].
  rewrite (proj2 (Rltb_false 0 0)) by lra. unfold normal_switch. rewrite Rabs_R0. unfold xdiv.
  rewrite (proj2 (Reqb_true 0 0)) by reflexivity.
  replace (xsign 0) with NaN; [reflexivity|]. unfold xsign. rewrite (proj2 (Rltb_false 0 0)) by lra. reflexivity.
Qed.
Lemma tang_self d n w : unit_vec d n -> dot d w (tangential d n w) = dot d (tangential d n w) (tangential d n w).
Proof.
  intros U. assert (Q : forall i, w i = vadd (tangential d n w) (vscal (dot d n w) n) i) by (intros i; unfold vadd, vscal, tangential; ring).
  rewrite (dot_ext d w (tangential d n w) _ (tangential d n w) (fun i _ => Q i) ltac:(reflexivity)) at 1.
  rewrite dot_add_l, dot_scal_l, tang_orth by exact U. ring.
Qed.
Lemma identity_form d r delta n w : unit_vec d n ->
  dot d w (mv d (effective_identity d r delta n) w) =
  (if Rltb 0 (dot d n delta) then 1 else 0) * dot d n w ^ 2 + r ^ 2 * dot d (tangential d n w) (tangential d n w).
Proof.
  intros U. set (s := if Rltb 0 (dot d n delta) then 1 else 0).
  assert (M : forall i, (i < d)%nat -> mv d (effective_identity d r delta n) w i = vadd (vscal (s * dot d n w) n) (vscal (r ^ 2) (tangential d n w)) i).
  { intros i Hi. unfold mv, effective_identity, madd, mscal. rewrite switch_all. fold s.
    rewrite (sumn_ext d _ (fun j => s * (normal_projector n i j * w j) + (r * r) * (tangential_projector n i j * w j))) by (intros; ring).
    rewrite sumn_plus, !sumn_scal.
    fold (mv d (normal_projector n) w i) (mv d (tangential_projector n) w i).
    rewrite tang_eq by exact Hi.
    assert (N : mv d (normal_projector n) w i = dot d n w * n i).
    { unfold mv, normal_projector, symmetrize, outer, dot. rewrite <- sumn_scal_r. apply sumn_ext. intros j _. field. }
    rewrite N. unfold vadd, vscal. ring. }
  rewrite (dot_ext d w _ w _ ltac:(reflexivity) M). rewrite dot_add_r, !dot_scal_r, tang_self, (dot_comm d w n) by exact U. ring.
Qed.
Lemma dot_cauchy d a b : dot d a b * dot d a b <= dot d a a * dot d b b.
Proof.
  destruct (Req_dec (dot d b b) 0) as [Z|NZ].
  - assert (B : dot d a b = 0).
    { unfold dot. apply sumn_zero. intros i Hi. rewrite (dot_zero_all d b Z i Hi). ring. }
    rewrite B, Z. lra.
  - pose proof (dot_nonneg d b) as P. pose proof (dot_nonneg d (vsub (vscal (dot d b b) a) (vscal (dot d a b) b))) as Q.
    rewrite dot_sub_l, !dot_sub_r, !dot_scal_l, !dot_scal_r, (dot_comm d b a) in Q.
    set (x := dot d a a) in *. set (y := dot d b b) in *. set (z := dot d a b) in *. clearbody x y z.
    assert (0 < y) by lra. apply (Rmult_le_reg_l y); [assumption|]. lra.
Qed.
Lemma pull_cauchy d r n delta w : unit_vec d n ->
  dot d (pull r d n delta) w ^ 2 <= opening_sq r d n delta *
   ((if Rltb 0 (dot d n delta) then 1 else 0) * dot d n w ^ 2 + r ^ 2 * dot d (tangential d n w) (tangential d n w)).
Proof.
  intros U. unfold opening_sq. rewrite (rmax_switch (dot d n delta)). set (s := if Rltb 0 (dot d n delta) then 1 else 0).
  assert (S : s * s = s) by (unfold s; destruct (Rltb 0 _); ring).
  assert (E : dot d (pull r d n delta) w = s * dot d n delta * dot d n w + r ^ 2 * dot d (tangential d n delta) (tangential d n w)).
  { assert (Q : forall i, pull r d n delta i = vadd (vscal (s * dot d n delta) n) (vscal (r ^ 2) (tangential d n delta)) i)
      by (intros i; unfold pull, vadd, vscal; rewrite (rmax_switch (dot d n delta)); fold s; ring).
    rewrite (dot_ext d _ w _ w (fun i _ => Q i) ltac:(reflexivity)). rewrite dot_add_l, !dot_scal_l. f_equal. f_equal.
    assert (Q' : forall i, w i = vadd (tangential d n w) (vscal (dot d n w) n) i) by (intros i; unfold vadd, vscal, tangential; ring).
    rewrite (dot_ext d (tangential d n delta) w (tangential d n delta) _ ltac:(reflexivity) (fun i _ => Q' i)).
    rewrite dot_add_r, dot_scal_r, (dot_comm d (tangential d n delta) n), tang_orth by exact U. ring. }
  rewrite E. pose proof (dot_cauchy d (tangential d n delta) (tangential d n w)) as CS.
  pose proof (dot_nonneg d (tangential d n delta)) as P1. pose proof (dot_nonneg d (tangential d n w)) as P2.
  set (a := dot d n delta) in *. set (z := dot d n w). set (t := dot d (tangential d n delta) (tangential d n w)) in *.
  set (tt := dot d (tangential d n delta) (tangential d n delta)) in *. set (ww := dot d (tangential d n w) (tangential d n w)) in *.
  pose proof (dot_nonneg d (vsub (vscal (s * a) (tangential d n w)) (vscal (s * z) (tangential d n delta)))) as P3.
  rewrite dot_sub_l, !dot_sub_r, !dot_scal_l, !dot_scal_r, (dot_comm d (tangential d n w) (tangential d n delta)) in P3. fold t tt ww in P3.
  pose proof (pow2_ge_0 r) as R2. pose proof (pow2_ge_0 (r ^ 2)) as R4.
  clearbody a z t tt ww. clearbody s.
  (* difference of the two sides *)
  assert (D : ((s * a) ^ 2 + r ^ 2 * tt) * (s * z ^ 2 + r ^ 2 * ww) - (s * a * z + r ^ 2 * t) ^ 2 =
    r ^ 2 * ((s * s) * a ^ 2 * ww + s * z ^ 2 * tt - 2 * s * a * z * t) + (r ^ 2) ^ 2 * (tt * ww - t * t) + (s * s - s) * (s - 1) * 0 + ((s * s) * s - s * s) * a ^ 2 * z ^ 2) by ring.
  assert (D2 : r ^ 2 * ((s * s) * a ^ 2 * ww + s * z ^ 2 * tt - 2 * s * a * z * t) = r ^ 2 * (s * a * (s * a * ww) - s * z * (s * a * t) - (s * a * (s * z * t) - s * z * (s * z * tt)))).
  { f_equal. replace (s * a * (s * a * ww) - s * z * (s * a * t) - (s * a * (s * z * t) - s * z * (s * z * tt))) with ((s * s) * a ^ 2 * ww + (s * s) * z ^ 2 * tt - 2 * (s * s) * a * z * t) by ring. rewrite S. ring. }
  assert (X1 : 0 <= r ^ 2 * (s * a * (s * a * ww) - s * z * (s * a * t) - (s * a * (s * z * t) - s * z * (s * z * tt)))).
  { apply Rmult_le_pos; [exact R2|]. lra. }
  assert (X2 : 0 <= (r ^ 2) ^ 2 * (tt * ww - t * t)) by (apply Rmult_le_pos; lra).
  rewrite D2 in D. rewrite S in D. rewrite S in D. lra.
Qed.
Lemma cohesive_psd d c delta n mx old dt w : good_cohesive c -> unit_vec d n -> touched mx old dt ->
  mixed_opening (ratio c) d n delta < mx \/ char_disp c * mixed_opening (ratio c) d n delta <= crit_opening c ->
  0 <= dot d w (mv d (fun i j => val (cohesive_jacobian d c delta n mx old dt i j)) w).
Proof.
  intros (G1 & G2 & G3 & G4) U Hm H. set (e := mixed_opening (ratio c) d n delta) in *.
  pose proof (mixed_nonneg (ratio c) d n delta) as E0. fold e in E0.
  set (I := (if Rltb 0 (dot d n delta) then 1 else 0) * dot d n w ^ 2 + ratio c ^ 2 * dot d (tangential d n w) (tangential d n w)).
  assert (I0 : 0 <= I).
  { unfold I. pose proof (pow2_ge_0 (dot d n w)). pose proof (pow2_ge_0 (ratio c)). pose proof (dot_nonneg d (tangential d n w)).
    assert (0 <= ratio c ^ 2 * dot d (tangential d n w) (tangential d n w)) by (apply Rmult_le_pos; auto). destruct (Rltb 0 _); lra. }
  assert (DM : forall A k, dot d w (mv d (fun i j => k * A i j) w) = k * dot d w (mv d A w)).
  { intros A k. unfold dot, mv. rewrite <- sumn_scal. apply sumn_ext. intros i _.
    rewrite (sumn_ext d (fun j => k * A i j * w j) (fun j => k * (A i j * w j))) by (intros; ring). rewrite sumn_scal. ring. }
  assert (DV : forall A B, (forall i j, (i < d)%nat -> (j < d)%nat -> A i j = B i j) -> dot d w (mv d A w) = dot d w (mv d B w)).
  { intros A B E. apply dot_ext; [reflexivity|]. intros i Hi. apply sumn_ext. intros j Hj. rewrite E by assumption. reflexivity. }
  destruct (branch_of e mx (rate e old dt)) eqn:BR.
  - (* loading *)
    assert (HC : char_disp c * e <= crit_opening c).
    { destruct H as [H|H]; [|exact H]. exfalso. rewrite branch_unloading in BR by exact H. discriminate. }
    set (k := crit_traction c / crit_opening c * exp (1 - char_disp c * e / crit_opening c) / char_stress c).
    assert (K0 : 0 <= k).
    { unfold k. apply Rlt_le. repeat apply Rmult_lt_0_compat; try assumption; try (apply Rinv_0_lt_compat; assumption). apply exp_pos. }
    set (dir := effective_direction d (ratio c) delta n).
    set (m := char_disp c * e / crit_opening c).
    assert (M01 : 0 <= m <= 1).
    { unfold m. split; [apply Rmult_le_pos; [apply Rmult_le_pos; lra|left; apply Rinv_0_lt_compat; lra]|].
      apply (Rmult_le_reg_r (crit_opening c)); [exact G2|]. unfold Rdiv. rewrite Rmult_assoc, Rinv_l by lra. lra. }
    rewrite (DV _ (fun i j => k * (effective_identity d (ratio c) delta n i j - m * (dir i * dir j)))).
    + rewrite DM. apply Rmult_le_pos; [exact K0|].
      assert (SP : dot d w (mv d (fun i j => effective_identity d (ratio c) delta n i j - m * (dir i * dir j)) w) = I - m * dot d dir w ^ 2).
      { transitivity (dot d w (vsub (mv d (effective_identity d (ratio c) delta n) w) (vscal (m * dot d dir w) dir))).
        - apply dot_ext; [reflexivity|]. intros i _. unfold vsub, vscal, mv, dot. rewrite <- sumn_scal, <- sumn_scal_r, <- sumn_minus. apply sumn_ext. intros j _. ring.
        - rewrite dot_sub_r, dot_scal_r, (dot_comm d w dir), identity_form by exact U. unfold I. ring. }
      rewrite SP.
      assert (LE : dot d dir w ^ 2 <= I).
      { destruct (Req_dec e 0) as [Z|NZ].
        - rewrite (dot_ext d dir w (fun _ => 0) w).
          + replace (dot d (fun _ => 0) w) with 0 by (symmetry; apply dot_zero_l; reflexivity). lra.
          + intros i Hi. apply dir_zero; assumption.
          + reflexivity.
        - rewrite (dot_ext d dir w (vscal (/ e) (pull (ratio c) d n delta)) w).
          + rewrite dot_scal_l. pose proof (pull_cauchy d (ratio c) n delta w U) as PC. fold I in PC.
            rewrite <- mixed_times in PC. fold e in PC.
            replace ((/ e * dot d (pull (ratio c) d n delta) w) ^ 2) with (/ (e * e) * dot d (pull (ratio c) d n delta) w ^ 2) by (field; exact NZ).
            assert (EE : 0 < e * e) by nra.
            apply (Rmult_le_reg_l (e * e)); [exact EE|]. rewrite <- Rmult_assoc, Rinv_r by lra. lra.
          + intros i Hi. unfold dir. rewrite dir_eq by assumption. fold e. unfold vscal. field. exact NZ.
          + reflexivity. }
      assert (0 <= dot d dir w ^ 2) by apply pow2_ge_0. nra.
    + intros i j _ _. unfold cohesive_jacobian. cbv zeta. rewrite eff_eq. fold e. rewrite BR. rewrite xdiv_fin by lra. cbn [val].
      unfold k, m, dir, symmetrize, outer. field. lra.
  - (* unloading *)
    destruct Hm as [Hm|(-> & -> & Hm)]; [|exfalso; exact (untouched_branch e dt E0 Hm BR)].
    rewrite (DV _ (fun i j => (effective_traction c (char_disp c * mx) / char_disp c / mx / char_stress c) * effective_identity d (ratio c) delta n i j)).
    + rewrite DM, identity_form by exact U. fold I. apply Rmult_le_pos; [|exact I0].
      unfold effective_traction. apply Rlt_le.
      repeat apply Rmult_lt_0_compat; try assumption; try (apply Rinv_0_lt_compat; assumption). apply exp_pos.
    + intros i j _ _. unfold cohesive_jacobian. cbv zeta. rewrite eff_eq. fold e. rewrite BR. rewrite (xdiv_fin _ mx) by lra. cbn [xmul]. rewrite xdiv_fin by lra. cbn [val]. unfold Rdiv. ring.
  - rewrite (DV _ (fun i j => 0 * 0)).
    + rewrite (DM (fun _ _ => 0) 0). lra.
    + intros i j _ _. unfold cohesive_jacobian. cbv zeta. rewrite eff_eq. fold e. rewrite BR. rewrite xdiv_fin by lra. cbn [val]. unfold Rdiv. ring.
Qed.
Lemma contact_psd d k delta n w : 0 <= penalty k -> 0 < ct_stress k -> 0 <= dot d w (mv d (contact_jacobian d k delta n) w).
Proof.
  intros A B. unfold contact_jacobian. cbv zeta. rewrite (dot_comm d delta n).
  set (s := match xmacaulay _ with Fin x => x | _ => 0 end).
  assert (S0 : 0 <= s).
  { unfold s, xmacaulay. destruct (xgtb _ (Fin 0)) eqn:G; [|lra]. destruct (xdiv _ _); try lra. unfold xgtb in G. cbn [xltb] in G. apply Rltb_true in G. lra. }
  clearbody s.
  assert (E : dot d w (mv d (mscal (penalty k / ct_stress k * s) (symmetrize (outer n n))) w) = penalty k / ct_stress k * s * dot d n w ^ 2).
  { transitivity (dot d w (vscal (penalty k / ct_stress k * s * dot d n w) n)).
    - apply dot_ext; [reflexivity|]. intros i _. unfold mv, mscal, symmetrize, outer, vscal, dot. rewrite <- sumn_scal, <- sumn_scal_r. apply sumn_ext. intros j _. field. lra.
    - rewrite dot_scal_r, (dot_comm d w n). ring. }
  rewrite E. apply Rmult_le_pos; [|apply pow2_ge_0]. apply Rmult_le_pos; [|exact S0]. apply Rmult_le_pos; [exact A|left; apply Rinv_0_lt_compat; exact B].
Qed.
Lemma face_K_psd p f h U Un q w : good_cohesive (if_cohesive p) -> unit_vec (if_dim p) (fa_n f q) -> touched (fh_max h q) (fh_old h q) (if_dt p) ->
  0 < if_exponent p -> 0 <= damage_at p h q <= 1 -> 0 <= penalty (if_contact p) -> 0 < ct_stress (if_contact p) ->
  (let e := mixed_opening (ratio (if_cohesive p)) (if_dim p) (fa_n f q) (opening_at f U Un q) in
   e < fh_max h q \/ char_disp (if_cohesive p) * e <= crit_opening (if_cohesive p)) ->
  0 <= dot (if_dim p) w (mv (if_dim p) (face_K p f h U Un q) w).
Proof.
  intros G N M X D A B H.
  assert (E : dot (if_dim p) w (mv (if_dim p) (face_K p f h U Un q) w) =
    val (deg_macro p h q) * dot (if_dim p) w (mv (if_dim p) (fun i j => val (cohesive_jacobian (if_dim p) (if_cohesive p) (opening_at f U Un q) (fa_n f q) (fh_max h q) (fh_old h q) (if_dt p) i j)) w)
    + dot (if_dim p) w (mv (if_dim p) (contact_jacobian (if_dim p) (if_contact p) (opening_at f U Un q) (fa_n f q)) w)).
  { unfold dot. rewrite <- sumn_scal, <- sumn_plus. apply sumn_ext. intros i _. unfold mv, face_K.
    rewrite (sumn_ext (if_dim p) (fun j => (_ + _) * w j) (fun j => val (deg_macro p h q) * (val (cohesive_jacobian (if_dim p) (if_cohesive p) (opening_at f U Un q) (fa_n f q) (fh_max h q) (fh_old h q) (if_dt p) i j) * w j)
       + contact_jacobian (if_dim p) (if_contact p) (opening_at f U Un q) (fa_n f q) i j * w j)) by (intros; ring).
    rewrite sumn_plus, sumn_scal. ring. }
  rewrite E. apply Rplus_le_le_0_compat; [|apply contact_psd; assumption]. apply Rmult_le_pos; [|apply cohesive_psd; assumption].
  unfold deg_macro, degradation. destruct (if_couple_macro p); [|cbn; lra].
  destruct (degradation_range (if_exponent p) (damage_at p h q) X D) as (y & E' & Y). unfold degradation in E'. rewrite E'. cbn. lra.
Qed.
Lemma face_K_sym p f h U Un q x y : dot (if_dim p) x (mv (if_dim p) (face_K p f h U Un q) y) = dot (if_dim p) y (mv (if_dim p) (face_K p f h U Un q) x).
Proof.
  apply dot_mv_transpose. intros r s Hr Hs. unfold face_K. rewrite C32_jacobian_symmetric. f_equal.
  unfold contact_jacobian, mscal, symmetrize. f_equal. unfold outer. f_equal. ring.
Qed.
