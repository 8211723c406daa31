(** * C25-C29: microscopic stresses and interface microtractions. *)
From Coq Require Import FunctionalExtensionality.
From Coquelicot Require Import Coquelicot.
From Verif Require Import Num SumLemmas Tensors TensorLemmas ModelUtilities ProofErf ProofUtilities
  ModelHistory SpecHistory ModelCrystal SpecCrystal ProofCrystal ModelMicro SpecMicro ProofMicro.
Open Scope R_scope.

(** ** C25 *)
Theorem C25_bounded : forall l slip old g dt, 0 < dt -> 0 < sl_k l -> 0 < g ->
  sl_rate_independent l = false -> Rabs (scalar_microstress l slip old g dt) < g.
Proof. exact microstress_bounded. Qed.
Print Assumptions C25_bounded.
Theorem C25_rate_independent_on_yield_surface : forall l slip old g dt, 0 < dt -> 0 < g ->
  sl_rate_independent l = true -> slip <> old -> Rabs (scalar_microstress l slip old g dt) = g.
Proof. exact microstress_rate_independent. Qed.
Print Assumptions C25_rate_independent_on_yield_surface.
Theorem C25_dissipative : forall l slip old g dt, 0 < dt -> 0 < sl_k l -> 0 < g ->
  0 <= scalar_microstress l slip old g dt * ((slip - old) / dt) /\
  (scalar_microstress l slip old g dt * ((slip - old) / dt) = 0 <-> slip = old).
Proof. exact microstress_dissipative. Qed.
Print Assumptions C25_dissipative.
Theorem C25_odd : forall l delta old g dt,
  scalar_microstress l (old - delta) old g dt = - scalar_microstress l (old + delta) old g dt.
Proof.
  intros. rewrite <- microstress_odd. f_equal. ring.
Qed.
Print Assumptions C25_odd.
Theorem C25_increasing : forall l s1 s2 old g dt, 0 < dt -> 0 < sl_k l -> 0 < g -> s1 < s2 ->
  scalar_microstress l s1 old g dt <= scalar_microstress l s2 old g dt /\
  (sl_rate_independent l = false -> scalar_microstress l s1 old g dt < scalar_microstress l s2 old g dt).
Proof. exact microstress_increasing. Qed.
Print Assumptions C25_increasing.

Definition law_ex (perfect ri : bool) : scalar_law := mk_scalar_law Tanh (1/1000) 500 (14/10) 1 perfect ri.
Example C25_nonvacuous : 0 < sl_k (law_ex false false) /\ sl_rate_independent (law_ex false false) = false /\
  Rabs (scalar_microstress (law_ex false false) (2/10) (1/10) 70 (1/100)) < 70.
Proof. split; [cbn; lra|]. split; [reflexivity|]. apply C25_bounded; cbn [sl_k sl_rate_independent law_ex]; auto; lra. Qed.

(** ** C26.  The microstress as a function of all slips, the resistances following the hardening law. *)
Definition microstress_of (l : scalar_law) (n : nat) (g0 old : nat -> R) (dt : R) (gamma : nat -> R) (a : nat) : R :=
  scalar_microstress l (gamma a) (old a)
    (resistance (sl_perfect l) (sl_H l / sl_chi l) (sl_q l) n g0 old gamma a) dt.

Lemma resistance_hardened l n g0 old gamma a :
  resistance (sl_perfect l) (sl_H l / sl_chi l) (sl_q l) n g0 old gamma a = hardened n (hmat l) g0 old gamma a.
Proof.
  unfold resistance, hardened, hmat, hardening_increment. destruct (sl_perfect l).
  - rewrite (sumn_ext n _ (fun _ => 0 * 0)) by (intros; ring). rewrite sumn_scal. ring.
  - f_equal. apply sumn_ext; intros b Hb. unfold sl_entry, kron. destruct (Nat.eqb a b); ring.
Qed.
Lemma jac_g_ext l gamma old g g' dt a b : g a = g' a ->
  scalar_jacobian l gamma old g dt a b = scalar_jacobian l gamma old g' dt a b.
Proof. intros H. unfold scalar_jacobian. rewrite H. reflexivity. Qed.

(** Perfect plasticity, rate dependent: exact at every state. *)
Theorem C26_jacobian_exact_perfect : forall l n g0 old gamma dt a b,
  0 < dt -> 0 < sl_k l -> sl_rate_independent l = false -> sl_perfect l = true -> (b < n)%nat ->
  is_derive (fun t => microstress_of l n g0 old dt (perturb gamma b t) a) 0
    (scalar_jacobian l gamma old g0 dt a b).
Proof.
  intros l n g0 old gamma dt a b Hdt Hk Hr Hp Hb.
  assert (Z : hmat l a b = 0) by (unfold hmat; rewrite Hp; reflexivity).
  assert (D := derive_microstress l n g0 old gamma dt a b Hdt Hk Hr Hb (or_intror Z)).
  rewrite Z in D.
  apply (is_derive_ext (fun t => scalar_microstress l (perturb gamma b t a) (old a)
                        (hardened n (hmat l) g0 old (perturb gamma b t) a) dt)).
  - intros t. unfold microstress_of. rewrite resistance_hardened. reflexivity.
  - rewrite (jac_g_ext l gamma old g0 (hardened n (hmat l) g0 old gamma)).
    + replace (scalar_jacobian _ _ _ _ _ _ _) with (scalar_jacobian l gamma old (hardened n (hmat l) g0 old gamma) dt a b
         + 0 * reg_value l ((gamma a - old a) / dt) * (sl_sgn (gamma b - old b) - reg_value l ((gamma b - old b) / dt))) by ring.
      exact D.
    + rewrite <- resistance_hardened. unfold resistance. rewrite Hp. reflexivity.
Qed.
Print Assumptions C26_jacobian_exact_perfect.

(** Rate independent, with or without hardening: exact wherever all slip systems flow. *)
Theorem C26_jacobian_exact_rate_independent : forall l n g0 old gamma dt a b,
  0 < dt -> sl_rate_independent l = true -> (b < n)%nat -> gamma a <> old a -> gamma b <> old b ->
  is_derive (fun t => microstress_of l n g0 old dt (perturb gamma b t) a) 0
    (scalar_jacobian l gamma old
      (resistance (sl_perfect l) (sl_H l / sl_chi l) (sl_q l) n g0 old gamma) dt a b).
Proof.
  intros l n g0 old gamma dt a b Hdt Hr Hb Ha Hbb.
  assert (D := derive_microstress_rate_independent l n g0 old gamma dt a b Hdt Hr Hb Ha Hbb).
  apply (is_derive_ext (fun t => scalar_microstress l (perturb gamma b t a) (old a)
                        (hardened n (hmat l) g0 old (perturb gamma b t) a) dt)).
  - intros t. unfold microstress_of. rewrite resistance_hardened. reflexivity.
  - rewrite (jac_g_ext l gamma old _ (hardened n (hmat l) g0 old gamma)) by apply resistance_hardened. exact D.
Qed.
Print Assumptions C26_jacobian_exact_rate_independent.

(** Rate dependent with hardening: the coded Jacobian misses the exact derivative by
    h_ab reg(rate_a) (sgn(rate_b) - reg(rate_b)), and by nothing else. *)
Theorem C26_jacobian_error_partial : forall l n g0 old gamma dt a b,
  0 < dt -> 0 < sl_k l -> sl_rate_independent l = false -> sl_perfect l = false -> (b < n)%nat ->
  gamma b <> old b ->
  is_derive (fun t => microstress_of l n g0 old dt (perturb gamma b t) a) 0
    (scalar_jacobian l gamma old
      (resistance (sl_perfect l) (sl_H l / sl_chi l) (sl_q l) n g0 old gamma) dt a b
     + sl_H l / sl_chi l * (sl_q l + (1 - sl_q l) * kron a b)
       * sigmoid_function ((gamma a - old a) / dt) (sl_k l) (sl_reg l)
       * (signum_function (gamma b - old b) - sigmoid_function ((gamma b - old b) / dt) (sl_k l) (sl_reg l))).
Proof.
  intros l n g0 old gamma dt a b Hdt Hk Hr Hp Hb Hbb.
  assert (D := derive_microstress l n g0 old gamma dt a b Hdt Hk Hr Hb (or_introl Hbb)).
  apply (is_derive_ext (fun t => scalar_microstress l (perturb gamma b t a) (old a)
                        (hardened n (hmat l) g0 old (perturb gamma b t) a) dt)).
  - intros t. unfold microstress_of. rewrite resistance_hardened. reflexivity.
  - rewrite (jac_g_ext l gamma old _ (hardened n (hmat l) g0 old gamma)) by apply resistance_hardened.
    rewrite !reg_value_sigmoid in D.
    assert (E : hmat l a b = sl_H l / sl_chi l * (sl_q l + (1 - sl_q l) * kron a b)).
    { unfold hmat. rewrite Hp. unfold sl_entry, kron. destruct (Nat.eqb a b); ring. }
    rewrite E in D. exact D.
Qed.
Print Assumptions C26_jacobian_error_partial.

(** So "the Jacobian is the derivative" is false for a hardening, rate-dependent material. *)
Theorem C26_jacobian_exact_hardening_refuted : forall l n g0 old gamma dt a b,
  0 < dt -> 0 < sl_k l -> sl_rate_independent l = false -> sl_perfect l = false -> (b < n)%nat ->
  sl_H l / sl_chi l * (sl_q l + (1 - sl_q l) * kron a b) <> 0 -> gamma a <> old a -> gamma b <> old b ->
  ~ is_derive (fun t => microstress_of l n g0 old dt (perturb gamma b t) a) 0
    (scalar_jacobian l gamma old
      (resistance (sl_perfect l) (sl_H l / sl_chi l) (sl_q l) n g0 old gamma) dt a b).
Proof.
  intros l n g0 old gamma dt a b Hdt Hk Hr Hp Hb Hh Ha Hbb C.
  assert (D := C26_jacobian_error_partial l n g0 old gamma dt a b Hdt Hk Hr Hp Hb Hbb).
  apply is_derive_unique in C. apply is_derive_unique in D. rewrite C in D.
  set (h := sl_H l / sl_chi l * _) in *.
  set (sa := sigmoid_function ((gamma a - old a) / dt) (sl_k l) (sl_reg l)) in *.
  set (sb := sigmoid_function ((gamma b - old b) / dt) (sl_k l) (sl_reg l)) in *.
  assert (P : h * sa * (signum_function (gamma b - old b) - sb) = 0) by lra.
  apply Rmult_integral in P. destruct P as [P|P]; [apply Rmult_integral in P; destruct P as [P|P]|].
  - contradiction.
  - apply (proj2 (proj2 (proj2 (sigmoid_sign_iff (sl_reg l) (sl_k l) ((gamma a - old a) / dt) Hk)))) in P.
    apply (proj1 (proj2 (proj2 (div_pos_sign (gamma a - old a) dt Hdt)))) in P. lra.
  - destruct (sigmoid_bound (sl_reg l) (sl_k l) ((gamma b - old b) / dt) Hk) as [L U]. fold sb in L, U.
    change (signum_function (gamma b - old b)) with (sl_sgn (gamma b - old b)) in P.
    destruct (sgn_cases (gamma b - old b)) as [[K E]|[[K E]|[K E]]]; rewrite E in P; lra.
Qed.
Print Assumptions C26_jacobian_exact_hardening_refuted.

Theorem C26_jacobian_symmetric : forall l gamma old g dt a b,
  scalar_jacobian l gamma old g dt a b = scalar_jacobian l gamma old g dt b a.
Proof. exact jacobian_symmetric. Qed.
Print Assumptions C26_jacobian_symmetric.
Theorem C26_jacobian_psd : forall l n gamma old g dt v,
  0 < dt -> 0 < sl_k l -> 0 < sl_chi l -> 0 <= sl_H l -> 0 <= sl_q l <= 1 ->
  (forall a, (a < n)%nat -> 0 <= g a) ->
  0 <= sumn n (fun a => v a * sumn n (fun b => scalar_jacobian l gamma old g dt a b * v b)).
Proof. exact jacobian_psd. Qed.
Print Assumptions C26_jacobian_psd.

Example C26_nonvacuous : let l := law_ex false false in
  0 < sl_k l /\ sl_perfect l = false /\ sl_H l / sl_chi l * (sl_q l + (1 - sl_q l) * kron 0 1) <> 0 /\
  sl_perfect (law_ex true false) = true /\ sl_rate_independent (law_ex false true) = true.
Proof. cbn. unfold kron. cbn. repeat split; try lra; auto. Qed.

(** ** C27.  [factor] is g0 l^p (or 1), [dir] and [ort] span the slip plane with normal [nrm]. *)
Theorem C27_finite : forall factor p d dir ort grad i j, 2 <= p ->
  finite (vectorial_microstress factor p d dir ort grad i) /\
  finite (vectorial_jacobian factor p d dir ort grad i j).
Proof.
  intros. unfold finite. rewrite microstress_fin, vjacobian_fin by auto. split; reflexivity.
Qed.
Print Assumptions C27_finite.

Theorem C27_gradient_of_defect_energy : forall factor p d dir ort grad w, 2 <= p ->
  is_derive (fun t => defect_energy factor p d dir ort (vadd grad (vscal t w))) 0
    (dot d (fun i => val (vectorial_microstress factor p d dir ort grad i)) w).
Proof.
  intros. rewrite (dot_ext d _ w (vm factor p d dir ort grad) w).
  - apply energy_gradient; auto.
  - intros i _. rewrite microstress_fin by auto. reflexivity.
  - reflexivity.
Qed.
Print Assumptions C27_gradient_of_defect_energy.

(** The factor chosen by init: the defect energy is g0/p times the p-th powers of the dislocation
    densities multiplied by the energetic length (dimensional form), or plain powers
    (dimensionless form). *)
Theorem C27_energetic_length : forall l d dir ort grad, 0 < vl_length l -> 0 < vl_p l ->
  exists f, vl_factor l false = Fin f /\ vl_factor l true = Fin 1 /\
  defect_energy f (vl_p l) d dir ort grad =
    vl_g0 l / vl_p l * (pow_abs (vl_length l * dot d dir grad) (vl_p l)
                        + pow_abs (vl_length l * dot d ort grad) (vl_p l)).
Proof.
  intros l d dir ort grad HL Hp. unfold vl_factor, cpow. rewrite (proj2 (Rltb_true _ _) HL).
  eexists. split; [reflexivity|]. split; [reflexivity|]. unfold defect_energy.
  assert (E : forall x, pow_abs (vl_length l * x) (vl_p l) = Rpower (vl_length l) (vl_p l) * pow_abs x (vl_p l)).
  { intros x. unfold pow_abs. destruct (Req_EM_T x 0) as [->|N].
    - rewrite Rmult_0_r. destruct (Req_EM_T 0 0); [|lra]. destruct (Req_EM_T (vl_p l) 0); [lra|ring].
    - destruct (Req_EM_T (vl_length l * x) 0) as [K|_].
      + apply Rmult_integral in K. lra.
      + rewrite Rabs_mult, (Rabs_right (vl_length l)) by lra.
        symmetry. apply Rpower_mult_distr; [lra|]. apply Rabs_pos_lt; auto. }
  rewrite !E. field. lra.
Qed.
Print Assumptions C27_energetic_length.

Theorem C27_in_slip_plane : forall factor p d dir ort nrm grad, 2 <= p ->
  dot d dir nrm = 0 -> dot d ort nrm = 0 ->
  dot d (fun i => val (vectorial_microstress factor p d dir ort grad i)) nrm = 0.
Proof.
  intros. rewrite (dot_ext d _ nrm (vm factor p d dir ort grad) nrm).
  - apply vm_in_plane; auto.
  - intros i _. rewrite microstress_fin by auto. reflexivity.
  - reflexivity.
Qed.
Print Assumptions C27_in_slip_plane.

Theorem C27_monotone : forall factor p d dir ort g1 g2, 2 <= p -> 0 <= factor ->
  0 <= dot d (vsub (fun i => val (vectorial_microstress factor p d dir ort g1 i))
                   (fun i => val (vectorial_microstress factor p d dir ort g2 i))) (vsub g1 g2).
Proof.
  intros. rewrite (dot_ext d _ (vsub g1 g2) (vsub (vm factor p d dir ort g1) (vm factor p d dir ort g2)) (vsub g1 g2)).
  - apply vm_monotone; auto.
  - intros i _. unfold vsub. rewrite !microstress_fin by auto. reflexivity.
  - reflexivity.
Qed.
Print Assumptions C27_monotone.

Theorem C27_jacobian_exact : forall factor p d dir ort grad w i, 2 <= p ->
  is_derive (fun t => val (vectorial_microstress factor p d dir ort (vadd grad (vscal t w)) i)) 0
    (sumn d (fun j => val (vectorial_jacobian factor p d dir ort grad i j) * w j)).
Proof.
  intros. apply (is_derive_ext (fun t => vm factor p d dir ort (vadd grad (vscal t w)) i)).
  - intros t. rewrite microstress_fin by auto. reflexivity.
  - rewrite (sumn_ext d _ (fun j => factor * (p - 1) * vm_tensor p d dir ort grad i j * w j)).
    + apply vm_derivative; auto.
    + intros j _. rewrite vjacobian_fin by auto. reflexivity.
Qed.
Print Assumptions C27_jacobian_exact.

Theorem C27_jacobian_symmetric_psd : forall factor p d dir ort grad, 2 <= p -> 0 <= factor ->
  (forall i j, vectorial_jacobian factor p d dir ort grad i j = vectorial_jacobian factor p d dir ort grad j i) /\
  (forall w, 0 <= sumn d (fun i => w i * sumn d (fun j => val (vectorial_jacobian factor p d dir ort grad i j) * w j))).
Proof.
  intros factor p d dir ort grad Hp Hf. split.
  - intros i j. rewrite !vjacobian_fin by auto. f_equal. unfold vm_tensor. ring.
  - intros w. rewrite (sumn_ext d _ (fun i => (factor * (p - 1)) * (w i * sumn d (fun j => vm_tensor p d dir ort grad i j * w j)))).
    + rewrite sumn_scal. apply Rmult_le_pos; [apply Rmult_le_pos; lra|]. apply vm_tensor_psd.
    + intros i _. rewrite (sumn_ext d _ (fun j => (factor * (p - 1)) * (vm_tensor p d dir ort grad i j * w j))).
      * rewrite sumn_scal. ring.
      * intros j _. rewrite vjacobian_fin by auto. cbn [val]. ring.
Qed.
Print Assumptions C27_jacobian_symmetric_psd.

(** Finding: with 1 <= p < 2, which the parameter file accepts, every planar evaluation is NaN,
    since the slip orthogonal is the zero vector in two dimensions. *)
Theorem C27_index_below_two_planar_refuted : forall factor p dir grad i, p < 2 ->
  vectorial_microstress factor p 2 dir vzero grad i = NaN.
Proof. exact microstress_2d_nan. Qed.
Print Assumptions C27_index_below_two_planar_refuted.

Example C27_nonvacuous :
  let e0 := fun i => kron i 0 in let e1 := fun i => kron i 1 in let e2 := fun i => kron i 2 in
  dot 3 e0 e2 = 0 /\ dot 3 e1 e2 = 0 /\
  vectorial_microstress 1 2 3 e0 e1 (fun i => INR i + 1) 1 = Fin 2.
Proof.
  repeat split; try (unfold dot, kron; simpl; ring).
  rewrite microstress_fin by lra. f_equal. unfold vm, phi, dot, kron; simpl. unfold pow_abs.
  replace (2 - 2) with 0 by ring.
  destruct (Req_EM_T (0 + 0 * (0 + 1) + 1 * (1 + 1) + 0 * (1 + 1 + 1)) 0) as [E|_]; [lra|].
  rewrite !Rpower_O by (apply Rabs_pos_lt; lra). ring.
Qed.

(** ** C28 *)
Theorem C28_no_assertion_fails : forall d n_slips frames cur nb n, (d = 2 \/ d = 3)%nat -> cur <> nb ->
  (forall c a, (c = cur \/ c = nb) -> (a < n_slips)%nat ->
     dot d (f_dir (frames c) a) (f_dir (frames c) a) = 1 /\
     dot d (f_nrm (frames c) a) (f_nrm (frames c) a) = 1) -> dot d n n = 1 ->
  exists M, interaction_moduli d n_slips frames cur nb n = Ok M /\
    (forall a b, fst M a b = intra d (frames cur) n a b /\ snd M a b = inter d (frames cur) (frames nb) n a b).
Proof.
  intros. eexists. split; [apply moduli_ok; auto|]. intros; split; reflexivity.
Qed.
Print Assumptions C28_no_assertion_fails.
Theorem C28_bounded : forall d da na db nb n, (d = 2 \/ d = 3)%nat ->
  dot d da da = 1 -> dot d na na = 1 -> dot d db db = 1 -> dot d nb nb = 1 -> dot d n n = 1 ->
  Rabs (modulus d da na db nb n) <= 1.
Proof. exact modulus_bound. Qed.
Print Assumptions C28_bounded.

(** Seen from the neighbour: the normal changes sign, cell and neighbour swap. *)
Theorem C28_exchange : forall d n_slips frames cur nb n M M',
  interaction_moduli d n_slips frames cur nb n = Ok M ->
  interaction_moduli d n_slips frames nb cur (vneg n) = Ok M' ->
  forall a b, snd M' a b = snd M b a.
Proof.
  intros d n_slips frames cur nb n M M' H H' a b. unfold interaction_moduli in *.
  destruct (Nat.eqb cur nb); [discriminate|]. destruct (Nat.eqb nb cur); [discriminate|].
  destruct (forallb _ _) in H; [|discriminate]. destruct (forallb _ _) in H'; [|discriminate].
  injection H as <-. injection H' as <-. cbn [snd]. unfold inter. rewrite modulus_neg. apply modulus_swap.
Qed.
Print Assumptions C28_exchange.
Theorem C28_normal_sign : forall d n_slips frames cur nb n M,
  interaction_moduli d n_slips frames cur nb n = Ok M ->
  exists M', interaction_moduli d n_slips frames cur nb (vneg n) = Ok M' /\
    forall a b, fst M' a b = fst M a b /\ snd M' a b = snd M a b.
Proof.
  intros d n_slips frames cur nb n M H. unfold interaction_moduli in *.
  destruct (Nat.eqb cur nb); [discriminate|].
  match goal with |- context [if ?x then _ else _] => match type of H with context [if ?y then _ else _] =>
    assert (E : x = y) end end.
  { f_equal. apply functional_extensionality. intros a. f_equal. apply functional_extensionality. intros b.
    unfold intra, inter. rewrite !modulus_neg. reflexivity. }
  rewrite E. destruct (forallb _ _); [|discriminate]. injection H as <-.
  eexists. split; [reflexivity|]. cbn [fst snd]. unfold intra, inter. intros; rewrite !modulus_neg; split; reflexivity.
Qed.
Print Assumptions C28_normal_sign.
Theorem C28_same_grain_throws : forall d n_slips frames c n, interaction_moduli d n_slips frames c c n = Throw.
Proof. intros. unfold interaction_moduli. rewrite Nat.eqb_refl. reflexivity. Qed.
Print Assumptions C28_same_grain_throws.

(** The intra-grain moduli form a symmetric positive semidefinite matrix. *)
Theorem C28_intra_symmetric : forall d f n a b, intra d f n a b = intra d f n b a.
Proof. intros. apply modulus_swap. Qed.
Print Assumptions C28_intra_symmetric.
Theorem C28_intra_psd : forall d f n n_slips v, (d = 2 \/ d = 3)%nat ->
  0 <= sumn n_slips (fun a => v a * sumn n_slips (fun b => intra d f n a b * v b)).
Proof. exact intra_psd. Qed.
Print Assumptions C28_intra_psd.

Example C28_nonvacuous :
  let f := mk_frame (fun _ i => kron i 0) (fun _ i => kron i 1) in
  dot 2 (f_dir f 0%nat) (f_dir f 0%nat) = 1 /\ dot 2 (f_nrm f 0%nat) (f_nrm f 0%nat) = 1 /\
  intra 2 f (fun i => kron i 0) 0 0 = 1.
Proof. cbn. unfold intra, modulus, dot, cross2, kron; simpl. repeat split; ring. Qed.

(** ** C29.  [chi] is the characteristic microtraction. *)
Theorem C29_traction_is_minus_energy_derivative : forall lambda chi d n_slips nb cur n g_nb g_cur a,
  (d = 2 \/ d = 3)%nat -> (a < n_slips)%nat -> chi <> 0 ->
  is_derive (fun t => interface_energy lambda d n_slips nb cur n g_nb (perturb g_cur a t)) 0
    (- (chi * microtraction lambda chi n_slips (intra d cur n, inter d cur nb n) g_cur g_nb a)).
Proof.
  intros. replace (- (chi * _)) with (- chi * microtraction lambda chi n_slips (intra d cur n, inter d cur nb n) g_cur g_nb a) by ring.
  apply energy_derivative; auto.
Qed.
Print Assumptions C29_traction_is_minus_energy_derivative.
Theorem C29_energy_nonneg : forall lambda d n_slips nb cur n g_nb g_cur, (d = 2 \/ d = 3)%nat -> 0 <= lambda ->
  0 <= interface_energy lambda d n_slips nb cur n g_nb g_cur.
Proof. exact energy_nonneg. Qed.
Print Assumptions C29_energy_nonneg.
Theorem C29_energy_independent_of_side : forall lambda d n_slips nb cur n g_nb g_cur, (d = 2 \/ d = 3)%nat ->
  interface_energy lambda d n_slips nb cur n g_nb g_cur = interface_energy lambda d n_slips cur nb (vneg n) g_cur g_nb.
Proof. exact energy_exchange. Qed.
Print Assumptions C29_energy_independent_of_side.
Theorem C29_gateaux_exact : forall lambda chi n_slips M gc gn a b, (b < n_slips)%nat ->
  is_derive (fun t => microtraction lambda chi n_slips M (perturb gc b t) gn a) 0 (intra_gateaux lambda chi M a b) /\
  is_derive (fun t => microtraction lambda chi n_slips M gc (perturb gn b t) a) 0 (inter_gateaux lambda chi M a b).
Proof. intros. split; [apply intra_gateaux_exact|apply inter_gateaux_exact]; auto. Qed.
Print Assumptions C29_gateaux_exact.

Example C29_nonvacuous :
  let f := mk_frame (fun _ i => kron i 0) (fun _ i => kron i 1) in
  let g := mk_frame (fun _ i => kron i 1) (fun _ i => kron i 0) in
  interface_energy 2 2 1 g f (fun i => kron i 0) (fun _ => 1) (fun _ => 3) = 9.
Proof. cbn. unfold dot, burgers_2d, cross2, kron; simpl. lra. Qed.
