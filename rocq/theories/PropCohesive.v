(** * C30-C35: cohesive law, contact law, degradation function. *)
From Coquelicot Require Import Coquelicot.
From Verif Require Import Num SumLemmas Tensors TensorLemmas ModelUtilities ProofErf ProofUtilities
  ModelCohesive ModelInterface SpecInterface ProofInterface SpecMicro ProofMicro SpecCohesive ProofCohesive.
Open Scope R_scope.

(** ** C30 *)
(** The effective opening is the intended mixed-mode measure. *)
Theorem C30_effective_opening : forall d r delta n, effective_opening d r delta n = mixed_opening r d n delta.
Proof. exact eff_eq. Qed.
Print Assumptions C30_effective_opening.

(** Loading ([mx] is the current opening, which does not decrease).  [char_disp] and
    [char_stress] turn the dimensionless opening and traction into physical ones. *)
Theorem C30_loading_follows_envelope : forall d c delta n old dt i,
  0 < crit_traction c -> 0 < crit_opening c -> 0 < char_stress c -> 0 < char_disp c ->
  0 < dt -> (i < d)%nat ->
  let e := mixed_opening (ratio c) d n delta in 0 < e -> old <= e ->
  cohesive_traction d c delta n e old dt i =
  Fin (envelope (crit_traction c) (crit_opening c) (char_disp c * e) / char_stress c
       * (pull (ratio c) d n delta i / e)).
Proof.
  intros d c delta n old dt i A B C D Hdt Hi e He Ho.
  assert (G : good_cohesive c) by (repeat split; auto).
  unfold e at 1. rewrite loading_traction by auto. fold e. f_equal.
  rewrite <- secant_envelope by auto. field. lra.
Qed.
Print Assumptions C30_loading_follows_envelope.

(** Peak, sign, and shape of the envelope. *)
Theorem C30_envelope_shape : forall Tc dc, 0 < Tc -> 0 < dc ->
  envelope Tc dc 0 = 0 /\
  (forall x, envelope Tc dc x <= Tc /\ (envelope Tc dc x = Tc <-> x = dc)) /\
  (forall x, 0 < x -> 0 < envelope Tc dc x) /\
  (forall x y, x < y -> y <= dc -> envelope Tc dc x < envelope Tc dc y) /\
  (forall x y, dc <= x -> x < y -> envelope Tc dc y < envelope Tc dc x).
Proof.
  intros Tc dc A B. split; [apply envelope_zero|]. split; [intros; apply envelope_peak; auto|].
  split; [intros; apply envelope_pos; auto|]. split; intros; [apply envelope_rises|apply envelope_falls]; auto.
Qed.
Print Assumptions C30_envelope_shape.

(** Unloading and reloading: linear in the opening, with the secant stiffness at the recorded
    maximum; this covers [e = mx], so both branches agree there. *)
Theorem C30_unloading_is_secant : forall d c delta n mx old dt i,
  0 < crit_traction c -> 0 < crit_opening c -> 0 < char_stress c -> 0 < char_disp c ->
  dt <> 0 -> (i < d)%nat -> 0 < mx -> mixed_opening (ratio c) d n delta <= mx ->
  cohesive_traction d c delta n mx old dt i =
  Fin (envelope (crit_traction c) (crit_opening c) (char_disp c * mx) / mx / char_stress c
       * pull (ratio c) d n delta i).
Proof.
  intros d c delta n mx old dt i A B C D Hdt Hi Hm He.
  assert (G : good_cohesive c) by (repeat split; auto).
  rewrite unloading_traction by auto. f_equal. rewrite <- secant_envelope by auto. field. lra.
Qed.
Print Assumptions C30_unloading_is_secant.

Theorem C30_zero_opening_zero_traction : forall d c delta n mx old dt i,
  0 < crit_traction c -> 0 < crit_opening c -> 0 < char_stress c -> 0 < char_disp c ->
  0 < dt -> (i < d)%nat -> mixed_opening (ratio c) d n delta = 0 -> 0 < mx \/ (mx = 0 /\ old <= 0) ->
  cohesive_traction d c delta n mx old dt i = Fin 0.
Proof.
  intros d c delta n mx old dt i A B C D Hdt Hi He [Hm|[Hm Ho]].
  - assert (G : good_cohesive c) by (repeat split; auto).
    rewrite unloading_traction by (auto; lra). rewrite pull_zero by auto. f_equal. ring.
  - assert (G : good_cohesive c) by (repeat split; auto). subst mx.
    rewrite <- He at 1. rewrite loading_traction by (auto; lra). rewrite pull_zero by auto. f_equal. ring.
Qed.
Print Assumptions C30_zero_opening_zero_traction.

(** The traction never exceeds the critical one (shear ratio at most one). *)
Theorem C30_traction_bounded : forall d c delta n mx old dt,
  0 < crit_traction c -> 0 < crit_opening c -> 0 < char_stress c -> 0 < char_disp c -> Rabs (ratio c) <= 1 ->
  unit_vec d n -> dt <> 0 -> 0 < mx -> mixed_opening (ratio c) d n delta <= mx ->
  norm d (fun i => val (cohesive_traction d c delta n mx old dt i)) <= crit_traction c / char_stress c.
Proof.
  intros d c delta n mx old dt A B C D Hr U Hdt Hm He.
  assert (G : good_cohesive c) by (repeat split; auto).
  rewrite (norm_ext d _ (vscal (secant c mx / char_stress c) (pull (ratio c) d n delta))).
  2:{ intros i Hi. rewrite unloading_traction by auto. reflexivity. }
  rewrite norm_scal. pose proof (secant_pos c mx G) as S.
  assert (P : 0 < / char_stress c) by (apply Rinv_0_lt_compat; auto).
  rewrite Rabs_right by (apply Rle_ge, Rmult_le_pos; lra).
  pose proof (pull_norm_le (ratio c) d n delta U Hr) as L.
  destruct (envelope_peak (crit_traction c) (crit_opening c) (char_disp c * mx) A B) as [K _].
  rewrite <- secant_envelope in K by auto.
  assert (secant c mx * norm d (pull (ratio c) d n delta) <= crit_traction c) by nra.
  unfold Rdiv. rewrite Rmult_assoc, (Rmult_comm (/ char_stress c)), <- Rmult_assoc.
  apply Rmult_le_compat_r; lra.
Qed.
Print Assumptions C30_traction_bounded.

(** Finding: an interface that stays purely compressed.  The stored old opening counts the
    penetration (C16), the recorded maximum does not; the next evaluation takes the unloading
    branch and computes 0/0. *)
Theorem C30_compressed_interface_nan_refuted : forall d c p n uc un dt i,
  i_ratio p = ratio c -> unit_vec d n -> 0 < dt -> (i < d)%nat -> char_stress c <> 0 ->
  dot d n (vsub un uc) < 0 -> (forall j, (j < d)%nat -> tangential d n (vsub un uc) j = 0) ->
  exists s, irun i_construct
     [IInit p; IUpdateExp (effective_opening d (ratio c) (vsub un uc) n); IStoreOpening d uc un n; IStore] = Ok s /\
   cohesive_traction d c (vsub un uc) n (i_max s) (i_old s) dt i = NaN.
Proof.
  intros d c p n uc un dt i Hr U Hdt Hi Hc Hn Ht. set (delta := vsub un uc) in *.
  assert (T0 : dot d (tangential d n delta) (tangential d n delta) = 0).
  { unfold dot. rewrite (sumn_ext d _ (fun _ => 0 * 0)); [rewrite sumn_scal; ring|]. intros j Hj. rewrite Ht by auto. reflexivity. }
  assert (E0 : mixed_opening (ratio c) d n delta = 0).
  { unfold mixed_opening. rewrite T0, Rmax_right by lra. replace (0 ^ 2 + ratio c ^ 2 * 0) with 0 by ring. apply sqrt_0. }
  assert (O : 0 < stored_opening (ratio c) d uc un n).
  { unfold stored_opening. fold delta. rewrite norm_normal_projection by auto. apply sqrt_lt_R0.
    rewrite macaulay_max, Rmax_left by apply Rabs_pos. set (t := norm d (mv d (tangential_projector n) delta)).
    assert (0 < Rabs (dot d n delta)) by (apply Rabs_pos_lt; lra).
    assert (0 <= ratio c * ratio c * t * t). { replace (ratio c * ratio c * t * t) with ((ratio c * t) * (ratio c * t)) by ring. apply Rle_0_sqr. }
    nra. }
  eexists. split; [cbn [irun istep rbind i_construct i_prm i_damage i_max i_old i_tmp0 i_tmp1]; reflexivity|].
  cbn [i_max i_old]. rewrite eff_eq, E0, (proj2 (Rltb_false 0 0)) by lra. rewrite Hr.
  unfold cohesive_traction. rewrite eff_eq, E0.
  assert (B : branch_of 0 0 (rate 0 (stored_opening (ratio c) d uc un n) dt) = Unloading).
  { unfold branch_of, rate. rewrite xdiv_fin by lra. cbn [xltb]. rewrite (proj2 (Reqb_true 0 0)) by auto.
    rewrite (proj2 (Rltb_true _ 0)); [cbn; rewrite (proj2 (Rltb_false 0 0)) by lra; reflexivity|].
    apply Ropp_lt_cancel. rewrite Ropp_0. replace (- ((0 - stored_opening (ratio c) d uc un n) / dt)) with (stored_opening (ratio c) d uc un n / dt) by (unfold Rdiv; ring).
    apply Rdiv_lt_0_compat; auto. }
  rewrite B. cbn [traction_factor]. rewrite Rmult_0_r.
  unfold xdiv at 2. rewrite (proj2 (Reqb_true 0 0)) by auto. unfold xsign. rewrite !(proj2 (Rltb_false 0 0)) by lra.
  reflexivity.
Qed.
Print Assumptions C30_compressed_interface_nan_refuted.

Definition law30 : cohesive := mk_cohesive 700 (25/1000) 1 1 1.
Example C30_nonvacuous : 0 < crit_traction law30 /\ 0 < crit_opening law30 /\ Rabs (ratio law30) <= 1 /\
  mixed_opening (ratio law30) 2 (fun i => kron i 0) (fun i => kron i 0 * (1/100)) = 1/100 /\
  dot 2 (fun i => kron i 0) (vsub (fun i => - kron i 0) vzero) < 0 /\ unit_vec 2 (fun i => kron i 0) /\
  (forall j, (j < 2)%nat -> tangential 2 (fun i => kron i 0) (vsub (fun i => - kron i 0) vzero) j = 0).
Proof.
  cbn [crit_traction crit_opening ratio law30]. repeat split; try lra.
  - rewrite Rabs_R1; lra.
  - unfold mixed_opening, tangential, dot, kron; simpl. rewrite Rmax_left by lra.
    replace (_ + _) with ((1/100) * (1/100)) by lra. apply sqrt_square. lra.
  - unfold dot, vsub, vzero, kron; simpl. lra.
  - unfold unit_vec, dot, kron; simpl; lra.
  - intros [|[|j]] H; try lia; unfold tangential, dot, vsub, vzero, kron; simpl; ring.
Qed.

(** ** C31 *)
Theorem C31_potential : forall c x, 0 < crit_opening c ->
  is_derive (free_energy c) x (envelope (crit_traction c) (crit_opening c) x).
Proof.
  intros. rewrite <- traction_envelope by lra. apply free_energy_derive; auto.
Qed.
Print Assumptions C31_potential.
Theorem C31_range_and_growth : forall c, 0 < crit_traction c -> 0 < crit_opening c ->
  free_energy c 0 = 0 /\
  (forall x, 0 <= x -> 0 <= free_energy c x < exp 1 * crit_traction c * crit_opening c) /\
  (forall x y, 0 <= x -> x < y -> free_energy c x < free_energy c y).
Proof.
  intros c A B. split; [|split].
  - rewrite free_energy_dmg by lra. replace (0 / crit_opening c) with 0 by (field; lra). rewrite dmg_0. ring.
  - intros; apply free_energy_range; auto.
  - intros; apply free_energy_incr; auto.
Qed.
Print Assumptions C31_range_and_growth.

(** ** C32.  What holds: the exact derivative is [char_disp] times the coded Jacobian, so the
    Jacobian is exact precisely when lengths are not scaled. *)
Theorem C32_jacobian_loading_partial : forall d c delta n old dt w i,
  0 < crit_traction c -> 0 < crit_opening c -> 0 < char_stress c -> 0 < char_disp c -> unit_vec d n ->
  0 < dt -> (i < d)%nat -> dot d n delta <> 0 ->
  0 < mixed_opening (ratio c) d n delta -> old <= mixed_opening (ratio c) d n delta ->
  is_derive (fun t => let x := vadd delta (vscal t w) in
               val (cohesive_traction d c x n (mixed_opening (ratio c) d n x) old dt i)) 0
    (char_disp c * sumn d (fun j => val (cohesive_jacobian d c delta n (mixed_opening (ratio c) d n delta) old dt i j) * w j)).
Proof. intros. apply derive_loading; auto. repeat split; auto. Qed.
Print Assumptions C32_jacobian_loading_partial.

Theorem C32_jacobian_unloading_partial : forall d c delta n mx old dt w i,
  0 < crit_traction c -> 0 < crit_opening c -> 0 < char_stress c -> 0 < char_disp c -> unit_vec d n ->
  dt <> 0 -> (i < d)%nat -> dot d n delta <> 0 -> 0 < mixed_opening (ratio c) d n delta < mx ->
  is_derive (fun t => val (cohesive_traction d c (vadd delta (vscal t w)) n mx old dt i)) 0
    (char_disp c * sumn d (fun j => val (cohesive_jacobian d c delta n mx old dt i j) * w j)).
Proof. intros. apply derive_unloading; auto. repeat split; auto. Qed.
Print Assumptions C32_jacobian_unloading_partial.

Theorem C32_jacobian_exact_undimensioned : forall d c delta n old dt w i,
  0 < crit_traction c -> 0 < crit_opening c -> 0 < char_stress c -> char_disp c = 1 -> unit_vec d n ->
  0 < dt -> (i < d)%nat -> dot d n delta <> 0 ->
  0 < mixed_opening (ratio c) d n delta -> old <= mixed_opening (ratio c) d n delta ->
  is_derive (fun t => let x := vadd delta (vscal t w) in
               val (cohesive_traction d c x n (mixed_opening (ratio c) d n x) old dt i)) 0
    (sumn d (fun j => val (cohesive_jacobian d c delta n (mixed_opening (ratio c) d n delta) old dt i j) * w j)).
Proof.
  intros d c delta n old dt w i A B C D U Hdt Hi Hn He Ho.
  assert (K := C32_jacobian_loading_partial d c delta n old dt w i A B C ltac:(lra) U Hdt Hi Hn He Ho).
  rewrite D, Rmult_1_l in K. exact K.
Qed.
Print Assumptions C32_jacobian_exact_undimensioned.

(** In the dimensionless formulation it is off: for an unloading normal opening the coded
    diagonal entry is not the derivative unless [char_disp = 1]. *)
Theorem C32_jacobian_dimensionless_refuted : forall c delta n mx old dt i d,
  0 < crit_traction c -> 0 < crit_opening c -> 0 < char_stress c -> 0 < char_disp c -> char_disp c <> 1 ->
  unit_vec d n -> dt <> 0 -> (i < d)%nat -> 0 < dot d n delta -> n i <> 0 ->
  0 < mixed_opening (ratio c) d n delta < mx ->
  ~ is_derive (fun t => val (cohesive_traction d c (vadd delta (vscal t n)) n mx old dt i)) 0
    (sumn d (fun j => val (cohesive_jacobian d c delta n mx old dt i j) * n j)).
Proof.
  intros c delta n mx old dt i d A B C D D1 U Hdt Hi Hn Hni He K.
  assert (G : good_cohesive c) by (repeat split; auto).
  assert (L := C32_jacobian_unloading_partial d c delta n mx old dt n i A B C D U Hdt Hi ltac:(lra) He).
  apply is_derive_unique in K. apply is_derive_unique in L. rewrite K in L.
  assert (M := jacobian_unloading_mv d c delta n mx old dt n i G Hi ltac:(lra) (proj2 He)).
  set (J := sumn d _) in *.
  rewrite (proj2 (Rltb_true 0 (dot d n delta)) Hn) in M. rewrite U in M.
  assert (T : tangential d n n i = 0) by (unfold tangential; rewrite U; ring). rewrite T in M.
  assert (J0 : J = 0).
  { assert (J * (char_disp c - 1) = 0) by lra. apply Rmult_integral in H. destruct H; auto. exfalso; apply D1; lra. }
  rewrite J0 in M. pose proof (secant_pos c mx G) as S.
  assert (0 < secant c mx / char_stress c) by (apply Rdiv_lt_0_compat; auto).
  assert (secant c mx / char_stress c * n i = 0) by lra. apply Rmult_integral in H0. destruct H0; [lra|contradiction].
Qed.
Print Assumptions C32_jacobian_dimensionless_refuted.

Theorem C32_jacobian_symmetric : forall d c delta n mx old dt i j,
  cohesive_jacobian d c delta n mx old dt i j = cohesive_jacobian d c delta n mx old dt j i.
Proof.
  intros. unfold cohesive_jacobian. f_equal.
  assert (E : effective_identity d (ratio c) delta n i j = effective_identity d (ratio c) delta n j i).
  { unfold effective_identity, madd, mscal, tangential_projector, msub, normal_projector, symmetrize, outer, unit_mat, kron.
    rewrite (Nat.eqb_sym j i). rewrite (Rplus_comm (n j * n i)). reflexivity. }
  rewrite E. destruct (branch_of _ _ _); auto. do 4 f_equal. unfold symmetrize. rewrite Rplus_comm. reflexivity.
Qed.
Print Assumptions C32_jacobian_symmetric.

Example C32_nonvacuous : let c := mk_cohesive 700 (25/1000) 1 100 (1/10) in
  char_disp c <> 1 /\ 0 < dot 2 (fun i => kron i 0) (fun i => kron i 0 * (1/100)) /\
  0 < mixed_opening (ratio c) 2 (fun i => kron i 0) (fun i => kron i 0 * (1/100)) < 1.
Proof.
  cbn [char_disp ratio]. assert (E : mixed_opening 1 2 (fun i => kron i 0) (fun i => kron i 0 * (1/100)) = 1/100) by apply C30_nonvacuous.
  rewrite E. repeat split; try lra. unfold dot, kron; simpl. lra.
Qed.

(** ** C33 *)
Theorem C33_contact : forall d c delta n, unit_vec d n -> 0 <= penalty c -> 0 < ct_stress c -> 0 < ct_disp c ->
  (0 <= dot d delta n -> forall i, contact_traction d c delta n i = 0) /\
  (dot d delta n < 0 ->
     (forall i, contact_traction d c delta n i = penalty c * ct_disp c / ct_stress c * dot d delta n * n i) /\
     dot d (contact_traction d c delta n) n = - (penalty c * ct_disp c / ct_stress c * Rabs (dot d delta n)) /\
     dot d (contact_traction d c delta n) n <= 0).
Proof.
  intros d c delta n U Hp Hs Hd. split; [intros; apply contact_open; auto|]. intros H.
  assert (E : forall i, contact_traction d c delta n i = penalty c * ct_disp c / ct_stress c * dot d delta n * n i)
    by (intros; apply contact_closed; lra).
  assert (F : dot d (contact_traction d c delta n) n = - (penalty c * ct_disp c / ct_stress c * Rabs (dot d delta n))).
  { rewrite (dot_ext d _ n (vscal (penalty c * ct_disp c / ct_stress c * dot d delta n) n) n) by (intros; auto; apply E).
    rewrite dot_scal_l, U, Rabs_left by lra. ring. }
  split; auto. split; auto. rewrite F.
  assert (0 <= penalty c * ct_disp c / ct_stress c).
  { apply Rmult_le_pos; [apply Rmult_le_pos; lra|]. apply Rlt_le, Rinv_0_lt_compat; auto. }
  pose proof (Rabs_pos (dot d delta n)). nra.
Qed.
Print Assumptions C33_contact.

(** The coded Jacobian misses the factor [ct_disp], as for the cohesive law. *)
Theorem C33_contact_jacobian_partial : forall d c delta n w i, dot d delta n <> 0 ->
  is_derive (fun t => contact_traction d c (vadd delta (vscal t w)) n i) 0
    (ct_disp c * sumn d (fun j => contact_jacobian d c delta n i j * w j)).
Proof. exact derive_contact. Qed.
Print Assumptions C33_contact_jacobian_partial.
Theorem C33_contact_jacobian_dimensionless_refuted : forall d c delta n i, unit_vec d n -> 0 < penalty c ->
  0 < ct_stress c -> 0 < ct_disp c -> ct_disp c <> 1 -> dot d delta n < 0 -> (i < d)%nat -> n i <> 0 ->
  ~ is_derive (fun t => contact_traction d c (vadd delta (vscal t n)) n i) 0
    (sumn d (fun j => contact_jacobian d c delta n i j * n j)).
Proof.
  intros d c delta n i U Hp Hs Hd H1 Hn Hi Hni K.
  assert (L := derive_contact d c delta n n i ltac:(lra)).
  apply is_derive_unique in K. apply is_derive_unique in L. rewrite K in L. clear K.
  set (J := sumn d _) in *.
  assert (EJ : J = penalty c / ct_stress c * n i).
  { unfold J. rewrite (sumn_ext d _ (fun j => (penalty c / ct_stress c * n i) * (n j * n j))).
    - rewrite sumn_scal. fold (dot d n n). rewrite U. ring.
    - intros j Hj. unfold contact_jacobian. rewrite contact_switch by lra. rewrite (proj2 (Rltb_true _ 0) Hn).
      unfold mscal, symmetrize, outer. field. lra. }
  assert (J0 : J * (ct_disp c - 1) = 0) by lra. apply Rmult_integral in J0. destruct J0 as [J0|J0]; [|apply H1; lra].
  rewrite EJ in J0. apply Rmult_integral in J0. destruct J0 as [J0|J0]; [|contradiction].
  assert (0 < penalty c / ct_stress c) by (apply Rdiv_lt_0_compat; auto). lra.
Qed.
Print Assumptions C33_contact_jacobian_dimensionless_refuted.
Theorem C33_contact_jacobian_exact_undimensioned : forall d c delta n w i, ct_disp c = 1 -> dot d delta n <> 0 ->
  is_derive (fun t => contact_traction d c (vadd delta (vscal t w)) n i) 0
    (sumn d (fun j => contact_jacobian d c delta n i j * w j)).
Proof.
  intros d c delta n w i D H. assert (K := derive_contact d c delta n w i H). rewrite D, Rmult_1_l in K. exact K.
Qed.
Print Assumptions C33_contact_jacobian_exact_undimensioned.
Example C33_nonvacuous : contact_traction 2 (mk_contact 100 1 1) (fun i => - kron i 0%nat) (fun i => kron i 0%nat) 0%nat = -100.
Proof. rewrite contact_closed; unfold dot, kron; simpl; lra. Qed.

(** ** C34 *)
Theorem C34_action_reaction : forall d c k delta n mx old dt i j, (i < d)%nat -> (j < d)%nat -> char_stress c <> 0 ->
  effective_opening d (ratio c) (vneg delta) (vneg n) = effective_opening d (ratio c) delta n /\
  cohesive_traction d c (vneg delta) (vneg n) mx old dt i = xneg (cohesive_traction d c delta n mx old dt i) /\
  cohesive_jacobian d c (vneg delta) (vneg n) mx old dt i j = cohesive_jacobian d c delta n mx old dt i j /\
  contact_traction d k (vneg delta) (vneg n) i = - contact_traction d k delta n i /\
  contact_jacobian d k (vneg delta) (vneg n) i j = contact_jacobian d k delta n i j.
Proof.
  intros. split; [rewrite !eff_eq; apply opening_neg|]. split; [apply traction_neg; auto|].
  split; [apply jacobian_neg; auto|]. split; [apply contact_neg|apply contact_jacobian_neg].
Qed.
Print Assumptions C34_action_reaction.

(** ** C35 *)
Theorem C35_range_and_ends : forall m, 0 < m ->
  degradation m 0 true = Fin 1 /\ degradation m 1 true = Fin 0 /\
  forall x, 0 <= x <= 1 -> exists y, degradation m x true = Fin y /\ 0 <= y <= 1.
Proof.
  intros m H. split; [apply degradation_0|]. split; [apply degradation_1; auto|].
  intros; apply degradation_range; auto.
Qed.
Print Assumptions C35_range_and_ends.
Theorem C35_decreasing : forall m x y, 0 < m -> x < y -> y <= 1 ->
  val (degradation m y true) < val (degradation m x true).
Proof. exact degradation_decreasing. Qed.
Print Assumptions C35_decreasing.
Theorem C35_derivative_coupled_partial : forall m x, x < 1 ->
  is_derive (fun y => val (degradation m y true)) x (val (degradation_derivative m x true)).
Proof. exact degradation_derive. Qed.
Print Assumptions C35_derivative_coupled_partial.
(** Uncoupled: the value is the constant one, the coded derivative is one instead of zero. *)
Theorem C35_derivative_uncoupled_refuted : forall m x,
  (forall y, degradation m y false = Fin 1) /\
  ~ is_derive (fun y => val (degradation m y false)) x (val (degradation_derivative m x false)).
Proof.
  intros m x. split; [reflexivity|]. intros K. apply is_derive_unique in K.
  assert (Z : is_derive (fun y => val (degradation m y false)) x 0).
  { apply (is_derive_ext (fun _ => 1)); [reflexivity|]. apply @is_derive_const. }
  apply is_derive_unique in Z. rewrite Z in K. cbn in K. lra.
Qed.
Print Assumptions C35_derivative_uncoupled_refuted.
Example C35_example : degradation 2 (1/2) true = Fin (1/4) .
Proof.
  rewrite degradation_lt1 by lra. f_equal. replace (Rpower (1 - 1 / 2) 2) with (Rpower (1 - 1 / 2) (INR 2)) by (f_equal; simpl; lra).
  rewrite Rpower_pow by lra. simpl. lra.
Qed.
