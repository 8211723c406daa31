(** * C113: collapse. *)
From Coq Require Import FunctionalExtensionality Classical.
From Verif Require Import Num ModelShear SpecShear ModelProgram SpecProgram PropProgram SumLemmas Tensors TensorLemmas ModelUtilities ModelElastic SpecElastic ProofElastic ModelMicro SpecMicro ProofMicro PropMicro
  ModelCohesive SpecCohesive ProofCohesive ModelHistory SpecHistory ModelInterface SpecInterface
  ModelFEField ModelActiveSet ModelLinear SpecLinear PropLinear ModelAssembly SpecAssembly ProofAssembly ProofFace
  ModelSolver ModelSweep SpecSweep PropSweep ModelStep SpecStep ProofStep PropStep ModelBody SpecBody PropBody SpecTangent SpecRun PropRun
  SpecEnergy ProofEnergy PropEnergy SpecStiffness SpecUnique PropUnique ProofMinimum ProofBound ProofPotential SpecExistence PropExistence ProofSaturation ProofCoercive SpecLimit PropLimit PropLimitRun SpecLimitLoad PropLimitLoad
  ProofDirection SpecCollapse.
Open Scope R_scope.

(** ** The stresses stored along a motion *)
Lemma pow_abs_nonneg x q : 0 <= pow_abs x q.
Proof. unfold pow_abs. destruct (Req_EM_T x 0); [destruct (Req_EM_T q 0); lra|]. unfold Rpower. left. apply exp_pos. Qed.
Lemma pow_abs_grows m x q : 0 <= q -> 1 <= m -> pow_abs x q <= pow_abs (m * x) q.
Proof.
  intros Q M. unfold pow_abs. destruct (Req_EM_T x 0) as [->|N].
  - rewrite Rmult_0_r. destruct (Req_EM_T 0 0); lra.
  - destruct (Req_EM_T (m * x) 0) as [E|E]; [apply Rmult_integral in E; destruct E; lra|].
    pose proof (Rabs_pos_lt x N). apply Rle_Rpower_l; [exact Q|]. split; [assumption|]. rewrite Rabs_mult, (Rabs_pos_eq m) by lra. nra.
Qed.
(** Power of the stress of one density [t], multiplied by [m], on that density. *)
Definition hardness (p m t : R) : R := phi p (m * t) * t.
Lemma hardness_form p m t : hardness p m t = m * (pow_abs (m * t) (p - 2) * (t * t)).
Proof. unfold hardness, phi. ring. Qed.
Lemma hardness_nonneg p t : 0 <= hardness p 1 t.
Proof. rewrite hardness_form. pose proof (pow_abs_nonneg (1 * t) (p - 2)). pose proof (Rle_0_sqr t) as Q. unfold Rsqr in Q. rewrite Rmult_1_l. apply Rmult_le_pos; assumption. Qed.
Lemma hardness_grows p m t : 2 <= p -> 1 <= m -> m * hardness p 1 t <= hardness p m t.
Proof.
  intros P M. rewrite !hardness_form. rewrite !Rmult_1_l. apply Rmult_le_compat_l; [lra|]. apply Rmult_le_compat_r; [pose proof (Rle_0_sqr t) as Q; exact Q|]. apply pow_abs_grows; lra.
Qed.
Lemma hardness_zero p m t : hardness p 1 t = 0 -> hardness p m t = 0.
Proof.
  rewrite !hardness_form, !Rmult_1_l. intros E. apply Rmult_integral in E. destruct E as [E|E]; [|rewrite E; ring].
  destruct (Req_dec t 0) as [->|N]; [ring|]. unfold pow_abs in E. destruct (Req_EM_T t 0); [contradiction|]. unfold Rpower in E. pose proof (exp_pos ((p - 2) * ln (Rabs t))). lra.
Qed.
Definition multiple (m : R) (w : vec) : vec := fun d => m * w d.
Section Ray.
Variables (b : body) (frames : nat -> frame) (p0 : interface) (h : rank_data).
Hypothesis C : consistent b.
Hypothesis T : two_sided b.
Hypothesis D : b_decohesion b = false.
Hypothesis SM : stable_material b (macro_of b).
Hypothesis SI : stable_interfaces b frames p0.
Let rest : vec := fun _ => 0.
Definition elastic_resistance (w : vec) (c : nat) : R :=
  let k := b_crystal b c in let e := b_element b c in let d := cr_dim k in let L := elastic_strain_of b (fun _ _ _ => 0) w c in
  sumn (el_nq e) (fun q => el_w e q * (cr_N k 3 / cr_N k 0 * ddot d (L q) (c4 d (cr_C k) (L q)))).
Definition gradient_resistance (m : R) (w : vec) (c : nat) : R :=
  let k := b_crystal b c in let e := b_element b c in let d := cr_dim k in
  sumn (el_nq e) (fun q => el_w e q * (cr_N k 2 * sumn (cr_ns k) (fun a => let g := slip_gradient_at e (local_values b w c) q a in
    cr_factor k * (hardness (cr_p k) m (dot d (cr_dir k a) g) + hardness (cr_p k) m (dot d (cr_ort k a) g))))).
Lemma grain_ray m w c : In c (b_cells b) ->
  grain_power b (multiple m w) (multiple m w) h w c - grain_power b rest rest h w c = m * elastic_resistance w c + gradient_resistance m w c.
Proof.
  intros Hc. destruct C as (_ & _ & C1 & _). destruct (C1 c Hc) as (_ & _ & _ & _ & P2 & _).
  unfold grain_power, elastic_resistance, gradient_resistance. cbv zeta. set (k := b_crystal b c) in *. set (e := b_element b c). set (d := cr_dim k).
  rewrite <- sumn_minus, <- sumn_scal, <- sumn_plus. apply sumn_ext. intros q _. rewrite <- Rmult_minus_distr_l.
  set (L := elastic_strain (cr_N k 0) (cr_P k) (strain_at e (local_values b w c) q) (slip_at e (local_values b w c) q) (cr_ns k)).
  set (E := elastic_strain_of b (fun _ _ _ => 0) w c q).
  assert (EL : forall i j, L i j = E i j) by (intros i j; symmetry; apply lin_strain_form).
  assert (ES : ddot d L (stress_at k e (local_values b (multiple m w) c) q) = ddot d L (stress_at k e (local_values b rest c) q) + m * ddot d E (c4 d (cr_C k) E)).
  { rewrite <- ddot_scal_r. rewrite (ddot_ext d E (mscal m (c4 d (cr_C k) E)) L (mscal m (c4 d (cr_C k) E))); [|intros i j _ _; symmetry; apply EL|reflexivity].
    unfold ddot. rewrite <- sumn_plus. apply sumn_ext. intros i _. rewrite <- sumn_plus. apply sumn_ext. intros j _. rewrite <- Rmult_plus_distr_l. f_equal.
    unfold stress_at, mscal. fold d. unfold c4. rewrite <- sumn_scal, <- sumn_plus. apply sumn_ext. intros r _. rewrite <- sumn_scal, <- sumn_plus. apply sumn_ext. intros s _.
    enough (Q : madd (cr_macro k) (elastic_strain (cr_N k 0) (cr_P k) (strain_at e (local_values b (multiple m w) c) q) (slip_at e (local_values b (multiple m w) c) q) (cr_ns k)) r s
       = madd (cr_macro k) (elastic_strain (cr_N k 0) (cr_P k) (strain_at e (local_values b rest c) q) (slip_at e (local_values b rest c) q) (cr_ns k)) r s + m * E r s) by (rewrite Q; ring).
    unfold madd. pose proof (lin_strain_form b (multiple m w) c q r s) as Z1. pose proof (lin_strain_form b rest c q r s) as Z0. fold k e in Z1, Z0. rewrite <- Z1, <- Z0. unfold E.
    pose proof (linear_scal (b_ndofs b) (fun v => elastic_strain_of b (fun _ _ _ => 0) v c q r s) m w (lin_elastic b c C Hc q r s)) as LS. cbv beta in LS. unfold multiple. rewrite LS.
    pose proof (linear_zero (b_ndofs b) (fun v => elastic_strain_of b (fun _ _ _ => 0) v c q r s) (lin_elastic b c C Hc q r s)) as LZ. cbv beta in LZ. unfold rest. rewrite LZ. ring. }
  rewrite ES.
  assert (G : forall a, dot d (slip_gradient_at e (local_values b w c) q a) (fun i => val (vectorial_microstress (cr_factor k) (cr_p k) d (cr_dir k a) (cr_ort k a) (slip_gradient_at e (local_values b (multiple m w) c) q a) i))
     = cr_factor k * (hardness (cr_p k) m (dot d (cr_dir k a) (slip_gradient_at e (local_values b w c) q a)) + hardness (cr_p k) m (dot d (cr_ort k a) (slip_gradient_at e (local_values b w c) q a)))).
  { intros a. set (g := slip_gradient_at e (local_values b w c) q a). set (g' := slip_gradient_at e (local_values b (multiple m w) c) q a).
    assert (DG : forall v, dot d v g' = m * dot d v g).
    { intros v. unfold dot. rewrite <- sumn_scal. apply sumn_ext. intros i _. unfold g', g, slip_gradient_at. 
      replace (sumn (el_nd e) (fun j => local_values b (multiple m w) c j * el_dpsi e a j q i)) with (m * sumn (el_nd e) (fun j => local_values b w c j * el_dpsi e a j q i)); [ring|].
      rewrite <- sumn_scal. apply sumn_ext. intros j _. unfold local_values, multiple. ring. }
    rewrite dot_comm. rewrite (dot_ext d _ g (vm (cr_factor k) (cr_p k) d (cr_dir k a) (cr_ort k a) g') g); [|intros i _; rewrite (microstress_fin _ _ _ _ _ _ _ P2); reflexivity|reflexivity].
    rewrite vm_dot, !DG. unfold hardness. reflexivity. }
  assert (G0 : forall a, dot d (slip_gradient_at e (local_values b w c) q a) (fun i => val (vectorial_microstress (cr_factor k) (cr_p k) d (cr_dir k a) (cr_ort k a) (slip_gradient_at e (local_values b rest c) q a) i)) = 0).
  { intros a. unfold dot. apply sumn_zero. intros r _. rewrite (microstress_fin _ _ _ _ _ _ _ P2). cbn [val].
    assert (DZ : forall v, dot d v (slip_gradient_at e (local_values b rest c) q a) = 0).
    { intros v. unfold dot. apply sumn_zero. intros i _. unfold slip_gradient_at, local_values, rest. rewrite sumn_zero by (intros; ring). ring. }
    unfold vm. rewrite !DZ. unfold phi. ring. }
  rewrite (sumn_ext (cr_ns k) _ _ (fun a _ => G a)). rewrite (sumn_zero (cr_ns k) _ (fun a _ => G0 a)).
  rewrite !(sumn_zero (cr_ns k) (fun a => _ * scalar_microstress _ _ _ _ _)) by (intros; rewrite stress_at_rest; ring). ring.
Qed.
Lemma side_ray m w c n : In c (b_cells b) -> In n (gb_neighbours b c) -> side_power b (multiple m w) h w c n = m * side_power b w h w c n.
Proof.
  intros Hc Hn. rewrite !(side_form b C D) by assumption. cbv zeta. rewrite <- sumn_scal. apply sumn_ext. intros q _. destruct (if_microtraction _); [|ring].
  replace (sumn (if_ns (b_interface b c n)) (fun a => slip_side b (multiple m w) w c n q a)) with (m * sumn (if_ns (b_interface b c n)) (fun a => slip_side b w w c n q a)); [ring|].
  rewrite <- sumn_scal. apply sumn_ext. intros a _. unfold slip_side. cbv zeta. unfold microtraction.
  rewrite <- !(Rmult_assoc m), (Rmult_comm m), !Rmult_assoc. f_equal. rewrite <- Rmult_assoc. f_equal. rewrite <- sumn_scal. apply sumn_ext. intros s _.
  assert (S1 : forall i n (g : nat -> R), sumn n (fun j => local_values b (multiple m w) i j * g j) = m * sumn n (fun j => local_values b w i j * g j)).
  { intros i n' g. rewrite <- sumn_scal. apply sumn_ext. intros j _. unfold local_values, multiple. ring. }
  rewrite !S1. ring.
Qed.
Definition elastic_total (w : vec) : R := lsum (elastic_resistance w) (b_cells b).
Definition gradient_total (m : R) (w : vec) : R := lsum (gradient_resistance m w) (b_cells b).
Definition side_total (w : vec) : R := lsum (fun c => lsum (side_power b w h w c) (gb_neighbours b c)) (b_cells b).
Lemma rest_is w : multiple 0 w = rest.
Proof. apply functional_extensionality. intros d. unfold multiple, rest. ring. Qed.
(** At [m] times the motion [w], the elastic strains and the interfaces resist [m] times as much, the slip gradients at least as much. *)
Lemma power_ray m w : virtual_power b (multiple m w) (multiple m w) h w = virtual_power b rest rest h w - (m * (elastic_total w - side_total w) + gradient_total m w).
Proof.
  rewrite !virtual_power_parts. unfold elastic_total, side_total, gradient_total.
  rewrite <- lsum_minus, <- lsum_scal, <- lsum_plus, <- lsum_minus. apply lsum_ext. intros c Hc. pose proof (grain_ray m w c Hc) as G.
  assert (S1 : forall m, lsum (side_power b (multiple m w) h w c) (gb_neighbours b c) = m * lsum (side_power b w h w c) (gb_neighbours b c)).
  { intros m'. rewrite <- lsum_scal. apply lsum_ext. intros n Hn. apply side_ray; assumption. }
  pose proof (S1 0) as S0. rewrite rest_is in S0. rewrite (S1 m), S0. lra.
Qed.
Lemma lin_symmetric w c q : In c (b_cells b) -> symmetric (cr_dim (b_crystal b c)) (elastic_strain_of b (fun _ _ _ => 0) w c q).
Proof.
  intros Hc i j Hi Hj. pose proof (strains_apart b w rest SM c q Hc i j Hi Hj) as E. unfold msub in E.
  assert (Z : forall i j, elastic_strain_of b (fun _ _ _ => 0) rest c q i j = 0) by (intros i' j'; exact (linear_zero (b_ndofs b) (fun v => elastic_strain_of b (fun _ _ _ => 0) v c q i' j') (lin_elastic b c C Hc q i' j'))).
  pose proof (Z i j) as Z1. pose proof (Z j i) as Z2. unfold elastic_strain_of in *. cbv zeta in *. lra.
Qed.
Lemma elastic_point w c q : In c (b_cells b) -> (q < el_nq (b_element b c))%nat -> let L := elastic_strain_of b (fun _ _ _ => 0) w c q in
  0 <= el_w (b_element b c) q * (cr_N (b_crystal b c) 3 / cr_N (b_crystal b c) 0 * ddot (cr_dim (b_crystal b c)) L (c4 (cr_dim (b_crystal b c)) (cr_C (b_crystal b c)) L)).
Proof.
  intros Hc Hq L. destruct (SM c Hc) as (W & N3 & _ & _ & _ & PSD & _). apply Rmult_le_pos; [exact (W q Hq)|]. apply Rmult_le_pos; [exact N3|]. apply PSD, lin_symmetric, Hc.
Qed.
Lemma elastic_nonneg w c : In c (b_cells b) -> 0 <= elastic_resistance w c.
Proof. intros Hc. unfold elastic_resistance. cbv zeta. apply sumn_nonneg. intros q Hq. exact (elastic_point w c q Hc Hq). Qed.
Lemma gradient_nonneg w c : In c (b_cells b) -> 0 <= gradient_resistance 1 w c.
Proof.
  intros Hc. unfold gradient_resistance. cbv zeta. destruct (SM c Hc) as (W & _ & N2 & F & _). cbv zeta in *. apply sumn_nonneg. intros q Hq. apply Rmult_le_pos; [exact (W q Hq)|]. apply Rmult_le_pos; [exact N2|].
  apply sumn_nonneg. intros a _. apply Rmult_le_pos; [exact F|]. apply Rplus_le_le_0_compat; apply hardness_nonneg.
Qed.
Lemma gradient_grows m w c : 1 <= m -> In c (b_cells b) -> m * gradient_resistance 1 w c <= gradient_resistance m w c.
Proof.
  intros M Hc. unfold gradient_resistance. cbv zeta. destruct (SM c Hc) as (W & _ & N2 & F & _). cbv zeta in *. destruct C as (_ & _ & C1 & _). destruct (C1 c Hc) as (_ & _ & _ & _ & P2 & _).
  rewrite <- sumn_scal. apply sumn_le. intros q Hq. rewrite <- !Rmult_assoc, (Rmult_comm m), !Rmult_assoc. apply Rmult_le_compat_l; [exact (W q Hq)|]. rewrite <- Rmult_assoc, (Rmult_comm m), Rmult_assoc. apply Rmult_le_compat_l; [exact N2|].
  rewrite <- sumn_scal. apply sumn_le. intros a _. rewrite <- Rmult_assoc, (Rmult_comm m), Rmult_assoc. apply Rmult_le_compat_l; [exact F|]. rewrite Rmult_plus_distr_l. apply Rplus_le_compat; apply hardness_grows; assumption.
Qed.
Lemma gradient_zero m w c : In c (b_cells b) -> gradient_resistance 1 w c = 0 -> gradient_resistance m w c = 0.
Proof.
  intros Hc. unfold gradient_resistance. cbv zeta. destruct (SM c Hc) as (W & _ & N2 & F & _). cbv zeta in *. set (e := b_element b c) in *. set (k := b_crystal b c) in *. set (d := cr_dim k).
  set (H := fun m q a => cr_factor k * (hardness (cr_p k) m (dot d (cr_dir k a) (slip_gradient_at e (local_values b w c) q a)) + hardness (cr_p k) m (dot d (cr_ort k a) (slip_gradient_at e (local_values b w c) q a)))).
  change (sumn (el_nq e) (fun q => el_w e q * (cr_N k 2 * sumn (cr_ns k) (H 1 q))) = 0 -> sumn (el_nq e) (fun q => el_w e q * (cr_N k 2 * sumn (cr_ns k) (H m q))) = 0).
  assert (H0 : forall q a, 0 <= H 1 q a) by (intros q a; apply Rmult_le_pos; [exact F|]; apply Rplus_le_le_0_compat; apply hardness_nonneg).
  assert (HZ : forall q a, H 1 q a = 0 -> H m q a = 0).
  { intros q a E. unfold H in *. apply Rmult_integral in E. destruct E as [E|E]; [rewrite E; ring|].
    pose proof (hardness_nonneg (cr_p k) (dot d (cr_dir k a) (slip_gradient_at e (local_values b w c) q a))) as N1. pose proof (hardness_nonneg (cr_p k) (dot d (cr_ort k a) (slip_gradient_at e (local_values b w c) q a))) as N2'.
    rewrite (hardness_zero _ m _ (ltac:(lra) : hardness (cr_p k) 1 (dot d (cr_dir k a) (slip_gradient_at e (local_values b w c) q a)) = 0)), (hardness_zero _ m _ (ltac:(lra) : hardness (cr_p k) 1 (dot d (cr_ort k a) (slip_gradient_at e (local_values b w c) q a)) = 0)). ring. }
  assert (SN : forall n (f : nat -> R), (forall i, (i < n)%nat -> 0 <= f i) -> sumn n f = 0 -> forall i, (i < n)%nat -> f i = 0).
  { intros n f Hf E i Hi. pose proof (sumn_term_le n f i Hf Hi). specialize (Hf i Hi). lra. }
  intros E. apply sumn_zero. intros q Hq.
  assert (Eq : el_w e q * (cr_N k 2 * sumn (cr_ns k) (H 1 q)) = 0).
  { apply (SN (el_nq e) (fun q => el_w e q * (cr_N k 2 * sumn (cr_ns k) (H 1 q)))); [|exact E|exact Hq]. intros i Hi. apply Rmult_le_pos; [exact (W i Hi)|]. apply Rmult_le_pos; [exact N2|]. apply sumn_nonneg. intros; apply H0. }
  apply Rmult_integral in Eq. destruct Eq as [->|Eq]; [ring|]. apply Rmult_integral in Eq. destruct Eq as [->|Eq]; [ring|].
  rewrite (sumn_zero (cr_ns k)); [ring|]. intros a Ha. apply HZ. exact (SN (cr_ns k) (H 1 q) (fun i _ => H0 q i) Eq a Ha).
Qed.
Lemma sides_resist w : side_total w <= 0.
Proof.
  pose proof (sides_apart b w rest h h frames p0 C T SI D) as A. replace (increment w rest) with w in A by (apply functional_extensionality; intros d; unfold increment, rest; ring).
  assert (Z : lsum (fun c => lsum (side_power b rest h w c) (gb_neighbours b c)) (b_cells b) = 0); [|fold (side_total w) in A; lra].
  apply lsum_zero. intros c Hc. apply lsum_zero. intros n Hn. rewrite <- (rest_is w), side_ray by assumption. ring.
Qed.
(** What is stored along [w] resists the motion [w] more and more, unless nothing is stored. *)
Definition stored_resistance (w : vec) : R := virtual_power b rest rest h w - virtual_power b w w h w.
Lemma stored_parts w : stored_resistance w = elastic_total w - side_total w + gradient_total 1 w.
Proof.
  unfold stored_resistance. pose proof (power_ray 1 w) as E. replace (multiple 1 w) with w in E by (apply functional_extensionality; intros d; unfold multiple; ring). lra.
Qed.
Lemma totals_nonneg w : 0 <= elastic_total w /\ side_total w <= 0 /\ 0 <= gradient_total 1 w.
Proof.
  split; [apply lsum_nonneg; intros; apply elastic_nonneg; assumption|]. split; [apply sides_resist|]. apply lsum_nonneg. intros. apply gradient_nonneg; assumption.
Qed.
Lemma resistance_grows w m : 1 <= m -> virtual_power b (multiple m w) (multiple m w) h w <= virtual_power b rest rest h w - m * stored_resistance w.
Proof.
  intros M. rewrite power_ray, stored_parts. assert (G : m * gradient_total 1 w <= gradient_total m w); [|lra].
  unfold gradient_total. rewrite <- lsum_scal. apply lsum_le. intros c Hc. apply gradient_grows; assumption.
Qed.
Hypothesis SG : strict_grains b.
Lemma stored_strains w c q : stored_resistance w = 0 -> In c (b_cells b) -> (q < el_nq (b_element b c))%nat ->
  forall i j, (i < cr_dim (b_crystal b c))%nat -> (j < cr_dim (b_crystal b c))%nat -> elastic_strain_of b (fun _ _ _ => 0) w c q i j = 0.
Proof.
  intros E Hc Hq. rewrite stored_parts in E. destruct (totals_nonneg w) as (E1 & E2 & E3).
  destruct (SG c Hc) as (_ & N3 & W & ST). cbv zeta in *. destruct (sizes b C SM c Hc) as (NQ & _).
  assert (Ec : elastic_resistance w c = 0).
  { pose proof (lsum_term_le (elastic_resistance w) (b_cells b) c (fun i Hi => elastic_nonneg w i Hi) Hc) as Q. pose proof (elastic_nonneg w c Hc). fold (elastic_total w) in Q. lra. }
  set (L := elastic_strain_of b (fun _ _ _ => 0) w c q).
  assert (Eq : ddot (cr_dim (b_crystal b c)) L (c4 (cr_dim (b_crystal b c)) (cr_C (b_crystal b c)) L) = 0).
  { unfold elastic_resistance in Ec. cbv zeta in Ec.
    pose proof (sumn_term_le _ (fun q => let L := elastic_strain_of b (fun _ _ _ => 0) w c q in el_w (b_element b c) q * (cr_N (b_crystal b c) 3 / cr_N (b_crystal b c) 0 * ddot (cr_dim (b_crystal b c)) L (c4 (cr_dim (b_crystal b c)) (cr_C (b_crystal b c)) L))) q (fun i Hi => elastic_point w c i Hc Hi) Hq) as Q.
    cbv beta zeta in Q. rewrite Ec in Q. pose proof (elastic_point w c q Hc Hq) as P. cbv zeta in P. fold L in P, Q. rewrite NQ in Hq. specialize (W q Hq).
    set (x := ddot _ _ _) in *. clearbody x. assert (Z : el_w (b_element b c) q * (cr_N (b_crystal b c) 3 / cr_N (b_crystal b c) 0 * x) = 0) by lra.
    apply Rmult_integral in Z. destruct Z as [Z|Z]; [lra|]. apply Rmult_integral in Z. destruct Z as [Z|Z]; [lra|exact Z]. }
  exact (ST L (lin_symmetric w c q Hc) Eq).
Qed.
Lemma no_strain_power w inc : stored_resistance w = 0 -> strain_power b inc w = 0.
Proof.
  intros E. unfold strain_power. apply lsum_zero. intros c Hc. cbv zeta. apply sumn_zero. intros q Hq.
  unfold ddot. rewrite sumn_zero; [ring|]. intros i Hi. apply sumn_zero. intros j Hj. rewrite (stored_strains w c q E Hc Hq i j Hi Hj). ring.
Qed.
Lemma nothing_stored w m : stored_resistance w = 0 -> virtual_power b (multiple m w) (multiple m w) h w = load_work b w.
Proof.
  intros E. pose proof E as E'. rewrite stored_parts in E. destruct (totals_nonneg w) as (E1 & E2 & E3). rewrite power_ray.
  assert (G : gradient_total m w = 0).
  { unfold gradient_total. apply lsum_zero. intros c Hc. apply gradient_zero; [exact Hc|].
    pose proof (lsum_term_le (gradient_resistance 1 w) (b_cells b) c (fun i Hi => gradient_nonneg w i Hi) Hc) as Q. pose proof (gradient_nonneg w c Hc). fold (gradient_total 1 w) in Q. lra. }
  rewrite G. replace (elastic_total w - side_total w) with 0 by lra. rewrite power_of_nothing by assumption.
  rewrite (no_strain_power w _ E'). ring.
Qed.
(** One state shows whether a motion is effortless. *)
Lemma effortless_stored w : effortless b h w <-> stored_resistance w = 0.
Proof.
  split; [intros E; unfold stored_resistance; rewrite (E w), (E rest); ring|]. intros E z.
  pose proof (state_slope b frames p0 rest h C T D SM SI) as SL. pose proof (lin_state b rest h C D) as LS.
  rewrite (state_at_rest b rest h). set (sp := state_power b rest h) in *. set (pe := potential_energy b frames h) in *.
  assert (M : forall m, sp (multiple m w) w = load_work b w) by (intros m; unfold sp; rewrite <- state_at_rest; apply nothing_stored, E).
  assert (IN : forall x y v, sp x (increment y v) = sp x y - sp x v).
  { intros x y v. destruct (LS x) as (A & B). fold sp in A, B. replace (increment y v) with (fun i => -1 * v i + y i) by (apply functional_extensionality; intros; unfold increment; ring). rewrite A. ring. }
  assert (SC : forall x m, sp x (multiple m w) = m * sp x w) by (intros x m; exact (linear_scal (b_ndofs b) (sp x) m w (LS x))).
  assert (Up : forall m, pe (multiple m w) <= pe rest - m * load_work b w).
  { intros m. pose proof (SL (multiple m w) rest) as A. rewrite IN, SC, M in A. rewrite (linear_zero (b_ndofs b) (sp (multiple m w)) (LS _) : sp (multiple m w) rest = 0) in A. lra. }
  assert (Lo : forall m, pe z + sp z z - m * sp z w <= pe (multiple m w)).
  { intros m. pose proof (SL z (multiple m w)) as A. rewrite IN, SC in A. lra. }
  set (K := pe rest - pe z - sp z z). set (g := load_work b w - sp z w).
  assert (B : forall m, m * g <= K) by (intros m; specialize (Up m); specialize (Lo m); unfold K, g; lra).
  destruct (Req_dec g 0) as [Z|N]; [unfold g in Z; lra|]. specialize (B ((K + 1) / g)). replace ((K + 1) / g * g) with (K + 1) in B by (field; exact N). lra.
Qed.
Lemma stored_nonneg w : 0 <= stored_resistance w.
Proof. rewrite stored_parts. destruct (totals_nonneg w) as (E1 & E2 & E3). lra. Qed.
(** Otherwise some state resists the motion as much as you like. *)
Lemma resisted w K : ~ effortless b h w -> exists z, virtual_power b z z h w < K.
Proof.
  intros N. pose proof (stored_nonneg w) as P. assert (P' : 0 < stored_resistance w).
  { destruct (Req_dec (stored_resistance w) 0) as [E|E]; [elim N; apply effortless_stored, E|lra]. }
  set (v := virtual_power b rest rest h w). set (m := 1 + Rabs (v - K + 1) / stored_resistance w).
  assert (M : 1 <= m). { unfold m. assert (0 <= Rabs (v - K + 1) / stored_resistance w); [|lra]. apply Rmult_le_pos; [apply Rabs_pos|apply Rlt_le, Rinv_0_lt_compat, P']. }
  exists (multiple m w). pose proof (resistance_grows w m M) as A. fold v in A.
  assert (E : m * stored_resistance w = stored_resistance w + Rabs (v - K + 1)) by (unfold m; field; lra). pose proof (Rle_abs (v - K + 1)). lra.
Qed.
End Ray.

(** ** A step has a solution exactly if nothing collapses *)
Section Criterion.
Variables (b : body) (frames : nat -> frame) (p0 : interface) (old : vec) (h : rank_data) (c k : constraints).
Hypothesis C : consistent b.
Hypothesis T : two_sided b.
Hypothesis D : b_decohesion b = false.
Hypothesis SM : stable_material b (macro_of b).
Hypothesis SI : stable_interfaces b frames p0.
Hypothesis I : initialised b h.
Hypothesis SH : sound_histories b h.
Hypothesis NL : no_latent_hardening b h.
Hypothesis SG : strict_grains b.
Hypothesis HV : homogeneous_version c k.
Hypothesis CB : closed_below (b_ndofs b) k.
Hypothesis HP : held_in_place b k.
Let n := b_ndofs b.
(** Loads in addition to those of the body. *)
Variable extra : vec -> R.
Hypothesis LX : linear_on n extra.
Definition collapse_under (w : vec) : Prop :=
  SpecLinear.admissible (b_ndofs b) k w /\ (exists d, (d < b_ndofs b)%nat /\ w d <> 0) /\ effortless b h w /\ hardening_at_rest b h w /\ flow_limit b h w <= load_work b w + extra w.
Let slip (w : vec) (e q a : nat) : R := slip_at (b_element b e) (local_values b w e) q a.
Lemma lin_flow s : linear_on n (flow_power b s).
Proof.
  unfold flow_power. cbv zeta. apply (lin_lsum n (b_cells b) (fun e w => sumn (el_nq (b_element b e)) _)). intros e He.
  apply (lin_sumn n _ (fun q w => el_w (b_element b e) q * _)). intros q _. apply lin_scal.
  apply (lin_sumn n _ (fun a w => s e q a * slip_at (b_element b e) (local_values b w e) q a)). intros a _. apply lin_scal. exact (lin_slip b e C He q a).
Qed.
(** Along a ray the energy grows at least as fast as flow stresses [s] and the stresses of a state [z] resist. *)
Lemma ray_bound z s w : (forall e q a, In e (b_cells b) -> (q < b_nq b)%nat -> (a < b_ns b)%nat -> Rabs (s e q a) < resistances_of h e q a \/ hardens b h e q) ->
  exists B, forall t, t * (flow_power b s (follow k w) - virtual_power b z z h (follow k w) - extra (follow k w)) + t * t * sumn n (fun d => fixed k d * (w d * w d)) - B
    <= energy_under b frames old h c k extra (fun d => t * w d).
Proof.
  intros HS. set (more := fun v => flow_power b s v - virtual_power b z z h v).
  assert (LE : linear_on n more) by (apply lin_minus; [apply lin_flow|exact (lin_power b z C D z h)]).
  destruct (energy_bound b frames p0 old h C T D SM SI c k more z (fun _ _ _ _ => 0) s LE (fun _ _ _ _ _ _ _ _ => eq_refl) HV CB) as (B1 & H1).
  { intros v _. rewrite strain_power_zero. unfold more. ring. }
  destruct (excess_below b old h C SM SH SG c k s HV CB HS) as (B2 & H2).
  exists (B1 + B2 - more (follow c (fun _ => 0)) + extra (follow c (fun _ => 0))). intros t. set (y := fun d => t * w d). specialize (H1 y). specialize (H2 y). cbv beta in H1.
  pose proof (gaps_nonneg b SM (follow c y) z) as GN. rewrite (from_rest b c k HV CB more y LE) in H1.
  unfold energy_under. rewrite (from_rest b c k HV CB extra y LX).
  assert (EX : forall l, linear_on n l -> l (follow k y) = t * l (follow k w)) by (intros l L; exact (linear_scal n (fun v => l (follow k v)) t w (lin_follow b c k HV CB l L))).
  rewrite (EX more LE) in H1. rewrite (EX extra LX). fold n in H1.
  assert (SQ : sumn n (fun d => fixed k d * (y d * y d)) = t * t * sumn n (fun d => fixed k d * (w d * w d))) by (rewrite <- sumn_scal; apply sumn_ext; intros d _; unfold y; ring).
  rewrite SQ in H1. change (flow_power b s (follow k w) - virtual_power b z z h (follow k w)) with (more (follow k w)). lra.
Qed.
Lemma resistance_positive e q a : In e (b_cells b) -> (q < b_nq b)%nat -> (a < b_ns b)%nat -> 0 < resistances_of h e q a.
Proof. intros He Hq Ha. destruct (system_data b h SM SH SG e q a He Hq Ha) as (_ & _ & _ & P & _). exact P. Qed.
Definition signed (x y : R) : R := if Rle_dec 0 y then x else - x.
Lemma signed_abs x y : 0 <= x -> Rabs (signed x y) = x /\ signed x y * y = x * Rabs y.
Proof.
  intros X. unfold signed. destruct (Rle_dec 0 y) as [P|P]; [rewrite !Rabs_pos_eq by assumption; split; ring|].
  rewrite Rabs_Ropp, (Rabs_pos_eq x X), (Rabs_left y) by lra. split; ring.
Qed.
(** Flow stresses and a state that together resist a motion that is not a collapse. *)
Lemma some_resistance v : SpecLinear.admissible n k v -> (exists d, (d < n)%nat /\ v d <> 0) -> ~ collapse_under v -> exists z s,
  (forall e q a, In e (b_cells b) -> (q < b_nq b)%nat -> (a < b_ns b)%nat -> Rabs (s e q a) < resistances_of h e q a \/ hardens b h e q) /\
  virtual_power b z z h v + extra v < flow_power b s v.
Proof.
  intros AD NZ NC. set (rest := fun _ : nat => 0).
  destruct (classic (hardening_at_rest b h v)) as [HR|HR].
  - destruct (classic (effortless b h v)) as [EF|EF].
    + set (L0 := load_work b v + extra v). assert (L : L0 < flow_limit b h v) by (apply Rnot_le_lt; intros L; apply NC; split; [exact AD|]; split; [exact NZ|]; split; [exact EF|]; split; [exact HR|exact L]).
      set (F := flow_limit b h v) in *. assert (F0 : 0 <= F).
      { unfold F, flow_limit. apply lsum_nonneg. intros e He. cbv zeta. destruct (sizes b C SM e He) as (NQ & NS). apply sumn_nonneg. intros q Hq. rewrite NQ in Hq. apply Rmult_le_pos; [apply (weight_nonneg b C SM); assumption|].
        rewrite NS. apply sumn_nonneg. intros a Ha. apply Rmult_le_pos; [left; apply resistance_positive; assumption|apply Rabs_pos]. }
      set (u := Rmin 1 ((F - L0) / (2 * (F + 1)))). assert (U : 0 < u <= 1).
      { split; [apply Rmin_pos; [lra|apply Rdiv_lt_0_compat; lra]|apply Rmin_l]. }
      exists rest, (fun e q a => signed ((1 - u) * resistances_of h e q a) (slip v e q a)). split.
      * intros e q a He Hq Ha. left. pose proof (resistance_positive e q a He Hq Ha) as P. rewrite (proj1 (signed_abs _ _ (Rmult_le_pos (1 - u) _ ltac:(lra) (Rlt_le _ _ P)))). nra.
      * rewrite (EF rest). assert (E : flow_power b (fun e q a => signed ((1 - u) * resistances_of h e q a) (slip v e q a)) v = (1 - u) * F).
        { unfold F, flow_limit, flow_power. rewrite <- lsum_scal. apply lsum_ext. intros e He. cbv zeta. destruct (sizes b C SM e He) as (NQ & NS). rewrite <- sumn_scal. apply sumn_ext. intros q Hq. rewrite NQ in Hq.
          rewrite <- Rmult_assoc, (Rmult_comm (1 - u)), Rmult_assoc. f_equal. rewrite NS, <- sumn_scal. apply sumn_ext. intros a Ha. pose proof (resistance_positive e q a He Hq Ha) as P. fold (slip v e q a).
          rewrite (proj2 (signed_abs _ (slip v e q a) (Rmult_le_pos (1 - u) _ ltac:(lra) (Rlt_le _ _ P)))). ring. }
        rewrite E. fold L0. assert (Q : u * F <= (F - L0) / 2); [|lra].
        apply Rle_trans with ((F - L0) / (2 * (F + 1)) * F); [apply Rmult_le_compat_r; [exact F0|apply Rmin_r]|].
        apply (Rmult_le_reg_r (2 * (F + 1))); [lra|]. replace ((F - L0) / (2 * (F + 1)) * F * (2 * (F + 1))) with ((F - L0) * F) by (field; lra).
        replace ((F - L0) / 2 * (2 * (F + 1))) with ((F - L0) * (F + 1)) by field. nra.
    + destruct (resisted b frames p0 h C T D SM SI SG v (- extra v) EF) as (z & Z). exists z, (fun _ _ _ => 0). split.
      * intros e q a He Hq Ha. left. rewrite Rabs_R0. apply resistance_positive; assumption.
      * assert (E : flow_power b (fun _ _ _ => 0) v = 0); [|rewrite E; lra]. unfold flow_power. apply lsum_zero. intros e _. cbv zeta. apply sumn_zero. intros q _. rewrite sumn_zero; [ring|]. intros; ring.
  - assert (EX : exists e q a, In e (b_cells b) /\ (q < b_nq b)%nat /\ (a < b_ns b)%nat /\ hardens b h e q /\ slip v e q a <> 0).
    { apply NNPP. intros NE. apply HR. intros e q a He Hq Ha P. apply NNPP. intros Nz. apply NE. exists e, q, a. auto. }
    destruct EX as (e & q & a & He & Hq & Ha & P & Nz).
    set (on := fun e q => if flag_perfect_plasticity (prm (r_bulk h e q)) then 0 else if Rlt_dec 0 (linear_hardening_modulus (prm (r_bulk h e q)) / char_res (r_bulk h e q)) then 1 else 0).
    assert (ON : forall e q, on e q = 0 \/ (on e q = 1 /\ hardens b h e q)).
    { intros e' q'. unfold on, hardens. destruct (flag_perfect_plasticity _); [left; reflexivity|]. destruct (Rlt_dec _ _) as [L|L]; [right; auto|left; reflexivity]. }
    set (X := virtual_power b rest rest h v + extra v). destruct (SG e He) as (_ & _ & W & _). cbv zeta in W. specialize (W q Hq).
    set (u := el_w (b_element b e) q * (slip v e q a * slip v e q a)). assert (U : 0 < u) by (apply Rmult_lt_0_compat; [exact W|]; pose proof (Rsqr_pos_lt _ Nz) as Q; exact Q).
    set (M := (Rabs X + 1) / u). assert (M0 : 0 < M) by (apply Rdiv_lt_0_compat; [pose proof (Rabs_pos X); lra|exact U]).
    exists rest, (fun e q a => M * on e q * slip v e q a). split.
    + intros e' q' a' He' Hq' Ha'. destruct (ON e' q') as [->|(_ & H)]; [left|right; exact H]. replace (M * 0 * slip v e' q' a') with 0 by ring. rewrite Rabs_R0. apply resistance_positive; assumption.
    + fold X. assert (Q : M * u <= flow_power b (fun e q a => M * on e q * slip v e q a) v).
      { destruct (sizes b C SM e He) as (NQ & NS).
        assert (P1 : forall e' q' a', 0 <= M * on e' q' * slip v e' q' a' * slip v e' q' a').
        { intros e' q' a'. rewrite Rmult_assoc. apply Rmult_le_pos; [apply Rmult_le_pos; [lra|destruct (ON e' q') as [->|(-> & _)]; lra]|]. pose proof (Rle_0_sqr (slip v e' q' a')) as Q. exact Q. }
        assert (P2 : forall e', In e' (b_cells b) -> forall q', (q' < el_nq (b_element b e'))%nat -> 0 <= el_w (b_element b e') q' * sumn (cr_ns (b_crystal b e')) (fun a => M * on e' q' * slip v e' q' a * slip v e' q' a)).
        { intros e' He' q' Hq'. rewrite (proj1 (sizes b C SM e' He')) in Hq'. apply Rmult_le_pos; [apply (weight_nonneg b C SM); assumption|]. apply sumn_nonneg. intros; apply P1. }
        unfold flow_power. cbv zeta. eapply Rle_trans; [|apply (lsum_term_le (fun e => sumn (el_nq (b_element b e)) (fun q => el_w (b_element b e) q * sumn (cr_ns (b_crystal b e)) (fun a => M * on e q * slip v e q a * slip v e q a))) (b_cells b) e); [|exact He]].
        - cbv beta. eapply Rle_trans; [|apply (sumn_term_le _ (fun q => el_w (b_element b e) q * sumn (cr_ns (b_crystal b e)) (fun a => M * on e q * slip v e q a * slip v e q a)) q); [apply P2, He|lia]].
          cbv beta. unfold u. rewrite <- Rmult_assoc, (Rmult_comm M), Rmult_assoc. apply Rmult_le_compat_l; [lra|].
          eapply Rle_trans; [|apply (sumn_term_le _ (fun a => M * on e q * slip v e q a * slip v e q a) a); [intros; apply P1|lia]]. cbv beta.
          destruct P as (PF & PL). unfold on. rewrite PF. destruct (Rlt_dec _ _) as [L|L]; [right; ring|contradiction].
        - intros e' He'. apply sumn_nonneg. apply P2, He'. }
      assert (E : M * u = Rabs X + 1) by (unfold M; field; lra). pose proof (Rle_abs X). lra.
Qed.
Lemma outgrows A q B : 0 < q -> forall E, exists t, 0 < t /\ A < t * E + t * t * q - B.
Proof.
  intros Q E. set (t := 1 + Rabs (A + B) / q + Rabs E / q). pose proof (Rabs_pos (A + B)) as P1. pose proof (Rabs_pos E) as P2.
  assert (Q1 : 0 <= Rabs (A + B) / q) by (apply Rmult_le_pos; [exact P1|apply Rlt_le, Rinv_0_lt_compat, Q]). assert (Q2 : 0 <= Rabs E / q) by (apply Rmult_le_pos; [exact P2|apply Rlt_le, Rinv_0_lt_compat, Q]).
  exists t. assert (T1 : 1 <= t) by (unfold t; lra). split; [lra|]. assert (TQ : t * q = q + Rabs (A + B) + Rabs E) by (unfold t; field; lra).
  replace (t * E + t * t * q) with (t * (E + t * q)) by ring. rewrite TQ. pose proof (Rle_abs (A + B)). pose proof (Rle_abs (- E)) as L. rewrite Rabs_Ropp in L.
  assert (1 * (q + Rabs (A + B)) <= t * (E + (q + Rabs (A + B) + Rabs E))); [|lra]. apply Rmult_le_compat; lra.
Qed.
Lemma no_collapse_bounded : (forall w, ~ collapse_under w) -> bounded_levels n (energy_under b frames old h c k extra).
Proof.
  intros NC. apply (directions_bounded n (energy_under b frames old h c k extra) (slope_under b old h c k extra)).
  - exact (under_convex b frames p0 old h c k C T D SM SI I SH NL SG HV CB extra LX).
  - intros x d e Hd He. destruct (slope_continuous b old h C T D SM I SH NL SG c k HV CB x d e Hd He) as (t & Ht & Q). exists t. split; [exact Ht|]. intros v V. unfold slope_under.
    match goal with |- Rabs ?u <= _ => replace u with (slope b old h c k v d - slope b old h c k x d) by ring end. apply Q, V.
  - intros w (d & Hd & Nz). set (A := energy_under b frames old h c k extra (fun _ => 0)).
    destruct (Req_dec (sumn n (fun d => fixed k d * (w d * w d))) 0) as [Z|Nq].
    + assert (Kf : forall i, (i < n)%nat -> w i <> 0 -> k i = None).
      { intros i Hi Wi. destruct (k i) as [l|] eqn:E; [|reflexivity]. exfalso.
        pose proof (sumn_term_le n (fun d => fixed k d * (w d * w d)) i) as Q. cbv beta in Q. specialize (Q ltac:(intros j _; pose proof (fixed_nonneg k j); pose proof (Rle_0_sqr (w j)) as S2; apply Rmult_le_pos; assumption) Hi).
        assert (F : fixed k i = 1) by (unfold fixed; rewrite E; reflexivity). rewrite F in Q. pose proof (Rsqr_pos_lt _ Wi) as S2. unfold Rsqr in S2. lra. }
      set (v := follow k w). assert (AD : SpecLinear.admissible n k v) by exact (follow_admissible b c k HV CB w).
      assert (NZ : exists d, (d < n)%nat /\ v d <> 0). { exists d. split; [exact Hd|]. unfold v, follow. rewrite (Kf d Hd Nz). exact Nz. }
      destruct (some_resistance v AD NZ (NC v)) as (z & s & HS & L). destruct (ray_bound z s w HS) as (B & H). fold v in H.
      set (E := flow_power b s v - virtual_power b z z h v - extra v) in *. assert (E0 : 0 < E) by (unfold E; lra).
      exists (1 + Rabs (A + B) / E). assert (Q : 0 <= Rabs (A + B) / E) by (apply Rmult_le_pos; [apply Rabs_pos|apply Rlt_le, Rinv_0_lt_compat, E0]). split; [lra|].
      eapply Rlt_le_trans; [|apply H]. rewrite Z. replace ((1 + Rabs (A + B) / E) * E) with (E + Rabs (A + B)) by (field; lra). pose proof (Rle_abs (A + B)). fold A. lra.
    + assert (Q : 0 < sumn n (fun d => fixed k d * (w d * w d))) by (pose proof (squares_nonneg b k w) as P; fold n in P; lra).
      assert (R0 : forall e q a, In e (b_cells b) -> (q < b_nq b)%nat -> (a < b_ns b)%nat -> Rabs 0 < resistances_of h e q a \/ hardens b h e q) by (intros; left; rewrite Rabs_R0; apply resistance_positive; assumption).
      destruct (ray_bound (fun _ => 0) (fun _ _ _ => 0) w R0) as (B & H).
      destruct (outgrows A _ B Q (flow_power b (fun _ _ _ => 0) (follow k w) - virtual_power b (fun _ => 0) (fun _ => 0) h (follow k w) - extra (follow k w))) as (t & Ht & L).
      exists t. split; [exact Ht|]. eapply Rlt_le_trans; [exact L|apply H].
Qed.
(** In a motion that stores nothing and is not at rest, something slips. *)
Lemma something_slips w : SpecLinear.admissible n k w -> (exists d, (d < n)%nat /\ w d <> 0) -> effortless b h w ->
  exists e q a, In e (b_cells b) /\ (q < b_nq b)%nat /\ (a < b_ns b)%nat /\ slip w e q a <> 0.
Proof.
  intros AD (d & Hd & Nz) EF. apply NNPP. intros NE. apply Nz. refine (HP w AD _ d Hd). intros e q He Hq.
  assert (Z : forall a, (a < b_ns b)%nat -> slip w e q a = 0) by (intros a Ha; apply NNPP; intros N; apply NE; exists e, q, a; auto).
  split; [|exact Z]. intros i j Hi Hj. destruct (sizes b C SM e He) as (NQ & NS).
  pose proof (stored_strains b frames p0 h C T D SM SI SG w e q (proj1 (effortless_stored b frames p0 h C T D SM SI SG w) EF) He ltac:(lia) i j Hi Hj) as L.
  unfold elastic_strain_of in L. cbv zeta in L. rewrite sumn_zero in L; [lra|]. intros a Ha. rewrite NS in Ha. fold (slip w e q a). rewrite (Z a Ha). ring.
Qed.
Lemma dissipates_less s w : (forall e q a, In e (b_cells b) -> (q < b_nq b)%nat -> (a < b_ns b)%nat -> Rabs (s e q a) < resistances_of h e q a \/ hardens b h e q) ->
  hardening_at_rest b h w -> (exists e q a, In e (b_cells b) /\ (q < b_nq b)%nat /\ (a < b_ns b)%nat /\ slip w e q a <> 0) -> flow_power b s w < flow_limit b h w.
Proof.
  intros HS HR (c0 & q0 & a0 & Hc0 & Hq0 & Ha0 & NZ). apply Rminus_gt_0_lt. 
  set (f := fun c q a => resistances_of h c q a * Rabs (slip w c q a) - s c q a * slip w c q a).
  assert (F : flow_limit b h w - flow_power b s w = lsum (fun c => sumn (el_nq (b_element b c)) (fun q => el_w (b_element b c) q * sumn (cr_ns (b_crystal b c)) (f c q))) (b_cells b)).
  { unfold flow_limit, flow_power. rewrite <- lsum_minus. apply lsum_ext. intros e _. cbv zeta. rewrite <- sumn_minus. apply sumn_ext. intros q _. rewrite <- Rmult_minus_distr_l, <- sumn_minus. reflexivity. }
  rewrite F.
  assert (P : forall c q a, In c (b_cells b) -> (q < b_nq b)%nat -> (a < b_ns b)%nat -> 0 <= f c q a /\ (slip w c q a <> 0 -> 0 < f c q a)).
  { intros e q a Hc Hq Ha. unfold f. destruct (HS e q a Hc Hq Ha) as [B|B].
    - set (g := slip w e q a). pose proof (Rle_abs (s e q a * g)) as A. rewrite Rabs_mult in A. pose proof (Rabs_pos g). split; [nra|]. intros N. pose proof (Rabs_pos_lt g N). nra.
    - assert (Z : slip w e q a = 0) by exact (HR e q a Hc Hq Ha B). rewrite Z, Rabs_R0. split; [lra|]. intros N. elim N. reflexivity. }
  assert (W : forall c q, In c (b_cells b) -> (q < b_nq b)%nat -> 0 < el_w (b_element b c) q) by (intros e q Hc Hq; destruct (SG e Hc) as (_ & _ & W & _); apply W, Hq).
  assert (CN : forall c, In c (b_cells b) -> forall q, (q < el_nq (b_element b c))%nat -> 0 <= el_w (b_element b c) q * sumn (cr_ns (b_crystal b c)) (f c q)).
  { intros e Hc q Hq. destruct (sizes b C SM e Hc) as (NQ & NS). rewrite NQ in Hq. apply Rmult_le_pos; [apply Rlt_le, W; assumption|]. rewrite NS. apply sumn_nonneg. intros a Ha. apply P; assumption. }
  destruct (sizes b C SM c0 Hc0) as (NQ & NS).
  eapply Rlt_le_trans; [|apply (lsum_term_le (fun c => sumn (el_nq (b_element b c)) (fun q => el_w (b_element b c) q * sumn (cr_ns (b_crystal b c)) (f c q))) (b_cells b) c0); [|exact Hc0]].
  - cbv beta. eapply Rlt_le_trans; [|apply (sumn_term_le _ (fun q => el_w (b_element b c0) q * sumn (cr_ns (b_crystal b c0)) (f c0 q)) q0); [apply CN, Hc0|lia]].
    cbv beta. apply Rmult_lt_0_compat; [apply W; assumption|]. eapply Rlt_le_trans; [apply (proj2 (P c0 q0 a0 Hc0 Hq0 Ha0)), NZ|].
    apply (sumn_term_le _ (f c0 q0) a0); [intros i Hi; apply P; [assumption|assumption|lia]|lia].
  - intros e He. apply sumn_nonneg, CN, He.
Qed.
Lemma supports_iff_no_collapse : supports b h k extra <-> forall w, ~ collapse_under w.
Proof.
  split.
  - intros (z & inc & s & _ & HS & HZ) w (AD & NZ & EF & HR & L). specialize (HZ w AD). rewrite (EF z) in HZ.
    rewrite (no_strain_power b frames p0 h C T D SM SI SG w inc (proj1 (effortless_stored b frames p0 h C T D SM SI SG w) EF)) in HZ.
    pose proof (dissipates_less s w HS HR (something_slips w AD NZ EF)). lra.
  - intros NC. apply (supports_iff_grows b frames p0 old h c k C T D SM SI I SH NL SG HV CB HP extra LX).
    apply (bounded_grows n _ (slope_under b old h c k extra) (under_convex b frames p0 old h c k C T D SM SI I SH NL SG HV CB extra LX)). exact (no_collapse_bounded NC).
Qed.
End Criterion.

(** ** C113 *)
Theorem C113_effortless_motions : forall b frames p0 h c k w, stable_step frames p0 b c k ->
  (effortless b h w <-> virtual_power b w w h w = virtual_power b (fun _ => 0) (fun _ => 0) h w).
Proof.
  intros b frames p0 h c k w ST. parts ST. rewrite (effortless_stored b frames p0 h C T D SM SI SG w). unfold stored_resistance. split; intros E; lra.
Qed.
Print Assumptions C113_effortless_motions.
Lemma collapse_is_under b h k w : collapse b h k w <-> collapse_under b h k (fun _ => 0) w.
Proof. unfold collapse, free_motion, collapse_under. rewrite Rplus_0_r. tauto. Qed.
Lemma lin_nothing n : linear_on n (fun _ => 0).
Proof. apply lin_zero. Qed.
(** A time step has a solution exactly if no motion collapses. *)
Theorem C113_solvable_iff_no_collapse : forall b frames p0 old h c k, stable_step frames p0 b c k ->
  initialised b h -> sound_histories b h -> no_latent_hardening b h -> (solvable b old h c k <-> forall w, ~ collapse b h k w).
Proof.
  intros b frames p0 old h c k ST I SH NL. rewrite (reference_supports frames p0 b old h c k ST (conj I (conj SH NL))). parts ST.
  rewrite (supports_iff_no_collapse b frames p0 old h c k C T D SM SI I SH NL SG HV CB HP (fun _ => 0) (lin_nothing _)).
  split; intros N w W; apply (N w), collapse_is_under, W.
Qed.
Print Assumptions C113_solvable_iff_no_collapse.
(** What a time step without a solution looks like: it has a motion the slip systems cannot stop. *)
Theorem C113_unsolvable_collapses : forall b frames p0 old h c k, stable_step frames p0 b c k ->
  initialised b h -> sound_histories b h -> no_latent_hardening b h -> ~ solvable b old h c k -> exists w, collapse b h k w.
Proof.
  intros b frames p0 old h c k ST I SH NL N. apply not_all_not_ex. intros A. apply N.
  apply (C113_solvable_iff_no_collapse b frames p0 old h c k ST I SH NL). exact A.
Qed.
Print Assumptions C113_unsolvable_collapses.
(** Without such motions every load is carried. *)
Theorem C113_no_motion : forall b frames p0 old h c k, stable_step frames p0 b c k -> initialised b h -> sound_histories b h -> no_latent_hardening b h ->
  (forall w, SpecLinear.admissible (b_ndofs b) k w -> effortless b h w -> hardening_at_rest b h w -> forall d, (d < b_ndofs b)%nat -> w d = 0) ->
  solvable b old h c k.
Proof.
  intros b frames p0 old h c k ST I SH NL N. apply (C113_solvable_iff_no_collapse b frames p0 old h c k ST I SH NL).
  intros w ((AD & (d & Hd & NZ) & EF & HR) & _). apply NZ. exact (N w AD EF HR d Hd).
Qed.
Print Assumptions C113_no_motion.
(** ** The limit load is that of a critical motion *)
Lemma multiple_criterion frames p0 b h c k t : stable_step frames p0 b c k -> ready b h ->
  (supports b h k (fun w => (t - 1) * load_work b w) <-> forall w, free_motion b h k w -> t * load_work b w < flow_limit b h w).
Proof.
  intros ST (I & SH & NL). parts ST.
  assert (LX : linear_on (b_ndofs b) (fun w => (t - 1) * load_work b w)) by (apply lin_scal, lin_loads, C).
  rewrite (supports_iff_no_collapse b frames p0 (fun _ => 0) h c k C T D SM SI I SH NL SG HV CB HP _ LX). split.
  - intros N w (AD & NZ & EF & HR). apply Rnot_le_lt. intros L. apply (N w). split; [exact AD|]. split; [exact NZ|]. split; [exact EF|]. split; [exact HR|]. lra.
  - intros N w (AD & NZ & EF & HR & L). specialize (N w (conj AD (conj NZ (conj EF HR)))). lra.
Qed.
(** Multiples of the loads of [b]: which are carried. *)
Theorem C113_load_factor : forall frames p0 b b' old' h c c' k t, same_but_loads frames p0 b b' c c' k -> initialised b h -> sound_histories b h -> no_latent_hardening b h ->
  (forall w, SpecLinear.admissible (b_ndofs b) k w -> load_work b' w = t * load_work b w) ->
  (solvable b' old' h c' k <-> forall w, free_motion b h k w -> t * load_work b w < flow_limit b h w).
Proof.
  intros frames p0 b b' old' h c c' k t SB I SH NL E. assert (R : ready b h) by (split; [|split]; assumption).
  rewrite (multiple_solvable frames p0 b b' old' h c c' k t SB R E). destruct SB as (_ & _ & ST & _). exact (multiple_criterion frames p0 b h c k t ST R).
Qed.
Print Assumptions C113_load_factor.
Theorem C113_limit_load : forall frames p0 b h c k, stable_step frames p0 b c k -> initialised b h -> sound_histories b h -> no_latent_hardening b h ->
  let carried t := forall b' c' old', same_but_loads frames p0 b b' c c' k ->
    (forall w, SpecLinear.admissible (b_ndofs b) k w -> load_work b' w = t * load_work b w) -> solvable b' old' h c' k in
  let not_carried t := forall b' c' old', same_but_loads frames p0 b b' c c' k ->
    (forall w, SpecLinear.admissible (b_ndofs b) k w -> load_work b' w = t * load_work b w) -> ~ solvable b' old' h c' k in
  ((forall w, free_motion b h k w -> load_work b w <= 0) /\ forall t, 0 <= t -> carried t) \/
  exists limit, 0 < limit /\ (forall t, 0 <= t < limit -> carried t) /\ (forall t, limit <= t -> not_carried t) /\
    (forall w, free_motion b h k w -> limit * load_work b w <= flow_limit b h w) /\
    exists w, free_motion b h k w /\ 0 < load_work b w /\ limit * load_work b w = flow_limit b h w.
Proof.
  intros frames p0 b h c k ST I SH NL carried not_carried. assert (R : ready b h) by (split; [|split]; assumption).
  destruct (multiple_limit frames p0 b h c k ST R) as [All|(limit & L0 & H)].
  - left. split.
    + intros w F. apply Rnot_lt_le. intros P.
      assert (FP : 0 * load_work b w < flow_limit b h w) by (apply (proj1 (multiple_criterion frames p0 b h c k 0 ST R) (All 0 (Rle_refl 0))), F).
      set (t := flow_limit b h w / load_work b w). assert (T0 : 0 <= t) by (unfold t; apply Rmult_le_pos; [lra|left; apply Rinv_0_lt_compat, P]).
      pose proof (proj1 (multiple_criterion frames p0 b h c k t ST R) (All t T0) w F) as Q. replace (t * load_work b w) with (flow_limit b h w) in Q by (unfold t; field; lra). lra.
    + intros t P b' c' old' SB E. apply (multiple_solvable frames p0 b b' old' h c c' k t SB R E), All, P.
  - right. exists limit.
    assert (UP : forall w, free_motion b h k w -> limit * load_work b w <= flow_limit b h w).
    { intros w F. apply Rnot_lt_le. intros P.
      assert (FP : 0 * load_work b w < flow_limit b h w) by (apply (proj1 (multiple_criterion frames p0 b h c k 0 ST R) (proj2 (H 0 (Rle_refl 0)) L0)), F).
      assert (LP : 0 < load_work b w) by nra.
      set (t := flow_limit b h w / load_work b w). assert (TE : t * load_work b w = flow_limit b h w) by (unfold t; field; lra).
      assert (T0 : 0 <= t) by nra. assert (TL : t < limit) by nra.
      pose proof (proj1 (multiple_criterion frames p0 b h c k t ST R) (proj2 (H t T0) TL) w F) as Q. lra. }
    split; [exact L0|]. split; [|split; [|split; [exact UP|]]].
    + intros t P b' c' old' SB E. apply (multiple_solvable frames p0 b b' old' h c c' k t SB R E), H; [lra|apply P].
    + intros t P b' c' old' SB E Z. apply (multiple_solvable frames p0 b b' old' h c c' k t SB R E), H in Z; lra.
    + assert (N : ~ forall w, free_motion b h k w -> limit * load_work b w < flow_limit b h w).
      { intros N. apply (proj2 (multiple_criterion frames p0 b h c k limit ST R)), H in N; lra. }
      apply not_all_ex_not in N. destruct N as (w & N). apply imply_to_and in N. destruct N as (F & N). exists w.
      assert (FP : 0 * load_work b w < flow_limit b h w) by (apply (proj1 (multiple_criterion frames p0 b h c k 0 ST R) (proj2 (H 0 (Rle_refl 0)) L0)), F).
      pose proof (UP w F). split; [exact F|]. assert (E : limit * load_work b w = flow_limit b h w) by lra. split; [nra|exact E].
Qed.
Print Assumptions C113_limit_load.
(** Stronger slip systems carry at least the same loads. *)
Theorem C113_stronger_systems : forall b frames p0 old old' h h' c k, stable_step frames p0 b c k ->
  initialised b h -> sound_histories b h -> no_latent_hardening b h -> initialised b h' -> sound_histories b h' -> no_latent_hardening b h' ->
  (forall e q, In e (b_cells b) -> (q < b_nq b)%nat -> (hardens b h e q -> hardens b h' e q) /\
     forall a, (a < b_ns b)%nat -> resistances_of h e q a <= resistances_of h' e q a) ->
  solvable b old h c k -> solvable b old' h' c k.
Proof.
  intros b frames p0 old old' h h' c k ST I SH NL I' SH' NL' ST' S0. rewrite (C113_solvable_iff_no_collapse b frames p0 old' h' c k ST I' SH' NL').
  pose proof (proj1 (C113_solvable_iff_no_collapse b frames p0 old h c k ST I SH NL) S0) as N0. intros w ((AD & NZ & EF & HR) & L).
  parts ST. apply (N0 w). split; [split; [exact AD|]; split; [exact NZ|]; split|].
  - intros z. rewrite <- (EF z), (power_at_rest b z h w), (power_at_rest b z h' w).
    apply (same_power b z z C D SM (fun _ _ => eq_refl) z (no_resistance h') (no_resistance h) w). intros. rewrite !no_resistance_zero. reflexivity.
  - intros e q a He Hq Ha HH. apply (HR e q a He Hq Ha). apply (ST' e q He Hq), HH.
  - apply Rle_trans with (2 := L). unfold flow_limit. apply lsum_le. intros e He. cbv zeta. apply sumn_le. intros q Hq.
    destruct (sizes b C SM e He) as (NQ & NS). rewrite NQ in Hq. apply Rmult_le_compat_l.
    + destruct (SG e He) as (_ & _ & W & _). apply Rlt_le, W. exact Hq.
    + rewrite NS. apply sumn_le. intros a Ha. apply Rmult_le_compat_r; [apply Rabs_pos|]. apply (ST' e q He Hq), Ha.
Qed.
Print Assumptions C113_stronger_systems.
(** Free motions leave every elastic strain at zero, and every mechanism is effortless. *)
Theorem C113_free_motions_strain_nothing : forall b frames p0 h c k w, stable_step frames p0 b c k ->
  (mechanism b k w -> effortless b h w) /\
  (effortless b h w -> forall e q i j, In e (b_cells b) -> (q < b_nq b)%nat -> (i < cr_dim (b_crystal b e))%nat -> (j < cr_dim (b_crystal b e))%nat ->
     elastic_strain_of b (fun _ _ _ => 0) w e q i j = 0).
Proof.
  intros b frames p0 h c k w ST. parts ST. split.
  - intros M z. exact (mechanism_power b z h k w C D SM M).
  - intros E e q i j He Hq Hi Hj. apply (stored_strains b frames p0 h C T D SM SI SG w e q); [apply (effortless_stored b frames p0 h C T D SM SI SG w), E|exact He| |exact Hi|exact Hj].
    destruct (sizes b C SM e He) as (NQ & _). rewrite NQ. exact Hq.
Qed.
Print Assumptions C113_free_motions_strain_nothing.
