(** * C108: an elastic body responds linearly and without memory. *)
From Coq Require Import ZArith Lia Lra FunctionalExtensionality.
From Verif Require Import Num SumLemmas Tensors TensorLemmas ModelElastic SpecElastic ModelMicro SpecMicro ModelHistory ModelFEField ModelLineSearch ModelActiveSet ModelSolver SpecSolver
  ModelLoading SpecLoading PropLoading ModelShear SpecShear PropShear ModelProgram SpecProgram PropProgram
  ModelLinear SpecLinear PropLinear ModelAssembly SpecAssembly ModelInterface ModelSweep ModelStep SpecStep ProofStep PropStep ModelBody SpecBody PropBody
  ModelTangent SpecTangent PropTangent SpecEnergy PropEnergy SpecStiffness SpecUnique PropUnique SpecElasticBody PropElasticBody PropElasticStep SpecSuperposition.
Open Scope R_scope.

Lemma work_linear d A C (B B1 B2 D : mat) al be : (forall i j, (i < d)%nat -> (j < d)%nat -> B i j = al * B1 i j + be * B2 i j + D i j) ->
  ddot d A (c4 d C B) = al * ddot d A (c4 d C B1) + be * ddot d A (c4 d C B2) + ddot d A (c4 d C D).
Proof.
  intros H. unfold ddot. rewrite <- !sumn_scal, <- !sumn_plus. apply sumn_ext. intros i _. rewrite <- !sumn_scal, <- !sumn_plus. apply sumn_ext. intros j _.
  unfold c4. assert (E : sumn d (fun k => sumn d (fun l => C i j k l * B k l)) = al * sumn d (fun k => sumn d (fun l => C i j k l * B1 k l)) + be * sumn d (fun k => sumn d (fun l => C i j k l * B2 k l))
    + sumn d (fun k => sumn d (fun l => C i j k l * D k l))); [|rewrite E; ring].
  rewrite <- !sumn_scal, <- !sumn_plus. apply sumn_ext. intros k Hk. rewrite <- !sumn_scal, <- !sumn_plus. apply sumn_ext. intros l Hl. rewrite (H k l Hk Hl). ring.
Qed.
Lemma dot_linear d v (f f1 f2 : vec) al be : (forall i, f i = al * f1 i + be * f2 i) -> dot d v f = al * dot d v f1 + be * dot d v f2.
Proof. intros H. unfold dot. rewrite <- !sumn_scal, <- sumn_plus. apply sumn_ext. intros i _. rewrite H. ring. Qed.
Lemma loads_linear d nd al be (W : nat -> R) l1 l2 l3 : superposed_loads al be l1 l2 l3 ->
  let P := lsum (fun f => load_power d f (fun q s => sumn nd (fun i => W i * nf_phi f i q s))) in P l3 = al * P l1 + be * P l2.
Proof.
  intros H P. induction H as [|n w phi t1 t2 l1 l2 l3 H IH]; [unfold P; cbn; ring|]. unfold P in *. cbn [lsum]. rewrite IH.
  unfold load_power. cbn [nf_nq nf_w nf_phi nf_traction].
  rewrite (sumn_ext n (fun q => w q * dot d (fun s => sumn nd (fun i => W i * phi i q s)) (fun i => al * t1 q i + be * t2 q i))
    (fun q => al * (w q * dot d (fun s => sumn nd (fun i => W i * phi i q s)) (t1 q)) + be * (w q * dot d (fun s => sumn nd (fun i => W i * phi i q s)) (t2 q)))).
  - rewrite sumn_plus, !sumn_scal. ring.
  - intros q _. rewrite (dot_linear d _ _ (t1 q) (t2 q) al be) by reflexivity. ring.
Qed.
(** Virtual power of a grain of an elastic body. *)
Definition elastic_power (k : crystal) (e : element) (loads : list neumann_face) (U W : nat -> R) : R :=
  let d := cr_dim k in
  - sumn (el_nq e) (fun q => el_w e q * (cr_N k 3 / cr_N k 0 *
      (ddot d (strain_at e W q) (c4 d (cr_C k) (fun i j => cr_macro k i j + strain_at e U q i j))
       - dot d (fun r => sumn (el_nd e) (fun i => W i * el_phi e i q r)) (cr_supply k q))))
  + lsum (fun f => load_power d f (fun q s => sumn (el_nd e) (fun i => W i * nf_phi f i q s))) loads.
Lemma elastic_virtual_power b old x r w : elastic_body b ->
  virtual_power b old x r w = lsum (fun c => elastic_power (b_crystal b c) (b_element b c) (b_loads b c) (local_values b x c) (local_values b w c)) (b_cells b).
Proof.
  intros (D & M & NS & _). unfold virtual_power. apply lsum_ext. intros c Hc. cbv zeta. unfold other_grains. rewrite D, M. cbn [orb lsum].
  unfold stress_at, elastic_power. rewrite (NS c Hc). cbn [sumn elastic_strain]. unfold madd. change (local_values b x c) with (fun i => x (nth i (b_dofs b c) 0%nat)).
  change (local_values b w c) with (fun i => w (nth i (b_dofs b c) 0%nat)). rewrite Rplus_0_r. f_equal. f_equal. apply sumn_ext. intros q _. ring.
Qed.
Lemma strain_deviation b al be x1 x2 x3 e c q i j : strain_at e (local_values b (deviation al be x1 x2 x3) c) q i j =
  strain_at e (local_values b x3 c) q i j - (al * strain_at e (local_values b x1 c) q i j + be * strain_at e (local_values b x2 c) q i j).
Proof. unfold strain_at, local_values, deviation. rewrite <- !sumn_scal, <- sumn_plus, <- sumn_minus. apply sumn_ext. intros k _. ring. Qed.
Lemma same_elastic b b' : same_solid b b' -> b_ndofs b' = b_ndofs b -> (forall d, (d < b_ndofs b)%nat -> b_is_slip b' d = b_is_slip b d) -> elastic_body b -> elastic_body b'.
Proof.
  intros ((_ & EC & _ & _ & _ & ED & _) & _ & _ & _ & EM & EK & _) EN ES (D & M & NS & SL). split; [rewrite <- ED; exact D|]. split; [rewrite <- EM; exact M|]. split.
  - intros c Hc. rewrite <- EC in Hc. rewrite (EK c). exact (NS c Hc).
  - intros d Hd. rewrite EN in Hd. rewrite (ES d Hd). apply SL, Hd.
Qed.
Lemma grain_deviation al be k1 k2 k3 e l1 l2 l3 (U1 U2 U3 Z W : nat -> R) :
  cr_dim k2 = cr_dim k1 -> cr_dim k3 = cr_dim k1 -> cr_N k2 = cr_N k1 -> cr_N k3 = cr_N k1 -> cr_C k2 = cr_C k1 -> cr_C k3 = cr_C k1 ->
  (forall i j, cr_macro k3 i j = al * cr_macro k1 i j + be * cr_macro k2 i j) ->
  (forall q i, cr_supply k3 q i = al * cr_supply k1 q i + be * cr_supply k2 q i) -> superposed_loads al be l1 l2 l3 ->
  (forall q i j, strain_at e Z q i j = strain_at e U3 q i j - (al * strain_at e U1 q i j + be * strain_at e U2 q i j)) ->
  elastic_power k3 e l3 U3 W = al * elastic_power k1 e l1 U1 W + be * elastic_power k2 e l2 U2 W
    - sumn (el_nq e) (fun q => el_w e q * (cr_N k1 3 / cr_N k1 0 * ddot (cr_dim k1) (strain_at e W q) (c4 (cr_dim k1) (cr_C k1) (strain_at e Z q)))).
Proof.
  intros D2 D3 N2 N3 C2 C3 M P L S. unfold elastic_power. rewrite D2, D3, N2, N3, C2, C3. pose proof (loads_linear (cr_dim k1) (el_nd e) al be W _ _ _ L) as LL. cbv zeta in LL.
  rewrite LL. set (A1 := lsum _ l1). set (A2 := lsum _ l2).
  match goal with |- - ?a + _ = al * (- ?b + _) + be * (- ?c + _) - ?d => assert (E : a = al * b + be * c + d); [|rewrite E; ring] end.
  rewrite <- !sumn_scal, <- !sumn_plus. apply sumn_ext. intros q _.
  rewrite (work_linear (cr_dim k1) (strain_at e W q) (cr_C k1) (fun i j => cr_macro k3 i j + strain_at e U3 q i j) (fun i j => cr_macro k1 i j + strain_at e U1 q i j)
    (fun i j => cr_macro k2 i j + strain_at e U2 q i j) (strain_at e Z q) al be).
  - rewrite (dot_linear (cr_dim k1) _ (cr_supply k3 q) (cr_supply k1 q) (cr_supply k2 q) al be) by apply P. ring.
  - intros i j _ _. rewrite M, S. ring.
Qed.
(** The residual is linear in loading and displacements. *)
Lemma power_deviation al be b1 b2 b3 o1 o2 o3 x1 x2 x3 r1 r2 r3 w : superposed_loading al be b1 b2 b3 -> elastic_body b1 -> elastic_body b2 -> elastic_body b3 ->
  virtual_power b3 o3 x3 r3 w = al * virtual_power b1 o1 x1 r1 w + be * virtual_power b2 o2 x2 r2 w - elastic_work b1 (deviation al be x1 x2 x3) w.
Proof.
  intros (S2 & S3 & _ & _ & SL) E1 E2 E3. rewrite !elastic_virtual_power by assumption.
  destruct S2 as ((_ & C2 & _) & D2 & F2 & _ & _ & K2 & _). destruct S3 as ((_ & C3 & _) & D3 & F3 & _ & _ & K3 & _).
  rewrite <- C2, <- C3. unfold elastic_work. rewrite <- !lsum_scal, <- lsum_plus, <- lsum_minus. apply lsum_ext. intros c Hc.
  destruct (SL c Hc) as (M & P & L). specialize (K2 c). specialize (K3 c). cbv zeta in K2, K3.
  assert (LV2 : forall x, local_values b2 x c = local_values b1 x c) by (intros x; unfold local_values; rewrite D2; reflexivity).
  assert (LV3 : forall x, local_values b3 x c = local_values b1 x c) by (intros x; unfold local_values; rewrite D3; reflexivity).
  rewrite !LV2, !LV3, <- F2, <- F3. apply grain_deviation; try assumption; try (rewrite K2; reflexivity); try (rewrite K3; reflexivity).
  intros q i j. apply strain_deviation.
Qed.
Lemma elastic_work_nonneg b z : firm b -> 0 <= elastic_work b z z.
Proof.
  intros F. apply lsum_nonneg. intros c Hc. destruct (F c Hc) as (N & W & SY & PS & _). cbv zeta in *. apply sumn_nonneg. intros q Hq.
  apply Rmult_le_pos; [left; apply W, Hq|]. apply Rmult_le_pos; [left; exact N|]. apply PS. intros i j Hi Hj. unfold strain_at. apply sumn_ext. intros k _.
  rewrite (SY k q i j Hi Hj). reflexivity.
Qed.
Lemma elastic_work_zero b z c q i j : firm b -> elastic_work b z z = 0 -> In c (b_cells b) -> (q < el_nq (b_element b c))%nat ->
  (i < cr_dim (b_crystal b c))%nat -> (j < cr_dim (b_crystal b c))%nat -> strain_at (b_element b c) (local_values b z c) q i j = 0.
Proof.
  intros F Z Hc Hq Hi Hj.
  assert (SS : forall c q, In c (b_cells b) -> symmetric (cr_dim (b_crystal b c)) (strain_at (b_element b c) (local_values b z c) q)).
  { intros c' q' Hc' r s Hr Hs. destruct (F c' Hc') as (_ & _ & SY & _). unfold strain_at. apply sumn_ext. intros k _. rewrite (SY k q' r s Hr Hs). reflexivity. }
  assert (NN : forall c q, In c (b_cells b) -> (q < el_nq (b_element b c))%nat -> 0 <= el_w (b_element b c) q * (cr_N (b_crystal b c) 3 / cr_N (b_crystal b c) 0 *
      ddot (cr_dim (b_crystal b c)) (strain_at (b_element b c) (local_values b z c) q) (c4 (cr_dim (b_crystal b c)) (cr_C (b_crystal b c)) (strain_at (b_element b c) (local_values b z c) q)))).
  { intros c' q' Hc' Hq'. destruct (F c' Hc') as (N & W & _ & PS & _). cbv zeta in *. apply Rmult_le_pos; [left; apply W, Hq'|]. apply Rmult_le_pos; [left; exact N|]. apply PS, SS, Hc'. }
  unfold elastic_work in Z. assert (Zc := lsum_zero_each _ _ (fun c Hc => sumn_nonneg _ _ (fun q => NN c q Hc)) Z c Hc). cbv beta zeta in Zc.
  assert (Zq := sumn_zero_each _ _ (fun q => NN c q Hc) Zc q Hq). cbv beta in Zq.
  destruct (F c Hc) as (N & W & _ & _ & PD). cbv zeta in *. specialize (W q Hq).
  apply Rmult_integral in Zq. destruct Zq as [Zq|Zq]; [lra|]. apply Rmult_integral in Zq. destruct Zq as [Zq|Zq]; [lra|].
  exact (PD _ (SS c q Hc) Zq i j Hi Hj).
Qed.
Lemma supports_deviation n al be c1 c2 c3 k x1 x2 x3 : superposed_supports al be c1 c2 c3 -> homogeneous_version c1 k ->
  SpecShear.obeys c1 x1 -> SpecShear.obeys c2 x2 -> SpecShear.obeys c3 x3 -> SpecLinear.admissible n k (deviation al be x1 x2 x3).
Proof.
  intros SP HV O1 O2 O3 d es z Hd K. specialize (HV d). specialize (SP d). rewrite K in HV. specialize (O1 d). specialize (O2 d). specialize (O3 d).
  destruct (c1 d) as [[e1 v1]|]; [|contradiction]. destruct HV as (-> & _). destruct (c2 d) as [[e2 v2]|]; [|contradiction]. destruct (c3 d) as [[e3 v3]|]; [|contradiction].
  destruct SP as (-> & -> & ->). specialize (O1 _ _ eq_refl). specialize (O2 _ _ eq_refl). specialize (O3 _ _ eq_refl).
  unfold deviation at 1. rewrite O1, O2, O3.
  assert (Q : lsum (fun e => snd e * deviation al be x1 x2 x3 (fst e)) e1 = lsum (fun e => snd e * x3 (fst e)) e1
    - (al * lsum (fun e => snd e * x1 (fst e)) e1 + be * lsum (fun e => snd e * x2 (fst e)) e1)).
  { rewrite <- !lsum_scal, <- lsum_plus, <- lsum_minus. apply lsum_ext. intros e _. unfold deviation. ring. }
  rewrite Q. ring.
Qed.
(** The superposition of solutions for two loadings is a solution for the superposed loading. *)
Theorem C108_superposition_is_a_solution : forall al be b1 b2 b3 old1 old2 old3 h1 h2 h3 k x1 x2,
  superposed_loading al be b1 b2 b3 -> elastic_body b1 -> elastic_body b2 -> elastic_body b3 ->
  solves_step b1 old1 h1 k x1 -> solves_step b2 old2 h2 k x2 ->
  solves_step b3 old3 h3 k (fun d => al * x1 d + be * x2 d).
Proof.
  intros al be b1 b2 b3 old1 old2 old3 h1 h2 h3 k x1 x2 SL E1 E2 E3 S1 S2 w Hw. pose proof SL as (_ & _ & N2 & N3 & _).
  rewrite (power_deviation al be b1 b2 b3 old1 old2 old3 x1 x2 _ (trial_histories b1 old1 x1 h1) (trial_histories b2 old2 x2 h2) _ w SL E1 E2 E3).
  rewrite N3 in Hw. rewrite (S1 w Hw). rewrite <- N2 in Hw. rewrite (S2 w Hw). 
  assert (Z : elastic_work b1 (deviation al be x1 x2 (fun d => al * x1 d + be * x2 d)) w = 0); [|rewrite Z; ring].
  apply lsum_zero. intros c _. apply sumn_zero. intros q _.
  assert (Z : ddot (cr_dim (b_crystal b1 c)) (strain_at (b_element b1 c) (local_values b1 w c) q) (c4 (cr_dim (b_crystal b1 c)) (cr_C (b_crystal b1 c))
    (strain_at (b_element b1 c) (local_values b1 (deviation al be x1 x2 (fun d => al * x1 d + be * x2 d)) c) q)) = 0); [|rewrite Z; ring].
  unfold ddot. apply sumn_zero. intros i _. apply sumn_zero. intros j _. unfold c4. rewrite (sumn_zero _ (fun r => sumn _ _)); [ring|].
  intros r _. apply sumn_zero. intros s _. unfold strain_at. rewrite sumn_zero; [ring|]. intros l _. unfold local_values, deviation. ring.
Qed.
(** If the body is firm and held in place it is the only one. *)
Theorem C108_superposition : forall al be b1 b2 b3 old1 old2 old3 h1 h2 h3 c1 c2 c3 k x1 x2 x3,
  superposed_loading al be b1 b2 b3 -> elastic_body b1 -> elastic_body b2 -> elastic_body b3 ->
  superposed_supports al be c1 c2 c3 -> homogeneous_version c1 k ->
  solves_step b1 old1 h1 k x1 -> solves_step b2 old2 h2 k x2 -> solves_step b3 old3 h3 k x3 ->
  SpecShear.obeys c1 x1 -> SpecShear.obeys c2 x2 -> SpecShear.obeys c3 x3 ->
  SpecBody.consistent b1 -> firm b1 -> b_ns b1 = 0%nat -> held_in_place b1 k ->
  forall d, (d < b_ndofs b1)%nat -> x3 d = al * x1 d + be * x2 d.
Proof.
  intros al be b1 b2 b3 old1 old2 old3 h1 h2 h3 c1 c2 c3 k x1 x2 x3 SL E1 E2 E3 SP HV S1 S2 S3 O1 O2 O3 C F NS HP d Hd. pose proof SL as (_ & _ & N2 & N3 & _).
  pose proof (supports_deviation (b_ndofs b1) al be c1 c2 c3 k x1 x2 x3 SP HV O1 O2 O3) as A.
  pose proof (power_deviation al be b1 b2 b3 old1 old2 old3 x1 x2 x3 (trial_histories b1 old1 x1 h1) (trial_histories b2 old2 x2 h2) (trial_histories b3 old3 x3 h3)
    (deviation al be x1 x2 x3) SL E1 E2 E3) as P.
  rewrite (S1 _ A), (S2 _ ltac:(rewrite N2; exact A)), (S3 _ ltac:(rewrite N3; exact A)) in P.
  assert (Z : elastic_work b1 (deviation al be x1 x2 x3) (deviation al be x1 x2 x3) = 0) by lra.
  assert (D : deviation al be x1 x2 x3 d = 0); [|unfold deviation in D; lra].
  apply (HP _ A); [|exact Hd]. intros c q Hc Hq. pose proof C as (_ & _ & C1 & _). destruct (C1 c Hc) as (_ & NQ & _). split.
  - intros i j Hi Hj. apply elastic_work_zero; try assumption. rewrite NQ. exact Hq.
  - intros a Ha. rewrite NS in Ha. lia.
Qed.
Lemma internal_is_newton b e sp a fuel t oo s r : SpecBody.consistent b -> b_decohesion b = false -> works_on e b -> rate_independent sp = false ->
  solve_nonlinear_system e sp a fuel t oo s = Done r -> st_internal r = p_newton (e_problem e).
Proof.
  intros C D (W & W' & _) RI SV. pose proof C as (N & _).
  assert (HF : forgets_iterates (e_update e)) by (rewrite W'; apply body_forgets; [exact N|right; exact D]).
  destruct (accepted_step sp e HF _ _ _ _ _ _ (or_introl RI) SV) as (_ & _ & _ & _ & A5). rewrite (A5 RI).
  unfold merge, no_constraints. apply functional_extensionality. intros d. destruct (p_newton (e_problem e) d); reflexivity.
Qed.
(** What a step accepts for an elastic body: equilibrium up to the tolerance. *)
Lemma accepted_power b e sp a fuel t oo s r w old x iv : SpecBody.consistent b -> elastic_body b -> works_on e b -> rate_independent sp = false -> initialised b (st_hist s) ->
  solve_nonlinear_system e sp a fuel t oo s = Done r -> closed_below (b_ndofs b) (p_newton (e_problem e)) -> SpecLinear.admissible (b_ndofs b) (p_newton (e_problem e)) w ->
  x = st_trial r -> Rabs (virtual_power b old x iv w) <= tolerated sp a b w.
Proof.
  intros C EL W RI I SV CB A ->. pose proof EL as (D & _). pose proof (internal_is_newton b e sp a fuel t oo s r C D W RI SV) as N.
  assert (Q := C92_accepted_solution_in_equilibrium b e sp a fuel t oo s r w C (or_intror D) W I (or_introl RI) SV ltac:(rewrite N; exact CB) ltac:(rewrite N; exact A)).
  cbv zeta in Q. rewrite (elastic_virtual_power b) in Q by exact EL. rewrite (elastic_virtual_power b) by exact EL. unfold tolerated. destruct a; exact Q.
Qed.
(** Solutions that were accepted, whatever algorithms, tolerances, pasts, step sizes, initial
    guesses, linear solvers and line searches led to them: the solution for the superposed
    loading is the superposition, as closely as the tolerances say. *)
Theorem C108_accepted_solutions_superpose : forall al be b1 b2 b3 e1 e2 e3 sp1 sp2 sp3 a1 a2 a3 fuel1 fuel2 fuel3 t1 t2 t3 oo1 oo2 oo3 s1 s2 s3 r1 r2 r3,
  superposed_loading al be b1 b2 b3 -> elastic_body b1 -> elastic_body b2 -> elastic_body b3 ->
  SpecBody.consistent b1 -> SpecBody.consistent b2 -> SpecBody.consistent b3 -> firm b1 ->
  works_on e1 b1 -> works_on e2 b2 -> works_on e3 b3 ->
  rate_independent sp1 = false -> rate_independent sp2 = false -> rate_independent sp3 = false ->
  initialised b1 (st_hist s1) -> initialised b2 (st_hist s2) -> initialised b3 (st_hist s3) ->
  well_formed_constraints a1 e1 -> well_formed_constraints a2 e2 -> well_formed_constraints a3 e3 ->
  superposed_supports al be (p_affine (e_problem e1)) (p_affine (e_problem e2)) (p_affine (e_problem e3)) ->
  homogeneous_version (p_affine (e_problem e1)) (p_newton (e_problem e1)) ->
  p_newton (e_problem e2) = p_newton (e_problem e1) -> p_newton (e_problem e3) = p_newton (e_problem e1) ->
  closed_below (b_ndofs b1) (p_newton (e_problem e1)) ->
  solve_nonlinear_system e1 sp1 a1 fuel1 t1 oo1 s1 = Done r1 ->
  solve_nonlinear_system e2 sp2 a2 fuel2 t2 oo2 s2 = Done r2 ->
  solve_nonlinear_system e3 sp3 a3 fuel3 t3 oo3 s3 = Done r3 ->
  let z := deviation al be (st_trial r1) (st_trial r2) (st_trial r3) in
  0 <= elastic_work b1 z z <= Rabs al * tolerated sp1 a1 b1 z + Rabs be * tolerated sp2 a2 b2 z + tolerated sp3 a3 b3 z.
Proof.
  intros al be b1 b2 b3 e1 e2 e3 sp1 sp2 sp3 a1 a2 a3 fuel1 fuel2 fuel3 t1 t2 t3 oo1 oo2 oo3 s1 s2 s3 r1 r2 r3 SL E1 E2 E3 C1 C2 C3 F W1 W2 W3 RI1 RI2 RI3 I1 I2 I3 K1 K2 K3
    SP HV N2 N3 CB S1 S2 S3 z. split; [apply elastic_work_nonneg, F|]. pose proof SL as (_ & _ & D2 & D3 & _).
  assert (A : SpecLinear.admissible (b_ndofs b1) (p_newton (e_problem e1)) z).
  { apply (supports_deviation _ al be _ _ _ _ _ _ _ SP HV); eapply C97_accepted_solution_obeys_the_constraints; eassumption. }
  pose proof (accepted_power b1 e1 sp1 a1 fuel1 t1 oo1 s1 r1 z (fun _ => 0) _ (st_hist r1) C1 E1 W1 RI1 I1 S1 CB A eq_refl) as P1.
  pose proof (accepted_power b2 e2 sp2 a2 fuel2 t2 oo2 s2 r2 z (fun _ => 0) _ (st_hist r2) C2 E2 W2 RI2 I2 S2 ltac:(rewrite N2, D2; exact CB) ltac:(rewrite N2, D2; exact A) eq_refl) as P2.
  pose proof (accepted_power b3 e3 sp3 a3 fuel3 t3 oo3 s3 r3 z (fun _ => 0) _ (st_hist r3) C3 E3 W3 RI3 I3 S3 ltac:(rewrite N3, D3; exact CB) ltac:(rewrite N3, D3; exact A) eq_refl) as P3.
  rewrite (power_deviation al be b1 b2 b3 (fun _ => 0) (fun _ => 0) (fun _ => 0) (st_trial r1) (st_trial r2) (st_trial r3) (st_hist r1) (st_hist r2) (st_hist r3) z SL E1 E2 E3) in P3.
  fold z in P3. set (v1 := virtual_power b1 _ _ _ z) in *. set (v2 := virtual_power b2 _ _ _ z) in *.
  assert (M1 : Rabs (al * v1) <= Rabs al * tolerated sp1 a1 b1 z) by (rewrite Rabs_mult; apply Rmult_le_compat_l; [apply Rabs_pos|exact P1]).
  assert (M2 : Rabs (be * v2) <= Rabs be * tolerated sp2 a2 b2 z) by (rewrite Rabs_mult; apply Rmult_le_compat_l; [apply Rabs_pos|exact P2]).
  pose proof (Rle_abs (al * v1)). pose proof (Rle_abs (be * v2)).
  match type of P3 with Rabs ?u <= _ => pose proof (Rle_abs (- u)) as Q; rewrite Rabs_Ropp in Q end. lra.
Qed.
(** No memory: two accepted solutions for the same loading and supports agree as closely as the
    tolerances say, whatever happened before. *)
Theorem C108_no_memory : forall b b' e e' sp sp' a a' fuel fuel' t t' oo oo' s s' r r',
  same_solid b b' -> b_ndofs b' = b_ndofs b ->
  (forall c, In c (b_cells b) -> cr_macro (b_crystal b' c) = cr_macro (b_crystal b c) /\ cr_supply (b_crystal b' c) = cr_supply (b_crystal b c) /\ b_loads b' c = b_loads b c) ->
  elastic_body b -> elastic_body b' -> SpecBody.consistent b -> SpecBody.consistent b' -> firm b -> works_on e b -> works_on e' b' ->
  rate_independent sp = false -> rate_independent sp' = false -> initialised b (st_hist s) -> initialised b' (st_hist s') ->
  well_formed_constraints a e -> well_formed_constraints a' e' ->
  p_affine (e_problem e') = p_affine (e_problem e) -> p_newton (e_problem e') = p_newton (e_problem e) ->
  homogeneous_version (p_affine (e_problem e)) (p_newton (e_problem e)) -> closed_below (b_ndofs b) (p_newton (e_problem e)) ->
  solve_nonlinear_system e sp a fuel t oo s = Done r -> solve_nonlinear_system e' sp' a' fuel' t' oo' s' = Done r' ->
  let z := increment (st_trial r') (st_trial r) in
  0 <= elastic_work b z z <= tolerated sp a b z + tolerated sp' a' b' z.
Proof.
  intros b b' e e' sp sp' a a' fuel fuel' t t' oo oo' s s' r r' SS ND LD E1 E2 C1 C2 F W1 W2 RI1 RI2 I1 I2 K1 K2 EA EN HV CB S1 S2 z.
  assert (SL : superposed_loading 1 0 b b b').
  { split; [|split; [exact SS|split; [reflexivity|split; [exact ND|]]]].
    - split; [repeat split|]. split; [reflexivity|]. split; [reflexivity|]. split; [reflexivity|]. split; [reflexivity|]. split.
      + intros c. cbv zeta. destruct (b_crystal b c); reflexivity.
      + intros c n. cbv zeta. destruct (b_interface b c n); reflexivity.
    - intros c Hc. destruct (LD c Hc) as (M & P & L). rewrite M, P, L. split; [intros; ring|]. split; [intros; ring|]. clear L. induction (b_loads b c) as [|[n w phi tr] l IH]; [constructor|].
      assert (T : tr = fun q i => 1 * tr q i + 0 * tr q i) by (apply functional_extensionality; intros q; apply functional_extensionality; intros i; ring).
      rewrite T at 3. constructor. exact IH. }
  assert (SP : superposed_supports 1 0 (p_affine (e_problem e)) (p_affine (e_problem e)) (p_affine (e_problem e'))).
  { intros d. rewrite EA. destruct (p_affine (e_problem e) d) as [[es v]|]; [|exact I]. split; [reflexivity|]. split; [reflexivity|ring]. }
  pose proof (C108_accepted_solutions_superpose 1 0 b b b' e e e' sp sp sp' a a a' fuel fuel fuel' t t t' oo oo oo' s s s' r r r' SL E1 E1 E2 C1 C1 C2 F W1 W1 W2
    RI1 RI1 RI2 I1 I1 I2 K1 K1 K2 SP HV eq_refl EN CB S1 S1 S2) as Q. cbv zeta in Q.
  replace (deviation 1 0 (st_trial r) (st_trial r) (st_trial r')) with z in Q by (apply functional_extensionality; intros d; unfold z, increment, deviation; ring).
  rewrite Rabs_R1, Rabs_R0 in Q. lra.
Qed.

(** ** The shear test of an elastic body *)
Definition line_sum (al be : R) (l1 l2 l3 : option line) : Prop :=
  match l1, l2, l3 with
  | None, None, None => True
  | Some (e1, v1), Some (e2, v2), Some (e3, v3) => e2 = e1 /\ e3 = e1 /\ v3 = al * v1 + be * v2
  | _, _, _ => False
  end.
Lemma sum_orelse al be a1 a2 a3 d1 d2 d3 : line_sum al be a1 a2 a3 -> line_sum al be d1 d2 d3 -> line_sum al be (orelse a1 d1) (orelse a2 d2) (orelse a3 d3).
Proof. destruct a1 as [[]|], a2 as [[]|], a3 as [[]|]; cbn; tauto. Qed.
Lemma sum_first al be {A} (o1 o2 o3 : A -> option line) l : (forall a, line_sum al be (o1 a) (o2 a) (o3 a)) -> line_sum al be (first_of o1 l) (first_of o2 l) (first_of o3 l).
Proof. intros H. induction l as [|a l IH]; cbn [first_of]; [exact I|]. apply sum_orelse; [apply H|exact IH]. Qed.
Lemma sum_displacements al be m u1 u2 u3 d : (forall p c, u3 p c = al * u1 p c + be * u2 p c) ->
  line_sum al be (displacement_lines m (only_upper u1) d) (displacement_lines m (only_upper u2) d) (displacement_lines m (only_upper u3) d).
Proof.
  intros H. apply sum_first. intros k. apply sum_first. intros b. unfold value_line, only_upper. destruct (Nat.eqb (b_id b) 3); [|exact I].
  destruct (_ && _)%bool; cbn; auto.
Qed.
Lemma after_update m start u us d : affine_after m start (u :: us) d = orelse (update_constraints m u d) (affine_after m start us d).
Proof. cbn [affine_after]. unfold merge at 1. destruct (update_constraints m u d); reflexivity. Qed.
Lemma not_updated m start us d : s_hanging m d = None -> (forall u, In u us -> displacement_lines m (only_upper u) d = None) ->
  affine_after m start us d = affine_after m start [] d.
Proof.
  intros H. induction us as [|u us IH]; intros N; [reflexivity|]. cbn [affine_after]. unfold merge at 1. rewrite update_split, H, (N u (or_introl eq_refl)). cbn [orelse].
  apply IH. intros v V. apply N. right. exact V.
Qed.
Lemma updated_alike m u v d : displacement_lines m (only_upper u) d = None -> displacement_lines m (only_upper v) d = None.
Proof.
  intros N. pose proof (sum_displacements 0 0 m u v (fun p c => 0 * u p c + 0 * v p c) d (fun _ _ => eq_refl)) as S. rewrite N in S.
  destruct (displacement_lines m (only_upper v) d) as [[]|]; [contradiction|reflexivity].
Qed.
Lemma start_homogeneous m d es z : homogeneous (s_hanging m) -> affine_after m zero_function [] d = Some (es, z) -> z = 0.
Proof.
  intros H A. pose proof (C82_newton_constraints_are_the_homogeneous_version m zero_function [] H d) as V. 
  change (affine_after m zero_function [] d) with (newton_of m d) in *. rewrite A in V. tauto.
Qed.
Lemma control_value {H} (p : program H) t q c : control_time p t q c = t * control_time p 1 q c.
Proof.
  unfold control_time, control_at, vector_value. cbn [dc_decohesion pr_control make_displacement_control].
  assert (V : forall s, displacement_load (pr_control p) s / dc_char (pr_control p) = s * (pr_height p * l_max (pr_loading p) / pr_char p)).
  { intros s. unfold displacement_load. cbn [dc_type pr_control make_displacement_control dc_height dc_max dc_char]. unfold Rdiv. ring. }
  rewrite !V. set (g := pr_height p * l_max (pr_loading p) / pr_char p).
  destruct (s_decohesion (pr_strip p)).
  - match goal with |- fold_left _ ?l _ c = _ => generalize l end. intros l.
    assert (G : forall l (f f1 : nat -> R), (forall c, f c = t * f1 c) -> forall c,
      fold_left (fun (acc : nat -> R) i => fun c => if Nat.eqb c (dc_component (pr_control p) + i * s_dim (pr_strip p)) then t * g else acc c) l f c =
      t * fold_left (fun (acc : nat -> R) i => fun c => if Nat.eqb c (dc_component (pr_control p) + i * s_dim (pr_strip p)) then 1 * g else acc c) l f1 c).
    { clear. induction l as [|i l IH]; intros f f1 F c; cbn [fold_left]; [apply F|]. apply IH. intros c'. destruct (Nat.eqb _ _); [ring|apply F]. }
    apply G. intros c'. destruct (Nat.eqb _ _); ring.
  - destruct (Nat.eqb _ _); ring.
Qed.
Lemma supports_in_time {H} (p : program H) al be t1 t2 t3 ts1 ts2 ts3 : homogeneous (s_hanging (pr_strip p)) -> t3 = al * t1 + be * t2 ->
  superposed_supports al be (affine_at p (t1 :: ts1)) (affine_at p (t2 :: ts2)) (affine_at p (t3 :: ts3)).
Proof.
  intros HH T d. unfold affine_at. cbn [map]. set (m := pr_strip p).
  change (line_sum al be (affine_after m (control_time p 0) (control_time p t1 :: map (control_time p) ts1) d)
    (affine_after m (control_time p 0) (control_time p t2 :: map (control_time p) ts2) d) (affine_after m (control_time p 0) (control_time p t3 :: map (control_time p) ts3) d)).
  assert (S0 : control_time p 0 = zero_function).
  { apply functional_extensionality. intros q. apply functional_extensionality. intros c. rewrite control_value. unfold zero_function. ring. }
  assert (CV : forall q c, control_time p t3 q c = al * control_time p t1 q c + be * control_time p t2 q c).
  { intros q c. rewrite (control_value p t3), (control_value p t1), (control_value p t2), T. ring. }
  pose proof (sum_displacements al be m _ _ _ d CV) as SD.
  destruct (s_hanging m d) as [[es z]|] eqn:HD.
  - rewrite !after_update, !update_split, HD. cbn [orelse line_sum]. rewrite (HH _ _ _ HD). split; [reflexivity|]. split; [reflexivity|ring].
  - destruct (displacement_lines m (only_upper (control_time p t1)) d) as [[e1 v1]|] eqn:L1.
    + rewrite !after_update, !update_split, HD, L1. cbn [orelse].
      destruct (displacement_lines m (only_upper (control_time p t2)) d) as [[e2 v2]|]; [|contradiction].
      destruct (displacement_lines m (only_upper (control_time p t3)) d) as [[e3 v3]|]; [|contradiction]. exact SD.
    + assert (NU : forall us, affine_after m (control_time p 0) us d = affine_after m (control_time p 0) [] d).
      { intros us. apply not_updated; [exact HD|]. intros u _. exact (updated_alike m _ u d L1). }
      rewrite (NU (control_time p t1 :: _)), (NU (control_time p t2 :: _)), (NU (control_time p t3 :: _)). rewrite S0.
      destruct (affine_after m zero_function [] d) as [[es z]|] eqn:A; cbn [line_sum]; [|exact I]. rewrite (start_homogeneous m d es z HH A). split; [reflexivity|]. split; [reflexivity|ring].
Qed.
Lemma unloaded_power b old x r w : elastic_body b -> unloaded b -> virtual_power b old x r w = - elastic_work b x w.
Proof.
  intros EL U. rewrite elastic_virtual_power by exact EL. unfold elastic_work. match goal with |- _ = - ?v => replace (- v) with (-1 * v) by ring end. rewrite <- lsum_scal.
  apply lsum_ext. intros c Hc. destruct (U c Hc) as (M & S & L). unfold elastic_power. rewrite L. cbn [lsum].
  match goal with |- - ?a + 0 = -1 * ?d => assert (E : a = d); [|rewrite E; ring] end.
  apply sumn_ext. intros q _. f_equal. f_equal.
  rewrite (work_linear (cr_dim (b_crystal b c)) (strain_at (b_element b c) (local_values b w c) q) (cr_C (b_crystal b c)) (fun i j => cr_macro (b_crystal b c) i j + strain_at (b_element b c) (local_values b x c) q i j)
    (fun _ _ => 0) (fun _ _ => 0) (strain_at (b_element b c) (local_values b x c) q) 0 0) by (intros i j _ _; rewrite M; ring).
  rewrite (dot_linear (cr_dim (b_crystal b c)) _ (cr_supply (b_crystal b c) q) (fun _ => 0) (fun _ => 0) 0 0) by (intros i; rewrite S; ring). ring.
Qed.
Lemma same_work b b' z w : same_solid b b' -> elastic_work b' z w = elastic_work b z w.
Proof.
  intros ((_ & C2 & _) & D2 & F2 & _ & _ & K2 & _). unfold elastic_work. rewrite <- C2. apply lsum_ext. intros c _. specialize (K2 c). cbv zeta in *. rewrite K2. cbn [cr_dim cr_N cr_C].
  unfold local_values. rewrite <- D2, <- F2. reflexivity.
Qed.
Lemma work_deviation b al be x1 x2 w : elastic_work b (fun d => al * x1 d + be * x2 d) w = al * elastic_work b x1 w + be * elastic_work b x2 w.
Proof.
  unfold elastic_work. rewrite <- !lsum_scal, <- lsum_plus. apply lsum_ext. intros c _. cbv zeta. rewrite <- !sumn_scal, <- sumn_plus. apply sumn_ext. intros q _.
  rewrite (work_linear _ _ _ (strain_at (b_element b c) (local_values b (fun d => al * x1 d + be * x2 d) c) q) (strain_at (b_element b c) (local_values b x1 c) q)
    (strain_at (b_element b c) (local_values b x2 c) q) (fun _ _ => 0) al be).
  - assert (Z : ddot (cr_dim (b_crystal b c)) (strain_at (b_element b c) (local_values b w c) q) (c4 (cr_dim (b_crystal b c)) (cr_C (b_crystal b c)) (fun _ _ => 0)) = 0); [|rewrite Z; ring].
    unfold ddot. apply sumn_zero. intros i _. apply sumn_zero. intros j _. unfold c4. rewrite (sumn_zero _ (fun r => sumn _ _)); [ring|].
    intros r _. apply sumn_zero. intros s _. ring.
  - intros i j _ _. unfold strain_at, local_values. rewrite <- !sumn_scal, <- sumn_plus, Rplus_0_r. apply sumn_ext. intros l _. ring.
Qed.
Lemma loop_elastic (p : program rank_data) bodies b0 a inner : on_bodies p bodies b0 -> well_formed_program p -> rate_independent (pr_parameters p) = false ->
  elastic_run bodies b0 -> closed_below (b_ndofs b0) (newton_of (pr_strip p)) ->
  forall fuel k current previous ts oo s tr e, initialised b0 (st_hist s) -> program_loop p a inner fuel k current previous ts oo s = (tr, e) ->
  forall x, In x tr -> (exists ts', obeys (affine_at p (ModelLoading.st_time (ac_record x) :: ts')) (st_trial (ac_state x))) /\
    forall w, SpecLinear.admissible (b_ndofs b0) (newton_of (pr_strip p)) w -> Rabs (elastic_work b0 (st_trial (ac_state x)) w) <= tolerated (pr_parameters p) (pr_algorithm p) b0 w.
Proof.
  intros OB WF RI ER CB.
  induction fuel as [|fuel IH]; intros k current previous ts oo s tr e HI; cbn [program_loop].
  - destruct (Rltb _ _); intros E; injection E as <- <-; intros x [].
  - destruct (Rltb _ _); [|intros E; injection E as <- <-; intros x []].
    cbv zeta. set (next := clipped_next _ _ _ _).
    destruct (solve_nonlinear_system _ _ _ _ _ _ _) as [r| | |] eqn:S; try (intros E; injection E as <- <-; intros x []; fail).
    destruct (shift_solutions r) as [oo' s'] eqn:SH.
    destruct (Z.eqb _ _); [intros E; injection E as <- <-; intros x []|].
    destruct (program_loop _ _ _ _ _ _ _ _ _ _) as [tr1 e1] eqn:L. intros E. injection E as <- <-.
    set (dt := a_add a next (- current)) in *. set (b := bodies (Z.to_nat k) dt).
    destruct (OB (Z.to_nat k) dt) as (C & M & W & FI & SP). fold b in C, M, W, FI, SP. destruct (ER (Z.to_nat k) dt) as (EL & U & SS & ND & IS). fold b in EL, U, SS, ND, IS.
    set (en := step_env p (Z.to_nat k) dt (next :: ts)) in *.
    assert (WE : works_on en b) by exact W. assert (FE : e_finish en = body_finish b) by exact FI.
    assert (I1 : initialised b (st_hist s)) by (eapply same_points_initialised; eauto).
    intros x [<-|X].
    + cbn [ac_record ac_state ModelLoading.st_time]. split.
      * exists ts. exact (C97_accepted_solution_obeys_the_constraints _ _ _ _ _ _ _ _ _ (WF _ _ _) S).
      * intros w A. pose proof (accepted_power b en (pr_parameters p) (pr_algorithm p) inner _ oo s r w (fun _ => 0) _ (st_hist r) C EL WE RI I1 S
          ltac:(rewrite ND; exact CB) ltac:(rewrite ND; exact A) eq_refl) as Q.
        rewrite (unloaded_power b _ _ _ _ EL U), Rabs_Ropp, (same_work b0 b _ _ SS) in Q. unfold tolerated, size, displacement_size, slip_size in Q |- *.
        rewrite ND, IS in Q. exact Q.
    + pose proof WE as (W1 & W2 & W3). pose proof C as (N & _).
      assert (HF : forgets_iterates (e_update en)) by (rewrite W2; apply body_forgets; assumption).
      destruct (accepted_step (pr_parameters p) en HF _ _ _ _ _ _ (or_introl RI) S) as (_ & A2 & _). rewrite W1, W2, FE in A2.
      injection SH as <- <-. refine (IH (k + 1)%Z next dt (next :: ts) (st_old r) _ tr1 e1 _ L x X). cbn [st_hist]. rewrite A2.
      destruct SP as (P1 & P2 & P3 & P4 & P5 & P6 & P7).
      apply (same_points_initialised b b0); [unfold same_points; repeat split; congruence|].
      apply initialised_sweep; [exact N|]. apply initialised_sweep; [exact N|]. apply initialised_sweep; assumption.
Qed.
(** In the shear test of an elastic body without other loads the displacements grow in proportion
    to time: two accepted solutions, each divided by its time, are the same, as closely as the tolerances say. *)
Theorem C108_shear_test_is_proportional : forall p bodies b0 a inner fuel oo s tr e x y,
  on_bodies p bodies b0 -> well_formed_program p -> homogeneous (s_hanging (pr_strip p)) -> rate_independent (pr_parameters p) = false ->
  elastic_run bodies b0 -> firm b0 -> closed_below (b_ndofs b0) (newton_of (pr_strip p)) -> initialised b0 (st_hist s) ->
  program_run p a inner fuel oo s = (tr, e) -> In x tr -> In y tr ->
  let tx := ModelLoading.st_time (ac_record x) in let ty := ModelLoading.st_time (ac_record y) in
  let z := fun d => ty * st_trial (ac_state x) d - tx * st_trial (ac_state y) d in
  0 <= elastic_work b0 z z <= (Rabs tx + Rabs ty) * tolerated (pr_parameters p) (pr_algorithm p) b0 z.
Proof.
  intros p bodies b0 a inner fuel oo s tr e x y OB WF HH RI ER F CB HI E X Y tx ty z. split; [apply elastic_work_nonneg, F|].
  destruct (loop_elastic p bodies b0 a inner OB WF RI ER CB _ _ _ _ _ _ _ _ _ HI E x X) as ((ts1 & O1) & B1).
  destruct (loop_elastic p bodies b0 a inner OB WF RI ER CB _ _ _ _ _ _ _ _ _ HI E y Y) as ((ts2 & O2) & B2). fold tx in O1. fold ty in O2.
  assert (EZ : z = fun d => ty * st_trial (ac_state x) d + (- tx) * st_trial (ac_state y) d) by (apply functional_extensionality; intros d; unfold z; ring).
  assert (A : SpecLinear.admissible (b_ndofs b0) (newton_of (pr_strip p)) z).
  { pose proof (supports_in_time p ty (- tx) tx ty 0 ts1 ts2 [] HH ltac:(ring)) as SP.
    assert (O3 : obeys (affine_at p [0]) (fun _ => 0)).
    { intros d es v K. pose proof (supports_in_time p 0 0 0 0 0 [] [] [] HH ltac:(ring) d) as S0. rewrite K in S0. destruct S0 as (_ & _ & ->).
      rewrite lsum_zero; [ring|]. intros w _. ring. }
    pose proof (supports_deviation (b_ndofs b0) ty (- tx) _ _ _ (newton_of (pr_strip p)) _ _ _ SP
      (C82_newton_constraints_are_the_homogeneous_version (pr_strip p) (control_time p 0) (map (control_time p) (tx :: ts1)) HH) O1 O2 O3) as D.
    intros d es v Hd K. specialize (D d es v Hd K). unfold deviation in D. 
    assert (Q : lsum (fun e => snd e * (0 - (ty * st_trial (ac_state x) (fst e) + - tx * st_trial (ac_state y) (fst e)))) es = - lsum (fun e => snd e * z (fst e)) es).
    { match goal with |- _ = - ?v => replace (- v) with (-1 * v) by ring end. rewrite <- lsum_scal. apply lsum_ext. intros w _. unfold z. ring. }
    rewrite Q in D. unfold z at 1. lra. }
  specialize (B1 z A). specialize (B2 z A).
  assert (EW : elastic_work b0 z z = ty * elastic_work b0 (st_trial (ac_state x)) z + - tx * elastic_work b0 (st_trial (ac_state y)) z).
  { rewrite EZ at 1. apply work_deviation. }
  rewrite EW. set (u := elastic_work b0 _ z) in *. set (v := elastic_work b0 (st_trial (ac_state y)) z) in *. set (tol := tolerated _ _ _ z) in *.
  assert (M1 : Rabs (ty * u) <= Rabs ty * tol) by (rewrite Rabs_mult; apply Rmult_le_compat_l; [apply Rabs_pos|exact B1]).
  assert (M2 : Rabs (- tx * v) <= Rabs tx * tol) by (rewrite Rabs_mult, Rabs_Ropp; apply Rmult_le_compat_l; [apply Rabs_pos|exact B2]).
  pose proof (Rle_abs (ty * u)). pose proof (Rle_abs (- tx * v)). lra.
Qed.
