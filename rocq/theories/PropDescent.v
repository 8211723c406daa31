(** * C100: away from equilibrium the Newton step exists and the line search along it succeeds. *)
From Coq Require Import FunctionalExtensionality.
From Coquelicot Require Import Coquelicot.
From Verif Require Import Num SumLemmas Tensors TensorLemmas ModelUtilities ModelElastic ModelMicro SpecMicro ProofMicro
  ModelCohesive SpecCohesive ProofCohesive ModelHistory SpecInterface ModelInterface
  ModelFEField ModelLineSearch SpecLineSearch ProofLineSearch PropLineSearch ModelActiveSet SpecActiveSet PropActiveSet
  ModelLinear SpecLinear PropLinear ModelAssembly SpecAssembly ModelSweep SpecSweep
  PropSweep ModelBody SpecBody PropBody ModelTangent SpecTangent ProofTangent PropTangent SpecRun PropRun SpecEnergy PropEnergy SpecStiffness ProofStiffness PropStiffness SpecUnique SpecDescent.
Open Scope R_scope.

(** ** Functions of the step length *)
Lemma small_steps phi f0 a : is_derive phi 0 (-2 * f0) -> phi 0 = f0 -> 0 < f0 -> a < 1 ->
  exists d, 0 < d /\ forall t, 0 < t <= d -> phi t < (1 - 2 * a * t) * f0.
Proof.
  intros D P F A. apply is_derive_Reals in D. destruct (D ((1 - a) * f0)) as (d & Hd); [nra|].
  exists (d / 2). pose proof (cond_pos d) as PD. split; [lra|]. intros t [T1 T2].
  specialize (Hd t ltac:(lra)). rewrite Rabs_right in Hd by lra. specialize (Hd ltac:(lra)).
  rewrite Rplus_0_l, P in Hd. apply Rabs_def2 in Hd. destruct Hd as [Hd _].
  assert (E : phi t - f0 = (phi t - f0) / t * t) by (field; lra).
  set (m := (phi t - f0) / t) in *. assert (m < (1 - a) * f0 - 2 * f0) by lra.
  assert (m * t < ((1 - a) * f0 - 2 * f0) * t) by (apply Rmult_lt_compat_r; lra).
  assert (0 < (1 - a) * f0) by nra. assert (0 < (1 - a) * f0 * t) by nra. nra.
Qed.
Lemma nan_stays obj s f0 k j : step_of (trial obj (reinit s f0) k) = NaN -> (k <= j)%nat -> step_of (trial obj (reinit s f0) j) = NaN.
Proof.
  intros H L. induction L as [|j L IH]; [exact H|]. unfold step_of in *. rewrite trial_S.
  pose proof (trial_inv obj (reinit s f0) eq_refl j) as Hi. cbv zeta in Hi. destruct j as [|j].
  { cbn in IH. discriminate IH. }
  destruct (trial obj (reinit s f0) (S j)) as [[sj lj] fj]. cbn [fst snd] in *. subst lj. destruct Hi as (Hn & _). apply get_lambda_nan with j. exact Hn.
Qed.
Lemma value_sampled phi obj s f0 k t : samples phi obj -> step_of (trial obj (reinit s f0) k) = Fin t -> SpecLineSearch.value_of (trial obj (reinit s f0) k) = Fin (phi t).
Proof.
  intros S. unfold step_of, SpecLineSearch.value_of. destruct k as [|k]; [cbn; intros E; injection E as <-; apply S|].
  rewrite trial_S. destruct (trial obj (reinit s f0) k) as [[sj lj] fj]. cbn [fst snd]. intros ->. apply S.
Qed.
Lemma search_of_small_steps phi f0 a d : 0 < d -> (forall t, 0 < t <= d -> phi t < (1 - 2 * a * t) * f0) -> search_succeeds_eventually phi f0 a.
Proof.
  intros Hd P. destruct (pow_lt_1_zero (1/2) ltac:(rewrite Rabs_right; lra) d Hd) as (N & HN). specialize (HN N (le_n N)).
  exists N. intros s A L obj S.
  destruct (C02_line_search_terminates obj s (Fin f0)) as (j & J1 & J2 & J3 & J4). cbv zeta in *.
  set (t0 := trial obj (reinit s (Fin f0))) in *.
  destruct (t0 j) as [[s' l] f] eqn:E. exists s', l, f. split; [exact J2|].
  assert (R0 : forall i, step_of (t0 i) = NaN \/ exists y, step_of (t0 i) = Fin y /\ 0 < y <= (1/2)^i).
  { intros i. destruct (C01_step_sequence_shape obj s (Fin f0) i) as [Hn|(y & Hy & B)]; [left; exact Hn|right]. exists y. split; [exact Hy|].
    assert (0 < (1/10)^i) by (apply pow_lt; lra). lra. }
  assert (NJ : step_of (t0 N) = NaN \/ (j <= N)%nat).
  { destruct (R0 N) as [Hn|(y & Hy & B)]; [left; exact Hn|right].
    destruct (Nat.le_gt_cases j N) as [|G]; [assumption|exfalso].
    assert (Z := J4 N G). assert (AC : accepted (t0 N) = true); [|congruence].
    apply (accepted_armijo obj s f0 N y (phi y)); [exact Hy|apply (value_sampled phi); assumption|exact L|].
    unfold armijo. rewrite A. assert (Q : Rabs ((1/2)^N) = (1/2)^N) by (apply Rabs_right, Rle_ge, pow_le; lra). rewrite Q in HN.
    specialize (P y ltac:(lra)). lra. }
  assert (SJ : step_of (t0 j) = l) by (rewrite E; reflexivity).
  destruct (R0 j) as [Hn|(y & Hy & B)]; [left; congruence|].
  right. exists y. assert (V := value_sampled phi obj s (Fin f0) j y S Hy). fold t0 in V. rewrite E in V. cbn in V.
  split; [congruence|]. split; [exact V|].
  assert ((1/2)^j <= 1). { pose proof (pow_incr (1/2) 1 j ltac:(lra)) as Hp. rewrite pow1 in Hp. exact Hp. }
  split; [lra|].
  assert (JN : (j <= N)%nat). { destruct NJ as [Hn|]; [|assumption]. destruct (Nat.le_gt_cases j N) as [|G]; [assumption|].
    assert (Z := nan_stays obj s (Fin f0) N j Hn ltac:(lia)). fold t0 in Z. rewrite Z in Hy. discriminate. }
  assert (AR := proj1 (accepted_armijo obj s f0 j y (phi y) Hy ltac:(unfold SpecLineSearch.value_of; fold t0; rewrite E; exact V) ltac:(lia))).
  fold t0 in AR. rewrite E in AR. specialize (AR J3). unfold armijo in AR. lra.
Qed.

(** ** The body *)
(** Along the Newton step small step lengths reduce the residual as required. *)
Theorem C100_small_steps_descend : forall b old x r k pattern ws y a,
  consistent b -> exponential_damage_only b -> initialised b r -> one_set_of_parameters b r -> two_sided b ->
  differentiable_bulk b old x -> differentiable_faces b x r ->
  closed_below (b_ndofs b) k -> homogeneous k -> dofs_of_cells b k ->
  body_jacobian b old x (body_update b old x r) pattern k = Ok ws ->
  solves (b_ndofs b) (matrix_of ws) (body_residual b old x (body_update b old x r) k) y ->
  let f := body_objective b old r k in
  0 < f x -> a < 1 ->
  exists d, 0 < d /\ forall t, 0 < t <= d -> f (moved x (newton_update k y) t) < (1 - 2 * a * t) * f x.
Proof.
  intros b old x r k pattern ws y a C M I O T DB DF CB HO DC J S f F A.
  destruct (C93_line_search_knows_the_slope b old x r k pattern ws y C M I O T DB DF CB HO DC J S (mk_ls 0 0 0 NaN NaN NaN NaN NaN NaN)) as (sl & E & D).
  cbn in E. injection E as E. fold (f x) in E. 
  assert (Z : moved x (newton_update k y) 0 = x) by (apply functional_extensionality; intros d; unfold moved; ring).
  apply (small_steps (fun t => f (moved x (newton_update k y) t))); [|rewrite Z; reflexivity|exact F|exact A].
  rewrite E. exact D.
Qed.
(** Hence so does the line search, if it may try often enough. *)
Theorem C100_line_search_succeeds : forall b old x r k pattern ws y a,
  consistent b -> exponential_damage_only b -> initialised b r -> one_set_of_parameters b r -> two_sided b ->
  differentiable_bulk b old x -> differentiable_faces b x r ->
  closed_below (b_ndofs b) k -> homogeneous k -> dofs_of_cells b k ->
  body_jacobian b old x (body_update b old x r) pattern k = Ok ws ->
  solves (b_ndofs b) (matrix_of ws) (body_residual b old x (body_update b old x r) k) y ->
  let f := body_objective b old r k in
  0 < f x -> a < 1 ->
  search_succeeds_eventually (fun t => f (moved x (newton_update k y) t)) (f x) a.
Proof.
  intros b old x r k pattern ws y a C M I O T DB DF CB HO DC J S f F A.
  destruct (C100_small_steps_descend b old x r k pattern ws y a C M I O T DB DF CB HO DC J S F A) as (d & D & P).
  exact (search_of_small_steps _ _ a d D P).
Qed.

(** The objective vanishes only in equilibrium. *)
Lemma objective_nonneg b old r k x : 0 <= body_objective b old r k x.
Proof. unfold body_objective. rewrite objective_sum. apply Rmult_le_pos; [lra|]. apply sumn_nonneg. intros. apply Rle_0_sqr. Qed.
Lemma objective_zero b old r k x : body_objective b old r k x = 0 <-> forall d, (d < b_ndofs b)%nat -> body_residual b old x (body_update b old x r) k d = 0.
Proof.
  unfold body_objective. rewrite objective_sum. split.
  - intros E d Hd. assert (Z : sumn (b_ndofs b) (fun d => body_residual b old x (body_update b old x r) k d * body_residual b old x (body_update b old x r) k d) = 0) by lra.
    assert (Q := sumn_zero_each (b_ndofs b) _ (fun d _ => Rle_0_sqr (body_residual b old x (body_update b old x r) k d)) Z d Hd). apply Rsqr_0_uniq. exact Q.
  - intros E. rewrite (sumn_ext (b_ndofs b) _ (fun _ => 0)); [rewrite (sumn_zero (b_ndofs b) (fun _ => 0) (fun _ _ => eq_refl)); ring|]. intros d Hd. rewrite (E d Hd). ring.
Qed.

(** With the sparsity pattern made at set-up the matrix can be assembled for every trial solution. *)
Lemma jacobian_assembled b old x h made k pattern : make_sparsity_pattern made (coupled b) (map (body_cell b) (b_cells b)) = Ok pattern -> stays_within k made ->
  exists ws, body_jacobian b old x h pattern k = Ok ws.
Proof.
  intros E W. unfold body_jacobian. apply (C76_assembly_stays_in_the_pattern made); [|exact W].
  rewrite map_map. exact E.
Qed.

(** A viscoplastic body that is held in place and does not soften: whatever the trial solution,
    unless it is in equilibrium the Newton step exists, is the only one, and leads to smaller
    out-of-balance forces. *)
Theorem C100_newton_is_never_stuck : forall b frames p0 old x h made k pattern a,
  consistent b -> exponential_damage_only b -> two_sided b -> stable_material b (macro_of b) -> stable_interfaces b frames p0 ->
  initialised b h -> sound_histories b h -> ever_opened b x h ->
  let r := body_store b h in let r' := body_update b old x r in
  hardens b r' -> no_softening b x r' -> strict_grains b -> held_in_place b k ->
  one_set_of_parameters b r -> differentiable_bulk b old x -> differentiable_faces b x r ->
  closed_below (b_ndofs b) k -> homogeneous k -> dofs_of_cells b k ->
  make_sparsity_pattern made (coupled b) (map (body_cell b) (b_cells b)) = Ok pattern -> stays_within k made -> a < 1 ->
  let f := body_objective b old r k in
  exists ws y, body_jacobian b old x r' pattern k = Ok ws /\
    (forall z, solves (b_ndofs b) (matrix_of ws) (body_residual b old x r' k) z <-> forall d, (d < b_ndofs b)%nat -> z d = y d) /\
    ((forall d, (d < b_ndofs b)%nat -> body_residual b old x r' k d = 0) \/
     (0 < f x /\ search_succeeds_eventually (fun t => f (moved x (newton_update k y) t)) (f x) a)).
Proof.
  intros b frames p0 old x h made k pattern a C M T SM SI I S EO r r' HA NS SG HP O DB DF CB HO DC MP SW A f.
  pose proof C as (N & _).
  destruct (C96_trial_histories b old x h C M T I S EO) as (SO & POS). cbv zeta in SO, POS. fold r in SO, POS. fold r' in SO, POS.
  destruct (jacobian_assembled b old x r' made k pattern MP SW) as (ws & J).
  assert (DG : definite_grains b r').
  { intros c Hc. destruct (SG c Hc) as (A1 & A2 & A3 & A4). split; [exact A1|]. split; [exact A2|]. split; [exact A3|]. split; [|exact A4]. intros q i Hq Hi. apply POS; assumption. }
  destruct (C96_newton_step_exists_and_is_unique b frames p0 old x r' pattern k ws (body_residual b old x r' k) C T SM SI SO HA NS DG HP CB DC J) as (y & Y & U).
  exists ws, y. split; [exact J|]. split.
  - intros z. split; [apply U|]. intros E i Hi. rewrite <- (Y i Hi). apply sumn_ext. intros j Hj. rewrite (E j Hj). reflexivity.
  - destruct (Rle_lt_or_eq_dec _ _ (objective_nonneg b old r k x)) as [P|Z].
    + right. split; [exact P|]. 
      exact (C100_line_search_succeeds b old x r k pattern ws y a C M (initialised_store b h N I) O T DB DF CB HO DC J Y P A).
    + left. apply objective_zero. symmetry. exact Z.
Qed.
