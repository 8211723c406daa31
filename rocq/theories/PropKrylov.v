(** * C78: reduced linear system; C79: inexact linear solves. *)
From Verif Require Import Num SumLemmas Tensors TensorLemmas ModelFEField ModelActiveSet ModelKrylov SpecKrylov.
Open Scope R_scope.

(** ** C78 *)
Lemma inverse_linear b inv_G u v k : inverts b inv_G ->
  forall j, (j < bl_s b)%nat -> inv_G (fun i => u i + k * v i) j = inv_G u j + k * inv_G v j.
Proof.
  intros [H1 H2] j Hj. symmetry.
  apply (H2 (fun i => u i + k * v i) (fun j => inv_G u j + k * inv_G v j)); auto.
  intros i Hi. rewrite (sumn_ext _ _ (fun j => bl_G b i j * inv_G u j + k * (bl_G b i j * inv_G v j))) by (intros; ring).
  rewrite sumn_plus, sumn_scal, !H1 by exact Hi. reflexivity.
Qed.

(** The displacement update of the reduced system is the displacement part of the full Newton
    step for a converged slip balance: together with the slip update it eliminates, it solves
    the full system with the slip residual set to zero. *)
Theorem C78_reduced_update_completes_to_a_newton_step : forall b inv_G r_macro x,
  inverts b inv_G ->
  (solves_reduced b inv_G r_macro x <-> exists y, newton_system b r_macro (fun _ => 0) x y).
Proof.
  intros b inv_G r x [H1 H2]. split.
  - intros H. exists (fun j => - inv_G (mv (bl_m b) (bl_F b) x) j). split; intros i Hi.
    + specialize (H i Hi). unfold reduced_operator, mv at 1 2 in H.
      rewrite (sumn_ext _ (fun j => bl_E b i j * - _) (fun j => - (bl_E b i j * inv_G (mv (bl_m b) (bl_F b) x) j))) by (intros; ring).
      rewrite sumn_opp. exact H.
    + rewrite (sumn_ext _ (fun j => bl_G b i j * - _) (fun j => - (bl_G b i j * inv_G (mv (bl_m b) (bl_F b) x) j))) by (intros; ring).
      rewrite sumn_opp, H1 by exact Hi. unfold mv. ring.
  - intros (y & Hm & Hs) i Hi. unfold reduced_operator. rewrite <- (Hm i Hi). unfold mv at 1 2. 
    assert (E : forall j, (j < bl_s b)%nat -> - y j = inv_G (mv (bl_m b) (bl_F b) x) j).
    { apply (H2 (mv (bl_m b) (bl_F b) x) (fun j => - y j)). intros k Hk. specialize (Hs k Hk).
      rewrite (sumn_ext _ _ (fun j => - (bl_G b k j * y j))) by (intros; ring). rewrite sumn_opp. unfold mv. lra. }
    rewrite (sumn_ext (bl_s b) (fun j => bl_E b i j * inv_G _ j) (fun j => - (bl_E b i j * y j)))
      by (intros j Hj; rewrite <- E by exact Hj; ring).
    rewrite sumn_opp. ring.
Qed.

(** With a slip residual that is not zero, the reduced system lacks the term [E inv_G r_micro]:
    what its operator makes of the difference to the Newton step is exactly that term. *)
Theorem C78_error_of_the_reduced_update : forall b inv_G r_macro r_micro x x' y',
  inverts b inv_G -> solves_reduced b inv_G r_macro x -> newton_system b r_macro r_micro x' y' ->
  forall i, (i < bl_m b)%nat ->
    reduced_operator b inv_G (fun j => x j - x' j) i =
    sumn (bl_s b) (fun j => bl_E b i j * inv_G r_micro j).
Proof.
  intros b inv_G r rg x x' y' HI H (Hm & Hs) i Hi. pose proof HI as [H1 H2].
  specialize (H i Hi). specialize (Hm i Hi).
  assert (Y : forall j, (j < bl_s b)%nat -> y' j = inv_G rg j - inv_G (mv (bl_m b) (bl_F b) x') j).
  { intros j Hj. transitivity (inv_G (fun i => rg i + -1 * mv (bl_m b) (bl_F b) x' i) j).
    - apply H2; auto. intros k Hk. specialize (Hs k Hk). unfold mv. lra.
    - rewrite (inverse_linear b inv_G rg (mv (bl_m b) (bl_F b) x') (-1) HI) by exact Hj. ring. }
  assert (L : forall j, (j < bl_s b)%nat -> inv_G (mv (bl_m b) (bl_F b) (fun j => x j - x' j)) j =
    inv_G (mv (bl_m b) (bl_F b) x) j - inv_G (mv (bl_m b) (bl_F b) x') j).
  { intros j Hj. transitivity (inv_G (fun i => mv (bl_m b) (bl_F b) x i + -1 * mv (bl_m b) (bl_F b) x' i) j).
    - apply H2; auto. intros k Hk. rewrite H1 by exact Hk. unfold mv.
      rewrite (sumn_ext _ _ (fun j => bl_F b k j * x j - bl_F b k j * x' j)) by (intros; ring). rewrite sumn_minus. ring.
    - rewrite (inverse_linear b inv_G _ (mv (bl_m b) (bl_F b) x') (-1) HI) by exact Hj. ring. }
  unfold reduced_operator in *. unfold mv at 1 2 in H. unfold mv at 1 2.
  rewrite (sumn_ext (bl_s b) (fun j => bl_E b i j * y' j)
    (fun j => bl_E b i j * inv_G rg j - bl_E b i j * inv_G (mv (bl_m b) (bl_F b) x') j)) in Hm
    by (intros j Hj; rewrite Y by exact Hj; ring). rewrite sumn_minus in Hm.
  rewrite (sumn_ext (bl_s b) (fun j => bl_E b i j * inv_G (mv (bl_m b) (bl_F b) (fun j => x j - x' j)) j)
    (fun j => bl_E b i j * inv_G (mv (bl_m b) (bl_F b) x) j - bl_E b i j * inv_G (mv (bl_m b) (bl_F b) x') j))
    by (intros j Hj; rewrite L by exact Hj; ring). rewrite sumn_minus.
  rewrite (sumn_ext _ (fun j => bl_D b i j * (x j - x' j)) (fun j => bl_D b i j * x j - bl_D b i j * x' j)) by (intros; ring).
  rewrite sumn_minus. lra.
Qed.

(** An inexact inverse leaves a defect in the slip rows only, as large as its own error. *)
Theorem C78_inexact_inverse : forall b inv_G r_macro x tol,
  (forall v, length_of (bl_s b) (fun i => v i - sumn (bl_s b) (fun j => bl_G b i j * inv_G v j)) <= tol) ->
  solves_reduced b inv_G r_macro x ->
  exists y defect, newton_system b r_macro defect x y /\ length_of (bl_s b) defect <= tol.
Proof.
  intros b inv_G r x tol HT H. exists (fun j => - inv_G (mv (bl_m b) (bl_F b) x) j).
  exists (fun i => mv (bl_m b) (bl_F b) x i - sumn (bl_s b) (fun j => bl_G b i j * inv_G (mv (bl_m b) (bl_F b) x) j)).
  split; [|apply HT]. split; intros i Hi.
  - specialize (H i Hi). unfold reduced_operator, mv at 1 2 in H.
    rewrite (sumn_ext _ (fun j => bl_E b i j * - _) (fun j => - (bl_E b i j * inv_G (mv (bl_m b) (bl_F b) x) j))) by (intros; ring).
    rewrite sumn_opp. exact H.
  - rewrite (sumn_ext _ (fun j => bl_G b i j * - _) (fun j => - (bl_G b i j * inv_G (mv (bl_m b) (bl_F b) x) j))) by (intros; ring).
    rewrite sumn_opp. unfold mv. ring.
Qed.

Definition scalar_blocks : blocks := mk_blocks 1 1 (fun _ _ => 2) (fun _ _ => 1) (fun _ _ => 1) (fun _ _ => 1).
Lemma scalar_inverts : inverts scalar_blocks (fun v => v).
Proof.
  split.
  - intros v i Hi. cbn in *. replace i with 0%nat by lia. ring.
  - intros v w H j Hj. specialize (H j Hj). cbn in *. replace j with 0%nat in * by lia. lra.
Qed.
(** The reduced system is not the Newton system when the slip balance has not converged. *)
Theorem C78_unconverged_slips_refuted : exists b inv_G r_macro r_micro x x' y',
  inverts b inv_G /\ solves_reduced b inv_G r_macro x /\ newton_system b r_macro r_micro x' y' /\ x 0%nat <> x' 0%nat.
Proof.
  exists scalar_blocks, (fun v => v), (fun _ => 1), (fun _ => 1), (fun _ => 1), (fun _ => 0), (fun _ => 1).
  split; [exact scalar_inverts|]. split; [|split].
  - intros i Hi. unfold reduced_operator, mv. cbn. ring.
  - split; intros i Hi; cbn; ring.
  - lra.
Qed.
Example C78_example : inverts scalar_blocks (fun v => v) /\ solves_reduced scalar_blocks (fun v => v) (fun _ => 1) (fun _ => 1) /\
  newton_system scalar_blocks (fun _ => 1) (fun _ => 0) (fun _ => 1) (fun _ => -1).
Proof.
  split; [exact scalar_inverts|]. split.
  - intros i Hi. unfold reduced_operator, mv. cbn. ring.
  - split; intros i Hi; cbn; ring.
Qed.

(** ** C79 *)
Lemma length_nonneg n v : 0 <= length_of n v.
Proof. apply sqrt_pos. Qed.
Lemma length_sq n v : length_of n v * length_of n v = sumn n (fun i => v i * v i).
Proof. apply sqrt_sqrt. apply sumn_nonneg. intros. apply Rle_0_sqr. Qed.
Lemma inner_bound n u v : Rabs (sumn n (fun i => u i * v i)) <= length_of n u * length_of n v.
Proof.
  apply Rsqr_incr_0_var; [|apply Rmult_le_pos; apply length_nonneg].
  rewrite <- Rsqr_abs. unfold Rsqr. pose proof (cauchy_schwarz n u v) as C.
  replace (length_of n u * length_of n v * (length_of n u * length_of n v))
    with ((length_of n u * length_of n u) * (length_of n v * length_of n v)) by ring.
  rewrite !length_sq. exact C.
Qed.

(** Every update comes from a vector whose linear residual is at most the larger of the
    relative tolerance times the residual and of the absolute tolerance; a solver that fails
    stops the program. *)
Theorem C79_linear_residual_is_bounded : forall n K f solver k c last update,
  meets_tolerance n K f solver ->
  solve_linearized solver k c n f last = Ok update \/ solve_block solver k c n f = Ok update ->
  exists x, update = distribute c x /\
    (length_of n (fun i => f i - sumn n (fun j => K i j * x j)) <= length_of n f * kr_relative k \/
     length_of n (fun i => f i - sumn n (fun j => K i j * x j)) <= kr_absolute k).
Proof.
  intros n K f solver k c last update HM H.
  assert (G : forall x0, match solver (krylov_tolerance k (norm n f)) x0 with None => Throw | Some x => Ok (distribute c x) end = Ok update ->
    exists x, update = distribute c x /\ length_of n (fun i => f i - sumn n (fun j => K i j * x j)) <= krylov_tolerance k (norm n f)).
  { intros x0 E. destruct (solver _ x0) as [x|] eqn:Es; [|discriminate]. injection E as <-. exists x. split; auto.
    exact (HM _ _ _ Es). }
  assert (T : exists x, update = distribute c x /\ length_of n (fun i => f i - sumn n (fun j => K i j * x j)) <= krylov_tolerance k (norm n f))
    by (destruct H as [H|H]; apply (G _ H)).
  destruct T as (x & E & B). exists x. split; auto. unfold krylov_tolerance in B. change (norm n f) with (length_of n f) in B.
  unfold Rmax in B. destruct (Rle_dec _ _); auto.
Qed.
Theorem C79_failing_solver_aborts : forall n f solver k c last,
  (solver (Rmax (length_of n f * kr_relative k) (kr_absolute k)) last = None -> solve_linearized solver k c n f last = Throw) /\
  (solver (Rmax (length_of n f * kr_relative k) (kr_absolute k)) (fun _ => 0) = None -> solve_block solver k c n f = Throw).
Proof.
  intros. unfold solve_linearized, solve_block, krylov_tolerance. change (norm n f) with (length_of n f).
  split; intros ->; reflexivity.
Qed.

(** As long as the absolute tolerance is below the residual (and the relative one below one)
    the accepted vector is a descent direction of half the squared residual, and the slope
    differs from the one assumed by the line search by at most the tolerance times the residual. *)
Theorem C79_inexact_step_descends : forall n K f tol x,
  length_of n (fun i => f i - sumn n (fun j => K i j * x j)) <= tol -> tol < length_of n f ->
  let slope := - sumn n (fun i => f i * sumn n (fun j => K i j * x j)) in
  slope < 0 /\ Rabs (slope - - (length_of n f * length_of n f)) <= tol * length_of n f.
Proof.
  intros n K f tol x HT HL slope.
  pose proof (inner_bound n f (fun i => f i - sumn n (fun j => K i j * x j))) as B.
  assert (E : slope - - (length_of n f * length_of n f) = sumn n (fun i => f i * (f i - sumn n (fun j => K i j * x j)))).
  { unfold slope. rewrite length_sq. rewrite (sumn_ext n (fun i => f i * (f i - _)) (fun i => f i * f i - f i * sumn n (fun j => K i j * x j))) by (intros; ring).
    rewrite sumn_minus. ring. }
  set (res := length_of n (fun i => f i - sumn n (fun j => K i j * x j))) in *.
  pose proof (length_nonneg n f) as P0. pose proof (length_nonneg n (fun i => f i - sumn n (fun j => K i j * x j))) as P1. fold res in P1.
  assert (PF : 0 < length_of n f) by lra.
  assert (B2 : Rabs (slope - - (length_of n f * length_of n f)) <= tol * length_of n f).
  { rewrite E. eapply Rle_trans; [exact B|]. rewrite Rmult_comm. apply Rmult_le_compat_r; lra. }
  split; [|exact B2]. pose proof (Rle_abs (slope - - (length_of n f * length_of n f))). nra.
Qed.
(** For the tolerance the code passes. *)
Theorem C79_accepted_steps_descend : forall n K f solver k c last update,
  meets_tolerance n K f solver -> kr_relative k < 1 -> 0 < kr_absolute k < length_of n f ->
  solve_linearized solver k c n f last = Ok update \/ solve_block solver k c n f = Ok update ->
  exists x, update = distribute c x /\ 0 < sumn n (fun i => f i * sumn n (fun j => K i j * x j)).
Proof.
  intros n K f solver k c last update HM HR HA H.
  assert (P : 0 <= length_of n f) by apply length_nonneg.
  destruct (C79_linear_residual_is_bounded n K f solver k c last update HM H) as (x & E & B). exists x. split; auto.
  assert (T : exists tol, length_of n (fun i => f i - sumn n (fun j => K i j * x j)) <= tol /\ tol < length_of n f).
  { destruct B as [B|B]; [exists (length_of n f * kr_relative k)|exists (kr_absolute k)]; split; auto; nra. }
  destruct T as (tol & T1 & T2). pose proof (C79_inexact_step_descends n K f tol x T1 T2) as [S _]. cbv zeta in S. lra.
Qed.

(** A residual below the Krylov solver's absolute tolerance is never reduced: the staggered
    solves return the zero update, whatever the Newton tolerance asks for. *)
Theorem C79_stagnation_below_the_absolute_tolerance : forall n K f solver k c,
  stops_at_once n K f solver -> length_of n f <= kr_absolute k ->
  (forall d es b, c d = Some (es, b) -> b = 0) ->
  exists update, solve_block solver k c n f = Ok update /\ forall d, update d = 0.
Proof.
  intros n K f solver k c HS HL HO. exists (distribute c (fun _ => 0)). split.
  - unfold solve_block. rewrite HS; [reflexivity|].
    assert (E : sqrt (sumn n (fun i => (f i - sumn n (fun j => K i j * 0)) * (f i - sumn n (fun j => K i j * 0)))) = length_of n f).
    { unfold length_of. f_equal. apply sumn_ext; intros i _.
      rewrite (sumn_ext n _ (fun _ => 0)) by (intros; ring). rewrite sumn_0. ring. }
    rewrite E. unfold krylov_tolerance. eapply Rle_trans; [exact HL|apply Rmax_r].
  - intros d. unfold distribute. destruct (c d) as [[es b]|] eqn:E; [|reflexivity]. rewrite (HO d es b E). clear E.
    induction es as [|e es IH]; [reflexivity|]. cbn [fold_left]. rewrite Rmult_0_r, Rplus_0_r. exact IH.
Qed.
(** The solve of the whole system starts from the last update: below the absolute tolerance it
    may return it unchanged although it increases the residual. *)
Theorem C79_stale_update_refuted : exists n K f solver k last,
  meets_tolerance n K f solver /\ stops_at_once n K f solver /\ 0 < length_of n f /\
  solve_linearized solver k no_constraints n f last = Ok last /\
  sumn n (fun i => f i * sumn n (fun j => K i j * last j)) < 0.
Proof.
  set (meets := fun tol (x : vec) => Rleb (sqrt ((1/2 - x 0%nat) * (1/2 - x 0%nat))) tol).
  exists 1%nat, (fun _ _ => 1), (fun _ => 1/2), (fun tol x0 => if meets tol x0 then Some x0 else None), (mk_krylov (1/10) 1), (fun _ => - (2/5)).
  assert (S : forall x : vec, sumn 1 (fun i => (1/2 - sumn 1 (fun j => 1 * x j)) * (1/2 - sumn 1 (fun j => 1 * x j))) = (1/2 - x 0%nat) * (1/2 - x 0%nat))
    by (intros; cbn; ring).
  split; [|split; [|split; [|split]]].
  - intros tol x0 x H. destruct (meets tol x0) eqn:M; [|discriminate]. injection H as <-. rewrite S. apply Rleb_true in M. exact M.
  - intros tol x0 H. rewrite S in H. unfold meets. destruct (Rleb _ tol) eqn:E; [reflexivity|]. apply Rleb_false in E. lra.
  - apply sqrt_lt_R0. cbn. lra.
  - unfold solve_linearized.
    match goal with |- context[meets ?t ?x] => replace (meets t x) with true end.
    + unfold distribute, no_constraints. reflexivity.
    + symmetry. unfold meets. destruct (Rleb _ _) eqn:E; [reflexivity|]. apply Rleb_false in E. exfalso.
      assert (sqrt ((1/2 - - (2/5)) * (1/2 - - (2/5))) <= 1).
      { rewrite <- sqrt_1 at 3. apply sqrt_le_1_alt. lra. }
      unfold krylov_tolerance in E. cbn [kr_absolute kr_relative] in E.
      pose proof (Rmax_r (norm 1 (fun _ => 1/2) * (1/10)) 1). lra.
  - cbn. lra.
Qed.
Example C79_example : exists solver, meets_tolerance 1 (fun _ _ => 2) (fun _ => 1) solver /\
  solve_block solver (mk_krylov (1/2) (1/4)) no_constraints 1 (fun _ => 1) = Ok (fun _ => 1/2) /\
  kr_absolute (mk_krylov (1/2) (1/4)) < length_of 1 (fun _ => 1).
Proof.
  exists (fun tol _ => if Rleb 0 tol then Some (fun _ => 1/2) else None). split; [|split].
  - intros tol x0 x H. destruct (Rleb 0 tol) eqn:E; [|discriminate]. injection H as <-. apply Rleb_true in E.
    cbn. replace ((1 - (0 + 2 * (1 / 2)))) with 0 by lra. rewrite Rmult_0_l, Rplus_0_l, sqrt_0. exact E.
  - unfold solve_block. replace (Rleb 0 _) with true; [reflexivity|]. symmetry.
    destruct (Rleb 0 _) eqn:E; [reflexivity|]. apply Rleb_false in E. exfalso.
    unfold krylov_tolerance in E. cbn [kr_absolute] in E. pose proof (Rmax_r (norm 1 (fun _ => 1) * kr_relative (mk_krylov (1/2) (1/4))) (1/4)). lra.
  - cbn [kr_absolute]. unfold length_of. cbn. replace (0 + 1 * 1) with 1 by ring. rewrite sqrt_1. lra.
Qed.
