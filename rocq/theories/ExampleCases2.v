(** * Concrete cases meeting the hypotheses of theorems stated without one beside them
      (continued): C04, C31, C34, C37, C55, C63. *)
From Coq Require Import ZArith.
From Coquelicot Require Import Coquelicot.
From Verif Require Import Num SumLemmas Tensors TensorLemmas ModelUtilities ProofUtilities
  ModelElastic SpecElastic ProofElastic ModelMicro SpecMicro ProofMicro PropMicro ModelCohesive SpecCohesive ProofCohesive
  SpecInterface PropCohesive ModelAssembly SpecAssembly ProofAssembly ProofNewton ProofFace PropAssembly PropPower
  ModelLineSearch SpecLineSearch ProofLineSearch PropLineSearch ModelPost SpecPost PropPost PropOutput ModelLoading SpecLoading PropLoading.
Import ListNotations.
Open Scope R_scope.

(** C04: trials at 1 and 1/2 with values 47/10 and 13/10; the cubic has its minimum at 1/5. *)
Definition cubic_state : ls := mk_ls 1 15 (1/10000) (Fin 1) (Fin (-2)) (Fin 1) (Fin 0) (Fin (47/10)) (Fin 0).
Example C04_cubic_interior : n_iterations cubic_state = 1%nat /\ lambda_old cubic_state = Fin 1 /\ 1/2 <> 1 /\
  snd (get_lambda cubic_state (Fin (13/10)) (Fin (1/2))) = Fin (1/5) /\ 1/10 * (1/2) < 1/5 < 5/10 * (1/2).
Proof.
  split; [reflexivity|]. split; [reflexivity|]. split; [lra|]. split; [|lra].
  unfold get_lambda, cubic_state. cbn [n_iterations snd n_max alpha f_init descent lambda_old f_old].
  unfold cubic_backtracking. rewrite cubic_coefficients_fin by lra.
  assert (EA : cA (1/2) 1 (13/10 - 1 - 1/2 * -2) (47/10 - 1 - 1 * -2) = 1) by (unfold cA; field).
  assert (EB : cB (1/2) 1 (13/10 - 1 - 1/2 * -2) (47/10 - 1 - 1 * -2) = 47/10) by (unfold cB; field).
  rewrite EA, EB. cbn [descent lambda_old xneg xmul xadd xsub xdiv xsqrt]. clear.
  assert (ED : 47/10 * (47/10) + - (3 * 1 * -2) = 53/10 * (53/10)) by field. rewrite ED, (proj2 (Rltb_false _ 0)) by lra. rewrite sqrt_square by lra.
  cbn [xadd xdiv]. rewrite (Reqb_neq (3 * 1) 0) by lra. assert (EL : (- (47/10) + 53/10) / (3 * 1) = 1/5) by field. rewrite EL.
  unfold xgtb. cbn [xltb]. rewrite !(proj2 (Rltb_false _ _)) by lra. reflexivity.
Qed.

Example C31_example : 0 < crit_traction (mk_cohesive 1 1 0 1 1) /\ 0 < crit_opening (mk_cohesive 1 1 0 1 1).
Proof. cbn. lra. Qed.
(** C34: an interface with cohesive traction only, seen from both sides. *)
Definition cohesive_interface : interface :=
  mk_interface 2 1 (fun _ => 1) true false (mk_cohesive 1 1 0 1 1) (mk_contact 1 1 1) 1 true false 1 1 (fun _ => (fun _ _ => 1, fun _ _ => 1)) 1.
Example C34_example : if_microtraction cohesive_interface = false /\ if_decohesion cohesive_interface = true /\ char_stress (if_cohesive cohesive_interface) <> 0.
Proof. repeat split. cbn. lra. Qed.

Lemma two_face_primitive : primitive_face 2 1 two_face.
Proof.
  intros j q Hj Hq. cbn in Hj, Hq. destruct j as [|[|j]]; [| |lia]; cbn.
  - split; [lia|]. split; [reflexivity|]. split; [intros H; lia|]. intros [|a] Ha N; [split; reflexivity|lia].
  - split; [lia|]. split; [reflexivity|]. split; [intros _ r; split; reflexivity|]. intros [|a] Ha N; [exfalso; apply N; reflexivity|lia].
Qed.
Example C37_example : primitive 2 1 two_element /\ 2 <= cr_p two_crystal /\ cr_N two_crystal 0 <> 0 /\ major_symmetric 2 (cr_C two_crystal) /\
  primitive_face 2 1 two_face /\ face_params_ok two_interface /\ (forall q, (q < fa_nq two_face)%nat -> 0 < fh_max two_history q /\ 0 <= fh_damage two_history q <= 1) /\
  (forall q a b, fst (if_moduli two_interface q) a b = fst (if_moduli two_interface q) b a) /\ (forall q a b, snd (if_moduli two_interface q) b a = snd (if_moduli two_interface q) a b).
Proof.
  split; [exact two_primitive|]. split; [cbn; lra|]. split; [cbn; lra|]. split.
  - intros i j k l Hi Hj Hk Hl. destruct i as [|[|i]], j as [|[|j]], k as [|[|k]], l as [|[|l]]; try lia; unfold two_crystal, cubic; cbn; lra.
  - split; [exact two_face_primitive|]. split; [repeat split; cbn; lra|]. split; [intros q _; cbn; lra|]. split; reflexivity.
Qed.

(** C55: two steps, the second of which fails or not. *)
Definition two_steps : loading := mk_loading Monotonic 1 0 1 2 1 1 1 1 1 true.
Lemma two_steps_valid : valid_loading two_steps.
Proof. unfold valid_loading; cbn; repeat split; try lia; lra. Qed.
Example C55_example : valid_loading two_steps /\ start_time < end_time exact two_steps /\
  run exact two_steps 1 (fun k => Z.ltb k 1) 5 = ([mk_step 1 (1/2) true], SolverThrew) /\
  exists tr, run double two_steps 1 (fun _ => true) 5 = (tr, Finished).
Proof.
  split; [exact two_steps_valid|]. assert (E : end_time exact two_steps = 1) by (unfold end_time, start_time; cbn; lra). split; [rewrite E; unfold start_time; lra|]. split.
  - unfold run. cbn [time_loop]. rewrite E. unfold start_time. rewrite (proj2 (Rltb_true 0 1)) by lra. cbn [Z.ltb Z.compare Z.eqb Z.add].
    assert (D : next_dt exact two_steps 0 = 1/2) by (unfold next_dt, dt_mono; cbn; lra). rewrite D.
    assert (C : clipped_next exact 0 (1/2) 1 = 1/2) by (unfold clipped_next; cbn; rewrite (proj2 (Rltb_false _ _)) by lra; lra). rewrite C.
    rewrite (proj2 (Rltb_true (1/2) 1)) by lra. reflexivity.
  - destruct (C55_monotonic_double_run_writes_the_end two_steps 1 5 two_steps_valid eq_refl (proj1 C50_double_example) (proj2 C50_double_example)) as (tr & r & T & _); try (cbn; lia).
    exists tr. exact T.
Qed.
Example C63_example : well_formed (ex_post false true 1) /\ pp_light (ex_post false true 1) = false /\ pp_fluctuations (ex_post false true 1) = true /\ sc_stress (pp_scales (ex_post false true 1)) = 1.
Proof. split; [apply ex_post_wf|]. repeat split. Qed.
