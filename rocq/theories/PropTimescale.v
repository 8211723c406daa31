(** * C105: only the product of slip rates and time intervals matters. *)
From Coquelicot Require Import Coquelicot.
From Coq Require Import ZArith Lra Lia FunctionalExtensionality.
From Verif Require Import Num Tensors SumLemmas ModelUtilities ModelElastic ModelMicro ModelCohesive ModelHistory ModelFEField ModelActiveSet ModelSolver ModelLoading ModelShear ModelProgram SpecProgram
  ModelLinear ModelAssembly ModelInterface ModelSweep ModelStep ModelBody SpecBody ModelTangent SpecMirror ProofMirror SpecTimescale.
Open Scope R_scope.

Lemma retimed_rate l x y dt : l <> 0 -> (x - y) / (l * dt) = (x - y) / dt / l.
Proof. intros L. unfold Rdiv. rewrite Rinv_mult. ring. Qed.
Lemma sgn_retimed l r : 0 < l -> sl_sgn (r / l) = sl_sgn r.
Proof.
  intros L. assert (P : 0 < / l) by (apply Rinv_0_lt_compat; exact L).
  assert (A : Rltb 0 (r / l) = Rltb 0 r).
  { destruct (Rltb 0 r) eqn:E; [apply Rltb_true in E; apply Rltb_true; unfold Rdiv; nra|apply Rltb_false in E; apply Rltb_false; unfold Rdiv; nra]. }
  assert (B : Rltb (r / l) 0 = Rltb r 0).
  { destruct (Rltb r 0) eqn:E; [apply Rltb_true in E; apply Rltb_true; unfold Rdiv; nra|apply Rltb_false in E; apply Rltb_false; unfold Rdiv; nra]. }
  unfold sl_sgn. rewrite A, B. reflexivity.
Qed.
Lemma reg_value_retimed l a r : 0 < l -> 0 < sl_k a -> reg_value (retime_law (sl_k a / l) a) (r / l) = reg_value a r.
Proof.
  intros L K. unfold reg_value. cbn [retime_law sl_reg sl_k]. destruct (sl_reg a).
  - replace (PI / 2 * (r / l) / (sl_k a / l)) with (PI / 2 * r / sl_k a) by (field; lra). reflexivity.
  - replace (r / l * (r / l) + sl_k a / l * (sl_k a / l)) with ((r * r + sl_k a * sl_k a) * ((/ l) * (/ l))) by (field; lra).
    rewrite sqrt_mult_alt by nra. rewrite sqrt_square by (left; apply Rinv_0_lt_compat; exact L).
    assert (P : 0 < sqrt (r * r + sl_k a * sl_k a)) by (apply sqrt_lt_R0; nra).
    field. split; lra.
  - replace (PI / 2 * (r / l) / (sl_k a / l)) with (PI / 2 * r / sl_k a) by (field; lra). reflexivity.
  - replace (r / l / (sl_k a / l)) with (r / sl_k a) by (field; lra). reflexivity.
  - replace (sqrt PI / 2 * (r / l) / (sl_k a / l)) with (sqrt PI / 2 * r / sl_k a) by (field; lra). reflexivity.
Qed.
Lemma reg_derivative_retimed l a r : 0 < l -> 0 < sl_k a -> reg_derivative (retime_law (sl_k a / l) a) (r / l) = l * reg_derivative a r.
Proof.
  intros L K. unfold reg_derivative. cbn [retime_law sl_reg sl_k]. pose proof PI_RGT_0 as PP. destruct (sl_reg a).
  - assert (P : 0 < sl_k a * sl_k a * 4 + PI * PI * r * r) by nra. field. repeat split; try lra; nra.
  - replace (r / l * (r / l) + sl_k a / l * (sl_k a / l)) with ((r * r + sl_k a * sl_k a) * ((/ l) * (/ l))) by (field; lra).
    assert (I : 0 < / l) by (apply Rinv_0_lt_compat; exact L).
    rewrite <- Rpower_mult_distr by nra. rewrite <- Rpower_mult_distr by assumption.
    assert (Q : Rpower (/ l) (15 / 10) * Rpower (/ l) (15 / 10) = (/ l) ^ 3).
    { rewrite <- Rpower_plus. replace (15 / 10 + 15 / 10) with (INR 3) by (cbn; lra). apply Rpower_pow. exact I. }
    rewrite Q. assert (P : 0 < Rpower (r * r + sl_k a * sl_k a) (15 / 10)) by apply exp_pos.
    generalize dependent (Rpower (r * r + sl_k a * sl_k a) (15 / 10)). intros u P. field. split; lra.
  - replace (PI / 2 * (r / l) / (sl_k a / l)) with (PI / 2 * r / sl_k a) by (field; lra).
    assert (P : 0 < cosh (PI / 2 * r / sl_k a)) by (unfold cosh; pose proof (exp_pos (PI / 2 * r / sl_k a)); pose proof (exp_pos (- (PI / 2 * r / sl_k a))); lra).
    generalize dependent (cosh (PI / 2 * r / sl_k a)). intros u P. field. repeat split; lra.
  - replace (r / l / (sl_k a / l)) with (r / sl_k a) by (field; lra).
    assert (P : 0 < cosh (r / sl_k a)) by (unfold cosh; pose proof (exp_pos (r / sl_k a)); pose proof (exp_pos (- (r / sl_k a))); lra).
    generalize dependent (cosh (r / sl_k a)). intros u P. field. repeat split; lra.
  - replace (- PI * (r / l) * (r / l) / (sl_k a / l) / (sl_k a / l) / 4) with (- PI * r * r / sl_k a / sl_k a / 4) by (field; lra).
    generalize (exp (- PI * r * r / sl_k a / sl_k a / 4)). intros u. field. split; lra.
Qed.
Lemma microstress_retimed l k a x y g dt : 0 < l -> sl_rate_independent a = true \/ (k = sl_k a / l /\ 0 < sl_k a) ->
  scalar_microstress (retime_law k a) x y g (l * dt) = scalar_microstress a x y g dt.
Proof.
  intros L A. unfold scalar_microstress. cbv zeta. rewrite (retimed_rate l) by lra. cbn [retime_law sl_rate_independent]. rewrite (sgn_retimed l) by exact L.
  destruct (sl_rate_independent a) eqn:E; [reflexivity|]. destruct A as [A|(-> & K)]; [discriminate|]. rewrite reg_value_retimed by assumption. reflexivity.
Qed.
Lemma scalar_jacobian_retimed l k a gam old g dt i j : 0 < l -> sl_rate_independent a = true \/ (k = sl_k a / l /\ 0 < sl_k a) ->
  scalar_jacobian (retime_law k a) gam old g (l * dt) i j = scalar_jacobian a gam old g dt i j.
Proof.
  intros L A. unfold scalar_jacobian. cbv zeta. rewrite !(retimed_rate l) by lra. cbn [retime_law sl_rate_independent sl_perfect]. rewrite !(sgn_retimed l) by exact L.
  change (sl_entry (retime_law k a)) with (sl_entry a).
  destruct (sl_rate_independent a) eqn:E; [cbn [negb]; rewrite !Bool.andb_false_r; reflexivity|].
  destruct A as [A|(-> & K)]; [discriminate|]. rewrite !reg_value_retimed, reg_derivative_retimed by assumption.
  destruct (Nat.eqb i j); cbn [andb negb]; [|reflexivity]. f_equal. unfold Rdiv. rewrite Rinv_mult. generalize (/ dt). intros u. field. lra.
Qed.
Lemma xltb_retimed l v : 0 < l -> (match v with Fin r => xltb (Fin (r / l)) (Fin 0) | _ => xltb v (Fin 0) end) = xltb v (Fin 0).
Proof.
  intros L. assert (P : 0 < / l) by (apply Rinv_0_lt_compat; exact L). destruct v as [r| | |]; cbn; try reflexivity.
  destruct (Rltb r 0) eqn:E; [apply Rltb_true in E; apply Rltb_true; unfold Rdiv; nra|apply Rltb_false in E; apply Rltb_false; unfold Rdiv; nra].
Qed.
Lemma branch_retimed l e mx old dt : 0 < l -> branch_of e mx (rate e old (l * dt)) = branch_of e mx (rate e old dt).
Proof.
  intros L. unfold rate. cbn [xdiv].
  assert (Z : Reqb (l * dt) 0 = Reqb dt 0).
  { destruct (Reqb dt 0) eqn:E; [apply Reqb_true in E; apply Reqb_true; rewrite E; ring|]. apply Reqb_false in E. apply Reqb_false. nra. }
  rewrite Z. destruct (Reqb dt 0); [reflexivity|]. unfold branch_of. rewrite (retimed_rate l) by lra.
  pose proof (xltb_retimed l (Fin ((e - old) / dt)) L) as Q. cbv iota in Q. rewrite Q. reflexivity.
Qed.

(** ** Cells and faces *)
Lemma residual_bulk_retimed l k c e U V g i : 0 < l -> sl_rate_independent (cr_law c) = true \/ (k = sl_k (cr_law c) / l /\ 0 < sl_k (cr_law c)) ->
  residual_bulk (retime_crystal l k c) e U V g i = residual_bulk c e U V g i.
Proof.
  intros L A. unfold residual_bulk. apply xsumn_same. intros q _. f_equal.
  change (cr_dim (retime_crystal l k c)) with (cr_dim c). destruct (Nat.ltb _ _); [reflexivity|].
  change (cr_law (retime_crystal l k c)) with (retime_law k (cr_law c)). change (cr_dt (retime_crystal l k c)) with (l * cr_dt c).
  rewrite microstress_retimed by assumption. reflexivity.
Qed.
Lemma jacobian_bulk_retimed l k c e U V g i j : 0 < l -> sl_rate_independent (cr_law c) = true \/ (k = sl_k (cr_law c) / l /\ 0 < sl_k (cr_law c)) ->
  jacobian_bulk (retime_crystal l k c) e U V g i j = jacobian_bulk c e U V g i j.
Proof.
  intros L A. unfold jacobian_bulk. apply xsumn_same. intros q _. cbv zeta.
  change (cr_dim (retime_crystal l k c)) with (cr_dim c). destruct (Nat.ltb _ _), (Nat.ltb _ _); try reflexivity.
  change (cr_law (retime_crystal l k c)) with (retime_law k (cr_law c)). change (cr_dt (retime_crystal l k c)) with (l * cr_dt c).
  rewrite scalar_jacobian_retimed by assumption. reflexivity.
Qed.
Lemma cohesive_traction_retimed l d c x n mx old dt r : 0 < l -> cohesive_traction d c x n mx old (l * dt) r = cohesive_traction d c x n mx old dt r.
Proof. intros L. unfold cohesive_traction. cbv zeta. rewrite branch_retimed by exact L. reflexivity. Qed.
Lemma cohesive_jacobian_retimed l d c x n mx old dt r s : 0 < l -> cohesive_jacobian d c x n mx old (l * dt) r s = cohesive_jacobian d c x n mx old dt r s.
Proof. intros L. unfold cohesive_jacobian. cbv zeta. rewrite branch_retimed by exact L. reflexivity. Qed.
Lemma residual_face_retimed l p f h U V i : 0 < l -> residual_face (retime_interface l p) f h U V i = residual_face p f h U V i.
Proof.
  intros L. unfold residual_face. apply xsumn_same. intros q _. cbv zeta.
  change (if_dim (retime_interface l p)) with (if_dim p). destruct (Nat.ltb _ _); [|reflexivity].
  change (if_decohesion (retime_interface l p)) with (if_decohesion p). destruct (if_decohesion p); [|reflexivity].
  f_equal. f_equal. apply xdot_same. intros r. cbn [retime_interface if_cohesive if_dt]. rewrite cohesive_traction_retimed by exact L. reflexivity.
Qed.
Lemma traction_form_retimed l p f h U V q x y : 0 < l -> traction_form (retime_interface l p) f h U V q x y = traction_form p f h U V q x y.
Proof.
  intros L. unfold traction_form. cbv zeta. change (if_dim (retime_interface l p)) with (if_dim p). apply xdot_same. intros r. apply xsumn_same. intros s _.
  cbn [retime_interface if_cohesive if_dt]. rewrite cohesive_jacobian_retimed by exact L. reflexivity.
Qed.
Lemma face_local_retimed l p f h U V i j : 0 < l -> jacobian_face_local (retime_interface l p) f h U V i j = jacobian_face_local p f h U V i j.
Proof.
  intros L. unfold jacobian_face_local. apply xsumn_same. intros q _. cbv zeta.
  change (if_dim (retime_interface l p)) with (if_dim p). destruct (Nat.ltb _ _), (Nat.ltb _ _); try reflexivity.
  rewrite traction_form_retimed by exact L. reflexivity.
Qed.
Lemma face_coupling_retimed l p f h U V i j : 0 < l -> jacobian_face_coupling (retime_interface l p) f h U V i j = jacobian_face_coupling p f h U V i j.
Proof.
  intros L. unfold jacobian_face_coupling. apply xsumn_same. intros q _. cbv zeta.
  change (if_dim (retime_interface l p)) with (if_dim p). destruct (Nat.ltb _ _), (Nat.ltb _ _); try reflexivity.
  rewrite traction_form_retimed by exact L. reflexivity.
Qed.
Lemma fold_left_same {A B} (f g : A -> B -> A) l : (forall a x, f a x = g a x) -> forall a, fold_left f l a = fold_left g l a.
Proof. intros E. induction l as [|x l IH]; intros a; cbn; [reflexivity|]. rewrite E. apply IH. Qed.

(** ** The assembled systems *)
Section Body.
Variables (l : R) (k : nat -> R) (b : body).
Hypothesis RF : rates_follow l k b.
Let b' := retime_body l k b.
Lemma cell_entry_retimed old x r c i : cell_entry b' old x r c i = cell_entry b old x r c i.
Proof.
  destruct RF as (L & A). unfold cell_entry. change (gb_neighbours b' c) with (gb_neighbours b c). change (readable b' r c) with (readable b r c).
  destruct (forallb _ _); [|reflexivity]. unfold residual_cell. cbv zeta.
  change (b_crystal b' c) with (retime_crystal l (k c) (b_crystal b c)). change (cr_dim (retime_crystal l (k c) (b_crystal b c))) with (cr_dim (b_crystal b c)).
  change (local_values b') with (local_values b). change (b_element b' c) with (b_element b c). change (b_loads b' c) with (b_loads b c).
  f_equal. rewrite !fold_map. rewrite (residual_bulk_retimed l _ _ _ _ _ _ _ L (A c)). apply fold_left_same. intros a n.
  change (b_interface b' c n) with (retime_interface l (b_interface b c n)). change (b_face b' c n) with (b_face b c n). rewrite (residual_face_retimed l _ _ _ _ _ _ L). reflexivity.
Qed.
Lemma matrix_entry_retimed old x r c i j : cell_matrix_entry b' old x r c i j = cell_matrix_entry b old x r c i j.
Proof.
  destruct RF as (L & A). unfold cell_matrix_entry. change (gb_neighbours b' c) with (gb_neighbours b c).
  change (b_crystal b' c) with (retime_crystal l (k c) (b_crystal b c)). change (local_values b') with (local_values b). change (b_element b' c) with (b_element b c).
  rewrite (jacobian_bulk_retimed l _ _ _ _ _ _ _ _ L (A c)). apply fold_left_same. intros a n.
  change (b_interface b' c n) with (retime_interface l (b_interface b c n)). change (b_face b' c n) with (b_face b c n). rewrite (face_local_retimed l _ _ _ _ _ _ _ L). reflexivity.
Qed.
Lemma coupling_entry_retimed x r c m i j : cell_coupling_entry b' x r c m i j = cell_coupling_entry b x r c m i j.
Proof.
  destruct RF as (L & A). unfold cell_coupling_entry. cbv zeta. change (gb_neighbours b' c) with (gb_neighbours b c). change (local_values b') with (local_values b).
  set (n := nth m (gb_neighbours b c) 0%nat).
  change (b_interface b' c n) with (retime_interface l (b_interface b c n)). change (b_face b' c n) with (b_face b c n). apply (face_coupling_retimed l _ _ _ _ _ _ _ L).
Qed.
Lemma residual_retimed : body_residual b' = body_residual b.
Proof.
  apply functional_extensionality; intros old. apply functional_extensionality; intros x. apply functional_extensionality; intros r. apply functional_extensionality; intros kk.
  unfold body_residual. f_equal. f_equal. change (b_cells b') with (b_cells b). apply map_ext. intros c. unfold body_system. change (body_cell b' c) with (body_cell b c).
  f_equal. apply functional_extensionality. intros i. rewrite cell_entry_retimed. reflexivity.
Qed.
Lemma jacobian_retimed : body_jacobian b' = body_jacobian b.
Proof.
  apply functional_extensionality; intros old. apply functional_extensionality; intros x. apply functional_extensionality; intros r.
  apply functional_extensionality; intros pattern. apply functional_extensionality; intros kk.
  unfold body_jacobian. change (coupled b') with (coupled b). change (b_cells b') with (b_cells b). f_equal. apply map_ext. intros c. unfold newton_system. change (body_cell b' c) with (body_cell b c).
  f_equal; apply functional_extensionality; intros i; [apply functional_extensionality; intros j; rewrite matrix_entry_retimed; reflexivity| |rewrite cell_entry_retimed; reflexivity].
  apply functional_extensionality; intros j; apply functional_extensionality; intros m. rewrite coupling_entry_retimed. reflexivity.
Qed.
Lemma norms_retimed : body_norms b' = body_norms b.
Proof.
  apply functional_extensionality; intros old. apply functional_extensionality; intros x. apply functional_extensionality; intros r. apply functional_extensionality; intros kk.
  unfold body_norms. rewrite residual_retimed. change (b_ndofs b') with (b_ndofs b). change (b_is_slip b') with (b_is_slip b).
  assert (E : all_finite b' old x r = all_finite b old x r); [|rewrite E; reflexivity].
  unfold all_finite. change (b_cells b') with (b_cells b). generalize (b_cells b). intros cs. induction cs as [|c cs IH]; cbn [forallb]; [reflexivity|]. rewrite IH. f_equal.
  change (b_dofs b' c) with (b_dofs b c). generalize (seq 0 (length (b_dofs b c))). intros is. induction is as [|i is IH2]; cbn [forallb]; [reflexivity|]. rewrite IH2, cell_entry_retimed. reflexivity.
Qed.
Lemma update_retimed : body_update b' = body_update b.
Proof. reflexivity. Qed.
Lemma store_retimed : body_store b' = body_store b.
Proof. reflexivity. Qed.
Lemma finish_retimed : body_finish b' = body_finish b.
Proof. reflexivity. Qed.
End Body.

(** ** Theorems *)
Theorem C105_assembled_systems : forall l k b old x r cs pattern, rates_follow l k b ->
  body_residual (retime_body l k b) old x r cs = body_residual b old x r cs /\
  body_jacobian (retime_body l k b) old x r pattern cs = body_jacobian b old x r pattern cs /\
  body_objective (retime_body l k b) old r cs x = body_objective b old r cs x.
Proof.
  intros l k b old x r cs pattern RF. rewrite residual_retimed, jacobian_retimed by exact RF. split; [reflexivity|]. split; [reflexivity|].
  unfold body_objective. rewrite residual_retimed by exact RF. reflexivity.
Qed.
Lemma env_retimed l k b (e e' : env rank_data) : rates_follow l k b -> works_on e b -> e_finish e = body_finish b ->
  works_on e' (retime_body l k b) -> e_finish e' = body_finish (retime_body l k b) -> same_methods e e' -> e' = e.
Proof.
  intros RF (W1 & W2 & W3) W4 (V1 & V2 & V3) V4 (M1 & M2 & M3 & M4 & M5 & M6 & M7 & M8 & M9 & M10 & M11).
  rewrite store_retimed in V1. rewrite update_retimed in V2. rewrite norms_retimed in V3 by exact RF. rewrite finish_retimed in V4.
  destruct e, e'. cbn in W1, W2, W3, W4, V1, V2, V3, V4, M1, M2, M3, M4, M5, M6, M7, M8, M9, M10, M11. clear RF. subst. reflexivity.
Qed.
Lemma begin_retimed {H} l (e : env H) t oo s : l <> 0 -> begin_step e (retime_step l t) oo s = begin_step e t oo s.
Proof.
  intros L. unfold begin_step. cbn [retime_step t_step t_factor t_next_dt t_previous_dt t_skip]. unfold extrapolate, step_size_ratio.
  replace (t_factor t * (l * t_next_dt t) / (l * t_previous_dt t)) with (t_factor t * t_next_dt t / t_previous_dt t); [reflexivity|].
  unfold Rdiv. rewrite Rinv_mult. generalize (/ t_previous_dt t). intros u. field. exact L.
Qed.
Theorem C105_retimed_step : forall l k b (e e' : env rank_data) sp a fuel t oo s,
  rates_follow l k b -> works_on e b -> e_finish e = body_finish b ->
  works_on e' (retime_body l k b) -> e_finish e' = body_finish (retime_body l k b) -> same_methods e e' ->
  solve_nonlinear_system e' sp a fuel (retime_step l t) oo s = solve_nonlinear_system e sp a fuel t oo s /\
  iterations e' sp a fuel (retime_step l t) oo s = iterations e sp a fuel t oo s.
Proof.
  intros l k b e e' sp a fuel t oo s RF W F W' F' M. rewrite (env_retimed l k b e e') by assumption.
  assert (L : l <> 0) by (destruct RF; lra). unfold solve_nonlinear_system, iterations. rewrite (begin_retimed l) by exact L. split; reflexivity.
Qed.
Theorem C105_linear_solvers : forall l k b pattern LS solver solver' s, rates_follow l k b ->
  solves_assembled b pattern LS solver -> solves_assembled (retime_body l k b) pattern LS solver' -> solver' s = solver s.
Proof.
  intros l k b pattern LS solver solver' s RF S S'. rewrite S, S'. rewrite residual_retimed, jacobian_retimed by exact RF. reflexivity.
Qed.

(** ** The shear test *)
Section Program.
Context {H : Type} (l : R) (p : program H) (env' : nat -> R -> env H).
Hypothesis L : 0 < l.
Let p' := retime_program l p env'.
Lemma control_retimed t : control_time p' (l * t) = control_time p t.
Proof.
  apply functional_extensionality. intros x. apply functional_extensionality. intros c.
  unfold control_time, control_at, pr_control. change (pr_strip p') with (pr_strip p). change (pr_height p') with (pr_height p). change (pr_char p') with (pr_char p).
  change (pr_component p') with (pr_component p). change (pr_loading p') with (retime_loading l (pr_loading p)).
  unfold vector_value, make_displacement_control, displacement_load. cbn [dc_type dc_height dc_max dc_char dc_component dc_decohesion dc_n_crystals retime_loading l_max].
  replace (l * t * pr_height p * (l_max (pr_loading p) / l) / pr_char p) with (t * pr_height p * l_max (pr_loading p) / pr_char p); [reflexivity|].
  unfold Rdiv. generalize (/ pr_char p). intros u. field. lra.
Qed.
Lemma affine_retimed ts : affine_at p' (map (Rmult l) ts) = affine_at p ts.
Proof.
  unfold affine_at. change (pr_strip p') with (pr_strip p). rewrite map_map.
  assert (Z : control_time p' 0 = control_time p 0) by (rewrite <- (control_retimed 0); f_equal; ring). rewrite Z. f_equal. apply map_ext. exact control_retimed.
Qed.
Lemma end_retimed : end_time exact (pr_loading p') = l * end_time exact (pr_loading p).
Proof.
  change (pr_loading p') with (retime_loading l (pr_loading p)). unfold end_time, start_time. cbn [exact a_add a_mul retime_loading l_type l_duration_mono l_duration l_period l_n_cycles l_skip_unloading].
  destruct (l_type (pr_loading p)); ring.
Qed.
Lemma next_dt_retimed step : next_dt exact (pr_loading p') step = l * next_dt exact (pr_loading p) step.
Proof.
  change (pr_loading p') with (retime_loading l (pr_loading p)). unfold next_dt, dt_mono, dt_load, dt_cyclic.
  change (cyclic_end_double (retime_loading l (pr_loading p))) with (cyclic_end_double (pr_loading p)).
  cbn [exact a_div retime_loading l_type l_duration_mono l_duration l_period l_n_mono l_n_load l_n_quarter].
  destruct (l_type (pr_loading p)); [unfold Rdiv; ring|]. destruct (Z.ltb _ _); [unfold Rdiv; ring|]. destruct (Rltb _ _); unfold Rdiv; ring.
Qed.
Lemma Rltb_retimed x y : Rltb (l * x) (l * y) = Rltb x y.
Proof. destruct (Rltb x y) eqn:E; [apply Rltb_true in E; apply Rltb_true; nra|apply Rltb_false in E; apply Rltb_false; nra]. Qed.
Lemma Reqb_retimed x y : Reqb (l * x) (l * y) = Reqb x y.
Proof. destruct (Reqb x y) eqn:E; [apply Reqb_true in E; apply Reqb_true; nra|apply Reqb_false in E; apply Reqb_false; nra]. Qed.
Lemma clipped_retimed c dt e : clipped_next exact (l * c) (l * dt) (l * e) = l * clipped_next exact c dt e.
Proof.
  unfold clipped_next. cbn [exact a_add a_thr]. replace (l * e - l * dt / 20) with (l * (e - dt / 20)) by (unfold Rdiv; ring).
  replace (l * c + l * dt) with (l * (c + dt)) by ring. rewrite Rltb_retimed. destruct (Rltb _ _); reflexivity.
Qed.
Hypothesis Hstep : forall k dt ts t oo s inner,
  solve_nonlinear_system (step_env p' k (l * dt) (map (Rmult l) ts)) (pr_parameters p) (pr_algorithm p) inner (retime_step l t) oo s =
  solve_nonlinear_system (step_env p k dt ts) (pr_parameters p) (pr_algorithm p) inner t oo s.
Lemma loop_retimed inner : forall fuel step current previous ts oo s,
  program_loop p' exact inner fuel step (l * current) (l * previous) (map (Rmult l) ts) oo s =
  (map (retime_accepted l) (fst (program_loop p exact inner fuel step current previous ts oo s)), snd (program_loop p exact inner fuel step current previous ts oo s)).
Proof.
  induction fuel as [|fuel IH]; intros step current previous ts oo s; cbn [program_loop]; rewrite end_retimed, Rltb_retimed.
  - destruct (Rltb _ _); reflexivity.
  - destruct (Rltb _ _); [|reflexivity].
    rewrite next_dt_retimed, clipped_retimed. cbv zeta. set (next := clipped_next exact current (next_dt exact (pr_loading p) step) (end_time exact (pr_loading p))).
    cbn [exact a_add]. replace (l * next + - (l * current)) with (l * (next + - current)) by ring. set (dt := next + - current).
    change (skip_extrapolation (pr_loading p') step) with (skip_extrapolation (pr_loading p) step).
    change (pr_parameters p') with (pr_parameters p). change (pr_algorithm p') with (pr_algorithm p). change (pr_factor p') with (pr_factor p). change (pr_frequency p') with (pr_frequency p).
    change (mk_timing (Z.to_nat step) (pr_factor p) (l * dt) (l * previous) (skip_extrapolation (pr_loading p) step)) with
      (retime_step l (mk_timing (Z.to_nat step) (pr_factor p) dt previous (skip_extrapolation (pr_loading p) step))).
    change (l * next :: map (Rmult l) ts)%list with (map (Rmult l) (next :: ts)).
    rewrite Hstep. destruct (solve_nonlinear_system _ _ _ _ _ _ _) as [r| | |]; [|reflexivity..].
    destruct (shift_solutions r) as [oo' s']. destruct (Z.eqb _ 0); [reflexivity|]. rewrite Reqb_retimed.
    rewrite IH. destruct (program_loop p exact inner fuel _ _ _ _ _ _) as [tr en]. reflexivity.
Qed.
End Program.
Lemma step_env_retimed {H} l (p : program H) env' k dt ts : 0 < l -> env' k (l * dt) = pr_env p k dt ->
  step_env (retime_program l p env') k (l * dt) (map (Rmult l) ts) = step_env p k dt ts.
Proof.
  intros L E. unfold step_env. change (pr_env (retime_program l p env') k (l * dt)) with (env' k (l * dt)). rewrite E.
  rewrite (affine_retimed l p env' L). reflexivity.
Qed.

(** The same test with all durations multiplied by [l], the rate of loading divided by [l] and
    the reference slip rates divided by [l]: the same accepted solutions, at [l] times the times. *)
Theorem C105_retimed_test : forall l k (p : program rank_data) env' bodies inner fuel oo s, 0 < l ->
  (forall n dt, rates_follow l (k n dt) (bodies n dt) /\ works_on (pr_env p n dt) (bodies n dt) /\ e_finish (pr_env p n dt) = body_finish (bodies n dt) /\
     works_on (env' n (l * dt)) (retime_body l (k n dt) (bodies n dt)) /\ e_finish (env' n (l * dt)) = body_finish (retime_body l (k n dt) (bodies n dt)) /\
     same_methods (pr_env p n dt) (env' n (l * dt))) ->
  let '(tr, e) := program_run p exact inner fuel oo s in
  program_run (retime_program l p env') exact inner fuel oo s = (map (retime_accepted l) tr, e).
Proof.
  intros l k p env' bodies inner fuel oo s L HB. destruct (program_run p exact inner fuel oo s) as [tr en] eqn:E. unfold program_run in *.
  pose proof (loop_retimed l p env' L) as Q. specialize (Q ltac:(intros n dt ts t oo0 s0 inner0; destruct (HB n dt) as (A1 & A2 & A3 & A4 & A5 & A6);
    rewrite (step_env_retimed l p env' n dt ts L (env_retimed l _ _ _ _ A1 A2 A3 A4 A5 A6)); unfold solve_nonlinear_system; rewrite (begin_retimed l) by lra; reflexivity)).
  specialize (Q inner fuel 0%Z 0 0 [] oo s). cbn [map] in Q. replace (l * 0) with 0 in Q by ring. unfold start_time in *. rewrite Q, E. reflexivity.
Qed.
(** Rate-independent crystals do not feel the speed of the test: the same material, any speed. *)
Theorem C105_rate_independent_test : forall l (p : program rank_data) env' bodies inner fuel oo s, 0 < l ->
  (forall n dt, (forall c, sl_rate_independent (cr_law (b_crystal (bodies n dt) c)) = true) /\
     works_on (pr_env p n dt) (bodies n dt) /\ e_finish (pr_env p n dt) = body_finish (bodies n dt) /\
     let same_material := retime_body l (fun c => sl_k (cr_law (b_crystal (bodies n dt) c))) (bodies n dt) in
     works_on (env' n (l * dt)) same_material /\ e_finish (env' n (l * dt)) = body_finish same_material /\ same_methods (pr_env p n dt) (env' n (l * dt))) ->
  let '(tr, e) := program_run p exact inner fuel oo s in
  program_run (retime_program l p env') exact inner fuel oo s = (map (retime_accepted l) tr, e).
Proof.
  intros l p env' bodies inner fuel oo s L HB. apply (C105_retimed_test l (fun n dt c => sl_k (cr_law (b_crystal (bodies n dt) c))) p env' bodies); [exact L|].
  intros n dt. destruct (HB n dt) as (A & B). split; [|exact B]. split; [exact L|]. intros c. left. apply A.
Qed.
