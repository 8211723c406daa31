(** * C118: the order in which the cells are visited does not matter. *)
From Coq Require Import ZArith Lra Lia Permutation FunctionalExtensionality.
From Verif Require Import Num Tensors SumLemmas ModelElastic ModelMicro ModelCohesive ModelHistory ModelFEField ModelLineSearch ModelActiveSet ModelSolver ModelLoading ModelShear ModelProgram SpecProgram
  ModelLinear SpecLinear ModelAssembly ModelInterface ModelSweep SpecSweep PropSweep ModelStep ModelBody SpecBody ModelTangent SpecMirror SpecVisit.
Open Scope R_scope.

(** ** One sweep *)
Lemma filter_perm {A} (f : A -> bool) l l' : Permutation l l' -> Permutation (filter f l) (filter f l').
Proof.
  intros P. induction P as [|x l l' P IH|x y l|l l' l'' P IH P' IH']; cbn [filter]; [constructor| | |eapply perm_trans; eassumption].
  - destruct (f x); [constructor|]; exact IH.
  - destruct (f x), (f y); try apply Permutation_refl. apply perm_swap.
Qed.
Lemma visits_perm e cells cells' k : Permutation cells cells' -> Permutation (visits e cells k) (visits e cells' k).
Proof. intros P. unfold visits. apply filter_perm, Permutation_flat_map, P. Qed.

Definition agreeing (e : sweep_env) (w : sweep) : Prop := opposite_normals e /\ (w_model e = OrtizEtAl \/ same_energy w).
Lemma same_face_ops e cells cells' w k q s : agreeing e w -> Permutation cells cells' ->
  frun s (face_ops k q (sweep_calls e cells w)) = frun s (face_ops k q (sweep_calls e cells' w)).
Proof.
  intros (O & M) P. rewrite !face_sweep. destruct (Nat.ltb q (w_nfq e)); [|reflexivity].
  pose proof (visits_perm e cells cells' k P) as Q. destruct (visits e cells k) as [|v vs] eqn:V.
  - apply Permutation_nil in Q. rewrite Q. reflexivity.
  - assert (H : forall u t, In u (v :: vs) -> face_step t (face_call_of e w (fst u) (snd u) q) = face_step t (face_call_of e w (fst v) (snd v) q)).
    { intros u t U. rewrite <- V in U. destruct (visits_nonempty e cells k u U) as (_ & G & K & _).
      destruct (visits_nonempty e cells k v ltac:(rewrite V; left; reflexivity)) as (_ & Gv & Kv & _).
      rewrite K in Kv. apply make_key_inj in Kv. destruct Kv as [(E1 & E2)|(E1 & E2)]; rewrite E1, E2 in *; [reflexivity|].
      destruct M as [M|M]; [apply same_call|apply same_call_rate]; assumption. }
    apply (frun_same_length (face_call_of e w (fst v) (snd v) q)).
    + rewrite !map_length. apply Permutation_length, Q.
    + intros o t I. apply in_map_iff in I. destruct I as (u & <- & U). apply H, U.
    + intros o t I. apply in_map_iff in I. destruct I as (u & <- & U). apply H. apply (Permutation_in _ (Permutation_sym Q)), U.
Qed.
Lemma same_bulk_ops e cells cells' w c q : NoDup cells -> Permutation cells cells' ->
  bulk_ops c q (sweep_calls e cells w) = bulk_ops c q (sweep_calls e cells' w).
Proof.
  intros N P. rewrite !bulk_sweep; [|exact (Permutation_NoDup P N)|exact N].
  replace (mem c cells') with (mem c cells); [reflexivity|]. apply Bool.eq_true_iff_eq. rewrite !PropActiveSet.mem_In.
  split; apply Permutation_in; [exact P|exact (Permutation_sym P)].
Qed.
Lemma completes_as e cells cells' w r s : agreeing e w -> NoDup cells -> Permutation cells cells' ->
  exec_all (sweep_calls e cells w) r = Ok s -> exec_all (sweep_calls e cells' w) r = Ok s.
Proof.
  intros A N P E. destruct (exec_all_ok (sweep_calls e cells' w) r) as (s' & E').
  - intros c q. rewrite <- (same_bulk_ops e cells cells' w c q N P). exists (r_bulk s c q). apply exec_all_bulk, E.
  - intros k q. rewrite <- (same_face_ops e cells cells' w k q _ A P). exists (r_face s k q). apply exec_all_face, E.
  - rewrite E'. f_equal. destruct s as [sb sf], s' as [sb' sf']. f_equal; apply functional_extensionality; intros c; apply functional_extensionality; intros q.
    + pose proof (exec_all_bulk c q _ _ _ E) as B. pose proof (exec_all_bulk c q _ _ _ E') as B'. rewrite <- (same_bulk_ops e cells cells' w c q N P), B in B'. injection B' as B'. symmetry. exact B'.
    + pose proof (exec_all_face c q _ _ _ E) as B. pose proof (exec_all_face c q _ _ _ E') as B'. rewrite <- (same_face_ops e cells cells' w c q _ A P), B in B'. injection B' as B'. symmetry. exact B'.
Qed.
Lemma sweep_as b cells w r : same_cells b cells -> agreeing (sweep_of b) w -> sweep_all (visited_as cells b) w r = sweep_all b w r.
Proof.
  intros (N & P) A. unfold sweep_all, run_sweeps. change (sweep_of (visited_as cells b)) with (sweep_of b). change (b_cells (visited_as cells b)) with cells.
  cbn [flat_map]. rewrite !app_nil_r.
  assert (F : forall s, exec_all (sweep_calls (sweep_of b) (b_cells b) w) r = Ok s -> exec_all (sweep_calls (sweep_of b) cells w) r = Ok s) by (intros s; apply completes_as; assumption).
  assert (B : forall s, exec_all (sweep_calls (sweep_of b) cells w) r = Ok s -> exec_all (sweep_calls (sweep_of b) (b_cells b) w) r = Ok s).
  { intros s. apply completes_as; [exact A|exact (Permutation_NoDup P N)|exact (Permutation_sym P)]. }
  destruct (exec_all (sweep_calls (sweep_of b) (b_cells b) w) r) as [s| |] eqn:E; [rewrite (F s eq_refl); reflexivity| |];
    destruct (exec_all (sweep_calls (sweep_of b) cells w) r) as [s| |] eqn:E'; try reflexivity; specialize (B s eq_refl); discriminate.
Qed.
Lemma agreeing_of b w : sides_agree b -> (b_model b = OrtizEtAl \/ same_energy w) -> agreeing (sweep_of b) w.
Proof. intros (O & _) M. split; [intros a c q G; apply O, G|exact M]. Qed.

(** The histories, whatever they were before. *)
Theorem C118_histories : forall b cells old x r, same_cells b cells -> sides_agree b ->
  let b' := visited_as cells b in
  body_store b' r = body_store b r /\ body_update b' old x r = body_update b old x r /\ body_finish b' x r = body_finish b x r.
Proof.
  intros b cells old x r SC SA. cbv zeta. unfold body_store, body_update, body_finish. split; [|split]; apply sweep_as; try exact SC; apply agreeing_of; try exact SA.
  - right. exact Logic.I.
  - destruct SA as (_ & [M|M]); [left; exact M|right]. intros a c q. apply M.
  - right. exact Logic.I.
Qed.

(** ** What is assembled *)
Lemma forallb_perm {A} (f : A -> bool) l l' : Permutation l l' -> forallb f l = forallb f l'.
Proof. intros P. apply Bool.eq_true_iff_eq. rewrite !forallb_forall. split; intros F x I; apply F; [apply (Permutation_in _ (Permutation_sym P)), I|apply (Permutation_in _ P), I]. Qed.
Lemma residual_as b cells old x r k : same_cells b cells -> body_residual (visited_as cells b) old x r k = body_residual b old x r k.
Proof.
  intros (_ & P). apply functional_extensionality. intros d. unfold body_residual, assemble_residual. rewrite !vector_of_flat.
  change (b_cells (visited_as cells b)) with cells. symmetry. apply lsum_perm. apply Permutation_map, P.
Qed.
Lemma finite_as b cells old x r : same_cells b cells -> all_finite (visited_as cells b) old x r = all_finite b old x r.
Proof. intros (_ & P). symmetry. apply (forallb_perm _ _ _ P). Qed.
Lemma norms_as b cells old x r k : same_cells b cells -> body_norms (visited_as cells b) old x r k = body_norms b old x r k.
Proof. intros SC. unfold body_norms. rewrite (residual_as b cells old x r k SC), (finite_as b cells old x r SC). reflexivity. Qed.
Lemma assembled_as pattern pattern' k couple ls ls' ws : same_positions (Ok pattern) (Ok pattern') -> Permutation ls ls' -> assemble_jacobian pattern k couple ls = Ok ws ->
  exists ws', assemble_jacobian pattern' k couple ls' = Ok ws' /\ forall i j, matrix_of ws i j = matrix_of ws' i j.
Proof.
  intros SP P E. destruct (assemble_ok _ _ _ _ _ E) as (A & B).
  assert (PI : forall w, position_in pattern' w = position_in pattern w).
  { intros w. unfold position_in. apply Bool.eq_true_iff_eq. rewrite !existsb_exists. split; intros (p & I & Q); exists p; (split; [apply SP, I|exact Q]). }
  destruct (assemble_ok_rev pattern' k couple ls') as (ws' & E').
  { intros l I. destruct (A l) as (w & E1 & E2); [apply (Permutation_in _ (Permutation_sym P)), I|]. exists w. split; [exact E1|].
    rewrite <- E2. induction w as [|x w IH]; cbn [forallb]; [reflexivity|]. rewrite PI. f_equal.
    clear - PI. induction w as [|x w IH]; cbn [forallb]; [reflexivity|]. rewrite PI, IH. reflexivity. }
  exists ws'. split; [exact E'|]. destruct (assemble_ok _ _ _ _ _ E') as (_ & B'). intros i j. rewrite B, B', !matrix_of_flat. apply lsum_perm, P.
Qed.
Lemma jacobian_as b cells old x r pattern pattern' k : same_cells b cells -> same_positions (Ok pattern) (Ok pattern') ->
  same_entries (body_jacobian b old x r pattern k) (body_jacobian (visited_as cells b) old x r pattern' k).
Proof.
  intros (_ & P) SP. unfold body_jacobian. change (coupled (visited_as cells b)) with (coupled b). change (b_cells (visited_as cells b)) with cells.
  change (newton_system (visited_as cells b) old x r) with (newton_system b old x r).
  assert (Q : Permutation (map (newton_system b old x r) (b_cells b)) (map (newton_system b old x r) cells)) by (apply Permutation_map, P).
  assert (SP' : same_positions (Ok pattern') (Ok pattern)) by (intros p; symmetry; apply SP).
  pose proof (fun ws => assembled_as pattern pattern' k (coupled b) _ _ ws SP Q) as F.
  pose proof (fun ws => assembled_as pattern' pattern k (coupled b) _ _ ws SP' (Permutation_sym Q)) as B.
  destruct (assemble_jacobian pattern k (coupled b) (map (newton_system b old x r) (b_cells b))) as [ws| |].
  - destruct (F ws eq_refl) as (ws' & -> & M). exact M.
  - destruct (assemble_jacobian pattern' k (coupled b) (map (newton_system b old x r) cells)) as [ws'| |]; cbn; auto. destruct (B ws' eq_refl) as (? & E & _). discriminate E.
  - destruct (assemble_jacobian pattern' k (coupled b) (map (newton_system b old x r) cells)) as [ws'| |]; cbn; auto. destruct (B ws' eq_refl) as (? & E & _). discriminate E.
Qed.
Theorem C118_assembled_systems : forall b cells old x r k pattern pattern', same_cells b cells -> same_positions (Ok pattern) (Ok pattern') ->
  let b' := visited_as cells b in
  body_residual b' old x r k = body_residual b old x r k /\
  same_entries (body_jacobian b old x r pattern k) (body_jacobian b' old x r pattern' k) /\
  body_norms b' old x r k = body_norms b old x r k /\
  (sides_agree b -> body_objective b' old r k x = body_objective b old r k x).
Proof.
  intros b cells old x r k pattern pattern' SC SP. cbv zeta. split; [apply residual_as, SC|]. split; [apply jacobian_as; assumption|]. split; [apply norms_as, SC|].
  intros SA. unfold body_objective. rewrite (residual_as b cells _ _ _ _ SC). destruct (C118_histories b cells old x r SC SA) as (_ & H & _). cbv zeta in H. rewrite H. reflexivity.
Qed.
(** The sparsity pattern of the Newton matrix. *)
Theorem C118_sparsity_patterns : forall b cells made, same_cells b cells ->
  let b' := visited_as cells b in
  same_positions (make_sparsity_pattern made (coupled b) (map (body_cell b) (b_cells b))) (make_sparsity_pattern made (coupled b') (map (body_cell b') (b_cells b'))).
Proof.
  intros b cells made (_ & P). cbv zeta. change (coupled (visited_as cells b)) with (coupled b). change (b_cells (visited_as cells b)) with cells.
  change (body_cell (visited_as cells b)) with (body_cell b).
  assert (Q : Permutation (map (body_cell b) (b_cells b)) (map (body_cell b) cells)) by (apply Permutation_map, P).
  pose proof (PropLinear.C76_pattern_needs_matching_elements made (coupled b) (map (body_cell b) (b_cells b))) as N.
  pose proof (PropLinear.C76_pattern_needs_matching_elements made (coupled b) (map (body_cell b) cells)) as N'.
  assert (W : (exists p, make_sparsity_pattern made (coupled b) (map (body_cell b) (b_cells b)) = Ok p) <-> (exists p, make_sparsity_pattern made (coupled b) (map (body_cell b) cells) = Ok p)).
  { rewrite N, N'. split; intros A x I; apply A; [apply (Permutation_in _ (Permutation_sym Q)), I|apply (Permutation_in _ Q), I]. }
  clear N N'. unfold same_positions.
  destruct (make_sparsity_pattern made (coupled b) (map (body_cell b) (b_cells b))) as [l| |] eqn:E;
    destruct (make_sparsity_pattern made (coupled b) (map (body_cell b) cells)) as [l'| |] eqn:E'; try exact Logic.I;
    try (destruct (proj1 W) as (? & Z); [eexists; reflexivity|discriminate Z]); try (destruct (proj2 W) as (? & Z); [eexists; reflexivity|discriminate Z]).
  intros p. rewrite (PropLinear.make_pattern_cells _ _ _ _ E p), (PropLinear.make_pattern_cells _ _ _ _ E' p).
  split; intros (x & I & J); exists x; (split; [|exact J]); [apply (Permutation_in _ Q), I|apply (Permutation_in _ (Permutation_sym Q)), I].
Qed.
(** Solvers which read the entries of the assembled matrix find the same. *)
Theorem C118_linear_solvers : forall b cells pattern pattern' LS solver solver', same_cells b cells -> same_positions (Ok pattern) (Ok pattern') ->
  reads_entries LS -> solves_assembled b pattern LS solver -> solves_assembled (visited_as cells b) pattern' LS solver' ->
  forall s, solver' s = solver s.
Proof.
  intros b cells pattern pattern' LS solver solver' SC SP RE S1 S2 s. rewrite S1, S2, (residual_as b cells _ _ _ _ SC). symmetry. apply RE. apply jacobian_as; assumption.
Qed.

(** ** Time steps *)
Lemma same_env b cells e e' : same_cells b cells -> sides_agree b -> same_otherwise b (visited_as cells b) e e' -> same_solves e e' -> e' = e.
Proof.
  intros SC SA ((W1 & W2 & W3) & W4 & (V1 & V2 & V3) & V4 & A1 & A2 & A3 & A4 & A5 & A6 & A7) (S1 & S2 & S3 & S4).
  pose proof (fun old x r => C118_histories b cells old x r SC SA) as H. cbv zeta in H.
  assert (K1 : e_store e' = e_store e) by (rewrite W1, V1; apply functional_extensionality; intros r; apply (H (fun _ => 0) (fun _ => 0) r)).
  assert (K2 : e_update e' = e_update e) by (rewrite W2, V2; apply functional_extensionality; intros old; apply functional_extensionality; intros x; apply functional_extensionality; intros r; apply (H old x r)).
  assert (K3 : e_finish e' = e_finish e) by (rewrite W4, V4; apply functional_extensionality; intros x; apply functional_extensionality; intros r; apply (H x x r)).
  assert (K4 : e_norms e' = e_norms e).
  { rewrite W3, V3. apply functional_extensionality; intros old; apply functional_extensionality; intros x; apply functional_extensionality; intros r; apply functional_extensionality; intros k. apply norms_as, SC. }
  apply functional_extensionality in S1, S2, S3, S4.
  destruct e as [a1 a2 a3 a4 a5 a6 a7 a8 a9 a10 a11 a12 a13 a14 a15], e' as [b1 b2 b3 b4 b5 b6 b7 b8 b9 b10 b11 b12 b13 b14 b15].
  cbn in K1, K2, K3, K4, A1, A2, A3, A4, A5, A6, A7, S1, S2, S3, S4. subst. reflexivity.
Qed.
Theorem C118_step : forall b cells e e' sp a fuel t oo s, same_cells b cells -> sides_agree b -> same_otherwise b (visited_as cells b) e e' -> same_solves e e' ->
  solve_nonlinear_system e' sp a fuel t oo s = solve_nonlinear_system e sp a fuel t oo s /\
  iterations e' sp a fuel t oo s = iterations e sp a fuel t oo s.
Proof. intros b cells e e' sp a fuel t oo s SC SA SO SS. rewrite (same_env b cells e e' SC SA SO SS). split; reflexivity. Qed.
(** Any number of time steps; each step may visit the cells in an order of its own. *)
Theorem C118_run : forall b sp a fuel es es', sides_agree b ->
  Forall2 (fun x x' => snd x' = snd x /\ same_solves (fst x) (fst x') /\ exists cells, same_cells b cells /\ same_otherwise b (visited_as cells b) (fst x) (fst x')) es es' ->
  forall oo s, run sp a fuel es' oo s = run sp a fuel es oo s.
Proof.
  intros b sp a fuel es es' SA F oo s. replace es' with es; [reflexivity|]. induction F as [|[e t] [e' t'] es es' E F IH]; [reflexivity|]. cbn [fst snd] in E.
  destruct E as (-> & SS & cells & SC & SO). rewrite (same_env b cells e e' SC SA SO SS), IH. reflexivity.
Qed.
