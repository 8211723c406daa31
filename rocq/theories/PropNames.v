(** * C119: the names of the cells do not matter. *)
From Coq Require Import ZArith Lra Lia FunctionalExtensionality.
From Verif Require Import Num Tensors SumLemmas ModelElastic ModelMicro ModelCohesive ModelHistory ModelFEField ModelLineSearch ModelActiveSet ModelSolver ModelLoading ModelShear ModelProgram SpecProgram
  ModelLinear SpecLinear ModelAssembly ModelInterface ModelSweep SpecSweep PropSweep ModelStep ModelBody SpecBody ModelTangent SpecMirror ProofTangent SpecNames ProofNames.
Open Scope R_scope.

(** Only the entries of the interfaces of the cell are copied. *)
Lemma copy_ext k couple cell m m' f f' g g' : (forall i j, m' i j = m i j) ->
  (couple = true -> forall n, (n < length (interfaces cell))%nat -> forall i j, f' n i j = f n i j) ->
  copy_jacobian k couple (mk_local_system cell m' f' g') = copy_jacobian k couple (mk_local_system cell m f g).
Proof.
  intros A B. unfold copy_jacobian. cbn [ls_cell ls_matrix ls_coupling].
  replace m' with m by (apply functional_extensionality; intros i; apply functional_extensionality; intros j; symmetry; apply A).
  destruct (cell_is_at_grain_boundary cell), couple; cbn [andb]; try reflexivity. specialize (B eq_refl).
  destruct (interfaces cell) as [|n ns]; [reflexivity|]. f_equal. f_equal.
  apply flat_map_ext_in'. intros [i x] P. cbn [fst snd]. f_equal. apply functional_extensionality. intros u. apply functional_extensionality. intros v. apply B.
  apply in_combine_l in P. apply in_seq in P. exact (proj2 P).
Qed.
(** ** Sweeps *)
Section Sweeps.
Variables to of : nat -> nat.
Hypothesis NM : naming to of.
Lemma of_to c : of (to c) = c. Proof. apply NM. Qed.
Lemma to_inj a c : to a = to c -> a = c.
Proof. intros E. rewrite <- (of_to a), <- (of_to c), E. reflexivity. Qed.
Definition named_call (x : call) : call := match x with CBulk c q o => CBulk (to c) q o | CFace c n q o => CFace (to c) (to n) q o end.
Definition named_fields (x x' : fields) : Prop :=
  (forall c, f_slips x' (to c) = f_slips x c) /\ (forall c, f_old_slips x' (to c) = f_old_slips x c) /\
  (forall c n q, f_displacement x' (to c) (to n) q = f_displacement x c n q) /\ forall c n q, f_energy x' (to c) (to n) q = f_energy x c n q.
Definition named_sweep (w w' : sweep) : Prop :=
  match w, w' with
  | Initialise, Initialise => True | Prepare, Prepare => True | Restore, Restore => True
  | Refresh x, Refresh x' => named_fields x x' | Finish x, Finish x' => named_fields x x' | _, _ => False end.

Lemma key_named a c n m : ModelInterface.key_eqb (make_key (to a) (to c)) (make_key (to n) (to m)) = ModelInterface.key_eqb (make_key a c) (make_key n m).
Proof.
  apply Bool.eq_true_iff_eq. rewrite !key_eqb_true. split; intros E; apply make_key_inj in E.
  - destruct E as [(E1 & E2)|(E1 & E2)]; apply to_inj in E1, E2; subst; [reflexivity|apply make_key_sym].
  - destruct E as [(-> & ->)|(-> & ->)]; [reflexivity|apply make_key_sym].
Qed.
Definition same_result (a b : result rank_data) : Prop :=
  match a, b with Ok h, Ok h' => same_memory to h h' | Throw, Throw => True | UB, UB => True | _, _ => False end.
Lemma exec_named x r r' : same_memory to r r' -> same_result (exec r x) (exec r' (named_call x)).
Proof.
  intros (B & F). destruct x as [c q o|c n q o]; cbn [exec named_call].
  - rewrite B. destruct (ModelHistory.step (r_bulk r c q) o) as [h| |]; cbn [rbind same_result]; auto. split; [|exact F].
    intros c' q'. cbn [set_bulk r_bulk]. replace (Nat.eqb (to c') (to c)) with (Nat.eqb c' c); [rewrite B; reflexivity|].
    apply Bool.eq_true_iff_eq. rewrite !Nat.eqb_eq. split; [intros ->; reflexivity|apply to_inj].
  - rewrite F. destruct (face_step (r_face r (make_key c n) q) o) as [h| |]; cbn [rbind same_result]; auto. split; [exact B|].
    intros a m q'. cbn [set_face r_face]. rewrite key_named, F. reflexivity.
Qed.
Lemma exec_all_named xs : forall r r', same_memory to r r' -> same_result (exec_all xs r) (exec_all (map named_call xs) r').
Proof.
  induction xs as [|x xs IH]; intros r r' M; cbn [map exec_all]; [exact M|]. pose proof (exec_named x r r' M) as E.
  destruct (exec r x) as [h| |], (exec r' (named_call x)) as [h'| |]; cbn in E; try tauto; cbn [rbind]; auto.
Qed.
Variable b : body.
Local Notation b' := (named_body to of b).
Lemma faces_named c : sm_faces (b_mesh b') (to c) = map (option_map to) (sm_faces (b_mesh b) c).
Proof. cbn. rewrite of_to. reflexivity. Qed.
Lemma material_named c : sm_material (b_mesh b') (to c) = sm_material (b_mesh b) c.
Proof. cbn. rewrite of_to. reflexivity. Qed.
Lemma other_grain_named c f : to_other_grain (b_mesh b') (to c) (option_map to f) = to_other_grain (b_mesh b) c f.
Proof. destruct f as [n|]; [|reflexivity]. unfold to_other_grain. cbn [option_map]. rewrite !material_named. reflexivity. Qed.
Lemma visited_named dec c : visited (b_mesh b') dec (to c) = map to (visited (b_mesh b) dec c).
Proof.
  unfold visited. replace (at_grain_boundary (b_mesh b') (to c)) with (at_grain_boundary (b_mesh b) c).
  - destruct (_ && _)%bool; [|reflexivity]. rewrite faces_named. induction (sm_faces (b_mesh b) c) as [|f l IH]; [reflexivity|]. cbn [map flat_map]. rewrite IH, map_app. f_equal.
    rewrite other_grain_named. destruct f as [n|]; cbn [option_map]; [|reflexivity]. destruct (to_other_grain _ _ _); reflexivity.
  - unfold at_grain_boundary. rewrite faces_named. induction (sm_faces (b_mesh b) c) as [|f l IH]; [reflexivity|]. cbn [map existsb]. rewrite IH, other_grain_named. reflexivity.
Qed.
Lemma bulk_call_named w w' c q : named_sweep w w' -> bulk_call (sweep_of b') w' (to c) q = bulk_call (sweep_of b) w c q.
Proof. destruct w, w'; cbn [named_sweep]; try tauto; try reflexivity. intros (A & B & _). cbn [bulk_call]. rewrite A, B. reflexivity. Qed.
Lemma face_call_named w w' c n q : named_sweep w w' -> face_call_of (sweep_of b') w' (to c) (to n) q = face_call_of (sweep_of b) w c n q.
Proof.
  assert (N : w_normal (sweep_of b') (to c) (to n) q = w_normal (sweep_of b) c n q) by (cbn; rewrite !of_to; reflexivity).
  destruct w, w'; cbn [named_sweep]; try tauto; try reflexivity; intros (_ & _ & A & B); cbn [face_call_of].
  - assert (O : opening_from (sweep_of b') x0 (to c) (to n) q = opening_from (sweep_of b) x c n q) by (unfold opening_from; rewrite !A, N; reflexivity).
    rewrite O, B. reflexivity.
  - rewrite !A, N. reflexivity.
Qed.
Lemma cell_calls_named w w' c : named_sweep w w' -> cell_calls (sweep_of b') w' (to c) = map named_call (cell_calls (sweep_of b) w c).
Proof.
  intros NS. unfold cell_calls. change (w_mesh (sweep_of b')) with (b_mesh b'). change (w_mesh (sweep_of b)) with (b_mesh b). change (w_decohesion (sweep_of b')) with (b_decohesion b). change (w_decohesion (sweep_of b)) with (b_decohesion b).
  change (w_nq (sweep_of b')) with (b_nq b). change (w_nfq (sweep_of b')) with (b_nfq b). change (w_nq (sweep_of b)) with (b_nq b). change (w_nfq (sweep_of b)) with (b_nfq b).
  rewrite map_app. f_equal.
  - induction (seq 0 (b_nq b)) as [|q l IH]; [reflexivity|]. cbn [flat_map]. rewrite map_app, IH, (bulk_call_named w w' c q NS), map_map. reflexivity.
  - rewrite visited_named. induction (visited (b_mesh b) (b_decohesion b) c) as [|n l IH]; [reflexivity|]. cbn [map flat_map]. rewrite map_app, IH, map_map. f_equal. apply map_ext. intros q.
    cbn [named_call]. rewrite (face_call_named w w' c n q NS). reflexivity.
Qed.
Lemma sweep_named w w' r r' : named_sweep w w' -> same_memory to r r' -> same_memory to (sweep_all b w r) (sweep_all b' w' r').
Proof.
  intros NS M. unfold sweep_all, run_sweeps. cbn [flat_map]. rewrite !app_nil_r. change (b_cells b') with (map to (b_cells b)).
  assert (E : sweep_calls (sweep_of b') (map to (b_cells b)) w' = map named_call (sweep_calls (sweep_of b) (b_cells b) w)).
  { unfold sweep_calls. induction (b_cells b) as [|c l IH]; [reflexivity|]. cbn [map flat_map]. rewrite map_app, IH, (cell_calls_named w w' c NS). reflexivity. }
  rewrite E. pose proof (exec_all_named (sweep_calls (sweep_of b) (b_cells b) w) r r' M) as Q.
  destruct (exec_all _ r) as [h| |], (exec_all _ r') as [h'| |]; cbn in Q; try tauto; exact M.
Qed.
Lemma local_named x c : local_values b' x (to c) = local_values b x c.
Proof. unfold local_values. cbn [b_dofs named_body]. rewrite of_to. reflexivity. Qed.
Lemma fields_named old x : named_fields (fields_of b old x) (fields_of b' old x).
Proof.
  assert (EL : forall c, b_element b' (to c) = b_element b c) by (intros c; cbn; rewrite of_to; reflexivity).
  assert (FA : forall c n, b_face b' (to c) (to n) = b_face b c n) by (intros c n; cbn; rewrite !of_to; reflexivity).
  unfold named_fields, fields_of. cbn [f_slips f_old_slips f_displacement f_energy].
  split; [|split; [|split]].
  - intros c. rewrite EL, local_named. reflexivity.
  - intros c. rewrite EL, local_named. reflexivity.
  - intros c n q. rewrite FA, local_named. reflexivity.
  - intros c n q. cbn [b_energy named_body]. rewrite !of_to. reflexivity.
Qed.
Lemma gb_named c : gb_neighbours b' (to c) = map to (gb_neighbours b c).
Proof. unfold gb_neighbours. apply visited_named. Qed.

(** ** Assembly *)
Section Cells.
Variables (r r' : rank_data).
Hypothesis M : same_memory to r r'.
Lemma history_named c n : face_history_of r' (to c) (to n) = face_history_of r c n.
Proof. unfold face_history_of. f_equal; apply functional_extensionality; intros q; rewrite (proj2 M); reflexivity. Qed.
Lemma resistances_named c : resistances_of r' (to c) = resistances_of r c.
Proof. apply functional_extensionality. intros q. unfold resistances_of. rewrite (proj1 M). reflexivity. Qed.
Lemma readable_named c n : readable b' r' (to c) (to n) = readable b r c n.
Proof.
  unfold readable. change (b_decohesion b') with (b_decohesion b). f_equal. assert (E : fa_nq (b_face b' (to c) (to n)) = fa_nq (b_face b c n)) by (cbn; rewrite !of_to; reflexivity).
  rewrite E. induction (seq 0 (fa_nq (b_face b c n))) as [|q l IH]; [reflexivity|]. cbn [forallb]. rewrite IH, (proj2 M). reflexivity.
Qed.
Lemma entry_named old x c i : cell_entry b' old x r' (to c) i = cell_entry b old x r c i.
Proof.
  unfold cell_entry. rewrite gb_named, !local_named, resistances_named.
  assert (E1 : forallb (readable b' r' (to c)) (map to (gb_neighbours b c)) = forallb (readable b r c) (gb_neighbours b c)).
  { induction (gb_neighbours b c) as [|n l IH]; [reflexivity|]. cbn [map forallb]. rewrite IH, readable_named. reflexivity. }
  rewrite E1. clear E1. destruct (forallb (readable b r c) (gb_neighbours b c)); [|reflexivity].
  assert (E2 : map (fun n => (b_interface b' (to c) n, b_face b' (to c) n, face_history_of r' (to c) n, local_values b' x n)) (map to (gb_neighbours b c)) =
     map (fun n => (b_interface b c n, b_face b c n, face_history_of r c n, local_values b x n)) (gb_neighbours b c)).
  { rewrite map_map. apply map_ext. intros n. rewrite history_named, local_named. cbn [b_interface b_face named_body]. rewrite !of_to. reflexivity. }
  rewrite E2. cbn [b_crystal b_element b_loads named_body]. rewrite !of_to. reflexivity.
Qed.
Lemma matrix_entry_named old x c i j : cell_matrix_entry b' old x r' (to c) i j = cell_matrix_entry b old x r c i j.
Proof.
  unfold cell_matrix_entry. rewrite gb_named, !local_named, resistances_named. cbn [b_crystal b_element named_body]. rewrite !of_to.
  match goal with |- fold_left _ _ ?z = fold_left _ _ ?z' => generalize z end. induction (gb_neighbours b c) as [|n l IH]; intros z; [reflexivity|]. cbn [map fold_left]. rewrite IH. f_equal. f_equal.
  rewrite history_named, local_named. cbn [b_interface b_face named_body]. rewrite ?of_to. reflexivity.
Qed.
Lemma coupling_named x c k i j : (k < length (gb_neighbours b c))%nat -> cell_coupling_entry b' x r' (to c) k i j = cell_coupling_entry b x r c k i j.
Proof.
  intros K. unfold cell_coupling_entry. cbv zeta. rewrite gb_named. rewrite (nth_indep _ 0%nat (to 0%nat)) by (rewrite map_length; exact K). rewrite map_nth, history_named, !local_named.
  cbn [b_interface b_face named_body]. rewrite !of_to. reflexivity.
Qed.
End Cells.
Lemma cell_named c : body_cell b' (to c) = body_cell b c.
Proof.
  unfold body_cell. rewrite faces_named, !material_named. cbn [b_dofs named_body]. rewrite of_to. f_equal. rewrite map_map. apply map_ext. intros [n|]; [|reflexivity]. cbn [option_map].
  rewrite !material_named, of_to. reflexivity.
Qed.
Section Systems.
Variables (r r' : rank_data).
Hypothesis M : same_memory to r r'.
Lemma copy_named old x k c : copy_jacobian k (coupled b) (newton_system b' old x r' (to c)) = copy_jacobian k (coupled b) (newton_system b old x r c).
Proof.
  unfold newton_system. rewrite cell_named. apply copy_ext.
  - intros i j. rewrite (matrix_entry_named r r' M). reflexivity.
  - intros C n N i j. pose proof (f_equal (@length _) (interfaces_body b c)) as L. rewrite map_length in L.
    rewrite (coupling_named r r' M); [reflexivity|]. unfold gb_neighbours. fold (coupled b). rewrite C, <- L. exact N.
Qed.
Lemma jacobian_named old x pattern k : body_jacobian b' old x r' pattern k = body_jacobian b old x r pattern k.
Proof.
  unfold body_jacobian. change (coupled b') with (coupled b). change (b_cells b') with (map to (b_cells b)).
  induction (b_cells b) as [|c l IH]; [reflexivity|]. cbn [map assemble_jacobian]. rewrite copy_named, IH. reflexivity.
Qed.
Lemma residual_named old x k : body_residual b' old x r' k = body_residual b old x r k.
Proof.
  unfold body_residual. change (b_cells b') with (map to (b_cells b)). f_equal. f_equal. rewrite map_map. apply map_ext. intros c. unfold body_system. rewrite cell_named. f_equal.
  apply functional_extensionality. intros i. rewrite (entry_named r r' M). reflexivity.
Qed.
Lemma finite_named old x : all_finite b' old x r' = all_finite b old x r.
Proof.
  unfold all_finite. change (b_cells b') with (map to (b_cells b)). induction (b_cells b) as [|c l IH]; [reflexivity|]. cbn [map forallb]. rewrite IH. f_equal.
  cbn [b_dofs named_body]. rewrite of_to. induction (seq 0 (length (b_dofs b c))) as [|i s IHs]; [reflexivity|]. cbn [forallb]. rewrite IHs, (entry_named r r' M). reflexivity.
Qed.
Lemma norms_named old x k : body_norms b' old x r' k = body_norms b old x r k.
Proof. unfold body_norms. rewrite residual_named, finite_named. reflexivity. Qed.
End Systems.
End Sweeps.

(** The histories of the renamed body are those of the body. *)
Theorem C119_histories : forall to of b old x r r', naming to of -> same_memory to r r' ->
  let b' := named_body to of b in
  same_memory to (body_store b r) (body_store b' r') /\ same_memory to (body_update b old x r) (body_update b' old x r') /\ same_memory to (body_finish b x r) (body_finish b' x r').
Proof.
  intros to of b old x r r' NM M. cbv zeta. unfold body_store, body_update, body_finish. split; [|split]; apply (sweep_named to of NM b); try exact M; try exact Logic.I; apply fields_named; exact NM.
Qed.
(** What is assembled is the same, entry by entry. *)
Theorem C119_assembled_systems : forall to of b old x r r' k pattern made, naming to of -> same_memory to r r' ->
  let b' := named_body to of b in
  body_residual b' old x r' k = body_residual b old x r k /\ body_jacobian b' old x r' pattern k = body_jacobian b old x r pattern k /\ body_norms b' old x r' k = body_norms b old x r k /\ body_objective b' old r' k x = body_objective b old r k x /\ make_sparsity_pattern made (coupled b') (map (body_cell b') (b_cells b')) = make_sparsity_pattern made (coupled b) (map (body_cell b) (b_cells b)).
Proof.
  intros to of b old x r r' k pattern made NM M. cbv zeta. split; [apply residual_named; assumption|]. split; [apply jacobian_named; assumption|]. split; [apply norms_named; assumption|].
  destruct (C119_histories to of b old x r r' NM M) as (_ & U & _). split.
  - unfold body_objective. rewrite (residual_named to of NM b _ _ U). reflexivity.
  - change (coupled (named_body to of b)) with (coupled b). change (b_cells (named_body to of b)) with (map to (b_cells b)). f_equal. rewrite map_map. apply map_ext. intros c. apply cell_named, NM.
Qed.
(** Solvers called with the assembled systems. *)
Theorem C119_linear_solvers : forall to of b pattern LS solver solver' s s', naming to of -> solves_assembled b pattern LS solver -> solves_assembled (named_body to of b) pattern LS solver' ->
  state_with (same_memory to) s s' -> solver' s' = solver s.
Proof.
  intros to of b pattern LS solver solver' s s' NM S1 S2 (_ & _ & A3 & A4 & _ & _ & A7 & A8 & A9 & _).
  rewrite S1, S2, A3, A4, A7, A8, (residual_named to of NM b _ _ A9), (jacobian_named to of NM b _ _ A9). reflexivity.
Qed.

(** A time step. *)
Theorem C119_step : forall to of b e e' sp a fuel t oo s s', naming to of -> named_problem to of b e e' -> state_with (same_memory to) s s' ->
  outcome_with (state_with (same_memory to)) (solve_nonlinear_system e sp a fuel t oo s) (solve_nonlinear_system e' sp a fuel t oo s') /\ iterations e' sp a fuel t oo s' = iterations e sp a fuel t oo s.
Proof.
  intros to of b e e' sp a fuel t oo s s' NM ((W1 & W2 & W3) & W4 & (V1 & V2 & V3) & V4 & SN) Q.
  pose proof (fun old x r r' => C119_histories to of b old x r r' NM) as K. cbv zeta in K.
  assert (K1 : forall h h', same_memory to h h' -> same_memory to (e_store e h) (e_store e' h')) by (intros h h' M; rewrite W1, V1; apply (K (fun _ => 0) (fun _ => 0) h h' M)).
  assert (K2 : forall old x h h', same_memory to h h' -> same_memory to (e_update e old x h) (e_update e' old x h')) by (intros old x h h' M; rewrite W2, V2; apply (K old x h h' M)).
  assert (K3 : forall x h h', same_memory to h h' -> same_memory to (e_finish e x h) (e_finish e' x h')) by (intros x h h' M; rewrite W4, V4; apply (K x x h h' M)).
  assert (K4 : forall old x h h' k, same_memory to h h' -> e_norms e' old x h' k = e_norms e old x h k) by (intros old x h h' k M; rewrite W3, V3; apply norms_named; assumption).
  split; [apply step_with|apply (log_with (same_memory to))]; assumption.
Qed.
(** Any number of time steps. *)
Theorem C119_run : forall to of b sp a fuel es es', naming to of ->
  Forall2 (fun x x' => named_problem to of b (fst x) (fst x') /\ snd x' = snd x) es es' ->
  forall oo s s', state_with (same_memory to) s s' -> run_with (same_memory to) (run sp a fuel es oo s) (run sp a fuel es' oo s').
Proof.
  intros to of b sp a fuel es es' NM F. induction F as [|[e t] [e' t'] es es' E F IH]; intros oo s s' Q; cbn [run].
  - split; cbn [fst snd]; [split; [reflexivity|exact Q]|constructor].
  - cbn [fst snd] in E. destruct E as (NP & ->). destruct (C119_step to of b e e' sp a fuel t oo s s' NM NP Q) as (P & _).
    destruct (solve_nonlinear_system e _ _ _ _ _ _) as [r| | |], (solve_nonlinear_system e' _ _ _ _ _ _) as [r'| | |]; cbn [outcome_with] in P; try tauto; try (split; cbn; [exact Logic.I|constructor]).
    unfold shift_solutions.
    match goal with |- run_with _ (let '(o, l) := run _ _ _ _ ?x ?u in _) (let '(o', l') := run _ _ _ _ ?y ?v in _) => assert (G : run_with (same_memory to) (run sp a fuel es x u) (run sp a fuel es' y v)) end.
    { assert (P8 : st_old r' = st_old r) by apply P. rewrite P8. apply IH.
      destruct P as (Q1 & Q2 & Q3 & Q4 & Q5 & Q6 & Q7 & Q8 & Q9 & Q10 & Q11 & Q12). unfold state_with. cbn [st_active st_inactive st_internal st_trial st_tmp st_initial st_newton st_old st_hist st_res st_res_tmp st_norms].
      repeat (match goal with |- _ /\ _ => split end); assumption. }
    destruct (run sp a fuel es _ _) as [o l], (run sp a fuel es' _ _) as [o' l']. destruct G as (G1 & G2). split; cbn [fst snd] in *; [exact G1|constructor; assumption].
Qed.
