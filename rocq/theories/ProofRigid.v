(** * Residual, matrix and histories of a body that is moved as a whole. *)
From Coq Require Import ZArith Lra Lia FunctionalExtensionality.
From Verif Require Import Num Tensors SumLemmas ModelUtilities ModelElastic ModelMicro ModelCohesive ModelHistory ModelFEField ModelActiveSet ModelSolver ModelLineSearch ModelLoading ModelShear ModelProgram SpecProgram
  ModelLinear ModelAssembly ModelInterface ModelSweep ModelStep ModelBody SpecBody ModelTangent SpecMirror ProofMirror ProofTangent SpecRigid ProofNumbering.
Open Scope R_scope.

Lemma sum_added n (U W f : nat -> R) : sumn n (fun k => W k * f k) = 0 -> sumn n (fun k => (U k + W k) * f k) = sumn n (fun k => U k * f k).
Proof.
  intros A. replace (sumn n (fun k => (U k + W k) * f k)) with (sumn n (fun k => U k * f k) + sumn n (fun k => W k * f k)); [rewrite A; ring|].
  rewrite <- sumn_plus. apply sumn_ext. intros; ring.
Qed.
Lemma sum_added_any n (U W f : nat -> R) : sumn n (fun k => (U k + W k) * f k) = sumn n (fun k => U k * f k) + sumn n (fun k => W k * f k).
Proof. rewrite <- sumn_plus. apply sumn_ext. intros; ring. Qed.

Section Body.
Variables (b : body) (w : vec).
Hypothesis RG : rigid b w.
Local Notation mv x := (moved w x).
Lemma local_moved x c i : local_values b (mv x) c i = local_values b x c i + local_values b w c i.
Proof. reflexivity. Qed.
Lemma strain_moved x c : In c (b_cells b) -> strain_at (b_element b c) (local_values b (mv x) c) = strain_at (b_element b c) (local_values b x c).
Proof.
  intros Hc. destruct RG as (A & _). destruct (A c Hc) as (A1 & _). apply functional_extensionality; intros q. apply functional_extensionality; intros i. apply functional_extensionality; intros j.
  exact (sum_added _ (local_values b x c) (local_values b w c) _ (A1 q i j)).
Qed.
Lemma slip_moved x c : In c (b_cells b) -> slip_at (b_element b c) (local_values b (mv x) c) = slip_at (b_element b c) (local_values b x c).
Proof.
  intros Hc. destruct RG as (A & _). destruct (A c Hc) as (_ & A1 & _). apply functional_extensionality; intros q. apply functional_extensionality; intros a.
  exact (sum_added _ (local_values b x c) (local_values b w c) _ (A1 q a)).
Qed.
Lemma gradient_moved x c : In c (b_cells b) -> slip_gradient_at (b_element b c) (local_values b (mv x) c) = slip_gradient_at (b_element b c) (local_values b x c).
Proof.
  intros Hc. destruct RG as (A & _). destruct (A c Hc) as (_ & _ & A1). apply functional_extensionality; intros q. apply functional_extensionality; intros a. apply functional_extensionality; intros i.
  exact (sum_added _ (local_values b x c) (local_values b w c) _ (A1 q a i)).
Qed.
Lemma opening_moved x c n : In c (b_cells b) -> In n (gb_neighbours b c) ->
  opening_at (b_face b c n) (local_values b (mv x) c) (local_values b (mv x) n) = opening_at (b_face b c n) (local_values b x c) (local_values b x n).
Proof.
  intros Hc Hn. destruct RG as (_ & A & _). destruct (A c n Hc Hn) as (A1 & _). apply functional_extensionality; intros q. apply functional_extensionality; intros i.
  unfold opening_at, vsub, face_displacement.
  rewrite (sumn_ext _ (fun k => local_values b (mv x) n k * fa_nphi (b_face b c n) k q i) (fun k => (local_values b x n k + local_values b w n k) * fa_nphi (b_face b c n) k q i)) by reflexivity.
  rewrite (sumn_ext _ (fun k => local_values b (mv x) c k * fa_phi (b_face b c n) k q i) (fun k => (local_values b x c k + local_values b w c k) * fa_phi (b_face b c n) k q i)) by reflexivity.
  rewrite !sum_added_any, A1. ring.
Qed.
Lemma face_slips_moved x c n : In c (b_cells b) -> In n (gb_neighbours b c) ->
  face_slip (fa_nd (b_face b c n)) (fa_psi (b_face b c n)) (local_values b (mv x) c) = face_slip (fa_nd (b_face b c n)) (fa_psi (b_face b c n)) (local_values b x c) /\
  face_slip (fa_nd (b_face b c n)) (fa_npsi (b_face b c n)) (local_values b (mv x) n) = face_slip (fa_nd (b_face b c n)) (fa_npsi (b_face b c n)) (local_values b x n).
Proof.
  intros Hc Hn. destruct RG as (_ & A & _). destruct (A c n Hc Hn) as (_ & _ & A3 & A4). split; apply functional_extensionality; intros q; apply functional_extensionality; intros a.
  - exact (sum_added _ (local_values b x c) (local_values b w c) _ (A3 q a)).
  - exact (sum_added _ (local_values b x n) (local_values b w n) _ (A4 q a)).
Qed.
Lemma fold_same {A B} (f g : A -> B -> A) l : (forall a x, In x l -> f a x = g a x) -> forall a, fold_left f l a = fold_left g l a.
Proof. induction l as [|x l IH]; intros E a; cbn [fold_left]; [reflexivity|]. rewrite E by (left; reflexivity). apply IH. intros; apply E. right; assumption. Qed.
Lemma cell_entry_moved old x r c i : In c (b_cells b) -> cell_entry b (mv old) (mv x) r c i = cell_entry b old x r c i.
Proof.
  intros Hc. unfold cell_entry. destruct (forallb _ _); [|reflexivity]. unfold residual_cell. rewrite !fold_map.
  assert (B : residual_bulk (b_crystal b c) (b_element b c) (local_values b (mv x) c) (local_values b (mv old) c) (resistances_of r c) i =
    residual_bulk (b_crystal b c) (b_element b c) (local_values b x c) (local_values b old c) (resistances_of r c) i).
  { unfold residual_bulk, stress_at. rewrite (strain_moved x c Hc), (slip_moved x c Hc), (slip_moved old c Hc), (gradient_moved x c Hc). reflexivity. }
  rewrite B. f_equal. apply fold_same. intros a n Hn. f_equal.
  unfold residual_face. destruct (face_slips_moved x c n Hc Hn) as (F1 & F2). rewrite (opening_moved x c n Hc Hn), F1, F2. reflexivity.
Qed.
Lemma matrix_entry_moved old x r c i j : In c (b_cells b) -> cell_matrix_entry b (mv old) (mv x) r c i j = cell_matrix_entry b old x r c i j.
Proof.
  intros Hc. unfold cell_matrix_entry.
  assert (B : jacobian_bulk (b_crystal b c) (b_element b c) (local_values b (mv x) c) (local_values b (mv old) c) (resistances_of r c) i j =
    jacobian_bulk (b_crystal b c) (b_element b c) (local_values b x c) (local_values b old c) (resistances_of r c) i j).
  { unfold jacobian_bulk. rewrite (slip_moved x c Hc), (slip_moved old c Hc), (gradient_moved x c Hc). reflexivity. }
  rewrite B. apply fold_same. intros a n Hn. unfold jacobian_face_local, traction_form. rewrite (opening_moved x c n Hc Hn). reflexivity.
Qed.
Lemma coupling_entry_moved x r c k i j : In c (b_cells b) -> (k < length (gb_neighbours b c))%nat -> cell_coupling_entry b (mv x) r c k i j = cell_coupling_entry b x r c k i j.
Proof.
  intros Hc Hk. unfold cell_coupling_entry. unfold jacobian_face_coupling, traction_form. rewrite (opening_moved x c _ Hc (nth_In _ 0%nat Hk)). reflexivity.
Qed.
Lemma residual_moved old x r k : body_residual b (mv old) (mv x) r k = body_residual b old x r k.
Proof.
  unfold body_residual. f_equal. unfold assemble_residual. rewrite !flat_map_through. apply flat_map_eq. intros c Hc.
  unfold body_system. cbn [ls_cell ls_rhs]. f_equal. apply functional_extensionality. intros i. rewrite (cell_entry_moved old x r c i Hc). reflexivity.
Qed.
Lemma finite_moved old x r : all_finite b (mv old) (mv x) r = all_finite b old x r.
Proof.
  unfold all_finite. assert (G : forall l, incl l (b_cells b) -> forallb (fun c => forallb (fun i => match cell_entry b (mv old) (mv x) r c i with Fin _ => true | _ => false end) (seq 0 (length (b_dofs b c)))) l =
    forallb (fun c => forallb (fun i => match cell_entry b old x r c i with Fin _ => true | _ => false end) (seq 0 (length (b_dofs b c)))) l).
  { induction l as [|c l IH]; intros I; cbn [forallb]; [reflexivity|]. rewrite IH by (intros y Y; apply I; right; exact Y). f_equal.
    induction (seq 0 (length (b_dofs b c))) as [|i s IHs]; cbn [forallb]; [reflexivity|]. rewrite IHs, cell_entry_moved by (apply I; left; reflexivity). reflexivity. }
  apply G. apply incl_refl.
Qed.
Lemma norms_moved old x r k : body_norms b (mv old) (mv x) r k = body_norms b old x r k.
Proof. unfold body_norms. rewrite finite_moved, residual_moved. reflexivity. Qed.
Lemma jacobian_moved old x r pattern k : body_jacobian b (mv old) (mv x) r pattern k = body_jacobian b old x r pattern k.
Proof.
  unfold body_jacobian.
  assert (G : forall l, incl l (b_cells b) -> assemble_jacobian pattern k (coupled b) (map (newton_system b (mv old) (mv x) r) l) = assemble_jacobian pattern k (coupled b) (map (newton_system b old x r) l)).
  { induction l as [|c l IH]; intros I; cbn [map assemble_jacobian]; [reflexivity|]. rewrite IH by (intros y Hy; apply I; right; exact Hy).
    assert (Hc : In c (b_cells b)) by (apply I; left; reflexivity).
    assert (E : copy_jacobian k (coupled b) (newton_system b (mv old) (mv x) r c) = copy_jacobian k (coupled b) (newton_system b old x r c)); [|rewrite E; reflexivity].
    unfold copy_jacobian, newton_system. cbn [ls_cell ls_matrix ls_coupling].
    replace (fun i j => value_of (cell_matrix_entry b (mv old) (mv x) r c i j)) with (fun i j => value_of (cell_matrix_entry b old x r c i j))
      by (apply functional_extensionality; intros i; apply functional_extensionality; intros j; rewrite matrix_entry_moved by exact Hc; reflexivity).
    destruct (coupled b) eqn:K; [|rewrite Bool.andb_false_r; reflexivity]. rewrite Bool.andb_true_r. destruct (cell_is_at_grain_boundary _); [|reflexivity].
    destruct (interfaces (body_cell b c)) as [|n ns] eqn:EI; [reflexivity|]. f_equal. f_equal.
    apply flat_map_eq. intros m Hm. f_equal. apply functional_extensionality; intros i; apply functional_extensionality; intros j. f_equal. apply coupling_entry_moved; [exact Hc|].
    unfold gb_neighbours. fold (coupled b). rewrite K. rewrite interfaces_body in EI. apply (f_equal (@length _)) in EI. rewrite map_length in EI. rewrite EI.
    unfold enumerate in Hm. destruct m as [m0 m1]. apply in_combine_l in Hm. apply in_seq in Hm. cbn [fst]. lia. }
  apply G. apply incl_refl.
Qed.
(** ** Histories *)
Definition same_effect (x y : call) : Prop := forall r, exec r x = exec r y.
Lemma exec_same xs ys : Forall2 same_effect xs ys -> forall r, exec_all xs r = exec_all ys r.
Proof. intros F. induction F as [|x y xs ys E F IH]; intros r; cbn [exec_all]; [reflexivity|]. rewrite E. destruct (exec r y); cbn [rbind]; auto. Qed.
Lemma calls_same {A} (f g : A -> list call) l : (forall a, In a l -> Forall2 same_effect (f a) (g a)) -> Forall2 same_effect (flat_map f l) (flat_map g l).
Proof.
  induction l as [|a l IH]; intros E; cbn [flat_map]; [constructor|]. apply Forall2_app; [apply E; left; reflexivity|]. apply IH. intros y Y. apply E. right. exact Y.
Qed.
Lemma map_same {A} (f g : A -> call) l : (forall a, In a l -> same_effect (f a) (g a)) -> Forall2 same_effect (map f l) (map g l).
Proof.
  induction l as [|a l IH]; intros E; cbn [map]; [constructor|]. constructor; [apply E; left; reflexivity|]. apply IH. intros y Y. apply E. right. exact Y.
Qed.
Lemma visited_neighbours c n : In n (visited (b_mesh b) (b_decohesion b) c) -> In n (gb_neighbours b c).
Proof.
  unfold gb_neighbours, visited. destruct (b_decohesion b); [cbn [orb]; auto|]. rewrite Bool.andb_false_r. intros [].
Qed.
Lemma displacement_moved old x c n q i : In c (b_cells b) -> In n (gb_neighbours b c) ->
  exists z, f_displacement (fields_of b (mv old) (mv x)) c n q i = f_displacement (fields_of b old x) c n q i + z /\
    f_displacement (fields_of b (mv old) (mv x)) n c q i = f_displacement (fields_of b old x) n c q i + z.
Proof.
  intros Hc Hn. destruct RG as (_ & A & _). destruct (A c n Hc Hn) as (_ & A2 & _).
  exists (sumn (fa_nd (b_face b c n)) (fun k => local_values b w c k * fa_phi (b_face b c n) k q i)). cbn [fields_of f_displacement]. unfold face_displacement. split.
  - rewrite <- sum_added_any. reflexivity.
  - rewrite <- (A2 q i), <- sum_added_any. reflexivity.
Qed.
Lemma opening_from_moved old x c n q : In c (b_cells b) -> In n (gb_neighbours b c) ->
  opening_from (sweep_of b) (fields_of b (mv old) (mv x)) c n q = opening_from (sweep_of b) (fields_of b old x) c n q.
Proof.
  intros Hc Hn. unfold opening_from. f_equal. apply functional_extensionality. intros i. unfold vsub.
  destruct (displacement_moved old x c n q i Hc Hn) as (z & -> & ->). ring.
Qed.
Lemma slips_moved old x c : In c (b_cells b) -> f_slips (fields_of b (mv old) (mv x)) c = f_slips (fields_of b old x) c /\ f_old_slips (fields_of b (mv old) (mv x)) c = f_old_slips (fields_of b old x) c.
Proof. intros Hc. cbn [fields_of f_slips f_old_slips]. rewrite (slip_moved x c Hc), (slip_moved old c Hc). split; reflexivity. Qed.
Lemma energy_moved old x : f_energy (fields_of b (mv old) (mv x)) = f_energy (fields_of b old x).
Proof. cbn [fields_of f_energy]. apply RG. Qed.
Lemma update_moved old x r : body_update b (mv old) (mv x) r = body_update b old x r.
Proof.
  unfold body_update, sweep_all, run_sweeps. cbn [flat_map]. rewrite !app_nil_r.
  rewrite (exec_same (sweep_calls (sweep_of b) (b_cells b) (Refresh (fields_of b (mv old) (mv x)))) (sweep_calls (sweep_of b) (b_cells b) (Refresh (fields_of b old x)))); [reflexivity|].
  apply calls_same. intros c Hc. apply Forall2_app.
  - apply calls_same. intros q _. destruct (slips_moved old x c Hc) as (E1 & E2).
    replace (bulk_call (sweep_of b) (Refresh (fields_of b (mv old) (mv x))) c q) with (bulk_call (sweep_of b) (Refresh (fields_of b old x)) c q) by (cbn [bulk_call]; rewrite E1, E2; reflexivity).
    apply map_same. intros a _ r0. reflexivity.
  - apply calls_same. intros n Hn. apply map_same. intros q _. cbn [face_call_of]. rewrite (opening_from_moved old x c n q Hc (visited_neighbours c n Hn)), energy_moved. intros r0. reflexivity.
Qed.
Lemma stored_difference r d u v u' v' n : vsub v u = vsub v' u' -> stored_opening r d u v n = stored_opening r d u' v' n.
Proof. intros E. unfold stored_opening. rewrite E. reflexivity. Qed.
Lemma finish_moved x r : body_finish b (mv x) r = body_finish b x r.
Proof.
  unfold body_finish, sweep_all, run_sweeps. cbn [flat_map]. rewrite !app_nil_r.
  rewrite (exec_same (sweep_calls (sweep_of b) (b_cells b) (Finish (fields_of b (mv x) (mv x)))) (sweep_calls (sweep_of b) (b_cells b) (Finish (fields_of b x x)))); [reflexivity|].
  apply calls_same. intros c Hc. apply Forall2_app.
  - apply calls_same. intros q _. cbn [bulk_call map]. constructor.
  - apply calls_same. intros n Hn. apply map_same. intros q _. cbn [face_call_of]. intros r0. unfold exec. f_equal. unfold face_step, istep. f_equal. f_equal. apply stored_difference.
    apply functional_extensionality. intros i. unfold vsub. destruct (displacement_moved x x c n q i Hc (visited_neighbours c n Hn)) as (z & -> & ->). ring.
Qed.
Lemma objective_moved old x r k : body_objective b (mv old) r k (mv x) = body_objective b old r k x.
Proof. unfold body_objective. rewrite update_moved, residual_moved. reflexivity. Qed.
End Body.
