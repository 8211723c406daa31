(** * The assembled systems and histories of a body whose dofs are numbered differently. *)
From Coq Require Import FunctionalExtensionality Permutation.
From Verif Require Import Num Tensors SumLemmas ModelUtilities ModelElastic ModelMicro ModelCohesive ModelHistory ModelFEField ModelActiveSet ModelSolver ModelLineSearch ModelLoading ModelShear ModelProgram SpecProgram
  ModelLinear ModelAssembly ModelInterface ModelSweep ModelStep ModelBody SpecBody ModelTangent SpecMirror ProofMirror SpecNumbering.
Open Scope R_scope.

(** ** Only the dofs of the shape functions are read *)
Definition agree (n : nat) (U V : nat -> R) : Prop := forall i, (i < n)%nat -> U i = V i.
Lemma strain_ext e U V : agree (el_nd e) U V -> strain_at e U = strain_at e V.
Proof. intros A. apply functional_extensionality; intros q. apply functional_extensionality; intros r. apply functional_extensionality; intros s. apply sumn_ext. intros i Hi. rewrite (A i Hi). reflexivity. Qed.
Lemma slip_ext e U V : agree (el_nd e) U V -> slip_at e U = slip_at e V.
Proof. intros A. apply functional_extensionality; intros q. apply functional_extensionality; intros r. apply sumn_ext. intros i Hi. rewrite (A i Hi). reflexivity. Qed.
Lemma gradient_ext e U V : agree (el_nd e) U V -> slip_gradient_at e U = slip_gradient_at e V.
Proof. intros A. apply functional_extensionality; intros q. apply functional_extensionality; intros r. apply functional_extensionality; intros s. apply sumn_ext. intros i Hi. rewrite (A i Hi). reflexivity. Qed.
Lemma face_displacement_ext nd phi U V : agree nd U V -> face_displacement nd phi U = face_displacement nd phi V.
Proof. intros A. apply functional_extensionality; intros q. apply functional_extensionality; intros r. apply sumn_ext. intros i Hi. rewrite (A i Hi). reflexivity. Qed.
Lemma face_slip_ext nd psi U V : agree nd U V -> face_slip nd psi U = face_slip nd psi V.
Proof. intros A. apply functional_extensionality; intros q. apply functional_extensionality; intros r. apply sumn_ext. intros i Hi. rewrite (A i Hi). reflexivity. Qed.
Lemma bulk_ext c e U V U' V' g i : agree (el_nd e) U V -> agree (el_nd e) U' V' -> residual_bulk c e U U' g i = residual_bulk c e V V' g i.
Proof. intros A B. unfold residual_bulk, stress_at. rewrite (strain_ext e U V A), (slip_ext e U V A), (slip_ext e U' V' B), (gradient_ext e U V A). reflexivity. Qed.
Lemma jacobian_bulk_ext c e U V U' V' g i j : agree (el_nd e) U V -> agree (el_nd e) U' V' -> jacobian_bulk c e U U' g i j = jacobian_bulk c e V V' g i j.
Proof. intros A B. unfold jacobian_bulk. rewrite (slip_ext e U V A), (slip_ext e U' V' B), (gradient_ext e U V A). reflexivity. Qed.
Lemma opening_ext f U V Un Vn : agree (fa_nd f) U V -> agree (fa_nd f) Un Vn -> opening_at f U Un = opening_at f V Vn.
Proof. intros A B. unfold opening_at. rewrite (face_displacement_ext _ _ U V A), (face_displacement_ext _ _ Un Vn B). reflexivity. Qed.
Lemma residual_face_ext p f h U V Un Vn i : agree (fa_nd f) U V -> agree (fa_nd f) Un Vn -> residual_face p f h U Un i = residual_face p f h V Vn i.
Proof.
  intros A B. unfold residual_face. rewrite (opening_ext f U V Un Vn A B), (face_slip_ext _ (fa_psi f) U V A), (face_slip_ext _ (fa_npsi f) Un Vn B). reflexivity.
Qed.
Lemma jacobian_face_ext p f h U V Un Vn i j : agree (fa_nd f) U V -> agree (fa_nd f) Un Vn ->
  jacobian_face_local p f h U Un i j = jacobian_face_local p f h V Vn i j /\ jacobian_face_coupling p f h U Un i j = jacobian_face_coupling p f h V Vn i j.
Proof.
  intros A B. unfold jacobian_face_local, jacobian_face_coupling, traction_form. rewrite (opening_ext f U V Un Vn A B). split; reflexivity.
Qed.

Section Body.
Variables (to of : nat -> nat) (b : body).
Hypothesis RN : renumbering (b_ndofs b) to of.
Hypothesis DC : dofs_complete b.
Let b' := renumber_body to of b.
Local Notation rv := (renumber of).
Local Notation rk := (renumber_lines to of).
Lemma of_to d : of (to d) = d. Proof. apply RN. Qed.
Lemma to_of d : to (of d) = d. Proof. apply RN. Qed.
Lemma old_values (x : vec) : (fun d => renumber of x (to d)) = x.
Proof. apply functional_extensionality. intros d. unfold renumber. rewrite of_to. reflexivity. Qed.
Lemma local_same x c n : (n <= length (b_dofs b c))%nat -> agree n (local_values b' (rv x) c) (local_values b x c).
Proof.
  intros L i Hi. unfold local_values, renumber, b'. cbn [renumber_body b_dofs].
  rewrite (nth_indep _ 0%nat (to 0%nat)) by (rewrite map_length; lia). rewrite map_nth, of_to. reflexivity.
Qed.
Lemma local_cell x c : agree (el_nd (b_element b c)) (local_values b' (rv x) c) (local_values b x c).
Proof. apply local_same, DC. Qed.
Lemma local_side x c n : agree (fa_nd (b_face b c n)) (local_values b' (rv x) c) (local_values b x c).
Proof. apply local_same, (proj2 (DC c)). Qed.
Lemma local_neighbour x c n : agree (fa_nd (b_face b c n)) (local_values b' (rv x) n) (local_values b x n).
Proof. apply local_same, (proj2 (DC c)). Qed.
Lemma cell_entry_numbered old x r c i : cell_entry b' (rv old) (rv x) r c i = cell_entry b old x r c i.
Proof.
  unfold cell_entry. change (gb_neighbours b' c) with (gb_neighbours b c). change (readable b' r c) with (readable b r c).
  destruct (forallb _ _); [|reflexivity]. unfold residual_cell.
  change (b_crystal b' c) with (b_crystal b c). change (b_element b' c) with (b_element b c). change (b_loads b' c) with (b_loads b c).
  change (b_interface b') with (b_interface b). change (b_face b') with (b_face b).
  rewrite (bulk_ext _ _ _ _ _ _ _ _ (local_cell x c) (local_cell old c)). f_equal. rewrite !fold_map.
  generalize (residual_bulk (b_crystal b c) (b_element b c) (local_values b x c) (local_values b old c) (resistances_of r c) i). induction (gb_neighbours b c) as [|n ns IH]; intros a; cbn [fold_left]; [reflexivity|].
  rewrite (residual_face_ext _ _ _ _ _ _ _ _ (local_side x c n) (local_neighbour x c n)). apply IH.
Qed.
Lemma matrix_entry_numbered old x r c i j : cell_matrix_entry b' (rv old) (rv x) r c i j = cell_matrix_entry b old x r c i j.
Proof.
  unfold cell_matrix_entry. change (gb_neighbours b' c) with (gb_neighbours b c). change (b_crystal b' c) with (b_crystal b c). change (b_element b' c) with (b_element b c).
  change (b_interface b') with (b_interface b). change (b_face b') with (b_face b).
  rewrite (jacobian_bulk_ext _ _ _ _ _ _ _ _ _ (local_cell x c) (local_cell old c)).
  generalize (jacobian_bulk (b_crystal b c) (b_element b c) (local_values b x c) (local_values b old c) (resistances_of r c) i j). induction (gb_neighbours b c) as [|n ns IH]; intros a; cbn [fold_left]; [reflexivity|].
  rewrite (proj1 (jacobian_face_ext _ _ _ _ _ _ _ i j (local_side x c n) (local_neighbour x c n))). apply IH.
Qed.
Lemma coupling_entry_numbered x r c k i j : cell_coupling_entry b' (rv x) r c k i j = cell_coupling_entry b x r c k i j.
Proof.
  unfold cell_coupling_entry. change (gb_neighbours b' c) with (gb_neighbours b c). cbv zeta. change (b_interface b') with (b_interface b). change (b_face b') with (b_face b).
  exact (proj2 (jacobian_face_ext _ _ _ _ _ _ _ i j (local_side x c _) (local_neighbour x c _))).
Qed.
(** ** Lines and writes *)
Lemma resolve_numbered k d : resolve (rk k) (to d) = map (fun e => (to (fst e), snd e)) (resolve k d).
Proof. unfold resolve, renumber_lines. rewrite of_to. destruct (k d) as [[es z]|]; reflexivity. Qed.
Lemma constrained_numbered k d : is_constrained (rk k) (to d) = is_constrained k d.
Proof. unfold is_constrained, renumber_lines. rewrite of_to. destruct (k d); reflexivity. Qed.
Lemma enumerate_map {A B} (f : A -> B) l : enumerate (map f l) = map (fun e => (fst e, f (snd e))) (enumerate l).
Proof.
  unfold enumerate. rewrite map_length. generalize 0%nat. induction l as [|a l IH]; intros s; cbn [length seq List.combine map]; [reflexivity|]. rewrite IH. reflexivity.
Qed.
Lemma flat_map_through {A B C} (h : A -> B) (f : B -> list C) l : flat_map f (map h l) = flat_map (fun a => f (h a)) l.
Proof. induction l; cbn; [reflexivity|]. rewrite IHl. reflexivity. Qed.
Lemma map_flat_map {A B C} (h : B -> C) (f : A -> list B) l : map h (flat_map f l) = flat_map (fun a => map h (f a)) l.
Proof. induction l; cbn; [reflexivity|]. rewrite map_app, IHl. reflexivity. Qed.
Lemma flat_map_eq {A B} (f g : A -> list B) l : (forall x, In x l -> f x = g x) -> flat_map f l = flat_map g l.
Proof. induction l as [|a l IH]; intros E; cbn; [reflexivity|]. rewrite (E a (or_introl eq_refl)), IH by (intros; apply E; right; assumption). reflexivity. Qed.
Lemma vector_writes_numbered k dofs v : vector_writes (rk k) (map to dofs) v = map (fun w => (to (fst w), snd w)) (vector_writes k dofs v).
Proof.
  unfold vector_writes. rewrite enumerate_map, flat_map_through, map_flat_map. apply flat_map_eq. intros e _. cbn [fst snd].
  rewrite resolve_numbered, !map_map. reflexivity.
Qed.
Lemma vector_of_numbered ws d : vector_of (map (fun w => (to (fst w), snd w)) ws) d = vector_of ws (of d).
Proof.
  unfold vector_of. induction ws as [|w ws IH]; cbn [map fold_right fst snd]; [reflexivity|]. rewrite IH. f_equal.
  destruct (Nat.eqb_spec (to (fst w)) d) as [D|N]; destruct (Nat.eqb_spec (fst w) (of d)) as [E|E].
  - reflexivity.
  - elim E. rewrite <- D, of_to. reflexivity.
  - elim N. rewrite E. apply to_of.
  - reflexivity.
Qed.
Lemma residual_numbered old x r k : body_residual b' (rv old) (rv x) r (rk k) = rv (body_residual b old x r k).
Proof.
  apply functional_extensionality. intros d. unfold renumber at 3. unfold body_residual. change (b_cells b') with (b_cells b).
  rewrite <- vector_of_numbered. f_equal. unfold assemble_residual. rewrite !flat_map_through, map_flat_map. apply flat_map_eq. intros c _.
  unfold body_system. cbn [ls_cell ls_rhs body_cell mc_dofs]. change (b_dofs b' c) with (map to (b_dofs b c)).
  rewrite <- vector_writes_numbered. f_equal. apply functional_extensionality. intros i. rewrite cell_entry_numbered. reflexivity.
Qed.
(** ** Sums over all dofs *)
Lemma sum_numbered n (f : nat -> R) : (forall d, (to d < n)%nat <-> (d < n)%nat) -> sumn n (fun d => f (of d)) = sumn n f.
Proof.
  intros B. rewrite (sumn_ext n f (fun d => sumn n (fun e => kron d (of e) * f d))).
  - rewrite sumn_swap. apply sumn_ext. intros e He. rewrite (sumn_ext n _ (fun d => kron (of e) d * f d)).
    + rewrite sumn_kron'; [reflexivity|]. apply B. rewrite to_of. exact He.
    + intros d _. unfold kron. rewrite Nat.eqb_sym. reflexivity.
  - intros d Hd. rewrite (sumn_ext n _ (fun e => kron (to d) e * f d)).
    + rewrite (sumn_kron' n (to d) (fun _ => f d)); [reflexivity|]. apply B, Hd.
    + intros e _. unfold kron. destruct (Nat.eqb_spec d (of e)) as [D|N]; destruct (Nat.eqb_spec (to d) e) as [E|E]; try reflexivity.
      * elim E. rewrite D. apply to_of.
      * elim N. rewrite <- E, of_to. reflexivity.
Qed.
Lemma sum_dofs (f : nat -> R) : sumn (b_ndofs b) (fun d => f (of d)) = sumn (b_ndofs b) f.
Proof. apply sum_numbered, RN. Qed.
Lemma finite_numbered old x r : all_finite b' (rv old) (rv x) r = all_finite b old x r.
Proof.
  unfold all_finite. change (b_cells b') with (b_cells b). induction (b_cells b) as [|c l IH]; cbn [forallb]; [reflexivity|]. rewrite IH. f_equal.
  change (b_dofs b' c) with (map to (b_dofs b c)). rewrite map_length. induction (seq 0 (length (b_dofs b c))) as [|i s IHs]; cbn [forallb]; [reflexivity|]. rewrite IHs, cell_entry_numbered. reflexivity.
Qed.
Lemma norms_numbered old x r k : body_norms b' (rv old) (rv x) r (rk k) = body_norms b old x r k.
Proof.
  unfold body_norms. rewrite finite_numbered, residual_numbered. destruct (all_finite b old x r); [|reflexivity]. change (b_ndofs b') with (b_ndofs b).
  set (f := body_residual b old x r k).
  rewrite <- (sum_dofs (fun d => if b_is_slip b d then 0 else f d * f d)), <- (sum_dofs (fun d => if b_is_slip b d then f d * f d else 0)). reflexivity.
Qed.
(** ** The matrix *)
Lemma rectangle_numbered k rows cols M : rectangle_writes (rk k) (map to rows) (map to cols) M = renumber_writes to (rectangle_writes k rows cols M).
Proof.
  unfold rectangle_writes, renumber_writes. rewrite !enumerate_map, flat_map_through, map_flat_map. apply flat_map_eq. intros d _. cbn [fst snd].
  rewrite flat_map_through, map_flat_map. apply flat_map_eq. intros e _. cbn [fst snd]. rewrite !resolve_numbered, flat_map_through, map_flat_map.
  apply flat_map_eq. intros w _. rewrite !map_map. reflexivity.
Qed.
Lemma square_numbered k dofs M : square_writes (rk k) (map to dofs) M = renumber_writes to (square_writes k dofs M).
Proof.
  unfold square_writes, renumber_writes. rewrite map_app. f_equal; [apply rectangle_numbered|].
  rewrite map_length, enumerate_map, flat_map_through, map_flat_map. apply flat_map_eq. intros d _. cbn [fst snd]. rewrite constrained_numbered. destruct (is_constrained k (snd d)); reflexivity.
Qed.
Definition renumber_neighbour (n : neighbour) : neighbour := mk_neighbour (nb_material n) (nb_fe n) (map to (nb_dofs n)).
Lemma interfaces_numbered c : interfaces (body_cell b' c) = map renumber_neighbour (interfaces (body_cell b c)).
Proof.
  unfold interfaces. rewrite map_flat_map. unfold body_cell. cbn [mc_faces mc_material]. change (b_mesh b') with (b_mesh b). rewrite !flat_map_through. apply flat_map_eq.
  intros f _. destruct f as [n|]; cbn [option_map]; [|reflexivity]. cbn [nb_material]. destruct (negb _); reflexivity.
Qed.
Lemma at_boundary_numbered c : cell_is_at_grain_boundary (body_cell b' c) = cell_is_at_grain_boundary (body_cell b c).
Proof.
  unfold cell_is_at_grain_boundary, body_cell. cbn [mc_faces mc_material]. change (b_mesh b') with (b_mesh b). generalize (sm_faces (b_mesh b) c). intros l.
  induction l as [|f l IH]; cbn [map existsb]; [reflexivity|]. rewrite IH. destruct f; reflexivity.
Qed.
Lemma copy_numbered old x r k couple c : copy_jacobian (rk k) couple (newton_system b' (rv old) (rv x) r c) = renumber_matrix to (copy_jacobian k couple (newton_system b old x r c)).
Proof.
  unfold copy_jacobian. unfold newton_system. cbn [ls_cell ls_matrix ls_coupling]. cbv zeta. rewrite at_boundary_numbered, interfaces_numbered.
  change (mc_dofs (body_cell b' c)) with (map to (mc_dofs (body_cell b c))).
  rewrite (functional_extensionality (fun i => fun j => value_of (cell_matrix_entry b' (rv old) (rv x) r c i j)) (fun i => fun j => value_of (cell_matrix_entry b old x r c i j)))
    by (intros i; apply functional_extensionality; intros j; rewrite matrix_entry_numbered; reflexivity).
  rewrite square_numbered. destruct (andb _ _); [|reflexivity].
  destruct (interfaces (body_cell b c)) as [|n ns]; [reflexivity|]. cbn [renumber_matrix].
  change (renumber_neighbour n :: map renumber_neighbour ns) with (map renumber_neighbour (n :: ns)). cbn [map]. f_equal. unfold renumber_writes. rewrite map_app. f_equal.
  change (renumber_neighbour n :: map renumber_neighbour ns) with (map renumber_neighbour (n :: ns)).
  rewrite enumerate_map, flat_map_through, map_flat_map. apply flat_map_eq. intros m _. cbn [fst snd renumber_neighbour nb_dofs].
  rewrite (functional_extensionality (fun i => fun j => value_of (cell_coupling_entry b' (rv x) r c (fst m) i j)) (fun i => fun j => value_of (cell_coupling_entry b x r c (fst m) i j)))
    by (intros i; apply functional_extensionality; intros j; rewrite coupling_entry_numbered; reflexivity).
  apply rectangle_numbered.
Qed.
Lemma position_numbered pattern pattern' w : same_pattern to pattern pattern' -> position_in pattern' (renumber_pair to (fst w), snd w) = position_in pattern w.
Proof.
  intros SP. assert (IN : forall p (w : nat * nat * R), position_in p w = true <-> In (fst w) p).
  { intros p [[i j] v]. unfold position_in. rewrite existsb_exists. cbn [fst snd]. split.
    - intros ([i0 j0] & A & B). cbn [fst snd] in B. apply andb_true_iff in B. destruct B as (B1 & B2). apply Nat.eqb_eq in B1, B2. subst. exact A.
    - intros A. exists (i, j). split; [exact A|]. cbn [fst snd]. rewrite !Nat.eqb_refl. reflexivity. }
  apply Bool.eq_true_iff_eq. rewrite !IN. cbn [fst]. symmetry. apply SP.
Qed.
Lemma jacobian_numbered old x r pattern pattern' k : same_pattern to pattern pattern' ->
  body_jacobian b' (rv old) (rv x) r pattern' (rk k) = renumber_matrix to (body_jacobian b old x r pattern k).
Proof.
  intros SP. unfold body_jacobian. change (b_cells b') with (b_cells b). change (coupled b') with (coupled b).
  induction (b_cells b) as [|c l IH]; cbn [map assemble_jacobian]; [reflexivity|]. rewrite copy_numbered, IH.
  destruct (copy_jacobian k (coupled b) (newton_system b old x r c)) as [ws| |]; cbn [renumber_matrix rbind]; [|reflexivity..].
  replace (forallb (position_in pattern') (renumber_writes to ws)) with (forallb (position_in pattern) ws).
  - destruct (forallb _ _); [|reflexivity]. destruct (assemble_jacobian pattern k (coupled b) (map (newton_system b old x r) l)) as [rest| |]; cbn [renumber_matrix rbind]; [|reflexivity..].
    unfold renumber_writes. rewrite map_app. reflexivity.
  - induction ws as [|w ws IHw]; cbn [renumber_writes map forallb]; [reflexivity|]. rewrite (position_numbered pattern pattern' w SP). f_equal. exact IHw.
Qed.
Lemma matrix_of_numbered ws i j : matrix_of (renumber_writes to ws) i j = matrix_of ws (of i) (of j).
Proof.
  assert (EQ : forall a d, Nat.eqb (to a) d = Nat.eqb a (of d)).
  { intros a d. destruct (Nat.eqb_spec (to a) d) as [D|N]; destruct (Nat.eqb_spec a (of d)) as [E|E]; try reflexivity.
    - elim E. rewrite <- D, of_to. reflexivity.
    - elim N. rewrite E. apply to_of. }
  unfold matrix_of. induction ws as [|w ws IH]; cbn [renumber_writes map fold_right]; [reflexivity|]. cbn [fst snd renumber_pair]. rewrite !EQ. f_equal. exact IH.
Qed.
(** ** Histories *)
Lemma fields_numbered old x : fields_of b' (rv old) (rv x) = fields_of b old x.
Proof.
  unfold fields_of. change (b_ns b') with (b_ns b). change (b_nq b') with (b_nq b). change (b_element b') with (b_element b). change (b_face b') with (b_face b).
  f_equal.
  - apply functional_extensionality. intros c. rewrite (slip_ext _ _ _ (local_cell x c)). reflexivity.
  - apply functional_extensionality. intros c. rewrite (slip_ext _ _ _ (local_cell old c)). reflexivity.
  - apply functional_extensionality. intros c. apply functional_extensionality. intros n. apply functional_extensionality. intros q. rewrite (face_displacement_ext _ _ _ _ (local_side x c n)). reflexivity.
  - unfold b'. cbn [renumber_body b_energy]. rewrite old_values. reflexivity.
Qed.
Lemma update_numbered old x r : body_update b' (rv old) (rv x) r = body_update b old x r.
Proof. unfold body_update. rewrite fields_numbered. reflexivity. Qed.
Lemma finish_numbered x r : body_finish b' (rv x) r = body_finish b x r.
Proof. unfold body_finish. rewrite fields_numbered. reflexivity. Qed.
Lemma store_numbered : body_store b' = body_store b.
Proof. reflexivity. Qed.
Lemma objective_numbered old x r k : body_objective b' (rv old) r (rk k) (rv x) = body_objective b old r k x.
Proof.
  unfold body_objective. rewrite update_numbered, residual_numbered. change (b_ndofs b') with (b_ndofs b). unfold residual_objective, norm, dot.
  set (f := body_residual b old x (body_update b old x r) k). rewrite <- (sum_dofs (fun d => f d * f d)). reflexivity.
Qed.
End Body.
