(** * C117: the work objects of the matrix carry nothing from one cell to the next. *)
From Coq Require Import Lia Lra List.
Import ListNotations.
From Verif Require Import Num Tensors ModelElastic ModelMicro ModelCohesive ModelAssembly ModelSweep ModelBody ModelTangent ModelScratch SpecScratch ProofScratch
  ModelScratchMatrix SpecScratchMatrix ProofScratchMatrix.
Open Scope R_scope.

(** Whatever a previous cell left in the arrays, flags and lists, the copier finds the matrix, the
    coupling matrices and the dof indices of this cell and of its neighbours, and no others. *)
Theorem C117_cell (x : matrix_view) (m : memory) :
  matrix_well_formed x -> same_copy (el_nd (mv_element x)) (copied (assemble_local_jacobian x m)) (matrix_contribution x).
Proof. exact (matrix_cell_ok x m). Qed.
(** Any number of objects, handed out in any way to any number of cells in any order. *)
Theorem C117_work_stream (schedule : list (nat * matrix_view)) (objects : nat -> memory) :
  (forall k x, In (k, x) schedule -> matrix_well_formed x) ->
  forall n k x, nth_error schedule n = Some (k, x) ->
  exists out, nth_error (matrix_stream schedule objects) n = Some out /\ same_copy (el_nd (mv_element x)) out (matrix_contribution x).
Proof.
  revert objects. induction schedule as [|[k0 x0] s IH]; intros objects H n k x E; [destruct n; discriminate|].
  cbn [matrix_stream]. destruct n as [|n]; cbn [nth_error] in *.
  - injection E as -> ->. eexists. split; [reflexivity|]. apply C117_cell. apply (H k x). left. reflexivity.
  - apply (IH _ (fun k' x' I => H k' x' (or_intror I)) n k x E).
Qed.
(** So two runs give every cell they have in common the same matrices, in the same order. *)
Lemma same_copy_common n A B C : same_copy n A C -> same_copy n B C -> same_copy n A B.
Proof.
  intros (A1 & A2 & A3 & A4 & A5) (B1 & B2 & B3 & B4 & B5). split; [|split; [|split; [|split]]]; try congruence.
  - intros i j L J. rewrite (A1 i j L J), (B1 i j L J). reflexivity.
  - revert B4. generalize (cd_couplings B). induction A4 as [|a c la lc P _ IH]; intros lb Q; inversion Q as [|b' c' lb' lc' P' Q']; subst; constructor.
    + intros i j L J. rewrite (P i j L J), (P' i j L J). reflexivity.
    + apply IH. exact Q'.
Qed.
Theorem C117_schedules_agree (s s' : list (nat * matrix_view)) (objects objects' : nat -> memory) :
  (forall k x, In (k, x) (s ++ s') -> matrix_well_formed x) ->
  forall n n' k k' x, nth_error s n = Some (k, x) -> nth_error s' n' = Some (k', x) ->
  exists out out', nth_error (matrix_stream s objects) n = Some out /\ nth_error (matrix_stream s' objects') n' = Some out' /\
    same_copy (el_nd (mv_element x)) out out'.
Proof.
  intros H n n' k k' x E E'.
  destruct (C117_work_stream s objects (fun k0 x0 I => H k0 x0 (in_or_app _ _ _ (or_introl I))) n k x E) as (r & R1 & R2).
  destruct (C117_work_stream s' objects' (fun k0 x0 I => H k0 x0 (in_or_app _ _ _ (or_intror I))) n' k' x E') as (r' & R3 & R4).
  exists r, r'. split; [exact R1|]. split; [exact R3|]. exact (same_copy_common _ _ _ _ R2 R4).
Qed.
Lemma same_length {A B} (P : A -> B -> Prop) l l' : Forall2 P l l' -> length l = length l'.
Proof. intros F. induction F; cbn [length]; congruence. Qed.
(** The cells of a body: the copier finds the entries of which the Newton matrix of the other
    properties is assembled. *)
Theorem C117_body (b : body) (old x : vec) (r : rank_data) (schedule : list (nat * (nat * bool))) (objects : nat -> memory) :
  (forall k c boundary, In (k, (c, boundary)) schedule -> matrix_well_formed (matrix_view_of b old x r boundary c) /\ (boundary = false -> gb_neighbours b c = [])) ->
  forall n k c boundary, nth_error schedule n = Some (k, (c, boundary)) ->
  exists out, nth_error (matrix_stream (map (fun kc => (fst kc, matrix_view_of b old x r (snd (snd kc)) (fst (snd kc)))) schedule) objects) n = Some out /\
    same_matrix (el_nd (b_element b c)) (cd_matrix out) (cell_matrix_entry b old x r c) /\
    cd_indices out = b_dofs b c /\ cd_boundary out = boundary /\
    cd_neighbours out = map (b_dofs b) (gb_neighbours b c) /\
    length (cd_couplings out) = length (gb_neighbours b c) /\
    forall l C, nth_error (cd_couplings out) l = Some C -> same_matrix (el_nd (b_element b c)) C (cell_coupling_entry b x r c l).
Proof.
  intros H n k c boundary E. set (V := fun kc : nat * (nat * bool) => (fst kc, matrix_view_of b old x r (snd (snd kc)) (fst (snd kc)))).
  destruct (C117_work_stream (map V schedule) objects) with (n := n) (k := k) (x := matrix_view_of b old x r boundary c) as (out & A & (B1 & B2 & B3 & B4 & B5)).
  - intros k' y I. apply in_map_iff in I. destruct I as ([k0 [c0 b0]] & Q & I). unfold V in Q. cbn [fst snd] in Q. injection Q as <- <-. apply (H k0 c0 b0 I).
  - exact (map_nth_error V n schedule E).
  - exists out. split; [exact A|]. destruct (H k c boundary (nth_error_In _ _ E)) as [W NB].
    assert (FS : (if boundary then mv_faces (matrix_view_of b old x r boundary c) else []) = mv_faces (matrix_view_of b old x r boundary c)).
    { destruct boundary; [reflexivity|]. unfold matrix_view_of. cbn [mv_faces]. rewrite (NB eq_refl). reflexivity. }
    change (el_nd (mv_element (matrix_view_of b old x r boundary c))) with (el_nd (b_element b c)) in B1, B4.
    unfold matrix_contribution in B1, B2, B3, B4, B5. cbn [cd_matrix cd_indices cd_boundary cd_couplings cd_neighbours] in B1, B2, B3, B4, B5.
    change (mv_boundary (matrix_view_of b old x r boundary c)) with boundary in B1, B3, B4, B5. rewrite FS in B1, B4, B5. unfold matrix_view_of in B1, B4, B5. cbn [mv_faces] in B1, B4, B5. rewrite map_map in B4, B5.
    split; [|split; [exact B2|split; [exact B3|split; [exact B5|split]]]].
    + intros i j L J. rewrite (B1 i j L J). clear B1 B4 B5 FS W NB. unfold cell_matrix_entry. cbn [mv_crystal mv_element mv_U mv_Uold mv_resistance].
      generalize (jacobian_bulk (b_crystal b c) (b_element b c) (local_values b x c) (local_values b old c) (resistances_of r c) i j).
      induction (gb_neighbours b c) as [|g l IH]; intros acc; cbn [map fold_left]; [reflexivity|]. apply IH.
    + transitivity (length (map (fun n => jacobian_face_coupling (b_interface b c n) (b_face b c n) (face_history_of r c n) (local_values b x c) (local_values b x n)) (gb_neighbours b c))); [|apply map_length].
      exact (same_length _ _ _ B4).
    + intros l C EC. unfold cell_coupling_entry. cbv zeta. revert l C EC. cbn [mv_U] in B4. clear B1 B5 FS W NB. revert B4. generalize (cd_couplings out).
      induction (gb_neighbours b c) as [|g gs IH]; intros Cs F; inversion F as [|C0 D0 Cs' Ds' P F']; subst; intros l C EC; [destruct l; discriminate|].
      destruct l as [|l]; cbn [nth_error nth] in *; [injection EC as <-; exact P|]. apply (IH Cs' F' l C EC).
Qed.
