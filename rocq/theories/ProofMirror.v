(** * Reversed values: laws, histories, residual and matrix of a body. *)
From Coquelicot Require Import Coquelicot.
From Coq Require Import ZArith Lra Lia FunctionalExtensionality.
From Verif Require Import Num Tensors SumLemmas ModelUtilities ModelElastic ModelMicro ModelCohesive ModelHistory ModelFEField ModelActiveSet ModelSolver ModelLoading ModelShear ModelProgram SpecProgram
  ModelLinear ModelAssembly ModelInterface ModelSweep ModelStep ModelBody SpecBody ModelTangent SpecMirror ProofUtilities ProofMicro ProofTangent.
Open Scope R_scope.

(** ** Exceptional values *)
Lemma xsign_neg x : xsign (- x) = xneg (xsign x).
Proof.
  unfold xsign. destruct (Rltb 0 (- x)) eqn:A; destruct (Rltb (- x) 0) eqn:B; destruct (Rltb 0 x) eqn:C; destruct (Rltb x 0) eqn:D; cbn; try reflexivity;
    rewrite ?Rltb_true, ?Rltb_false in *; exfalso; lra.
Qed.
Lemma xneg_neg x : xneg (xneg x) = x.
Proof. destruct x; cbn; auto. f_equal. ring. Qed.
Lemma xadd_neg a b : xadd (xneg a) (xneg b) = xneg (xadd a b).
Proof. destruct a, b; cbn; auto. f_equal. ring. Qed.
Lemma xsub_neg a b : xsub (xneg a) (xneg b) = xneg (xsub a b).
Proof. unfold xsub. apply xadd_neg. Qed.
Lemma xmul_neg_r a b : xmul a (xneg b) = xneg (xmul a b).
Proof. destruct a, b; cbn; rewrite ?xsign_neg, ?xneg_neg; auto; f_equal; ring. Qed.
Lemma xmul_neg_l a b : xmul (xneg a) b = xneg (xmul a b).
Proof. destruct a, b; cbn; rewrite ?xsign_neg, ?xneg_neg; auto; f_equal; ring. Qed.
Lemma xsumn_neg n f : xsumn n (fun q => xneg (f q)) = xneg (xsumn n f).
Proof. induction n as [|n IH]; cbn; [f_equal; ring|]. rewrite IH. apply xadd_neg. Qed.
Lemma xsumn_same n f g : (forall q, (q < n)%nat -> f q = g q) -> xsumn n f = xsumn n g.
Proof. induction n as [|n IH]; cbn; intros A; [reflexivity|]. rewrite IH by (intros; apply A; lia). rewrite A by lia. reflexivity. Qed.
Lemma fin_neg x : Fin (- x) = xneg (Fin x). Proof. reflexivity. Qed.

(** ** Fields *)
Definition neg (U : nat -> R) : nat -> R := fun i => - U i.
Lemma sumn_neg n f : sumn n (fun i => - f i) = - sumn n f.
Proof. apply sumn_opp. Qed.
Lemma strain_neg e U q i j : strain_at e (neg U) q i j = - strain_at e U q i j.
Proof. unfold strain_at, neg. rewrite <- sumn_opp. apply sumn_ext. intros; ring. Qed.
Lemma slip_neg e U q a : slip_at e (neg U) q a = - slip_at e U q a.
Proof. unfold slip_at, neg. rewrite <- sumn_opp. apply sumn_ext. intros; ring. Qed.
Lemma gradient_neg e U q a i : slip_gradient_at e (neg U) q a i = - slip_gradient_at e U q a i.
Proof. unfold slip_gradient_at, neg. rewrite <- sumn_opp. apply sumn_ext. intros; ring. Qed.
Lemma elastic_strain_neg N P eps eps' gamma gamma' ns i j : eps' i j = - eps i j -> (forall a, gamma' a = - gamma a) ->
  elastic_strain N P eps' gamma' ns i j = - elastic_strain N P eps gamma ns i j.
Proof. intros A B. induction ns as [|ns IH]; cbn; [exact A|]. unfold msub, mscal. rewrite IH, B. ring. Qed.
Lemma c4_neg d C A A' i j : (forall k l, A' k l = - A k l) -> c4 d C A' i j = - c4 d C A i j.
Proof. intros E. unfold c4. rewrite <- sumn_opp. apply sumn_ext. intros k _. rewrite <- sumn_opp. apply sumn_ext. intros l _. rewrite E. ring. Qed.
Lemma ddot_neg_r d A B B' : (forall k l, B' k l = - B k l) -> ddot d A B' = - ddot d A B.
Proof. intros E. unfold ddot. rewrite <- sumn_opp. apply sumn_ext. intros k _. rewrite <- sumn_opp. apply sumn_ext. intros l _. rewrite E. ring. Qed.
Lemma ddot_neg_l d A A' B : (forall k l, A' k l = - A k l) -> ddot d A' B = - ddot d A B.
Proof. intros E. unfold ddot. rewrite <- sumn_opp. apply sumn_ext. intros k _. rewrite <- sumn_opp. apply sumn_ext. intros l _. rewrite E. ring. Qed.
Lemma dot_neg_r d a b b' : (forall k, b' k = - b k) -> dot d a b' = - dot d a b.
Proof. intros E. unfold dot. rewrite <- sumn_opp. apply sumn_ext. intros k _. rewrite E. ring. Qed.
Lemma stress_neg c e U q i j : stress_at (reverse_crystal c) e (neg U) q i j = - stress_at c e U q i j.
Proof.
  unfold stress_at. cbn [reverse_crystal cr_dim cr_ns cr_C cr_macro cr_N cr_P]. apply c4_neg. intros k l. unfold madd.
  rewrite (elastic_strain_neg _ _ (strain_at e U q) _ (slip_at e U q) _ _ k l (strain_neg e U q k l) (slip_neg e U q)). ring.
Qed.
(** ** Laws *)
Lemma rate_neg x y dt : (- x - - y) / dt = - ((x - y) / dt).
Proof. unfold Rdiv. ring. Qed.
Lemma sgn_neg x : sl_sgn (- x) = - sl_sgn x.
Proof.
  unfold sl_sgn. destruct (Rltb 0 (- x)) eqn:A; destruct (Rltb (- x) 0) eqn:B; destruct (Rltb 0 x) eqn:C; destruct (Rltb x 0) eqn:D; cbn; try lra;
    rewrite ?Rltb_true, ?Rltb_false in *; exfalso; lra.
Qed.
Lemma reg_value_neg l x : reg_value l (- x) = - reg_value l x.
Proof. rewrite !reg_value_sigmoid. apply sigmoid_odd. Qed.
Lemma reg_derivative_neg l x : reg_derivative l (- x) = reg_derivative l x.
Proof.
  unfold reg_derivative. destruct (sl_reg l).
  - replace (PI * PI * - x * - x) with (PI * PI * x * x) by ring. reflexivity.
  - replace (- x * - x) with (x * x) by ring. reflexivity.
  - replace (PI / 2 * - x / sl_k l) with (- (PI / 2 * x / sl_k l)) by (unfold Rdiv; ring). rewrite cosh_even. reflexivity.
  - replace (- x / sl_k l) with (- (x / sl_k l)) by (unfold Rdiv; ring). rewrite cosh_even. reflexivity.
  - replace (- PI * - x * - x) with (- PI * x * x) by ring. reflexivity.
Qed.
Lemma microstress_neg l x y g dt : scalar_microstress l (- x) (- y) g dt = - scalar_microstress l x y g dt.
Proof. unfold scalar_microstress. rewrite rate_neg, sgn_neg, reg_value_neg. destruct (sl_rate_independent l); ring. Qed.
Lemma scalar_jacobian_neg l gam old g dt a b : scalar_jacobian l (fun c => - gam c) (fun c => - old c) g dt a b = scalar_jacobian l gam old g dt a b.
Proof. unfold scalar_jacobian. rewrite !rate_neg, !sgn_neg, !reg_value_neg, reg_derivative_neg. destruct (sl_perfect l), (sl_rate_independent l), (Nat.eqb a b); cbn; ring. Qed.
Lemma scalar_jacobian_same l gam gam' old old' g dt a b : (forall c, gam c = gam' c) -> (forall c, old c = old' c) ->
  scalar_jacobian l gam old g dt a b = scalar_jacobian l gam' old' g dt a b.
Proof. intros A B. unfold scalar_jacobian. rewrite !A, !B. reflexivity. Qed.
Lemma vl_tensor_neg p d dir ort grad grad' i j : (forall k, grad' k = - grad k) -> vl_tensor p d dir ort grad' i j = vl_tensor p d dir ort grad i j.
Proof.
  intros E. unfold vl_tensor. rewrite (dot_neg_r d (vneg dir) grad grad' E), (dot_neg_r d ort grad grad' E), !Rabs_Ropp. reflexivity.
Qed.
Lemma vectorial_neg fac p d dir ort grad grad' i : (forall k, grad' k = - grad k) ->
  vectorial_microstress fac p d dir ort grad' i = xneg (vectorial_microstress fac p d dir ort grad i).
Proof.
  intros E. unfold vectorial_microstress. rewrite <- xsumn_neg. apply xsumn_same. intros j _.
  rewrite (vl_tensor_neg p d dir ort grad grad' i j E), E, fin_neg. apply xmul_neg_r.
Qed.
Lemma xdot_neg d a b b' : (forall k, b' k = xneg (b k)) -> xdot d a b' = xneg (xdot d a b).
Proof. intros E. unfold xdot. rewrite <- xsumn_neg. apply xsumn_same. intros j _. rewrite E. apply xmul_neg_r. Qed.
Lemma xdot_same d a b b' : (forall k, b' k = b k) -> xdot d a b' = xdot d a b.
Proof. intros E. unfold xdot. apply xsumn_same. intros j _. rewrite E. reflexivity. Qed.
(** ** Cells *)
Lemma bulk_neg c e U Uold g i : residual_bulk (reverse_crystal c) e (neg U) (neg Uold) g i = xneg (residual_bulk c e U Uold g i).
Proof.
  unfold residual_bulk. rewrite <- xsumn_neg. apply xsumn_same. intros q _. f_equal. change (cr_dim (reverse_crystal c)) with (cr_dim c).
  destruct (Nat.ltb (el_comp e i) (cr_dim c)).
  - change (balance_factor (reverse_crystal c)) with (balance_factor c).
    rewrite (ddot_neg_r _ _ (stress_at c e U q) _ (stress_neg c e U q)).
    rewrite (dot_neg_r _ _ (cr_supply c q)) by reflexivity. cbn [xneg]. f_equal. ring.
  - cbv zeta. cbn [reverse_crystal cr_N cr_factor cr_p cr_dir cr_ort cr_P cr_law cr_dt].
    set (a := (el_comp e i - cr_dim c)%nat).
    rewrite (xdot_neg _ _ _ _ (fun k => vectorial_neg (cr_factor c) (cr_p c) (cr_dim c) (cr_dir c a) (cr_ort c a) _ _ k (gradient_neg e U q a))).
    rewrite !slip_neg, microstress_neg. unfold resolved_shear_stress. rewrite (ddot_neg_l _ (stress_at c e U q) _ _ (stress_neg c e U q)).
    rewrite xmul_neg_r. 
    match goal with |- xmul (xsub _ (Fin ?A)) _ = xneg (xmul (xsub _ (Fin ?B)) _) => replace (Fin A) with (xneg (Fin B)) by (cbn [xneg]; f_equal; ring) end.
    rewrite xsub_neg, xmul_neg_l. reflexivity.
Qed.
Lemma jacobian_bulk_neg c e U Uold g i j : jacobian_bulk (reverse_crystal c) e (neg U) (neg Uold) g i j = jacobian_bulk c e U Uold g i j.
Proof.
  unfold jacobian_bulk. apply xsumn_same. intros q _. cbv zeta. change (cr_dim (reverse_crystal c)) with (cr_dim c).
  change (balance_factor (reverse_crystal c)) with (balance_factor c).
  cbn [reverse_crystal cr_N cr_factor cr_p cr_dir cr_ort cr_P cr_law cr_dt cr_C].
  destruct (Nat.ltb (el_comp e i) (cr_dim c)), (Nat.ltb (el_comp e j) (cr_dim c)); try reflexivity.
  set (a := (el_comp e i - cr_dim c)%nat). set (b := (el_comp e j - cr_dim c)%nat).
  rewrite (scalar_jacobian_same _ (slip_at e (neg U) q) (fun c => - slip_at e U q c) (slip_at e (neg Uold) q) (fun c => - slip_at e Uold q c) _ _ a b (slip_neg e U q) (slip_neg e Uold q)).
  rewrite scalar_jacobian_neg. f_equal. destruct (Nat.eqb a b); [|reflexivity]. f_equal. f_equal. apply xdot_same. intros k. apply xsumn_same. intros s _. f_equal.
  unfold vectorial_jacobian. rewrite (vl_tensor_neg _ _ _ _ _ _ _ _ (gradient_neg e U q a)). reflexivity.
Qed.
Lemma face_slip_neg nd psi U q a : face_slip nd psi (neg U) q a = - face_slip nd psi U q a.
Proof. unfold face_slip, neg. rewrite <- sumn_opp. apply sumn_ext. intros; ring. Qed.
Lemma residual_face_neg p f h U Un i : if_decohesion p = false -> residual_face p f h (neg U) (neg Un) i = xneg (residual_face p f h U Un i).
Proof.
  intros D. unfold residual_face. rewrite <- xsumn_neg. apply xsumn_same. intros q _. cbv zeta. rewrite D.
  destruct (Nat.ltb _ _); [cbn; f_equal; ring|]. destruct (if_microtraction p); [|cbn; f_equal; ring].
  rewrite <- xmul_neg_r. f_equal. cbn [xneg]. f_equal. unfold microtraction.
  rewrite (sumn_ext _ _ (fun b => - (fst (if_moduli p q) (fa_comp f i - if_dim p)%nat b * face_slip (fa_nd f) (fa_psi f) U q b - snd (if_moduli p q) (fa_comp f i - if_dim p)%nat b * face_slip (fa_nd f) (fa_npsi f) Un q b))).
  - rewrite sumn_opp. ring.
  - intros b _. rewrite !face_slip_neg. ring.
Qed.
Lemma jacobian_face_neg p f h U Un i j : if_decohesion p = false -> jacobian_face_local p f h (neg U) (neg Un) i j = jacobian_face_local p f h U Un i j.
Proof. intros D. unfold jacobian_face_local. apply xsumn_same. intros q _. cbv zeta. rewrite D. reflexivity. Qed.
Lemma coupling_face_neg p f h U Un i j : if_decohesion p = false -> jacobian_face_coupling p f h (neg U) (neg Un) i j = jacobian_face_coupling p f h U Un i j.
Proof. intros D. unfold jacobian_face_coupling. apply xsumn_same. intros q _. cbv zeta. rewrite D. reflexivity. Qed.
Lemma neumann_neg d f i : residual_neumann d (reverse_load f) i = - residual_neumann d f i.
Proof. unfold residual_neumann. cbn [reverse_load nf_nq nf_phi nf_traction nf_w]. rewrite <- sumn_opp. apply sumn_ext. intros q _. rewrite (dot_neg_r d _ (nf_traction f q)) by reflexivity. ring. Qed.
(** ** The body *)
Lemma local_neg b x c : local_values (reverse_body b) (reverse x) c = neg (local_values b x c).
Proof. reflexivity. Qed.
Lemma fold_neg {A} (f g : A -> xr) : forall (l : list A) a, (forall x, In x l -> g x = xneg (f x)) ->
  fold_left (fun acc x => xadd acc (g x)) l (xneg a) = xneg (fold_left (fun acc x => xadd acc (f x)) l a).
Proof. induction l as [|x l IH]; intros a E; cbn [fold_left]; [reflexivity|]. rewrite (E x (or_introl eq_refl)), xadd_neg. apply IH. intros y Hy. apply E. right; exact Hy. Qed.
Lemma fold_map {A B} (h : A -> B) (f : xr -> B -> xr) l : forall a, fold_left f (map h l) a = fold_left (fun acc x => f acc (h x)) l a.
Proof. induction l as [|x l IH]; intros a; cbn; [reflexivity|apply IH]. Qed.
Lemma readable_coherent b r c n : b_decohesion b = false -> readable b r c n = true.
Proof. intros D. unfold readable. rewrite D. reflexivity. Qed.
Lemma cell_entry_coherent b old x r c i : coherent b -> cell_entry b old x r c i =
  residual_cell (b_crystal b c) (b_element b c)
         (map (fun n => (b_interface b c n, b_face b c n, face_history_of r c n, local_values b x n)) (gb_neighbours b c))
         (b_loads b c) (local_values b x c) (local_values b old c) (resistances_of r c) i.
Proof.
  intros (D & _). unfold cell_entry. replace (forallb (readable b r c) (gb_neighbours b c)) with true; [reflexivity|].
  symmetry. apply forallb_forall. intros n _. apply readable_coherent. exact D.
Qed.
Lemma coherent_reverse b : coherent b -> coherent (reverse_body b).
Proof. intros C; exact C. Qed.
Lemma cell_entry_neg b old x r c i : coherent b -> In c (b_cells b) ->
  cell_entry (reverse_body b) (reverse old) (reverse x) r c i = xneg (cell_entry b old x r c i).
Proof.
  intros C Hc. rewrite !cell_entry_coherent by (try exact C; apply coherent_reverse; exact C). unfold residual_cell.
  cbn [reverse_body b_crystal b_element b_interface b_face b_loads]. rewrite !local_neg, bulk_neg.
  change (gb_neighbours (reverse_body b) c) with (gb_neighbours b c).
  rewrite !fold_map.
  rewrite (fold_neg (fun n => residual_face (b_interface b c n) (b_face b c n) (face_history_of r c n) (local_values b x c) (local_values b x n) i)).
  - rewrite <- (fold_neg (fun f => Fin (residual_neumann (cr_dim (b_crystal b c)) f i)) (fun f => Fin (residual_neumann (cr_dim (b_crystal b c)) (reverse_load f) i))); [reflexivity|].
    intros f _. rewrite neumann_neg. reflexivity.
  - intros n Hn. rewrite local_neg. apply residual_face_neg. apply C; assumption.
Qed.
Lemma matrix_entry_neg b old x r c i j : coherent b -> In c (b_cells b) ->
  cell_matrix_entry (reverse_body b) (reverse old) (reverse x) r c i j = cell_matrix_entry b old x r c i j.
Proof.
  intros C Hc. unfold cell_matrix_entry. cbn [reverse_body b_crystal b_element b_interface b_face]. rewrite !local_neg, jacobian_bulk_neg.
  change (gb_neighbours (reverse_body b) c) with (gb_neighbours b c).
  assert (G : forall l a, incl l (gb_neighbours b c) ->
    fold_left (fun acc n => xadd acc (jacobian_face_local (b_interface b c n) (b_face b c n) (face_history_of r c n) (neg (local_values b x c)) (local_values (reverse_body b) (reverse x) n) i j)) l a =
    fold_left (fun acc n => xadd acc (jacobian_face_local (b_interface b c n) (b_face b c n) (face_history_of r c n) (local_values b x c) (local_values b x n) i j)) l a).
  { induction l as [|n l IH]; intros a I; cbn [fold_left]; [reflexivity|]. rewrite local_neg, jacobian_face_neg by (apply C; [exact Hc|apply I; left; reflexivity]).
    apply IH. intros y Hy. apply I. right; exact Hy. }
  apply G. apply incl_refl.
Qed.
Lemma value_neg v : value_of (xneg v) = - value_of v.
Proof. destruct v; cbn; ring. Qed.
Lemma resolve_neg k d : resolve (reverse_lines k) d = resolve k d.
Proof. unfold resolve, reverse_lines. destruct (k d) as [[es z]|]; reflexivity. Qed.
Lemma constrained_neg k d : is_constrained (reverse_lines k) d = is_constrained k d.
Proof. unfold is_constrained, reverse_lines. destruct (k d) as [[es z]|]; reflexivity. Qed.
Lemma flat_map_same {A B} (f g : A -> list B) l : (forall x, In x l -> f x = g x) -> flat_map f l = flat_map g l.
Proof. induction l as [|x l IH]; cbn; intros E; [reflexivity|]. rewrite E by auto. rewrite IH by auto. reflexivity. Qed.
Lemma vector_of_neg ws ws' d : ws' = map (fun w => (fst w, - snd w)) ws -> vector_of ws' d = - vector_of ws d.
Proof. intros ->. unfold vector_of. induction ws as [|w ws IH]; cbn; [ring|]. rewrite IH. destruct (Nat.eqb (fst w) d); ring. Qed.
Lemma flat_map_map {A B} (h : B -> B) (f : A -> list B) l : map h (flat_map f l) = flat_map (fun x => map h (f x)) l.
Proof. induction l as [|x l IH]; cbn; [reflexivity|]. rewrite map_app, IH. reflexivity. Qed.
Lemma residual_neg b old x r k : coherent b -> body_residual (reverse_body b) (reverse old) (reverse x) r (reverse_lines k) = reverse (body_residual b old x r k).
Proof.
  intros C. apply functional_extensionality. intros d. change (reverse (body_residual b old x r k) d) with (- body_residual b old x r k d). unfold body_residual. apply vector_of_neg. unfold assemble_residual.
  rewrite flat_map_map. change (b_cells (reverse_body b)) with (b_cells b). rewrite !flat_map_concat_map, !map_map. f_equal. apply map_ext_in. intros c Hc.
  unfold body_system. cbn [ls_cell ls_rhs body_cell mc_dofs reverse_body b_dofs]. unfold vector_writes. rewrite flat_map_map. apply flat_map_same. intros e _.
  rewrite resolve_neg, map_map. apply map_ext. intros w. cbn [fst snd]. f_equal. rewrite cell_entry_neg by assumption. rewrite value_neg. ring.
Qed.
Lemma finite_neg b old x r : coherent b -> all_finite (reverse_body b) (reverse old) (reverse x) r = all_finite b old x r.
Proof.
  intros C. unfold all_finite. change (b_cells (reverse_body b)) with (b_cells b).
  assert (G : forall l, incl l (b_cells b) -> forallb (fun c => forallb (fun i => match cell_entry (reverse_body b) (reverse old) (reverse x) r c i with Fin _ => true | _ => false end) (seq 0 (length (b_dofs b c)))) l =
    forallb (fun c => forallb (fun i => match cell_entry b old x r c i with Fin _ => true | _ => false end) (seq 0 (length (b_dofs b c)))) l).
  { induction l as [|c l IH]; intros I; cbn [forallb]; [reflexivity|]. rewrite IH by (intros y Hy; apply I; right; exact Hy). f_equal.
    induction (seq 0 (length (b_dofs b c))) as [|i s IHs]; cbn [forallb]; [reflexivity|]. rewrite IHs, cell_entry_neg; [|exact C|apply I; left; reflexivity].
    destruct (cell_entry b old x r c i); reflexivity. }
  apply G. apply incl_refl.
Qed.
Lemma norms_neg b old x r k : coherent b -> body_norms (reverse_body b) (reverse old) (reverse x) r (reverse_lines k) = body_norms b old x r k.
Proof.
  intros C. unfold body_norms. rewrite finite_neg by exact C. destruct (all_finite b old x r); [|reflexivity]. rewrite residual_neg by exact C.
  cbn [reverse_body b_ndofs b_is_slip]. f_equal; f_equal; apply sumn_ext; intros d _; unfold reverse; destruct (b_is_slip b d); ring.
Qed.
Lemma jacobian_neg b old x r pattern k : coherent b ->
  body_jacobian (reverse_body b) (reverse old) (reverse x) r pattern (reverse_lines k) = body_jacobian b old x r pattern k.
Proof.
  intros C. unfold body_jacobian. change (b_cells (reverse_body b)) with (b_cells b). change (coupled (reverse_body b)) with (coupled b).
  assert (S : forall dofs M M', (forall i j, M' i j = M i j) -> square_writes (reverse_lines k) dofs M' = square_writes k dofs M).
  { intros dofs M M' E. replace M' with M by (apply functional_extensionality; intros i; apply functional_extensionality; intros j; auto).
    unfold square_writes. f_equal.
    - unfold rectangle_writes. apply flat_map_same. intros d _. apply flat_map_same. intros e _. rewrite !resolve_neg. reflexivity.
    - apply flat_map_same. intros d _. rewrite constrained_neg. reflexivity. }
  assert (G : forall l, incl l (b_cells b) -> assemble_jacobian pattern (reverse_lines k) (coupled b) (map (newton_system (reverse_body b) (reverse old) (reverse x) r) l) =
    assemble_jacobian pattern k (coupled b) (map (newton_system b old x r) l)).
  { induction l as [|c l IH]; intros I; cbn [map assemble_jacobian]; [reflexivity|]. rewrite IH by (intros y Hy; apply I; right; exact Hy). f_equal.
    assert (Hc : In c (b_cells b)) by (apply I; left; reflexivity).
    unfold copy_jacobian. unfold newton_system. cbn [ls_cell ls_matrix ls_coupling].
    change (body_cell (reverse_body b) c) with (body_cell b c).
    rewrite (S _ (fun i j => value_of (cell_matrix_entry b old x r c i j))) by (intros i j; rewrite matrix_entry_neg by assumption; reflexivity).
    destruct (coupled b) eqn:K; [|rewrite Bool.andb_false_r; reflexivity]. rewrite Bool.andb_true_r. destruct (cell_is_at_grain_boundary _); [|reflexivity].
    destruct (interfaces (body_cell b c)) as [|n ns] eqn:EI; [reflexivity|]. f_equal. f_equal.
    apply flat_map_same. intros m Hm. unfold rectangle_writes. apply flat_map_same. intros d _. apply flat_map_same. intros e _. rewrite !resolve_neg.
    apply flat_map_same. intros w _. apply map_ext. intros w'. f_equal. f_equal. f_equal. unfold cell_coupling_entry.
    change (gb_neighbours (reverse_body b) c) with (gb_neighbours b c). cbn [reverse_body b_interface b_face]. rewrite !local_neg. apply coupling_face_neg.
    apply C; [exact Hc|]. apply nth_In. unfold gb_neighbours. fold (coupled b). rewrite K.
    rewrite interfaces_body in EI. apply (f_equal (@length _)) in EI. rewrite map_length in EI. rewrite EI.
    unfold enumerate in Hm. destruct m as [m0 m1]. apply in_combine_l in Hm. apply in_seq in Hm. cbn [fst]. lia. }
  apply G. apply incl_refl.
Qed.
(** ** Histories *)
Lemma nth_error_neg (l : list R) q : nth_error (map Ropp l) q = option_map Ropp (nth_error l q).
Proof. apply nth_error_map. Qed.
Lemma at2_neg v a q : at2 (map (map Ropp) v) a q = option_map Ropp (at2 v a q).
Proof. unfold at2. rewrite nth_error_map. destruct (nth_error v a); cbn; [apply nth_error_neg|reflexivity]. Qed.
Lemma harden_row_neg s v v' q al bs : forall acc, harden_row s (map (map Ropp) v) (map (map Ropp) v') q al bs acc = harden_row s v v' q al bs acc.
Proof.
  induction bs as [|be bs IH]; intros acc; cbn [harden_row]; [reflexivity|]. rewrite !at2_neg. destruct (at2 v be q) as [g|], (at2 v' be q) as [g0|]; cbn [option_map]; try reflexivity.
  rewrite IH. f_equal. f_equal. f_equal. replace (- g - - g0) with (- (g - g0)) by ring. apply Rabs_Ropp.
Qed.
Lemma harden_all_neg s v v' q res : forall al, harden_all s (map (map Ropp) v) (map (map Ropp) v') q al res = harden_all s v v' q al res.
Proof. induction res as [|r res IH]; intros al; cbn [harden_all]; [reflexivity|]. rewrite harden_row_neg, IH. reflexivity. Qed.
Lemma history_neg h q v v' : ModelHistory.step h (Update q (map (map Ropp) v) (map (map Ropp) v')) = ModelHistory.step h (Update q v v').
Proof. cbn [ModelHistory.step]. rewrite harden_all_neg. reflexivity. Qed.
Lemma fields_neg b old x c : (f_slips (fields_of (reverse_body b) (reverse old) (reverse x)) c : list (list R)) = map (map Ropp) (f_slips (fields_of b old x) c) /\ f_old_slips (fields_of (reverse_body b) (reverse old) (reverse x)) c = map (map Ropp) (f_old_slips (fields_of b old x) c).
Proof.
  cbn [fields_of f_slips f_old_slips reverse_body b_ns b_nq b_element]. rewrite !map_map. split; apply map_ext; intros a; rewrite map_map; apply map_ext; intros q; rewrite local_neg; apply slip_neg.
Qed.
Lemma exec_all_app xs ys : forall r, exec_all (xs ++ ys) r = rbind (exec_all xs r) (exec_all ys).
Proof. induction xs as [|a xs IH]; intros r; cbn [app exec_all]; [reflexivity|]. destruct (exec r a); cbn [rbind]; auto. Qed.
Lemma update_neg b old x r : b_decohesion b = false -> body_update (reverse_body b) (reverse old) (reverse x) r = body_update b old x r.
Proof.
  intros D. unfold body_update, sweep_all, run_sweeps. change (b_cells (reverse_body b)) with (b_cells b). cbn [flat_map]. rewrite !app_nil_r.
  assert (G : forall l r, exec_all (sweep_calls (sweep_of (reverse_body b)) l (Refresh (fields_of (reverse_body b) (reverse old) (reverse x)))) r =
    exec_all (sweep_calls (sweep_of b) l (Refresh (fields_of b old x))) r).
  { unfold sweep_calls. induction l as [|c l IH]; intros r0; cbn [flat_map]; [reflexivity|]. rewrite !exec_all_app.
    assert (K : forall r, exec_all (cell_calls (sweep_of (reverse_body b)) (Refresh (fields_of (reverse_body b) (reverse old) (reverse x))) c) r =
      exec_all (cell_calls (sweep_of b) (Refresh (fields_of b old x)) c) r).
    { intros r1. destruct (fields_neg b old x c) as (F1 & F2). set (F := fields_of (reverse_body b) (reverse old) (reverse x)) in *.
      unfold cell_calls, visited. cbn [sweep_of reverse_body w_decohesion b_decohesion w_nq]. rewrite D, !Bool.andb_false_r. cbn [flat_map]. rewrite !app_nil_r.
      cbn [bulk_call map]. rewrite F1, F2. change (b_nq (reverse_body b)) with (b_nq b). change (w_nq (sweep_of b)) with (b_nq b).
      revert r1. induction (seq 0 (b_nq b)) as [|q qs IHq]; intros r1; cbn [flat_map app exec_all]; [reflexivity|].
      cbn [exec]. rewrite history_neg. destruct (ModelHistory.step _ _); cbn [rbind]; [apply IHq|reflexivity..]. }
    rewrite K. destruct (exec_all (cell_calls _ _ c) r0); cbn [rbind]; auto. }
  rewrite G. reflexivity.
Qed.
Lemma store_neg b : body_store (reverse_body b) = body_store b.
Proof. reflexivity. Qed.
Lemma finish_neg b x r : b_decohesion b = false -> body_finish (reverse_body b) (reverse x) r = body_finish b x r.
Proof.
  intros D. unfold body_finish, sweep_all, run_sweeps. change (b_cells (reverse_body b)) with (b_cells b). cbn [flat_map]. rewrite !app_nil_r. unfold sweep_calls.
  rewrite (flat_map_same _ (fun _ => [])), (flat_map_same (cell_calls (sweep_of b) _) (fun _ => [])); [reflexivity|..];
    intros c _; unfold cell_calls, visited; cbn [sweep_of reverse_body w_decohesion b_decohesion w_nq bulk_call map]; rewrite D, !Bool.andb_false_r; cbn [flat_map]; rewrite app_nil_r; induction (seq _ _); auto.
Qed.
