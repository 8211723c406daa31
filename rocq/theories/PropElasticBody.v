(** * C102: an elastic body is solved by one linear solve. *)
From Coq Require Import ZArith Lia Lra FunctionalExtensionality.
From Verif Require Import Num SumLemmas Tensors TensorLemmas ModelElastic ModelMicro SpecMicro ModelHistory ModelFEField ModelLineSearch ModelActiveSet ModelSolver SpecSolver
  ModelLinear SpecLinear PropLinear ModelAssembly SpecAssembly ProofAssembly ProofNewton ModelInterface ModelSweep ModelStep SpecStep PropStep ModelBody SpecBody PropBody
  ModelTangent SpecTangent ProofTangent PropTangent PropEnergy SpecElasticBody.
Open Scope R_scope.

Section Elastic.
Context (b : body).
Hypothesis C : SpecBody.consistent b.
Hypothesis EL : elastic_body b.

Lemma no_interfaces c : gb_neighbours b c = [].
Proof. unfold gb_neighbours, visited. destruct EL as (-> & -> & _). cbn [orb]. rewrite andb_false_r. reflexivity. Qed.
Lemma only_displacements c i q : In c (b_cells b) -> (i < el_nd (b_element b c))%nat -> (q < el_nq (b_element b c))%nat ->
  Nat.ltb (el_comp (b_element b c) i) (cr_dim (b_crystal b c)) = true.
Proof.
  intros Hc Hi Hq. destruct C as (_ & _ & C1 & _). destruct (C1 c Hc) as (_ & _ & _ & P & _). destruct (P i q Hi Hq) as (L & _).
  destruct EL as (_ & _ & E3 & _). rewrite (E3 c Hc) in L. apply Nat.ltb_lt. lia.
Qed.
Definition loads_entry (c i : nat) : R := lsum (fun f => residual_neumann (cr_dim (b_crystal b c)) f i) (b_loads b c).
Definition elastic_entry (x : vec) (c i : nat) : R :=
  let k := b_crystal b c in let e := b_element b c in
  loads_entry c i - sumn (el_nq e) (fun q => balance_factor k *
    (ddot (cr_dim k) (el_eps e i q) (stress_at k e (local_values b x c) q) - dot (cr_dim k) (el_phi e i q) (cr_supply k q)) * el_w e q).
Lemma fold_loads d i l : forall v, fold_left (fun acc f => xadd acc (Fin (residual_neumann d f i))) l (Fin v) = Fin (lsum (fun f => residual_neumann d f i) l + v).
Proof. induction l as [|f l IH]; intros v; cbn [fold_left lsum xadd]; [f_equal; ring|]. rewrite IH. f_equal. ring. Qed.
Lemma entry_value old x r c i : In c (b_cells b) -> (i < el_nd (b_element b c))%nat -> cell_entry b old x r c i = Fin (elastic_entry x c i).
Proof.
  intros Hc Hi. unfold cell_entry. rewrite no_interfaces. cbn [forallb map]. unfold residual_cell. cbn [fold_left].
  unfold residual_bulk.
  rewrite (xsumn_fin' _ _ (fun q => - (balance_factor (b_crystal b c) *
    (ddot (cr_dim (b_crystal b c)) (el_eps (b_element b c) i q) (stress_at (b_crystal b c) (b_element b c) (local_values b x c) q)
     - dot (cr_dim (b_crystal b c)) (el_phi (b_element b c) i q) (cr_supply (b_crystal b c) q)) * el_w (b_element b c) q))).
  - rewrite fold_loads. unfold elastic_entry, loads_entry. rewrite sumn_opp. f_equal. 
  - intros q Hq. rewrite (only_displacements c i q Hc Hi Hq). reflexivity.
Qed.
Definition elastic_stiffness (c i j : nat) : R :=
  let k := b_crystal b c in let e := b_element b c in
  sumn (el_nq e) (fun q => balance_factor k * ddot (cr_dim k) (el_eps e i q) (c4 (cr_dim k) (cr_C k) (el_eps e j q)) * el_w e q).
Lemma matrix_value old x r c i j : In c (b_cells b) -> (i < el_nd (b_element b c))%nat -> (j < el_nd (b_element b c))%nat ->
  cell_matrix_entry b old x r c i j = Fin (elastic_stiffness c i j).
Proof.
  intros Hc Hi Hj. unfold cell_matrix_entry. rewrite no_interfaces. cbn [fold_left]. unfold jacobian_bulk.
  apply xsumn_fin'. intros q Hq. rewrite (only_displacements c i q Hc Hi Hq), (only_displacements c j q Hc Hj Hq). reflexivity.
Qed.
Lemma stiffness_applied c i y q : In c (b_cells b) ->
  let k := b_crystal b c in let e := b_element b c in
  ddot (cr_dim k) (el_eps e i q) (c4 (cr_dim k) (cr_C k) (field_strain k e (local_values b y c) q)) =
  sumn (el_nd e) (fun j => ddot (cr_dim k) (el_eps e i q) (c4 (cr_dim k) (cr_C k) (el_eps e j q)) * local_values b y c j).
Proof.
  intros Hc k e. unfold ddot. 
  transitivity (sumn (cr_dim k) (fun r => sumn (cr_dim k) (fun s => sumn (el_nd e) (fun j => el_eps e i q r s * c4 (cr_dim k) (cr_C k) (el_eps e j q) r s * local_values b y c j)))).
  - apply sumn_ext. intros r _. apply sumn_ext. intros s _. unfold c4. 
    rewrite <- sumn_scal.
    transitivity (sumn (cr_dim k) (fun t => sumn (el_nd e) (fun j => el_eps e i q r s * sumn (cr_dim k) (fun l => cr_C k r s t l * el_eps e j q t l) * local_values b y c j))).
    + apply sumn_ext. intros t _. rewrite <- sumn_scal.
      transitivity (sumn (cr_dim k) (fun l => sumn (el_nd e) (fun j => el_eps e i q r s * (cr_C k r s t l * el_eps e j q t l) * local_values b y c j))).
      * apply sumn_ext. intros l _. unfold field_strain, elastic_strain.
        destruct EL as (_ & _ & E3 & _). unfold k. rewrite (E3 c Hc). fold k. cbn [sumn].
        match goal with |- _ * (_ * ?u) = _ => replace u with (strain_at e (local_values b y c) q t l) by (cbn; ring) end.
        unfold strain_at. rewrite <- !sumn_scal. apply sumn_ext. intros j _. ring.
      * rewrite sumn_swap. apply sumn_ext. intros j _. rewrite <- sumn_scal, <- sumn_scal_r. apply sumn_ext. intros l _. ring.
    + rewrite sumn_swap. apply sumn_ext. intros j _. rewrite <- sumn_scal, <- sumn_scal_r. apply sumn_ext. intros l _. ring.
  - transitivity (sumn (cr_dim k) (fun r => sumn (el_nd e) (fun j => sumn (cr_dim k) (fun s => el_eps e i q r s * c4 (cr_dim k) (cr_C k) (el_eps e j q) r s * local_values b y c j)))).
    + apply sumn_ext. intros r _. apply sumn_swap.
    + rewrite sumn_swap. apply sumn_ext. intros j _. rewrite <- sumn_scal_r. apply sumn_ext. intros r _. rewrite <- sumn_scal_r. reflexivity.
Qed.
(** The residual is affine, the matrix is its linear part. *)
Lemma entry_moved x y c i : In c (b_cells b) -> (i < el_nd (b_element b c))%nat ->
  elastic_entry (fun d => x d + y d) c i = elastic_entry x c i - sumn (el_nd (b_element b c)) (fun j => elastic_stiffness c i j * local_values b y c j).
Proof.
  intros Hc Hi. unfold elastic_entry, elastic_stiffness. cbv zeta. set (k := b_crystal b c). set (e := b_element b c).
  assert (S : sumn (el_nd e) (fun j => sumn (el_nq e) (fun q => balance_factor k * ddot (cr_dim k) (el_eps e i q) (c4 (cr_dim k) (cr_C k) (el_eps e j q)) * el_w e q) * local_values b y c j) =
    sumn (el_nq e) (fun q => balance_factor k * ddot (cr_dim k) (el_eps e i q) (c4 (cr_dim k) (cr_C k) (field_strain k e (local_values b y c) q)) * el_w e q)).
  { transitivity (sumn (el_nd e) (fun j => sumn (el_nq e) (fun q => balance_factor k * ddot (cr_dim k) (el_eps e i q) (c4 (cr_dim k) (cr_C k) (el_eps e j q)) * el_w e q * local_values b y c j))).
    - apply sumn_ext. intros j _. rewrite <- sumn_scal_r. reflexivity.
    - rewrite sumn_swap. apply sumn_ext. intros q _. unfold k, e. rewrite (stiffness_applied c i y q Hc). fold k e.
      rewrite <- sumn_scal, <- sumn_scal_r. apply sumn_ext. intros j _. ring. }
  rewrite S. unfold Rminus. rewrite Rplus_assoc. f_equal. rewrite <- !sumn_opp, <- sumn_plus. apply sumn_ext. intros q _.
  assert (A : ddot (cr_dim k) (el_eps e i q) (stress_at k e (local_values b (fun d => x d + y d) c) q) =
    ddot (cr_dim k) (el_eps e i q) (stress_at k e (local_values b x c) q) + ddot (cr_dim k) (el_eps e i q) (c4 (cr_dim k) (cr_C k) (field_strain k e (local_values b y c) q))).
  { rewrite <- ddot_add_r. apply ddot_ext; [reflexivity|]. intros r s _ _. unfold madd.
    replace (local_values b (fun d => x d + y d) c) with (along (local_values b x c) (local_values b y c) 1).
    - rewrite stress_at_along. ring.
    - apply functional_extensionality. intros j. unfold along, local_values. ring. }
  rewrite A. ring.
Qed.
Lemma elastic_finite old x r : all_finite b old x r = true.
Proof.
  unfold all_finite. apply forallb_forall. intros c Hc. apply forallb_forall. intros i Hi. apply in_seq in Hi.
  destruct C as (_ & _ & C1 & _). destruct (C1 c Hc) as (L & _). rewrite entry_value; [reflexivity|exact Hc|lia].
Qed.
Lemma newton_exact old x r k pattern ws y : closed_below (b_ndofs b) k -> homogeneous k -> dofs_of_cells b k ->
  body_jacobian b old x r pattern k = Ok ws -> solves (b_ndofs b) (matrix_of ws) (body_residual b old x r k) y ->
  forall r' d, (d < b_ndofs b)%nat -> body_residual b old (fun d => x d + newton_update k y d) r' k d = 0.
Proof.
  intros CB HO DC J S r' d Hd.
  pose proof (newton_numbered b old x k C CB r DC) as NU.
  assert (S' : solves (b_ndofs b) (matrix_of ws) (vector_of (assemble_residual k (map (newton_system b old x r) (b_cells b)))) y).
  { replace (assemble_residual k (map (newton_system b old x r) (b_cells b)))
      with (assemble_residual k (map (body_system b old x r) (b_cells b))); [exact S|].
    unfold assemble_residual. rewrite !flat_map_concat_map, !map_map. reflexivity. }
  apply (C77_linear_system_is_the_constrained_newton_system pattern k (coupled b) (b_ndofs b) _ ws y) in S'; [|apply CB|exact HO|exact NU|exact J].
  destruct S' as [_ S']. specialize (S' (expand k (fun e => kron e d)) (expand_admissible _ _ _ (proj1 CB))).
  rewrite (entry_as_work b old k C CB) by exact Hd.
  assert (CO : coupled b = false) by (unfold coupled; destruct EL as (-> & -> & _); reflexivity).
  rewrite CO in S'. unfold jacobian_work, residual_work in *. rewrite !lsum_map in *.
  cbn [newton_system body_system ls_cell ls_matrix ls_rhs body_cell mc_dofs] in *.
  set (W := expand k (fun e => kron e d)) in *. set (Y := newton_update k y) in *.
  transitivity (lsum (fun c => sumn (length (b_dofs b c)) (fun i => W (nth i (b_dofs b c) 0%nat) * value_of (cell_entry b old x r c i))) (b_cells b)
    - lsum (fun c => sumn (length (b_dofs b c)) (fun i => W (nth i (b_dofs b c) 0%nat) *
        (sumn (length (b_dofs b c)) (fun j => value_of (cell_matrix_entry b old x r c i j) * Y (nth j (b_dofs b c) 0%nat)) + 0))) (b_cells b)).
  - rewrite <- lsum_minus. apply lsum_ext. intros c Hc. rewrite <- sumn_minus. apply sumn_ext. intros i Hi.
    pose proof C as (_ & _ & C1 & _). destruct (C1 c Hc) as (L & _). rewrite L in *.
    rewrite !entry_value by assumption. cbn [value_of]. rewrite (entry_moved x Y c i Hc Hi).
    rewrite (sumn_ext _ (fun j => value_of (cell_matrix_entry b old x r c i j) * Y (nth j (b_dofs b c) 0%nat)) (fun j => elastic_stiffness c i j * local_values b Y c j)).
    + ring.
    + intros j Hj. rewrite matrix_value by assumption. reflexivity.
  - rewrite S'. ring.
Qed.
Lemma zero_norms old x r k : (forall d, (d < b_ndofs b)%nat -> body_residual b old x r k d = 0) -> body_norms b old x r k = (Fin 0, Fin 0).
Proof.
  intros Z. unfold body_norms. rewrite elastic_finite. f_equal; f_equal; apply sumn_zero; intros d Hd; rewrite (Z d Hd); destruct (b_is_slip b d); ring.
Qed.
Lemma micro_norm_zero old x r k : snd (body_norms b old x r k) = Fin 0.
Proof.
  unfold body_norms. rewrite elastic_finite. cbn [snd]. f_equal. apply sumn_zero. intros d Hd. destruct EL as (_ & _ & _ & E4). rewrite (E4 d Hd). reflexivity.
Qed.
End Elastic.
