(** * C93: the assembled matrix is the derivative of the assembled residual. *)
From Coq Require Import FunctionalExtensionality.
From Coquelicot Require Import Coquelicot.
From Verif Require Import Num SumLemmas Tensors TensorLemmas ModelUtilities ModelElastic ModelMicro SpecMicro ProofMicro
  ModelCohesive SpecCohesive ProofCohesive ModelHistory SpecInterface ModelInterface
  ModelFEField ModelLineSearch ModelActiveSet SpecActiveSet PropActiveSet
  ModelLinear SpecLinear PropLinear ModelAssembly SpecAssembly ModelSweep SpecSweep
  PropSweep ModelBody SpecBody PropBody ModelTangent SpecTangent ProofTangent.
Open Scope R_scope.

Section Body.
Variables (b : body) (old x : vec) (r : rank_data) (k : constraints).
Hypothesis C : consistent b.
Hypothesis M : exponential_damage_only b.
Hypothesis I : initialised b r.
Hypothesis O : one_set_of_parameters b r.
Hypothesis T : two_sided b.
Hypothesis DB : differentiable_bulk b old x.
Hypothesis DF : differentiable_faces b x r.
Hypothesis CB : closed_below (b_ndofs b) k.
Let n := b_ndofs b.

Lemma system_dofs z h l d : In l (map (body_system b old z h) (b_cells b)) -> In d (mc_dofs (ls_cell l)) -> (d < n)%nat.
Proof.
  intros Hl Hd. apply in_map_iff in Hl. destruct Hl as (c & <- & Hc). cbn [body_system ls_cell body_cell mc_dofs] in Hd.
  pose proof C as (_ & _ & C1 & _). destruct (C1 c Hc) as (_ & _ & B & _). destruct (In_nth _ _ 0%nat Hd) as (i & Hi & <-). apply B. exact Hi.
Qed.
Lemma entry_as_work z h d : (d < n)%nat ->
  body_residual b old z h k d = residual_work (map (body_system b old z h) (b_cells b)) (expand k (fun e => kron e d)).
Proof.
  intros Hd. unfold body_residual.
  transitivity (sumn n (fun q => kron q d * vector_of (assemble_residual k (map (body_system b old z h) (b_cells b))) q)); [rewrite sumn_kron by exact Hd; reflexivity|].
  rewrite (vector_form n (assemble_residual k (map (body_system b old z h) (b_cells b))) (fun q => kron q d)).
  - exact (residual_form_c k _ (fun q => kron q d)).
  - intros q u Iw. unfold assemble_residual in Iw. apply in_flat_map in Iw. destruct Iw as (l & Hl & Iw). unfold vector_writes in Iw.
    apply in_flat_map in Iw. destruct Iw as ([i e] & He & Iw). apply in_map_iff in Iw. destruct Iw as ([e' v] & E & Iw). cbn [fst snd] in *.
    injection E as <- _. unfold resolve in Iw. destruct (k e) as [[es z']|] eqn:K.
    + eapply (proj2 CB); eauto.
    + destruct Iw as [Iw|[]]. injection Iw as <- _. apply (system_dofs z h l e Hl). apply in_combine_r in He. exact He.
Qed.
Lemma constrained_entry_zero z h d : (d < n)%nat -> k d <> None -> body_residual b old z h k d = 0.
Proof.
  intros Hd K. rewrite entry_as_work by exact Hd. unfold residual_work. apply lsum_zero. intros l _. apply sumn_zero. intros i _.
  rewrite expand_unit; [ring|apply CB|exact K].
Qed.
Lemma residual_derivative v d : (d < n)%nat ->
  is_derive (fun t => body_residual b old (moved x v t) (body_update b old (moved x v t) r) k d) 0
    (- jacobian_work (coupled b) (map (newton_system b old x (body_update b old x r)) (b_cells b)) (expand k (fun e => kron e d)) v).
Proof.
  intros Hd. eapply is_derive_ext; [|apply (work_derivative b old x v r C M I O T DB DF (expand k (fun e => kron e d)))].
  intros t. cbv beta. symmetry. apply entry_as_work. exact Hd.
Qed.
Lemma newton_numbered h : dofs_of_cells b k -> numbered n k (map (newton_system b old x h) (b_cells b)).
Proof.
  intros [D1 D2]. split; [|split; [|split]].
  - intros l d Hl Hd. apply in_map_iff in Hl. destruct Hl as (c & <- & Hc). apply (system_dofs x h (body_system b old x h c)); [apply in_map; exact Hc|exact Hd].
  - intros l m d Hl Hm Hd. apply in_map_iff in Hl. destruct Hl as (c & <- & Hc). cbn [newton_system ls_cell] in Hm.
    unfold interfaces in Hm. apply in_flat_map in Hm. destruct Hm as (f & Hf & Hm). destruct f as [m'|]; [|destruct Hm].
    destruct (negb _); [|destruct Hm]. destruct Hm as [<-|[]]. cbn [body_cell mc_faces] in Hf. apply in_map_iff in Hf.
    destruct Hf as ([m''|] & E & Hf); [|discriminate E]. cbn [option_map] in E. injection E as <-. cbn [nb_dofs] in Hd. eapply D1; eauto.
  - intros d es z e w _ K Iw. eapply (proj2 CB); eauto.
  - intros d Hd K. destruct (D2 d Hd K) as (c & Hc & Hin). exists (newton_system b old x h c). split; [apply in_map; exact Hc|exact Hin].
Qed.
End Body.

(** Row [d] of the assembled matrix times an admissible direction is minus the derivative of entry
    [d] of the assembled residual in that direction, histories updated along the way. *)
Theorem C93_matrix_is_the_derivative : forall b old x r k pattern ws v d,
  consistent b -> exponential_damage_only b -> initialised b r -> one_set_of_parameters b r -> two_sided b ->
  differentiable_bulk b old x -> differentiable_faces b x r ->
  closed_below (b_ndofs b) k -> dofs_of_cells b k ->
  body_jacobian b old x (body_update b old x r) pattern k = Ok ws ->
  SpecLinear.admissible (b_ndofs b) k v -> (d < b_ndofs b)%nat -> k d = None ->
  is_derive (fun t => body_residual b old (moved x v t) (body_update b old (moved x v t) r) k d) 0
    (- sumn (b_ndofs b) (fun e => matrix_of ws d e * v e)).
Proof.
  intros b old x r k pattern ws v d C M I O T DB DF CB DC J A Hd K.
  pose proof (newton_numbered b old x k C CB (body_update b old x r) DC) as NU.
  assert (D := residual_derivative b old x r k C M I O T DB DF CB v d Hd).
  match type of D with is_derive _ _ ?u => match goal with |- is_derive _ _ ?w => replace w with u end end; [exact D|]. f_equal. symmetry.
  transitivity (sumn (b_ndofs b) (fun q => kron q d * sumn (b_ndofs b) (fun e => matrix_of ws q e * v e))); [rewrite sumn_kron by exact Hd; reflexivity|].
  rewrite (matrix_form (b_ndofs b) ws (fun q => kron q d) v).
  - rewrite (assemble_form _ _ _ _ _ _ _ J).
    rewrite (lsum_zero (fun l => diagonal_form k l _ _)).
    + rewrite Rplus_0_r. apply (works_ext (b_ndofs b) k); [exact NU|reflexivity|]. intros e He. unfold expand, resolve.
      destruct (k e) as [[es z]|] eqn:KE; [symmetry; eapply A; eauto|]. cbn. ring.
    + intros l _. apply diagonal_zero. intros e _ Ke. unfold kron. destruct (Nat.eqb_spec e d) as [->|]; [|ring].
      unfold is_constrained in Ke. rewrite K in Ke. discriminate Ke.
  - eapply assemble_below; [exact NU|apply incl_refl|exact J].
Qed.

(** The step computed from the linear system cancels the residual to first order. *)
Theorem C93_newton_step_cancels_the_residual : forall b old x r k pattern ws y d,
  consistent b -> exponential_damage_only b -> initialised b r -> one_set_of_parameters b r -> two_sided b ->
  differentiable_bulk b old x -> differentiable_faces b x r ->
  closed_below (b_ndofs b) k -> homogeneous k -> dofs_of_cells b k ->
  body_jacobian b old x (body_update b old x r) pattern k = Ok ws ->
  solves (b_ndofs b) (matrix_of ws) (body_residual b old x (body_update b old x r) k) y ->
  (d < b_ndofs b)%nat ->
  is_derive (fun t => let z := moved x (newton_update k y) t in body_residual b old z (body_update b old z r) k d) 0
    (- body_residual b old x (body_update b old x r) k d).
Proof.
  intros b old x r k pattern ws y d C M I O T DB DF CB HO DC J S Hd. cbv zeta.
  pose proof (newton_numbered b old x k C CB (body_update b old x r) DC) as NU.
  assert (D := residual_derivative b old x r k C M I O T DB DF CB (newton_update k y) d Hd).
  match type of D with is_derive _ _ ?u => match goal with |- is_derive _ _ ?w => replace w with u end end; [exact D|]. f_equal.
  assert (S' : solves (b_ndofs b) (matrix_of ws) (vector_of (assemble_residual k (map (newton_system b old x (body_update b old x r)) (b_cells b)))) y).
  { replace (assemble_residual k (map (newton_system b old x (body_update b old x r)) (b_cells b)))
      with (assemble_residual k (map (body_system b old x (body_update b old x r)) (b_cells b))); [exact S|].
    unfold assemble_residual. rewrite !flat_map_concat_map, !map_map. reflexivity. }
  apply (C77_linear_system_is_the_constrained_newton_system pattern k (coupled b) (b_ndofs b) _ ws y) in S'; [|apply CB|exact HO|exact NU|exact J].
  destruct S' as [_ S']. rewrite S' by (apply expand_admissible; apply CB).
  rewrite (entry_as_work b old k C CB) by exact Hd. unfold residual_work. rewrite !lsum_map. reflexivity.
Qed.

(** The line search assumes the slope -2 f: that is the slope. *)
Lemma objective_sum n v : residual_objective n v = 1 / 2 * sumn n (fun d => v d * v d).
Proof.
  unfold residual_objective. rewrite Rmult_assoc. f_equal. unfold norm, dot. apply sqrt_sqrt. apply sumn_nonneg. intros; apply Rle_0_sqr.
Qed.
Theorem C93_line_search_knows_the_slope : forall b old x r k pattern ws y,
  consistent b -> exponential_damage_only b -> initialised b r -> one_set_of_parameters b r -> two_sided b ->
  differentiable_bulk b old x -> differentiable_faces b x r ->
  closed_below (b_ndofs b) k -> homogeneous k -> dofs_of_cells b k ->
  body_jacobian b old x (body_update b old x r) pattern k = Ok ws ->
  solves (b_ndofs b) (matrix_of ws) (body_residual b old x (body_update b old x r) k) y ->
  forall s, let f0 := body_objective b old r k x in
  exists slope, descent (reinit s (Fin f0)) = Fin slope /\
    is_derive (fun t => body_objective b old r k (moved x (newton_update k y) t)) 0 slope.
Proof.
  intros b old x r k pattern ws y C M I O T DB DF CB HO DC J S s f0. exists (-2 * f0). split; [reflexivity|].
  set (F := fun t => let z := moved x (newton_update k y) t in body_residual b old z (body_update b old z r) k).
  assert (F0 : F 0 = body_residual b old x (body_update b old x r) k).
  { unfold F. cbv zeta. replace (moved x (newton_update k y) 0) with x; [reflexivity|]. apply functional_extensionality; intros; unfold moved; ring. }
  assert (D : forall d, (d < b_ndofs b)%nat -> is_derive (fun t => F t d) 0 (- F 0 d)).
  { intros d Hd. rewrite F0. apply (C93_newton_step_cancels_the_residual b old x r k pattern ws y d); assumption. }
  apply (is_derive_ext (fun t => 1 / 2 * sumn (b_ndofs b) (fun d => F t d * F t d))).
  { intros t. unfold body_objective. rewrite objective_sum. reflexivity. }
  unfold f0, body_objective. rewrite objective_sum, <- F0.
  replace (-2 * (1 / 2 * sumn (b_ndofs b) (fun d => F 0 d * F 0 d))) with (1 / 2 * sumn (b_ndofs b) (fun d => - F 0 d * F 0 d + F 0 d * - F 0 d)).
  - apply is_derive_scal. apply (derive_sumn (b_ndofs b) (fun d t => F t d * F t d)). intros d Hd.
    exact (is_derive_mult _ _ 0 _ _ (D d Hd) (D d Hd) Rmult_comm).
  - rewrite (sumn_ext _ _ (fun d => (-2) * (F 0 d * F 0 d))) by (intros; ring). rewrite sumn_scal. field.
Qed.

(** Hence short steps pass the test of the line search. *)
Theorem C93_short_steps_are_accepted : forall b old x r k pattern ws y,
  consistent b -> exponential_damage_only b -> initialised b r -> one_set_of_parameters b r -> two_sided b ->
  differentiable_bulk b old x -> differentiable_faces b x r ->
  closed_below (b_ndofs b) k -> homogeneous k -> dofs_of_cells b k ->
  body_jacobian b old x (body_update b old x r) pattern k = Ok ws ->
  solves (b_ndofs b) (matrix_of ws) (body_residual b old x (body_update b old x r) k) y ->
  forall s, alpha s < 1 -> 0 < body_objective b old r k x ->
  exists short, 0 < short /\ forall lambda, 0 < lambda < short ->
    sufficient_descent (reinit s (Fin (body_objective b old r k x)))
      (Fin (body_objective b old r k (moved x (newton_update k y) lambda))) (Fin lambda) = true.
Proof.
  intros b old x r k pattern ws y C M I O T DB DF CB HO DC J S s Ha Hf.
  destruct (C93_line_search_knows_the_slope b old x r k pattern ws y C M I O T DB DF CB HO DC J S s) as (slope & E & D).
  cbn [reinit descent xmul] in E. injection E as <-.
  set (f0 := body_objective b old r k x) in *. set (f := fun t => body_objective b old r k (moved x (newton_update k y) t)) in *.
  assert (F0 : f 0 = f0).
  { unfold f, f0. f_equal. apply functional_extensionality; intros; unfold moved; ring. }
  assert (P : 0 < 2 * (1 - alpha s) * f0) by (apply Rmult_lt_0_compat; lra).
  apply is_derive_Reals in D. destruct (D _ P) as [del Hdel]. exists del. split; [apply cond_pos|].
  intros l [L1 L2]. specialize (Hdel l ltac:(lra) ltac:(rewrite Rabs_right by lra; exact L2)).
  unfold sufficient_descent. cbn [reinit ModelLineSearch.n_max n_iterations alpha f_init descent]. destruct (Nat.ltb _ _); [reflexivity|].
  cbn [xmul xadd xltb]. apply Rltb_true. fold (f l).
  replace (0 + l) with l in Hdel by ring.
  change (Rabs ((f l - f 0) / l - -2 * f0) < 2 * (1 - alpha s) * f0) in Hdel. rewrite F0 in Hdel. apply Rabs_def2 in Hdel. destruct Hdel as [H1 _].
  assert (E : f l = f0 + l * ((f l - f0) / l)) by (field; lra).
  rewrite E. replace (alpha s * l * (-2 * f0)) with (l * (alpha s * (-2 * f0))) by ring.
  apply Rplus_lt_compat_l. apply Rmult_lt_compat_l; [exact L1|]. lra.
Qed.
