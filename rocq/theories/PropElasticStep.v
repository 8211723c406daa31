(** * C102: time steps and runs of elastic bodies. *)
From Coq Require Import ZArith Lia Lra FunctionalExtensionality.
From Verif Require Import Num SumLemmas Tensors TensorLemmas ModelElastic ModelMicro SpecMicro ModelHistory ModelFEField ModelLineSearch ModelActiveSet ModelSolver SpecSolver
  ModelLoading SpecLoading PropLoading ModelShear SpecShear PropShear ModelProgram SpecProgram PropProgram
  ModelLinear SpecLinear PropLinear ModelAssembly SpecAssembly ModelInterface ModelSweep ModelStep SpecStep PropStep ModelBody SpecBody PropBody
  ModelTangent SpecTangent PropTangent SpecElasticBody PropElasticBody.
Open Scope R_scope.

Section Step.
Context (b : body) (e : env rank_data) (sp : solver_parameters).
Let c := p_affine (e_problem e).
Let k := p_newton (e_problem e).
Let n := b_ndofs b.
Hypothesis C : SpecBody.consistent b.
Hypothesis EL : elastic_body b.
Hypothesis W : works_on e b.
Hypothesis BL : forall d, e_blocks e d = Macro.
Hypothesis CL : lines_are_closed c.
Hypothesis HV : homogeneous_version c k.
Hypothesis CB : closed_below n k.
Hypothesis DC : dofs_of_cells b k.
Hypothesis RI : rate_independent sp = false.

Lemma newton_homogeneous : homogeneous k.
Proof. intros d es z E. specialize (HV d). rewrite E in HV. destruct (c d) as [[es' z']|]; [|contradiction]. apply HV. Qed.
Lemma distribute_obeys x : obeys c (ModelActiveSet.distribute c x).
Proof.
  intros d es z E. unfold ModelActiveSet.distribute at 1. rewrite E, fold_lsum. f_equal. apply lsum_ext. intros [f w] Hf. cbn [fst snd].
  unfold ModelActiveSet.distribute. rewrite (CL d es z f w E Hf). reflexivity.
Qed.
Lemma distribute_fixed x : obeys c x -> ModelActiveSet.distribute c x = x.
Proof.
  intros O. apply functional_extensionality. intros d. unfold ModelActiveSet.distribute. destruct (c d) as [[es z]|] eqn:E; [|reflexivity].
  rewrite fold_lsum. symmetry. exact (O d es z E).
Qed.
Lemma same_distribute x : ModelLineSearch.distribute (layout e) x = ModelActiveSet.distribute c x.
Proof.
  apply functional_extensionality. intros d. unfold ModelLineSearch.distribute, ModelActiveSet.distribute, layout. cbn [constraint]. fold c.
  destruct (c d) as [[es z]|]; [|reflexivity]. rewrite fold_lsum, combine_lsum. reflexivity.
Qed.
Lemma macro_all x y : set_block (layout e) Macro x y = y.
Proof. apply functional_extensionality. intros d. unfold set_block, layout. cbn [block_of]. rewrite BL. reflexivity. Qed.
Lemma micro_none x y : set_block (layout e) Micro x y = x.
Proof. apply functional_extensionality. intros d. unfold set_block, layout. cbn [block_of]. rewrite BL. reflexivity. Qed.
Lemma moved_trial x y l : update_trial (layout e) x y l Macro = ModelActiveSet.distribute c (fun d => x d + l * y d).
Proof.
  unfold update_trial. rewrite macro_all, same_distribute. f_equal. apply functional_extensionality. intros d. cbn [layout block_of]. rewrite BL. reflexivity.
Qed.
Lemma update_admissible x y : obeys c x -> obeys c (fun d => x d + newton_update k y d).
Proof.
  intros O d es z E. rewrite (O d es z E). pose proof (HV d) as V. rewrite E in V. destruct (k d) as [[es' z']|] eqn:K; [|contradiction].
  destruct V as (-> & ->). unfold newton_update at 1. unfold ModelActiveSet.distribute at 1. rewrite K, fold_lsum.
  assert (L : lsum (fun f => snd f * (x (fst f) + newton_update k y (fst f))) es = lsum (fun f => snd f * x (fst f)) es + lsum (fun f => snd f * y (fst f)) es).
  { rewrite <- lsum_plus. apply lsum_ext. intros [f w] Hf. cbn [fst snd]. unfold newton_update, ModelActiveSet.distribute.
    assert (F : k f = None). { pose proof (HV f) as V. rewrite (CL d es z f w E Hf) in V. destruct (k f) as [[? ?]|]; [contradiction|reflexivity]. }
    rewrite F. ring. }
  rewrite L. ring.
Qed.

Definition at_point (old x : vec) (s : sstate rank_data) : Prop := st_old s = old /\ st_internal s = k /\ st_trial s = x.
(** The norms of the residual do not depend on the histories. *)
Lemma norms_of old x r r' : body_norms b old x r k = body_norms b old x r' k.
Proof.
  unfold body_norms. rewrite !(elastic_finite b C EL).
  assert (E : forall d, body_residual b old x r k d = body_residual b old x r' k d).
  { intros d. unfold body_residual. f_equal. unfold assemble_residual. rewrite !flat_map_concat_map, !map_map. f_equal. apply map_ext_in. intros c0 Hc.
    unfold vector_writes. cbn [body_system ls_cell ls_rhs body_cell mc_dofs]. rewrite !flat_map_concat_map. f_equal. apply map_ext_in.
    intros [i d'] Hi. cbn [fst snd]. apply map_ext. intros [d'' w]. cbn [fst snd].
    pose proof C as (_ & _ & C1 & _). destruct (C1 c0 Hc) as (L & _).
    assert (Li : (i < el_nd (b_element b c0))%nat). { rewrite <- L. apply in_combine_l in Hi. apply in_seq in Hi. lia. }
    rewrite !(entry_value b C EL) by assumption. reflexivity. }
  f_equal; f_equal; apply sumn_ext; intros d _; rewrite !E; reflexivity.
Qed.
Lemma residual_norms old x s : at_point old x s -> st_norms (op_residual e s) = body_norms b old x (st_hist s) k.
Proof. intros (A1 & A2 & A3). unfold op_residual. cbn [set_norms st_norms]. destruct W as (_ & _ & ->). rewrite A1, A2, A3. reflexivity. Qed.
Definition after (q : sstate rank_data) : sstate rank_data := op_residual e (op_update e (op_apply e 1 Macro q)).
Lemma after_solve solver old x s nw : exact_solver b k solver -> at_point old x s -> exists y, solver s = Ok y /\
  let q := set_newton s (set_block (layout e) Macro nw (ModelActiveSet.distribute (st_internal s) y)) in
  exists x', obeys c x' /\ at_point old x' (after q) /\ (obeys c x -> st_norms (after q) = (Fin 0, Fin 0)).
Proof.
  intros ES A. destruct (ES s (proj1 (proj2 A))) as (y & pattern & ws & S1 & S2 & S3). exists y. split; [exact S1|]. cbv zeta. rewrite macro_all.
  set (q := set_newton s _). pose proof A as (A1 & A2 & A3). rewrite A1, A2, A3 in S2, S3.
  exists (ModelActiveSet.distribute c (fun d => x d + 1 * newton_update k y d)).
  assert (AP : at_point old (ModelActiveSet.distribute c (fun d => x d + 1 * newton_update k y d)) (after q)).
  { split; [exact A1|]. split; [exact A2|]. unfold after. cbn [op_residual op_update op_apply set_norms set_trial st_trial].
    rewrite moved_trial. unfold q. cbn [set_newton st_trial st_newton]. rewrite A2, A3. reflexivity. }
  split; [apply distribute_obeys|]. split; [exact AP|]. intros O.
  assert (X : ModelActiveSet.distribute c (fun d => x d + 1 * newton_update k y d) = (fun d => x d + newton_update k y d)).
  { rewrite distribute_fixed; [apply functional_extensionality; intros d; ring|].
    intros d es z E. pose proof (update_admissible x y O d es z E) as U. rewrite Rmult_1_l. rewrite U. f_equal. apply lsum_ext. intros f _. ring. }
  rewrite X in AP. unfold after in *. rewrite (residual_norms old (fun d => x d + newton_update k y d)).
  - apply (zero_norms b C EL). exact (newton_exact b C EL old x (st_hist s) k pattern ws y CB newton_homogeneous DC S2 S3 _).
  - exact AP.
Qed.
Lemma idle f s blk : idle_search f -> st_norms s = (Fin 0, Fin 0) -> op_search e f blk s = Ok s.
Proof. intros I Z. unfold op_search. rewrite (I s Z). reflexivity. Qed.
Lemma begun t oo s : exists x, at_point (st_old s) x (begin_step e t oo s).
Proof.
  unfold begin_step. destruct (extrapolate _ _ _ _ _ _ _ _ _) as [tr up]. exists tr. split; [reflexivity|]. split; [|reflexivity].
  cbn [st_internal]. apply functional_extensionality. intros d. unfold merge, no_constraints. fold k. destruct (k d); reflexivity.
Qed.
Lemma zero_total s tol : st_norms s = (Fin 0, Fin 0) -> 0 < tol -> xltb (norm_total (step_ops e) s) (Fin tol) = true.
Proof.
  intros Q P. unfold norm_total, norm_macro, norm_micro. change (squares (step_ops e) s) with (st_norms s). rewrite Q.
  cbn [fst snd]. assert (X : Rltb 0 0 = false) by (apply Rltb_false; lra).
  unfold xsqrt. rewrite X, sqrt_0. cbn [xmul xadd].
  assert (Y : 0 * 0 + 0 * 0 = 0) by ring. rewrite Y, X, sqrt_0. cbn [xltb]. apply Rltb_true; lra.
Qed.
Lemma zero_norm v tol : v = Fin 0 -> 0 < tol -> xltb (xsqrt v) (Fin tol) = true.
Proof. intros -> P. assert (X : Rltb 0 0 = false) by (apply Rltb_false; lra). unfold xsqrt. rewrite X, sqrt_0. cbn [xltb]. apply Rltb_true; lra. Qed.

(** ** Monolithic: one iteration *)
Lemma mono_elastic fuel s : exact_solver b k (e_solve_mono e) -> idle_search (e_lambdas_mono e) ->
  0 < mono_tol sp -> (1 <= mono_n_max sp)%nat -> (1 <= fuel)%nat -> (exists old x, at_point old x s) ->
  exists r, mono_loop (step_ops e) sp fuel 0 true s [] = (Done r, [MonoIt 1]) /\ st_norms r = (Fin 0, Fin 0).
Proof.
  intros ES ID TP NM FU (old & x & A). destruct fuel as [|fuel]; [lia|].
  set (f := fst (call_active_set (step_ops e) sp true (op_update e (op_store s)))).
  set (g := op_residual e (op_affine e f)).
  assert (AG : at_point old (ModelActiveSet.distribute c x) g).
  { destruct A as (A1 & A2 & A3). unfold g, f, call_active_set. rewrite RI. split; [exact A1|]. split; [exact A2|].
    cbn [op_residual op_affine set_norms set_trial st_trial fst step_ops all_active op_update op_store]. rewrite A3. reflexivity. }
  destruct (after_solve (e_solve_mono e) old _ g (st_newton g) ES AG) as (y & S1 & x' & O' & A' & Z).
  specialize (Z (distribute_obeys x)).
  set (q := set_newton g _) in *.
  assert (M : mono_iteration (step_ops e) sp true s = Ok (after q, true)).
  { unfold mono_iteration.
    assert (CA : call_active_set (step_ops e) sp true (update_internal (step_ops e) (store_trial (step_ops e) s)) = (f, true)).
    { unfold f, call_active_set. rewrite RI. reflexivity. }
    rewrite CA. change (assemble_system (step_ops e) (distribute_affine (step_ops e) f)) with g.
    change (solve_mono (step_ops e) g) with (op_solve_mono e g). unfold op_solve_mono. rewrite S1. cbn [rbind]. fold q.
    change (assemble_res (step_ops e) (update_internal (step_ops e) (apply_mono (step_ops e) q))) with (after q).
    unfold maybe_search. destruct (mono_line_search sp); [|reflexivity].
    change (search_mono (step_ops e) (after q)) with (op_search e (e_lambdas_mono e) Macro (after q)). rewrite (idle _ _ _ ID Z). reflexivity. }
  exists (after q). split; [|exact Z]. clearbody q. cbn [mono_loop]. rewrite (proj2 (Nat.leb_le _ _)) by lia. rewrite M, (zero_total _ _ Z TP), RI. reflexivity.
Qed.

(** ** The micro loop leaves an elastic solution as it is *)
Definition settled (old x : vec) (s : sstate rank_data) : Prop := at_point old x s /\ st_tmp s = x /\ forall h, st_norms s = body_norms b old x h k.
Lemma settle old x s : at_point old x s -> st_tmp s = x -> settled old x (op_residual e (op_update e s)).
Proof.
  intros A T. assert (A' : at_point old x (op_update e s)) by exact A. split; [exact A'|]. split; [exact T|]. intros h.
  rewrite (residual_norms old x _ A'). apply norms_of.
Qed.
Lemma micro_apply l old x s : at_point old x s -> at_point old x (op_apply e l Micro s).
Proof. intros (A1 & A2 & A3). split; [exact A1|]. split; [exact A2|]. cbn [op_apply set_trial st_trial]. unfold update_trial. rewrite micro_none. exact A3. Qed.
Lemma micro_pass old x l s : obeys c x -> settled old x s -> settled old x (op_search_pass e Micro s l).
Proof.
  intros O ((A1 & A2 & A3) & T & _). unfold op_search_pass. apply settle; [|exact T]. apply micro_apply. split; [exact A1|]. split; [exact A2|].
  cbn [set_trial st_trial]. unfold reset_trial. rewrite macro_all, same_distribute, T. apply distribute_fixed. exact O.
Qed.
Lemma micro_passes old x ls : forall s, obeys c x -> settled old x s -> settled old x (fold_left (op_search_pass e Micro) ls s).
Proof. induction ls as [|l ls IH]; intros s O S; [exact S|]. cbn [fold_left]. apply IH; [exact O|]. apply micro_pass; assumption. Qed.
Lemma micro_elastic loop left it s log old x : (forall s, exists y, e_solve_micro e s = Ok y) -> 0 < micro_tol sp -> (1 <= left)%nat ->
  obeys c x -> at_point old x s ->
  exists r, micro_loop (step_ops e) sp loop left it s log = (Done r, log ++ [MicroIt loop (it + 1)]) /\ settled old x r.
Proof.
  intros SM TP LE O A. destruct left as [|left]; [lia|]. cbn [micro_loop].
  set (g := op_residual e (op_update e (op_store s))). destruct (SM g) as (y & S1).
  set (q := set_newton g (set_block (layout e) Micro (fun _ => 0) (ModelActiveSet.distribute (st_internal g) y))).
  assert (Q : settled old x (op_residual e (op_update e (op_apply e 1 Micro q)))).
  { apply settle; [|exact (proj2 (proj2 A))]. apply micro_apply. exact A. }
  assert (M : exists r, micro_iteration (step_ops e) sp s = Ok r /\ settled old x r).
  { unfold micro_iteration. change (assemble_system (step_ops e) (update_internal (step_ops e) (store_trial (step_ops e) s))) with g.
    change (solve_micro (step_ops e) g) with (op_solve_block e (e_solve_micro e) Micro g). unfold op_solve_block. rewrite S1. cbn [rbind]. fold q.
    change (assemble_res (step_ops e) (update_internal (step_ops e) (apply_micro (step_ops e) q))) with (op_residual e (op_update e (op_apply e 1 Micro q))).
    unfold maybe_search. destruct (micro_line_search sp); [|eauto].
    change (search_micro (step_ops e) ?z) with (Ok (fold_left (op_search_pass e Micro) (e_lambdas_micro e z) z)).
    eexists. split; [reflexivity|]. apply micro_passes; assumption. }
  destruct M as (r & M & SR). exists r. split; [|exact SR]. rewrite M. unfold norm_micro. change (squares (step_ops e) r) with (st_norms r).
  destruct SR as (_ & _ & N). rewrite (N (st_hist s)). rewrite (zero_norm _ _ (micro_norm_zero b C EL _ _ _ _) TP). reflexivity.
Qed.

(** ** Embracing: one macro iteration *)
Lemma embrace_elastic fuel s : exact_solver b k (e_solve_macro e) -> (forall s, exists y, e_solve_micro e s = Ok y) -> idle_search (e_lambdas_macro e) ->
  0 < macro_tol sp -> 0 < micro_tol sp -> (1 <= macro_n_max sp)%nat -> (1 <= micro_n_max sp)%nat -> (2 <= fuel)%nat -> (exists old x, at_point old x s) ->
  exists r, embracing_algorithm (step_ops e) sp fuel s = (Done r, [MacroIt 1 1; MicroIt 1 1]) /\ st_norms r = (Fin 0, Fin 0).
Proof.
  intros ES SM ID TP TP2 NM NU FU (old & x0 & A0). destruct fuel as [|[|fuel]]; [lia|lia|].
  unfold embracing_algorithm. set (s0 := distribute_affine (step_ops e) s). set (x := ModelActiveSet.distribute c x0).
  assert (A : at_point old x s0). { destruct A0 as (A1 & A2 & A3). split; [exact A1|]. split; [exact A2|]. unfold s0. cbn [step_ops distribute_affine op_affine set_trial st_trial]. rewrite A3. reflexivity. }
  assert (O : obeys c x) by apply distribute_obeys. clearbody s0 x. clear A0 s x0.
  set (g := reevaluate (step_ops e) s0). assert (AG : at_point old x g) by exact A.
  destruct (after_solve (e_solve_macro e) old _ g (fun _ => 0) ES AG) as (y & S1 & x' & O' & A' & Z). specialize (Z O).
  set (q := set_newton g _) in *.
  assert (M : embrace_macro (step_ops e) sp 1 g = Ok (after q)).
  { unfold embrace_macro. cbn [Nat.eqb]. change (assemble_jac (step_ops e) g) with g. change (solve_macro (step_ops e) g) with (op_solve_block e (e_solve_macro e) Macro g).
    unfold op_solve_block. rewrite S1. cbn [rbind]. fold q. change (assemble_res (step_ops e) (update_internal (step_ops e) (apply_macro (step_ops e) q))) with (after q).
    unfold maybe_search. destruct (macro_line_search sp); [|reflexivity].
    change (search_macro (step_ops e) (after q)) with (op_search e (e_lambdas_macro e) Macro (after q)). apply idle; assumption. }
  assert (N0 : forall h, body_norms b old x' h k = (Fin 0, Fin 0)).
  { intros h. rewrite <- Z. destruct A' as (B1 & B2 & B3). unfold after. rewrite (residual_norms old x'); [apply norms_of|split; [exact B1|split; [exact B2|exact B3]]]. }
  clearbody q. set (s1 := after q) in *. clearbody s1.
  set (s2 := fst (call_active_set (step_ops e) sp true s1)).
  assert (CA : call_active_set (step_ops e) sp true s1 = (s2, true)) by (unfold s2, call_active_set; rewrite RI; reflexivity).
  assert (A2 : at_point old x' s2) by (unfold s2, call_active_set; rewrite RI; exact A').
  set (s3 := if reset_at_micro_loop sp then reset_micro_to_initial (step_ops e) s2 else s2).
  assert (A3 : at_point old x' s3).
  { unfold s3. destruct (reset_at_micro_loop sp); [|exact A2]. destruct A2 as (B1 & B2 & B3). split; [exact B1|]. split; [exact B2|].
    cbn [step_ops reset_micro_to_initial op_reset set_trial st_trial]. unfold reset_trial. rewrite micro_none. exact B3. }
  destruct (micro_elastic 1 (micro_n_max sp) 0 s3 [MacroIt 1 1] old x' SM TP2 NU O' A3) as (s4 & M4 & SE).
  set (s5 := reevaluate (step_ops e) s4).
  assert (Z5 : st_norms s5 = (Fin 0, Fin 0)).
  { destruct SE as (B & _). unfold s5, reevaluate. change (assemble_res (step_ops e) (update_internal (step_ops e) (store_trial (step_ops e) s4))) with (op_residual e (op_update e (op_store s4))).
    rewrite (residual_norms old x'); [apply N0|exact B]. }
  exists s5. split; [|exact Z5].
  cbn [embrace]. fold g. rewrite andb_false_r. rewrite (proj2 (Nat.leb_le (0 + 1) _)) by lia. change (0 + 1)%nat with 1%nat. rewrite M. cbn [app]. rewrite CA. fold s3. rewrite M4.
  cbn [app]. fold s5. unfold norm_macro. change (squares (step_ops e) s5) with (st_norms s5). rewrite Z5. cbn [fst]. rewrite (zero_norm _ _ eq_refl TP). reflexivity.
Qed.

(** ** Bouncing: at most two macro iterations (the first one brings the boundary values) *)
Lemma bounce_finish fuel mit mloop s old x log uloop : (forall s, exists y, e_solve_micro e s = Ok y) -> 0 < micro_tol sp -> (1 <= micro_n_max sp)%nat ->
  (S mloop <= max_n_solution_loops sp)%nat -> (1 <= mit)%nat -> (1 <= mloop)%nat -> (2 <= fuel)%nat ->
  obeys c x -> at_point old x s -> (forall h, st_norms s = body_norms b old x h k) -> xltb (norm_macro (step_ops e) s) (Fin (macro_tol sp)) = true ->
  exists r, bounce (step_ops e) sp fuel mit mloop uloop false s log = (Done r, log ++ [MicroIt (uloop + 1) 1]) /\ settled old x r.
Proof.
  intros SM TP NU ML MI M1 FU O A N T. destruct fuel as [|[|fuel]]; [lia|lia|]. cbn [bounce].
  assert (F : (if (Nat.eqb mloop 1 && Nat.eqb mit 0)%bool then false else xltb (norm_macro (step_ops e) s) (Fin (macro_tol sp))) = true).
  { rewrite (proj2 (Nat.eqb_neq mit 0)) by lia. rewrite andb_false_r. exact T. }
  rewrite F. set (s1 := fst (call_active_set (step_ops e) sp true s)).
  assert (CA : call_active_set (step_ops e) sp true s = (s1, true)) by (unfold s1, call_active_set; rewrite RI; reflexivity). rewrite CA.
  set (s2 := distribute_affine (step_ops e) s1).
  assert (A2 : at_point old x s2).
  { unfold s2, s1, call_active_set. rewrite RI. destruct A as (B1 & B2 & B3). split; [exact B1|]. split; [exact B2|].
    cbn [fst step_ops distribute_affine op_affine all_active set_trial st_trial]. rewrite B3. apply distribute_fixed. exact O. }
  set (s3 := if reset_at_micro_loop sp then reset_micro_to_initial (step_ops e) s2 else s2).
  assert (A3 : at_point old x s3).
  { unfold s3. destruct (reset_at_micro_loop sp); [|exact A2]. destruct A2 as (B1 & B2 & B3). split; [exact B1|]. split; [exact B2|].
    cbn [step_ops reset_micro_to_initial op_reset set_trial st_trial]. unfold reset_trial. rewrite micro_none. exact B3. }
  destruct (micro_elastic (uloop + 1) (micro_n_max sp) 0 s3 log old x SM TP NU O A3) as (s4 & M4 & SE).
  rewrite M4. rewrite (proj2 (Nat.leb_le _ _)) by lia. exists s4. split; [|exact SE].
  rewrite (proj2 (Nat.eqb_neq (mloop + 1) 1)) by lia. cbn [andb].
  assert (T4 : xltb (norm_macro (step_ops e) s4) (Fin (macro_tol sp)) = true).
  { rewrite <- T. unfold norm_macro. change (squares (step_ops e) s4) with (st_norms s4). change (squares (step_ops e) s) with (st_norms s).
    destruct SE as (_ & _ & N4). rewrite (N4 (st_hist s)), (N (st_hist s)). reflexivity. }
  rewrite T4. reflexivity.
Qed.
Lemma macro_step it s old x : exact_solver b k (e_solve_macro e) -> at_point old x s ->
  exists x' r, macro_iteration (step_ops e) sp it s = Ok r /\ obeys c x' /\ at_point old x' r /\ (forall h, st_norms r = body_norms b old x' h k) /\
    (obeys c x -> idle_search (e_lambdas_macro e) -> st_norms r = (Fin 0, Fin 0)).
Proof.
  intros ES A. set (g0 := op_residual e (op_update e (op_store s))). assert (AG : at_point old x g0) by exact A.
  destruct (after_solve (e_solve_macro e) old _ g0 (fun _ => 0) ES AG) as (y & S1 & x' & O' & A' & Z).
  set (q := set_newton g0 _) in *.
  assert (E : macro_iteration (step_ops e) sp it s = maybe_search (macro_line_search sp) (op_search e (e_lambdas_macro e) Macro) (after q)).
  { unfold macro_iteration. cbv zeta.
    assert (G : assemble_res (step_ops e) (if Nat.eqb it 1 then assemble_jac (step_ops e) (update_internal (step_ops e) (store_trial (step_ops e) s))
       else update_internal (step_ops e) (store_trial (step_ops e) s)) = g0) by (destruct (Nat.eqb it 1); reflexivity).
    rewrite G. change (solve_macro (step_ops e) g0) with (op_solve_block e (e_solve_macro e) Macro g0). unfold op_solve_block. rewrite S1. reflexivity. }
  assert (N : forall h, st_norms (after q) = body_norms b old x' h k).
  { intros h. destruct A' as (B1 & B2 & B3). unfold after. rewrite (residual_norms old x'); [apply norms_of|split; [exact B1|split; [exact B2|exact B3]]]. }
  rewrite E. unfold maybe_search. destruct (macro_line_search sp).
  - unfold op_search.
    assert (P : forall ls s0 x0, at_point old x0 s0 -> obeys c x0 -> (forall h, st_norms s0 = body_norms b old x0 h k) ->
      exists x1, obeys c x1 /\ at_point old x1 (fold_left (op_search_pass e Macro) ls s0) /\ forall h, st_norms (fold_left (op_search_pass e Macro) ls s0) = body_norms b old x1 h k).
    { induction ls as [|l ls IH]; intros s0 x0 B O0 N0; [exists x0; auto|]. cbn [fold_left].
      set (z := op_apply e l Macro (set_trial s0 (reset_trial (layout e) (st_trial s0) (st_tmp s0) Macro))).
      assert (X : exists x1, obeys c x1 /\ at_point old x1 z).
      { destruct B as (B1 & B2 & B3). eexists. split; [|split; [exact B1|split; [exact B2|]]].
        2:{ unfold z. cbn [op_apply set_trial st_trial]. rewrite moved_trial. reflexivity. }
        apply distribute_obeys. }
      destruct X as (x1 & O1 & A1). apply (IH _ x1); [exact A1|exact O1|]. intros h. unfold op_search_pass. fold z.
      rewrite (residual_norms old x1); [apply norms_of|exact A1]. }
    destruct (P (e_lambdas_macro e (after q)) (after q) x' A' O' N) as (x1 & O1 & B1 & N1).
    exists x1. eexists. split; [reflexivity|]. split; [exact O1|]. split; [exact B1|]. split; [exact N1|].
    intros O I. rewrite (I _ (Z O)). exact (Z O).
  - exists x'. eexists. split; [reflexivity|]. split; [exact O'|]. split; [exact A'|]. split; [exact N|]. intros O _. exact (Z O).
Qed.
Lemma bounce_elastic fuel s : exact_solver b k (e_solve_macro e) -> (forall s, exists y, e_solve_micro e s = Ok y) -> idle_search (e_lambdas_macro e) ->
  0 < macro_tol sp -> 0 < micro_tol sp -> (2 <= macro_n_max sp)%nat -> (1 <= micro_n_max sp)%nat -> (2 <= max_n_solution_loops sp)%nat -> (4 <= fuel)%nat ->
  (exists old x, at_point old x s) ->
  exists r log, bouncing_algorithm (step_ops e) sp fuel s = (Done r, log) /\ (log = [MacroIt 1 1; MicroIt 1 1] \/ log = [MacroIt 1 1; MacroIt 1 2; MicroIt 1 1]).
Proof.
  intros ES SM ID TP TP2 NM NU NL FU (old & x & A). unfold bouncing_algorithm. destruct fuel as [|fuel]; [lia|]. cbn [bounce].
  change (Nat.eqb 1 1 && Nat.eqb 0 0)%bool with true. cbv iota. rewrite (proj2 (Nat.leb_le (0 + 1) _)) by lia.
  destruct (macro_step (0 + 1) s old x ES A) as (x1 & s1 & M1 & O1 & A1 & N1 & _). rewrite M1. cbn [app]. change (0 + 1)%nat with 1%nat.
  destruct (xltb (norm_macro (step_ops e) s1) (Fin (macro_tol sp))) eqn:T1.
  - destruct (bounce_finish fuel 1 1 s1 old x1 [MacroIt 1 1] 0) as (r & B & _); try assumption; try lia. exists r. eexists. split; [exact B|]. left; reflexivity.
  - destruct fuel as [|fuel]; [lia|]. cbn [bounce]. change (Nat.eqb 1 1 && Nat.eqb 1 0)%bool with false. cbv iota. rewrite T1.
    rewrite (proj2 (Nat.leb_le (1 + 1) _)) by lia. change (1 + 1)%nat with 2%nat.
    destruct (macro_step 2 s1 old x1 ES A1) as (x2 & s2 & M2 & O2 & A2 & N2 & Z2). specialize (Z2 O1 ID). rewrite M2. cbn [app].
    destruct (bounce_finish fuel 2 1 s2 old x2 [MacroIt 1 1; MacroIt 1 2] 0) as (r & B & _); try assumption; try lia.
    + unfold norm_macro. change (squares (step_ops e) s2) with (st_norms s2). rewrite Z2. cbn [fst]. apply zero_norm; [reflexivity|exact TP].
    + exists r. eexists. split; [exact B|]. right; reflexivity.
Qed.
End Step.

(** A time step of an elastic body is always accepted: after one Newton iteration, with residual
    zero; after at most two with the bouncing algorithm. *)
Theorem C102_elastic_step_is_accepted : forall b e sp a fuel t oo s,
  SpecBody.consistent b -> elastic_body b -> works_on e b -> only_displacement_block e ->
  lines_are_closed (p_affine (e_problem e)) -> homogeneous_version (p_affine (e_problem e)) (p_newton (e_problem e)) ->
  closed_below (b_ndofs b) (p_newton (e_problem e)) -> dofs_of_cells b (p_newton (e_problem e)) ->
  rate_independent sp = false -> solvers_work a b (p_newton (e_problem e)) e -> limits_suffice a sp -> (turns a <= fuel)%nat ->
  exists r, solve_nonlinear_system e sp a fuel t oo s = Done r /\ (a <> Bouncing -> st_norms r = (Fin 0, Fin 0)).
Proof.
  intros b e sp a fuel t oo s C EL W BL CL HV CB DC RI SW LS FU.
  destruct (begun e t oo s) as (x & A).
  assert (A' : exists old x, at_point e old x (begin_step e t oo s)) by (exists (st_old s), x; exact A).
  unfold solve_nonlinear_system, solve_nonlinear. destruct a; cbn [turns solvers_work limits_suffice] in *.
  - destruct SW as (ES & ID). destruct LS as (L1 & L2).
    destruct (mono_elastic b e sp C EL W BL CL HV CB DC RI fuel (begin_step e t oo s) ES ID L1 L2 FU A') as (r & M & Z).
    unfold monolithic_algorithm. rewrite M. cbn [fst]. eexists. split; [reflexivity|]. intros _. exact Z.
  - destruct SW as (ES & ID & SM). destruct LS as (L1 & L2 & L3 & L4 & L5).
    destruct (bounce_elastic b e sp C EL W BL CL HV CB DC RI fuel (begin_step e t oo s) ES SM ID L1 L2 L3 L4 L5 FU A') as (r & log & M & _).
    rewrite M. cbn [fst]. eexists. split; [reflexivity|]. intros X. contradiction.
  - destruct SW as (ES & ID & SM). destruct LS as (L1 & L2 & L3 & L4).
    destruct (embrace_elastic b e sp C EL W BL CL HV CB DC RI fuel (begin_step e t oo s) ES SM ID L1 L2 L3 L4 FU A') as (r & M & Z).
    rewrite M. cbn [fst]. eexists. split; [reflexivity|]. intros _. exact Z.
Qed.
(** The Newton iterations it takes, as printed by the program. *)
Theorem C102_number_of_iterations : forall b e sp fuel t oo s,
  SpecBody.consistent b -> elastic_body b -> works_on e b -> only_displacement_block e ->
  lines_are_closed (p_affine (e_problem e)) -> homogeneous_version (p_affine (e_problem e)) (p_newton (e_problem e)) ->
  closed_below (b_ndofs b) (p_newton (e_problem e)) -> dofs_of_cells b (p_newton (e_problem e)) ->
  rate_independent sp = false -> (4 <= fuel)%nat ->
  (solvers_work Monolithic b (p_newton (e_problem e)) e -> limits_suffice Monolithic sp -> snd (monolithic_algorithm (step_ops e) sp fuel (begin_step e t oo s)) = [MonoIt 1]) /\
  (solvers_work Embracing b (p_newton (e_problem e)) e -> limits_suffice Embracing sp -> snd (embracing_algorithm (step_ops e) sp fuel (begin_step e t oo s)) = [MacroIt 1 1; MicroIt 1 1]) /\
  (solvers_work Bouncing b (p_newton (e_problem e)) e -> limits_suffice Bouncing sp ->
     let log := snd (bouncing_algorithm (step_ops e) sp fuel (begin_step e t oo s)) in log = [MacroIt 1 1; MicroIt 1 1] \/ log = [MacroIt 1 1; MacroIt 1 2; MicroIt 1 1]).
Proof.
  intros b e sp fuel t oo s C EL W BL CL HV CB DC RI FU. destruct (begun e t oo s) as (x & A). 
  assert (A' : exists old x, at_point e old x (begin_step e t oo s)) by (exists (st_old s), x; exact A).
  split; [|split].
  - intros (ES & ID) (L1 & L2). destruct (mono_elastic b e sp C EL W BL CL HV CB DC RI fuel (begin_step e t oo s) ES ID L1 L2 ltac:(lia) A') as (r & M & _).
    unfold monolithic_algorithm. rewrite M. reflexivity.
  - intros (ES & ID & SM) (L1 & L2 & L3 & L4).
    destruct (embrace_elastic b e sp C EL W BL CL HV CB DC RI fuel (begin_step e t oo s) ES SM ID L1 L2 L3 L4 ltac:(lia) A') as (r & M & _). rewrite M. reflexivity.
  - intros (ES & ID & SM) (L1 & L2 & L3 & L4 & L5). cbv zeta.
    destruct (bounce_elastic b e sp C EL W BL CL HV CB DC RI fuel (begin_step e t oo s) ES SM ID L1 L2 L3 L4 L5 FU A') as (r & log & M & X). rewrite M. exact X.
Qed.

(** ** The run *)
Lemma elastic_loop (p : program rank_data) a inner : pr_frequency p <> 0%Z ->
  (forall k dt ts t oo s, exists r, solve_nonlinear_system (step_env p k dt ts) (pr_parameters p) (pr_algorithm p) inner t oo s = Done r) ->
  forall fuel step current previous ts oo s tr, time_loop a (pr_loading p) (pr_frequency p) (fun _ => true) fuel step current = (tr, Finished) ->
  exists tr', program_loop p a inner fuel step current previous ts oo s = (tr', Completed) /\ map ac_record tr' = tr.
Proof.
  intros F D. induction fuel as [|fuel IH]; intros step current previous ts oo s tr; cbn [program_loop time_loop].
  - destruct (Rltb _ _); [discriminate|]. intros E. injection E as <-. exists []. split; reflexivity.
  - destruct (Rltb _ _); [|intros E; injection E as <-; exists []; split; reflexivity].
    cbv zeta. set (next := clipped_next _ _ _ _).
    destruct (D (Z.to_nat step) (a_add a next (- current)) (next :: ts)
      (mk_timing (Z.to_nat step) (pr_factor p) (a_add a next (- current)) previous (skip_extrapolation (pr_loading p) step)) oo s) as (r & S). rewrite S.
    destruct (shift_solutions r) as [oo' s']. destruct (Z.eqb_spec (pr_frequency p) 0); [contradiction|].
    destruct (time_loop _ _ _ _ _ _ _) as [tr1 e1] eqn:L. intros E. injection E as <- ->.
    destruct (IH _ _ (a_add a next (- current)) (next :: ts) oo' s' _ L) as (tr' & R1 & R2). rewrite R1. eexists. split; [reflexivity|]. cbn [map ac_record]. rewrite R2. reflexivity.
Qed.
Lemma elastic_solves p bodies b0 inner : elastic_test p bodies b0 inner -> forall k dt ts t oo s,
  exists r, solve_nonlinear_system (step_env p k dt ts) (pr_parameters p) (pr_algorithm p) inner t oo s = Done r.
Proof.
  intros (OB & WF & HH & RI & _ & LS & FU & SB) k dt ts t oo s. destruct (OB k dt) as (Cb & _ & W & _ & _). destruct (SB k dt) as (EL & BL & SW & CB & DC).
  destruct (C102_elastic_step_is_accepted (bodies k dt) (step_env p k dt ts) (pr_parameters p) (pr_algorithm p) inner t oo s) as (r & E & _); try assumption.
  - exact (proj1 (WF k dt ts)).
  - exact (C82_newton_constraints_are_the_homogeneous_version (pr_strip p) (control_time p 0) (map (control_time p) ts) HH).
  - exists r. exact E.
Qed.
(** The shear test of an elastic body runs to its end: all planned steps are made, ... *)
Theorem C102_elastic_test_completes : forall p bodies b0 inner fuel oo s,
  elastic_test p bodies b0 inner -> valid_loading (pr_loading p) -> no_negligible_rest (pr_loading p) ->
  (Z.to_nat (planned_steps (pr_loading p)) <= fuel)%nat ->
  exists tr, program_run p exact inner fuel oo s = (tr, Completed) /\ length tr = Z.to_nat (planned_steps (pr_loading p)) /\
    forall k x, nth_error tr k = Some x -> st_number (ac_record x) = Z.of_nat (k + 1) /\ ModelLoading.st_time (ac_record x) = planned_time (pr_loading p) (k + 1).
Proof.
  intros p bodies b0 inner fuel oo s ET V NR FU. pose proof ET as (_ & _ & _ & _ & F & _).
  destruct (C50_run_follows_the_plan (pr_loading p) (pr_frequency p) (fun _ => true) fuel V NR F (fun _ => eq_refl) FU) as (tr & R1 & R2 & R3).
  destruct (elastic_loop p exact inner F (elastic_solves p bodies b0 inner ET) fuel 0%Z start_time 0 [] oo s tr R1) as (tr' & P1 & P2).
  exists tr'. split; [exact P1|]. rewrite <- P2, map_length in R2. split; [exact R2|]. intros k x X. apply R3. rewrite <- P2, nth_error_map, X. reflexivity.
Qed.
(** ... also with a clock in double precision. *)
Theorem C102_elastic_test_completes_in_double_precision : forall p bodies b0 inner fuel oo s,
  elastic_test p bodies b0 inner -> let l := pr_loading p in
  l_type l = Monotonic -> is_double (l_duration_mono l) -> / 2 ^ 900 <= l_duration_mono l -> (1 <= l_n_mono l <= 1000000)%Z -> (Z.to_nat (l_n_mono l) <= fuel)%nat ->
  exists tr, program_run p double inner fuel oo s = (tr, Completed) /\ length tr = Z.to_nat (l_n_mono l).
Proof.
  intros p bodies b0 inner fuel oo s ET l T ID LO NM FU. pose proof ET as (_ & _ & _ & _ & F & _).
  destruct (C50_double_precision_monotonic l (pr_frequency p) (fun _ => true) fuel T ID LO NM F (fun _ => eq_refl) FU) as (tr & R1 & R2 & _).
  destruct (elastic_loop p double inner F (elastic_solves p bodies b0 inner ET) fuel 0%Z start_time 0 [] oo s tr R1) as (tr' & P1 & P2).
  exists tr'. split; [exact P1|]. rewrite <- P2, map_length in R2. exact R2.
Qed.
