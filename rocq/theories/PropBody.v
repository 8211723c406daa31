(** * C92: accepted solutions are in equilibrium. *)
From Coq Require Import FunctionalExtensionality Permutation.
From Verif Require Import Num SumLemmas Tensors TensorLemmas ModelUtilities ModelElastic ModelMicro SpecMicro ModelCohesive
  SpecCohesive ProofCohesive ModelHistory SpecHistory ProofHistory ModelInterface ProofInterface ModelFEField ModelLineSearch ModelActiveSet SpecActiveSet PropActiveSet
  ModelLinear SpecLinear PropLinear ModelAssembly SpecAssembly ProofAssembly PropAssembly PropPower ModelSolver ModelSweep SpecSweep
  PropSweep ModelStep SpecStep ProofStep PropStep ModelBody SpecBody.
Open Scope R_scope.

(** ** Updating the histories forgets earlier updates *)
Lemma at2_mat (f : nat -> nat -> R) nq ns a q : at2 (map (fun a => map (f a) (seq 0 nq)) (seq 0 ns)) a q =
  if andb (Nat.ltb a ns) (Nat.ltb q nq) then Some (f a q) else None.
Proof.
  assert (N : forall {A} (g : nat -> A) n i, nth_error (map g (seq 0 n)) i = if Nat.ltb i n then Some (g i) else None).
  { intros A g n i. destruct (Nat.ltb_spec i n) as [L|L].
    - rewrite nth_error_map. rewrite (nth_error_nth' _ 0%nat) by (rewrite seq_length; exact L). rewrite seq_nth by exact L. reflexivity.
    - apply nth_error_None. rewrite map_length, seq_length. exact L. }
  unfold at2. rewrite N. destruct (Nat.ltb a ns); [|reflexivity]. rewrite N. destruct (Nat.ltb q nq); reflexivity.
Qed.
Definition same_shape (q : nat) (u v : list (list R)) : Prop := forall a, at2 u a q = None <-> at2 v a q = None.
Lemma harden_row_shape s u v o q al : same_shape q u v -> forall bs acc x, harden_row s u o q al bs acc = Ok x ->
  forall acc', exists y, harden_row s v o q al bs acc' = Ok y.
Proof.
  intros S. induction bs as [|b bs IH]; intros acc x E acc'; cbn [harden_row] in *; [eauto|].
  destruct (at2 u b q) eqn:U; [|discriminate E]. destruct (at2 o b q); [|discriminate E].
  destruct (at2 v b q) eqn:V; [|apply S in V; congruence]. eapply IH; eauto.
Qed.
Lemma harden_all_shape s u v o q : same_shape q u v -> forall res al x, harden_all s u o q al res = Ok x ->
  exists y, harden_all s v o q al res = Ok y.
Proof.
  intros S. induction res as [|r rs IH]; intros al x E; cbn [harden_all] in *; [eauto|].
  destruct (harden_row s u o q al _ r) as [r'| |] eqn:E1; try discriminate E. cbn [rbind] in E.
  destruct (harden_all s u o q (Datatypes.S al) rs) as [rs'| |] eqn:E2; try discriminate E.
  destruct (harden_row_shape s u v o q al S _ _ _ E1 r) as (y & ->). destruct (IH _ _ E2) as (ys & ->). cbn. eauto.
Qed.
Lemma bulk_twice s t q u v o : ModelHistory.step s (Update q u o) = Ok t ->
  ModelHistory.step t (Update q v o) = ModelHistory.step s (Update q v o).
Proof.
  unfold ModelHistory.step. destruct (flag_init s) eqn:F; [|discriminate]. destruct (flag_perfect_plasticity (prm s)) eqn:P.
  - intros E; injection E as <-. cbn. rewrite P. reflexivity.
  - destruct (harden_all s u o q 0 (tmp_res s)) as [w| |]; cbn [rbind]; try discriminate. intros E; injection E as <-.
    cbn [flag_init prm tmp_res ModelHistory.n_slips char_res]. rewrite P.
    rewrite (harden_all_ext (mk_qph true (ModelHistory.n_slips s) (prm s) (char_res s) w (tmp_res s)) s) by reflexivity. reflexivity.
Qed.
Lemma bulk_status s t q u v o : same_shape q u v -> ModelHistory.step s (Update q u o) = Ok t ->
  exists t', ModelHistory.step s (Update q v o) = Ok t'.
Proof.
  intros S. unfold ModelHistory.step. destruct (flag_init s) eqn:F; [|discriminate]. destruct (flag_perfect_plasticity (prm s)) eqn:P; [eauto|].
  destruct (harden_all s u o q 0 (tmp_res s)) as [w| |] eqn:E; cbn [rbind]; try discriminate. intros _.
  destruct (harden_all_shape s u v o q S _ _ _ E) as (y & ->). cbn. eauto.
Qed.
Lemma exp_twice s t a c : istep s (IUpdateExp a) = Ok t -> istep t (IUpdateExp c) = istep s (IUpdateExp c).
Proof. cbn [istep]. destruct (i_prm s) as [p|] eqn:P; [|discriminate]. intros E; injection E as <-. reflexivity. Qed.
Lemma exps_then {A} (f : A -> R) vs : forall s t c, frun s (map (fun v => FCall (IUpdateExp (f v))) vs) = Ok t ->
  istep t (IUpdateExp c) = istep s (IUpdateExp c).
Proof.
  induction vs as [|v vs IH]; intros s t c E; cbn [map frun] in E; [injection E as <-; reflexivity|].
  cbn [face_step] in E. destruct (istep s (IUpdateExp (f v))) as [s1| |] eqn:E1; try discriminate E. cbn [rbind] in E.
  rewrite (IH s1 t c E). apply (exp_twice s s1 (f v)). exact E1.
Qed.
Lemma exps_twice {A} (f g : A -> R) vs s t : frun s (map (fun v => FCall (IUpdateExp (f v))) vs) = Ok t ->
  frun t (map (fun v => FCall (IUpdateExp (g v))) vs) = frun s (map (fun v => FCall (IUpdateExp (g v))) vs).
Proof.
  intros E. destruct vs as [|v vs]; [cbn in *; congruence|]. cbn [map frun face_step].
  rewrite (exps_then f (v :: vs) s t (g v) E). reflexivity.
Qed.
Lemma exps_status {A} (f g : A -> R) vs : forall s t, frun s (map (fun v => FCall (IUpdateExp (f v))) vs) = Ok t ->
  exists t', frun s (map (fun v => FCall (IUpdateExp (g v))) vs) = Ok t'.
Proof.
  assert (K : forall vs s, (exists p, i_prm s = Some p) -> exists t', frun s (map (fun v : A => FCall (IUpdateExp (g v))) vs) = Ok t').
  { clear vs. induction vs as [|v vs IH]; intros s (p & P); cbn [map frun face_step istep]; [eauto|].
    rewrite P. cbn [rbind]. apply IH. cbn. eauto. }
  destruct vs as [|v vs]; intros s t E; [eauto|]. apply K. cbn [map frun face_step istep] in E.
  destruct (i_prm s) as [p|]; [eauto|discriminate E].
Qed.

Lemma rank_data_eq r s : (forall c q, r_bulk r c q = r_bulk s c q) -> (forall k q, r_face r k q = r_face s k q) -> r = s.
Proof.
  intros B F. destruct r as [rb rf], s as [sb sf]. cbn in *. f_equal.
  - apply functional_extensionality; intros c; apply functional_extensionality; intros q; apply B.
  - apply functional_extensionality; intros k; apply functional_extensionality; intros q; apply F.
Qed.
(** The calls a sweep [Refresh] makes on an object. *)
Lemma refresh_bulk_ops b y c q : NoDup (b_cells b) ->
  bulk_ops c q (flat_map (sweep_calls (sweep_of b) (b_cells b)) [Refresh y]) =
  if andb (mem c (b_cells b)) (Nat.ltb q (b_nq b)) then [Update q (f_slips y c) (f_old_slips y c)] else [].
Proof. intros N. rewrite bulk_once_run by exact N. reflexivity. Qed.
Lemma refresh_face_ops b y k q : exponential_damage_only b ->
  face_ops k q (flat_map (sweep_calls (sweep_of b) (b_cells b)) [Refresh y]) =
  if Nat.ltb q (b_nfq b) then map (fun v => FCall (IUpdateExp (opening_from (sweep_of b) y (fst v) (snd v) q)))
    (visits (sweep_of b) (b_cells b) k) else [].
Proof.
  intros M. cbn [flat_map]. rewrite app_nil_r, face_sweep. cbn [w_nfq sweep_of]. destruct (Nat.ltb q (b_nfq b)); [|reflexivity].
  destruct M as [M|M].
  - apply map_ext. intros v. cbn [face_call_of sweep_of w_model]. rewrite M. reflexivity.
  - rewrite no_visits by exact M. reflexivity.
Qed.
Lemma body_forgets b : NoDup (b_cells b) -> exponential_damage_only b -> forgets_iterates (body_update b).
Proof.
  intros N M old x y h. unfold body_update at 2. unfold sweep_all.
  destruct (run_sweeps (sweep_of b) (b_cells b) [Refresh (fields_of b old y)] h) as [h1| |] eqn:E1; [|reflexivity|reflexivity].
  assert (SH : forall c q, same_shape q (f_slips (fields_of b old y) c) (f_slips (fields_of b old x) c)).
  { intros c q a. cbn [fields_of f_slips]. rewrite !at2_mat. destruct (andb _ _); split; congruence. }
  unfold run_sweeps in E1.
  assert (B1 : forall c q, brun (r_bulk h c q) (bulk_ops c q (flat_map (sweep_calls (sweep_of b) (b_cells b)) [Refresh (fields_of b old y)])) = Ok (r_bulk h1 c q))
    by (intros; apply exec_all_bulk; exact E1).
  assert (F1 : forall k q, frun (r_face h k q) (face_ops k q (flat_map (sweep_calls (sweep_of b) (b_cells b)) [Refresh (fields_of b old y)])) = Ok (r_face h1 k q))
    by (intros; apply exec_all_face; exact E1).
  assert (BT : forall c q, brun (r_bulk h1 c q) (bulk_ops c q (flat_map (sweep_calls (sweep_of b) (b_cells b)) [Refresh (fields_of b old x)])) =
    brun (r_bulk h c q) (bulk_ops c q (flat_map (sweep_calls (sweep_of b) (b_cells b)) [Refresh (fields_of b old x)])) /\
    exists g, brun (r_bulk h c q) (bulk_ops c q (flat_map (sweep_calls (sweep_of b) (b_cells b)) [Refresh (fields_of b old x)])) = Ok g).
  { intros c q. specialize (B1 c q). rewrite refresh_bulk_ops in * by exact N.
    destruct (andb _ _); [|cbn in B1 |- *; injection B1 as ->; eauto]. cbn [brun] in *.
    destruct (ModelHistory.step (r_bulk h c q) (Update q (f_slips (fields_of b old y) c) (f_old_slips (fields_of b old y) c))) as [g| |] eqn:S; try discriminate B1.
    cbn [rbind] in B1. injection B1 as ->. cbn [fields_of f_old_slips] in *.
    rewrite (bulk_twice _ _ _ _ (f_slips (fields_of b old x) c) _ S).
    destruct (bulk_status _ _ _ _ (f_slips (fields_of b old x) c) _ (SH c q) S) as (g' & E). cbn [fields_of f_slips] in *. rewrite E. cbn. eauto. }
  assert (FT : forall k q, frun (r_face h1 k q) (face_ops k q (flat_map (sweep_calls (sweep_of b) (b_cells b)) [Refresh (fields_of b old x)])) =
    frun (r_face h k q) (face_ops k q (flat_map (sweep_calls (sweep_of b) (b_cells b)) [Refresh (fields_of b old x)])) /\
    exists g, frun (r_face h k q) (face_ops k q (flat_map (sweep_calls (sweep_of b) (b_cells b)) [Refresh (fields_of b old x)])) = Ok g).
  { intros k q. specialize (F1 k q). rewrite refresh_face_ops in * by exact M.
    destruct (Nat.ltb q (b_nfq b)); [|cbn in F1 |- *; injection F1 as ->; eauto]. split.
    - apply (exps_twice _ _ _ _ _ F1).
    - apply (exps_status _ _ _ _ _ F1). }
  assert (O1 : exists s1, exec_all (flat_map (sweep_calls (sweep_of b) (b_cells b)) [Refresh (fields_of b old x)]) h1 = Ok s1).
  { apply exec_all_ok; intros; [rewrite (proj1 (BT c q)); apply BT|rewrite (proj1 (FT k q)); apply FT]. }
  assert (O2 : exists s2, exec_all (flat_map (sweep_calls (sweep_of b) (b_cells b)) [Refresh (fields_of b old x)]) h = Ok s2).
  { apply exec_all_ok; intros; [apply BT|apply FT]. }
  destruct O1 as (s1 & X1), O2 as (s2 & X2). unfold body_update, sweep_all, run_sweeps. rewrite X1, X2.
  apply rank_data_eq; intros.
  - pose proof (exec_all_bulk c q _ _ _ X1) as P. pose proof (exec_all_bulk c q _ _ _ X2) as Q.
    rewrite (proj1 (BT c q)) in P. congruence.
  - pose proof (exec_all_face k q _ _ _ X1) as P. pose proof (exec_all_face k q _ _ _ X2) as Q.
    rewrite (proj1 (FT k q)) in P. congruence.
Qed.

(** ** What the histories look like *)
Lemma run_one b w r : run_sweeps (sweep_of b) (b_cells b) [w] r = exec_all (flat_map (sweep_calls (sweep_of b) (b_cells b)) [w]) r.
Proof. reflexivity. Qed.
Lemma initialised_store b r : NoDup (b_cells b) -> initialised b r -> initialised b (body_store b r).
Proof.
  intros N [I J]. unfold body_store, sweep_all. destruct (run_sweeps _ _ _ r) as [s| |] eqn:E; [|split; assumption|split; assumption].
  rewrite run_one in E. split.
  - intros c q Hc Hq. pose proof (exec_all_bulk c q _ _ _ E) as B. rewrite bulk_once_run in B by exact N.
    rewrite (proj2 (mem_In _ _) Hc) in B. cbn [sweep_of w_nq andb] in B. rewrite (proj2 (Nat.ltb_lt _ _) Hq) in B.
    cbn [flat_map bulk_call app brun ModelHistory.step] in B. destruct (I c q Hc Hq) as [I1 I2]. rewrite I1 in B. cbn in B.
    injection B as <-. cbn. auto.
  - intros a n q Ha Hn Hq. pose proof (exec_all_face (make_key a n) q _ _ _ E) as B.
    cbn [flat_map] in B. rewrite app_nil_r, face_sweep in B. specialize (J a n q Ha Hn Hq).
    destruct (Nat.ltb q (w_nfq (sweep_of b))); [|cbn in B; congruence]. revert B J.
    cbn [face_call_of]. generalize (r_face r (make_key a n) q). induction (visits (sweep_of b) (b_cells b) (make_key a n)) as [|v vs IH]; intros h B J.
    + cbn in B. congruence.
    + cbn [map frun face_step istep rbind] in B. apply IH in B; [exact B|]. cbn. exact J.
Qed.
Lemma update_completes b old x r : NoDup (b_cells b) -> exponential_damage_only b -> initialised b r ->
  exists s, run_sweeps (sweep_of b) (b_cells b) [Refresh (fields_of b old x)] r = Ok s.
Proof.
  intros N M [I J]. rewrite run_one. apply exec_all_ok.
  - intros c q. rewrite refresh_bulk_ops by exact N. destruct (mem c (b_cells b)) eqn:Hc; [|cbn; eauto].
    destruct (Nat.ltb q (b_nq b)) eqn:Hq; [|cbn; eauto]. apply mem_In in Hc. pose proof Hq as Hq'. apply Nat.ltb_lt in Hq.
    destruct (I c q Hc Hq) as [I1 I2]. cbn [andb brun ModelHistory.step]. rewrite I1.
    destruct (flag_perfect_plasticity (prm (r_bulk r c q))); [cbn; eauto|].
    assert (R : forall z, SpecHistory.readable (ModelHistory.n_slips (r_bulk r c q))
       (map (fun a => map (fun q => slip_at (b_element b c) (local_values b z c) q a) (seq 0 (b_nq b))) (seq 0 (b_ns b))) q).
    { intros z a Ha. rewrite at2_mat, Hq', (proj2 (Nat.ltb_lt a (b_ns b))) by (rewrite <- I2; exact Ha). cbn. eauto. }
    destruct (harden_all_value (r_bulk r c q) _ _ q (R x) (R old) (tmp_res (r_bulk r c q)) 0) as (v & E & _).
    cbn [fields_of f_slips f_old_slips]. rewrite E. cbn. eauto.
  - intros k q. rewrite refresh_face_ops by exact M. destruct (Nat.ltb q (b_nfq b)) eqn:Hq; [|cbn; eauto]. apply Nat.ltb_lt in Hq.
    assert (P : forall v, In v (visits (sweep_of b) (b_cells b) k) -> i_prm (r_face r k q) = Some (b_iprm b)).
    { intros v Hv. destruct (visits_nonempty _ _ _ _ Hv) as (D & G & -> & H). cbn in D, G.
      apply J; [exact H|rewrite D; apply in_visited; exact G|exact Hq]. }
    revert P. generalize (r_face r k q). induction (visits (sweep_of b) (b_cells b) k) as [|v vs IH]; intros h P; [cbn; eauto|].
    cbn [map frun face_step istep]. rewrite (P v) by (left; reflexivity). cbn [rbind]. apply IH. cbn. intros. reflexivity.
Qed.
Definition damage_ok (s : ihist) : Prop := exists d, i_damage s = Fin d /\ 0 <= d <= 1.
Lemma exps_damage {A} (f : A -> R) p vs : 0 < i_crit_opening p -> (forall v, 0 <= f v) -> forall s t,
  i_prm s = Some p -> frun s (map (fun v => FCall (IUpdateExp (f v))) vs) = Ok t ->
  damage_ok s \/ vs <> [] -> damage_ok t.
Proof.
  intros HP HF. induction vs as [|v vs IH]; intros s t P E H.
  - cbn in E. injection E as <-. destruct H as [H|H]; [exact H|congruence].
  - cbn [map frun face_step istep] in E. rewrite P in E. cbn [rbind] in E. eapply IH; [|exact E|]; [cbn; auto|]. left.
    unfold damage_ok. cbn [i_damage]. eexists. split; [reflexivity|].
    destruct (i_zero_damage p); [lra|].
    pose proof (exponential_damage_range (if Rltb (i_tmp1 s) (f v) then f v else i_tmp1 s) (i_crit_opening p)) as X.
    assert (0 <= (if Rltb (i_tmp1 s) (f v) then f v else i_tmp1 s)).
    { destruct (Rltb (i_tmp1 s) (f v)) eqn:L; [apply HF|]. apply Rltb_false in L. specialize (HF v). lra. }
    specialize (X H0 HP). lra.
Qed.
Lemma updated_damage b old x r c n q : NoDup (b_cells b) -> 0 < i_crit_opening (b_iprm b) -> exponential_damage_only b ->
  initialised b r -> In c (b_cells b) -> In n (visited (b_mesh b) (b_decohesion b) c) -> (q < b_nfq b)%nat ->
  damage_ok (r_face (body_update b old x r) (make_key c n) q).
Proof.
  intros N HP M I Hc Hn Hq. unfold body_update, sweep_all.
  destruct (update_completes b old x r N M I) as (s & E). rewrite E. rewrite run_one in E.
  pose proof (exec_all_face (make_key c n) q _ _ _ E) as B. rewrite refresh_face_ops in B by exact M.
  rewrite (proj2 (Nat.ltb_lt _ _) Hq) in B. destruct I as [_ J].
  assert (V : In (c, n) (visits (sweep_of b) (b_cells b) (make_key c n))).
  { unfold visits. rewrite filter_In, in_flat_map, key_eqb_true. split; [|reflexivity]. exists c. split; [exact Hc|]. apply in_map. exact Hn. }
  eapply exps_damage; [exact HP| |exact (J c n q Hc Hn Hq)|exact B|].
  - intros v. unfold opening_from, effective_opening. cbv zeta. apply sqrt_pos.
  - right. intros Z. rewrite Z in V. destruct V.
Qed.

(** ** The assembled residual and the virtual power *)
Lemma forallb_seq (f : nat -> bool) n i : forallb f (seq 0 n) = true -> (i < n)%nat -> f i = true.
Proof. intros F Hi. rewrite forallb_forall in F. apply F, in_seq. lia. Qed.
Lemma visited_more m c n : In n (visited m true c) -> forall d, d = true -> In n (visited m d c).
Proof. intros H d ->. exact H. Qed.
Lemma visited_flag m d c n : In n (visited m d c) -> d = true.
Proof. unfold visited. destruct d; [reflexivity|]. rewrite Bool.andb_false_r. intros []. Qed.
Lemma lsum_sum_over {A} (f : A -> R) l : sum_over f l = lsum f l.
Proof. induction l as [|x l IH]; [reflexivity|]. cbn [lsum]. rewrite <- IH. reflexivity. Qed.
Lemma sum_over_map {A B} (f : B -> R) (g : A -> B) l : sum_over f (map g l) = lsum (fun x => f (g x)) l.
Proof. induction l as [|x l IH]; [reflexivity|]. cbn [map lsum]. rewrite <- IH. reflexivity. Qed.

Definition damage_in_range (b : body) (r : rank_data) : Prop := forall c n q, In c (b_cells b) ->
  In n (visited (b_mesh b) (b_decohesion b) c) -> (q < b_nfq b)%nat -> damage_ok (r_face r (make_key c n) q).

Lemma other_grains_visited : gb_neighbours = other_grains.
Proof.
  apply FunctionalExtensionality.functional_extensionality; intros b. apply FunctionalExtensionality.functional_extensionality; intros c.
  unfold gb_neighbours, other_grains, visited, at_grain_boundary. rewrite (Bool.orb_comm (b_decohesion b)).
  destruct (orb (b_microtraction b) (b_decohesion b)); [|rewrite Bool.andb_false_r; reflexivity]. rewrite Bool.andb_true_r.
  induction (sm_faces (b_mesh b) c) as [|f fs IH]; [reflexivity|]. cbn [existsb flat_map]. cbn zeta in IH.
  assert (E : match f with Some n => if to_other_grain (b_mesh b) c f then [n] else [] | None => [] end
    = match f with Some n => if Nat.eqb (sm_material (b_mesh b) n) (sm_material (b_mesh b) c) then [] else [n] | None => [] end).
  { destruct f as [n|]; [|reflexivity]. cbn [to_other_grain]. rewrite (Nat.eqb_sym (sm_material (b_mesh b) n)). destruct (Nat.eqb _ _); reflexivity. }
  destruct (existsb (to_other_grain (b_mesh b) c) fs) eqn:X.
  - rewrite Bool.orb_true_r, E, IH. reflexivity.
  - rewrite Bool.orb_false_r, <- IH, app_nil_r. destruct (to_other_grain (b_mesh b) c f) eqn:Y.
    + rewrite E. 
      assert (Z : flat_map (fun f => match f with Some n => if to_other_grain (b_mesh b) c f then [n] else [] | None => [] end) fs = []).
      { clear - X. induction fs as [|g gs IH]; [reflexivity|]. cbn [existsb] in X. apply Bool.orb_false_elim in X. destruct X as [X1 X2]. cbn [flat_map].
        rewrite (IH X2), app_nil_r. destruct g; [rewrite X1|]; reflexivity. }
      rewrite Z, app_nil_r. reflexivity.
    + rewrite <- E. destruct f; [|reflexivity]. reflexivity.
Qed.
Lemma body_power b old x r w : consistent b -> damage_in_range b r -> all_finite b old x r = true ->
  residual_work (map (body_system b old x r) (b_cells b)) w = virtual_power b old x r w.
Proof.
  intros (N & _ & C1 & C2) DR AF. unfold residual_work, virtual_power. rewrite <- other_grains_visited. rewrite lsum_map. apply lsum_ext. intros c Hc.
  destruct (C1 c Hc) as (L & _ & _ & P & Hp & HN).
  unfold all_finite in AF. rewrite forallb_forall in AF. specialize (AF c Hc).
  cbn [body_system ls_cell ls_rhs body_cell mc_dofs]. rewrite L in *.
  assert (FI : forall i, (i < el_nd (b_element b c))%nat -> exists v, cell_entry b old x r c i = Fin v).
  { intros i Hi. pose proof (forallb_seq _ _ i AF Hi) as F. cbv beta in F. destruct (cell_entry b old x r c i); try discriminate F. eauto. }
  destruct (forallb (readable b r c) (gb_neighbours b c)) eqn:RD.
  2:{ (* no dof at all, or the damage is readable *)
      assert (Z : el_nd (b_element b c) = 0%nat).
      { destruct (el_nd (b_element b c)) as [|k] eqn:K; [reflexivity|]. destruct (FI 0%nat ltac:(lia)) as (v & E).
        unfold cell_entry in E. rewrite RD in E. discriminate E. }
      exfalso. apply Bool.not_true_iff_false in RD. apply RD. apply forallb_forall. intros n Hn. unfold readable.
      destruct (b_decohesion b) eqn:D; [|reflexivity]. cbn [negb orb]. apply forallb_forall. intros q Hq. apply in_seq in Hq.
      destruct (C2 c n Hc Hn) as (_ & _ & FQ & _). rewrite FQ in Hq.
      destruct (DR c n q Hc) as (d & -> & _); [|lia|reflexivity]. rewrite D.
      unfold gb_neighbours in Hn. rewrite D in Hn. exact Hn. }
  set (faces := map (fun n => (b_interface b c n, b_face b c n, face_history_of r c n, local_values b x n)) (gb_neighbours b c)).
  assert (CE : forall i, cell_entry b old x r c i =
    residual_cell (b_crystal b c) (b_element b c) faces (b_loads b c) (local_values b x c) (local_values b old c) (resistances_of r c) i)
    by (intros i; unfold cell_entry; rewrite RD; reflexivity).
  rewrite (sumn_ext _ _ (fun i => w (nth i (b_dofs b c) 0%nat) *
     val (residual_cell (b_crystal b c) (b_element b c) faces (b_loads b c) (local_values b x c) (local_values b old c) (resistances_of r c) i)))
    by (intros i _; rewrite CE; reflexivity).
  rewrite (C70_virtual_power_of_finite_entries (b_crystal b c) (b_element b c) faces (b_loads b c) (local_values b x c)
     (local_values b old c) (resistances_of r c) (fun i => w (nth i (b_dofs b c) 0%nat)) P Hp HN).
  - rewrite C70_virtual_power by assumption. unfold faces. rewrite sum_over_map, lsum_sum_over. unfold balance_factor. reflexivity.
  - intros p f h Un I. unfold faces in I. apply in_map_iff in I. destruct I as (n & I & Hn). injection I as <- <- <- <-.
    destruct (C2 c n Hc Hn) as (_ & F1 & F2 & F3 & F4 & F5). repeat (split; [assumption|]).
    intros D q Hq. rewrite F3 in D. rewrite F2 in Hq. cbn [face_history_of fh_damage].
    destruct (DR c n q Hc) as (d & -> & R); [|exact Hq|exact R]. unfold gb_neighbours in Hn. rewrite D in Hn |- *. exact Hn.
  - intros i Hi. destruct (FI i Hi) as (v & E). rewrite CE in E. rewrite E. reflexivity.
Qed.

(** ** Norms bound the power on admissible test vectors *)
Lemma cs_bound n f g : Rabs (sumn n (fun i => f i * g i)) <= sqrt (sumn n (fun i => f i * f i)) * sqrt (sumn n (fun i => g i * g i)).
Proof.
  assert (P : forall h, 0 <= sumn n (fun i => h i * h i)) by (intros h; apply sumn_nonneg; intros; apply Rle_0_sqr).
  rewrite <- sqrt_mult by apply P. rewrite <- sqrt_Rsqr_abs. apply sqrt_le_1_alt. unfold Rsqr. apply cauchy_schwarz.
Qed.
Lemma residual_work_ext ls n w w' : (forall l d, In l ls -> In d (mc_dofs (ls_cell l)) -> (d < n)%nat) ->
  (forall d, (d < n)%nat -> w d = w' d) -> residual_work ls w = residual_work ls w'.
Proof.
  intros H E. unfold residual_work. apply lsum_ext. intros l Hl. apply sumn_ext. intros i Hi. rewrite E; [reflexivity|].
  eapply H; eauto. apply nth_In. exact Hi.
Qed.
(** The power on an admissible vector is the product of its free part with the residual. *)
Lemma work_of_residual n k ls w : closed_below n k -> (forall l d, In l ls -> In d (mc_dofs (ls_cell l)) -> (d < n)%nat) ->
  admissible n k w ->
  residual_work ls w = sumn n (fun d => free_part k w d * vector_of (assemble_residual k ls) d).
Proof.
  intros [CL BE] H A. rewrite vector_form.
  - rewrite residual_form_c. apply (residual_work_ext _ n); [exact H|]. intros d Hd. symmetry. apply (expand_free_part n); assumption.
  - intros q u I. unfold assemble_residual in I. apply in_flat_map in I. destruct I as (l & Hl & I). unfold vector_writes in I.
    apply in_flat_map in I. destruct I as ([i d] & Hd & I). apply in_map_iff in I. destruct I as ([e v] & E & I). cbn [fst snd] in *.
    injection E as <- _. unfold resolve in I. destruct (k d) as [[es z]|] eqn:K.
    + eapply BE; eauto.
    + destruct I as [I|[]]. injection I as <- _. apply (H l d Hl). apply in_combine_r in Hd. exact Hd.
Qed.
Lemma free_part_sq k w d : free_part k w d * free_part k w d <= w d * w d.
Proof. unfold free_part. destruct (is_constrained k d); [rewrite Rmult_0_l; apply Rle_0_sqr|lra]. Qed.
Lemma sumn_le' n f g : (forall i, (i < n)%nat -> f i <= g i) -> sumn n f <= sumn n g.
Proof. induction n as [|n IH]; cbn [sumn]; intros H; [lra|]. apply Rplus_le_compat; [apply IH; auto|apply H; lia]. Qed.

Theorem C92_accepted_solution_in_equilibrium : forall b e sp a fuel t oo s r w,
  consistent b -> exponential_damage_only b -> works_on e b -> initialised b (st_hist s) ->
  rate_independent sp = false \/ a <> Monolithic ->
  solve_nonlinear_system e sp a fuel t oo s = Done r ->
  closed_below (b_ndofs b) (st_internal r) -> admissible (b_ndofs b) (st_internal r) w ->
  let internal_variables := body_update b (st_old s) (st_trial r) (body_store b (st_hist s)) in
  Rabs (virtual_power b (st_old s) (st_trial r) internal_variables w) <=
  match a with
  | Monolithic => mono_tol sp * size b w
  | Bouncing | Embracing => macro_tol sp * displacement_size b w + micro_tol sp * slip_size b w
  end.
Proof.
  intros b e sp a fuel t oo s r w C M (W1 & W2 & W3) I Ha E CB A iv.
  pose proof C as (N & HP & C1 & _).
  destruct (C88_accepted_solution_is_converged _ sp a fuel e t oo s r) as [X _]; [rewrite W2; apply body_forgets; assumption|exact Ha|exact E|].
  unfold residual_within_tolerance in X. rewrite W1, W2, W3 in X. fold iv in X. destruct X as (u & g & EN & Hu & Hg & T).
  unfold body_norms in EN. destruct (all_finite b (st_old s) (st_trial r) iv) eqn:AF; [|discriminate EN]. injection EN as EU EG.
  assert (DR : damage_in_range b iv).
  { intros c n q Hc Hn Hq. apply updated_damage; auto. apply initialised_store; assumption. }
  rewrite <- (body_power b _ _ _ _ C DR AF).
  set (ls := map (body_system b (st_old s) (st_trial r) iv) (b_cells b)).
  assert (BD : forall l d, In l ls -> In d (mc_dofs (ls_cell l)) -> (d < b_ndofs b)%nat).
  { intros l d Hl Hd. unfold ls in Hl. apply in_map_iff in Hl. destruct Hl as (c & <- & Hc). cbn [body_system ls_cell body_cell mc_dofs] in Hd.
    destruct (C1 c Hc) as (_ & _ & B & _). destruct (In_nth _ _ 0%nat Hd) as (i & Hi & <-). apply B. exact Hi. }
  rewrite (work_of_residual (b_ndofs b) (st_internal r) ls w CB BD A).
  change (vector_of (assemble_residual (st_internal r) ls)) with (body_residual b (st_old s) (st_trial r) iv (st_internal r)).
  revert EU EG. set (rv := body_residual b (st_old s) (st_trial r) iv (st_internal r)). set (v := free_part (st_internal r) w).
  intros EU EG. set (n := b_ndofs b) in *.
  assert (VW : forall d, v d * v d <= w d * w d) by (intros d; apply free_part_sq).
  assert (S2 : sumn n (fun d => rv d * rv d) = u + g).
  { rewrite <- EU, <- EG, <- sumn_plus. apply sumn_ext. intros d _. destruct (b_is_slip b d); ring. }
  assert (MONO : Rabs (sumn n (fun d => v d * rv d)) <= sqrt (u + g) * size b w).
  { eapply Rle_trans; [apply cs_bound|]. rewrite S2, Rmult_comm. apply Rmult_le_compat_l; [apply sqrt_pos|].
    unfold size. apply sqrt_le_1_alt. apply sumn_le'. intros; apply VW. }
  assert (STAG : Rabs (sumn n (fun d => v d * rv d)) <= sqrt u * displacement_size b w + sqrt g * slip_size b w).
  { set (sl := b_is_slip b) in *.
    rewrite (sumn_ext n _ (fun d => (if sl d then 0 else v d) * (if sl d then 0 else rv d) + (if sl d then v d else 0) * (if sl d then rv d else 0)))
      by (intros d _; destruct (sl d); ring).
    rewrite sumn_plus. eapply Rle_trans; [apply Rabs_triang|].
    apply Rplus_le_compat; (eapply Rle_trans; [apply cs_bound|]); cbn beta.
    - rewrite (sumn_ext n (fun i => (if sl i then 0 else rv i) * (if sl i then 0 else rv i)) (fun d => if sl d then 0 else rv d * rv d))
        by (intros d _; destruct (sl d); ring). rewrite EU, Rmult_comm. apply Rmult_le_compat_l; [apply sqrt_pos|].
      unfold displacement_size. apply sqrt_le_1_alt. apply sumn_le'. intros d _. fold sl. specialize (VW d). destruct (sl d); lra.
    - rewrite (sumn_ext n (fun i => (if sl i then rv i else 0) * (if sl i then rv i else 0)) (fun d => if sl d then rv d * rv d else 0))
        by (intros d _; destruct (sl d); ring). rewrite EG, Rmult_comm. apply Rmult_le_compat_l; [apply sqrt_pos|].
      unfold slip_size. apply sqrt_le_1_alt. apply sumn_le'. intros d _. fold sl. specialize (VW d). destruct (sl d); lra. }
  assert (Z1 : 0 <= size b w) by apply sqrt_pos. assert (Z2 : 0 <= displacement_size b w) by apply sqrt_pos. assert (Z3 : 0 <= slip_size b w) by apply sqrt_pos.
  clear - T MONO STAG Z1 Z2 Z3. destruct a.
  - eapply Rle_trans; [exact MONO|]. apply Rmult_le_compat_r; lra.
  - destruct T. eapply Rle_trans; [exact STAG|]. apply Rplus_le_compat; apply Rmult_le_compat_r; lra.
  - destruct T. eapply Rle_trans; [exact STAG|]. apply Rplus_le_compat; apply Rmult_le_compat_r; lra.
Qed.

(** ** Whole runs *)
Lemma bulk_keeps ns s t o : ModelHistory.step s o = Ok t ->
  (match o with Init _ n _ => n = ns | _ => True end) ->
  flag_init s = true /\ ModelHistory.n_slips s = ns -> flag_init t = true /\ ModelHistory.n_slips t = ns.
Proof.
  intros E O [F N]. destruct o; cbn [ModelHistory.step] in E; rewrite ?F in E.
  - injection E as <-. cbn. auto.
  - injection E as <-. cbn. auto.
  - injection E as <-. cbn. auto.
  - destruct (flag_perfect_plasticity (prm s)); [injection E as <-; cbn; auto|].
    destruct (harden_all _ _ _ _ _ _); try discriminate E. injection E as <-. cbn. auto.
Qed.
Lemma face_keeps s t o : face_step s o = Ok t -> forall p, i_prm s = Some p -> i_prm t = Some p.
Proof.
  intros E p P. assert (K : forall o, istep s o = Ok t -> i_prm t = Some p).
  { clear E o. intros o E. destruct o; cbn [istep] in E; rewrite ?P in E; injection E as <-; cbn; auto. }
  destruct o as [o|m en eff ch]; cbn [face_step] in E; [eauto|].
  unfold update_point_M1 in E. destruct (i_damage s); try discriminate E.
  destruct (xmul _ _); try discriminate E. eauto.
Qed.
Lemma face_ops_keep os : forall s t, frun s os = Ok t -> forall p, i_prm s = Some p -> i_prm t = Some p.
Proof.
  induction os as [|o os IH]; intros s t E p P; cbn [frun] in E; [congruence|].
  destruct (face_step s o) as [s1| |] eqn:S; try discriminate E. cbn [rbind] in E. eapply IH; [exact E|]. eapply face_keeps; eauto.
Qed.
Lemma initialised_sweep b w r : NoDup (b_cells b) -> initialised b r -> initialised b (sweep_all b w r).
Proof.
  intros N [I J]. unfold sweep_all. destruct (run_sweeps _ _ _ r) as [s| |] eqn:E; [|split; assumption|split; assumption].
  rewrite run_one in E. split.
  - intros c q Hc Hq. pose proof (exec_all_bulk c q _ _ _ E) as B. rewrite bulk_once_run in B by exact N.
    rewrite (proj2 (mem_In _ _) Hc) in B. cbn [sweep_of w_nq andb] in B. rewrite (proj2 (Nat.ltb_lt _ _) Hq) in B.
    cbn [flat_map] in B. rewrite app_nil_r in B.
    assert (K : forall o, bulk_call (sweep_of b) w c q = [o] -> flag_init (r_bulk s c q) = true /\ ModelHistory.n_slips (r_bulk s c q) = b_ns b).
    { intros o X. fold (sweep_of b) in B. rewrite X in B. cbn [brun] in B.
      destruct (ModelHistory.step (r_bulk r c q) o) as [h| |] eqn:S; try discriminate B. cbn [rbind] in B. injection B as <-.
      eapply bulk_keeps; [exact S| |exact (I c q Hc Hq)]. destruct w; cbn in X; try discriminate X; injection X as <-; cbn; auto. }
    destruct w; try (eapply K; reflexivity). cbn in B. injection B as <-. apply I; assumption.
  - intros a n q Ha Hn Hq. pose proof (exec_all_face (make_key a n) q _ _ _ E) as B.
    eapply face_ops_keep; [exact B|]. apply J; assumption.
Qed.
(** init() on freshly constructed histories initialises them. *)
Theorem C92_initialised_after_setup : forall b r, NoDup (b_cells b) -> (forall k q, i_prm (r_face r k q) = None) ->
  initialised b (sweep_all b Initialise r).
Proof.
  intros b r N Z. unfold sweep_all.
  assert (E : exists s, run_sweeps (sweep_of b) (b_cells b) [Initialise] r = Ok s).
  { rewrite run_one. apply exec_all_ok.
    - intros c q. rewrite bulk_once_run by exact N. destruct (andb _ _); cbn; eauto.
    - intros k q. cbn [flat_map]. rewrite app_nil_r, face_sweep. destruct (Nat.ltb _ _); [|cbn; eauto].
      generalize (r_face r k q). induction (visits (sweep_of b) (b_cells b) k) as [|v vs IH]; intros h; [cbn; eauto|].
      cbn [map frun face_call_of face_step istep]. destruct (i_prm h); cbn [rbind]; apply IH. }
  destruct E as (s & E). rewrite E. rewrite run_one in E. split.
  - intros c q Hc Hq. pose proof (exec_all_bulk c q _ _ _ E) as B. rewrite bulk_once_run in B by exact N.
    rewrite (proj2 (mem_In _ _) Hc) in B. cbn [sweep_of w_nq andb] in B. rewrite (proj2 (Nat.ltb_lt _ _) Hq) in B.
    cbn in B. injection B as <-. cbn. auto.
  - intros a n q Ha Hn Hq. pose proof (exec_all_face (make_key a n) q _ _ _ E) as B.
    cbn [flat_map] in B. rewrite app_nil_r, face_sweep in B. cbn [w_nfq sweep_of] in B. rewrite (proj2 (Nat.ltb_lt _ _) Hq) in B.
    assert (V : In (a, n) (visits (sweep_of b) (b_cells b) (make_key a n))).
    { unfold visits. rewrite filter_In, in_flat_map, key_eqb_true. split; [|reflexivity]. exists a. split; [exact Ha|]. apply in_map. exact Hn. }
    destruct (visits (sweep_of b) (b_cells b) (make_key a n)) as [|v vs]; [destruct V|].
    cbn [map frun face_call_of face_step istep] in B. rewrite Z in B. cbn [rbind] in B.
    eapply face_ops_keep; [exact B|]. reflexivity.
Qed.

Lemma same_points_initialised b b' r : same_points b b' -> initialised b r -> initialised b' r.
Proof. intros (A1 & A2 & A3 & A4 & A5 & A6 & A7). unfold initialised. rewrite A1, A2, A3, A4, A5, A6, A7. auto. Qed.
Theorem C92_every_step_in_equilibrium : forall sp a fuel (steps : list (body * (env rank_data * timing))) b0 oo s o acc,
  (forall b e t, In (b, (e, t)) steps -> consistent b /\ exponential_damage_only b /\ works_on e b /\
     e_finish e = body_finish b /\ same_points b0 b) ->
  initialised b0 (st_hist s) -> rate_independent sp = false \/ a <> Monolithic ->
  run sp a fuel (map snd steps) oo s = (o, acc) ->
  equilibrium_at_all_steps sp a (map fst steps) acc (st_old s) (st_hist s).
Proof.
  intros sp a fuel steps b0. induction steps as [|[b [e t]] steps IH]; intros oo s o acc HS HI Ha E; [exact I|].
  cbn [map fst snd run] in *.
  destruct (HS b e t (or_introl eq_refl)) as (C & M & W & FI & SP).
  destruct (solve_nonlinear_system e sp a fuel t oo s) as [r| | |] eqn:S; try (injection E as _ <-; exact I).
  cbn [shift_solutions] in E.
  set (s1 := mk_sstate _ _ _ _ _ _ _ _ _ _ _ _) in E.
  destruct (run sp a fuel (map snd steps) (st_old r) s1) as [o1 acc1] eqn:R1. injection E as <- <-.
  assert (I1 : initialised b (st_hist s)) by (eapply same_points_initialised; eauto).
  cbn [equilibrium_at_all_steps]. split.
  - intros CB w A. apply (C92_accepted_solution_in_equilibrium b e sp a fuel t oo s r w); assumption.
  - pose proof W as (W1 & W2 & W3). pose proof C as (N & _).
    assert (HF : forgets_iterates (e_update e)) by (rewrite W2; apply body_forgets; assumption).
    destruct (accepted_step sp e HF _ _ _ _ _ _ Ha S) as (_ & A2 & _).
    rewrite W1, W2, FI in A2. rewrite <- A2.
    change (st_trial r) with (st_old s1). change (st_hist r) with (st_hist s1).
    apply (IH (st_old r) s1 o1 acc1); [intros b' e' t' Hin; apply (HS b' e' t'); right; exact Hin| |exact Ha|exact R1].
    cbn [st_hist s1]. rewrite A2.
    destruct SP as (P1 & P2 & P3 & P4 & P5 & P6 & P7).
    apply (same_points_initialised b b0); [unfold same_points; repeat split; congruence|].
    apply initialised_sweep; [exact N|]. apply initialised_sweep; [exact N|]. apply initialised_sweep; assumption.
Qed.
