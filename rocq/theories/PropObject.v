(** * C106: the loads in force; C107: initialising the solver object. *)
From Coq Require Import List Arith Lia Lra FunctionalExtensionality.
From Verif Require Import Num Tensors SumLemmas ModelHistory ModelInterface ModelFEField ModelLinear SpecLinear ModelActiveSet PropActiveSet ModelAssembly ModelSolver ModelSweep SpecSweep PropSweep ModelStep SpecStep ProofStep PropStep ModelBody SpecBody PropBody ModelObject SpecObject.
Import ListNotations.
Open Scope R_scope.

Lemma use_all_app g fuel us : forall s u, use_all g fuel s (us ++ [u]) = match use_all g fuel s us with Done s' => use_solver g fuel s' u | x => x end.
Proof.
  induction us as [|v us IH]; intros s u; cbn [app use_all].
  - destruct (use_solver g fuel s u); reflexivity.
  - destruct (use_solver g fuel s v); [apply IH|reflexivity..].
Qed.
Lemma latest_app {A} (pick : use -> option A) us u : latest pick (us ++ [u]) = match pick u with Some a => Some a | None => latest pick us end.
Proof. unfold latest. rewrite fold_left_app. reflexivity. Qed.
Lemma latest_in {A} (pick : use -> option A) us a : latest pick us = Some a -> exists u, In u us /\ pick u = Some a.
Proof.
  revert a. induction us as [|u us IH] using rev_ind; intros a E; [discriminate|]. rewrite latest_app in E. destruct (pick u) as [b|] eqn:P.
  - injection E as ->. exists u. split; [apply in_or_app; right; left; reflexivity|exact P].
  - destruct (IH a E) as (v & V1 & V2). exists v. split; [apply in_or_app; left; exact V1|exact V2].
Qed.
Lemma solve_with_done g fuel s t tm old oo s' : solve_with g fuel s t tm old oo = Done s' -> so_init s = true /\ exists r, 
  s' = mk_solver (so_field s) (so_crystals s) true (so_strain s) (so_supply s) (so_neumann s) (clock_after g s t (so_clock s) (b_cells (g_body g))) r.
Proof.
  unfold solve_with. destruct (so_init s); [|discriminate]. cbv zeta. destruct (solve_nonlinear_system _ _ _ _ _ _ _) as [r| | |]; intros E; [|discriminate..].
  injection E as <-. split; [reflexivity|]. exists r. reflexivity.
Qed.
Lemma initialize_result g s s' : initialize_solver g s = Ok s' -> so_field s = true /\ so_crystals s = true /\
  s' = mk_solver true true true (so_strain s) (so_supply s) (so_neumann s) (so_clock s) (fresh_state (g_body g) (so_state s)).
Proof.
  unfold initialize_solver. destruct (so_field s) eqn:F, (so_crystals s) eqn:C; cbn [andb]; intros E; try discriminate. injection E as <-. repeat split.
Qed.
Lemma initialize_else g s : initialize_solver g s = Throw \/ exists s', initialize_solver g s = Ok s'.
Proof. unfold initialize_solver. destruct (andb _ _); eauto. Qed.

(** ** Clocks *)
Lemma set_clock_other k f t f' : f' <> f -> set_clock k f t f' = k f'.
Proof. intros N. unfold set_clock. destruct (Nat.eqb f' f) eqn:E; [apply Nat.eqb_eq in E; congruence|reflexivity]. Qed.
Lemma cell_clock_other g s t f : (forall id, so_neumann s id <> Some f) -> forall c k, cell_clock g s t k c f = k f.
Proof.
  intros N c. unfold cell_clock. generalize (g_faces g c). intros fs. induction fs as [|b fs IH]; intros k; cbn [fold_left]; [reflexivity|]. rewrite IH.
  unfold face_function. destruct (so_neumann s (bf_id b)) as [o|] eqn:E; [|reflexivity]. apply set_clock_other. intros ->. exact (N _ E).
Qed.
Lemma clock_before_other g s t f : (forall id, so_neumann s id <> Some f) -> forall cells k c, clock_before g s t k cells c f = k f.
Proof.
  intros N. induction cells as [|c' cells IH]; intros k c; cbn [clock_before]; [reflexivity|]. destruct (Nat.eqb c' c); [reflexivity|]. rewrite IH. apply cell_clock_other. exact N.
Qed.
Lemma clock_after_other g s t f : (forall id, so_neumann s id <> Some f) -> forall cells k, clock_after g s t k cells f = k f.
Proof.
  intros N. unfold clock_after. induction cells as [|c' cells IH]; intros k; cbn [fold_left]; [reflexivity|]. rewrite IH. apply cell_clock_other. exact N.
Qed.

(** ** What is in force *)
Section Use.
Variables (g : given) (fuel : nat) (clock : nat -> R) (r0 : rank_data).
Let start := construct_solver clock r0.
Ltac each us u H IH s1 :=
  revert H; rewrite use_all_app; destruct (use_all g fuel start us) as [s1| | |] eqn:H; [|discriminate..]; specialize (IH s1 eq_refl).
Lemma loads_invariant us : forall s, use_all g fuel start us = Done s ->
  so_strain s = strain_in_force us /\ so_supply s = body_force_in_force us /\ (forall id, so_neumann s id = traction_in_force us id).
Proof.
  induction us as [|u us IH] using rev_ind; intros s H.
  - injection H as <-. repeat split.
  - each us u H IH s1. destruct IH as (I1 & I2 & I3).
    unfold strain_in_force, body_force_in_force, traction_in_force. setoid_rewrite latest_app.
    destruct u; cbn [use_solver]; intros E.
    1-6: injection E as <-; cbn [so_strain so_supply so_neumann]; repeat split; try assumption; intros i; try apply I3.
    + destruct (Nat.eqb i id) eqn:Ei.
      * apply Nat.eqb_eq in Ei. subst i. rewrite Nat.eqb_refl. reflexivity.
      * rewrite Nat.eqb_sym, Ei. apply I3.
    + destruct (initialize_else g s1) as [Z|(s2 & Z)]; rewrite Z in E; [injection E as <-; repeat split; assumption|].
      destruct (initialize_result _ _ _ Z) as (_ & _ & Q). subst s2. injection E as <-. cbn [so_strain so_supply so_neumann]. repeat split; assumption.
    + destruct (solve_with_done _ _ _ _ _ _ _ _ E) as (_ & r & ->). cbn [so_strain so_supply so_neumann]. repeat split; assumption.
Qed.
Lemma clock_invariant us : forall s f, use_all g fuel start us = Done s -> ~ used_as_traction us f -> so_clock s f = time_set clock us f.
Proof.
  induction us as [|u us IH] using rev_ind; intros s f H N.
  - injection H as <-. reflexivity.
  - revert H. rewrite use_all_app. destruct (use_all g fuel start us) as [s1| | |] eqn:H; [|discriminate..].
    assert (N1 : ~ used_as_traction us f) by (intros (id & Q); apply N; exists id; apply in_or_app; left; exact Q).
    specialize (IH s1 f eq_refl N1). unfold time_set. rewrite latest_app. fold (time_set clock us f).
    destruct u; cbn [use_solver]; intros E.
    1-5: injection E as <-; exact IH.
    + injection E as <-. cbn [so_clock]. unfold set_clock. rewrite (Nat.eqb_sym f f0). destruct (Nat.eqb f0 f); [reflexivity|exact IH].
    + destruct (initialize_else g s1) as [Z|(s2 & Z)]; rewrite Z in E; [injection E as <-; exact IH|].
      destruct (initialize_result _ _ _ Z) as (_ & _ & Q). subst s2. injection E as <-. exact IH.
    + destruct (solve_with_done _ _ _ _ _ _ _ _ E) as (_ & r & ->). cbn [so_clock]. rewrite clock_after_other; [exact IH|].
      intros id Q. destruct (loads_invariant us s1 H) as (_ & _ & I3). rewrite I3 in Q. destruct (latest_in _ _ _ Q) as (v & V1 & V2).
      destruct v; try discriminate. destruct (Nat.eqb id0 id) eqn:Ei; [|discriminate]. injection V2 as ->. apply N1. exists id0. exact V1.
Qed.
Lemma not_neumann us s f : use_all g fuel start us = Done s -> ~ used_as_traction us f -> forall id, so_neumann s id <> Some f.
Proof.
  intros H N id Q. destruct (loads_invariant us s H) as (_ & _ & I3). rewrite I3 in Q. destruct (latest_in _ _ _ Q) as (v & V1 & V2).
  destruct v; try discriminate. destruct (Nat.eqb id0 id) eqn:Ei; [|discriminate]. injection V2 as ->. apply N. exists id0. exact V1.
Qed.
(** The loads of the next evaluation, whatever the calls before. *)
Lemma loaded_in_force us s t tb : use_all g fuel start us = Done s ->
  (forall f, body_force_in_force us = Some f -> ~ used_as_traction us f /\ time_set clock us f = tb) ->
  loaded g s t = body_in_force g us t tb.
Proof.
  intros H N. destruct (loads_invariant us s H) as (I1 & I2 & I3). unfold loaded, body_in_force. rewrite I1. f_equal.
  - apply functional_extensionality. intros c. apply functional_extensionality. intros q. unfold cell_supply. rewrite I2. destruct (body_force_in_force us) as [f|]; [|reflexivity].
    destruct (N f eq_refl) as (N1 & N2). rewrite clock_before_other by (apply (not_neumann us); assumption). rewrite (clock_invariant us s f H N1), N2. reflexivity.
  - apply functional_extensionality. intros c. unfold cell_tractions. induction (g_faces g c) as [|b fs IH]; cbn [flat_map]; [reflexivity|]. rewrite IH. f_equal.
    unfold face_function. rewrite I3. reflexivity.
Qed.
Lemma init_invariant us : forall s, use_all g fuel start us = Done s ->
  (so_field s = true <-> In SetUpField us) /\ (so_crystals s = true <-> In SetUpCrystals us) /\ (so_init s = true <-> was_initialised us).
Proof.
  induction us as [|u us IH] using rev_ind; intros s H.
  - injection H as <-. cbn. split; [split; [discriminate|tauto]|]. split; [split; [discriminate|tauto]|]. split; [discriminate|].
    intros (b & a & E & _). destruct b; discriminate.
  - each us u H IH s1. destruct IH as (I1 & I2 & I3).
    assert (W : u <> Initialize -> (was_initialised (us ++ [u]) <-> was_initialised us)).
    { intros NU. split.
      - intros (b & a & E & A1 & A2). destruct a as [|x a] using rev_ind.
        + apply app_inj_tail in E. destruct E as (_ & ->). congruence.
        + clear IHa. change (b ++ Initialize :: a ++ [x])%list with (b ++ (Initialize :: a) ++ [x])%list in E. rewrite app_assoc in E. apply app_inj_tail in E. destruct E as (-> & _).
          exists b, a. auto.
      - intros (b & a & -> & A1 & A2). exists b, (a ++ [u])%list. rewrite <- app_assoc. auto. }
    assert (IN : forall x, In x (us ++ [u]) <-> In x us \/ u = x) by (intros x; rewrite in_app_iff; cbn; tauto).
    destruct u; cbn [use_solver]; intros E; rewrite ?IN.
    1-6: injection E as <-; cbn [so_field so_crystals so_init]; rewrite ?IN, W by discriminate; repeat split; intros; try tauto; try (left; tauto); try (right; reflexivity).
    all: try (destruct H0 as [H0|H0]; [tauto|discriminate]).
    + destruct (initialize_else g s1) as [Z|(s2 & Z)]; rewrite Z in E.
      * injection E as <-. assert (NR : ~ (so_field s1 = true /\ so_crystals s1 = true)) by (intros (F & C); unfold initialize_solver in Z; rewrite F, C in Z; discriminate).
        rewrite ?IN. split; [split; [tauto|intros [Q|Q]; [tauto|discriminate]]|]. split; [split; [tauto|intros [Q|Q]; [tauto|discriminate]]|].
        rewrite I3. split.
        -- intros (b & a & -> & A1 & A2). exists b, (a ++ [Initialize])%list. rewrite <- app_assoc. auto.
        -- intros (b & a & Q & A1 & A2). destruct a as [|x a] using rev_ind.
           ++ apply app_inj_tail in Q. destruct Q as (-> & _). tauto.
           ++ clear IHa. change (b ++ Initialize :: a ++ [x])%list with (b ++ (Initialize :: a) ++ [x])%list in Q. rewrite app_assoc in Q. apply app_inj_tail in Q. destruct Q as (-> & _).
              exists b, a. auto.
      * destruct (initialize_result _ _ _ Z) as (F & C & Q). subst s2. injection E as <-. cbn [so_field so_crystals so_init]. rewrite ?IN.
        split; [split; [tauto|reflexivity]|]. split; [split; [tauto|reflexivity]|]. split; [intros _|reflexivity]. exists us, []. split; [reflexivity|tauto].
    + destruct (solve_with_done _ _ _ _ _ _ _ _ E) as (F & r & ->). cbn [so_field so_crystals so_init]. rewrite ?IN, W by discriminate.
      split; [split; [tauto|intros [Q|Q]; [tauto|discriminate]]|]. split; [split; [tauto|intros [Q|Q]; [tauto|discriminate]]|]. tauto.
Qed.
End Use.

(** ** Initialisation of the histories *)
Lemma initialise_runs b r : NoDup (b_cells b) -> exists s, run_sweeps (sweep_of b) (b_cells b) [Initialise] r = Ok s.
Proof.
  intros N. rewrite run_one. apply exec_all_ok.
  - intros c q. rewrite bulk_once_run by exact N. destruct (andb _ _); cbn; eauto.
  - intros k q. cbn [flat_map]. rewrite app_nil_r, face_sweep. destruct (Nat.ltb _ _); [|cbn; eauto].
    generalize (r_face r k q). induction (visits (sweep_of b) (b_cells b) k) as [|v vs IH]; intros h; [cbn; eauto|].
    cbn [map frun face_call_of face_step istep]. destruct (i_prm h); cbn [rbind]; apply IH.
Qed.
Lemma initialise_bulk b r c q : NoDup (b_cells b) -> In c (b_cells b) -> (q < b_nq b)%nat ->
  slip_res (r_bulk (sweep_all b Initialise r) c q) = repeat (initial_slip_resistance (b_hardening b) / b_char_resistance b) (b_ns b).
Proof.
  intros N Hc Hq. destruct (initialise_runs b r N) as (s & E). unfold sweep_all. rewrite E. rewrite run_one in E.
  pose proof (exec_all_bulk c q _ _ _ E) as B. rewrite bulk_once_run in B by exact N.
  rewrite (proj2 (mem_In _ _) Hc) in B. cbn [sweep_of w_nq andb] in B. rewrite (proj2 (Nat.ltb_lt _ _) Hq) in B.
  cbn in B. injection B as <-. reflexivity.
Qed.
Lemma initialise_face b r k q : NoDup (b_cells b) ->
  let h := r_face r k q in let h' := r_face (sweep_all b Initialise r) k q in
  i_damage h' = i_damage h /\ i_max h' = i_max h /\ (i_prm h <> None -> h' = h).
Proof.
  intros N. cbv zeta. destruct (initialise_runs b r N) as (s & E). unfold sweep_all. rewrite E. rewrite run_one in E.
  pose proof (exec_all_face k q _ _ _ E) as B. cbn [flat_map] in B. rewrite app_nil_r, face_sweep in B. revert B. generalize (r_face s k q). generalize (r_face r k q).
  destruct (Nat.ltb _ _); [|cbn; intros h h' B; injection B as <-; auto].
  induction (visits (sweep_of b) (b_cells b) k) as [|v vs IH]; intros h h' B; [cbn in B; injection B as <-; auto|].
  cbn [map frun face_call_of face_step istep] in B. destruct (i_prm h) as [p|] eqn:P; cbn [rbind] in B.
  - destruct (IH _ _ B) as (B1 & B2 & B3). split; [exact B1|]. split; [exact B2|]. intros _. apply B3. rewrite P. discriminate.
  - destruct (IH _ _ B) as (B1 & B2 & _). split; [exact B1|]. split; [exact B2|]. congruence.
Qed.
Lemma fresh_untouched b s : NoDup (b_cells b) -> untouched b (fresh_state b s).
Proof.
  intros N. split; [intros d; repeat split|]. split.
  - intros c q a Hc Hq Ha. unfold resistances_of, fresh_state. cbn [st_hist]. rewrite initialise_bulk by assumption.
    rewrite nth_indep with (d' := initial_slip_resistance (b_hardening b) / b_char_resistance b) by (rewrite repeat_length; exact Ha). apply nth_repeat.
  - intros d Hn. unfold fresh_state. cbn [st_res]. rewrite (proj2 (Nat.ltb_lt _ _) Hn). reflexivity.
Qed.

Section Sound.
Variables (g : given) (fuel : nat) (clock : nat -> R) (r0 : rank_data).
Hypothesis SS : sound_set_up g.
Hypothesis NH : no_histories r0.
Let start := construct_solver clock r0.
Lemma step_initialised s t tm old oo s' : solve_with g fuel s t tm old oo = Done s' -> initialised (g_body g) (st_hist (so_state s)) -> initialised (g_body g) (st_hist (so_state s')).
Proof.
  destruct SS as (C & M & W & Ha). pose proof C as (N & _). unfold solve_with. destruct (so_init s); [|discriminate]. cbv zeta.
  set (b := loaded g s t). set (u := mk_sstate _ _ _ _ _ _ _ _ _ _ _ _). intros E I.
  destruct (solve_nonlinear_system _ _ _ _ _ _ u) as [r| | |] eqn:S; [|discriminate..]. injection E as <-. cbn [so_state].
  destruct (W b) as ((W1 & W2 & W3) & FI).
  assert (HF : forgets_iterates (e_update (g_env g b))) by (rewrite W2; apply body_forgets; [exact N|exact M]).
  destruct (accepted_step (g_parameters g) (g_env g b) HF _ _ _ _ _ _ Ha S) as (_ & A2 & _). rewrite W1, W2, FI in A2. rewrite A2.
  change (initialised (g_body g)) with (initialised b). apply initialised_sweep; [exact N|]. apply initialised_sweep; [exact N|]. apply initialised_sweep; [exact N|]. exact I.
Qed.
Lemma histories_invariant us : forall s, use_all g fuel start us = Done s ->
  (so_init s = false -> st_hist (so_state s) = r0) /\ (so_init s = true -> initialised (g_body g) (st_hist (so_state s))).
Proof.
  destruct SS as ((N & _) & _). induction us as [|u us IH] using rev_ind; intros s H.
  - injection H as <-. split; [reflexivity|discriminate].
  - revert H. rewrite use_all_app. destruct (use_all g fuel start us) as [s1| | |] eqn:H; [|discriminate..]. specialize (IH s1 eq_refl). destruct IH as (I1 & I2).
    destruct u; cbn [use_solver]; intros E.
    1-6: injection E as <-; split; assumption.
    + destruct (initialize_else g s1) as [Z|(s2 & Z)]; rewrite Z in E; [injection E as <-; split; assumption|].
      destruct (initialize_result _ _ _ Z) as (_ & _ & Q). subst s2. injection E as <-. cbn [so_init so_state fresh_state st_hist]. split; [discriminate|]. intros _.
      destruct (so_init s1); [apply initialised_sweep; [exact N|auto]|]. rewrite (I1 eq_refl). apply C92_initialised_after_setup; [exact N|]. intros k q. rewrite NH. reflexivity.
    + pose proof (step_initialised _ _ _ _ _ _ E) as Q. destruct (solve_with_done _ _ _ _ _ _ _ _ E) as (F & r & S). rewrite S at 1. cbn [so_init]. split; [discriminate|]. auto.
Qed.
End Sound.

(** ** C106 *)
(** Whatever was called before, wherever the loads were set: a step for time [t] is the step of
    the body under the macroscopic strain given last, the tractions given last for each boundary
    id at time [t], and the body force given last, at the time the user has set it to. *)
Theorem C106_step_under_the_loads_in_force : forall g fuel clock r0 us s t tb tm old oo,
  use_all g fuel (construct_solver clock r0) us = Done s -> was_initialised us ->
  (forall f, body_force_in_force us = Some f -> ~ used_as_traction us f /\ time_set clock us f = tb) ->
  let b := body_in_force g us t tb in let u := so_state s in
  let begun := mk_sstate (st_active u) (st_inactive u) (st_internal u) (st_trial u) (st_tmp u) (st_initial u) (st_newton u) old (st_hist u) (st_res u) (st_res_tmp u) (st_norms u) in
  match use_all g fuel (construct_solver clock r0) (us ++ [Solve t tm old oo]), solve_nonlinear_system (g_env g b) (g_parameters g) (g_algorithm g) fuel tm oo begun with
  | Done s', Done r => so_state s' = r
  | Thrown, Thrown | Undefined, Undefined | Running, Running => True
  | _, _ => False
  end.
Proof.
  intros g fuel clock r0 us s t tb tm old oo H WI NB b u begun. rewrite use_all_app, H. cbn [use_solver]. unfold solve_with.
  destruct (init_invariant g fuel clock r0 us s H) as (_ & _ & I3). rewrite (proj2 I3 WI). cbv zeta.
  rewrite (loaded_in_force g fuel clock r0 us s t tb H NB). fold b u begun. destruct (solve_nonlinear_system _ _ _ _ _ _ begun); exact I || reflexivity.
Qed.
(** What a step accepts is in equilibrium with these loads. *)
Theorem C106_equilibrium_with_the_loads_in_force : forall g fuel clock r0 us s t tb tm old oo s' w,
  sound_set_up g -> no_histories r0 ->
  use_all g fuel (construct_solver clock r0) us = Done s ->
  use_all g fuel (construct_solver clock r0) (us ++ [Solve t tm old oo]) = Done s' ->
  (forall f, body_force_in_force us = Some f -> ~ used_as_traction us f /\ time_set clock us f = tb) ->
  let b := body_in_force g us t tb in let x := st_trial (so_state s') in
  closed_below (b_ndofs b) (st_internal (so_state s')) -> admissible (b_ndofs b) (st_internal (so_state s')) w ->
  Rabs (virtual_power b old x (body_update b old x (body_store b (st_hist (so_state s)))) w) <=
  match g_algorithm g with
  | Monolithic => mono_tol (g_parameters g) * size b w
  | Bouncing | Embracing => macro_tol (g_parameters g) * displacement_size b w + micro_tol (g_parameters g) * slip_size b w
  end.
Proof.
  intros g fuel clock r0 us s t tb tm old oo s' w SS NH H E NB b x CB A. rewrite use_all_app, H in E. cbn [use_solver] in E.
  destruct (solve_with_done _ _ _ _ _ _ _ _ E) as (F & _). pose proof (histories_invariant g fuel clock r0 SS NH us s H) as (_ & I2). specialize (I2 F).
  unfold solve_with in E. rewrite F in E. cbv zeta in E. rewrite (loaded_in_force g fuel clock r0 us s t tb H NB) in E. fold b in E.
  set (u := mk_sstate _ _ _ _ _ _ _ _ _ _ _ _) in E. destruct (solve_nonlinear_system _ _ _ _ _ _ u) as [r| | |] eqn:S; [|discriminate..]. injection E as <-.
  cbn [so_state] in *. destruct SS as (C & M & W & Ha). destruct (W b) as (W1 & W2).
  apply (C92_accepted_solution_in_equilibrium b (g_env g b) (g_parameters g) (g_algorithm g) fuel tm oo u r w); assumption.
Qed.
(** Two evaluations of the residual for the same trial solution give the same, unless the body
    force is also a traction. *)
Theorem C106_evaluation_is_repeatable : forall g fuel clock r0 us s t old x r cs,
  use_all g fuel (construct_solver clock r0) us = Done s ->
  (forall f, body_force_in_force us = Some f -> ~ used_as_traction us f) ->
  fst (evaluate g (snd (evaluate g s t old x r cs)) t old x r cs) = fst (evaluate g s t old x r cs).
Proof.
  intros g fuel clock r0 us s t old x r cs H NB. unfold evaluate. cbn [fst snd].
  destruct (loads_invariant g fuel clock r0 us s H) as (_ & I2 & _).
  f_equal. unfold loaded. cbn [so_strain so_supply so_neumann so_clock]. f_equal.
  apply functional_extensionality. intros c. apply functional_extensionality. intros q. unfold cell_supply. cbn [so_supply].
  destruct (so_supply s) as [f|] eqn:S; [|reflexivity]. symmetry in I2.
  pose proof (not_neumann g fuel clock r0 us s f H (NB f I2)) as NN.
  rewrite !clock_before_other, clock_after_other by exact NN. reflexivity.
Qed.
(** A traction given for an id that no boundary face has does nothing (no exception in release
    builds). *)
Theorem C106_unknown_boundary : forall g us id f t tb, (forall c face, In face (g_faces g c) -> bf_id face <> id) ->
  body_in_force g (us ++ [SetNeumann id f]) t tb = body_in_force g us t tb.
Proof.
  intros g us id f t tb N. unfold body_in_force, strain_in_force, body_force_in_force. rewrite !latest_app. f_equal.
  apply functional_extensionality. intros c. specialize (N c). induction (g_faces g c) as [|b fs IH]; cbn [flat_map]; [reflexivity|].
  rewrite IH by (intros face Q; apply N; right; exact Q). f_equal. unfold traction_in_force. rewrite latest_app.
  destruct (Nat.eqb id (bf_id b)) eqn:E; [|reflexivity]. apply Nat.eqb_eq in E. exfalso. exact (N b (or_introl eq_refl) (eq_sym E)).
Qed.

(** ** C107 *)
(** The object is initialised by the first call of init after the field and the crystals; from
    then on the histories exist, before it a step is undefined behaviour. *)
Theorem C107_uninitialised_steps : forall g fuel clock r0 us s t tm old oo,
  use_all g fuel (construct_solver clock r0) us = Done s -> ~ was_initialised us ->
  use_all g fuel (construct_solver clock r0) (us ++ [Solve t tm old oo]) = Undefined.
Proof.
  intros g fuel clock r0 us s t tm old oo H N. rewrite use_all_app, H. cbn [use_solver]. unfold solve_with.
  destruct (init_invariant g fuel clock r0 us s H) as (_ & _ & I3). destruct (so_init s); [exfalso; apply N; apply I3; reflexivity|reflexivity].
Qed.
Theorem C107_initialised_histories : forall g fuel clock r0 us s, sound_set_up g -> no_histories r0 ->
  use_all g fuel (construct_solver clock r0) us = Done s -> was_initialised us -> initialised (g_body g) (st_hist (so_state s)).
Proof.
  intros g fuel clock r0 us s SS NH H WI. apply (histories_invariant g fuel clock r0 SS NH us s H). apply (init_invariant g fuel clock r0 us s H). exact WI.
Qed.
Theorem C107_first_initialisation : forall g fuel clock r0 us s, sound_set_up g -> no_histories r0 ->
  use_all g fuel (construct_solver clock r0) (us ++ [Initialize]) = Done s -> ~ was_initialised us -> was_initialised (us ++ [Initialize]) ->
  untouched (g_body g) (so_state s) /\ undamaged (g_body g) (so_state s) /\ initialised (g_body g) (st_hist (so_state s)) /\
  st_hist (so_state s) = sweep_all (g_body g) Initialise r0.
Proof.
  intros g fuel clock r0 us s SS NH H NW W. pose proof (C107_initialised_histories _ _ _ _ _ _ SS NH H W) as I. pose proof SS as ((N & _) & _).
  rewrite use_all_app in H. destruct (use_all g fuel (construct_solver clock r0) us) as [s1| | |] eqn:H1; [|discriminate..]. cbn [use_solver] in H.
  destruct (init_invariant g fuel clock r0 us s1 H1) as (F1 & F2 & F3).
  assert (Z0 : so_init s1 = false) by (destruct (so_init s1); [exfalso; apply NW; apply F3; reflexivity|reflexivity]).
  destruct (histories_invariant g fuel clock r0 SS NH us s1 H1) as (R0 & _). specialize (R0 Z0).
  destruct (initialize_else g s1) as [Z|(s2 & Z)]; rewrite Z in H.
  - exfalso. injection H as <-. destruct W as (b & a & E & A1 & A2). destruct a as [|y a] using rev_ind.
    + apply app_inj_tail in E. destruct E as (-> & _). apply F1 in A1. apply F2 in A2. unfold initialize_solver in Z. rewrite A1, A2 in Z. discriminate.
    + clear IHa. change (b ++ Initialize :: a ++ [y])%list with (b ++ (Initialize :: a) ++ [y])%list in E. rewrite app_assoc in E. apply app_inj_tail in E. destruct E as (-> & _).
      apply NW. exists b, a. auto.
  - destruct (initialize_result _ _ _ Z) as (_ & _ & Q). subst s2. injection H as <-. cbn [so_state] in *. split; [apply fresh_untouched; exact N|]. split; [|split; [exact I|]].
    + intros c n q Hc Hn Hq. cbn [fresh_state st_hist]. destruct (initialise_face (g_body g) (st_hist (so_state s1)) (make_key c n) q N) as (B1 & B2 & _).
      rewrite B1, B2, R0, NH. split; reflexivity.
    + cbn [fresh_state st_hist]. rewrite R0. reflexivity.
Qed.
(** Called again, init resets the bodies of the grains but not their interfaces. *)
Theorem C107_later_initialisations : forall g fuel clock r0 us s s', sound_set_up g -> no_histories r0 ->
  use_all g fuel (construct_solver clock r0) us = Done s -> was_initialised us ->
  use_all g fuel (construct_solver clock r0) (us ++ [Initialize]) = Done s' ->
  untouched (g_body g) (so_state s') /\
  (forall c n q, In c (b_cells (g_body g)) -> In n (visited (b_mesh (g_body g)) (b_decohesion (g_body g)) c) -> (q < b_nfq (g_body g))%nat ->
     r_face (st_hist (so_state s')) (make_key c n) q = r_face (st_hist (so_state s)) (make_key c n) q).
Proof.
  intros g fuel clock r0 us s s' SS NH H W E. pose proof (C107_initialised_histories _ _ _ _ _ _ SS NH H W) as (_ & I). pose proof SS as ((N & _) & _).
  rewrite use_all_app, H in E. cbn [use_solver] in E. destruct (init_invariant g fuel clock r0 us s H) as (F1 & F2 & F3).
  destruct W as (b & a & -> & A1 & A2). assert (G1 : so_field s = true) by (apply F1; apply in_or_app; left; exact A1). assert (G2 : so_crystals s = true) by (apply F2; apply in_or_app; left; exact A2).
  unfold initialize_solver in E. rewrite G1, G2 in E. cbn [andb] in E. injection E as <-. cbn [so_state]. split; [apply fresh_untouched; exact N|].
  intros c n q Hc Hn Hq. cbn [fresh_state st_hist]. destruct (initialise_face (g_body g) (st_hist (so_state s)) (make_key c n) q N) as (_ & _ & B3). apply B3.
  rewrite (I c n q Hc Hn Hq). discriminate.
Qed.
