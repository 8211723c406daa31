(** * C101: the work of the testing machine covers stored and dissipated energy. *)
From Coq Require Import ZArith Lia Lra FunctionalExtensionality.
From Verif Require Import Num SumLemmas Tensors TensorLemmas ModelHistory ModelElastic ModelMicro SpecMicro ModelCohesive SpecCohesive ModelFEField ModelLineSearch ModelActiveSet PropActiveSet ModelSolver SpecSolver PropSolver
  ModelLoading SpecLoading PropLoading ModelShear SpecShear PropShear ModelProgram SpecProgram PropProgram
  ModelLinear SpecLinear PropLinear ModelAssembly SpecAssembly ModelInterface ModelSweep ModelStep SpecStep PropStep ModelBody SpecBody PropBody ModelTangent SpecTangent SpecRun PropRun
  SpecEnergy PropEnergy SpecMachine.
Open Scope R_scope.

(** ** The motion the constraints prescribe *)
Section Crosshead.
Context {H : Type} (p : program H).
Let m := pr_strip p.
Hypothesis C : SpecShear.consistent m.
Hypothesis NC : (0 < s_nc m)%nat.
Hypothesis K : (pr_component p < s_dim m)%nat.
Hypothesis T : l_type (pr_loading p) = Monotonic.
Hypothesis HH : homogeneous (s_hanging m).

Lemma driven_spec d : driven p d = true <-> s_hanging m d = None /\ exists b, In b (s_boundary m) /\ b_dof b = d /\ b_id b = 3%nat /\
  is_displacement_component m (b_comp b) /\ (b_comp b mod s_dim m)%nat = pr_component p.
Proof.
  unfold driven. fold m. destruct (s_hanging m d) as [l|].
  - split; [discriminate|]. intros (X & _). discriminate X.
  - rewrite existsb_exists. split.
    + intros (b & B & X). split; [reflexivity|]. exists b. split; [exact B|].
      apply andb_prop in X. destruct X as [X X4]. apply andb_prop in X. destruct X as [X X3]. apply andb_prop in X. destruct X as [X1 X2].
      apply Nat.eqb_eq in X1, X2, X4. apply Nat.ltb_lt in X3. auto.
    + intros (_ & b & B & X1 & X2 & X3 & X4). exists b. split; [exact B|]. unfold is_displacement_component in X3.
      rewrite X1, X2, X4, !Nat.eqb_refl. rewrite (proj2 (Nat.ltb_lt _ _) X3). reflexivity.
Qed.
Lemma no_load_at_start : control_time p 0 = zero_function.
Proof.
  unfold control_time, control_at, zero_function, pr_control. apply functional_extensionality. intros q. apply functional_extensionality. intros k.
  destruct (C52_monotonic_load (s_dim (pr_strip p)) (pr_loading p) (s_nc (pr_strip p)) (pr_height p) (s_decohesion (pr_strip p)) (pr_char p) (pr_component p) 0 k K T) as (L & NL).
  cbv zeta in L, NL.
  assert (D : (exists i, k = (pr_component p + i * s_dim (pr_strip p))%nat /\ (i = 0%nat \/ s_decohesion (pr_strip p) = true /\ (i < s_nc (pr_strip p))%nat)) \/
    ~ (exists i, k = (pr_component p + i * s_dim (pr_strip p))%nat /\ (i = 0%nat \/ s_decohesion (pr_strip p) = true /\ (i < s_nc (pr_strip p))%nat))) by apply Classical_Prop.classic.
  destruct D as [D|D]; [rewrite (L D); unfold Rdiv; ring|apply NL, D].
Qed.
(** A dof the machine does not drive has a homogeneous line, whatever the time. *)
Lemma undriven_line ts : forall d es z, affine_at p ts d = Some (es, z) -> driven p d = false -> z = 0.
Proof.
  induction ts as [|t ts IH]; intros d es z E D.
  - unfold affine_at in E. cbn [map affine_after] in E. rewrite no_load_at_start in E. fold (newton_of (pr_strip p)) in E.
    pose proof (C82_newton_constraints_are_the_homogeneous_version m zero_function [] HH d) as V. cbn [affine_after] in V. fold (newton_of m) in V.
    change (newton_of m d = Some (es, z)) in E. rewrite E in V. apply V.
  - unfold affine_at in E. cbn [map affine_after] in E. unfold merge in E. fold m in E.
    rewrite update_split in E. destruct (s_hanging m d) as [l|] eqn:HG; cbn [orelse] in E.
    + injection E as ->. exact (HH _ _ _ HG).
    + destruct (displacement_lines m (only_upper (control_time p t)) d) as [l|] eqn:L.
      * injection E as ->. pose proof L as L'. apply displacement_lines_some in L. destruct L as (k & b & g & L1 & L2 & L3 & L4 & L5 & L6).
        assert (I3 : b_id b = 3%nat) by (unfold only_upper in L3; destruct (Nat.eqb_spec (b_id b) 3); [assumption|discriminate]).
        pose proof (displacement_mask_only m k (b_comp b) L1 L4) as DC. rewrite <- L5 in HG.
        pose proof (C82_applied_shear m (control_time p 0) (map (control_time p) ts) b (pr_loading p) (pr_height p) (pr_char p) (pr_component p) t C NC L2 HG T K DC I3) as P1.
        cbv zeta in P1. cbn [affine_after] in P1. unfold merge in P1.
        change (control_at (s_dim m) (make_displacement_control (pr_loading p) (s_nc m) (pr_height p) (s_decohesion m) (pr_char p) (pr_component p)) t) with (control_time p t) in P1.
        rewrite update_split, HG in P1. cbn [orelse] in P1. rewrite L5, L' in P1. injection P1 as _ P1. rewrite P1.
        destruct (Nat.eqb_spec (b_comp b mod s_dim m) (pr_component p)) as [X|X]; [|reflexivity].
        exfalso. rewrite L5 in HG.
        assert (Y : driven p d = true) by (apply driven_spec; split; [exact HG|]; exists b; repeat split; assumption).
        congruence.
      * apply (IH d es z); [|exact D]. exact E.
Qed.
Lemma driven_line t ts d : driven p d = true -> affine_at p (t :: ts) d = Some ([], t * crosshead p d) /\ exists z, newton_of m d = Some ([], z).
Proof.
  intros D. pose proof D as D'. apply driven_spec in D. destruct D as (HG & b & B & B1 & B2 & B3 & B4). rewrite <- B1 in HG.
  pose proof (C82_applied_shear m (control_time p 0) (map (control_time p) ts) b (pr_loading p) (pr_height p) (pr_char p) (pr_component p) t C NC B HG T K B3 B2) as P1.
  cbv zeta in P1. rewrite B4, Nat.eqb_refl, B1 in P1.
  assert (Q : affine_at p (t :: ts) d = Some ([], t * crosshead p d)).
  { unfold crosshead. rewrite D'. unfold affine_at. cbn [map]. unfold control_time at 2, pr_control. fold m. 
    replace (t * (pr_height p * l_max (pr_loading p) / pr_char p)) with (t * pr_height p * l_max (pr_loading p) / pr_char p) by (unfold Rdiv; ring). exact P1. }
  split; [exact Q|]. pose proof (C82_newton_constraints_are_the_homogeneous_version m (control_time p 0) (map (control_time p) (t :: ts)) HH d) as V.
  change (affine_after m (control_time p 0) (map (control_time p) (t :: ts))) with (affine_at p (t :: ts)) in V. rewrite Q in V.
  destruct (newton_of m d) as [[es z]|]; [|contradiction]. destruct V as (-> & _). eauto.
Qed.
(** A solution that obeys the constraints of time [t]: homogeneous constraints, moved by the
    machine. *)
Definition moved_to (t : R) (x : vec) : Prop := forall d es z, newton_of m d = Some (es, z) -> x d = lsum (fun f => snd f * x (fst f)) es + t * crosshead p d.
Lemma obeys_moved t ts x : obeys (affine_at p (t :: ts)) x -> moved_to t x.
Proof.
  intros O d es z N.
  pose proof (C82_newton_constraints_are_the_homogeneous_version m (control_time p 0) (map (control_time p) (t :: ts)) HH d) as V.
  change (affine_after m (control_time p 0) (map (control_time p) (t :: ts))) with (affine_at p (t :: ts)) in V. rewrite N in V.
  destruct (affine_at p (t :: ts) d) as [[es' z']|] eqn:A; [|contradiction]. destruct V as (<- & _).
  rewrite (O d es z' A). f_equal. destruct (driven p d) eqn:D.
  - destruct (driven_line t ts d D) as (Q & _). rewrite A in Q. injection Q as _ ->. reflexivity.
  - rewrite (undriven_line _ _ _ _ A D). unfold crosshead. rewrite D. ring.
Qed.
Lemma start_moved x : obeys (newton_of m) x -> moved_to 0 x.
Proof.
  intros O d es z N. pose proof (C82_newton_constraints_are_the_homogeneous_version m zero_function [] HH d) as V. cbn [affine_after] in V. fold (newton_of m) in V.
  rewrite N in V. destruct V as (_ & Z). rewrite (O d es z N), Z. ring.
Qed.
Lemma free_undriven d : newton_of m d = None -> crosshead p d = 0.
Proof.
  intros N. unfold crosshead. destruct (driven p d) eqn:D; [|reflexivity]. destruct (driven_line 0 [] d D) as (_ & z & E). congruence.
Qed.
Lemma motion_admissible n t0 t old x : lines_are_closed (newton_of m) -> moved_to t0 old -> moved_to t x ->
  SpecLinear.admissible n (newton_of m) (fun d => x d - old d - (t - t0) * crosshead p d).
Proof.
  intros CL O X d es z _ E. rewrite (O d es z E), (X d es z E).
  assert (L : lsum (fun e => snd e * (x (fst e) - old (fst e) - (t - t0) * crosshead p (fst e))) es = lsum (fun f => snd f * x (fst f) - snd f * old (fst f)) es).
  { apply lsum_ext. intros [f w] Hf. cbn [fst snd]. rewrite (free_undriven f); [ring|]. exact (CL d es z f w E Hf). }
  rewrite L, lsum_minus. ring.
Qed.
End Crosshead.

(** ** The balance *)
Lemma residual_work_scale ls c v : residual_work ls (fun d => c * v d) = c * residual_work ls v.
Proof.
  unfold residual_work. rewrite <- lsum_scale. apply lsum_ext. intros l _. rewrite <- sumn_scal. apply sumn_ext. intros i _. ring.
Qed.
Lemma power_scale b e sp a fuel t oo s r c v :
  SpecBody.consistent b -> exponential_damage_only b -> works_on e b -> initialised b (st_hist s) ->
  rate_independent sp = false \/ a <> Monolithic ->
  solve_nonlinear_system e sp a fuel t oo s = Done r ->
  let iv := body_update b (st_old s) (st_trial r) (body_store b (st_hist s)) in
  virtual_power b (st_old s) (st_trial r) iv (fun d => c * v d) = c * virtual_power b (st_old s) (st_trial r) iv v.
Proof.
  intros C M (W1 & W2 & W3) I Ha E iv. pose proof C as (N & HP & C1 & _).
  destruct (C88_accepted_solution_is_converged _ sp a fuel e t oo s r) as [X _]; [rewrite W2; apply body_forgets; assumption|exact Ha|exact E|].
  unfold residual_within_tolerance in X. rewrite W1, W2, W3 in X. fold iv in X. destruct X as (uu & g & EN & _).
  unfold body_norms in EN. destruct (all_finite b (st_old s) (st_trial r) iv) eqn:AF; [|discriminate EN].
  assert (DR : damage_in_range b iv).
  { intros c' n q Hc Hn Hq. apply updated_damage; auto. apply initialised_store; assumption. }
  rewrite <- !(body_power b _ _ _ _ C DR AF). apply residual_work_scale.
Qed.

Lemma unloaded b w : only_sheared b -> load_work b w = 0.
Proof.
  intros OS. unfold load_work. apply lsum_zero. intros c Hc. destruct (OS c Hc) as (Z1 & Z2 & _). rewrite Z2. cbn [lsum].
  rewrite sumn_zero; [ring|]. intros q _.
  assert (D : forall u, dot (cr_dim (b_crystal b c)) u (cr_supply (b_crystal b c) q) = 0).
  { intros u. unfold dot. apply sumn_zero. intros i _. rewrite Z1. ring. }
  rewrite D. ring.
Qed.
Lemma unstrained b x : only_sheared b -> macroscopic_work b no_strain x = 0.
Proof.
  intros OS. unfold macroscopic_work. apply lsum_zero. intros c Hc. destruct (OS c Hc) as (_ & _ & Z3).
  apply sumn_zero. intros q _.
  assert (D : forall A, ddot (cr_dim (b_crystal b c)) (msub (cr_macro (b_crystal b c)) (no_strain c)) A = 0).
  { intros A. unfold ddot. apply sumn_zero. intros i _. apply sumn_zero. intros j _. unfold msub, no_strain. rewrite Z3. ring. }
  rewrite D. ring.
Qed.
Lemma stored_no_strain b frames x r : only_sheared b -> stored_energy b frames (macro_of b) x r = stored_energy b frames no_strain x r.
Proof.
  intros OS. unfold stored_energy. f_equal. unfold grain_energy. apply lsum_ext. intros c Hc. destruct (OS c Hc) as (_ & _ & Z3).
  assert (E : forall q, elastic_strain_of b (macro_of b) x c q = elastic_strain_of b no_strain x c q).
  { intros q. unfold elastic_strain_of, macro_of, no_strain. apply functional_extensionality. intros i. apply functional_extensionality. intros j. rewrite Z3. reflexivity. }
  apply sumn_ext. intros q _. rewrite E. reflexivity.
Qed.

Section Balance.
Context (p : program rank_data) (bodies : nat -> R -> body) (b0 : body) (frames : nat -> frame) (a : arith) (inner : nat).
Hypothesis OB : on_bodies p bodies b0.
Hypothesis TS : forall k dt, two_sided (bodies k dt).
Hypothesis SB : forall k dt, same_solid b0 (bodies k dt) /\ only_sheared (bodies k dt) /\ stable_material (bodies k dt) no_strain /\
  exists p0, stable_interfaces (bodies k dt) frames p0.
Hypothesis RI : rate_independent (pr_parameters p) = false.
Hypothesis WF : well_formed_program p.
Hypothesis C : SpecShear.consistent (pr_strip p).
Hypothesis NC : (0 < s_nc (pr_strip p))%nat.
Hypothesis K : (pr_component p < s_dim (pr_strip p))%nat.
Hypothesis T : l_type (pr_loading p) = Monotonic.
Hypothesis HH : homogeneous (s_hanging (pr_strip p)).
Hypothesis CB : forall k dt, closed_below (b_ndofs (bodies k dt)) (newton_of (pr_strip p)).

Lemma loop_balance : forall fuel k current previous ts oo s tr e, initialised b0 (st_hist s) -> sound_histories b0 (st_hist s) ->
  moved_to p current (st_old s) ->
  program_loop p a inner fuel k current previous ts oo s = (tr, e) ->
  forall j y, nth_error tr j = Some y ->
  let bs := firstn (S j) (bodies_of bodies a k current (times_of tr)) in
  let xs := firstn (S j) (map (fun z => st_trial (ac_state z)) tr) in
  let tt := firstn (S j) (times_of tr) in
  stored_energy b0 frames no_strain (st_trial (ac_state y)) (st_hist (ac_state y)) - stored_energy b0 frames no_strain (st_old s) (st_hist s)
    + slip_work bs xs (st_old s) (st_hist s) <=
  machine_work p bs xs tt current (st_old s) (st_hist s) + tolerance_work p bs xs tt current (st_old s) /\
  0 <= slip_work bs xs (st_old s) (st_hist s).
Proof.
  induction fuel as [|fuel IH]; intros k current previous ts oo s tr e HI HS MO; cbn [program_loop].
  - destruct (Rltb _ _); intros E; injection E as <- <-; intros [|j]; discriminate.
  - destruct (Rltb _ _); [|intros E; injection E as <- <-; intros [|j]; discriminate].
    cbv zeta. set (next := clipped_next _ _ _ _).
    destruct (solve_nonlinear_system _ _ _ _ _ _ _) as [r| | |] eqn:S; try (intros E; injection E as <- <-; intros [|j]; discriminate).
    destruct (shift_solutions r) as [oo' s'] eqn:SH.
    destruct (Z.eqb _ _); [intros E; injection E as <- <-; intros [|j]; discriminate|].
    destruct (program_loop _ _ _ _ _ _ _ _ _ _) as [tr1 e1] eqn:L. intros E. injection E as <- <-.
    set (dt := a_add a next (- current)) in *.
    destruct (OB (Z.to_nat k) dt) as (Cb & M & W & FI & SP). destruct (SB (Z.to_nat k) dt) as (SS & OS & SM & p0 & SI).
    pose proof (TS (Z.to_nat k) dt) as TW. pose proof (CB (Z.to_nat k) dt) as CL.
    set (b := bodies (Z.to_nat k) dt) in *.
    set (en := step_env p (Z.to_nat k) dt (next :: ts)) in *.
    assert (WE : works_on en b) by exact W. assert (FE : e_finish en = body_finish b) by exact FI.
    assert (Ib : initialised b (st_hist s)) by (eapply same_points_initialised; eauto).
    pose proof SS as (_ & _ & _ & _ & SMT & _).
    pose proof (same_points_sound b0 b _ SP SMT HS) as Sb.
    pose proof WE as (W1 & W2 & W3). pose proof Cb as (N & _).
    assert (HF : forgets_iterates (e_update en)) by (rewrite W2; apply body_forgets; assumption).
    destruct (accepted_step (pr_parameters p) en HF _ _ _ _ _ _ (or_introl RI) S) as (_ & A2 & _ & _ & A5). specialize (A5 RI).
    assert (IN : st_internal r = newton_of (pr_strip p)).
    { rewrite A5. unfold merge, no_constraints, en, step_env. cbn [e_problem p_newton]. apply functional_extensionality. intros d. destruct (newton_of (pr_strip p) d); reflexivity. }
    rewrite W1, W2, FE in A2.
    assert (MX : moved_to p next (st_trial r)).
    { apply (obeys_moved p C NC K T HH next ts). exact (C97_accepted_solution_obeys_the_constraints _ _ _ _ _ _ _ _ _ (WF _ _ _) S). }
    set (v := fun d => (next - current) * crosshead p d).
    assert (AD : SpecLinear.admissible (b_ndofs b) (st_internal r) (increment (increment (st_trial r) (st_old s)) v)).
    { rewrite IN. exact (motion_admissible p C NC K T HH _ current next _ _ (proj1 CL) MO MX). }
    assert (CL' : closed_below (b_ndofs b) (st_internal r)) by (rewrite IN; exact CL).
    pose proof (C95_dissipation_inequality b frames p0 no_strain en _ _ _ _ _ _ _ v Cb M TW SM SI WE FE Ib Sb (or_introl RI) S CL' AD) as D.
    cbv zeta in D. rewrite (unloaded b _ OS), (unstrained b _ OS), (stored_no_strain b _ _ _ OS) in D.
    rewrite !(same_solid_energy b0 b frames) in D by exact SS.
    unfold support_work in D. unfold v in D at 1.
    rewrite (power_scale b en _ _ _ _ _ _ _ (next - current) (crosshead p) Cb M WE Ib (or_introl RI) S) in D.
    destruct (C95_step_keeps_soundness b en _ _ _ _ _ _ _ Cb M TW WE FE Ib Sb (or_introl RI) S) as [Sr Ir].
    destruct (C95_slip_dissipates b no_strain (st_old s) (st_trial r) (st_hist r) Cb SM Sr) as [DP _].
    injection SH as <- <-.
    intros j y Hy. cbn [times_of map bodies_of ac_record ac_state ModelLoading.st_time firstn]. fold dt. fold b.
    cbn [slip_work machine_work tolerance_work]. cbv zeta. rewrite <- A2. unfold machine_power.
    change (fun d => st_trial r d - st_old s d - (next - current) * crosshead p d) with (increment (increment (st_trial r) (st_old s)) v).
    destruct j as [|j].
    + cbn [nth_error] in Hy. injection Hy as <-. cbn [ac_state firstn slip_work machine_work tolerance_work]. split; lra.
    + cbn [nth_error] in Hy.
      assert (H1 : initialised b0 (st_hist r)) by (apply (same_points_initialised b b0); [apply same_points_sym; exact SP|exact Ir]).
      assert (H2 : sound_histories b0 (st_hist r)) by (apply (same_points_sound b b0); [apply same_points_sym; exact SP|symmetry; exact SMT|exact Sr]).
      match type of L with program_loop _ _ _ _ _ _ _ _ ?o ?q = _ => pose proof (IH (k + 1)%Z next dt (next :: ts) o q tr1 e1 H1 H2 MX L j y Hy) as X end. cbv zeta in X. cbn [st_old st_hist] in X.
      destruct X as [X1 X2]. unfold times_of in X1, X2. split; lra.
Qed.
End Balance.

(** At any time of the test the energy stored beyond that at the start plus the energy the slips
    dissipated is at most the work of the machine (up to the tolerances of the solver). *)
Theorem C101_machine_pays_for_all_energy : forall (p : program rank_data) bodies b0 frames a inner fuel oo s tr e r0,
  on_bodies p bodies b0 -> (forall k dt, two_sided (bodies k dt)) -> NoDup (b_cells b0) -> (forall k q, r_face r0 k q = i_construct) ->
  st_hist s = sweep_all b0 Initialise r0 -> rate_independent (pr_parameters p) = false ->
  well_formed_program p -> SpecShear.consistent (pr_strip p) -> (0 < s_nc (pr_strip p))%nat -> (pr_component p < s_dim (pr_strip p))%nat ->
  l_type (pr_loading p) = Monotonic -> homogeneous (s_hanging (pr_strip p)) ->
  (forall k dt, closed_below (b_ndofs (bodies k dt)) (newton_of (pr_strip p))) ->
  (forall k dt, same_solid b0 (bodies k dt) /\ only_sheared (bodies k dt) /\ stable_material (bodies k dt) no_strain /\
     exists p0, stable_interfaces (bodies k dt) frames p0) ->
  SpecBody.consistent b0 -> 0 < initial_slip_resistance (b_hardening b0) / b_char_resistance b0 ->
  0 <= linear_hardening_modulus (b_hardening b0) / b_char_resistance b0 -> 0 <= hardening_parameter (b_hardening b0) ->
  obeys (newton_of (pr_strip p)) (st_old s) ->
  program_run p a inner fuel oo s = (tr, e) ->
  forall j y, nth_error tr j = Some y ->
  let bs := firstn (S j) (bodies_of bodies a 0 start_time (times_of tr)) in
  let xs := firstn (S j) (map (fun z => st_trial (ac_state z)) tr) in
  let tt := firstn (S j) (times_of tr) in
  stored_energy b0 frames no_strain (st_trial (ac_state y)) (st_hist (ac_state y)) - stored_energy b0 frames no_strain (st_old s) (st_hist s)
    + slip_work bs xs (st_old s) (st_hist s) <=
  machine_work p bs xs tt start_time (st_old s) (st_hist s) + tolerance_work p bs xs tt start_time (st_old s) /\
  0 <= slip_work bs xs (st_old s) (st_hist s).
Proof.
  intros p bodies b0 frames a inner fuel oo s tr e r0 OB TS N Z HI RI WF C NC K T HH CB SB C0 G1 G2 G3 O E j y Hy.
  apply (loop_balance p bodies b0 frames a inner OB TS SB RI WF C NC K T HH CB fuel 0%Z start_time 0 [] oo s tr e); try assumption.
  - rewrite HI. apply C92_initialised_after_setup; [exact N|]. intros; rewrite Z; reflexivity.
  - rewrite HI. apply C95_setup_is_sound; assumption.
  - unfold start_time. apply start_moved; assumption.
Qed.
