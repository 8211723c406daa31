(** * C101 on the elastic bar of ExampleProgram: the machine does the work 3/2, the bar stores 1
      (the difference is the error of the implicit steps). *)
From Coq Require Import ZArith Lia Lra FunctionalExtensionality.
From Verif Require Import Num SumLemmas Tensors TensorLemmas ModelUtilities ModelElastic SpecElastic ModelMicro SpecMicro ModelCohesive ModelHistory
  ModelFEField ModelLineSearch ModelActiveSet ModelLinear SpecLinear PropLinear ModelAssembly SpecAssembly ModelSolver ModelLoading SpecLoading PropLoading
  ModelShear SpecShear PropShear ModelProgram SpecProgram PropProgram ModelInterface ModelSweep ModelStep SpecStep ProofStep PropStep ModelBody SpecBody PropBody
  ModelTangent SpecTangent SpecRun SpecEnergy PropEnergy SpecMachine PropMachine ExampleBody ExampleEnergy ExampleProgram.
Open Scope R_scope.

Lemma bar_crosshead : crosshead bar_program = fun d => if Nat.eqb d 2 then 1 else 0.
Proof.
  apply functional_extensionality. intros d. unfold crosshead, driven. change (s_hanging (pr_strip bar_program) d) with (@None line). cbv iota.
  change (s_boundary (pr_strip bar_program)) with [mk_boundary_dof 0 2 0 (fun _ => 0); mk_boundary_dof 2 3 0 (fun _ => 1)].
  cbn [existsb b_dof b_id b_comp]. rewrite (Nat.eqb_sym d 2).
  change (Nat.eqb 2 3) with false. rewrite andb_false_r. cbn [andb orb]. change (Nat.eqb 3 3) with true.
  change (Nat.ltb 0 (s_dim (pr_strip bar_program) * (if s_decohesion (pr_strip bar_program) then s_nc (pr_strip bar_program) else 1))) with true.
  change (Nat.eqb (0 mod s_dim (pr_strip bar_program)) (pr_component bar_program)) with true.
  destruct (Nat.eqb 2 d); cbn; lra.
Qed.
Lemma bar_power old x r : machine_power bar_program bar_body old x r = x 2%nat - x 1%nat.
Proof.
  unfold machine_power, virtual_power. rewrite bar_crosshead. cbn [b_cells bar_body lsum].
  change (other_grains _ 0) with (@nil nat). change (b_loads _ 0) with (@nil neumann_face). fold bar_body.
  change (b_crystal bar_body 0) with bar_crystal. change (b_element bar_body 0) with bar_element. cbn [lsum].
  unfold ddot, dot, stress_at, c4, madd, elastic_strain, strain_at, slip_at.
  cbn [sumn cr_dim bar_crystal cr_N el_w el_nq bar_element el_eps el_phi cr_supply el_nd cr_macro cr_C cr_ns b_dofs bar_body nth Nat.eqb]. field.
Qed.
Lemma bar_stored x r : stored_energy bar_body pull_frames no_strain x r = 1/2 * ((x 1%nat - x 0%nat) ^ 2 + (x 2%nat - x 1%nat) ^ 2).
Proof.
  unfold stored_energy, interfaces_energy, grain_energy. cbn [b_cells bar_body lsum]. change (other_grains _ 0) with (@nil nat). fold bar_body. cbn [lsum].
  change (b_crystal bar_body 0) with bar_crystal. change (b_element bar_body 0) with bar_element.
  unfold elastic_strain_of, no_strain, ddot, c4, strain_at, slip_at, local_values.
  cbn [sumn cr_dim bar_crystal cr_N el_w el_nq bar_element el_eps el_phi cr_supply el_nd cr_macro cr_C cr_ns b_crystal b_element b_dofs bar_body nth Nat.eqb]. field.
Qed.
Lemma bar_material : stable_material bar_body no_strain.
Proof.
  intros c Hc. cbv zeta. change (b_crystal bar_body c) with bar_crystal. change (b_element bar_body c) with bar_element.
  cbn [bar_crystal bar_element cr_dim cr_ns cr_N cr_C cr_P cr_law cr_factor cr_p cr_dir cr_ort cr_macro cr_supply cr_dt el_w el_nq el_eps].
  split; [intros; lra|]. split; [lra|]. split; [lra|]. split; [lra|]. split; [intros i j k l; reflexivity|].
  split. { intros A _. unfold ddot, c4. cbn [sumn]. nra. }
  split; [intros i q k l _ _; reflexivity|]. split; [intros a k l _ _; reflexivity|]. split; [intros k l _ _; reflexivity|].
  split; [intros k l _ _; reflexivity|]. split; [reflexivity|]. split; cbn; lra.
Qed.
Lemma bar_interfaces : exists p0, stable_interfaces bar_body pull_frames p0.
Proof.
  exists pull_interface. split; [reflexivity|]. split; [reflexivity|]. split; [discriminate|]. split; [discriminate|]. intros c n _ [].
Qed.
Lemma bar_only_sheared : only_sheared bar_body.
Proof. intros c _. repeat split. Qed.
Lemma bar_two_sided : two_sided bar_body.
Proof. intros c n _ []. Qed.

Example C101_example : exists tr y1 y2, program_run bar_program exact 10 5 (fun _ => 0) bar_start = (tr, Completed) /\
  tr = [y1; y2] /\
  let bs := firstn 2 (bodies_of (fun _ _ => bar_body) exact 0 start_time (times_of tr)) in
  let xs := firstn 2 (map (fun z => st_trial (ac_state z)) tr) in
  let tt := firstn 2 (times_of tr) in
  stored_energy bar_body pull_frames no_strain (st_old bar_start) (st_hist bar_start) = 0 /\
  stored_energy bar_body pull_frames no_strain (st_trial (ac_state y2)) (st_hist (ac_state y2)) = 1 /\
  machine_work bar_program bs xs tt start_time (st_old bar_start) (st_hist bar_start) = 3/2 /\
  (** the hypotheses *)
  (forall k dt, two_sided ((fun (_ : nat) (_ : R) => bar_body) k dt)) /\ (forall k q, r_face (mk_rank_data (fun _ _ => ModelHistory.construct (mk_hardening 1 0 0 true) 1) (fun _ _ => i_construct)) k q = i_construct) /\
  homogeneous (s_hanging (pr_strip bar_program)) /\ same_solid bar_body bar_body /\ only_sheared bar_body /\ stable_material bar_body no_strain /\
  (exists p0, stable_interfaces bar_body pull_frames p0) /\
  0 < initial_slip_resistance (b_hardening bar_body) / b_char_resistance bar_body /\
  obeys (newton_of (pr_strip bar_program)) (st_old bar_start).
Proof.
  destruct C97_example as (r1 & r2 & E & A1 & A2 & B1 & B2 & _).
  assert (Z : forall x, In x [mk_accepted (mk_step 1 1 false) r1; mk_accepted (mk_step 2 2 true) r2] -> st_trial (ac_state x) 0%nat = 0).
  { intros x X. assert (SH := C97_accepted_solutions_are_sheared _ bar_program exact 10 5 _ _ _ _ x bar_well_formed bar_consistent_strip ltac:(cbn; lia) ltac:(cbn; lia) eq_refl E X).
    specialize (SH (mk_boundary_dof 0 2 0 (fun _ => 0)) (or_introl eq_refl) eq_refl). destruct SH as (_ & S2 & _).
    apply S2; [unfold is_displacement_component; cbn; lia|reflexivity|].
    intros b' [<-|[<-|[]]]; cbn; congruence. }
  pose proof (Z _ (or_introl eq_refl)) as Z1. pose proof (Z _ (or_intror (or_introl eq_refl))) as Z2. cbn [ac_state] in Z1, Z2.
  eexists _, _, _. split; [exact E|]. split; [reflexivity|]. cbv zeta. rewrite !bar_stored. cbn [ac_state st_old bar_start].
  split; [lra|]. split; [rewrite Z2, B1, B2; lra|]. split.
  { cbn [times_of map ac_record ModelLoading.st_time bodies_of firstn ac_state machine_work]. cbv zeta. rewrite !bar_power, A1, A2, B1, B2. unfold start_time. lra. }
  split; [intros; exact bar_two_sided|]. split; [reflexivity|]. split; [exact bar_homogeneous|].
  split. { repeat split; reflexivity. }
  split; [exact bar_only_sheared|]. split; [exact bar_material|]. split; [exact bar_interfaces|]. split; [cbn; lra|].
  intros d es z F. change (newton_of bar_strip d = Some (es, z)) in F. rewrite bar_newton in F. destruct d as [|[|[|d]]]; try discriminate; injection F as <- <-; cbn; lra.
Qed.
