(** * One work object for the two grains of C92, and what a leftover would do. *)
From Coq Require Import Lia Lra FunctionalExtensionality.
From Verif Require Import Num SumLemmas Tensors TensorLemmas ModelUtilities ModelElastic ModelMicro SpecMicro ProofMicro ModelCohesive
  SpecCohesive ProofCohesive ModelHistory SpecHistory ModelInterface ModelFEField ModelLineSearch ModelActiveSet SpecActiveSet PropActiveSet
  ModelLinear SpecLinear PropLinear ModelAssembly SpecAssembly ModelSolver ModelSweep SpecSweep
  PropSweep ModelStep SpecStep ProofStep PropStep ModelBody SpecBody PropBody ExampleBody ModelScratch SpecScratch ProofScratch PropScratch.
Import ListNotations.
Open Scope R_scope.

(** Sevens everywhere, except in the supply values. *)
Definition sevens : memory := fun v => match v return nat -> nat -> value v with
  | JxW | Slips | OldSlips | ResolvedStress | ScalarMicrostress | ScalarPhi | FaceJxW | FaceSlips | NeighbourSlips | Microtractions | DamageValues | FaceScalarPhi => fun _ _ => 7
  | Strain | Elastic | Stress | SymGradPhi => fun _ _ _ _ => 7
  | Supply => fun _ _ _ => 0
  | Gradients | Phi | GradScalarPhi | Normals | Displacements | NeighbourDisplacements | ContactTractions | FacePhi | NeumannValues => fun _ _ _ => 7
  | VectorMicrostress | CohesiveTractions => fun _ _ _ => Fin 7
  | Moduli => fun _ _ => (fun _ _ => 7, fun _ _ => 7)
  | LocalRhs => fun _ _ => Fin 7
  | Stiffness => fun _ _ _ _ _ _ => 7
  | Schmid | ContactJacobian => fun _ _ _ _ => 7
  | ScalarJacobian | IntraGateaux | InterGateaux => fun _ _ _ _ => 7
  | VectorJacobian | CohesiveJacobian => fun _ _ _ _ => Fin 7
  | NeighbourFacePhi => fun _ _ _ => 7
  | NeighbourFaceScalarPhi => fun _ _ => 7
  | LocalMatrix | CouplingMatrix => fun _ _ => Fin 7
  | CellIndices | NeighbourIndices => fun _ _ => [7]%nat
  | AtBoundary => fun _ _ => true
  | NeighboursIndices => fun _ _ => [[7]]%nat
  | CouplingMatrices => fun _ _ => [fun _ _ => Fin 7]
  end.
Definition broken_histories : rank_data := mk_rank_data (fun _ _ => ModelHistory.construct (mk_hardening 1 0 0 true) 1) (fun _ _ => broken_in).
Definition pull_view (c : nat) : view := view_of pull_body (fun _ => 0) (on2 0 1) broken_histories false c.
Lemma pull_well_formed c : well_formed (pull_view c).
Proof.
  split.
  - intros [|i] L; [|cbn in L; lia]. cbn. lia.
  - intros p f h Un I. unfold pull_view, view_of in I. cbn [v_faces] in I. apply in_map_iff in I. destruct I as (n & E & _). injection E as <- <- _ _. cbn. repeat split.
Qed.
Lemma pull_supplied c : supplied (pull_view c).
Proof. right. intros q. reflexivity. Qed.
Lemma pull_readable c : (c = 0 \/ c = 1)%nat -> forallb (readable pull_body broken_histories c) (gb_neighbours pull_body c) = true.
Proof. intros [->| ->]; reflexivity. Qed.
Lemma pull_contribution c : (c = 0 \/ c = 1)%nat -> contribution (pull_view c) 0%nat = Fin (if Nat.eqb c 0 then pull_load else 0).
Proof.
  intros H. rewrite <- (pull_entry (on2 0 1) (fun _ => 0) broken_histories c H) by reflexivity.
  unfold cell_entry. rewrite (pull_readable c H). reflexivity.
Qed.
(** C116_body: the object that served grain 0 serves grain 1, then grain 0 again. *)
Definition pull_schedule : list (nat * nat) := [(0, 0); (0, 1); (0, 0)]%nat.
Example C116_example :
  (forall k c, In (k, c) pull_schedule -> well_formed (pull_view c) /\ supplied (pull_view c) /\ forallb (readable pull_body broken_histories c) (gb_neighbours pull_body c) = true) /\
  (forall k : nat, constructed_supply sevens) /\
  exists r0 r1, let out := work_stream (map (fun kc => (fst kc, pull_view (snd kc))) pull_schedule) (fun _ => sevens) in
    nth_error out 0 = Some r0 /\ nth_error out 1 = Some r1 /\ r0 0%nat = Fin pull_load /\ r1 0%nat = Fin 0 /\ pull_load > 0.
Proof.
  assert (A : forall k c, In (k, c) pull_schedule -> well_formed (pull_view c) /\ supplied (pull_view c) /\ forallb (readable pull_body broken_histories c) (gb_neighbours pull_body c) = true).
  { intros k c I. split; [apply pull_well_formed|]. split; [apply pull_supplied|]. apply pull_readable. destruct I as [I|[I|[I|[]]]]; injection I as _ <-; auto. }
  assert (B : forall k : nat, constructed_supply sevens) by (intros k q; reflexivity).
  split; [exact A|]. split; [exact B|].
  destruct (C116_body pull_body (fun _ => 0) (on2 0 1) broken_histories false pull_schedule (fun _ => sevens) A (or_intror B) 0%nat 0%nat 0%nat eq_refl) as (r0 & E0 & S0).
  destruct (C116_body pull_body (fun _ => 0) (on2 0 1) broken_histories false pull_schedule (fun _ => sevens) A (or_intror B) 1%nat 0%nat 1%nat eq_refl) as (r1 & E1 & S1).
  exists r0, r1. cbv zeta. split; [exact E0|]. split; [exact E1|].
  rewrite (S0 0%nat) by (cbn; lia). rewrite (S1 0%nat) by (cbn; lia). rewrite !pull_entry by (auto; reflexivity). split; [reflexivity|]. split; [reflexivity|].
  unfold pull_load. pose proof (exp_pos (-1)). lra.
Qed.
(** Why the supply values of the constructor matter: an object whose supply values hold a one
    gives another local_rhs, if there is no supply term to overwrite it. *)
Definition ones : memory := set Supply 0 0 (fun _ => 1) sevens.
Definition bare (force : R) : view :=
  mk_view (mk_crystal 1 0 (fun _ => 1) (fun _ _ _ _ => 0) (fun _ _ _ => 0) (mk_scalar_law Tanh 1 0 0 1 true false) 1 2
    (fun _ _ => 0) (fun _ _ => 0) (fun _ _ => 0) (fun _ _ => force) 1) pull_element (fun _ => 0) (fun _ => 0) (fun _ _ => 0) false [] [].
Lemma bare_contribution force : contribution (bare force) 0%nat = Fin force.
Proof.
  unfold contribution, residual_cell. cbn [bare v_crystal v_element v_faces v_loads v_U v_Uold v_resistance fold_left].
  unfold residual_bulk. cbn [el_nq pull_element xsumn el_comp cr_dim Nat.ltb Nat.leb xneg xadd].
  f_equal. unfold ddot, dot, balance_factor, stress_at, c4. cbn [sumn cr_dim cr_N el_w pull_element el_eps el_phi cr_supply cr_C]. unfold kron. cbn [Nat.eqb]. field.
Qed.
Lemma bare_forces m : assemble_local_residual (bare 1) m = assemble_local_residual (bare 0) m.
Proof. reflexivity. Qed.
Example C116_leftover :
  well_formed (bare 0) /\ supplied (bare 0) /\ ~ constructed_supply ones /\
  assemble_local_residual (bare 0) ones LocalRhs 0%nat 0%nat = Fin 1 /\ contribution (bare 0) 0%nat = Fin 0.
Proof.
  assert (W : forall force, well_formed (bare force)).
  { intros force. split; [intros [|i] L; cbn in *; lia|intros p f h Un []]. }
  split; [apply W|]. split; [right; intros q; reflexivity|].
  assert (O : ones Supply 0%nat 0%nat = (fun _ => 1)) by apply set_same.
  split; [|split; [|apply bare_contribution]].
  - intros C. specialize (C 0%nat). rewrite O in C. apply (f_equal (fun v => v 0%nat)) in C. cbv beta in C. lra.
  - rewrite <- bare_forces. rewrite <- (bare_contribution 1).
    assert (F : fields (bare 1) (get_fields (bare 1) (reset_rhs (bare 1) ones))).
    { apply get_fields_ok. right. intros q Q. rewrite (reset_keep (bare 1) Supply) by discriminate. change (el_nq (v_element (bare 1))) with 1%nat in Q. destruct q; [exact O|lia]. }
    pose proof (bulk_ok (bare 1) (proj1 (W 1)) _ F 0%nat ltac:(cbn; lia)) as B.
    rewrite get_fields_rhs in B. rewrite reset_ok in B by (cbn; lia). rewrite xadd_zero_l in B. exact B.
Qed.
