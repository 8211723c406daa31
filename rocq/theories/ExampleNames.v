(** * The two grains of C92 with each other's names. *)
From Coq Require Import Lia Lra FunctionalExtensionality.
From Verif Require Import Num SumLemmas Tensors TensorLemmas ModelUtilities ModelElastic ModelMicro SpecMicro ProofMicro ModelCohesive
  SpecCohesive ProofCohesive ModelHistory SpecHistory ModelInterface ModelFEField ModelLineSearch ModelActiveSet SpecActiveSet PropActiveSet
  ModelLinear SpecLinear PropLinear ModelAssembly SpecAssembly ModelSolver ModelSweep SpecSweep
  PropSweep ModelStep SpecStep ProofStep PropStep ModelBody SpecBody PropBody ModelTangent ExampleBody ModelObject SpecObject PropObject ExampleObject
  PropNumbering SpecNames ProofNames PropNames.
Import ListNotations.
Open Scope R_scope.

Definition other_names : body := named_body swap swap pull_body.
Definition other_names_env : env rank_data :=
  mk_env pull_problem (fun _ => Macro) (body_store other_names) (body_update other_names) (body_finish other_names)
    (fun _ _ _ g => g) (body_norms other_names) (fun _ _ => 0)
    (fun _ => Ok (on2 0 1)) (fun _ => Ok (fun _ => 0)) (fun _ => Ok (fun _ => 0)) (fun _ => Ok (fun _ => 0))
    (fun _ => []) (fun _ => []) (fun _ => []).
Definition other_names_histories : rank_data :=
  sweep_all other_names Initialise (mk_rank_data (fun _ _ => ModelHistory.construct (mk_hardening 1 0 0 true) 1) (fun _ _ => i_construct)).
Definition other_names_start : sstate rank_data :=
  mk_sstate [] [] no_constraints (fun _ => 0) (fun _ => 0) (fun _ => 0) (fun _ => 0) (fun _ => 0)
    other_names_histories (fun _ => 0) (fun _ => 0) (Fin 0, Fin 0).
Lemma swap_names : naming swap swap.
Proof. split; exact swap_swap. Qed.
Lemma other_names_start_same : state_with (same_memory swap) pull_start other_names_start.
Proof.
  unfold state_with. repeat (split; [reflexivity|]). split; [|repeat split].
  apply (sweep_named swap swap swap_names pull_body); [exact Logic.I|split; reflexivity].
Qed.
Lemma other_names_problem : named_problem swap swap pull_body pull_env other_names_env.
Proof. repeat split. Qed.
(** The grain pulled is now cell 0, and the interface is entered from the other side first: the
    step ends with the same displacements and the same damage. *)
Example C119_example : exists r r',
  naming swap swap /\ named_problem swap swap pull_body pull_env other_names_env /\ state_with (same_memory swap) pull_start other_names_start /\
  b_cells other_names = [1; 0]%nat /\ b_dofs other_names 0%nat = [1]%nat /\
  solve_nonlinear_system pull_env (two_parameters false false) Monolithic 10 pull_timing (fun _ => 0) pull_start = Done r /\
  solve_nonlinear_system other_names_env (two_parameters false false) Monolithic 10 pull_timing (fun _ => 0) other_names_start = Done r' /\
  st_trial r 1%nat = 1 /\ st_trial r' 1%nat = 1 /\ i_damage (r_face (st_hist r') (0, 1)%nat 0) = Fin (1 - 2 * exp (-1)).
Proof.
  destruct pull_first as (r & E & D & T).
  destruct (C119_step swap swap pull_body pull_env other_names_env (two_parameters false false) Monolithic 10 pull_timing (fun _ => 0) pull_start other_names_start
    swap_names other_names_problem other_names_start_same) as (P & _).
  rewrite E in P. destruct (solve_nonlinear_system other_names_env _ _ _ _ _ _) as [r'| | |] eqn:E'; cbn [outcome_with] in P; try tauto.
  exists r, r'. split; [exact swap_names|]. split; [exact other_names_problem|]. split; [exact other_names_start_same|]. split; [reflexivity|]. split; [reflexivity|].
  split; [exact E|]. split; [reflexivity|]. split; [exact T|]. destruct P as (_ & _ & _ & Q4 & _ & _ & _ & _ & (_ & Q9) & _).
  split; [rewrite Q4; exact T|]. specialize (Q9 0%nat 1%nat 0%nat). change (make_key (swap 0) (swap 1)) with (0, 1)%nat in Q9. change (make_key 0 1) with (0, 1)%nat in Q9.
  rewrite Q9. exact D.
Qed.
