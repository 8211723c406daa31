(** * The two grains of C92 with their dofs numbered the other way round. *)
From Coq Require Import Lia Lra FunctionalExtensionality.
From Verif Require Import Num SumLemmas Tensors TensorLemmas ModelUtilities ModelElastic ModelMicro SpecMicro ProofMicro ModelCohesive
  SpecCohesive ProofCohesive ModelHistory SpecHistory ModelInterface ModelFEField ModelLineSearch ModelActiveSet SpecActiveSet PropActiveSet
  ModelLinear SpecLinear PropLinear ModelAssembly SpecAssembly ModelSolver ModelSweep SpecSweep
  PropSweep ModelStep SpecStep ProofStep PropStep ModelBody SpecBody PropBody ModelTangent ExampleBody ModelObject SpecObject PropObject ExampleObject
  SpecNumbering ProofNumbering PropNumbering.
Import ListNotations.
Open Scope R_scope.

Definition turned_body : body := renumber_body swap swap pull_body.
Definition turned_problem : problem :=
  mk_problem 0 false (mk_hardening 1 0 0 true) 1 [0; 1]%nat [] (renumber_lines swap swap held) (renumber_lines swap swap held) no_constraints (fun _ => 0) (fun _ => 0).
Definition turned_env : env rank_data :=
  mk_env turned_problem (fun _ => Macro) (body_store turned_body) (body_update turned_body) (body_finish turned_body)
    (fun _ _ _ g => g) (body_norms turned_body) (fun _ _ => 0)
    (fun _ => Ok (renumber swap (on2 0 1))) (fun _ => Ok (fun _ => 0)) (fun _ => Ok (fun _ => 0)) (fun _ => Ok (fun _ => 0))
    (fun _ => []) (fun _ => []) (fun _ => []).
Definition turned_start : sstate rank_data :=
  mk_sstate [] [] no_constraints (fun _ => 0) (fun _ => 0) (fun _ => 0) (fun _ => 0) (fun _ => 0)
    pull_histories (fun _ => 0) (fun _ => 0) (Fin 0, Fin 0).

Lemma swap_is_numbering : renumbering 2 swap swap.
Proof. split; [exact swap_swap|]. split; [exact swap_swap|]. intros [|[|d]]; cbn; lia. Qed.
Lemma pull_complete : dofs_complete pull_body.
Proof. intros c. split; [apply le_n|]. intros n. split; apply le_n. Qed.
Lemma turned_dofs : renumbered_dofs swap swap pull_env turned_env.
Proof.
  unfold renumbered_dofs. cbv zeta. split; [reflexivity|]. split; [reflexivity|]. split; [reflexivity|]. split; [intros [|[|d]]; cbn; intuition lia|].
  split; [intros d; reflexivity|]. split; [reflexivity|]. split; [reflexivity|]. split; reflexivity.
Qed.
Lemma turned_solvers : no_preferred_numbering swap swap pull_env turned_env.
Proof. split; [intros act act' old x r _; reflexivity|]. intros s s' _. repeat (split; [reflexivity|]). reflexivity. Qed.
(** Both hypotheses and conclusion of C114 hold of a step in which the interface breaks: grain 1
    moves by 1; its dof is number 1 in one numbering, number 0 in the other. *)
Example C114_example : exists r r',
  renumbering (b_ndofs pull_body) swap swap /\ dofs_complete pull_body /\ renumbered_problem pull_body swap swap pull_env turned_env /\ no_copies pull_env /\
  renumbered_state swap swap pull_start turned_start /\ in_order (slips pull_env) pull_start /\ in_order (slips turned_env) turned_start /\
  solve_nonlinear_system pull_env (two_parameters false false) Monolithic 10 pull_timing (fun _ => 0) pull_start = Done r /\
  solve_nonlinear_system turned_env (two_parameters false false) Monolithic 10 pull_timing (fun _ => 0) turned_start = Done r' /\
  st_trial r 1%nat = 1 /\ st_trial r' 0%nat = 1 /\ i_damage (r_face (st_hist r') (0, 1)%nat 0) = Fin (1 - 2 * exp (-1)).
Proof.
  assert (RP : renumbered_problem pull_body swap swap pull_env turned_env).
  { split; [repeat split|]. split; [reflexivity|]. split; [repeat split|]. split; [reflexivity|]. split; [exact turned_dofs|exact turned_solvers]. }
  assert (NC : no_copies pull_env) by (intros d m []).
  assert (RS : renumbered_state swap swap pull_start turned_start) by (unfold renumbered_state; repeat (split; [first [reflexivity|intros d; reflexivity]|]); reflexivity).
  assert (O : in_order (slips pull_env) pull_start) by reflexivity. assert (O' : in_order (slips turned_env) turned_start) by reflexivity.
  destruct pull_first as (r & E & D & T).
  destruct (C114_renumbered_step pull_body swap swap pull_env turned_env (two_parameters false false) Monolithic 10 pull_timing (fun _ => 0) pull_start turned_start swap_is_numbering pull_complete RP (fun _ => NC) RS O O') as (P & _).
  rewrite E in P. change (renumber swap (fun _ => 0)) with (fun _ : nat => 0) in P.
  destruct (solve_nonlinear_system turned_env _ _ _ _ _ _) as [r'| | |] eqn:E'; cbn [renumbered_outcome] in P; try tauto. destruct P as (P & _).
  exists r, r'. split; [exact swap_is_numbering|]. split; [exact pull_complete|]. split; [exact RP|]. split; [exact NC|]. split; [exact RS|]. split; [exact O|]. split; [exact O'|].
  split; [exact E|]. split; [reflexivity|]. split; [exact T|]. destruct P as (_ & _ & _ & Q4 & _ & _ & _ & _ & Q9 & _). split; [rewrite Q4; exact T|rewrite Q9; exact D].
Qed.
