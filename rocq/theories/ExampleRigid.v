(** * The two grains of C92, 5 to the right. *)
From Coq Require Import Lia Lra FunctionalExtensionality.
From Verif Require Import Num SumLemmas Tensors TensorLemmas ModelUtilities ModelElastic ModelMicro SpecMicro ProofMicro ModelCohesive
  SpecCohesive ProofCohesive ModelHistory SpecHistory ModelInterface ModelFEField ModelLineSearch ModelActiveSet SpecActiveSet PropActiveSet
  ModelLinear SpecLinear PropLinear ModelAssembly SpecAssembly ModelSolver ModelSweep SpecSweep
  PropSweep ModelStep SpecStep ProofStep PropStep ModelBody SpecBody PropBody ModelTangent ExampleBody ModelObject SpecObject PropObject ExampleObject
  SpecMirror SpecRigid ProofRigid PropRigid.
Import ListNotations.
Open Scope R_scope.

Definition five : vec := fun _ => 5.
Definition away_problem : problem :=
  mk_problem 0 false (mk_hardening 1 0 0 true) 1 [0; 1]%nat [] (fun d => match d with 0%nat => Some ([], 5) | _ => None end) held no_constraints (fun _ => 0) (fun _ => 0).
Definition away_env : env rank_data :=
  mk_env away_problem (fun _ => Macro) (body_store pull_body) (body_update pull_body) (body_finish pull_body)
    (fun _ _ _ g => g) (body_norms pull_body) (fun _ _ => 0)
    (fun _ => Ok (on2 0 1)) (fun _ => Ok (fun _ => 0)) (fun _ => Ok (fun _ => 0)) (fun _ => Ok (fun _ => 0))
    (fun _ => []) (fun _ => []) (fun _ => []).
Definition away_start : sstate rank_data :=
  mk_sstate [] [] no_constraints five five five five five pull_histories (fun _ => 0) (fun _ => 0) (Fin 0, Fin 0).

Lemma pull_ordinary : ordinary_elements pull_body.
Proof.
  split.
  - intros c Hc. cbv zeta. split.
    + intros q i j [|m] Hm; [|cbn in Hm; lia]. unfold total. cbn. ring.
    + intros k q a _ _. split; [reflexivity|intros i; reflexivity].
  - intros c n Hc Hn. cbv zeta. apply pull_gb in Hn. split; [cbn; intuition lia|]. do 4 (split; [reflexivity|]). split.
    + intros q i [|m] Hm; [|cbn in Hm; lia]. unfold total. cbn. rewrite Rplus_0_l. repeat split; reflexivity.
    + intros k q a _. split; intros _; reflexivity.
Qed.
Lemma five_translates : translation pull_body (fun _ => 5) five.
Proof. intros c Hc [|k] Hk; [|cbn in Hk; lia]. reflexivity. Qed.
Lemma five_rigid : rigid pull_body five.
Proof. apply (C115_translations pull_body (fun _ => 5)); [exact pull_ordinary|exact five_translates|intros x; reflexivity]. Qed.
Lemma away_supports : moved_supports five pull_env away_env.
Proof.
  split; [repeat split|]. split.
  - apply functional_extensionality. intros [|d]; [|reflexivity]. unfold moved_lines. cbn. unfold five. replace (0 + (5 - 0)) with 5 by ring. reflexivity.
  - split; [reflexivity|]. split; [reflexivity|]. split; [intros d es z E; discriminate|]. split; [intros d D; discriminate|intros d es z m D; discriminate].
Qed.
Lemma away_solvers : no_preferred_place five pull_env away_env.
Proof. split; [reflexivity|]. intros s s' _. do 5 (split; [reflexivity|]). intros _. repeat split. Qed.
(** A step in which the interface breaks: grain 1 moves from 5 to 6, the damage is the same. *)
Example C115_example : exists r r',
  rigid pull_body five /\ moved_problem pull_body five pull_env away_env /\ moved_state (e_blocks pull_env) five pull_start away_start /\
  solve_nonlinear_system pull_env (two_parameters false false) Monolithic 10 pull_timing (fun _ => 0) pull_start = Done r /\
  solve_nonlinear_system away_env (two_parameters false false) Monolithic 10 pull_timing five away_start = Done r' /\
  st_trial r 1%nat = 1 /\ st_trial r' 1%nat = 6 /\ i_damage (r_face (st_hist r') (0, 1)%nat 0) = Fin (1 - 2 * exp (-1)).
Proof.
  assert (MP : moved_problem pull_body five pull_env away_env).
  { split; [repeat split|]. split; [reflexivity|]. split; [repeat split|]. split; [reflexivity|]. split; [exact away_supports|exact away_solvers]. }
  assert (F : five = moved five (fun _ => 0)) by (apply functional_extensionality; intros d; unfold moved, five; ring).
  assert (RS : moved_state (e_blocks pull_env) five pull_start away_start).
  { unfold moved_state. cbn [pull_start away_start st_active st_inactive st_internal st_trial st_tmp st_initial st_newton st_old st_hist st_res st_res_tmp st_norms]. rewrite <- F. repeat split. intros d. discriminate. }
  destruct pull_first as (r & E & D & T).
  destruct (C115_moved_step pull_body five pull_env away_env (two_parameters false false) Monolithic 10 pull_timing (fun _ => 0) pull_start away_start five_rigid MP RS) as (P & _).
  rewrite E in P. rewrite <- F in P.
  destruct (solve_nonlinear_system away_env _ _ _ _ _ _) as [r'| | |] eqn:E'; cbn [moved_outcome] in P; try tauto.
  exists r, r'. split; [exact five_rigid|]. split; [exact MP|]. split; [exact RS|].
  split; [exact E|]. split; [reflexivity|]. split; [exact T|]. destruct P as (_ & _ & _ & Q4 & _ & _ & _ & _ & Q9 & _). split; [rewrite Q4; unfold moved; rewrite T; unfold five; lra|rewrite Q9; exact D].
Qed.
(** Separating the grains is not rigid: it opens the interface. *)
Example C115_parting_is_not_rigid : ~ rigid pull_body (on2 0 1).
Proof.
  intros (_ & A & _). assert (A0 : In 0%nat (b_cells pull_body)) by (left; reflexivity). assert (A1 : In 1%nat (gb_neighbours pull_body 0)) by (left; reflexivity).
  destruct (A 0%nat 1%nat A0 A1) as (B & _). specialize (B 0%nat 0%nat). cbn in B. unfold kron in B. cbn in B. lra.
Qed.
