(** * The two grains of C92, the second visited first. *)
From Coq Require Import Lia Lra Permutation FunctionalExtensionality.
From Verif Require Import Num SumLemmas Tensors TensorLemmas ModelUtilities ModelElastic ModelMicro SpecMicro ProofMicro ModelCohesive
  SpecCohesive ProofCohesive ModelHistory SpecHistory ModelInterface ProofInterface ModelFEField ModelLineSearch ModelActiveSet SpecActiveSet PropActiveSet
  ModelLinear SpecLinear PropLinear ModelAssembly SpecAssembly ModelSolver ModelSweep SpecSweep
  PropSweep ModelStep SpecStep ProofStep PropStep ModelBody SpecBody PropBody ModelTangent ExampleBody ModelObject SpecObject PropObject ExampleObject
  SpecMirror SpecVisit PropVisit.
Import ListNotations.
Open Scope R_scope.

Definition backwards : body := visited_as [1; 0]%nat pull_body.
Definition backwards_env : env rank_data :=
  mk_env pull_problem (fun _ => Macro) (body_store backwards) (body_update backwards) (body_finish backwards)
    (fun _ _ _ g => g) (body_norms backwards) (fun _ _ => 0)
    (fun _ => Ok (on2 0 1)) (fun _ => Ok (fun _ => 0)) (fun _ => Ok (fun _ => 0)) (fun _ => Ok (fun _ => 0))
    (fun _ => []) (fun _ => []) (fun _ => []).
Lemma pull_cells : same_cells pull_body [1; 0]%nat.
Proof. split; [exact pull_nodup|]. apply perm_swap. Qed.
Lemma pull_sides : sides_agree pull_body.
Proof.
  split; [|left; reflexivity]. intros a c q G. assert (H : (a = 0 /\ c = 1)%nat \/ (a = 1 /\ c = 0)%nat) by (apply pull_gb; apply in_visited in G; exact G).
  apply functional_extensionality. intros i. destruct H as [(-> & ->)|(-> & ->)]; cbn; unfold vneg, pull_normal; cbn; ring.
Qed.
Lemma backwards_otherwise : same_otherwise pull_body backwards pull_env backwards_env.
Proof. repeat split. Qed.
(** The step in which the interface breaks ends with the same displacements and the same damage. *)
Example C118_example : exists r,
  same_cells pull_body [1; 0]%nat /\ sides_agree pull_body /\ same_otherwise pull_body backwards pull_env backwards_env /\ same_solves pull_env backwards_env /\
  solve_nonlinear_system pull_env (two_parameters false false) Monolithic 10 pull_timing (fun _ => 0) pull_start = Done r /\
  solve_nonlinear_system backwards_env (two_parameters false false) Monolithic 10 pull_timing (fun _ => 0) pull_start = Done r /\
  st_trial r 1%nat = 1 /\ i_damage (r_face (st_hist r) (0, 1)%nat 0) = Fin (1 - 2 * exp (-1)).
Proof.
  destruct pull_first as (r & E & D & T). exists r.
  assert (SS : same_solves pull_env backwards_env) by (repeat split).
  split; [exact pull_cells|]. split; [exact pull_sides|]. split; [exact backwards_otherwise|]. split; [exact SS|]. split; [exact E|]. split; [|split; [exact T|exact D]].
  rewrite <- E. apply (C118_step pull_body [1; 0]%nat); [exact pull_cells|exact pull_sides|exact backwards_otherwise|exact SS].
Qed.

(** A solver which reads the entries: Jacobi's, without iterating. *)
Definition divide_by_diagonal (A : result (list (nat * nat * R))) (f _ : vec) : result vec :=
  match A with Ok ws => Ok (fun d => f d / matrix_of ws d d) | _ => Throw end.
Example C118_solver : reads_entries divide_by_diagonal.
Proof.
  intros [ws| |] [ws'| |] f g S; cbn in S; try contradiction; try reflexivity. unfold divide_by_diagonal. f_equal. apply functional_extensionality. intros d. rewrite S. reflexivity.
Qed.
(** One which does not: it takes the entry added last for the whole matrix. *)
Definition divide_by_last (A : result (list (nat * nat * R))) (f _ : vec) : result vec :=
  match A with Ok ws => Ok (fun d => f d / fold_left (fun _ w => snd w) ws 1) | _ => Throw end.
Example C118_other_solver : ~ reads_entries divide_by_last.
Proof.
  intros H. specialize (H (Ok [((0, 0)%nat, 1); ((0, 0)%nat, 2)]) (Ok [((0, 0)%nat, 2); ((0, 0)%nat, 1)]) (fun _ => 2) (fun _ => 0)).
  assert (S : same_entries (Ok [((0, 0)%nat, 1); ((0, 0)%nat, 2)]) (Ok [((0, 0)%nat, 2); ((0, 0)%nat, 1)])).
  { intros i j. unfold matrix_of. cbn. destruct (_ && _)%bool; ring. }
  specialize (H S). cbn in H. injection H as H. apply (f_equal (fun f => f 0%nat)) in H. cbn beta in H. lra.
Qed.

(** With the rate model the sides must agree on the energy: if one side finds twice as much as
    the other, the damage depends on which comes first. *)
Definition uneven : fields :=
  mk_fields (fun _ => []) (fun _ => []) (fun c _ _ => if Nat.eqb c 0 then along 0 else along 1) (fun c _ _ => if Nat.eqb c 0 then 1/4 else 1/8).
Lemma uneven_run cells h : cells = [0; 1]%nat \/ cells = [1; 0]%nat ->
  frun i_construct (flat_map (fun w => map (fun v => pair_ops (RateM1 2) v w) (visits (pair_env (RateM1 2)) cells (0, 1)%nat)) [Initialise; Refresh uneven]) = Ok h ->
  exists s, run_sweeps (pair_env (RateM1 2)) cells [Initialise; Refresh uneven] pair_start = Ok s /\ r_face s (make_key 0 1) 0 = h.
Proof.
  set (m := RateM1 2). intros C F.
  assert (N : NoDup cells) by (destruct C as [->| ->]; repeat constructor; cbn; intuition congruence).
  assert (OPS : face_ops (0, 1)%nat 0 (flat_map (sweep_calls (pair_env m) cells) [Initialise; Refresh uneven]) =
    flat_map (fun w => map (fun v => pair_ops m v w) (visits (pair_env m) cells (0, 1)%nat)) [Initialise; Refresh uneven]).
  { rewrite face_ops_flat. apply flat_map_ext. intros w. rewrite face_sweep. reflexivity. }
  assert (E : exists s, run_sweeps (pair_env m) cells [Initialise; Refresh uneven] pair_start = Ok s).
  { apply exec_all_ok.
    - intros c q. rewrite bulk_once_run by exact N. destruct (mem c cells && _)%bool; eexists; reflexivity.
    - intros k q. destruct (Nat.ltb q 1) eqn:Q.
      + apply Nat.ltb_lt in Q. assert (q = 0)%nat by lia. subst q.
        destruct (visits (pair_env m) cells k) as [|v vs] eqn:V.
        * eexists. rewrite face_ops_flat, (flat_map_nil _ [Initialise; Refresh uneven]); [reflexivity|].
          intros w _. rewrite face_sweep, V. reflexivity.
        * destruct (visits_nonempty (pair_env m) cells k v ltac:(rewrite V; left; reflexivity)) as (_ & G & -> & _).
          apply pair_neighbours in G.
          assert (K : make_key (fst v) (snd v) = (0, 1)%nat) by (destruct G as [[-> ->]|[-> ->]]; reflexivity).
          rewrite K. exists h. rewrite OPS. exact F.
      + eexists. rewrite face_ops_flat, (flat_map_nil _ [Initialise; Refresh uneven]); [reflexivity|].
        intros w _. rewrite face_sweep. change (w_nfq (pair_env m)) with 1%nat. rewrite Q. reflexivity. }
  destruct E as (s & E). exists s. split; [exact E|].
  pose proof (exec_all_face (0, 1)%nat 0 _ _ _ E) as B. rewrite OPS in B. change (r_face pair_start (0, 1)%nat 0) with i_construct in B.
  rewrite F in B. injection B as ->. reflexivity.
Qed.
Lemma rate_call x e mx : 0 < 1 - x -> 2 * e * (1 - x) < 1 ->
  face_step (mk_ihist (Some prm_m1) (Fin x) mx 0 (Fin 0) 0) (FRate 2 e 1 1) = Ok (mk_ihist (Some prm_m1) (Fin (2 * e * (1 - x))) 1 0 (Fin 0) 0).
Proof.
  intros H L. cbn [face_step]. unfold update_point_M1, degradation_derivative. cbn [i_damage].
  replace (2 - 1) with 1 by ring. rewrite cpow_1 by auto. cbn [xmul xneg].
  cbn [istep i_prm i_tmp1 i_tmp0 i_old prm_m1 i_zero_damage].
  rewrite (proj2 (Rltb_true 0 1)) by lra. unfold rate_damage.
  cbn [i_accumulation i_decay i_decay_exp i_endurance prm_m1].
  replace (1 - 0 + 0) with 1 by ring. rewrite cpow_1 by lra.
  unfold macaulay_brackets. rewrite (proj2 (Rltb_true 0 (1 - 0))) by lra.
  cbn [xmul xadd]. unfold xgtb; cbn [xltb].
  match goal with |- context [Rltb 1 ?y] => replace y with (2 * e * (1 - x)) by field end.
  rewrite (proj2 (Rltb_false 1 _)) by lra. reflexivity.
Qed.
Lemma uneven_call v : v = (0, 1)%nat \/ v = (1, 0)%nat -> pair_ops (RateM1 2) v (Refresh uneven) = FRate 2 (if Nat.eqb (fst v) 0 then 1/4 else 1/8) 1 1.
Proof.
  assert (O : forall a c, opening_from (pair_env (RateM1 2)) uneven a c 0 = opening_from (pair_env (RateM1 2)) pair_fields a c 0) by reflexivity.
  intros [->| ->]; unfold pair_ops, face_call_of; change (w_model (pair_env (RateM1 2))) with (RateM1 2); cbn [fst snd]; rewrite O;
    [rewrite (proj1 (pair_opening _))|rewrite (proj2 (pair_opening _))]; reflexivity.
Qed.
Example C118_sides_must_agree : exists first second,
  opposite_normals (pair_env (RateM1 2)) /\ Permutation [0; 1]%nat [1; 0]%nat /\
  run_sweeps (pair_env (RateM1 2)) [0; 1]%nat [Initialise; Refresh uneven] pair_start = Ok first /\
  run_sweeps (pair_env (RateM1 2)) [1; 0]%nat [Initialise; Refresh uneven] pair_start = Ok second /\
  i_damage (r_face first (make_key 0 1) 0) = Fin (1/8) /\ i_damage (r_face second (make_key 0 1) 0) = Fin (3/8).
Proof.
  assert (I : forall v, face_step i_construct (pair_ops (RateM1 2) v Initialise) = Ok st_m1) by reflexivity.
  assert (I2 : forall v, face_step st_m1 (pair_ops (RateM1 2) v Initialise) = Ok st_m1) by reflexivity.
  destruct (uneven_run [0; 1]%nat (mk_ihist (Some prm_m1) (Fin (1/8)) 1 0 (Fin 0) 0)) as (first & E1 & F1); [auto| |].
  { change (visits (pair_env (RateM1 2)) [0; 1]%nat (0, 1)%nat) with [(0, 1); (1, 0)]%nat. cbn [flat_map map app frun].
    rewrite I. cbn [rbind]. rewrite I2. cbn [rbind]. rewrite !uneven_call by auto. cbn [fst Nat.eqb].
    unfold st_m1. rewrite rate_call by lra. cbn [rbind]. rewrite rate_call by lra. cbn [rbind]. do 3 f_equal. lra. }
  destruct (uneven_run [1; 0]%nat (mk_ihist (Some prm_m1) (Fin (3/8)) 1 0 (Fin 0) 0)) as (second & E2 & F2); [auto| |].
  { change (visits (pair_env (RateM1 2)) [1; 0]%nat (0, 1)%nat) with [(1, 0); (0, 1)]%nat. cbn [flat_map map app frun].
    rewrite I. cbn [rbind]. rewrite I2. cbn [rbind]. rewrite !uneven_call by auto. cbn [fst Nat.eqb].
    unfold st_m1. rewrite rate_call by lra. cbn [rbind]. rewrite rate_call by lra. cbn [rbind]. do 3 f_equal. lra. }
  exists first, second. split; [apply (pair_well_formed (RateM1 2))|]. split; [apply perm_swap|]. split; [exact E1|]. split; [exact E2|]. rewrite F1, F2. split; reflexivity.
Qed.
