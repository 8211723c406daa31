(** * C98 on the bar of C97: homogenisation every third step. *)
From Coq Require Import ZArith String Lia Lra.
From Verif Require Import Num Tensors ModelPost ModelLoading SpecLoading PropLoading ModelTable ModelShear SpecShear ModelSolver ModelStep ModelProgram SpecProgram PropProgram ExampleProgram
  ModelFiles SpecFiles PropFiles.
Open Scope R_scope.
Open Scope string_scope.

Definition bar_output : output_settings := mk_output_settings 2 true 3.
(** The bar has stress and strain equal to the displacement of its upper end. *)
Definition bar_measure {H} (s : sstate H) : quantities :=
  mk_quantities (fun _ _ => st_trial s 2%nat) (fun _ _ => 0) (fun _ _ => st_trial s 2%nat) (fun _ _ => 0).
(** The table has the row of the last step only; Stress_33 is blank in two dimensions; the
    boundary table has both steps. *)
Example C98_example : exists tr f th tb,
  program_run bar_program exact 10 5 (fun _ => 0) bar_start = (tr, Completed) /\ length tr = 2%nat /\
  files_of_run bar_output bar_measure bar_loading 0 (fun s => st_trial s 2%nat) (end_time exact bar_loading) tr Completed = Ok f /\
  f_homogenization_file f = [th] /\ f_boundary_file f = Some tb /\
  column th "Time" = Some [Value 2] /\ column th "Stress_12" = Some [Value 2] /\ column th "Stress_33" = Some [Blank] /\
  column tb "shear_at_upper_boundary" = Some [Value 1; Value 2] /\ column tb "stress_12_at_upper_boundary" = Some [Value 1; Value 2].
Proof.
  destruct C97_example as (r1 & r2 & A & _ & U1 & _ & U2 & _).
  set (tr := [mk_accepted (mk_step 1 1 false) r1; mk_accepted (mk_step 2 2 true) r2]) in A.
  assert (E2 : end_time exact bar_loading = 2) by (unfold end_time, start_time; cbn; lra). rewrite E2.
  assert (FQ : o_flag bar_output = true -> o_frequency bar_output <> 0%Z) by (intros _; discriminate).
  destruct (C98_completed_run_files_homog bar_output bar_measure bar_loading 0 (fun s => st_trial s 2%nat) 2 tr (or_introl eq_refl) FQ) as (f & th & F1 & F2 & F3 & _).
  destruct (C98_boundary_file bar_output bar_measure bar_loading 0 (fun s => st_trial s 2%nat) 2 tr Completed ltac:(discriminate) FQ) as (f' & tb & F4 & F5 & F6 & F7).
  rewrite F1 in F4. injection F4 as <-.
  assert (Q : due (o_frequency bar_output) 2 tr = [mk_accepted (mk_step 2 2 true) r2]).
  { unfold due, tr, is_due. cbn [filter ac_record ModelLoading.st_time st_number]. change (o_frequency bar_output) with 3%Z.
    change ((1 mod 3 =? 0)%Z) with false. change ((2 mod 3 =? 0)%Z) with false. cbn [orb].
    rewrite (proj2 (Reqb_false 1 2)) by lra. rewrite (proj2 (Reqb_true 2 2)) by lra. reflexivity. }
  exists tr, f, th, tb. split; [exact A|]. split; [reflexivity|]. split; [exact F1|]. split; [exact F2|]. split; [exact F5|].
  unfold lists_the_quantities in F3. change (o_flag bar_output) with true in F3. cbv iota in F3. rewrite Q in F3. cbn [map] in F3.
  destruct F3 as (T1 & _ & _ & _ & _ & T6).
  destruct (T6 "12" (0, 1)%nat) as (T12 & _); [cbn; tauto|]. destruct (T6 "33" (2, 2)%nat) as (T33 & _); [cbn; tauto|].
  split; [rewrite T1; reflexivity|]. split. { change (column th "Stress_12" = Some [Value (st_trial r2 2%nat)]) in T12. rewrite T12, U2. reflexivity. }
  split; [exact T33|].
  split. { rewrite F6. cbn. do 3 f_equal; [f_equal; lra|f_equal; f_equal; lra]. }
  rewrite F7. cbn. rewrite U1, U2. reflexivity.
Qed.
