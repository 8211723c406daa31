(** * Concrete cases meeting the hypotheses of theorems stated without one beside them. *)
From Coquelicot Require Import Coquelicot.
From Coq Require Import List Lia Lra.
From Verif Require Import Num SumLemmas Tensors TensorLemmas ModelUtilities ProofUtilities ModelCrystal SpecCrystal ProofCrystal PropCrystal ModelElastic SpecElastic ProofElastic PropElastic
  ModelLineSearch SpecLineSearch ProofLineSearch PropLineSearch ModelHistory SpecHistory ProofHistory PropHistory ModelCohesive ModelInterface SpecInterface ProofInterface PropInterface.
Import ListNotations.
Open Scope R_scope.

(** C01: a rejected first trial with finite values. *)
Example C01_example : 0 < 1 /\ nan_obj 0 (Fin 1) = Fin 29 /\ 0 < alpha ls_default <= 1/4 /\
  step_of (trial nan_obj (reinit ls_default (Fin 1)) 0) = Fin 1 /\ value_of (trial nan_obj (reinit ls_default (Fin 1)) 0) = Fin 29 /\
  accepted (trial nan_obj (reinit ls_default (Fin 1)) 0) = false /\
  (exists l, step_of (trial nan_obj (reinit ls_default (Fin 1)) 1) = Fin l) /\ value_of (trial nan_obj (reinit ls_default (Fin 1)) 1) = Fin (11/10).
Proof.
  split; [lra|]. split; [reflexivity|]. split; [cbn; lra|]. split; [reflexivity|]. split; [reflexivity|]. split.
  - unfold accepted, trial, sufficient_descent. simpl. apply Rltb_false. lra.
  - split; [|reflexivity]. destruct (C01_first_reduction_is_finite nan_obj ls_default 1 29 ltac:(lra) ltac:(lra) eq_refl) as (y & E & _). exists y. exact E.
Qed.

(** C09, C11: updates, a commit and updates again, with two slip systems. *)
Example C09_example : exists s s1 s2, run (construct prm_ex 0) [Init prm_ex 2 10; Update 0 sl_ex old_ex] = Ok s /\ flag_init s = true /\
  step s Store = Ok s1 /\ Forall uncommitted [Update 0 old_ex sl_ex; Update 0 sl_ex old_ex] /\ uncommitted Reset /\
  run s1 [Update 0 old_ex sl_ex; Update 0 sl_ex old_ex] = Ok s2 /\ get_slip_resistances s2 <> get_slip_resistances s1.
Proof.
  do 3 eexists. split; [reflexivity|]. split; [reflexivity|]. split; [reflexivity|]. split; [repeat constructor|]. split; [exact I|]. split; [reflexivity|].
  unfold get_slip_resistances. simpl. intros E. injection E as E _. unfold hardening_entry in E. simpl in E. rewrite !Rabs_right in E by lra. lra.
Qed.
Example C11_example : Forall not_init [Store; Update 0 sl_ex old_ex; Reset] /\ not_init Store /\
  exists s, run (construct prm_ex 0) [Init prm_ex 2 10; Store] = Ok s /\ (1 < 2)%nat.
Proof. split; [repeat constructor|]. split; [exact I|]. eexists. split; [reflexivity|]. lia. Qed.

(** C14: damage grows under forces above the endurance limit. *)
Example C14_example : exists s1 s2, 0 <= i_accumulation prm_m1 /\ 0 <= i_decay prm_m1 /\ 0 <= i_decay_exp prm_m1 /\ i_zero_damage prm_m1 = false /\
  Forall (forced prm_m1) [IUpdateRate 1 1 (1/2); IStore] /\ Forall rate_call [IUpdateRate 1 1 (1/2); IStore] /\
  irun i_construct (IInit prm_m1 :: [IUpdateRate 1 1 (1/2); IStore]) = Ok s1 /\ irun s1 [IUpdateRate 2 1 1; IStore] = Ok s2 /\ Forall (forced prm_m1) [IUpdateRate 2 1 1; IStore].
Proof.
  assert (F1 : Forall (forced prm_m1) [IUpdateRate 1 1 (1/2); IStore]) by (repeat constructor; cbn; lra).
  assert (F2 : Forall (forced prm_m1) [IUpdateRate 2 1 1; IStore]) by (repeat constructor; cbn; lra).
  assert (RC : Forall rate_call [IUpdateRate 1 1 (1/2); IStore]) by (repeat constructor).
  do 2 eexists. repeat split; try (cbn; lra); try assumption; try reflexivity.
Qed.
Example C14_rate_law_example : i_prm st_m1 = Some prm_m1 /\ i_zero_damage prm_m1 = false /\ i_tmp0 st_m1 = Fin 0 /\ i_damage st_m1 = Fin 0 /\ 0 < 1 /\ 0 < 1 - 0 + i_decay prm_m1 /\
  exists s', istep st_m1 (IUpdateRate 1 1 (1/2)) = Ok s' /\ i_damage s' <> Fin 0.
Proof.
  repeat split; try (cbn; lra). destruct (C14_update_is_rate_law prm_m1 st_m1 0 1 1 (1/2) eq_refl eq_refl eq_refl ltac:(cbn; lra)) as (s' & E & D & _).
  exists s'. split; [exact E|]. rewrite D. cbn. intros Q. injection Q as Q. revert Q. unfold M1_law.
  rewrite Rmax_left by lra. replace (1 - 0 + 0) with 1 by ring. rewrite Rpower_1 by lra. intros Q. rewrite Rmin_right in Q by lra. lra.
Qed.

(** C16: a unit normal, an opening with a tangential part. *)
Example C16_example : unit_vec 2 (fun i => kron i 0) /\ 0 <= dot 2 (fun i => kron i 0) (vsub (fun i => if Nat.eqb i 0 then 1 else 2) vzero).
Proof. split; [unfold unit_vec|]; unfold dot, kron, vsub, vzero; simpl; lra. Qed.

(** C18, C20, C21, C24: an fcc slip system in a rotated crystal, a symmetric strain and stress. *)
Example C20_example : forall euler, exists s Q, dot 3 fcc_normal fcc_direction = 0 /\ reference_slip_system 3 fcc_normal fcc_direction = Ok (Some s) /\
  rotation 3 euler = Ok Q /\ rotation_for_stiffness 3 euler = Ok Q.
Proof.
  intros euler. destruct (C19_fcc euler) as (s & Q & A & B & C). exists s, Q. repeat split; try assumption.
Qed.
Definition shear_state : mat := fun i j => if andb (Nat.eqb i 0) (Nat.eqb j 1) then 3 else if andb (Nat.eqb i 1) (Nat.eqb j 0) then 3 else if Nat.eqb i j then INR i else 0.
Example C21_example : forall euler, symmetric 3 shear_state /\ exists Q (slips : nat -> slip), rotation 3 euler = Ok Q /\
  (forall a, (a < 2)%nat -> exists nrm dir, dot 3 nrm dir = 0 /\ reference_slip_system 3 nrm dir = Ok (Some (slips a))).
Proof.
  intros euler. split.
  - intros i j Hi Hj. destruct i as [|[|[|i]]], j as [|[|[|j]]]; try lia; reflexivity.
  - destruct (C19_fcc euler) as (s & Q & A & B & C). exists Q, (fun _ => s). split; [exact C|]. intros a _. exists fcc_normal, fcc_direction. split; assumption.
Qed.
Example C24_example : symmetric 3 shear_state /\ resolved_shear_stress 3 (sym_schmid (mk_slip (fun i => kron i 0) (fun i => kron i 1) vzero)) shear_state = 3.
Proof.
  split.
  - intros i j Hi Hj. destruct i as [|[|[|i]]], j as [|[|[|j]]]; try lia; reflexivity.
  - rewrite C24_resolved_is_projected_traction.
    + unfold dot, mv, shear_state, kron. simpl. ring.
    + intros i j Hi Hj. destruct i as [|[|[|i]]], j as [|[|[|j]]]; try lia; reflexivity.
Qed.
