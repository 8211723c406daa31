From Verif Require Import Num SumLemmas Tensors TensorLemmas ModelCrystal SpecCrystal.
Open Scope R_scope.

Ltac ix i H := destruct i as [|[|[|i]]]; try (exfalso; simpl in H; lia).
Ltac sc x := let H := fresh in pose proof (sin2_cos2 x) as H; unfold Rsqr in H.

Lemma rot_z_orth x : orthogonal_mat 3 (rot_z x).
Proof.
  sc x. intros i j Hi Hj. ix i Hi; ix j Hj; unfold kron; simpl; split; nra.
Qed.
Lemma rot_x_orth x : orthogonal_mat 3 (rot_x x).
Proof. sc x. intros i j Hi Hj. ix i Hi; ix j Hj; unfold kron; simpl; split; nra. Qed.
Lemma rot_y_orth x : orthogonal_mat 3 (rot_y x).
Proof. sc x. intros i j Hi Hj. ix i Hi; ix j Hj; unfold kron; simpl; split; nra. Qed.
Lemma rot_z_det x : det3 (rot_z x) = 1.
Proof. sc x. unfold det3; simpl. nra. Qed.
Lemma rot_x_det x : det3 (rot_x x) = 1.
Proof. sc x. unfold det3; simpl. nra. Qed.
Lemma rot_y_det x : det3 (rot_y x) = 1.
Proof. sc x. unfold det3; simpl. nra. Qed.

Lemma det3_mm A B : det3 (mm 3 A B) = det3 A * det3 B.
Proof. unfold det3, mm. simpl. ring. Qed.

(** Products of orthogonal matrices are orthogonal. *)
Lemma mm_orth d A B : orthogonal_mat d A -> orthogonal_mat d B -> orthogonal_mat d (mm d A B).
Proof.
  intros HA HB i j Hi Hj. split.
  - (* sum_k (sum_a A k a B a i) (sum_b A k b B b j) *)
    unfold mm.
    rewrite (sumn_ext d _ (fun k => sumn d (fun a => sumn d (fun b => (B a i * B b j) * (A k a * A k b))))).
    2:{ intros k Hk. rewrite sumn_mult. apply sumn_ext; intros; apply sumn_ext; intros; ring. }
    rewrite sumn_swap.
    rewrite (sumn_ext d _ (fun a => B a i * B a j)).
    + apply HB; auto.
    + intros a Ha. rewrite sumn_swap.
      rewrite (sumn_ext d _ (fun b => (B a i * B b j) * kron a b)).
      * rewrite (sumn_kron_r' d a (fun b => B a i * B b j)); auto.
      * intros b Hb. rewrite sumn_scal. f_equal. apply (HA a b Ha Hb).
  - unfold mm.
    rewrite (sumn_ext d _ (fun k => sumn d (fun a => sumn d (fun b => (A i a * A j b) * (B a k * B b k))))).
    2:{ intros k Hk. rewrite sumn_mult. apply sumn_ext; intros; apply sumn_ext; intros; ring. }
    rewrite sumn_swap.
    rewrite (sumn_ext d _ (fun a => A i a * A j a)).
    + apply HA; auto.
    + intros a Ha. rewrite sumn_swap.
      rewrite (sumn_ext d _ (fun b => (A i a * A j b) * kron a b)).
      * rewrite (sumn_kron_r' d a (fun b => A i a * A j b)); auto.
      * intros b Hb. rewrite sumn_scal. f_equal. apply (HB a b Ha Hb).
Qed.

Lemma rotation_3d_orth e : orthogonal_mat 3 (rotation_3d e).
Proof. apply mm_orth; [apply mm_orth|]; apply rot_z_orth || apply rot_x_orth. Qed.
Lemma rotation_3d_det e : det3 (rotation_3d e) = 1.
Proof. unfold rotation_3d. rewrite !det3_mm, !rot_z_det, rot_x_det. ring. Qed.
Lemma rotation_2d_orth e : orthogonal_mat 2 (rotation_2d e).
Proof.
  unfold rotation_2d. sc (e 0%nat * deg_to_rad). intros i j Hi Hj.
  destruct i as [|[|i]]; try lia; destruct j as [|[|j]]; try lia; unfold kron; simpl; split; nra.
Qed.
Lemma rotation_2d_det e : det2 (rotation_2d e) = 1.
Proof. unfold rotation_2d, det2. sc (e 0%nat * deg_to_rad). simpl. nra. Qed.

Lemma rotation_proper d e Q : rotation d e = Ok Q ->
  orthogonal_mat d Q /\ (d = 2%nat -> det2 Q = 1) /\ (d = 3%nat -> det3 Q = 1) /\ (d = 2%nat \/ d = 3%nat).
Proof.
  destruct d as [|[|[|[|d]]]]; simpl; intros H; inversion H; subst.
  - split; [apply rotation_2d_orth|]. split; [intros; apply rotation_2d_det|]. split; [lia|auto].
  - split; [apply rotation_3d_orth|]. split; [lia|]. split; [intros; apply rotation_3d_det|auto].
Qed.

Lemma stiffness_rotation_2d e Q2 Q3 : rotation 2 e = Ok Q2 -> rotation_for_stiffness 2 e = Ok Q3 ->
  (forall i j, (i < 2)%nat -> (j < 2)%nat -> Q3 i j = Q2 i j) /\
  (forall i, (i < 2)%nat -> Q3 i 2%nat = 0 /\ Q3 2%nat i = 0) /\ Q3 2%nat 2%nat = 1.
Proof.
  simpl. intros H K; inversion H; inversion K; subst. clear H K. unfold mm, rotation_2d.
  rewrite ?sin_0, ?cos_0. repeat split; intros.
  - destruct i as [|[|i]]; try lia; destruct j as [|[|j]]; try lia; simpl; rewrite ?sin_0, ?cos_0; ring.
  - destruct i as [|[|i]]; try lia; simpl; rewrite ?sin_0, ?cos_0; ring.
  - destruct i as [|[|i]]; try lia; simpl; rewrite ?sin_0, ?cos_0; ring.
  - simpl; rewrite ?sin_0, ?cos_0; ring.
Qed.

Lemma stiffness_rotation_proper d e Q : rotation_for_stiffness d e = Ok Q ->
  orthogonal_mat 3 Q /\ det3 Q = 1.
Proof.
  destruct d as [|[|[|[|d]]]]; cbn [rotation_for_stiffness]; intros H; inversion H; subst.
  - split.
    + apply mm_orth; [apply rot_z_orth|apply mm_orth; [apply rot_y_orth|apply rot_x_orth]].
    + rewrite !det3_mm, rot_z_det, rot_y_det, rot_x_det. ring.
  - split; [apply rotation_3d_orth|apply rotation_3d_det].
Qed.

(** Rotations preserve scalar products. *)
Lemma orth_dot d Q a b : orthogonal_mat d Q -> dot d (mv d Q a) (mv d Q b) = dot d a b.
Proof.
  intros H. unfold dot, mv.
  rewrite (sumn_ext d _ (fun k => sumn d (fun i => sumn d (fun j => (a i * b j) * (Q k i * Q k j))))).
  2:{ intros k Hk. rewrite sumn_mult. apply sumn_ext; intros; apply sumn_ext; intros; ring. }
  rewrite sumn_swap. apply sumn_ext. intros i Hi.
  rewrite sumn_swap. rewrite (sumn_ext d _ (fun j => (a i * b j) * kron i j)).
  - rewrite (sumn_kron_r' d i (fun j => a i * b j)); auto.
  - intros j Hj. rewrite sumn_scal. f_equal. apply (H i j Hi Hj).
Qed.

Lemma norm_pos_of_neq d v : norm d v <> 0 -> 0 < norm d v.
Proof. intros. pose proof (norm_nonneg d v). lra. Qed.

Lemma normalise_dot d a b : norm d a <> 0 -> norm d b <> 0 ->
  dot d (normalise d a) (normalise d b) = dot d a b / (norm d a * norm d b).
Proof.
  intros Ha Hb. unfold dot, normalise, Rdiv. rewrite <- sumn_scal_r.
  apply sumn_ext; intros. field. auto.
Qed.

Lemma normalise_unit d a : norm d a <> 0 -> dot d (normalise d a) (normalise d a) = 1.
Proof. intros H. rewrite normalise_dot by auto. rewrite norm_sq, <- norm_sq. field. auto. Qed.

Lemma cross_orth_l a b : dot 3 a (cross a b) = 0.
Proof. unfold dot, cross; simpl; ring. Qed.
Lemma cross_orth_r a b : dot 3 b (cross a b) = 0.
Proof. unfold dot, cross; simpl; ring. Qed.
Lemma cross_lagrange a b : dot 3 (cross a b) (cross a b) = dot 3 a a * dot 3 b b - dot 3 a b * dot 3 a b.
Proof. unfold dot, cross; simpl; ring. Qed.

Lemma cross_norm_zero_iff a b : dot 3 a b = 0 -> norm 3 a <> 0 -> norm 3 b <> 0 -> norm 3 (cross a b) <> 0.
Proof.
  intros H Ha Hb K.
  assert (E : dot 3 (cross a b) (cross a b) = 0) by (rewrite <- norm_sq, K; ring).
  rewrite cross_lagrange, H in E. rewrite <- !norm_sq in E.
  apply norm_pos_of_neq in Ha. apply norm_pos_of_neq in Hb.
  assert (0 < (norm 3 a * norm 3 a) * (norm 3 b * norm 3 b)) by (repeat apply Rmult_lt_0_compat; auto). lra.
Qed.

Lemma reference_orthonormal d nrm dir s :
  dot d nrm dir = 0 -> reference_slip_system d nrm dir = Ok (Some s) ->
  orthonormal2 d (s_dir s) (s_nrm s) /\
  (d = 3%nat -> orthonormal3 3 (s_dir s) (s_nrm s) (s_ort s)).
Proof.
  intros H0 H. unfold reference_slip_system in H.
  destruct (orthogonality_check d nrm dir); [|discriminate].
  destruct d as [|[|[|[|d]]]]; try discriminate.
  - destruct (Reqb (norm 2 nrm) 0) eqn:E1; [discriminate|].
    destruct (Reqb (norm 2 dir) 0) eqn:E2; [discriminate|].
    apply Reqb_false in E1, E2. inversion H; subst. cbn [s_dir s_nrm].
    split; [|lia]. split; [apply normalise_unit; auto|]. split; [apply normalise_unit; auto|].
    rewrite normalise_dot by auto. rewrite dot_comm, H0. field. auto.
  - destruct (Reqb (norm 3 nrm) 0) eqn:E1; [discriminate|].
    destruct (Reqb (norm 3 dir) 0) eqn:E2; [discriminate|].
    destruct (Reqb (norm 3 (cross nrm dir)) 0) eqn:E3; [discriminate|].
    apply Reqb_false in E1, E2, E3. inversion H; subst. cbn [s_dir s_nrm s_ort].
    assert (O : orthonormal2 3 (normalise 3 dir) (normalise 3 nrm)).
    { split; [apply normalise_unit; auto|]. split; [apply normalise_unit; auto|].
      rewrite normalise_dot by auto. rewrite dot_comm, H0. field. auto. }
    split; auto. intros _. split; auto. split; [apply normalise_unit; auto|].
    split; rewrite normalise_dot by auto; rewrite ?cross_orth_l, ?cross_orth_r; field; auto.
Qed.

Lemma reference_total d nrm dir : (d = 2%nat \/ d = 3%nat) -> dot d nrm dir = 0 ->
  norm d nrm <> 0 -> norm d dir <> 0 -> exists s, reference_slip_system d nrm dir = Ok (Some s).
Proof.
  intros Hd H Hn Hdir. unfold reference_slip_system, orthogonality_check.
  rewrite H, Rabs_R0. rewrite (proj2 (Rleb_true 0 dbl_epsilon)).
  2:{ unfold dbl_epsilon. apply Rlt_le, Rinv_0_lt_compat, pow_lt; lra. }
  destruct Hd as [-> | ->].
  - rewrite (proj2 (Reqb_false _ _) Hn), (proj2 (Reqb_false _ _) Hdir). eexists; reflexivity.
  - rewrite (proj2 (Reqb_false _ _) Hn), (proj2 (Reqb_false _ _) Hdir).
    rewrite (proj2 (Reqb_false (norm 3 (cross nrm dir)) 0)); [eexists; reflexivity|].
    apply cross_norm_zero_iff; auto.
Qed.

Lemma rotated_orthonormal d nrm dir s e Q :
  dot d nrm dir = 0 -> reference_slip_system d nrm dir = Ok (Some s) -> rotation d e = Ok Q ->
  orthonormal2 d (s_dir (rotate_slip d Q s)) (s_nrm (rotate_slip d Q s)) /\
  (d = 3%nat -> orthonormal3 3 (s_dir (rotate_slip d Q s)) (s_nrm (rotate_slip d Q s))
                             (s_ort (rotate_slip d Q s))).
Proof.
  intros H0 Hs HQ. destruct (reference_orthonormal d nrm dir s H0 Hs) as [O2 O3].
  destruct (rotation_proper d e Q HQ) as (OQ & _).
  unfold orthonormal2, orthonormal3, rotate_slip in *. cbn [s_dir s_nrm s_ort].
  split.
  - rewrite !orth_dot by auto. exact O2.
  - intros ->. specialize (O3 eq_refl). unfold orthonormal2 in *. rewrite !orth_dot by auto. exact O3.
Qed.

(** Handedness: the rotated binormal is the cross product of rotated normal and direction. *)
Definition nx (i : nat) : nat := match i with 0%nat => 1 | 1%nat => 2 | _ => 0 end.
Definition cof (Q : mat) : mat := fun i j =>
  Q (nx i) (nx j) * Q (nx (nx i)) (nx (nx j)) - Q (nx i) (nx (nx j)) * Q (nx (nx i)) (nx j).

Lemma cof_adj Q i m : (i < 3)%nat -> (m < 3)%nat ->
  sumn 3 (fun k => cof Q i k * Q m k) = det3 Q * kron i m.
Proof. intros Hi Hm. ix i Hi; ix m Hm; unfold cof, det3, kron; simpl; ring. Qed.

Lemma cof_orth Q : orthogonal_mat 3 Q -> det3 Q = 1 ->
  forall i j, (i < 3)%nat -> (j < 3)%nat -> cof Q i j = Q i j.
Proof.
  intros H D i j Hi Hj.
  rewrite <- (sumn_kron_r 3 j (fun k => cof Q i k)) by auto.
  rewrite (sumn_ext 3 _ (fun k => sumn 3 (fun m => Q m j * (cof Q i k * Q m k)))).
  - rewrite sumn_swap.
    rewrite (sumn_ext 3 _ (fun m => Q m j * kron i m)).
    + rewrite (sumn_kron_r' 3 i (fun m => Q m j)) by auto. reflexivity.
    + intros m Hm. rewrite sumn_scal, cof_adj, D by auto. ring.
  - intros k Hk. rewrite <- (proj1 (H k j Hk Hj)). rewrite <- sumn_scal.
    apply sumn_ext; intros; ring.
Qed.

Lemma cross_mv_cof Q a b i : (i < 3)%nat ->
  cross (mv 3 Q a) (mv 3 Q b) i = mv 3 (cof Q) (cross a b) i.
Proof. intros Hi. ix i Hi; unfold cross, mv, cof; simpl; ring. Qed.

Lemma mv_cross Q a b : orthogonal_mat 3 Q -> det3 Q = 1 -> forall i, (i < 3)%nat ->
  mv 3 Q (cross a b) i = cross (mv 3 Q a) (mv 3 Q b) i.
Proof.
  intros H D i Hi. rewrite cross_mv_cof by auto. apply sumn_ext. intros j Hj.
  rewrite (cof_orth Q H D i j); auto.
Qed.

Lemma reference_binormal nrm dir s : dot 3 nrm dir = 0 ->
  reference_slip_system 3 nrm dir = Ok (Some s) ->
  forall i, s_ort s i = cross (s_nrm s) (s_dir s) i.
Proof.
  intros H0 H i. unfold reference_slip_system in H.
  destruct (orthogonality_check 3 nrm dir); [|discriminate].
  destruct (Reqb (norm 3 nrm) 0) eqn:E1; [discriminate|].
  destruct (Reqb (norm 3 dir) 0) eqn:E2; [discriminate|].
  destruct (Reqb (norm 3 (cross nrm dir)) 0) eqn:E3; [discriminate|].
  apply Reqb_false in E1, E2, E3. inversion H; subst. cbn [s_dir s_nrm s_ort].
  assert (N : norm 3 (cross nrm dir) = norm 3 nrm * norm 3 dir).
  { unfold norm at 1. rewrite cross_lagrange, H0.
    replace (dot 3 nrm nrm * dot 3 dir dir - 0 * 0) with (dot 3 nrm nrm * dot 3 dir dir) by ring.
    rewrite sqrt_mult_alt by apply dot_nonneg. reflexivity. }
  unfold normalise. rewrite N. destruct i as [|[|[|i]]]; unfold cross; field; auto.
Qed.

Lemma rotated_binormal nrm dir s e Q : dot 3 nrm dir = 0 ->
  reference_slip_system 3 nrm dir = Ok (Some s) -> rotation 3 e = Ok Q ->
  forall i, (i < 3)%nat -> s_ort (rotate_slip 3 Q s) i =
    cross (s_nrm (rotate_slip 3 Q s)) (s_dir (rotate_slip 3 Q s)) i.
Proof.
  intros H0 Hs HQ i Hi. destruct (rotation_proper 3 e Q HQ) as (OQ & _ & D & _).
  unfold rotate_slip; cbn [s_dir s_nrm s_ort]. rewrite <- mv_cross by auto.
  apply mv_ext. intros k _. eapply reference_binormal; eauto.
Qed.

(** ** C20 *)
Lemma schmid_symmetric s i j : sym_schmid s i j = sym_schmid s j i.
Proof. unfold sym_schmid, symmetrize. lra. Qed.

Lemma schmid_trace d s : orthonormal2 d (s_dir s) (s_nrm s) -> trace d (sym_schmid s) = 0.
Proof.
  intros (_ & _ & H). unfold trace, sym_schmid, symmetrize, schmid, outer.
  rewrite (sumn_ext d _ (fun i => s_dir s i * s_nrm s i)) by (intros; field). exact H.
Qed.

Lemma schmid_norm d s : orthonormal2 d (s_dir s) (s_nrm s) ->
  ddot d (sym_schmid s) (sym_schmid s) = 1/2.
Proof.
  intros (H1 & H2 & H3). unfold ddot, sym_schmid, symmetrize, schmid, outer.
  set (a := s_dir s) in *. set (b := s_nrm s) in *.
  rewrite (sumn_ext d _ (fun i => / 2 * (a i * a i) * dot d b b * / 2 + / 2 * (b i * b i) * dot d a a * / 2
                                 + / 2 * (a i * b i) * dot d a b)).
  - rewrite !sumn_plus. rewrite H1, H2, H3.
    rewrite (sumn_ext d (fun i => / 2 * (a i * a i) * 1 * / 2) (fun i => /4 * (a i * a i))) by (intros; field).
    rewrite (sumn_ext d (fun i => / 2 * (b i * b i) * 1 * / 2) (fun i => /4 * (b i * b i))) by (intros; field).
    rewrite (sumn_ext d (fun i => / 2 * (a i * b i) * 0) (fun i => 0)) by (intros; ring).
    rewrite !sumn_scal, sumn_0. change (/4 * dot d a a + /4 * dot d b b + 0 = 1/2). rewrite H1, H2. field.
  - intros i Hi. unfold dot. rewrite <- !sumn_scal, <- !sumn_scal_r.
    rewrite <- !sumn_plus. apply sumn_ext; intros. field.
Qed.

Lemma schmid_rotated d Q s i j : 
  sym_schmid (rotate_slip d Q s) i j =
  sumn d (fun k => sumn d (fun l => Q i k * sym_schmid s k l * Q j l)).
Proof.
  unfold sym_schmid, symmetrize, schmid, outer, rotate_slip, mv. cbn [s_dir s_nrm].
  set (a := s_dir s). set (b := s_nrm s).
  rewrite !sumn_mult.
  rewrite (sumn_swap d d (fun i0 j0 => Q j i0 * a i0 * (Q i j0 * b j0))).
  rewrite <- sumn_plus. unfold Rdiv. rewrite <- sumn_scal_r. apply sumn_ext; intros.
  rewrite <- sumn_plus, <- sumn_scal_r. apply sumn_ext; intros. field.
Qed.

(** ** C68 *)
Lemma add_set_In x s y : In y (add_set x s) <-> y = x \/ In y s.
Proof.
  unfold add_set. destruct (existsb (Nat.eqb x) s) eqn:E.
  - apply existsb_exists in E. destruct E as (z & Hz & Ez). apply Nat.eqb_eq in Ez. subst.
    split; [auto|intros [->|]; auto].
  - rewrite in_app_iff. simpl. split; [intros [|[|[]]]; auto|intros [->|]; auto].
Qed.

Lemma add_set_NoDup x s : NoDup s -> NoDup (add_set x s).
Proof.
  intros H. unfold add_set. destruct (existsb (Nat.eqb x) s) eqn:E; auto.
  apply NoDup_rev in H. rewrite <- (rev_involutive (s ++ [x])). apply NoDup_rev.
  rewrite rev_app_distr. simpl. constructor; auto. rewrite <- in_rev. intros K.
  assert (existsb (Nat.eqb x) s = true); [|congruence].
  apply existsb_exists. exists x. split; auto. apply Nat.eqb_refl.
Qed.

Lemma local_ids_spec rank cells :
  NoDup (local_ids rank cells) /\
  forall y, In y (local_ids rank cells) <-> In (rank, y) cells.
Proof.
  unfold local_ids.
  assert (K : forall cells s, NoDup s ->
    let r := fold_left (fun s c => if Nat.eqb (fst c) rank then add_set (snd c) s else s) cells s in
    NoDup r /\ forall y, In y r <-> In y s \/ In (rank, y) cells).
  { clear. induction cells as [|[o m] cells IH]; simpl; intros s H.
    - split; auto. intros; tauto.
    - destruct (Nat.eqb_spec o rank) as [->|Hne]; simpl.
      + destruct (IH (add_set m s)) as [A B]; [apply add_set_NoDup; auto|].
        split; auto. intros y. rewrite B, add_set_In. split.
        * intros [[->|]|]; auto.
        * intros [|[E|]]; auto. inversion E; auto.
      + destruct (IH s) as [A B]; auto. split; auto. intros y. rewrite B.
        split; [intros [|]; auto|intros [|[E|]]; auto]. inversion E; congruence. }
  destruct (K cells [] (NoDup_nil _)) as [A B]. split; auto. intros y. rewrite B. simpl. tauto.
Qed.

Lemma set_union_spec a b : NoDup a -> NoDup (set_union a b) /\
  forall y, In y (set_union a b) <-> In y a \/ In y b.
Proof.
  unfold set_union. revert a. induction b as [|x b IH]; simpl; intros a H.
  - split; auto. intros; tauto.
  - destruct (IH (add_set x a)) as [A B]; [apply add_set_NoDup; auto|].
    split; auto. intros y. rewrite B, add_set_In. split; [intros [[->|]|]; auto|intros [|[->|]]; auto].
Qed.

Lemma count_spec np cells : (forall c, In c cells -> (fst c < np)%nat) ->
  count_n_crystals np cells = length (nodup Nat.eq_dec (map snd cells)).
Proof.
  intros Hown. unfold count_n_crystals.
  assert (K : forall rs s, NoDup s ->
    let r := fold_left (fun s r => set_union s (local_ids r cells)) rs s in
    NoDup r /\ forall y, In y r <-> In y s \/ exists k, In k rs /\ In (k, y) cells).
  { clear. induction rs as [|k rs IH]; simpl; intros s H.
    - split; auto. intros; split; [auto|intros [|(k & [] & _)]; auto].
    - destruct (set_union_spec s (local_ids k cells) H) as [U1 U2].
      destruct (IH _ U1) as [A B]. split; auto. intros y. rewrite B, U2.
      rewrite (proj2 (local_ids_spec k cells)). split.
      + intros [[|]|(j & J1 & J2)]; eauto.
      + intros [|(j & [->|J1] & J2)]; eauto. }
  destruct (K (seq 0 np) [] (NoDup_nil _)) as [A B].
  set (r := fold_left _ (seq 0 np) []) in *.
  apply Nat.le_antisymm; apply NoDup_incl_length; auto using NoDup_nodup.
  - intros y Hy. apply B in Hy. destruct Hy as [[]|(k & _ & Hk)].
    apply nodup_In. apply in_map_iff. exists (k, y). auto.
  - intros y Hy. apply nodup_In in Hy. apply in_map_iff in Hy. destruct Hy as ([o m] & E & Hc).
    simpl in E; subst. apply B. right. exists o. split; auto. apply in_seq.
    specialize (Hown _ Hc). simpl in Hown. lia.
Qed.

Lemma tiny_vectors_accepted :
  exists dir nrm s, dot 2 dir nrm <> 0 /\ reference_slip_system 2 nrm dir = Ok (Some s) /\
    dot 2 (s_dir s) (s_nrm s) = 1.
Proof.
  set (t := / 2 ^ 26). assert (Ht : 0 < t) by (apply Rinv_0_lt_compat, pow_lt; lra).
  assert (T2 : t * t = dbl_epsilon).
  { unfold t, dbl_epsilon. rewrite <- Rinv_mult. f_equal. rewrite <- pow_add. reflexivity. }
  set (v := fun i : nat => match i with 0%nat => t | _ => 0 end).
  assert (Dv : dot 2 v v = t * t) by (unfold dot, v; simpl; ring).
  assert (Nv : norm 2 v = t) by (unfold norm; rewrite Dv; apply sqrt_square; lra).
  exists v, v. unfold reference_slip_system, orthogonality_check. rewrite Dv, T2.
  assert (0 < dbl_epsilon) by (rewrite <- T2; nra).
  rewrite Rabs_right by lra. rewrite (proj2 (Rleb_true _ _)) by lra.
  rewrite Nv. rewrite (proj2 (Reqb_false t 0)) by lra. cbn [orb].
  eexists. split; [lra|]. split; [reflexivity|]. cbn [s_dir s_nrm].
  rewrite normalise_dot by lra. rewrite Dv, Nv. field. lra.
Qed.

(** Quantitative form of C19: what the absolute tolerance really guarantees. *)
Lemma accepted_frame_error d nrm dir s e Q :
  reference_slip_system d nrm dir = Ok (Some s) -> rotation d e = Ok Q ->
  dot d (s_dir (rotate_slip d Q s)) (s_dir (rotate_slip d Q s)) = 1 /\
  dot d (s_nrm (rotate_slip d Q s)) (s_nrm (rotate_slip d Q s)) = 1 /\
  Rabs (dot d (s_dir (rotate_slip d Q s)) (s_nrm (rotate_slip d Q s)))
    <= dbl_epsilon / (norm d dir * norm d nrm) /\
  (d = 3%nat ->
     dot d (s_ort (rotate_slip d Q s)) (s_ort (rotate_slip d Q s)) = 1 /\
     dot d (s_dir (rotate_slip d Q s)) (s_ort (rotate_slip d Q s)) = 0 /\
     dot d (s_nrm (rotate_slip d Q s)) (s_ort (rotate_slip d Q s)) = 0).
Proof.
  intros H HQ. destruct (rotation_proper d e Q HQ) as (OQ & _).
  unfold rotate_slip; cbn [s_dir s_nrm s_ort]. rewrite !orth_dot by auto.
  unfold reference_slip_system in H.
  destruct (orthogonality_check d nrm dir) eqn:E0; [|discriminate].
  unfold orthogonality_check in E0. apply Rleb_true in E0.
  assert (B : forall a b, norm d a <> 0 -> norm d b <> 0 -> Rabs (dot d a b) <= dbl_epsilon ->
     Rabs (dot d (normalise d b) (normalise d a)) <= dbl_epsilon / (norm d b * norm d a)).
  { intros a b Ha Hb K. rewrite normalise_dot by auto.
    apply norm_pos_of_neq in Ha. apply norm_pos_of_neq in Hb.
    assert (P : 0 < norm d b * norm d a) by (apply Rmult_lt_0_compat; auto).
    unfold Rdiv. rewrite Rabs_mult, (Rabs_right (/ _)).
    2:{ apply Rle_ge, Rlt_le, Rinv_0_lt_compat; auto. }
    rewrite dot_comm. apply Rmult_le_compat_r; auto. apply Rlt_le, Rinv_0_lt_compat; auto. }
  destruct d as [|[|[|[|d]]]]; try discriminate.
  - destruct (Reqb (norm 2 nrm) 0) eqn:E1; [discriminate|].
    destruct (Reqb (norm 2 dir) 0) eqn:E2; [discriminate|].
    apply Reqb_false in E1, E2. inversion H; subst. cbn [s_dir s_nrm s_ort].
    repeat split; try (apply normalise_unit; auto); [apply B; auto|discriminate..].
  - destruct (Reqb (norm 3 nrm) 0) eqn:E1; [discriminate|].
    destruct (Reqb (norm 3 dir) 0) eqn:E2; [discriminate|].
    destruct (Reqb (norm 3 (cross nrm dir)) 0) eqn:E3; [discriminate|].
    apply Reqb_false in E1, E2, E3. inversion H; subst. cbn [s_dir s_nrm s_ort].
    split; [apply normalise_unit; auto|]. split; [apply normalise_unit; auto|].
    split; [apply B; auto|]. intros _. split; [apply normalise_unit; auto|].
    split; rewrite normalise_dot by auto; rewrite ?cross_orth_l, ?cross_orth_r; field; auto.
Qed.
