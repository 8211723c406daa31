(** * C18-C20, C68: crystal geometry. *)
From Verif Require Import Num SumLemmas Tensors TensorLemmas ModelCrystal SpecCrystal ProofCrystal.
Open Scope R_scope.

(** C18. *)
Theorem C18_rotation_is_proper : forall d euler Q, rotation d euler = Ok Q ->
  orthogonal_mat d Q /\ (d = 2%nat -> det2 Q = 1) /\ (d = 3%nat -> det3 Q = 1) /\
  (d = 2%nat \/ d = 3%nat).
Proof. exact rotation_proper. Qed.
Print Assumptions C18_rotation_is_proper.

Theorem C18_rotation_exists : forall d euler, d = 2%nat \/ d = 3%nat ->
  exists Q, rotation d euler = Ok Q.
Proof. intros d euler [-> | ->]; eexists; reflexivity. Qed.
Print Assumptions C18_rotation_exists.

(** The 2D rotation turns the first axis by the Euler angle given in degrees. *)
Theorem C18_rotation_angle_2d : forall euler Q, rotation 2 euler = Ok Q ->
  Q 0%nat 0%nat = cos (euler 0%nat * (PI / 180)) /\ Q 1%nat 0%nat = sin (euler 0%nat * (PI / 180)).
Proof. intros euler Q H. inversion H; subst. split; reflexivity. Qed.
Print Assumptions C18_rotation_angle_2d.

(** In 3D the matrix is the Bunge (z-x'-z'') rotation of the three Euler angles (phi1, Phi, phi2)
    in degrees, written out entry by entry: column j is the sample-frame image of crystal axis j. *)
Theorem C18_rotation_angles_3d : forall euler Q, rotation 3 euler = Ok Q ->
  let c1 := cos (euler 0%nat * (PI / 180)) in let s1 := sin (euler 0%nat * (PI / 180)) in
  let c := cos (euler 1%nat * (PI / 180)) in let s := sin (euler 1%nat * (PI / 180)) in
  let c2 := cos (euler 2%nat * (PI / 180)) in let s2 := sin (euler 2%nat * (PI / 180)) in
  (Q 0%nat 0%nat = c1 * c2 - s1 * s2 * c /\ Q 0%nat 1%nat = - c1 * s2 - s1 * c2 * c /\
   Q 0%nat 2%nat = s1 * s) /\
  (Q 1%nat 0%nat = s1 * c2 + c1 * s2 * c /\ Q 1%nat 1%nat = - s1 * s2 + c1 * c2 * c /\
   Q 1%nat 2%nat = - c1 * s) /\
  (Q 2%nat 0%nat = s2 * s /\ Q 2%nat 1%nat = c2 * s /\ Q 2%nat 2%nat = c).
Proof.
  intros euler Q H. inversion H; subst. unfold rotation_3d, mm, rot_z, rot_x, mat3, deg_to_rad. simpl.
  repeat split; ring.
Qed.
Print Assumptions C18_rotation_angles_3d.

(** In 3D the rotation used for the stiffness is the rotation of the slip systems. *)
Theorem C18_stiffness_rotation_3d : forall euler Q Q3,
  rotation 3 euler = Ok Q -> rotation_for_stiffness 3 euler = Ok Q3 -> Q3 = Q.
Proof. intros euler Q Q3 H H3. inversion H; inversion H3; subst. reflexivity. Qed.
Print Assumptions C18_stiffness_rotation_3d.

Theorem C18_stiffness_rotation_is_in_plane : forall euler Q2 Q3,
  rotation 2 euler = Ok Q2 -> rotation_for_stiffness 2 euler = Ok Q3 ->
  (forall i j, (i < 2)%nat -> (j < 2)%nat -> Q3 i j = Q2 i j) /\
  (forall i, (i < 2)%nat -> Q3 i 2%nat = 0 /\ Q3 2%nat i = 0) /\ Q3 2%nat 2%nat = 1.
Proof. exact stiffness_rotation_2d. Qed.
Print Assumptions C18_stiffness_rotation_is_in_plane.

Theorem C18_stiffness_rotation_is_proper : forall d euler Q, rotation_for_stiffness d euler = Ok Q ->
  orthogonal_mat 3 Q /\ det3 Q = 1.
Proof. exact stiffness_rotation_proper. Qed.
Print Assumptions C18_stiffness_rotation_is_proper.

(** C19. Every exactly orthogonal pair of non-zero vectors is accepted ... *)
Theorem C19_orthogonal_input_accepted : forall d nrm dir, (d = 2%nat \/ d = 3%nat) ->
  dot d nrm dir = 0 -> norm d nrm <> 0 -> norm d dir <> 0 ->
  exists s, reference_slip_system d nrm dir = Ok (Some s).
Proof. exact reference_total. Qed.
Print Assumptions C19_orthogonal_input_accepted.

(** ... as the slip system of the file: its direction and its normal are scaled to unit length
    and turned with the crystal, neither flipped nor exchanged ... *)
Theorem C19_frame_is_the_rotated_input : forall d nrm dir s euler Q,
  reference_slip_system d nrm dir = Ok (Some s) -> rotation d euler = Ok Q ->
  forall i,
  s_dir (rotate_slip d Q s) i = sumn d (fun j => Q i j * (dir j / sqrt (dot d dir dir))) /\
  s_nrm (rotate_slip d Q s) i = sumn d (fun j => Q i j * (nrm j / sqrt (dot d nrm nrm))).
Proof.
  intros d nrm dir s euler Q Hs HQ i. unfold reference_slip_system in Hs.
  destruct (orthogonality_check d nrm dir); [|discriminate].
  destruct d as [|[|[|[|d]]]]; try discriminate; cbv zeta in Hs;
  match type of Hs with (if ?b then _ else _) = _ => destruct b end; inversion Hs; subst; split; reflexivity.
Qed.
Print Assumptions C19_frame_is_the_rotated_input.

(** ... and pairs that are not orthogonal within the tolerance are rejected ... *)
Theorem C19_oblique_input_rejected : forall d nrm dir,
  / 2 ^ 52 < Rabs (dot d nrm dir) -> reference_slip_system d nrm dir = Throw.
Proof.
  intros d nrm dir H. unfold reference_slip_system, orthogonality_check, dbl_epsilon.
  rewrite (proj2 (Rleb_false _ _)) by exact H. reflexivity.
Qed.
Print Assumptions C19_oblique_input_rejected.

(** ... and gives an orthonormal frame for every orientation of the crystal. *)
Theorem C19_rotated_frame_orthonormal : forall d nrm dir s euler Q,
  dot d nrm dir = 0 -> reference_slip_system d nrm dir = Ok (Some s) -> rotation d euler = Ok Q ->
  orthonormal2 d (s_dir (rotate_slip d Q s)) (s_nrm (rotate_slip d Q s)) /\
  (d = 3%nat -> orthonormal3 3 (s_dir (rotate_slip d Q s)) (s_nrm (rotate_slip d Q s))
                             (s_ort (rotate_slip d Q s))).
Proof. exact rotated_orthonormal. Qed.
Print Assumptions C19_rotated_frame_orthonormal.

(** The triad is (binormal, normal, direction) right-handed: o = n x d. *)
Theorem C19_rotated_binormal_is_normal_cross_direction : forall nrm dir s euler Q,
  dot 3 nrm dir = 0 ->
  reference_slip_system 3 nrm dir = Ok (Some s) -> rotation 3 euler = Ok Q ->
  forall i, (i < 3)%nat -> s_ort (rotate_slip 3 Q s) i =
    cross (s_nrm (rotate_slip 3 Q s)) (s_dir (rotate_slip 3 Q s)) i.
Proof. exact rotated_binormal. Qed.
Print Assumptions C19_rotated_binormal_is_normal_cross_direction.

(** What acceptance by the (absolute) tolerance guarantees for all accepted input: the angle
    error is inversely proportional to the lengths of the vectors in the file ... *)
Theorem C19_accepted_frame_error : forall d nrm dir s euler Q,
  reference_slip_system d nrm dir = Ok (Some s) -> rotation d euler = Ok Q ->
  dot d (s_dir (rotate_slip d Q s)) (s_dir (rotate_slip d Q s)) = 1 /\
  dot d (s_nrm (rotate_slip d Q s)) (s_nrm (rotate_slip d Q s)) = 1 /\
  Rabs (dot d (s_dir (rotate_slip d Q s)) (s_nrm (rotate_slip d Q s)))
    <= dbl_epsilon / (norm d dir * norm d nrm) /\
  (d = 3%nat ->
     dot d (s_ort (rotate_slip d Q s)) (s_ort (rotate_slip d Q s)) = 1 /\
     dot d (s_dir (rotate_slip d Q s)) (s_ort (rotate_slip d Q s)) = 0 /\
     dot d (s_nrm (rotate_slip d Q s)) (s_ort (rotate_slip d Q s)) = 0).
Proof. exact accepted_frame_error. Qed.
Print Assumptions C19_accepted_frame_error.

(** ... so short vectors are accepted although parallel: the tolerance is not relative. *)
Theorem C19_tolerance_refuted : exists dir nrm s,
  dot 2 dir nrm <> 0 /\ reference_slip_system 2 nrm dir = Ok (Some s) /\
  dot 2 (s_dir s) (s_nrm s) = 1.
Proof. exact tiny_vectors_accepted. Qed.
Print Assumptions C19_tolerance_refuted.

(** Non-vacuity: an fcc slip system (111)[1-10] and an arbitrary orientation. *)
Definition fcc_normal : vec := fun _ => 1.
Definition fcc_direction : vec := fun i => match i with 0%nat => 1 | 1%nat => -1 | _ => 0 end.
Example C19_fcc : forall euler, exists s Q,
  dot 3 fcc_normal fcc_direction = 0 /\
  reference_slip_system 3 fcc_normal fcc_direction = Ok (Some s) /\ rotation 3 euler = Ok Q.
Proof.
  intros euler. assert (D : dot 3 fcc_normal fcc_direction = 0) by (unfold dot, fcc_normal, fcc_direction; simpl; ring).
  destruct (reference_total 3 fcc_normal fcc_direction) as [s Hs]; auto.
  - intros H. assert (N : norm 3 fcc_normal * norm 3 fcc_normal = 0) by (rewrite H; ring).
    rewrite norm_sq in N. unfold dot in N; simpl in N. unfold fcc_normal in N. lra.
  - intros H. assert (N : norm 3 fcc_direction * norm 3 fcc_direction = 0) by (rewrite H; ring).
    rewrite norm_sq in N. unfold dot in N; simpl in N. lra.
  - exists s. eexists. repeat split; eauto.
Qed.

(** C20. *)
Theorem C20_schmid_symmetric : forall s i j, sym_schmid s i j = sym_schmid s j i.
Proof. exact schmid_symmetric. Qed.
Print Assumptions C20_schmid_symmetric.

(** The Schmid tensor of a rotated system is (Q d) (x) (Q n), row index from the slip direction;
    the symmetrised one is its symmetric part. *)
Theorem C20_schmid_is_direction_times_normal : forall d Q s i j,
  schmid (rotate_slip d Q s) i j =
    sumn d (fun k => Q i k * s_dir s k) * sumn d (fun k => Q j k * s_nrm s k) /\
  sym_schmid (rotate_slip d Q s) i j =
    (schmid (rotate_slip d Q s) i j + schmid (rotate_slip d Q s) j i) / 2.
Proof. intros; split; reflexivity. Qed.
Print Assumptions C20_schmid_is_direction_times_normal.

Theorem C20_schmid_of_every_crystal : forall d nrm dir s euler Q,
  dot d nrm dir = 0 -> reference_slip_system d nrm dir = Ok (Some s) -> rotation d euler = Ok Q ->
  let P := sym_schmid (rotate_slip d Q s) in
  trace d P = 0 /\ ddot d P P = 1/2 /\
  (forall i j, P i j = sumn d (fun k => sumn d (fun l =>
      Q i k * ((s_dir s k * s_nrm s l + s_dir s l * s_nrm s k) / 2) * Q j l))).
Proof.
  intros d nrm dir s euler Q H0 Hs HQ P.
  destruct (rotated_orthonormal d nrm dir s euler Q H0 Hs HQ) as [O _].
  split; [apply schmid_trace; exact O|]. split; [apply schmid_norm; exact O|].
  intros i j. exact (schmid_rotated d Q s i j).
Qed.
Print Assumptions C20_schmid_of_every_crystal.

(** C68. For any distribution of the cells over the ranks. *)
Theorem C68_crystal_count : forall np cells, (forall c, In c cells -> (fst c < np)%nat) ->
  count_n_crystals np cells = length (nodup Nat.eq_dec (map snd cells)).
Proof. exact count_spec. Qed.
Print Assumptions C68_crystal_count.

(** 5 cells on 3 ranks with two material ids; every cell moved to rank 0 gives the same. *)
Example C68_example :
  count_n_crystals 3 [(0,4);(2,4);(2,7);(0,7);(0,4)]%nat = 2%nat /\
  count_n_crystals 3 [(0,4);(0,4);(0,7);(0,7);(0,4)]%nat = 2%nat.
Proof. split; reflexivity. Qed.
