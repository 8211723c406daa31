(** * C21-C24: kinematics, Hooke's law and resolved shear stress. *)
From Verif Require Import Num SumLemmas Tensors TensorLemmas ModelCrystal SpecCrystal ProofCrystal
  ModelElastic SpecElastic ProofElastic.
Open Scope R_scope.

(** C21. Strain = elastic strain + dimensionless number times plastic strain. *)
Theorem C21_additive_split : forall N P eps gamma n_slips i j,
  eps i j = elastic_strain N P eps gamma n_slips i j + N * plastic_strain P gamma n_slips i j.
Proof. exact split. Qed.
Print Assumptions C21_additive_split.

(** The plastic strain is the slip-weighted sum of the Schmid tensors. *)
Theorem C21_plastic_strain_value : forall P gamma n_slips i j,
  plastic_strain P gamma n_slips i j = sumn n_slips (fun a => gamma a * P a i j).
Proof. exact plastic_sum. Qed.
Print Assumptions C21_plastic_strain_value.

Theorem C21_elastic_strain_linear : forall N P eps1 eps2 gamma1 gamma2 c n_slips i j,
  elastic_strain N P (madd eps1 (mscal c eps2)) (fun a => gamma1 a + c * gamma2 a) n_slips i j
  = elastic_strain N P eps1 gamma1 n_slips i j + c * elastic_strain N P eps2 gamma2 n_slips i j.
Proof. exact elastic_linear. Qed.
Print Assumptions C21_elastic_strain_linear.

(** Slip on the slip systems of any crystal (C20) leaves the volumetric strain alone. *)
Theorem C21_slip_is_isochoric : forall d N eps gamma n_slips (slips : nat -> slip) euler Q,
  rotation d euler = Ok Q ->
  (forall a, (a < n_slips)%nat -> exists nrm dir, dot d nrm dir = 0 /\
     reference_slip_system d nrm dir = Ok (Some (slips a))) ->
  trace d (elastic_strain N (fun a => sym_schmid (rotate_slip d Q (slips a))) eps gamma n_slips)
  = trace d eps.
Proof.
  intros d N eps gamma n slips euler Q HQ H. apply elastic_trace. intros a Ha.
  destruct (H a Ha) as (nrm & dir & H0 & Hs). apply schmid_trace.
  exact (proj1 (rotated_orthonormal d nrm dir (slips a) euler Q H0 Hs HQ)).
Qed.
Print Assumptions C21_slip_is_isochoric.

Theorem C21_elastic_strain_symmetric : forall d N eps gamma n_slips (slips : nat -> slip),
  symmetric d eps ->
  symmetric d (elastic_strain N (fun a => sym_schmid (slips a)) eps gamma n_slips).
Proof.
  intros. apply elastic_symmetric; auto. intros a _ i j _ _. apply schmid_symmetric.
Qed.
Print Assumptions C21_elastic_strain_symmetric.

(** C22. The stored stiffness is the rotated cubic stiffness ... *)
Theorem C22_stiffness_is_rotated_cubic : forall p d Q i j k l,
  (d = 2 \/ d = 3)%nat -> char_stiffness p <> 0 ->
  (i < d)%nat -> (j < d)%nat -> (k < d)%nat -> (l < d)%nat ->
  stiffness p d Q i j k l =
  rotate4 d Q (cubic d (C1111 p / char_stiffness p) (C1122 p / char_stiffness p)
                       (C1212 p / char_stiffness p)) i j k l.
Proof. exact stiffness_is_rotated_cubic. Qed.
Print Assumptions C22_stiffness_is_rotated_cubic.

Theorem C22_reference_is_cubic : forall p d i j k l,
  (d = 2 \/ d = 3)%nat -> char_stiffness p <> 0 ->
  (i < d)%nat -> (j < d)%nat -> (k < d)%nat -> (l < d)%nat ->
  reference_stiffness p d i j k l =
  cubic d (C1111 p / char_stiffness p) (C1122 p / char_stiffness p) (C1212 p / char_stiffness p) i j k l.
Proof. exact reference_is_cubic. Qed.
Print Assumptions C22_reference_is_cubic.

(** ... with all symmetries ... *)
Theorem C22_stiffness_symmetries : forall p d Q, (d = 2 \/ d = 3)%nat ->
  minor_symmetric d (stiffness p d Q) /\ major_symmetric d (stiffness p d Q).
Proof. exact stiffness_symmetries. Qed.
Print Assumptions C22_stiffness_symmetries.

(** ... the stress is symmetric and linear ... *)
Theorem C22_stress_symmetric_and_linear : forall p d Q, (d = 2 \/ d = 3)%nat ->
  (forall eps, symmetric d (c4 d (stiffness p d Q) eps)) /\
  (forall eps1 eps2 c i j, c4 d (stiffness p d Q) (madd eps1 (mscal c eps2)) i j =
     c4 d (stiffness p d Q) eps1 i j + c * c4 d (stiffness p d Q) eps2 i j).
Proof.
  intros p d Q Hd. split; [intros; apply stress_symmetric; auto|intros; apply stress_linear].
Qed.
Print Assumptions C22_stress_symmetric_and_linear.

(** ... and rotating crystal and strain rotates the stress. *)
Theorem C22_stress_covariant : forall p d euler Q eps, rotation d euler = Ok Q ->
  meq d (c4 d (stiffness p d Q) (conjugate d Q eps)) (conjugate d Q (c4 d (reference_stiffness p d) eps)).
Proof.
  intros p d euler Q eps H. destruct (rotation_proper d euler Q H) as (O & _ & _ & Hd).
  apply stress_covariant; auto.
Qed.
Print Assumptions C22_stress_covariant.

(** The call get_stress_tensor on an initialised law: crystal [c] gets its own stiffness;
    uninitialised or wrongly constructed laws throw. *)
Theorem C22_get_stress : forall p d rots h c eps,
  hooke_init d true rots (hooke_construct true p) = Ok h ->
  get_stress d h c eps =
    match nth_error rots c with
    | Some q => Ok (c4 d (stiffness p d (fst q)) eps)
    | None => UB
    end /\
  get_stress d (hooke_construct true p) c eps = Throw /\
  get_stress d (hooke_construct false p) c eps = Throw /\
  hooke_init d false rots (hooke_construct true p) = Throw.
Proof.
  intros p d rots h c eps H. inversion H; subst. split; [|repeat split].
  unfold get_stress. cbn [polycrystalline hl_init tetrads]. simpl app.
  rewrite nth_error_map. destruct (nth_error rots c); reflexivity.
Qed.
Print Assumptions C22_get_stress.

(** The single-crystal overload uses the unrotated cubic stiffness, and only after init. *)
Theorem C22_get_stress_single_crystal : forall p d crystals rots h eps,
  (d = 2 \/ d = 3)%nat -> char_stiffness p <> 0 ->
  hooke_init d crystals rots (hooke_construct false p) = Ok h ->
  (exists sigma, get_stress_mono d h eps = Ok sigma /\
   forall i j, (i < d)%nat -> (j < d)%nat -> sigma i j = sumn d (fun k => sumn d (fun l =>
     cubic d (C1111 p / char_stiffness p) (C1122 p / char_stiffness p) (C1212 p / char_stiffness p)
       i j k l * eps k l))) /\
  get_stress_mono d (hooke_construct false p) eps = Throw /\
  (forall h', polycrystalline h' = true -> get_stress_mono d h' eps = Throw).
Proof.
  intros p d crystals rots h eps Hd Hc H. inversion H; subst. split; [|split; [reflexivity|]].
  - eexists. split; [reflexivity|]. intros i j Hi Hj. unfold c4.
    apply sumn_ext; intros k Hk. apply sumn_ext; intros l Hl. cbn [hl_prm].
    rewrite reference_is_cubic by auto. reflexivity.
  - intros h' H'. unfold get_stress_mono. rewrite H'. reflexivity.
Qed.
Print Assumptions C22_get_stress_single_crystal.

(** The tetrads the post-processor reads are, for every crystal, the 3D cubic stiffness turned by
    the crystal's 3x3 rotation (in 3D: by its rotation). *)
Theorem C22_stored_3d_stiffness : forall p d rots h c q i j k l,
  (d = 2 \/ d = 3)%nat -> char_stiffness p <> 0 ->
  hooke_init d true rots (hooke_construct true p) = Ok h -> nth_error rots c = Some q ->
  (i < 3)%nat -> (j < 3)%nat -> (k < 3)%nat -> (l < 3)%nat ->
  exists C, nth_error (tetrads_3d h) c = Some C /\
  C i j k l = rotate4 3 (if Nat.eqb d 2 then snd q else fst q)
    (cubic 3 (C1111 p / char_stiffness p) (C1122 p / char_stiffness p) (C1212 p / char_stiffness p)) i j k l.
Proof.
  intros p d rots h c q i j k l Hd Hc H Hq Hi Hj Hk Hl. inversion H; subst.
  cbn [tetrads_3d app]. exists (stiffness_3d p d (fst q) (snd q)). split.
  - cbn [hooke_construct tetrads_3d hl_prm app]. rewrite nth_error_map, Hq. reflexivity.
  - destruct Hd as [-> | ->]; cbn [Nat.eqb stiffness_3d].
    + change (rotated_stiffness 3 (snd q) (reference_stiffness p 3)) with (stiffness p 3 (snd q)).
      apply stiffness_is_rotated_cubic; auto.
    + apply stiffness_is_rotated_cubic; auto.
Qed.
Print Assumptions C22_stored_3d_stiffness.

(** In 2D the three-dimensional stiffness used by the post-processor extends the 2D one. *)
Theorem C22_out_of_plane_extension : forall p euler Q2 Q3 i j k l,
  rotation 2 euler = Ok Q2 -> rotation_for_stiffness 2 euler = Ok Q3 ->
  (i < 2)%nat -> (j < 2)%nat -> (k < 2)%nat -> (l < 2)%nat ->
  stiffness_3d p 2 Q2 Q3 i j k l = stiffness p 2 Q2 i j k l.
Proof. exact stiffness_3d_extends. Qed.
Print Assumptions C22_out_of_plane_extension.

(** Non-vacuity: isotropic steel-like constants (default parameters of the code). *)
Definition steel : hooke := mk_hooke 134615 57692.3 38461.5 1.
Example C22_example : reference_stiffness steel 3 0%nat 1%nat 1%nat 0%nat = 38461.5 /\
  reference_stiffness steel 3 2%nat 2%nat 2%nat 2%nat = 134615 /\ reference_stiffness steel 3 0%nat 0%nat 2%nat 2%nat = 57692.3 /\
  reference_stiffness steel 3 0%nat 0%nat 1%nat 2%nat = 0.
Proof. unfold reference_stiffness, steel; cbn. repeat split; lra. Qed.

(** C23. *)
Theorem C23_elastic_energy_positive : forall p d euler Q eps,
  rotation d euler = Ok Q -> 0 < char_stiffness p ->
  0 < C1111 p - C1122 p -> 0 < C1111 p + 2 * C1122 p -> 0 < C1212 p ->
  symmetric d eps -> (exists i j, (i < d)%nat /\ (j < d)%nat /\ eps i j <> 0) ->
  0 < ddot d eps (c4 d (stiffness p d Q) eps).
Proof.
  intros p d euler Q eps H Hc H1 H2 H3 He NZ.
  destruct (rotation_proper d euler Q H) as (O & _ & _ & [-> | ->]).
  - apply stiffness_positive_2; auto. lra.
  - apply stiffness_positive_3; auto.
Qed.
Print Assumptions C23_elastic_energy_positive.

(** In 3D the three conditions are also necessary. *)
Theorem C23_conditions_necessary : forall p euler Q, rotation 3 euler = Ok Q -> 0 < char_stiffness p ->
  (forall eps, symmetric 3 eps -> (exists i j, (i < 3)%nat /\ (j < 3)%nat /\ eps i j <> 0) ->
     0 < ddot 3 eps (c4 3 (stiffness p 3 Q) eps)) ->
  0 < C1111 p - C1122 p /\ 0 < C1111 p + 2 * C1122 p /\ 0 < C1212 p.
Proof.
  intros p euler Q H Hc PD. destruct (rotation_proper 3 euler Q H) as (O & _).
  exact (positive_necessary_3 p Q Hc O PD).
Qed.
Print Assumptions C23_conditions_necessary.

(** The parameter parser accepts constants for which the energy is indefinite. *)
Theorem C23_parser_accepts_unstable_refuted : exists p, hooke_parse_accepts p /\ 0 < char_stiffness p /\
  forall euler Q, rotation 3 euler = Ok Q ->
  exists eps, symmetric 3 eps /\ (exists i j, (i < 3)%nat /\ (j < 3)%nat /\ eps i j <> 0) /\
    ~ 0 < ddot 3 eps (c4 3 (stiffness p 3 Q) eps).
Proof.
  exists (mk_hooke 1 2 1 1).
  split; [unfold hooke_parse_accepts; cbn [C1111 C1122 C1212]; lra|].
  split; [cbn [char_stiffness]; lra|].
  intros euler Q H. destruct (rotation_proper 3 euler Q H) as (O & _).
  set (A := mat3 1 0 0 0 (-1) 0 0 0 0).
  assert (S : symmetric 3 A) by (intros i j Hi Hj; ix3 i Hi; ix3 j Hj; reflexivity).
  exists (conjugate 3 Q A). split; [|split].
  - intros i j _ _. apply conjugate_symmetric; auto.
  - apply pushed_nonzero; auto. exists 0%nat, 0%nat. cbn. repeat split; try lia; lra.
  - rewrite energy_pushed by auto.
    rewrite energy_reference_3 by (auto; cbn [char_stiffness]; lra).
    cbn [C1111 C1122 C1212 char_stiffness]. unfold A, mat3. lra.
Qed.
Print Assumptions C23_parser_accepts_unstable_refuted.

Example C23_steel : hooke_parse_accepts steel /\ 0 < char_stiffness steel /\
  0 < C1111 steel - C1122 steel /\ 0 < C1111 steel + 2 * C1122 steel /\ 0 < C1212 steel.
Proof. unfold hooke_parse_accepts, steel; cbn. repeat split; lra. Qed.

(** C24. *)
Theorem C24_resolved_is_projected_traction : forall d s sigma, symmetric d sigma ->
  resolved_shear_stress d (sym_schmid s) sigma = dot d (s_dir s) (mv d sigma (s_nrm s)).
Proof. exact resolved_is_d_sigma_n. Qed.
Print Assumptions C24_resolved_is_projected_traction.

Theorem C24_power_identity : forall d P sigma dgamma n_slips,
  sumn n_slips (fun a => resolved_shear_stress d (P a) sigma * dgamma a)
  = ddot d sigma (plastic_strain P dgamma n_slips).
Proof. exact power_identity. Qed.
Print Assumptions C24_power_identity.
