(** * C99: with the default latent hardening ratio 1.4 a step can have two solutions.  Two
      equivalent slip systems either share the slip or one of them slips more and thereby
      hardens the other: with the systems exchanged this is another solution. *)
From Coq Require Import FunctionalExtensionality.
From Coquelicot Require Import Coquelicot.
From Verif Require Import Num SumLemmas Tensors TensorLemmas ModelUtilities ModelElastic SpecElastic ModelMicro SpecMicro ProofMicro ModelCohesive
  SpecCohesive ProofCohesive ModelHistory SpecHistory SpecInterface ModelInterface ModelFEField ModelActiveSet SpecActiveSet PropActiveSet
  ModelLinear SpecLinear PropLinear ModelAssembly SpecAssembly ProofAssembly ProofFace ModelSolver ModelSweep SpecSweep
  PropSweep ModelStep ModelBody SpecBody PropBody PropStep ExampleBody SpecTangent
  SpecRun PropRun SpecEnergy ProofEnergy PropEnergy ExampleEnergy SpecStiffness ExampleStiffness SpecUnique PropUnique.
Open Scope R_scope.

Definition twin_element : element :=
  mk_element 1 3 (fun i => i) (fun _ => 1) (fun i _ r => if Nat.eqb i 0 then kron r 0 else 0) (fun i _ _ _ => if Nat.eqb i 0 then 1 else 0)
    (fun a i _ => if Nat.eqb i (S a) then 1 else 0) (fun _ _ _ _ => 0).
Definition twin_law : scalar_law := mk_scalar_law Sqrt 1 1 (7/5) 1 false false.
Definition twin_crystal : crystal :=
  mk_crystal 1 2 (fun _ => 1) (fun _ _ _ _ => 1) (fun _ _ _ => 1) twin_law 1 2
    (fun _ _ => 0) (fun _ _ => 0) (fun _ _ => 0) (fun _ _ => 0) 1.
(** A strain (dof 0) and two slips (dofs 1 and 2). *)
Definition twin_body : body :=
  mk_body (mk_sweep_mesh (fun _ => 0%nat) (fun _ => []))
    [0]%nat 3 (fun _ => [0; 1; 2]%nat) (fun d => Nat.ltb 0 d) (fun _ => twin_element) (fun _ => twin_crystal)
    (fun c _ => creep_face c) (fun _ _ => creep_interface) (fun _ => [])
    1 1 1 2 false false (mk_hardening 1 1 (7/5) false) 1 pull_iprm (mk_cohesive 1 1 0 1 1) 1 OrtizEtAl (fun _ _ _ _ => 0).
Definition twin_histories : rank_data :=
  mk_rank_data (fun _ _ => mk_qph true 2 (mk_hardening 1 1 (7/5) false) 1 [1; 1] [1; 1]) (fun _ _ => mk_ihist (Some pull_iprm) (Fin 0) 0 0 (Fin 0) 0).

Lemma twin_consistent : consistent twin_body.
Proof.
  split; [cbn; repeat constructor; intros []|]. split; [cbn; lra|]. split.
  - intros c Hc. split; [reflexivity|]. split; [reflexivity|].
    split. { intros [|[|[|i]]] Hi; cbn in Hi |- *; lia. }
    split; [|split; cbn; lra].
    intros [|[|[|j]]] q Hj _; cbn in Hj |- *; try lia.
    + split; [lia|]. split; [intros; lia|]. intros a _ _ r. split; reflexivity.
    + split; [lia|]. split; [intros; split; reflexivity|]. intros [|a] Ha Ne r; [lia|split; reflexivity].
    + split; [lia|]. split; [intros; split; reflexivity|]. intros [|[|a]] Ha Ne r; [split; reflexivity|lia|lia].
  - intros c n _ Hn. destruct Hn.
Qed.
Lemma twin_two_sided : two_sided twin_body.
Proof. intros c n _ []. Qed.
Lemma twin_material : stable_material twin_body (macro_of twin_body).
Proof.
  intros c Hc. cbv zeta. unfold macro_of. change (b_crystal twin_body c) with twin_crystal. change (b_element twin_body c) with twin_element.
  cbn [twin_crystal twin_element twin_law cr_dim cr_ns cr_N cr_C cr_P cr_law cr_factor cr_p cr_dir cr_ort cr_macro cr_supply cr_dt el_w el_nq el_eps sl_k].
  split; [intros; lra|]. split; [lra|]. split; [lra|]. split; [lra|]. split; [intros i j k l; reflexivity|].
  split; [intros A _; unfold ddot, c4; cbn [sumn]; pose proof (Rle_0_sqr (A 0%nat 0%nat)); unfold Rsqr in *; lra|].
  split; [intros i q k l _ _; reflexivity|]. split; [intros a k l _ _; reflexivity|]. split; [intros k l _ _; reflexivity|]. split; [intros k l _ _; reflexivity|].
  split; [reflexivity|]. split; cbn; lra.
Qed.
Lemma twin_interfaces : stable_interfaces twin_body pull_frames creep_interface.
Proof.
  split; [reflexivity|]. split; [reflexivity|]. split; [intros _; cbn; repeat split; lra|]. split; [discriminate|].
  intros c n _ [].
Qed.
Lemma twin_initialised : initialised twin_body twin_histories.
Proof. split; intros; [split|]; try reflexivity. Qed.
Lemma twin_sound : sound_histories twin_body twin_histories.
Proof.
  split; [|discriminate].
  intros c q _ _. split; [reflexivity|]. cbn. split; [lra|]. split; [lra|]. intros [|[|a]] Ha; [cbn; lra|cbn; lra|lia].
Qed.
Lemma twin_strict : strict_grains twin_body.
Proof.
  intros c Hc. cbv zeta. change (b_crystal twin_body c) with twin_crystal. cbn [twin_crystal cr_law twin_law sl_rate_independent cr_N cr_dim cr_C].
  split; [reflexivity|]. split; [lra|]. split; [intros; cbn; lra|].
  intros A _ Z i j Hi Hj. assert (i = 0%nat) as -> by lia. assert (j = 0%nat) as -> by lia.
  unfold ddot, c4 in Z. cbn [sumn] in Z. assert (Z' : Rsqr (A 0%nat 0%nat) = 0) by (unfold Rsqr; lra). apply Rsqr_0_uniq. exact Z'.
Qed.
Lemma twin_held : held_in_place twin_body held.
Proof.
  intros v A Z d Hd.
  assert (Z0 := Z 0%nat 0%nat (or_introl eq_refl) ltac:(cbn; lia)). destruct Z0 as (E0 & S0).
  specialize (E0 0%nat 0%nat ltac:(cbn; lia) ltac:(cbn; lia)). assert (S1 := S0 1%nat ltac:(cbn; lia)). specialize (S0 0%nat ltac:(cbn; lia)).
  unfold strain_at, local_values in E0. unfold slip_at, local_values in S0, S1. cbn in E0, S0, S1.
  cbn in Hd. destruct d as [|[|[|d]]]; lra || lia.
Qed.

Definition rest : vec := fun _ => 0.
Definition twin_trial (s s1 s2 : R) : vec := fun d => match d with 0%nat => s + s1 + s2 | 1%nat => s1 | 2%nat => s2 | _ => 0 end.
Definition force (s1 s2 : R) : R := (1 + (s1 + 7/5 * s2)) * (s1 / sqrt (s1 * s1 + 1)).

Lemma twin_resistance s s1 s2 a : 0 <= s1 -> 0 <= s2 -> (a < 2)%nat ->
  nth a (slip_res (r_bulk (trial_histories twin_body rest (twin_trial s s1 s2) twin_histories) 0 0)) 0 = if Nat.eqb a 0 then 1 + (s1 + 7/5 * s2) else 1 + (s2 + 7/5 * s1).
Proof.
  intros P1 P2 Ha. pose proof twin_consistent as (N & _).
  destruct (next_bulk twin_body rest (twin_trial s s1 s2) twin_histories 0 0 N (or_intror eq_refl) twin_initialised (or_introl eq_refl)
    ltac:(cbn; lia) eq_refl) as (_ & _ & _ & E). specialize (E a Ha).
  rewrite (bulk_kept_by_finish twin_body rest (twin_trial s s1 s2) twin_histories 0 0 N (or_introl eq_refl) ltac:(cbn; lia)) in E. unfold trial_histories. rewrite E.
  unfold hardening_increment, slip_of, slip_at, local_values, rest, twin_trial. destruct a as [|[|a]]; [| |lia]; cbn.
  - unfold kron. cbn. match goal with |- context [Rabs ?u * _] => idtac | _ => idtac end.
    replace (0 + (s + s1 + s2) * 0 + s1 * 1 + s2 * 0 - (0 + 0 * 0 + 0 * 1 + 0 * 0)) with s1 by ring.
    replace (0 + (s + s1 + s2) * 0 + s1 * 0 + s2 * 1 - (0 + 0 * 0 + 0 * 0 + 0 * 1)) with s2 by ring.
    rewrite !Rabs_right by lra. field.
  - unfold kron. cbn.
    replace (0 + (s + s1 + s2) * 0 + s1 * 1 + s2 * 0 - (0 + 0 * 0 + 0 * 1 + 0 * 0)) with s1 by ring.
    replace (0 + (s + s1 + s2) * 0 + s1 * 0 + s2 * 1 - (0 + 0 * 0 + 0 * 0 + 0 * 1)) with s2 by ring.
    rewrite !Rabs_right by lra. field.
Qed.
Lemma twin_solves s s1 s2 : 0 <= s1 -> 0 <= s2 -> force s1 s2 = s -> force s2 s1 = s -> solves_step twin_body rest twin_histories held (twin_trial s s1 s2).
Proof.
  intros P1 P2 F1 F2 w A. assert (W : w 0%nat = 0) by (exact (A 0%nat [] 0 ltac:(cbn; lia) eq_refl)).
  unfold virtual_power. change (b_cells twin_body) with [0]%nat. cbn [lsum]. cbv zeta.
  change (other_grains twin_body 0) with (@nil nat). change (b_loads twin_body 0) with (@nil neumann_face). cbn [lsum].
  change (b_crystal twin_body 0) with twin_crystal. change (b_element twin_body 0) with twin_element.
  cbn [twin_crystal cr_ns cr_N cr_dim cr_law cr_dt cr_dir cr_ort cr_factor cr_p cr_supply].
  cbn [el_nq twin_element sumn]. rewrite !twin_resistance by (assumption || lia).
  unfold ddot, dot, stress_at, elastic_strain, c4, strain_at, slip_at, slip_gradient_at, scalar_microstress, reg_value, twin_trial, rest.
  cbn [sumn twin_element el_nd el_w el_eps el_psi el_dpsi el_phi nth twin_crystal cr_dim cr_ns cr_N cr_C cr_P cr_macro cr_law twin_law sl_rate_independent sl_reg sl_k b_dofs twin_body Nat.eqb].
  rewrite W. unfold msub, madd, mscal. 
  match goal with |- context [val ?v] => generalize (val v) end. intros v1.
  replace ((0 + (s + s1 + s2) * 0 + s1 * 1 + s2 * 0 - (0 + 0 * 0 + 0 * 1 + 0 * 0)) / 1) with s1 by field.
  replace ((0 + (s + s1 + s2) * 0 + s1 * 0 + s2 * 1 - (0 + 0 * 0 + 0 * 0 + 0 * 1)) / 1) with s2 by field.
  unfold force in F1, F2. replace (1 * 1) with 1 by ring. set (u := s1 / _) in *. set (v := s2 / _) in *. clearbody u v. clear A W.
  rewrite F1, F2. field.
Qed.

(** The difference of the driving forces of the systems, the first having slipped by 5. *)
Lemma unequal_slips : exists s2, 0 < s2 < 4 /\ force 5 s2 = force s2 5.
Proof.
  assert (P : forall u, 0 < u * u + 1) by (intros u; pose proof (Rle_0_sqr u); unfold Rsqr in *; lra).
  assert (Q : forall u, sqrt (u * u + 1) <> 0) by (intros u; apply Rgt_not_eq, sqrt_lt_R0, P).
  set (gap := fun t => force t 5 - force 5 t).
  assert (CT : continuity gap).
  { intros t. apply continuity_pt_filterlim. apply (ex_derive_continuous gap t). unfold gap, force.
    auto_derive. repeat split; auto. }
  assert (A0 : gap 0 < 0).
  { unfold gap, force. assert (S5 := sqrt_lt_R0 _ (P 5)). replace (0 / sqrt (0 * 0 + 1)) with 0 by (unfold Rdiv; ring).
    assert (0 < 5 / sqrt (5 * 5 + 1)) by (apply Rdiv_lt_0_compat; lra). lra. }
  assert (A4 : 0 < gap 4).
  { unfold gap, force.
    assert (B5 : 5 / sqrt (5 * 5 + 1) <= 1).
    { apply Rle_div_l; [apply sqrt_lt_R0, P|]. rewrite Rmult_1_l. apply Rle_trans with (sqrt (5 * 5)); [rewrite sqrt_square; lra|]. apply sqrt_le_1_alt. lra. }
    assert (B4 : 97/100 <= 4 / sqrt (4 * 4 + 1)).
    { apply (Rle_div_r (97/100) 4 (sqrt (4 * 4 + 1))); [apply sqrt_lt_R0, P|]. assert (sqrt (4 * 4 + 1) <= 8247/2000); [|lra].
      rewrite <- (sqrt_square (8247/2000)) by lra. apply sqrt_le_1_alt. lra. }
    lra. }
  destruct (IVT gap 0 4 CT ltac:(lra) A0 A4) as (t & T & Z). exists t. unfold gap in Z. split; [|lra].
  destruct (Req_dec t 0) as [->|]; [unfold gap in A0; lra|]. destruct (Req_dec t 4) as [->|]; [unfold gap in A4; lra|]. lra.
Qed.

Theorem C99_latent_hardening_refuted : exists b frames p0 old x y h k,
  consistent b /\ two_sided b /\ b_decohesion b = false /\ stable_material b (macro_of b) /\ stable_interfaces b frames p0 /\
  initialised b h /\ sound_histories b h /\ strict_grains b /\ held_in_place b k /\
  (forall c q, In c (b_cells b) -> (q < b_nq b)%nat -> hardening_parameter (prm (r_bulk h c q)) = 14/10) /\
  same_supports b k x y /\ solves_step b old h k x /\ solves_step b old h k y /\
  exists c q a, In c (b_cells b) /\ (q < b_nq b)%nat /\ (a < b_ns b)%nat /\
    slip_at (b_element b c) (local_values b x c) q a <> slip_at (b_element b c) (local_values b y c) q a.
Proof.
  destruct unequal_slips as (t & T & F).
  exists twin_body, pull_frames, creep_interface, rest, (twin_trial (force 5 t) 5 t), (twin_trial (force 5 t) t 5), twin_histories, held.
  split; [exact twin_consistent|]. split; [exact twin_two_sided|]. split; [reflexivity|]. split; [exact twin_material|]. split; [exact twin_interfaces|].
  split; [exact twin_initialised|]. split; [exact twin_sound|]. split; [exact twin_strict|]. split; [exact twin_held|].
  split; [intros c q _ _; cbn; lra|].
  split. { intros d es z Hd K. destruct d as [|d]; [|discriminate K]. cbn in K. injection K as <- <-. unfold increment, twin_trial. cbn. ring. }
  split; [apply twin_solves; lra|]. split; [apply twin_solves; lra|].
  exists 0%nat, 0%nat, 0%nat. split; [left; reflexivity|]. split; [cbn; lia|]. split; [cbn; lia|].
  unfold slip_at, local_values, twin_trial. cbn. lra.
Qed.
