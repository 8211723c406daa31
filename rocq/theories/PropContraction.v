(** * C110: disturbances do not grow. *)
From Coq Require Import FunctionalExtensionality.
From Verif Require Import Num ModelShear SpecShear ModelProgram SpecProgram PropProgram SumLemmas Tensors TensorLemmas ModelUtilities ModelElastic SpecElastic ProofElastic ModelMicro SpecMicro ProofMicro PropMicro
  ModelCohesive SpecCohesive ProofCohesive ModelHistory SpecHistory ModelInterface SpecInterface
  ModelFEField ModelActiveSet ModelLinear SpecLinear PropLinear ModelAssembly SpecAssembly ProofAssembly ProofFace
  ModelSolver ModelSweep SpecSweep PropSweep ModelStep SpecStep ProofStep PropStep ModelBody SpecBody PropBody SpecTangent SpecRun PropRun
  SpecEnergy ProofEnergy PropEnergy SpecStiffness SpecUnique PropUnique SpecExistence PropExistence SpecContraction.
Open Scope R_scope.

(** ** The body with neither macroscopic strain nor loads *)
Definition quiet (b : body) : body :=
  mk_body (b_mesh b) (b_cells b) (b_ndofs b) (b_dofs b) (b_is_slip b) (b_element b)
    (fun c => let k := b_crystal b c in
       mk_crystal (cr_dim k) (cr_ns k) (cr_N k) (cr_C k) (cr_P k) (cr_law k) (cr_factor k) (cr_p k) (cr_dir k) (cr_ort k) (fun _ _ => 0) (fun _ _ => 0) (cr_dt k))
    (b_face b) (b_interface b) (fun _ => []) (b_nq b) (b_nfq b) (b_dim b) (b_ns b) (b_decohesion b) (b_microtraction b)
    (b_hardening b) (b_char_resistance b) (b_iprm b) (b_cohesive b) (b_char_displacement b) (b_model b) (b_energy b).
Lemma quiet_material b : stable_material b (macro_of b) -> stable_material (quiet b) (fun _ _ _ => 0).
Proof.
  intros SM c Hc. specialize (SM c Hc). cbv zeta in *. unfold quiet; cbn [b_crystal b_element cr_dim cr_ns cr_N cr_C cr_P cr_law cr_factor cr_p cr_dir cr_ort cr_macro cr_supply cr_dt b_ns].
  destruct SM as (A1 & A2 & A3 & A4 & A5 & A6 & A7 & A8 & _ & _ & A9).
  do 8 (split; [assumption|]). split; [intros i j _ _; reflexivity|]. split; [intros i j _ _; reflexivity|exact A9].
Qed.

(** Histories whose slip systems have no resistance. *)
Definition slack (b : body) : rank_data := mk_rank_data (fun _ _ => ModelHistory.construct (b_hardening b) 0) (fun _ _ => i_construct).
Lemma slack_resistance b c q a : resistances_of (slack b) c q a = 0.
Proof. unfold resistances_of, slack. cbn. destruct a; reflexivity. Qed.
Lemma no_microstress l s o dt : scalar_microstress l s o 0 dt = 0.
Proof. rewrite microstress_unit. ring. Qed.

Lemma phi_two x : phi 2 x = x.
Proof.
  unfold phi, pow_abs. replace (2 - 2) with 0 by ring. destruct (Req_EM_T x 0) as [->|H]; [ring|]. rewrite Rpower_O by (apply Rabs_pos_lt; exact H). ring.
Qed.
Lemma vm_linear f d dir ort g1 g2 i : vm f 2 d dir ort (vsub g1 g2) i = vm f 2 d dir ort g1 i - vm f 2 d dir ort g2 i.
Proof.
  unfold vm. rewrite !phi_two. assert (E : forall u, dot d u (vsub g1 g2) = dot d u g1 - dot d u g2).
  { intros u. unfold dot. rewrite <- sumn_minus. apply sumn_ext. intros j _. unfold vsub. ring. }
  rewrite !E. ring.
Qed.

Section Pair.
Variables (b : body) (old1 old2 x1 x2 : vec) (r1 r2 : rank_data).
Let w := drift old1 old2 x1 x2.
(** What the differences of the slip rates do on the differences of the flow stresses. *)
Definition flow_apart (c : nat) : R :=
  let k := b_crystal b c in let e := b_element b c in
  sumn (el_nq e) (fun q => el_w e q * sumn (cr_ns k) (fun a =>
    ((slip_at e (local_values b x1 c) q a - slip_at e (local_values b old1 c) q a) - (slip_at e (local_values b x2 c) q a - slip_at e (local_values b old2 c) q a)) *
    (scalar_microstress (cr_law k) (slip_at e (local_values b x1 c) q a) (slip_at e (local_values b old1 c) q a) (resistances_of r1 c q a) (cr_dt k)
     - scalar_microstress (cr_law k) (slip_at e (local_values b x2 c) q a) (slip_at e (local_values b old2 c) q a) (resistances_of r2 c q a) (cr_dt k)))).

Lemma stress_difference c q i j : stress_at (b_crystal (quiet b) c) (b_element b c) (local_values b (increment x1 x2) c) q i j =
  stress_at (b_crystal b c) (b_element b c) (local_values b x1 c) q i j - stress_at (b_crystal b c) (b_element b c) (local_values b x2 c) q i j.
Proof.
  rewrite !(stress_of_energy b). pose proof (stress_of_energy (quiet b) (increment x1 x2) c q i j) as E.
  change (b_element (quiet b) c) with (b_element b c) in E. change (local_values (quiet b) (increment x1 x2) c) with (local_values b (increment x1 x2) c) in E. rewrite E.
  cbn [quiet b_crystal cr_dim cr_C]. unfold c4. rewrite <- sumn_minus. apply sumn_ext. intros k _. rewrite <- sumn_minus. apply sumn_ext. intros l _.
  rewrite <- Rmult_minus_distr_l. f_equal. unfold elastic_strain_of. cbn [quiet b_crystal b_element cr_N cr_ns cr_P cr_macro].
  change (local_values (quiet b) (increment x1 x2) c) with (local_values b (increment x1 x2) c). rewrite strain_increment.
  rewrite (sumn_ext _ (fun a => slip_at (b_element b c) (local_values b (increment x1 x2) c) q a * cr_P (b_crystal b c) a k l)
    (fun a => slip_at (b_element b c) (local_values b x1 c) q a * cr_P (b_crystal b c) a k l - slip_at (b_element b c) (local_values b x2 c) q a * cr_P (b_crystal b c) a k l))
    by (intros a _; rewrite slip_increment; ring).
  rewrite sumn_minus. ring.
Qed.

Lemma grain_difference c : cr_p (b_crystal b c) = 2 ->
  grain_power b old1 x1 r1 w c - grain_power b old2 x2 r2 w c =
  grain_power (quiet b) (increment old1 old2) (increment x1 x2) (slack b) w c + flow_apart c.
Proof.
  intros P2. unfold grain_power, flow_apart. change (b_element (quiet b) c) with (b_element b c).
  set (k := b_crystal b c). set (e := b_element b c). cbv zeta. set (k' := b_crystal (quiet b) c).
  rewrite <- sumn_minus, <- sumn_plus. apply sumn_ext. intros q Hq.
  change (local_values (quiet b)) with (local_values b).
  change (cr_dim k') with (cr_dim k). change (cr_N k') with (cr_N k). change (cr_P k') with (cr_P k). change (cr_ns k') with (cr_ns k).
  change (cr_factor k') with (cr_factor k). change (cr_p k') with (cr_p k). change (cr_dir k') with (cr_dir k). change (cr_ort k') with (cr_ort k).
  change (cr_law k') with (cr_law k). change (cr_dt k') with (cr_dt k). change (cr_p k = 2) in P2. rewrite P2. set (d := cr_dim k).
  set (ee := elastic_strain (cr_N k 0) (cr_P k) (strain_at e (local_values b w c) q) (slip_at e (local_values b w c) q) (cr_ns k)).
  assert (A : ddot d ee (stress_at k' e (local_values b (increment x1 x2) c) q) = ddot d ee (stress_at k e (local_values b x1 c) q) - ddot d ee (stress_at k e (local_values b x2 c) q)).
  { unfold ddot. rewrite <- sumn_minus. apply sumn_ext. intros i _. rewrite <- sumn_minus. apply sumn_ext. intros j _. unfold k', e, k. rewrite stress_difference. ring. }
  assert (B : dot d (fun r => sumn (el_nd e) (fun i => local_values b w c i * el_phi e i q r)) (cr_supply k' q) = 0).
  { unfold dot. apply sumn_zero. intros i _. cbn [k' quiet b_crystal cr_supply]. ring. }
  assert (G : sumn (cr_ns k) (fun a => dot d (slip_gradient_at e (local_values b w c) q a) (fun r => val (vectorial_microstress (cr_factor k) 2 d (cr_dir k a) (cr_ort k a) (slip_gradient_at e (local_values b (increment x1 x2) c) q a) r)))
    = sumn (cr_ns k) (fun a => dot d (slip_gradient_at e (local_values b w c) q a) (fun r => val (vectorial_microstress (cr_factor k) 2 d (cr_dir k a) (cr_ort k a) (slip_gradient_at e (local_values b x1 c) q a) r)))
    - sumn (cr_ns k) (fun a => dot d (slip_gradient_at e (local_values b w c) q a) (fun r => val (vectorial_microstress (cr_factor k) 2 d (cr_dir k a) (cr_ort k a) (slip_gradient_at e (local_values b x2 c) q a) r)))).
  { rewrite <- sumn_minus. apply sumn_ext. intros a _. unfold dot at 1 2 3. rewrite <- sumn_minus. apply sumn_ext. intros i _. rewrite <- Rmult_minus_distr_l. f_equal.
    rewrite !microstress_fin by lra. cbn [val]. rewrite <- vm_linear. unfold vm.
    assert (V : forall u, dot d u (slip_gradient_at e (local_values b (increment x1 x2) c) q a) = dot d u (vsub (slip_gradient_at e (local_values b x1 c) q a) (slip_gradient_at e (local_values b x2 c) q a))).
    { intros u. apply dot_ext; [reflexivity|]. intros j _. apply gradient_increment. }
    rewrite !V. reflexivity. }
  assert (F : sumn (cr_ns k) (fun a => slip_at e (local_values b w c) q a * scalar_microstress (cr_law k) (slip_at e (local_values b (increment x1 x2) c) q a) (slip_at e (local_values b (increment old1 old2) c) q a) (nth a (slip_res (r_bulk (slack b) c q)) 0) (cr_dt k)) = 0).
  { apply sumn_zero. intros a _. change (nth a (slip_res (r_bulk (slack b) c q)) 0) with (resistances_of (slack b) c q a). rewrite slack_resistance, no_microstress. ring. }
  assert (H : sumn (cr_ns k) (fun a => slip_at e (local_values b w c) q a * scalar_microstress (cr_law k) (slip_at e (local_values b x1 c) q a) (slip_at e (local_values b old1 c) q a) (nth a (slip_res (r_bulk r1 c q)) 0) (cr_dt k))
    - sumn (cr_ns k) (fun a => slip_at e (local_values b w c) q a * scalar_microstress (cr_law k) (slip_at e (local_values b x2 c) q a) (slip_at e (local_values b old2 c) q a) (nth a (slip_res (r_bulk r2 c q)) 0) (cr_dt k))
    = sumn (cr_ns k) (fun a =>
    ((slip_at e (local_values b x1 c) q a - slip_at e (local_values b old1 c) q a) - (slip_at e (local_values b x2 c) q a - slip_at e (local_values b old2 c) q a)) *
    (scalar_microstress (cr_law k) (slip_at e (local_values b x1 c) q a) (slip_at e (local_values b old1 c) q a) (resistances_of r1 c q a) (cr_dt k)
     - scalar_microstress (cr_law k) (slip_at e (local_values b x2 c) q a) (slip_at e (local_values b old2 c) q a) (resistances_of r2 c q a) (cr_dt k)))).
  { rewrite <- sumn_minus. apply sumn_ext. intros a _. unfold w, drift. rewrite !slip_increment. unfold resistances_of. ring. }
  rewrite A, B, G, F, <- H. ring.
Qed.

(** ** Interfaces that do not open *)
Lemma side_difference c n : if_decohesion (b_interface b c n) = false ->
  side_power b x1 r1 w c n - side_power b x2 r2 w c n = side_power (quiet b) (increment x1 x2) (slack b) w c n.
Proof.
  intros D. unfold side_power, interface_power. change (b_interface (quiet b) c n) with (b_interface b c n). change (b_face (quiet b) c n) with (b_face b c n).
  change (b_element (quiet b) c) with (b_element b c). change (local_values (quiet b)) with (local_values b). cbv zeta. rewrite D.
  rewrite <- sumn_minus. apply sumn_ext. intros q _. destruct (if_microtraction (b_interface b c n)); [|ring].
  set (p := b_interface b c n). set (f := b_face b c n). rewrite <- Rmult_minus_distr_l. f_equal. rewrite !Rplus_0_l, <- Rmult_minus_distr_l. f_equal.
  rewrite <- sumn_minus. apply sumn_ext. intros a _. rewrite <- Rmult_minus_distr_l. f_equal. unfold microtraction. rewrite <- Rmult_minus_distr_r. f_equal.
  rewrite <- sumn_minus. apply sumn_ext. intros s _.
  pose proof (face_slip_increment b x1 x2 (fa_nd f) (fa_psi f) c q s) as E1. pose proof (face_slip_increment b x1 x2 (fa_nd f) (fa_npsi f) n q s) as E2. unfold face_slip in E1, E2.
  rewrite E1, E2. ring.
Qed.

Hypothesis C : consistent b.
Hypothesis T : two_sided b.
Hypothesis D : b_decohesion b = false.
Hypothesis SM : stable_material b (macro_of b).
Hypothesis P2 : quadratic_defect_energy b.
Variables (frames : nat -> frame) (p0 : interface).
Hypothesis SI : stable_interfaces b frames p0.

Lemma quiet_work v : load_work (quiet b) v = 0.
Proof.
  unfold load_work. cbn [quiet b_cells]. apply lsum_zero. intros c _. cbn [quiet b_loads lsum]. rewrite Rplus_0_r. apply sumn_zero. intros q _.
  unfold dot. rewrite sumn_zero; [ring|]. intros i _. cbn [quiet b_crystal cr_supply]. ring.
Qed.
Lemma quiet_macroscopic v : macroscopic_work (quiet b) (fun _ _ _ => 0) v = 0.
Proof.
  unfold macroscopic_work. apply lsum_zero. intros c _. apply sumn_zero. intros q _. unfold ddot. rewrite sumn_zero; [ring|]. intros i _. apply sumn_zero. intros j _.
  cbn [quiet b_crystal cr_macro]. unfold msub. ring.
Qed.
Lemma quiet_dissipated o v : dissipated (quiet b) o v (slack b) = 0.
Proof.
  unfold dissipated. apply lsum_zero. intros c _. apply sumn_zero. intros q _. rewrite sumn_zero; [ring|]. intros a _. cbv zeta. rewrite slack_resistance, no_microstress. ring.
Qed.
Lemma quiet_energy v : stored_energy (quiet b) frames (fun _ _ _ => 0) v (slack b) = stored_energy b frames (fun _ _ _ => 0) v (slack b).
Proof. reflexivity. Qed.
Lemma power_difference : virtual_power b old1 x1 r1 w - virtual_power b old2 x2 r2 w =
  virtual_power (quiet b) (increment old1 old2) (increment x1 x2) (slack b) w - lsum flow_apart (b_cells b).
Proof.
  rewrite !virtual_power_parts. rewrite <- lsum_minus. change (b_cells (quiet b)) with (b_cells b). rewrite <- lsum_minus. apply lsum_ext. intros c Hc.
  pose proof (grain_difference c (P2 c Hc)) as G. change (b_loads (quiet b) c) with (@nil neumann_face). cbn [lsum].
  assert (E : lsum (side_power (quiet b) (increment x1 x2) (slack b) w c) (gb_neighbours (quiet b) c) =
    lsum (side_power b x1 r1 w c) (gb_neighbours b c) - lsum (side_power b x2 r2 w c) (gb_neighbours b c)).
  { change (gb_neighbours (quiet b) c) with (gb_neighbours b c). rewrite <- lsum_minus. apply lsum_ext. intros n Hn. symmetry. apply side_difference.
    destruct C as (_ & _ & _ & C2). destruct (C2 c n Hc Hn) as (_ & _ & _ & E & _). rewrite E. exact D. }
  rewrite E. set (a := lsum _ (b_loads b c)). clearbody a. lra.
Qed.
Lemma distance_balance : distance b frames x1 x2 - distance b frames old1 old2 + lsum flow_apart (b_cells b) <=
  virtual_power b old2 x2 r2 w - virtual_power b old1 x1 r1 w.
Proof.
  assert (Q : consistent (quiet b)) by exact C.
  assert (QI : stable_interfaces (quiet b) frames p0) by exact SI.
  assert (GR : grown (quiet b) (increment x1 x2) (slack b) (slack b)) by (intros E; exfalso; change (b_decohesion b = true) in E; rewrite D in E; discriminate E).
  pose proof (body_balance (quiet b) frames p0 (fun _ _ _ => 0) (increment old1 old2) (increment x1 x2) (slack b) (slack b) Q T (quiet_material b SM) QI GR) as B.
  fold (drift old1 old2 x1 x2) in B. fold w in B. rewrite quiet_work, quiet_macroscopic, quiet_dissipated in B.
  change (fun c => cr_macro (b_crystal (quiet b) c)) with (fun _ : nat => fun _ _ : nat => 0) in B. rewrite !quiet_energy in B.
  pose proof power_difference as PD. unfold distance. change (mk_rank_data _ _) with (slack b). lra.
Qed.
End Pair.

(** ** Flow stresses grow with the slip rates *)
Lemma microstress_shift l s o g dt : scalar_microstress l s o g dt = scalar_microstress l (s - o) 0 g dt.
Proof. unfold scalar_microstress. replace (s - o - 0) with (s - o) by ring. reflexivity. Qed.

Section Flow.
Variables (b : body) (old1 old2 x1 x2 : vec) (h1 h2 : rank_data).
Hypothesis C : consistent b.
Hypothesis D : b_decohesion b = false.
Hypothesis SM : stable_material b (macro_of b).
Hypothesis I1 : initialised b h1.
Hypothesis I2 : initialised b h2.
Hypothesis S1 : sound_histories b h1.
Hypothesis S2 : sound_histories b h2.
Hypothesis NL : no_latent_hardening b h1.
Hypothesis SS : same_strength b h1 h2.
Let r1 := trial_histories b old1 x1 h1.
Let r2 := trial_histories b old2 x2 h2.
Lemma latent_too : no_latent_hardening b h2.
Proof. intros c q Hc Hq. cbv zeta. destruct (SS c q Hc Hq) as (-> & _). exact (NL c q Hc Hq). Qed.
Lemma flow_apart_nonneg c : In c (b_cells b) -> 0 <= flow_apart b old1 old2 x1 x2 r1 r2 c.
Proof.
  intros Hc. unfold flow_apart. cbv zeta. pose proof C as (_ & _ & C1 & _). destruct (C1 c Hc) as (_ & NQ & _).
  pose proof (SM c Hc) as S. cbv zeta in S. destruct S as (W & _ & _ & _ & _ & _ & _ & _ & _ & _ & NS & K & DT).
  apply sumn_nonneg. intros q Hq. apply Rmult_le_pos; [apply W; exact Hq|]. rewrite NQ in Hq. apply sumn_nonneg. intros a Ha. rewrite NS in Ha.
  unfold r1, r2. rewrite (trial_resistance b old1 x1 h1 c q a C D I1 S1 NL Hc Hq Ha), (trial_resistance b old2 x2 h2 c q a C D I2 S2 latent_too Hc Hq Ha).
  destruct (SS c q Hc Hq) as (E1 & E2 & E3). rewrite E1, E2, (E3 a Ha). destruct S1 as (SB & _). destruct (SB c q Hc Hq) as (_ & HM & _ & HR). specialize (HR a Ha).
  set (H := if flag_perfect_plasticity (prm (r_bulk h1 c q)) then 0 else _). assert (HH : 0 <= H) by (unfold H; destruct (flag_perfect_plasticity _); lra). clearbody H.
  set (g := resistances_of h1 c q a) in *. clearbody g.
  set (s1 := slip_at _ (local_values b x1 c) q a). set (o1 := slip_at _ (local_values b old1 c) q a). set (s2 := slip_at _ (local_values b x2 c) q a). set (o2 := slip_at _ (local_values b old2 c) q a).
  rewrite (microstress_shift _ s1 o1), (microstress_shift _ s2 o2).
  pose proof (system_apart (cr_law (b_crystal b c)) 0 g H (cr_dt (b_crystal b c)) (s1 - o1) (s2 - o2) DT K HR HH) as (A & _). cbv zeta in A.
  replace (s1 - o1 - 0) with (s1 - o1) in A by ring. replace (s2 - o2 - 0) with (s2 - o2) in A by ring. exact A.
Qed.
End Flow.

(** ** One step *)
Theorem C110_step : forall b frames p0 old1 old2 x1 x2 h1 h2,
  consistent b -> two_sided b -> b_decohesion b = false -> stable_material b (macro_of b) -> stable_interfaces b frames p0 -> quadratic_defect_energy b ->
  initialised b h1 -> initialised b h2 -> sound_histories b h1 -> sound_histories b h2 -> no_latent_hardening b h1 -> same_strength b h1 h2 ->
  let w := drift old1 old2 x1 x2 in
  distance b frames x1 x2 <= distance b frames old1 old2 +
    (virtual_power b old2 x2 (trial_histories b old2 x2 h2) w - virtual_power b old1 x1 (trial_histories b old1 x1 h1) w).
Proof.
  intros b frames p0 old1 old2 x1 x2 h1 h2 C T D SM SI P2 I1 I2 S1 S2 NL SS w.
  pose proof (distance_balance b old1 old2 x1 x2 (trial_histories b old1 x1 h1) (trial_histories b old2 x2 h2) C T D SM P2 frames p0 SI) as B. fold w in B.
  assert (F := lsum_nonneg (flow_apart b old1 old2 x1 x2 (trial_histories b old1 x1 h1) (trial_histories b old2 x2 h2)) (b_cells b)
    (fun c => flow_apart_nonneg b old1 old2 x1 x2 h1 h2 C D SM I1 I2 S1 S2 NL SS c)). lra.
Qed.
Lemma admissible_drift b k old1 old2 x1 x2 : same_supports b k old1 old2 -> same_supports b k x1 x2 -> SpecLinear.admissible (b_ndofs b) k (drift old1 old2 x1 x2).
Proof.
  intros A B d es z Hd K. specialize (A d es z Hd K). specialize (B d es z Hd K). unfold drift. unfold increment at 1. rewrite A, B.
  rewrite <- lsum_minus. apply lsum_ext. intros e _. unfold increment. ring.
Qed.
Theorem C110_disturbances_do_not_grow : forall b frames p0 old1 old2 x1 x2 h1 h2 k,
  consistent b -> two_sided b -> b_decohesion b = false -> stable_material b (macro_of b) -> stable_interfaces b frames p0 -> quadratic_defect_energy b ->
  initialised b h1 -> initialised b h2 -> sound_histories b h1 -> sound_histories b h2 -> no_latent_hardening b h1 -> same_strength b h1 h2 ->
  same_supports b k old1 old2 -> same_supports b k x1 x2 ->
  solves_step b old1 h1 k x1 -> solves_step b old2 h2 k x2 ->
  0 <= distance b frames x1 x2 <= distance b frames old1 old2.
Proof.
  intros b frames p0 old1 old2 x1 x2 h1 h2 k C T D SM SI P2 I1 I2 H1 H2 NL SS A B V1 V2. split.
  - unfold distance. change (mk_rank_data _ _) with (slack b). rewrite <- quiet_energy.
    apply (C95_stored_energy_nonneg (quiet b) frames p0 (fun _ _ _ => 0) (increment x1 x2) (slack b)); [exact C|apply quiet_material; exact SM|exact SI].
  - pose proof (C110_step b frames p0 old1 old2 x1 x2 h1 h2 C T D SM SI P2 I1 I2 H1 H2 NL SS) as Q. cbv zeta in Q.
    rewrite (V1 _ (admissible_drift b k _ _ _ _ A B)), (V2 _ (admissible_drift b k _ _ _ _ A B)) in Q. lra.
Qed.
Print Assumptions C110_disturbances_do_not_grow.

(** ** Accepted solutions *)
Lemma accepted_power b e sp a fuel t oo s r k w : consistent b -> b_decohesion b = false -> works_on e b -> initialised b (st_hist s) -> rate_independent sp = false ->
  solve_nonlinear_system e sp a fuel t oo s = Done r -> p_newton (e_problem e) = k -> closed_below (b_ndofs b) k -> SpecLinear.admissible (b_ndofs b) k w ->
  Rabs (virtual_power b (st_old s) (st_trial r) (trial_histories b (st_old s) (st_trial r) (st_hist s)) w) <= tolerated sp a b w.
Proof.
  intros C D W I RI SV EK CB A.
  assert (N1 : st_internal r = k).
  { pose proof W as (W1 & W2 & _). pose proof C as (N & _).
    assert (HF : forgets_iterates (e_update e)) by (rewrite W2; apply body_forgets; [exact N|right; exact D]).
    destruct (accepted_step sp e HF _ _ _ _ _ _ (or_introl RI) SV) as (_ & _ & _ & _ & A5). rewrite (A5 RI), <- EK.
    unfold merge, no_constraints. apply functional_extensionality. intros d. destruct (p_newton (e_problem e) d); reflexivity. }
  assert (Q := C92_accepted_solution_in_equilibrium b e sp a fuel t oo s r w C (or_intror D) W I (or_introl RI) SV ltac:(rewrite N1; exact CB) ltac:(rewrite N1; exact A)). cbv zeta in Q.
  fold (trial_histories b (st_old s) (st_trial r) (st_hist s)) in Q. unfold tolerated. destruct a; exact Q.
Qed.
Theorem C110_accepted_solutions : forall b frames p0 e1 e2 sp1 sp2 a1 a2 fuel1 fuel2 t1 t2 oo1 oo2 s1 s2 r1 r2,
  consistent b -> two_sided b -> b_decohesion b = false -> stable_material b (macro_of b) -> stable_interfaces b frames p0 -> quadratic_defect_energy b ->
  initialised b (st_hist s1) -> initialised b (st_hist s2) -> sound_histories b (st_hist s1) -> sound_histories b (st_hist s2) ->
  no_latent_hardening b (st_hist s1) -> same_strength b (st_hist s1) (st_hist s2) ->
  works_on e1 b -> works_on e2 b -> rate_independent sp1 = false -> rate_independent sp2 = false ->
  well_formed_constraints a1 e1 -> well_formed_constraints a2 e2 ->
  p_newton (e_problem e2) = p_newton (e_problem e1) -> p_affine (e_problem e2) = p_affine (e_problem e1) ->
  homogeneous_version (p_affine (e_problem e1)) (p_newton (e_problem e1)) -> closed_below (b_ndofs b) (p_newton (e_problem e1)) ->
  same_supports b (p_newton (e_problem e1)) (st_old s1) (st_old s2) ->
  solve_nonlinear_system e1 sp1 a1 fuel1 t1 oo1 s1 = Done r1 -> solve_nonlinear_system e2 sp2 a2 fuel2 t2 oo2 s2 = Done r2 ->
  let w := drift (st_old s1) (st_old s2) (st_trial r1) (st_trial r2) in
  distance b frames (st_trial r1) (st_trial r2) <= distance b frames (st_old s1) (st_old s2) + (tolerated sp1 a1 b w + tolerated sp2 a2 b w) /\
  same_supports b (p_newton (e_problem e1)) (st_trial r1) (st_trial r2).
Proof.
  intros b frames p0 e1 e2 sp1 sp2 a1 a2 fuel1 fuel2 t1 t2 oo1 oo2 s1 s2 r1 r2 C T D SM SI P2 I1 I2 S1 S2 NL SS W1 W2 RI1 RI2 F1 F2 EN EA HV CB SO V1 V2 w.
  assert (SX : same_supports b (p_newton (e_problem e1)) (st_trial r1) (st_trial r2)).
  { apply (homogeneous_difference b _ _ _ _ HV); [exact (C97_accepted_solution_obeys_the_constraints _ _ _ _ _ _ _ _ _ F1 V1)|].
    rewrite <- EA. exact (C97_accepted_solution_obeys_the_constraints _ _ _ _ _ _ _ _ _ F2 V2). }
  split; [|exact SX]. pose proof (admissible_drift b _ _ _ _ _ SO SX) as A. fold w in A.
  pose proof (accepted_power b e1 sp1 a1 fuel1 t1 oo1 s1 r1 _ w C D W1 I1 RI1 V1 eq_refl CB A) as L1.
  pose proof (accepted_power b e2 sp2 a2 fuel2 t2 oo2 s2 r2 _ w C D W2 I2 RI2 V2 EN CB A) as L2.
  pose proof (C110_step b frames p0 (st_old s1) (st_old s2) (st_trial r1) (st_trial r2) (st_hist s1) (st_hist s2) C T D SM SI P2 I1 I2 S1 S2 NL SS) as Q. cbv zeta in Q. fold w in Q.
  assert (LB : forall u, - Rabs u <= u) by (intros u; pose proof (Rle_abs (- u)) as H; rewrite Rabs_Ropp in H; lra).
  match type of L1 with Rabs ?u <= _ => pose proof (LB u) end. match type of L2 with Rabs ?u <= _ => pose proof (Rle_abs u) end. lra.
Qed.
Print Assumptions C110_accepted_solutions.

(** ** Histories *)
Lemma perfect_latent b h : perfectly_plastic b h -> no_latent_hardening b h.
Proof. intros P c q Hc Hq. left. apply P; assumption. Qed.
Lemma strength_next b old1 old2 x1 x2 h1 h2 : consistent b -> b_decohesion b = false -> initialised b h1 -> initialised b h2 -> sound_histories b h1 -> sound_histories b h2 ->
  perfectly_plastic b h1 -> same_strength b h1 h2 ->
  same_strength b (next_histories b old1 x1 h1) (next_histories b old2 x2 h2) /\ perfectly_plastic b (next_histories b old1 x1 h1).
Proof.
  intros C D I1 I2 S1 S2 P SS. pose proof C as (N & _).
  assert (K : forall c q, In c (b_cells b) -> (q < b_nq b)%nat ->
     prm (r_bulk (next_histories b old1 x1 h1) c q) = prm (r_bulk h1 c q) /\ char_res (r_bulk (next_histories b old1 x1 h1) c q) = char_res (r_bulk h1 c q) /\
     prm (r_bulk (next_histories b old2 x2 h2) c q) = prm (r_bulk h2 c q) /\ char_res (r_bulk (next_histories b old2 x2 h2) c q) = char_res (r_bulk h2 c q)).
  { intros c q Hc Hq. destruct S1 as (SB & _). destruct S2 as (SB' & _). destruct (SB c q Hc Hq) as (L & _). destruct (SB' c q Hc Hq) as (L' & _).
    destruct (next_bulk b old1 x1 h1 c q N (or_intror D) I1 Hc Hq L) as (A1 & A2 & _). destruct (next_bulk b old2 x2 h2 c q N (or_intror D) I2 Hc Hq L') as (B1 & B2 & _). auto. }
  split.
  - intros c q Hc Hq. destruct (K c q Hc Hq) as (K1 & K2 & K3 & K4). destruct (SS c q Hc Hq) as (E1 & E2 & E3). split; [congruence|]. split; [congruence|]. intros a Ha.
    unfold resistances_of. rewrite !(bulk_kept_by_finish b _ _ _ c q N Hc Hq).
    assert (P' : perfectly_plastic b h2) by (intros c' q' Hc' Hq'; destruct (SS c' q' Hc' Hq') as (-> & _); apply P; assumption).
    pose proof (trial_resistance b old1 x1 h1 c q a C D I1 S1 (perfect_latent _ _ P) Hc Hq Ha) as R1. pose proof (trial_resistance b old2 x2 h2 c q a C D I2 S2 (perfect_latent _ _ P') Hc Hq Ha) as R2.
    cbv zeta in R1, R2. rewrite (P c q Hc Hq), Rmult_0_l, Rplus_0_r in R1. rewrite (P' c q Hc Hq), Rmult_0_l, Rplus_0_r in R2.
    unfold resistances_of, trial_histories in R1, R2. rewrite R1, R2. exact (E3 a Ha).
  - intros c q Hc Hq. destruct (K c q Hc Hq) as (-> & _). apply P; assumption.
Qed.
Lemma distance_same b b' frames x y : consistent b -> same_solid b b' -> distance b' frames x y = distance b frames x y.
Proof.
  intros C SS. unfold distance. rewrite (same_solid_energy b b' frames) by exact SS. apply stored_same; [exact C|]. intros; split; reflexivity.
Qed.
Lemma strength_same b b' h h' : same_points b b' -> same_strength b h h' -> same_strength b' h h'.
Proof. intros (P1 & P2 & P3 & P4 & P5 & P6 & P7). unfold same_strength. rewrite <- P2, <- P3, <- P5. auto. Qed.
Lemma perfect_same b b' h : same_points b b' -> perfectly_plastic b h -> perfectly_plastic b' h.
Proof. intros (P1 & P2 & P3 & P4 & P5 & P6 & P7). unfold perfectly_plastic. rewrite <- P2, <- P3. auto. Qed.
Lemma supports_same b b' k x y : b_ndofs b' = b_ndofs b -> same_supports b k x y -> same_supports b' k x y.
Proof. unfold same_supports. intros ->. auto. Qed.

Theorem C110_whole_histories : forall b0 frames p0 bodies c k n X1 H1 X2 H2,
  consistent b0 ->
  (forall i, consistent (bodies i) /\ two_sided (bodies i) /\ b_decohesion (bodies i) = false /\ stable_material (bodies i) (macro_of (bodies i)) /\
     stable_interfaces (bodies i) frames p0 /\ quadratic_defect_energy (bodies i) /\ same_solid b0 (bodies i) /\ b_ndofs (bodies i) = b_ndofs b0 /\ homogeneous_version (c i) k) ->
  initialised b0 (H1 0%nat) -> initialised b0 (H2 0%nat) -> sound_histories b0 (H1 0%nat) -> sound_histories b0 (H2 0%nat) ->
  perfectly_plastic b0 (H1 0%nat) -> same_strength b0 (H1 0%nat) (H2 0%nat) -> same_supports b0 k (X1 0%nat) (X2 0%nat) ->
  exact_history n bodies c (fun _ => k) X1 H1 -> exact_history n bodies c (fun _ => k) X2 H2 ->
  forall i j, (i <= j <= n)%nat -> 0 <= distance b0 frames (X1 j) (X2 j) <= distance b0 frames (X1 i) (X2 i).
Proof.
  intros b0 frames p0 bodies c k n X1 H1 X2 H2 C0 HB I1 I2 S1 S2 P SS SO E1 E2.
  assert (INV : forall i, (i <= n)%nat -> initialised b0 (H1 i) /\ initialised b0 (H2 i) /\ sound_histories b0 (H1 i) /\ sound_histories b0 (H2 i) /\
     perfectly_plastic b0 (H1 i) /\ same_strength b0 (H1 i) (H2 i) /\ same_supports b0 k (X1 i) (X2 i) /\ ((0 < i)%nat -> 0 <= distance b0 frames (X1 i) (X2 i) <= distance b0 frames (X1 (pred i)) (X2 (pred i)))).
  { induction i as [|i IH]; intros Hi; [repeat (split; [assumption|]); intros H; lia|].
    destruct (IH ltac:(lia)) as (J1 & J2 & J3 & J4 & J5 & J6 & J7 & _). destruct (HB i) as (C & T & D & SM & SI & P2 & SD & ND & HV).
    pose proof SD as (SP & _ & _ & _ & MT & _). pose proof (same_points_sym _ _ SP) as SP'.
    destruct (E1 i ltac:(lia)) as (O1 & V1 & EH1). destruct (E2 i ltac:(lia)) as (O2 & V2 & EH2).
    pose proof (same_points_initialised _ _ _ SP J1) as K1. pose proof (same_points_initialised _ _ _ SP J2) as K2.
    pose proof (same_points_sound _ _ _ SP MT J3) as K3. pose proof (same_points_sound _ _ _ SP MT J4) as K4.
    pose proof (perfect_same _ _ _ SP J5) as K5. pose proof (strength_same _ _ _ _ SP J6) as K6. pose proof (supports_same _ _ _ _ _ ND J7) as K7.
    pose proof (homogeneous_difference (bodies i) _ _ _ _ HV O1 O2) as SX.
    pose proof (C110_disturbances_do_not_grow (bodies i) frames p0 (X1 i) (X2 i) (X1 (S i)) (X2 (S i)) (H1 i) (H2 i) k C T D SM SI P2 K1 K2 K3 K4 (perfect_latent _ _ K5) K6 K7 SX V1 V2) as Q.
    rewrite !(distance_same b0 (bodies i) frames _ _ C0 SD) in Q.
    change (body_finish (bodies i) (X1 (S i)) (trial_histories (bodies i) (X1 i) (X1 (S i)) (H1 i))) with (next_histories (bodies i) (X1 i) (X1 (S i)) (H1 i)) in EH1.
    change (body_finish (bodies i) (X2 (S i)) (trial_histories (bodies i) (X2 i) (X2 (S i)) (H2 i))) with (next_histories (bodies i) (X2 i) (X2 (S i)) (H2 i)) in EH2.
    destruct (strength_next (bodies i) (X1 i) (X2 i) (X1 (S i)) (X2 (S i)) (H1 i) (H2 i) C D K1 K2 K3 K4 K5 K6) as (N1 & N2).
    destruct (ready_next (bodies i) (X1 i) (X1 (S i)) (H1 i) C T D (conj K1 (conj K3 (perfect_latent _ _ K5)))) as ((R1 & R2 & _) & _).
    assert (K5' : perfectly_plastic (bodies i) (H2 i)) by (intros c' q' Hc' Hq'; destruct (K6 c' q' Hc' Hq') as (-> & _); apply K5; assumption).
    destruct (ready_next (bodies i) (X2 i) (X2 (S i)) (H2 i) C T D (conj K2 (conj K4 (perfect_latent _ _ K5')))) as ((R3 & R4 & _) & _).
    rewrite EH1, EH2.
    split; [exact (same_points_initialised _ _ _ SP' R1)|]. split; [exact (same_points_initialised _ _ _ SP' R3)|].
    split; [exact (same_points_sound _ _ _ SP' (eq_sym MT) R2)|]. split; [exact (same_points_sound _ _ _ SP' (eq_sym MT) R4)|].
    split; [exact (perfect_same _ _ _ SP' N2)|]. split; [exact (strength_same _ _ _ _ SP' N1)|].
    split; [exact (supports_same _ _ _ _ _ (eq_sym ND) SX)|]. intros _. exact Q. }
  intros i j (L & Hj). induction L as [|j L IH].
  - split; [|lra]. unfold distance. change (mk_rank_data _ _) with (slack b0). destruct (HB i) as (C & T & D & SM & SI & P2 & SD & ND & HV).
    change (0 <= distance b0 frames (X1 i) (X2 i)). rewrite <- (distance_same b0 (bodies i) frames _ _ C0 SD). unfold distance. change (mk_rank_data _ _) with (slack (bodies i)). rewrite <- quiet_energy.
    apply (C95_stored_energy_nonneg (quiet (bodies i)) frames p0 (fun _ _ _ => 0) _ (slack (bodies i))); [exact C|apply quiet_material; exact SM|exact SI].
  - destruct (INV (S j) Hj) as (_ & _ & _ & _ & _ & _ & _ & Q). specialize (Q ltac:(lia)). cbn [pred] in Q. specialize (IH ltac:(lia)). lra.
Qed.
Print Assumptions C110_whole_histories.

Theorem C110_runs : forall sp1 sp2 a1 a2 fuel1 fuel2 b0 frames p0 k (steps : list pair_of_steps) oo1 oo2 s1 s2 o1 o2 acc1 acc2,
  consistent b0 -> rate_independent sp1 = false -> rate_independent sp2 = false ->
  (forall b e1 t1 e2 t2, In (b, ((e1, t1), (e2, t2))) steps ->
     consistent b /\ two_sided b /\ b_decohesion b = false /\ stable_material b (macro_of b) /\ stable_interfaces b frames p0 /\ quadratic_defect_energy b /\
     same_solid b0 b /\ b_ndofs b = b_ndofs b0 /\
     works_on e1 b /\ works_on e2 b /\ e_finish e1 = body_finish b /\ e_finish e2 = body_finish b /\
     well_formed_constraints a1 e1 /\ well_formed_constraints a2 e2 /\
     p_newton (e_problem e1) = k /\ p_newton (e_problem e2) = k /\ p_affine (e_problem e2) = p_affine (e_problem e1) /\
     homogeneous_version (p_affine (e_problem e1)) k) ->
  closed_below (b_ndofs b0) k ->
  initialised b0 (st_hist s1) -> initialised b0 (st_hist s2) -> sound_histories b0 (st_hist s1) -> sound_histories b0 (st_hist s2) ->
  perfectly_plastic b0 (st_hist s1) -> same_strength b0 (st_hist s1) (st_hist s2) -> same_supports b0 k (st_old s1) (st_old s2) ->
  run sp1 a1 fuel1 (first_run steps) oo1 s1 = (o1, acc1) -> run sp2 a2 fuel2 (second_run steps) oo2 s2 = (o2, acc2) ->
  forall i r1 r2, nth_error acc1 i = Some r1 -> nth_error acc2 i = Some r2 ->
  distance b0 frames (st_trial r1) (st_trial r2) <= distance b0 frames (st_old s1) (st_old s2) +
    tolerances sp1 a1 sp2 a2 (firstn (S i) (map fst steps)) (firstn (S i) acc1) (firstn (S i) acc2) (st_old s1) (st_old s2).
Proof.
  intros sp1 sp2 a1 a2 fuel1 fuel2 b0 frames p0 k steps. induction steps as [|[b [[e1 t1] [e2 t2]]] steps IH];
    intros oo1 oo2 s1 s2 o1 o2 acc1 acc2 C0 RI1 RI2 HS CB I1 I2 S1 S2 P SS SO R1 R2 i r1 r2 N1 N2.
  { cbn in R1. injection R1 as _ <-. destruct i; discriminate N1. }
  cbn [first_run second_run map fst snd run] in R1, R2.
  destruct (HS b e1 t1 e2 t2 (or_introl eq_refl)) as (C & T & D & SM & SI & P2 & SD & ND & W1 & W2 & F1 & F2 & WF1 & WF2 & K1 & K2 & KA & HV).
  destruct (solve_nonlinear_system e1 sp1 a1 fuel1 t1 oo1 s1) as [q1| | |] eqn:V1; try (injection R1 as _ <-; destruct i; discriminate N1).
  destruct (solve_nonlinear_system e2 sp2 a2 fuel2 t2 oo2 s2) as [q2| | |] eqn:V2; try (injection R2 as _ <-; destruct i; discriminate N2).
  cbn [shift_solutions] in R1, R2. set (z1 := mk_sstate _ _ _ _ _ _ _ _ _ _ _ _) in R1. set (z2 := mk_sstate _ _ _ _ _ _ _ _ _ _ _ _) in R2.
  destruct (run sp1 a1 fuel1 (map (fun s => fst (snd s)) steps) (st_old q1) z1) as [p1 l1] eqn:L1. injection R1 as <- <-.
  destruct (run sp2 a2 fuel2 (map (fun s => snd (snd s)) steps) (st_old q2) z2) as [p2 l2] eqn:L2. injection R2 as <- <-.
  pose proof SD as (SP & _ & _ & _ & MT & _). pose proof (same_points_sym _ _ SP) as SP'.
  pose proof (same_points_initialised _ _ _ SP I1) as J1. pose proof (same_points_initialised _ _ _ SP I2) as J2.
  pose proof (same_points_sound _ _ _ SP MT S1) as J3. pose proof (same_points_sound _ _ _ SP MT S2) as J4.
  pose proof (perfect_same _ _ _ SP P) as J5. pose proof (strength_same _ _ _ _ SP SS) as J6. pose proof (supports_same _ _ _ _ _ ND SO) as J7.
  destruct (C110_accepted_solutions b frames p0 e1 e2 sp1 sp2 a1 a2 fuel1 fuel2 t1 t2 oo1 oo2 s1 s2 q1 q2 C T D SM SI P2 J1 J2 J3 J4 (perfect_latent _ _ J5) J6 W1 W2 RI1 RI2 WF1 WF2
    ltac:(rewrite K1, K2; reflexivity) KA ltac:(rewrite K1; exact HV) ltac:(rewrite K1, ND; exact CB) ltac:(rewrite K1; exact J7) V1 V2) as (Q & SX). cbv zeta in Q. rewrite K1 in SX.
  rewrite !(distance_same b0 b frames _ _ C0 SD) in Q.
  destruct i as [|i].
  - cbn in N1, N2. injection N1 as <-. injection N2 as <-. cbn [map fst firstn tolerances]. lra.
  - cbn [nth_error] in N1, N2.
    assert (M : exponential_damage_only b) by (right; exact D).
    assert (Z : forall e sp a fuel t oo s q, works_on e b -> e_finish e = body_finish b -> rate_independent sp = false -> solve_nonlinear_system e sp a fuel t oo s = Done q ->
       st_hist q = next_histories b (st_old s) (st_trial q) (st_hist s)).
    { intros e sp a fuel t oo s q (Y1 & Y2 & Y3) YF RI SV. pose proof C as (N & _).
      assert (HF : forgets_iterates (e_update e)) by (rewrite Y2; apply body_forgets; [exact N|exact M]).
      destruct (accepted_step sp e HF _ _ _ _ _ _ (or_introl RI) SV) as (_ & A2 & _). rewrite Y1, Y2, YF in A2. exact A2. }
    destruct (C95_step_keeps_soundness b e1 sp1 a1 fuel1 t1 oo1 s1 q1 C M T W1 F1 J1 J3 (or_introl RI1) V1) as (G3 & G1).
    destruct (C95_step_keeps_soundness b e2 sp2 a2 fuel2 t2 oo2 s2 q2 C M T W2 F2 J2 J4 (or_introl RI2) V2) as (G4 & G2).
    destruct (strength_next b (st_old s1) (st_old s2) (st_trial q1) (st_trial q2) (st_hist s1) (st_hist s2) C D J1 J2 J3 J4 J5 J6) as (G6 & G5).
    rewrite <- (Z e1 sp1 a1 fuel1 t1 oo1 s1 q1 W1 F1 RI1 V1) in G5, G6. rewrite <- (Z e2 sp2 a2 fuel2 t2 oo2 s2 q2 W2 F2 RI2 V2) in G6.
    pose proof (IH (st_old q1) (st_old q2) z1 z2 p1 p2 l1 l2 C0 RI1 RI2 (fun b' e1' t1' e2' t2' Hin => HS b' e1' t1' e2' t2' (or_intror Hin)) CB
      (same_points_initialised _ _ _ SP' G1) (same_points_initialised _ _ _ SP' G2) (same_points_sound _ _ _ SP' (eq_sym MT) G3) (same_points_sound _ _ _ SP' (eq_sym MT) G4)
      (perfect_same _ _ _ SP' G5) (strength_same _ _ _ _ SP' G6) (supports_same _ _ _ _ _ (eq_sym ND) SX) L1 L2 i r1 r2 N1 N2) as X.
    change (st_old z1) with (st_trial q1) in X. change (st_old z2) with (st_trial q2) in X.
    change (firstn (S (S i)) (map fst ((b, ((e1, t1), (e2, t2))) :: steps))) with (b :: firstn (S i) (map fst steps)).
    change (firstn (S (S i)) (q1 :: l1)) with (q1 :: firstn (S i) l1). change (firstn (S (S i)) (q2 :: l2)) with (q2 :: firstn (S i) l2).
    cbn [tolerances]. cbv zeta. lra.
Qed.
Print Assumptions C110_runs.


(** ** States with the same stresses *)
Lemma distance_zero b frames p0 x y : consistent b -> b_decohesion b = false -> stable_material b (macro_of b) -> stable_interfaces b frames p0 -> strict_grains b ->
  distance b frames x y = 0 ->
  forall c q i j, In c (b_cells b) -> (q < b_nq b)%nat -> (i < cr_dim (b_crystal b c))%nat -> (j < cr_dim (b_crystal b c))%nat ->
  elastic_strain_of b (macro_of b) x c q i j = elastic_strain_of b (macro_of b) y c q i j.
Proof.
  intros C D SM SI SG Z c q i j Hc Hq Hi Hj.
  assert (IE : 0 <= interfaces_energy (quiet b) frames (increment x y) (slack b)) by (apply (interfaces_nonneg (quiet b) frames p0 (slack b) D SI)).
  pose proof (quiet_material b SM) as QM. pose proof (fun c' q' Hc' => parts_of_grain (quiet b) C QM c' q' (increment x y) Hc') as PG.
  assert (W0 : forall c' q', In c' (b_cells b) -> (q' < el_nq (b_element b c'))%nat -> 0 <= el_w (b_element b c') q') by (intros c' q' Hc' Hq'; apply (SM c' Hc'); exact Hq').
  assert (GE : grain_energy (quiet b) (macro_of (quiet b)) (increment x y) = 0).
  { assert (G0 : 0 <= grain_energy (quiet b) (macro_of (quiet b)) (increment x y)).
    { rewrite grain_form. apply lsum_nonneg. intros c' Hc'. apply sumn_nonneg. intros q' Hq'. apply Rmult_le_pos; [apply W0; assumption|]. destruct (PG c' q' Hc'). lra. }
    unfold distance in Z. change (mk_rank_data _ _) with (slack b) in Z. rewrite <- quiet_energy in Z. unfold stored_energy in Z.
    change (macro_of (quiet b)) with (fun _ : nat => fun _ _ : nat => 0) in *. lra. }
  rewrite grain_form in GE. change (b_cells (quiet b)) with (b_cells b) in GE.
  pose (pt := fun c' q' => el_w (b_element b c') q' * (elastic_part (quiet b) (increment x y) c' q' + defect_part (quiet b) (increment x y) c' q')).
  assert (PT : forall c' q', In c' (b_cells b) -> (q' < el_nq (b_element b c'))%nat -> 0 <= pt c' q').
  { intros c' q' Hc' Hq'. unfold pt. apply Rmult_le_pos; [apply W0; assumption|]. destruct (PG c' q' Hc'). lra. }
  change (lsum (fun c' => sumn (el_nq (b_element b c')) (pt c')) (b_cells b) = 0) in GE.
  assert (G1 : sumn (el_nq (b_element b c)) (pt c) = 0).
  { apply (lsum_zero_each (fun c' => sumn (el_nq (b_element b c')) (pt c')) (b_cells b)); [|exact GE|exact Hc]. intros c' Hc'. apply sumn_nonneg. intros q' Hq'. apply PT; assumption. }
  pose proof C as (_ & _ & C1 & _). destruct (C1 c Hc) as (_ & NQ & _).
  assert (G2 : pt c q = 0) by (apply (sumn_zero_each (el_nq (b_element b c)) (pt c)); [intros q' Hq'; apply PT; assumption|exact G1|rewrite NQ; exact Hq]). unfold pt in G2.
  destruct (SG c Hc) as (_ & N3 & WP & PD). specialize (WP q Hq). destruct (PG c q Hc) as (E1 & E2).
  apply Rmult_integral in G2. destruct G2 as [G2|G2]; [lra|].
  assert (EP : elastic_part (quiet b) (increment x y) c q = 0) by lra. unfold elastic_part in EP. cbv zeta in EP. cbn [quiet b_crystal cr_N cr_dim cr_C] in EP.
  set (s := elastic_strain_of (quiet b) (macro_of (quiet b)) (increment x y) c q) in *.
  change (cr_N (b_crystal b c) 3 / cr_N (b_crystal b c) 0 * (1/2 * ddot (cr_dim (b_crystal b c)) s (c4 (cr_dim (b_crystal b c)) (cr_C (b_crystal b c)) s)) = 0) in EP.
  apply Rmult_integral in EP. destruct EP as [EP|EP]; [lra|].
  assert (SY : symmetric (cr_dim (b_crystal b c)) s).
  { apply (elastic_symmetric (quiet b) (fun _ _ _ => 0) (macro_of (quiet b)) (increment x y) c q QM Hc). intros i' j' _ _. reflexivity. }
  pose proof (PD s SY ltac:(lra) i j Hi Hj) as S0.
  unfold s, elastic_strain_of in S0. cbn [quiet b_crystal b_element cr_N cr_ns cr_P] in S0. unfold macro_of in S0. cbn [quiet b_crystal cr_macro] in S0.
  change (local_values (quiet b) (increment x y) c) with (local_values b (increment x y) c) in S0. rewrite strain_increment in S0.
  rewrite (sumn_ext _ (fun a => slip_at (b_element b c) (local_values b (increment x y) c) q a * cr_P (b_crystal b c) a i j)
    (fun a => slip_at (b_element b c) (local_values b x c) q a * cr_P (b_crystal b c) a i j - slip_at (b_element b c) (local_values b y c) q a * cr_P (b_crystal b c) a i j)) in S0
    by (intros a _; rewrite slip_increment; ring).
  rewrite sumn_minus in S0. unfold elastic_strain_of. lra.
Qed.
(** States that differ by a motion without elastic strains, slip gradients and slip differences at the interfaces: the stresses stay the same. *)
Theorem C110_same_stresses : forall b frames p0 old1 old2 x1 x2 h1 h2 k,
  consistent b -> two_sided b -> b_decohesion b = false -> stable_material b (macro_of b) -> stable_interfaces b frames p0 -> quadratic_defect_energy b -> strict_grains b ->
  initialised b h1 -> initialised b h2 -> sound_histories b h1 -> sound_histories b h2 -> no_latent_hardening b h1 -> same_strength b h1 h2 ->
  same_supports b k old1 old2 -> same_supports b k x1 x2 ->
  solves_step b old1 h1 k x1 -> solves_step b old2 h2 k x2 ->
  distance b frames old1 old2 = 0 ->
  forall c q i j, In c (b_cells b) -> (q < b_nq b)%nat -> (i < cr_dim (b_crystal b c))%nat -> (j < cr_dim (b_crystal b c))%nat ->
  stress_at (b_crystal b c) (b_element b c) (local_values b x1 c) q i j = stress_at (b_crystal b c) (b_element b c) (local_values b x2 c) q i j.
Proof.
  intros b frames p0 old1 old2 x1 x2 h1 h2 k C T D SM SI P2 SG I1 I2 H1 H2 NL SS A B V1 V2 Z c q i j Hc Hq Hi Hj.
  pose proof (C110_disturbances_do_not_grow b frames p0 old1 old2 x1 x2 h1 h2 k C T D SM SI P2 I1 I2 H1 H2 NL SS A B V1 V2) as Q.
  pose proof (distance_zero b frames p0 x1 x2 C D SM SI SG ltac:(lra)) as E.
  rewrite !(stress_of_energy b). apply c4_ext; [reflexivity|]. intros i' j' Hi' Hj'. exact (E c q i' j' Hc Hq Hi' Hj').
Qed.
Print Assumptions C110_same_stresses.

(** ** Other loads *)
Lemma reloaded_power b supply loads old x r w : virtual_power (reloaded b supply loads) old x r w = virtual_power b old x r w + (load_work (reloaded b supply loads) w - load_work b w).
Proof.
  rewrite !virtual_power_parts. unfold load_work. change (b_cells (reloaded b supply loads)) with (b_cells b). rewrite <- lsum_minus, <- lsum_plus. apply lsum_ext. intros c _.
  change (lsum (side_power (reloaded b supply loads) x r w c) (gb_neighbours (reloaded b supply loads) c)) with (lsum (side_power b x r w c) (gb_neighbours b c)).
  cbv zeta.
  assert (G : - grain_power (reloaded b supply loads) old x r w c + grain_power b old x r w c =
    sumn (el_nq (b_element b c)) (fun q => el_w (b_element b c) q * (cr_N (b_crystal b c) 3 / cr_N (b_crystal b c) 0 *
      dot (cr_dim (b_crystal b c)) (fun r => sumn (el_nd (b_element b c)) (fun i => local_values b w c i * el_phi (b_element b c) i q r)) (supply c q)))
    - sumn (el_nq (b_element b c)) (fun q => el_w (b_element b c) q * (cr_N (b_crystal b c) 3 / cr_N (b_crystal b c) 0 *
      dot (cr_dim (b_crystal b c)) (fun r => sumn (el_nd (b_element b c)) (fun i => local_values b w c i * el_phi (b_element b c) i q r)) (cr_supply (b_crystal b c) q)))).
  { unfold grain_power. cbv zeta. rewrite <- sumn_opp, <- sumn_plus, <- sumn_minus. apply sumn_ext. intros q _.
    change (local_values (reloaded b supply loads)) with (local_values b). change (b_element (reloaded b supply loads) c) with (b_element b c).
    set (k' := b_crystal (reloaded b supply loads) c). set (k := b_crystal b c).
    change (cr_dim k') with (cr_dim k). change (cr_N k') with (cr_N k). change (cr_P k') with (cr_P k). change (cr_ns k') with (cr_ns k).
    change (cr_factor k') with (cr_factor k). change (cr_p k') with (cr_p k). change (cr_dir k') with (cr_dir k). change (cr_ort k') with (cr_ort k).
    change (cr_law k') with (cr_law k). change (cr_dt k') with (cr_dt k). change (cr_supply k') with (supply c).
    change (stress_at k' (b_element b c) (local_values b x c) q) with (stress_at k (b_element b c) (local_values b x c) q). ring. }
  change (b_loads (reloaded b supply loads) c) with (loads c). change (local_values (reloaded b supply loads)) with (local_values b). change (b_element (reloaded b supply loads) c) with (b_element b c).
  cbn [reloaded b_crystal cr_dim cr_N cr_supply].
  set (L1 := lsum _ (loads c)). set (L2 := lsum _ (b_loads b c)). set (sp := lsum (side_power b x r w c) (gb_neighbours b c)). clearbody L1 L2 sp.
  match type of G with _ = ?u - ?v => set (U := u) in *; set (V := v) in * end. clearbody U V. lra.
Qed.
Theorem C110_other_loads : forall b supply loads frames p0 old1 old2 x1 x2 h1 h2 k,
  consistent b -> two_sided b -> b_decohesion b = false -> stable_material b (macro_of b) -> stable_interfaces b frames p0 -> quadratic_defect_energy b ->
  initialised b h1 -> initialised b h2 -> sound_histories b h1 -> sound_histories b h2 -> no_latent_hardening b h1 -> same_strength b h1 h2 ->
  same_supports b k old1 old2 -> same_supports b k x1 x2 ->
  solves_step b old1 h1 k x1 -> solves_step (reloaded b supply loads) old2 h2 k x2 ->
  let w := drift old1 old2 x1 x2 in
  distance b frames x1 x2 <= distance b frames old1 old2 + (load_work b w - load_work (reloaded b supply loads) w).
Proof.
  intros b supply loads frames p0 old1 old2 x1 x2 h1 h2 k C T D SM SI P2 I1 I2 H1 H2 NL SS A B V1 V2 w.
  pose proof (C110_step b frames p0 old1 old2 x1 x2 h1 h2 C T D SM SI P2 I1 I2 H1 H2 NL SS) as Q. cbv zeta in Q. fold w in Q.
  pose proof (admissible_drift b k _ _ _ _ A B) as AD. fold w in AD. rewrite (V1 _ AD) in Q.
  assert (AD' : SpecLinear.admissible (b_ndofs (reloaded b supply loads)) k w) by exact AD.
  pose proof (V2 _ AD') as V2'. rewrite reloaded_power in V2'.
  change (trial_histories (reloaded b supply loads) old2 x2 h2) with (trial_histories b old2 x2 h2) in V2'. lra.
Qed.
Print Assumptions C110_other_loads.
