(** * C112: limit loads. *)
From Coq Require Import FunctionalExtensionality Classical.
From Verif Require Import Num ModelShear SpecShear ModelProgram SpecProgram PropProgram SumLemmas Tensors TensorLemmas ModelUtilities ModelElastic SpecElastic ProofElastic ModelMicro SpecMicro ProofMicro PropMicro
  ModelCohesive SpecCohesive ProofCohesive ModelHistory SpecHistory ModelInterface SpecInterface
  ModelFEField ModelActiveSet ModelLinear SpecLinear PropLinear ModelAssembly SpecAssembly ProofAssembly ProofFace
  ModelSolver ModelSweep SpecSweep PropSweep ModelStep SpecStep ProofStep PropStep ModelBody SpecBody PropBody SpecTangent SpecRun PropRun
  SpecEnergy ProofEnergy PropEnergy SpecStiffness SpecUnique PropUnique ProofMinimum ProofBound ProofPotential SpecExistence PropExistence ProofSaturation ProofCoercive SpecLimit PropLimit PropLimitRun SpecLimitLoad.
Open Scope R_scope.


Section Reference.
Variables (b : body) (frames : nat -> frame) (p0 : interface) (old : vec) (h : rank_data) (c k : constraints).
Hypothesis C : consistent b.
Hypothesis T : two_sided b.
Hypothesis D : b_decohesion b = false.
Hypothesis SM : stable_material b (macro_of b).
Hypothesis SI : stable_interfaces b frames p0.
Hypothesis I : initialised b h.
Hypothesis SH : sound_histories b h.
Hypothesis NL : no_latent_hardening b h.
Hypothesis SG : strict_grains b.
Hypothesis HV : homogeneous_version c k.
Hypothesis CB : closed_below (b_ndofs b) k.
Hypothesis HP : held_in_place b k.
Let n := b_ndofs b.
(** Stresses that balance the loads of the body and [extra] loads. *)
Definition supports (extra : vec -> R) : Prop := exists (z : vec) (inc : nat -> nat -> mat) (s : nat -> nat -> nat -> R),
  (forall e q, In e (b_cells b) -> (q < b_nq b)%nat -> symmetric (cr_dim (b_crystal b e)) (inc e q)) /\
  (forall e q a, In e (b_cells b) -> (q < b_nq b)%nat -> (a < b_ns b)%nat -> Rabs (s e q a) < resistances_of h e q a \/ hardens b h e q) /\
  forall w, SpecLinear.admissible (b_ndofs b) k w -> virtual_power b z z h w + extra w = strain_power b inc w + flow_power b s w.
Definition energy_under (extra : vec -> R) (y : vec) : R := total b frames old h c k y - extra (follow c y).
Definition slope_under (extra : vec -> R) (y : vec) (d : nat) : R := slope b old h c k y d - extra (follow k (unit_at d)).
Lemma under_convex extra : linear_on n extra -> forall x y : vec, energy_under extra x + sumn n (fun d => slope_under extra x d * (y d - x d)) <= energy_under extra y.
Proof.
  intros L x y. pose proof (total_convex b frames p0 old h C T D SM SI I SH NL SG c k HV CB x y) as Q. fold n in Q. unfold energy_under, slope_under.
  rewrite (from_rest b c k HV CB extra x L), (from_rest b c k HV CB extra y L).
  rewrite (linear_expansion n (fun v => extra (follow k v)) x (lin_follow b c k HV CB extra L)), (linear_expansion n (fun v => extra (follow k v)) y (lin_follow b c k HV CB extra L)).
  rewrite (sumn_ext n (fun d => (slope b old h c k x d - extra (follow k (unit_at d))) * (y d - x d))
    (fun d => slope b old h c k x d * (y d - x d) - (y d * extra (follow k (unit_at d)) - x d * extra (follow k (unit_at d))))) by (intros; ring).
  rewrite !sumn_minus. lra.
Qed.
Lemma supports_grows extra : linear_on n extra -> supports extra -> grows n (energy_under extra).
Proof.
  intros L (z & inc & s & HI & HS & HZ). apply (bounded_grows n _ (slope_under extra) (under_convex extra L)).
  exact (carried_levels b frames p0 old h C T D SM SI SH SG c k extra z inc s L HI HV CB HP HS HZ).
Qed.
Lemma grows_solution extra : linear_on n extra -> grows n (energy_under extra) -> exists x, obeys c x /\
  forall w, SpecLinear.admissible n k w -> virtual_power b old x (trial_histories b old x h) w + extra w = 0.
Proof.
  intros L G. pose proof (grows_bounded n _ G) as BL. destruct (BL (energy_under extra (fun _ => 0))) as (B & HB & HL).
  destruct (critical_point n (energy_under extra) (slope_under extra) B (under_convex extra L)) as (y & Y).
  { intros x d e Hd He. destruct (slope_continuous b old h C T D SM I SH NL SG c k HV CB x d e Hd He) as (t & Ht & Q). exists t. split; [exact Ht|]. intros v V. unfold slope_under.
    match goal with |- Rabs ?u <= _ => replace u with (slope b old h c k v d - slope b old h c k x d) by ring end. apply Q, V. }
  { exact HB. } { exact HL. }
  exists (follow c y). split; [eapply follow_obeys; eassumption|]. intros w W. set (P := fun w => virtual_power b old (follow c y) (trial_histories b old (follow c y) h) w + extra w).
  assert (LP : linear_on n P) by (apply lin_plus; [apply lin_power; assumption|exact L]). change (P w = 0).
  rewrite (proj2 LP w (follow k w)) by (intros d Hd; symmetry; eapply follow_fixed; eassumption).
  rewrite (linear_expansion n (fun v => P (follow k v)) w (lin_follow b c k HV CB P LP)). apply sumn_zero. intros d Hd. specialize (Y d Hd). unfold slope_under, slope in Y.
  destruct (k d) as [[es z]|] eqn:E.
  - assert (Z : P (follow k (unit_at d)) = 0); [|rewrite Z; ring]. rewrite <- (linear_zero n P LP). apply (proj2 LP). intros i Hi. unfold follow.
    destruct (k i) as [[es' z']|] eqn:E'.
    + pose proof (HV i) as HI. rewrite E' in HI. destruct (c i) as [[? ?]|]; [|contradiction]. destruct HI as (_ & ->). rewrite Rplus_0_r. apply lsum_zero. intros [e v] Ie. unfold unit_at, kron. cbn [fst snd]. destruct (Nat.eqb_spec e d) as [->|]; [|ring].
      destruct CB as (CL & _). pose proof (CL i es' _ d v E' Ie) as F. congruence.
    + unfold unit_at, kron. destruct (Nat.eqb_spec i d) as [->|]; [congruence|reflexivity].
  - unfold fixed in Y. rewrite E in Y. unfold P. replace (virtual_power _ _ _ _ _ + _) with 0 by lra. ring.
Qed.
Lemma balanced_supports x extra : (forall w, SpecLinear.admissible n k w -> virtual_power b old x (trial_histories b old x h) w + extra w = 0) -> supports extra.
Proof.
  intros S. set (r := trial_histories b old x h) in *.
  set (s := fun c q a => scalar_microstress (cr_law (b_crystal b c)) (slip_at (b_element b c) (local_values b x c) q a) (slip_at (b_element b c) (local_values b old c) q a) (resistances_of r c q a) (cr_dt (b_crystal b c))).
  exists x, (fun _ _ _ _ => 0), s. split; [intros e q _ _ i j _ _; reflexivity|]. split.
  - intros e q a Hc Hq Ha. destruct (system_data b h SM SH SG e q a Hc Hq Ha) as (A1 & A2 & A3 & A4 & A5).
    destruct (hardens_or_not b h e q) as [P|Z]; [right; exact P|left]. specialize (Z SH Hc Hq).
    assert (E : resistances_of r e q a = resistances_of h e q a).
    { unfold r. rewrite (trial_resistance b old x h e q a C D I SH NL Hc Hq Ha). unfold own_hardening in Z. destruct (flag_perfect_plasticity _); [ring|]. rewrite Z. ring. }
    rewrite <- E in A4 |- *. unfold s. apply C25_bounded; assumption.
  - intros w W. specialize (S w W). fold r in S. rewrite power_flows in S. rewrite strain_power_zero, Rplus_0_l.
    rewrite power_at_rest. rewrite (same_power b x x C D SM (fun _ _ => eq_refl) x (no_resistance r) (no_resistance h) w) by (intros; rewrite !no_resistance_zero; reflexivity).
    assert (F : flow_power b s w = slip_work b old x w r); [|lra]. unfold flow_power, slip_work. apply lsum_ext. intros e _. cbv zeta. apply sumn_ext. intros q _. f_equal. apply sumn_ext. intros a _. unfold s. ring.
Qed.
Lemma supports_iff_grows extra : linear_on n extra -> (supports extra <-> grows n (energy_under extra)).
Proof.
  intros L. split; [apply supports_grows, L|]. intros G. destruct (grows_solution extra L G) as (x & _ & S). exact (balanced_supports x extra S).
Qed.
(** *** The loads that can be supported are a convex set, and open. *)
Lemma supports_mean l1 l2 l3 t : 0 <= t <= 1 -> linear_on n l1 -> linear_on n l2 -> linear_on n l3 -> (forall w, l3 w = t * l1 w + (1 - t) * l2 w) ->
  supports l1 -> supports l2 -> supports l3.
Proof.
  intros HT L1 L2 L3 E S1 S2. apply (supports_iff_grows l3 L3). apply (supports_iff_grows l1 L1) in S1. apply (supports_iff_grows l2 L2) in S2.
  apply (grows_ext n (fun y => t * energy_under l1 y + (1 - t) * energy_under l2 y)); [|apply grows_mean; assumption]. intros y. unfold energy_under. rewrite E. ring.
Qed.
Lemma follow_size : exists A, 0 < A /\ forall y, size n (follow k y) <= A * size n y.
Proof.
  set (B := fun d => sumn n (fun i => Rabs (follow k (unit_at i) d))). assert (B0 : forall d, 0 <= B d) by (intros; apply sumn_nonneg; intros; apply Rabs_pos).
  exists (sumn n B + 1). assert (S0 : 0 <= sumn n B) by (apply sumn_nonneg; intros; apply B0). split; [lra|]. intros y. pose proof (size_nonneg n y) as N0.
  apply Rle_trans with (sumn n B * size n y); [|nra]. rewrite <- sumn_scal_r. apply sumn_le. intros d Hd.
  assert (LD : linear_on n (fun v : vec => v d)) by (split; [intros; reflexivity|intros u v E; apply E, Hd]).
  rewrite (linear_expansion n (fun v => follow k v d) y (lin_follow b c k HV CB (fun v => v d) LD)). eapply Rle_trans; [apply sumn_abs|]. unfold B. rewrite <- sumn_scal_r. apply sumn_le. intros i Hi.
  rewrite Rabs_mult, Rmult_comm. apply Rmult_le_compat_l; [apply Rabs_pos|apply size_ge, Hi].
Qed.
Lemma supports_near l1 : linear_on n l1 -> supports l1 -> exists e, 0 < e /\ forall l2, linear_on n l2 ->
  (forall w, SpecLinear.admissible n k w -> Rabs (l2 w - l1 w) <= e * size n w) -> supports l2.
Proof.
  intros L1 S1. apply (supports_iff_grows l1 L1) in S1. destruct (grows_near n _ S1) as (e & E0 & G). destruct follow_size as (A & A0 & FA).
  exists (e / A). split; [apply Rdiv_lt_0_compat; assumption|]. intros l2 L2 H. apply (supports_iff_grows l2 L2).
  apply (G (energy_under l2) (l2 (follow c (fun _ => 0)) - l1 (follow c (fun _ => 0)))). intros y. unfold energy_under. specialize (H (follow k y) (follow_admissible b c k HV CB y)). specialize (FA y).
  rewrite (from_rest b c k HV CB l1 y L1), (from_rest b c k HV CB l2 y L2).
  assert (Q : e / A * size n (follow k y) <= e * size n y).
  { replace (e * size n y) with (e / A * (A * size n y)) by (field; lra). apply Rmult_le_compat_l; [apply Rlt_le, Rdiv_lt_0_compat; assumption|exact FA]. }
  pose proof (Rle_abs (l2 (follow k y) - l1 (follow k y))). lra.
Qed.
End Reference.

(** ** Other loads, macroscopic strains and time steps *)
Lemma against_macro d C M' M X A : ddot d A (c4 d C (madd M' X)) = ddot d A (c4 d C (madd M X)) + ddot d A (c4 d C (msub M' M)).
Proof.
  rewrite <- ddot_add_r. apply ddot_ext; [reflexivity|]. intros i j _ _. unfold madd at 2, c4. rewrite <- sumn_plus. apply sumn_ext. intros a _. rewrite <- sumn_plus. apply sumn_ext. intros q _. unfold madd, msub. ring.
Qed.
Lemma lin_strain_form b w c q i j : elastic_strain_of b (fun _ _ _ => 0) w c q i j =
  elastic_strain (cr_N (b_crystal b c) 0) (cr_P (b_crystal b c)) (strain_at (b_element b c) (local_values b w c) q) (slip_at (b_element b c) (local_values b w c) q) (cr_ns (b_crystal b c)) i j.
Proof.
  unfold elastic_strain_of. cbv zeta. rewrite Rplus_0_l. generalize (slip_at (b_element b c) (local_values b w c) q) as g. generalize (strain_at (b_element b c) (local_values b w c) q) as e. intros e g.
  induction (cr_ns (b_crystal b c)) as [|m IH]; cbn [elastic_strain sumn]; [ring|]. unfold msub at 1, mscal at 1. rewrite <- IH. ring.
Qed.
Lemma other_step_power b b' z h w : consistent b -> consistent b' -> b_decohesion b = false -> same_solid b b' ->
  virtual_power b' z z h w = virtual_power b z z h w + (load_work b' w - load_work b w) - strain_power b (fun c _ => msub (macro_of b' c) (macro_of b c)) w.
Proof.
  intros C C' D ((P1 & P2 & P3 & P4 & P5 & P6 & P7) & E1 & E2 & E3 & E4 & KC & KI).
  assert (D' : b_decohesion b' = false) by congruence.
  rewrite !virtual_power_parts. unfold load_work, strain_power. rewrite <- P2.
  rewrite <- lsum_minus, <- lsum_plus, <- lsum_minus. apply lsum_ext. intros c Hc.
  assert (Hc' : In c (b_cells b')) by (rewrite <- P2; exact Hc).
  assert (GN : gb_neighbours b' c = gb_neighbours b c) by (unfold gb_neighbours; rewrite P1, P6, E4; reflexivity).
  assert (LV : local_values b' = local_values b) by (unfold local_values; rewrite E1; reflexivity).
  assert (SP : lsum (side_power b' z h w c) (gb_neighbours b' c) = lsum (side_power b z h w c) (gb_neighbours b c)).
  { rewrite GN. apply lsum_ext. intros m Hm. rewrite (side_form b C D z h w c m Hc Hm), (side_form b' C' D' z h w c m Hc') by (rewrite GN; exact Hm).
    cbv zeta. unfold slip_side. rewrite LV, <- E2, <- E3, (KI c m).
    cbn [if_decohesion if_microtraction if_N if_dim if_ns if_exponent if_couple_macro if_couple_micro if_cohesive if_contact if_lambda if_chi if_dt if_moduli]. reflexivity. }
  rewrite SP. clear SP. cbv zeta. rewrite LV, <- E2. pose proof (KC c) as K. cbv zeta in K. set (k := b_crystal b c) in *. set (k' := b_crystal b' c) in *.
  pose proof (f_equal cr_dim K) as K1. pose proof (f_equal cr_ns K) as K2. pose proof (f_equal cr_N K) as K3. pose proof (f_equal cr_C K) as K4. pose proof (f_equal cr_P K) as K5.
  pose proof (f_equal cr_factor K) as K6. pose proof (f_equal cr_p K) as K7. pose proof (f_equal cr_dir K) as K8. pose proof (f_equal cr_ort K) as K9.
  cbn [cr_dim cr_ns cr_N cr_C cr_P cr_factor cr_p cr_dir cr_ort] in *. rewrite K1, K3.
  assert (G : - grain_power b' z z h w c + grain_power b z z h w c =
    sumn (el_nq (b_element b c)) (fun q => el_w (b_element b c) q * (cr_N k 3 / cr_N k 0 *
      dot (cr_dim k) (fun r => sumn (el_nd (b_element b c)) (fun i => local_values b w c i * el_phi (b_element b c) i q r)) (cr_supply k' q)))
    - sumn (el_nq (b_element b c)) (fun q => el_w (b_element b c) q * (cr_N k 3 / cr_N k 0 *
      dot (cr_dim k) (fun r => sumn (el_nd (b_element b c)) (fun i => local_values b w c i * el_phi (b_element b c) i q r)) (cr_supply k q)))
    - sumn (el_nq (b_element b c)) (fun q => el_w (b_element b c) q * (cr_N k 3 / cr_N k 0 *
      ddot (cr_dim k) (elastic_strain_of b (fun _ _ _ => 0) w c q) (c4 (cr_dim k) (cr_C k) (msub (macro_of b' c) (macro_of b c)))))).
  { unfold grain_power. cbv zeta. rewrite LV, <- E2. fold k k'. rewrite K1, K2, K3, K5, K6, K7, K8, K9. rewrite <- sumn_opp, <- sumn_plus, <- !sumn_minus. apply sumn_ext. intros q _.
    unfold stress_at. rewrite K1, K2, K3, K4, K5. unfold macro_of. fold k k'.
    rewrite (against_macro _ _ (cr_macro k') (cr_macro k)).
    match goal with |- context [ddot ?d (elastic_strain_of ?x ?y ?u ?v ?r) ?A] => rewrite (ddot_ext d (elastic_strain_of x y u v r) A
      (elastic_strain (cr_N k 0) (cr_P k) (strain_at (b_element b c) (local_values b w c) q) (slip_at (b_element b c) (local_values b w c) q) (cr_ns k)) A
      (fun i j _ _ => lin_strain_form b w c q i j) (fun _ _ _ _ => eq_refl)) end.
    rewrite (sumn_zero (cr_ns k) (fun a => _ * scalar_microstress (cr_law k') _ _ _ _)) by (intros; rewrite stress_at_rest; ring).
    rewrite (sumn_zero (cr_ns k) (fun a => _ * scalar_microstress (cr_law k) _ _ _ _)) by (intros; rewrite stress_at_rest; ring). ring. }
  match type of G with _ = ?u - ?v - ?t => set (U := u) in *; set (V := v) in *; set (W := t) in * end. clearbody U V W.
  set (L1 := lsum _ (b_loads b' c)). set (L2 := lsum _ (b_loads b c)). set (sp := lsum (side_power b z h w c) (gb_neighbours b c)). clearbody L1 L2 sp. lra.
Qed.
Lemma strain_power_plus b i1 i2 w : strain_power b (fun c q => madd (i1 c q) (i2 c q)) w = strain_power b i1 w + strain_power b i2 w.
Proof.
  unfold strain_power. rewrite <- lsum_plus. apply lsum_ext. intros c _. cbv zeta. rewrite <- sumn_plus. apply sumn_ext. intros q _. rewrite <- !Rmult_plus_distr_l. f_equal. f_equal. rewrite <- ddot_add_r.
  apply ddot_ext; [reflexivity|]. intros i j _ _. unfold madd at 2, c4. rewrite <- sumn_plus. apply sumn_ext. intros a _. rewrite <- sumn_plus. apply sumn_ext. intros m _. unfold madd. ring.
Qed.
Lemma same_solid_powers b b' inc s w : same_solid b b' -> strain_power b' inc w = strain_power b inc w /\ flow_power b' s w = flow_power b s w.
Proof.
  intros ((P1 & P2 & P3 & P4 & P5 & P6 & P7) & E1 & E2 & E3 & E4 & KC & KI).
  assert (LV : local_values b' = local_values b) by (unfold local_values; rewrite E1; reflexivity).
  split; [unfold strain_power|unfold flow_power]; rewrite <- P2; apply lsum_ext; intros c _; cbv zeta; unfold elastic_strain_of; cbv zeta; rewrite LV, <- E2, (KC c); cbn [cr_dim cr_ns cr_N cr_C cr_P]; reflexivity.
Qed.
Lemma same_solid_sym b b' : same_solid b b' -> same_solid b' b.
Proof.
  intros (P & E1 & E2 & E3 & E4 & KC & KI). split; [exact (same_points_sym _ _ P)|]. split; [auto|]. split; [auto|]. split; [auto|]. split; [auto|]. split.
  - intros c. pose proof (KC c) as K. cbv zeta in *. rewrite K. cbn [cr_dim cr_ns cr_N cr_C cr_P cr_law cr_factor cr_p cr_dir cr_ort cr_macro cr_supply cr_dt]. destruct (b_crystal b c). reflexivity.
  - intros c m. pose proof (KI c m) as K. cbv zeta in *. rewrite K. cbn. destruct (b_interface b c m). reflexivity.
Qed.
Lemma supports_agree b h k l l' : (forall w, SpecLinear.admissible (b_ndofs b) k w -> l' w = l w) -> supports b h k l -> supports b h k l'.
Proof. intros E (z & inc & s & A & B & Q). exists z, inc, s. split; [exact A|]. split; [exact B|]. intros w W. rewrite (E w W). exact (Q w W). Qed.
Lemma supported_is_supports b h k : loads_supported b h k <-> supports b h k (fun _ => 0).
Proof.
  split; intros (z & inc & s & A & B & Q); exists z, inc, s; (split; [exact A|]); (split; [exact B|]); intros w W; specialize (Q w W); lra.
Qed.
Definition other_loads (b b' : body) (w : vec) : R := load_work b' w - load_work b w.
Lemma supports_other b b' h k l : consistent b -> consistent b' -> b_decohesion b = false -> stable_material b (macro_of b) -> stable_material b' (macro_of b') -> same_solid b b' -> b_ndofs b' = b_ndofs b ->
  supports b' h k l -> supports b h k (fun w => other_loads b b' w + l w).
Proof.
  intros C C' D SM SM' SS N (z & inc & s & A & B & Q).
  assert (CR : forall c, cr_dim (b_crystal b' c) = cr_dim (b_crystal b c)) by (destruct SS as (_ & _ & _ & _ & _ & KC & _); intros c; rewrite (KC c); reflexivity).
  assert (CE : b_cells b' = b_cells b /\ b_nq b' = b_nq b /\ b_ns b' = b_ns b) by (destruct SS as ((P1 & P2 & P3 & P4 & P5 & P6 & P7) & _); auto). destruct CE as (CE1 & CE2 & CE3).
  exists z, (fun c q => madd (inc c q) (msub (macro_of b' c) (macro_of b c))), s. split; [|split].
  - intros c q Hc Hq. assert (Hc' : In c (b_cells b')) by (rewrite CE1; exact Hc).
    pose proof (A c q Hc') as Sy. rewrite CE2, CR in Sy. specialize (Sy Hq).
    destruct (SM c Hc) as (_ & _ & _ & _ & _ & _ & _ & _ & M1 & _). destruct (SM' c Hc') as (_ & _ & _ & _ & _ & _ & _ & _ & M2 & _). cbv zeta in *. rewrite CR in M2.
    intros i j Hi Hj. unfold madd, msub, macro_of. rewrite (Sy i j Hi Hj), (M1 i j Hi Hj), (M2 i j Hi Hj). reflexivity.
  - rewrite <- CE1, <- CE2, <- CE3. exact B.
  - intros w W. rewrite <- N in W. specialize (Q w W). rewrite (other_step_power b b' z h w C C' D SS) in Q. destruct (same_solid_powers b b' inc s w SS) as (F1 & F2). rewrite F1, F2 in Q.
    pose proof (strain_power_plus b inc (fun c _ => msub (macro_of b' c) (macro_of b c)) w) as PL. cbv beta in PL. rewrite PL. unfold other_loads. lra.
Qed.
(** The solvability of a step of the same solid, in terms of the reference body. *)
Lemma solvable_supports frames p0 b b' old h c c' k : same_but_loads frames p0 b b' c c' k -> ready b h -> (solvable b' old h c' k <-> supports b h k (other_loads b b')).
Proof.
  intros (SS & N & (C & T & D & SM & SI & SG & HV & CB & HP) & (C' & T' & D' & SM' & SI' & SG' & HV' & CB' & HP')) R.
  pose proof SS as (P & _ & _ & _ & M & _). destruct (ready_same b b' h P M R) as (I & SH & NL).
  rewrite (C111_solvable_iff_loads_carried b' frames p0 old h c' k C' T' D' SM' SI' I SH NL SG' HV' CB' HP'). split.
  - intros LC. apply carried_supported in LC. apply supported_is_supports in LC.
    apply (supports_agree b h k (fun w => other_loads b b' w + 0)); [intros; ring|]. apply supports_other; assumption.
  - intros S. pose proof (supports_other b' b h k (other_loads b b') C' C D' SM' SM (same_solid_sym _ _ SS) (eq_sym N) S) as Q.
    apply (C111_solvable_iff_loads_carried b' frames p0 old h c' k C' T' D' SM' SI' I SH NL SG' HV' CB' HP').
    assert (LS : loads_supported b' h k) by (apply supported_is_supports; apply (supports_agree b' h k (fun w => other_loads b' b w + other_loads b b' w)); [intros; unfold other_loads; ring|exact Q]).
    destruct LS as (z & inc & s & HI & HS & HZ). exact (carried_solution b' frames p0 old h C' T' D' SM' SI' I SH NL SG' c' k z inc s HI HV' CB' HP' HS HZ).
Qed.

(** ** Without loads every step is solvable *)
Lemma power_of_nothing b h w : consistent b -> b_decohesion b = false ->
  virtual_power b (fun _ => 0) (fun _ => 0) h w = load_work b w - strain_power b (fun c _ => macro_of b c) w.
Proof.
  intros C D. rewrite virtual_power_parts. unfold load_work, strain_power. rewrite <- lsum_minus. apply lsum_ext. intros c Hc.
  assert (SP : lsum (side_power b (fun _ => 0) h w c) (gb_neighbours b c) = 0).
  { apply lsum_zero. intros m Hm. rewrite (side_form b C D _ h w c m Hc Hm). cbv zeta. apply sumn_zero. intros q _.
    rewrite (sumn_zero (if_ns (b_interface b c m))); [destruct (if_microtraction _); ring|]. intros a _. unfold slip_side. cbv zeta. unfold microtraction. rewrite (sumn_zero (if_ns (b_interface b c m)) (fun _ => _ - _)); [ring|].
    intros s _. unfold local_values. rewrite !sumn_zero by (intros; ring). ring. }
  rewrite SP. cbv zeta. set (k := b_crystal b c).
  assert (G : grain_power b (fun _ => 0) (fun _ => 0) h w c = sumn (el_nq (b_element b c)) (fun q => el_w (b_element b c) q * (cr_N k 3 / cr_N k 0 *
      ddot (cr_dim k) (elastic_strain_of b (fun _ _ _ => 0) w c q) (c4 (cr_dim k) (cr_C k) (macro_of b c))))
    - sumn (el_nq (b_element b c)) (fun q => el_w (b_element b c) q * (cr_N k 3 / cr_N k 0 *
      dot (cr_dim k) (fun r => sumn (el_nd (b_element b c)) (fun i => local_values b w c i * el_phi (b_element b c) i q r)) (cr_supply k q)))).
  { unfold grain_power. cbv zeta. fold k. rewrite <- sumn_minus. apply sumn_ext. intros q _.
    match goal with |- context [ddot ?d (elastic_strain_of ?x ?y ?u ?v ?r) ?A] => rewrite (ddot_ext d (elastic_strain_of x y u v r) A
      (elastic_strain (cr_N k 0) (cr_P k) (strain_at (b_element b c) (local_values b w c) q) (slip_at (b_element b c) (local_values b w c) q) (cr_ns k)) A
      (fun i j _ _ => lin_strain_form b w c q i j) (fun _ _ _ _ => eq_refl)) end.
    rewrite (sumn_zero (cr_ns k) (fun a => _ * scalar_microstress (cr_law k) _ _ _ _)) by (intros; rewrite stress_at_rest; ring).
    rewrite (sumn_zero (cr_ns k) (fun a => dot _ _ _)).
    - rewrite (ddot_ext (cr_dim k) _ (stress_at k (b_element b c) (local_values b (fun _ => 0) c) q)
        (elastic_strain (cr_N k 0) (cr_P k) (strain_at (b_element b c) (local_values b w c) q) (slip_at (b_element b c) (local_values b w c) q) (cr_ns k)) (c4 (cr_dim k) (cr_C k) (macro_of b c))); [ring|reflexivity|].
      intros i j _ _. unfold stress_at, c4. apply sumn_ext. intros r _. apply sumn_ext. intros s _. f_equal. unfold madd, macro_of. fold k.
      pose proof (lin_strain_form b (fun _ => 0) c q r s) as Z. fold k in Z. rewrite <- Z. unfold elastic_strain_of, strain_at, slip_at, local_values. cbv zeta. rewrite !sumn_zero; [ring| |]; intros; [rewrite sumn_zero by (intros; ring); ring|ring].
    - intros a _. destruct C as (_ & _ & C1 & _). destruct (C1 c Hc) as (_ & _ & _ & _ & P2 & _). fold k in P2. unfold dot. apply sumn_zero. intros r _. rewrite (microstress_fin _ _ _ _ _ _ _ P2). cbn [val].
      assert (Z : vm (cr_factor k) (cr_p k) (cr_dim k) (cr_dir k a) (cr_ort k a) (slip_gradient_at (b_element b c) (local_values b (fun _ => 0) c) q a) r = 0); [|rewrite Z; ring].
      assert (DZ : forall v, dot (cr_dim k) v (slip_gradient_at (b_element b c) (local_values b (fun _ => 0) c) q a) = 0).
      { intros v. unfold dot. apply sumn_zero. intros i _. unfold slip_gradient_at, local_values. rewrite sumn_zero by (intros; ring). ring. }
      unfold vm. rewrite !DZ. unfold phi. ring. }
  rewrite G. set (L := lsum _ (b_loads b c)). clearbody L. lra.
Qed.
Lemma nothing_supported b h k : consistent b -> b_decohesion b = false -> stable_material b (macro_of b) -> sound_histories b h -> strict_grains b -> supports b h k (fun w => - load_work b w).
Proof.
  intros C D SM SH SG. exists (fun _ => 0), (fun c _ => mscal (-1) (macro_of b c)), (fun _ _ _ => 0). split; [|split].
  - intros c q Hc _. destruct (SM c Hc) as (_ & _ & _ & _ & _ & _ & _ & _ & M1 & _). cbv zeta in M1. intros i j Hi Hj. unfold mscal, macro_of. rewrite (M1 i j Hi Hj). reflexivity.
  - intros c q a Hc Hq Ha. left. rewrite Rabs_R0. destruct (system_data b h SM SH SG c q a Hc Hq Ha) as (A1 & A2 & A3 & A4 & A5). exact A4.
  - intros w _. rewrite (power_of_nothing b h w C D).
    assert (F : flow_power b (fun _ _ _ => 0) w = 0). { unfold flow_power. apply lsum_zero. intros c _. cbv zeta. apply sumn_zero. intros q _. rewrite sumn_zero by (intros; ring). ring. }
    pose proof (strain_power_plus b (fun c _ => mscal (-1) (macro_of b c)) (fun c _ => macro_of b c) w) as PL. cbv beta in PL.
    assert (Z : strain_power b (fun c _ => madd (mscal (-1) (macro_of b c)) (macro_of b c)) w = 0).
    { rewrite <- (strain_power_zero b w). unfold strain_power. apply lsum_ext. intros c _. cbv zeta. apply sumn_ext. intros q _. f_equal. f_equal. apply ddot_ext; [reflexivity|]. intros i j _ _. unfold c4. apply sumn_ext. intros r _. apply sumn_ext. intros s _. f_equal. unfold madd, mscal. ring. }
    lra.
Qed.

(** ** The theorems *)
Lemma same_solid_refl b : same_solid b b.
Proof.
  split; [repeat split|]. repeat (split; [reflexivity|]). split; [intros c; cbv zeta; destruct (b_crystal b c); reflexivity|intros c m; cbv zeta; destruct (b_interface b c m); reflexivity].
Qed.
Lemma same_refl frames p0 b c k : stable_step frames p0 b c k -> same_but_loads frames p0 b b c c k.
Proof. intros ST. split; [apply same_solid_refl|]. split; [reflexivity|]. split; exact ST. Qed.
Lemma reference_supports frames p0 b old h c k : stable_step frames p0 b c k -> ready b h -> (solvable b old h c k <-> supports b h k (fun _ => 0)).
Proof.
  intros ST R. rewrite (solvable_supports frames p0 b b old h c c k (same_refl _ _ _ _ _ ST) R). split; apply supports_agree; intros; unfold other_loads; ring.
Qed.
Lemma lin_other b b' : consistent b -> consistent b' -> b_ndofs b' = b_ndofs b -> linear_on (b_ndofs b) (other_loads b b').
Proof. intros C C' N. apply lin_minus; [rewrite <- N; apply lin_loads, C'|apply lin_loads, C]. Qed.
Ltac parts ST := destruct ST as (C & T & D & SM & SI & SG & HV & CB & HP).
Lemma mean_supported frames p0 b h c k l1 l2 l3 t : stable_step frames p0 b c k -> ready b h -> 0 <= t <= 1 -> linear_on (b_ndofs b) l1 -> linear_on (b_ndofs b) l2 ->
  (forall w, SpecLinear.admissible (b_ndofs b) k w -> l3 w = t * l1 w + (1 - t) * l2 w) -> supports b h k l1 -> supports b h k l2 -> supports b h k l3.
Proof.
  intros (C & T & D & SM & SI & SG & HV & CB & HP) (I & SH & NL) HT L1 L2 E S1 S2. apply (supports_agree b h k (fun w => t * l1 w + (1 - t) * l2 w) l3 E).
  apply (supports_mean b frames p0 (fun _ => 0) h c k C T D SM SI I SH NL SG HV CB HP l1 l2 _ t HT L1 L2); [apply lin_plus; apply lin_scal; assumption|reflexivity|exact S1|exact S2].
Qed.
(** The loads need only be balanced by some stresses, not by those of displacements. *)
Theorem C112_any_equilibrium_stresses : forall b frames p0 old h c k, stable_step frames p0 b c k ->
  initialised b h -> sound_histories b h -> no_latent_hardening b h -> (solvable b old h c k <-> loads_supported b h k).
Proof.
  intros b frames p0 old h c k ST I SH NL. rewrite (reference_supports frames p0 b old h c k ST (conj I (conj SH NL))). symmetry. apply supported_is_supports.
Qed.
Print Assumptions C112_any_equilibrium_stresses.
(** Steps under the same loads are solvable together, whatever their macroscopic strains, prescribed values and time steps. *)
Theorem C112_same_loads : forall frames p0 b b' old old' h c c' k, same_but_loads frames p0 b b' c c' k ->
  initialised b h -> sound_histories b h -> no_latent_hardening b h ->
  (forall w, SpecLinear.admissible (b_ndofs b) k w -> load_work b' w = load_work b w) -> (solvable b old h c k <-> solvable b' old' h c' k).
Proof.
  intros frames p0 b b' old old' h c c' k SB I SH NL E. pose proof SB as (_ & _ & ST & _). assert (R : ready b h) by (split; [|split]; assumption).
  rewrite (reference_supports frames p0 b old h c k ST R), (solvable_supports frames p0 b b' old' h c c' k SB R).
  split; apply supports_agree; intros w W; unfold other_loads; rewrite (E w W); ring.
Qed.
Print Assumptions C112_same_loads.
(** Loads that a body can carry separately it can carry in any proportion. *)
Theorem C112_convex : forall frames p0 b b1 b2 old old1 old2 h c c1 c2 k t, same_but_loads frames p0 b b1 c c1 k -> same_but_loads frames p0 b b2 c c2 k ->
  initialised b h -> sound_histories b h -> no_latent_hardening b h -> 0 <= t <= 1 ->
  (forall w, SpecLinear.admissible (b_ndofs b) k w -> load_work b w = t * load_work b1 w + (1 - t) * load_work b2 w) ->
  solvable b1 old1 h c1 k -> solvable b2 old2 h c2 k -> solvable b old h c k.
Proof.
  intros frames p0 b b1 b2 old old1 old2 h c c1 c2 k t B1 B2 I SH NL HT E S1 S2. assert (R : ready b h) by (split; [|split]; assumption).
  pose proof B1 as (_ & N1 & ST & (C1 & _)). pose proof B2 as (_ & N2 & _ & (C2 & _)). pose proof ST as (C & _).
  apply (solvable_supports frames p0 b b1 old1 h c c1 k B1 R) in S1. apply (solvable_supports frames p0 b b2 old2 h c c2 k B2 R) in S2.
  apply (reference_supports frames p0 b old h c k ST R).
  apply (mean_supported frames p0 b h c k (other_loads b b1) (other_loads b b2) _ t ST R HT (lin_other b b1 C C1 N1) (lin_other b b2 C C2 N2)); [|exact S1|exact S2].
  intros w W. unfold other_loads. rewrite (E w W). ring.
Qed.
Print Assumptions C112_convex.
(** Without loads every step has a solution. *)
Theorem C112_no_loads : forall frames p0 b old h c k, stable_step frames p0 b c k -> initialised b h -> sound_histories b h -> no_latent_hardening b h ->
  (forall w, SpecLinear.admissible (b_ndofs b) k w -> load_work b w = 0) -> solvable b old h c k.
Proof.
  intros frames p0 b old h c k ST I SH NL E. assert (R : ready b h) by (split; [|split]; assumption). apply (reference_supports frames p0 b old h c k ST R).
  parts ST. apply (supports_agree b h k (fun w => - load_work b w)); [intros w W; rewrite (E w W); ring|]. apply nothing_supported; assumption.
Qed.
Print Assumptions C112_no_loads.
Lemma size_bound n l : linear_on n l -> exists A, 0 < A /\ forall w, Rabs (l w) <= A * size n w.
Proof.
  intros L. exists (sumn n (fun d => Rabs (l (unit_at d))) + 1). assert (S0 : 0 <= sumn n (fun d => Rabs (l (unit_at d)))) by (apply sumn_nonneg; intros; apply Rabs_pos). split; [lra|]. intros w. pose proof (size_nonneg n w) as N0.
  rewrite (linear_expansion n l w L). eapply Rle_trans; [apply sumn_abs|]. apply Rle_trans with (sumn n (fun d => Rabs (l (unit_at d))) * size n w); [|nra].
  rewrite <- sumn_scal_r. apply sumn_le. intros d Hd. rewrite Rabs_mult, Rmult_comm. apply Rmult_le_compat_l; [apply Rabs_pos|apply size_ge, Hd].
Qed.
(** Loads that can be carried leave a margin: all loads that differ little from them can be carried as well. *)
Theorem C112_margin : forall frames p0 b old h c k, stable_step frames p0 b c k -> initialised b h -> sound_histories b h -> no_latent_hardening b h -> solvable b old h c k ->
  exists e, 0 < e /\ forall b' old' c', same_but_loads frames p0 b b' c c' k ->
    (forall w, SpecLinear.admissible (b_ndofs b) k w -> Rabs (load_work b' w - load_work b w) <= e * total_motion b w) -> solvable b' old' h c' k.
Proof.
  intros frames p0 b old h c k ST I SH NL S. assert (R : ready b h) by (split; [|split]; assumption). apply (reference_supports frames p0 b old h c k ST R) in S.
  parts ST. destruct (supports_near b frames p0 old h c k C T D SM SI I SH NL SG HV CB HP (fun _ => 0) (lin_zero _) S) as (e & E0 & Q).
  exists e. split; [exact E0|]. intros b' old' c' SB H. apply (solvable_supports frames p0 b b' old' h c c' k SB R). pose proof SB as (_ & N & _ & (C' & _)).
  apply (Q (other_loads b b') (lin_other b b' C C' N)). intros w W. rewrite Rminus_0_r. exact (H w W).
Qed.
Print Assumptions C112_margin.
(** Multiples of the loads of a body can be carried up to a limit. *)
Lemma multiple_limit frames p0 b h c k : stable_step frames p0 b c k -> ready b h ->
  let can t := supports b h k (fun w => (t - 1) * load_work b w) in
  (forall t, 0 <= t -> can t) \/ exists limit, 0 < limit /\ forall t, 0 <= t -> (can t <-> t < limit).
Proof.
  intros ST R can. pose proof R as (I & SH & NL). pose proof ST as (C & T & D & SM & SI & SG & HV & CB & HP). pose proof (lin_loads b C) as LL.
  assert (LC : forall t, linear_on (b_ndofs b) (fun w => (t - 1) * load_work b w)) by (intros; apply lin_scal, LL).
  assert (Z : can 0) by (unfold can; apply (supports_agree b h k (fun w => - load_work b w)); [intros; ring|apply nothing_supported; assumption]).
  assert (DC : forall s t, 0 <= t <= s -> can s -> can t).
  { intros s t Ht S. destruct (Req_dec s 0) as [->|Ne]; [replace t with 0 by lra; exact Z|].
    apply (mean_supported frames p0 b h c k (fun w => (s - 1) * load_work b w) (fun w => (0 - 1) * load_work b w) _ (t / s) ST R); [|apply LC|apply LC| |exact S|exact Z].
    - split; [apply Rmult_le_pos; [lra|apply Rlt_le, Rinv_0_lt_compat; lra]|]. apply (Rmult_le_reg_r s); [lra|]. unfold Rdiv. rewrite Rmult_assoc, Rinv_l by lra. lra.
    - intros w _. field. lra. }
  assert (OP : forall t, can t -> exists e, 0 < e /\ can (t + e)).
  { intros t S. destruct (supports_near b frames p0 (fun _ => 0) h c k C T D SM SI I SH NL SG HV CB HP _ (LC t) S) as (e & E0 & Q). destruct (size_bound _ _ LL) as (A & A0 & B).
    exists (e / A). split; [apply Rdiv_lt_0_compat; assumption|]. apply (Q _ (LC (t + e / A))). intros w _.
    replace ((t + e / A - 1) * load_work b w - (t - 1) * load_work b w) with (e / A * load_work b w) by ring. assert (P : 0 < e / A) by (apply Rdiv_lt_0_compat; assumption). rewrite Rabs_mult, (Rabs_pos_eq (e / A)) by lra.
    replace (e * size (b_ndofs b) w) with (e / A * (A * size (b_ndofs b) w)) by (field; lra). apply Rmult_le_compat_l; [lra|apply B]. }
  destruct (classic (forall t, 0 <= t -> can t)) as [All|NA]; [left; exact All|right].
  destruct (not_all_ex_not _ _ NA) as (t1 & N1). apply imply_to_and in N1. destruct N1 as (P1 & N1).
  destruct (completeness (fun t => 0 <= t /\ can t)) as (limit & UB & LUB).
  { exists t1. intros t (P & S). apply Rnot_lt_le. intros G. apply N1, (DC t t1); [lra|exact S]. }
  { exists 0. split; [lra|exact Z]. }
  assert (NL' : ~ can limit). { intros S. destruct (OP limit S) as (e & E0 & S'). assert (P : 0 <= limit) by (apply UB; split; [lra|exact Z]). assert (Q : limit + e <= limit) by (apply UB; split; [lra|exact S']). lra. }
  assert (L0 : 0 < limit). { destruct (OP 0 Z) as (e & E0 & S'). assert (Q : 0 + e <= limit) by (apply UB; split; [lra|exact S']). lra. }
  exists limit. split; [exact L0|]. intros t P. split.
  - intros S. destruct (UB t (conj P S)) as [L|E]; [exact L|]. exfalso. apply NL'. rewrite <- E. exact S.
  - intros L. apply NNPP. intros N. assert (Q : is_upper_bound (fun t => 0 <= t /\ can t) t).
    { intros s (Ps & Ss). apply Rnot_lt_le. intros G. apply N, (DC s t); [lra|exact Ss]. }
    pose proof (LUB t Q). lra.
Qed.
Lemma multiple_solvable frames p0 b b' old' h c c' k t : same_but_loads frames p0 b b' c c' k -> ready b h ->
  (forall w, SpecLinear.admissible (b_ndofs b) k w -> load_work b' w = t * load_work b w) -> (solvable b' old' h c' k <-> supports b h k (fun w => (t - 1) * load_work b w)).
Proof.
  intros SB R E. rewrite (solvable_supports frames p0 b b' old' h c c' k SB R). split; apply supports_agree; intros w W; unfold other_loads; rewrite (E w W); ring.
Qed.
Theorem C112_limit_load : forall frames p0 b h c k, stable_step frames p0 b c k -> initialised b h -> sound_histories b h -> no_latent_hardening b h ->
  let multiple t b' c' := 0 <= t /\ same_but_loads frames p0 b b' c c' k /\ forall w, SpecLinear.admissible (b_ndofs b) k w -> load_work b' w = t * load_work b w in
  (forall t b' c' old', multiple t b' c' -> solvable b' old' h c' k) \/
  exists limit, 0 < limit /\ forall t b' c' old', multiple t b' c' -> (solvable b' old' h c' k <-> t < limit).
Proof.
  intros frames p0 b h c k ST I SH NL multiple. assert (R : ready b h) by (split; [|split]; assumption).
  destruct (multiple_limit frames p0 b h c k ST R) as [All|(limit & L0 & H)]; [left|right; exists limit; split; [exact L0|]]; intros t b' c' old' (P & SB & E).
  - apply (multiple_solvable frames p0 b b' old' h c c' k t SB R E). apply All, P.
  - rewrite (multiple_solvable frames p0 b b' old' h c c' k t SB R E). apply H, P.
Qed.
Print Assumptions C112_limit_load.
(** A programme of loads proportional to those of [b] can be followed to its end exactly if it stays below the limit
    of a single step from the start. *)
Theorem C112_limit_load_of_histories : forall frames p0 b h0 c0 k, stable_step frames p0 b c0 k -> initialised b h0 -> sound_histories b h0 -> no_latent_hardening b h0 ->
  let programme (t : nat -> R) (bodies : nat -> body) (c : nat -> constraints) := forall i, 0 <= t i /\ same_but_loads frames p0 b (bodies i) c0 (c i) k /\
    forall w, SpecLinear.admissible (b_ndofs b) k w -> load_work (bodies i) w = t i * load_work b w in
  let followed n bodies c x0 := exists X H, X 0%nat = x0 /\ H 0%nat = h0 /\ exact_history n bodies c (fun _ => k) X H in
  (forall n t bodies c x0, programme t bodies c -> followed n bodies c x0) \/
  exists limit, 0 < limit /\ (forall t b' c' old', 0 <= t -> same_but_loads frames p0 b b' c0 c' k ->
      (forall w, SpecLinear.admissible (b_ndofs b) k w -> load_work b' w = t * load_work b w) -> (solvable b' old' h0 c' k <-> t < limit)) /\
    forall n t bodies c x0, programme t bodies c -> (followed n bodies c x0 <-> forall i, (i < n)%nat -> t i < limit).
Proof.
  intros frames p0 b h0 c0 k ST I SH NL programme followed. assert (R : ready b h0) by (split; [|split]; assumption).
  assert (F : forall n t bodies c x0, programme t bodies c -> (followed n bodies c x0 <-> forall i, (i < n)%nat -> supports b h0 k (fun w => (t i - 1) * load_work b w))).
  { intros n t bodies c x0 P. unfold followed. rewrite (C111_whole_histories b frames p0 bodies c (fun _ => k) x0 h0 n).
    - assert (Q : forall i, loads_carried (bodies i) h0 k <-> supports b h0 k (fun w => (t i - 1) * load_work b w)).
      { intros i. destruct (P i) as (_ & SB & E). rewrite <- (multiple_solvable frames p0 b (bodies i) (fun _ => 0) h0 c0 (c i) k (t i) SB R E).
        destruct SB as (SS & N & _ & (C & T & D & SM & SI & SG & HV & CB & HP)). pose proof SS as (SP & _ & _ & _ & M & _). destruct (ready_same _ _ _ SP M R) as (I' & SH' & NL').
        symmetry. exact (C111_solvable_iff_loads_carried (bodies i) frames p0 (fun _ => 0) h0 (c i) k C T D SM SI I' SH' NL' SG HV CB HP). }
      split; intros H i Hi; apply Q, H, Hi.
    - intros i. apply P.
    - intros i. destruct (P i) as (_ & (SS & N & _) & _). pose proof SS as (SP & DD & _ & _ & M & _). auto.
    - exact I.
    - exact SH.
    - exact NL. }
  destruct (multiple_limit frames p0 b h0 c0 k ST R) as [All|(limit & L0 & H)]; [left|right; exists limit; split; [exact L0|split]].
  - intros n t bodies c x0 P. apply (F n t bodies c x0 P). intros i _. apply All, P.
  - intros t b' c' old' P SB E. rewrite (multiple_solvable frames p0 b b' old' h0 c0 c' k t SB R E). apply H, P.
  - intros n t bodies c x0 P. rewrite (F n t bodies c x0 P). split; intros Q i Hi; apply (H (t i)); try apply Q; try apply P; exact Hi.
Qed.
Print Assumptions C112_limit_load_of_histories.
