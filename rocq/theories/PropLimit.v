(** * C111: a step has a solution exactly when its loads can be carried. *)
From Coq Require Import FunctionalExtensionality.
From Verif Require Import Num ModelShear SpecShear ModelProgram SpecProgram PropProgram SumLemmas Tensors TensorLemmas ModelUtilities ModelElastic SpecElastic ProofElastic ModelMicro SpecMicro ProofMicro PropMicro
  ModelCohesive SpecCohesive ProofCohesive ModelHistory SpecHistory ModelInterface SpecInterface
  ModelFEField ModelActiveSet ModelLinear SpecLinear PropLinear ModelAssembly SpecAssembly ProofAssembly ProofFace
  ModelSolver ModelSweep SpecSweep PropSweep ModelStep SpecStep ProofStep PropStep ModelBody SpecBody PropBody SpecTangent SpecRun PropRun
  SpecEnergy ProofEnergy PropEnergy SpecStiffness SpecUnique PropUnique ProofMinimum ProofBound ProofPotential SpecExistence PropExistence ProofSaturation SpecLimit.
Open Scope R_scope.

(** ** Saturation: every stress below the resistance is that of some slip rate *)
Theorem C111_flow_stresses_are_reached : forall l old g dt s, 0 < dt -> 0 < sl_k l -> 0 < g -> sl_rate_independent l = false ->
  (Rabs s < g <-> exists slip, scalar_microstress l slip old g dt = s).
Proof.
  intros l old g dt s DT K G V. split; [|intros (x & <-); apply C25_bounded; assumption]. intros L.
  set (m := fun x => scalar_microstress l x old g dt - s).
  assert (T : forall x, trial_stress l old g 0 dt x = scalar_microstress l x old g dt) by (intros x; unfold trial_stress; rewrite Rmult_0_l, Rplus_0_r; reflexivity).
  assert (CT : continuity m).
  { apply (continuity_minus (fun x => scalar_microstress l x old g dt) (fun _ => s)); [|apply continuity_const; intros ? ?; reflexivity].
    intros x. pose proof (trial_continuous l old g 0 dt V K x) as Q.
    replace (fun x => scalar_microstress l x old g dt) with (trial_stress l old g 0 dt) by (apply functional_extensionality; exact T). exact Q. }
  destruct (rate_reaches l ((Rabs s + g) / 2 / g) K) as (r & R0 & H).
  { pose proof (Rabs_pos s). split; [apply Rmult_le_pos; [lra|apply Rlt_le, Rinv_0_lt_compat, G]|]. apply (Rmult_lt_reg_r g); [exact G|]. unfold Rdiv at 1. rewrite Rmult_assoc, Rinv_l, Rmult_1_r by lra. lra. }
  set (t := r * dt). assert (HT : 0 < t) by (apply Rmult_lt_0_compat; assumption).
  assert (U : Rabs s < scalar_microstress l (old + t) old g dt).
  { unfold scalar_microstress. rewrite V. replace ((old + t - old) / dt) with r by (unfold t; field; lra).
    apply Rlt_le_trans with (g * ((Rabs s + g) / 2 / g)); [|apply Rmult_le_compat_l; lra]. replace (g * ((Rabs s + g) / 2 / g)) with ((Rabs s + g) / 2) by (field; lra). lra. }
  pose proof (C25_odd l t old g dt) as O. pose proof (Rle_abs s). assert (- Rabs s <= s) by (pose proof (Rle_abs (- s)); rewrite Rabs_Ropp in *; lra).
  destruct (IVT m (old - t) (old + t) CT) as (x & _ & X); [lra|unfold m; rewrite O; lra|unfold m; lra|].
  exists x. unfold m in X. lra.
Qed.
Print Assumptions C111_flow_stresses_are_reached.

(** ** Powers of a state at rest *)
Definition no_resistance (r : rank_data) : rank_data := mk_rank_data (fun c q => mk_qph false 0 (prm (r_bulk r c q)) (char_res (r_bulk r c q)) [] []) (r_face r).
Lemma no_resistance_zero r c q a : resistances_of (no_resistance r) c q a = 0.
Proof. unfold resistances_of, no_resistance. cbn. destruct a; reflexivity. Qed.
Lemma stress_without_resistance l s o dt : scalar_microstress l s o 0 dt = 0.
Proof. unfold scalar_microstress. destruct (sl_rate_independent l); ring. Qed.
Lemma stress_at_rest l s g dt : scalar_microstress l s s g dt = 0.
Proof. pose proof (C25_odd l 0 s g dt) as E. rewrite Rminus_0_r, Rplus_0_r in E. lra. Qed.
Lemma power_flows b o x r w : virtual_power b o x r w = virtual_power b x x (no_resistance r) w - slip_work b o x w r.
Proof.
  rewrite !virtual_power_parts. unfold slip_work. rewrite <- lsum_minus. apply lsum_ext. intros c _. cbv zeta.
  change (side_power b x (no_resistance r) w c) with (side_power b x r w c).
  match goal with |- - ?g + ?s + ?l = - ?g' + ?s + ?l - ?z => enough (g = g' + z) by lra end.
  unfold grain_power. cbv zeta.  rewrite <- sumn_plus. apply sumn_ext. intros q _. rewrite <- Rmult_plus_distr_l. f_equal.
  match goal with |- _ + ?z = _ + ?z' + ?u => enough (z = z' + u) by lra end. rewrite <- sumn_plus. apply sumn_ext. intros a _. rewrite stress_at_rest. unfold resistances_of. ring.
Qed.
Lemma power_at_rest b z h w : virtual_power b z z h w = virtual_power b z z (no_resistance h) w.
Proof.
  rewrite power_flows. assert (Z : slip_work b z z w h = 0); [|lra]. unfold slip_work. apply lsum_zero. intros c _. cbv zeta. apply sumn_zero. intros q _.
  rewrite sumn_zero; [ring|]. intros a _. rewrite stress_at_rest. ring.
Qed.
Lemma old_without_resistance b o o' x r w : virtual_power b o x (no_resistance r) w = virtual_power b o' x (no_resistance r) w.
Proof.
  assert (Z : forall o, slip_work b o x w (no_resistance r) = 0).
  { intros u. unfold slip_work. apply lsum_zero. intros c _. cbv zeta. apply sumn_zero. intros q _. rewrite sumn_zero; [ring|]. intros a _.
    rewrite no_resistance_zero, stress_without_resistance. ring. }
  rewrite (power_flows b o), (power_flows b o'), !Z. reflexivity.
Qed.

(** ** Sums of functions that are bounded below *)
Definition below {A} (f : A -> R) : Prop := exists B, forall y, - B <= f y.
Lemma below_plus {A} (f g : A -> R) : below f -> below g -> below (fun y => f y + g y).
Proof. intros (B & F) (B' & G). exists (B + B'). intros y. specialize (F y). specialize (G y). lra. Qed.
Lemma below_scal {A} a (f : A -> R) : 0 <= a -> below f -> below (fun y => a * f y).
Proof. intros A0 (B & F). exists (a * B). intros y. specialize (F y). nra. Qed.
Lemma below_sumn {A} n (f : nat -> A -> R) : (forall i, (i < n)%nat -> below (f i)) -> below (fun y => sumn n (fun i => f i y)).
Proof. intros H. induction n as [|n IH]; cbn [sumn]; [exists 0; intros; lra|]. apply below_plus; [apply IH; intros; apply H; lia|apply H; lia]. Qed.
Lemma below_lsum {A J} (l : list J) (f : J -> A -> R) : (forall i, In i l -> below (f i)) -> below (fun y => lsum (fun i => f i y) l).
Proof. intros H. induction l as [|i l IH]; cbn [lsum]; [exists 0; intros; lra|]. apply below_plus; [apply H; left; reflexivity|apply IH; intros; apply H; right; assumption]. Qed.
Lemma one_of_sumn {A} n (f : nat -> A -> R) j : (j < n)%nat -> (forall i, (i < n)%nat -> below (f i)) -> exists B, forall y, f j y - B <= sumn n (fun i => f i y).
Proof.
  intros Hj H. induction n as [|n IH]; [lia|]. cbn [sumn]. destruct (Nat.eq_dec j n) as [->|Ne].
  - destruct (below_sumn n f (fun i Hi => H i (Nat.lt_lt_succ_r _ _ Hi))) as (B & HB). exists B. intros y. specialize (HB y). lra.
  - destruct IH as (B & HB); [lia|intros; apply H; lia|]. destruct (H n (Nat.lt_succ_diag_r n)) as (B' & HB'). exists (B + B'). intros y. specialize (HB y). specialize (HB' y). lra.
Qed.
Lemma one_of_lsum {A J} (l : list J) (f : J -> A -> R) j : In j l -> (forall i, In i l -> below (f i)) -> exists B, forall y, f j y - B <= lsum (fun i => f i y) l.
Proof.
  intros Hj H. induction l as [|i l IH]; [destruct Hj|]. cbn [lsum]. destruct Hj as [->|Hj].
  - destruct (below_lsum l f (fun i Hi => H i (or_intror Hi))) as (B & HB). exists B. intros y. specialize (HB y). lra.
  - destruct (IH Hj (fun i Hi => H i (or_intror Hi))) as (B & HB). destruct (H i (or_introl eq_refl)) as (B' & HB'). exists (B + B'). intros y. specialize (HB y). specialize (HB' y). lra.
Qed.
Lemma quadratic_dominates d C4 g kappa : 0 < kappa -> major_symmetric d C4 -> (forall A, symmetric d A -> 0 <= ddot d A (c4 d C4 A)) -> symmetric d g ->
  exists z, forall e, symmetric d e -> Rabs (ddot d e (c4 d C4 g)) - z <= kappa * ddot d e (c4 d C4 e).
Proof.
  intros K MJ PSD Sg. set (gg := ddot d g (c4 d C4 g)). exists (kappa * ((1 / (2 * kappa)) * (1 / (2 * kappa)) * gg)). intros e Se. set (t := ddot d e (c4 d C4 g)). set (ee := ddot d e (c4 d C4 e)).
  assert (Q : forall r, r * t - 1/2 * (r * r * gg) <= 1/2 * ee).
  { intros r. assert (Sr : symmetric d (mscal r g)) by (intros i j Hi Hj; unfold mscal; rewrite (Sg i j Hi Hj); reflexivity).
    pose proof (elastic_convex d C4 (mscal r g) e MJ PSD Sr Se) as Q.
    assert (E1 : ddot d (mscal r g) (c4 d C4 (mscal r g)) = r * r * gg).
    { rewrite ddot_scal_l. rewrite (ddot_ext d g _ g (mscal r (c4 d C4 g))); [|reflexivity|intros; unfold mscal at 2; apply c4_scal]. rewrite ddot_scal_r. unfold gg. ring. }
    assert (E2 : ddot d (msub (mscal r g) e) (c4 d C4 (mscal r g)) = r * r * gg - r * t).
    { rewrite <- E1. unfold t. rewrite <- ddot_scal_r. rewrite (ddot_ext d e (mscal r (c4 d C4 g)) e (c4 d C4 (mscal r g))); [|reflexivity|intros; unfold mscal at 1; symmetry; apply c4_scal].
      unfold ddot. rewrite <- sumn_minus. apply sumn_ext. intros i _. rewrite <- sumn_minus. apply sumn_ext. intros j _. unfold msub. ring. }
    rewrite E1, E2 in Q. fold ee in Q. lra. }
  assert (Q2 : forall r, 2 * kappa * (r * t) - kappa * (r * r * gg) <= kappa * ee) by (intros r; specialize (Q r); nra).
  destruct (Rle_dec 0 t) as [P|P].
  - rewrite (Rabs_pos_eq t P). specialize (Q2 (1 / (2 * kappa))). replace (2 * kappa * (1 / (2 * kappa) * t)) with t in Q2 by (field; lra). exact Q2.
  - rewrite (Rabs_left t) by lra. specialize (Q2 (- (1 / (2 * kappa)))). replace (2 * kappa * (- (1 / (2 * kappa)) * t)) with (- t) in Q2 by (field; lra).
    replace (- (1 / (2 * kappa)) * - (1 / (2 * kappa)) * gg) with (1 / (2 * kappa) * (1 / (2 * kappa)) * gg) in Q2 by ring. exact Q2.
Qed.

Section Limit.
Variables (b : body) (frames : nat -> frame) (p0 : interface) (old : vec) (h : rank_data).
Hypothesis C : consistent b.
Hypothesis T : two_sided b.
Hypothesis D : b_decohesion b = false.
Hypothesis SM : stable_material b (macro_of b).
Hypothesis SI : stable_interfaces b frames p0.
Hypothesis I : initialised b h.
Hypothesis SH : sound_histories b h.
Hypothesis NL : no_latent_hardening b h.
Hypothesis SG : strict_grains b.
(** Power the state stresses and loads of [x] leave on [w]. *)
Definition state_power (x w : vec) : R := virtual_power b old x (no_resistance h) w.
Definition potential_energy (x : vec) : R := stored b frames h x - load_work b x.
Lemma state_at_rest z w : virtual_power b z z h w = state_power z w.
Proof. unfold state_power. rewrite power_at_rest. apply old_without_resistance. Qed.
Lemma lin_state x : linear_on (b_ndofs b) (state_power x).
Proof. exact (lin_power b old C D x (no_resistance h)). Qed.
Lemma state_slope x y : potential_energy x - potential_energy y <= - state_power x (increment x y).
Proof.
  set (r := no_resistance h). assert (G : grown b x h r) by (intros E; congruence).
  pose proof (body_balance b frames p0 (macro_of b) y x h r C T SM SI G) as B. change (fun c => cr_macro (b_crystal b c)) with (macro_of b) in B.
  rewrite no_macro in B. unfold r in B. rewrite (stored_any b frames h D x (no_resistance h)) in B. fold (stored b frames h y) in B. rewrite (load_increment b C) in B.
  assert (Z : dissipated b y x (no_resistance h) = 0).
  { unfold dissipated. apply lsum_zero. intros c _. cbv zeta. apply sumn_zero. intros q _. rewrite sumn_zero; [ring|]. intros a _. rewrite no_resistance_zero, stress_without_resistance. ring. }
  rewrite Z in B. unfold state_power, potential_energy. rewrite (old_without_resistance b old y). lra.
Qed.
Definition elastic_gap (x y : vec) (c q : nat) : R :=
  let E := msub (elastic_strain_of b (macro_of b) x c q) (elastic_strain_of b (macro_of b) y c q) in
  el_w (b_element b c) q * (cr_N (b_crystal b c) 3 / cr_N (b_crystal b c) 0 * ddot (cr_dim (b_crystal b c)) E (c4 (cr_dim (b_crystal b c)) (cr_C (b_crystal b c)) E)).
Definition elastic_gaps (x y : vec) : R := lsum (fun c => sumn (el_nq (b_element b c)) (elastic_gap x y c)) (b_cells b).
Lemma gap_nonneg x y c q : In c (b_cells b) -> (q < el_nq (b_element b c))%nat -> 0 <= elastic_gap x y c q.
Proof.
  intros Hc Hq. destruct (SM c Hc) as (W & N3 & _ & _ & _ & PSD & _). apply Rmult_le_pos; [exact (W q Hq)|]. apply Rmult_le_pos; [exact N3|]. apply PSD, (strains_apart b x y SM c q Hc).
Qed.
Lemma gaps_nonneg x y : 0 <= elastic_gaps x y.
Proof. apply lsum_nonneg. intros c Hc. apply sumn_nonneg. intros q Hq. apply gap_nonneg; assumption. Qed.
Lemma one_gap x y c q : In c (b_cells b) -> (q < b_nq b)%nat -> elastic_gap x y c q <= elastic_gaps x y.
Proof.
  intros Hc Hq. assert (NQ : (q < el_nq (b_element b c))%nat) by (rewrite (proj1 (sizes b C SM c Hc)); exact Hq).
  eapply Rle_trans; [|apply (lsum_term_le (fun c => sumn (el_nq (b_element b c)) (elastic_gap x y c)) (b_cells b) c); [|exact Hc]].
  - apply (sumn_term_le _ (elastic_gap x y c)); [intros; apply gap_nonneg; assumption|exact NQ].
  - intros i Hi. apply sumn_nonneg. intros; apply gap_nonneg; assumption.
Qed.
Lemma state_monotone x y : elastic_gaps x y <= state_power y (increment x y) - state_power x (increment x y).
Proof.
  pose proof (power_apart b old x y (no_resistance h) (no_resistance h) frames p0 C T SI D) as P. fold (state_power y (increment x y)) (state_power x (increment x y)) in P.
  eapply Rle_trans; [|exact P]. clear P. unfold apart.
  assert (PT : forall c q, In c (b_cells b) -> (q < el_nq (b_element b c))%nat ->
    let k := b_crystal b c in let e := b_element b c in let d := cr_dim k in let X := local_values b x c in let Y := local_values b y c in let O := local_values b old c in
    let E := (let D := msub (elastic_strain_of b (macro_of b) x c q) (elastic_strain_of b (macro_of b) y c q) in ddot d D (c4 d (cr_C k) D)) in
    let G := sumn (cr_ns k) (fun a =>
           dot d (vsub (slip_gradient_at e X q a) (slip_gradient_at e Y q a))
             (fun i => val (vectorial_microstress (cr_factor k) (cr_p k) d (cr_dir k a) (cr_ort k a) (slip_gradient_at e X q a) i)
                     - val (vectorial_microstress (cr_factor k) (cr_p k) d (cr_dir k a) (cr_ort k a) (slip_gradient_at e Y q a) i))) in
    let Z := sumn (cr_ns k) (fun a => (slip_at e X q a - slip_at e Y q a) *
           (scalar_microstress (cr_law k) (slip_at e X q a) (slip_at e O q a) (resistances_of (no_resistance h) c q a) (cr_dt k)
            - scalar_microstress (cr_law k) (slip_at e Y q a) (slip_at e O q a) (resistances_of (no_resistance h) c q a) (cr_dt k))) in
    0 <= elastic_gap x y c q <= el_w e q * (cr_N k 3 / cr_N k 0 * E + cr_N k 2 * G + Z)).
  { intros c q Hc Hq k e d X Y O E G Z. destruct (SM c Hc) as (W & N3 & N2 & _ & _ & PSD & _). specialize (W q Hq).
    assert (E0 : 0 <= E) by (apply PSD, (strains_apart b x y SM c q Hc)).
    assert (G0 : 0 <= G) by (apply sumn_nonneg; intros a _; apply (gradients_apart b x y C SM c q a Hc)).
    assert (Z0 : Z = 0). { apply sumn_zero. intros a _. rewrite no_resistance_zero, !stress_without_resistance. ring. }
    pose proof (Rmult_le_pos _ _ N3 E0) as M1. pose proof (Rmult_le_pos _ _ N2 G0) as M2. fold k in M1, M2. split; [apply Rmult_le_pos; [exact W|exact M1]|].
    unfold elastic_gap. cbv zeta. fold k e d. apply Rmult_le_compat_l; [exact W|]. unfold E in M1 |- *. cbv zeta in M1 |- *. fold d in M1. rewrite Z0. lra. }
  apply lsum_le. intros i Hi. cbv zeta. apply sumn_le. intros j Hj. apply (PT i j Hi Hj).
Qed.
(** The potential energy exceeds its tangent by a quarter of the elastic energy of the difference. *)
Lemma state_gap x y : potential_energy x - state_power x (increment y x) + 1/4 * elastic_gaps y x <= potential_energy y.
Proof.
  set (m := fun i => 1/2 * y i + 1/2 * x i). pose proof (state_slope x m) as A. pose proof (state_slope m y) as B. pose proof (state_monotone m x) as M.
  assert (L : forall z a w v, (forall i, v i = a * w i) -> state_power z v = a * state_power z w).
  { intros z a w v E. pose proof (lin_state z) as L. rewrite <- (linear_scal _ _ a w L). apply (proj2 L). intros i _. apply E. }
  rewrite (L x (-(1/2)) (increment y x) (increment x m)) in A by (intros i; unfold increment, m; field).
  rewrite (L m (-(1/2)) (increment y x) (increment m y)) in B by (intros i; unfold increment, m; field).
  rewrite (L m (1/2) (increment y x) (increment m x)), (L x (1/2) (increment y x) (increment m x)) in M by (intros i; unfold increment, m; field).
  assert (E : elastic_gaps m x = 1/4 * elastic_gaps y x); [|lra].
  unfold elastic_gaps. rewrite <- lsum_scal. apply lsum_ext. intros c Hc. rewrite <- sumn_scal. apply sumn_ext. intros q Hq.
  unfold elastic_gap. cbv zeta. set (d := cr_dim (b_crystal b c)). set (F := msub (elastic_strain_of b (macro_of b) y c q) (elastic_strain_of b (macro_of b) x c q)).
  assert (EF : forall i j, msub (elastic_strain_of b (macro_of b) m c q) (elastic_strain_of b (macro_of b) x c q) i j = mscal (1/2) F i j).
  { intros i j. unfold F, msub, mscal. pose proof (lin_elastic b c C Hc q i j) as (LA & LB).
    pose proof (LA 1 (fun k => 1/2 * increment y x k) x) as E1. cbv beta in E1.
    rewrite (linear_scal (b_ndofs b) (fun v => elastic_strain_of b (fun _ _ _ => 0) v c q i j) (1/2) (increment y x) (conj LA LB)) in E1.
    rewrite (LB (fun k => 1 * (1/2 * increment y x k) + x k) m) in E1 by (intros k _; unfold increment, m; field).
    pose proof (LA (-1) x y) as E2. cbv beta in E2. rewrite (LB (fun k => -1 * x k + y k) (increment y x)) in E2 by (intros k _; unfold increment; ring).
    unfold elastic_strain_of in *. cbv zeta in *. lra. }
  set (U := msub (elastic_strain_of b (macro_of b) m c q) (elastic_strain_of b (macro_of b) x c q)) in *.
  assert (Q : ddot d U (c4 d (cr_C (b_crystal b c)) U) = ddot d (mscal (1/2) F) (mscal (1/2) (c4 d (cr_C (b_crystal b c)) F))).
  { apply ddot_ext; intros i j _ _; [apply EF|]. unfold mscal at 1. rewrite <- c4_scal. unfold c4. apply sumn_ext. intros k _. apply sumn_ext. intros l _. rewrite EF. reflexivity. }
  rewrite Q, ddot_scal_l, ddot_scal_r. set (r := cr_N (b_crystal b c) 3 / cr_N (b_crystal b c) 0). field.
Qed.

(** ** Sufficiency *)
Section Carried.
Variables (c k : constraints) (extra : vec -> R) (z : vec) (inc : nat -> nat -> mat) (s : nat -> nat -> nat -> R).
Hypothesis HE : linear_on (b_ndofs b) extra.
Hypothesis HI : forall e q, In e (b_cells b) -> (q < b_nq b)%nat -> symmetric (cr_dim (b_crystal b e)) (inc e q).
Hypothesis HV : homogeneous_version c k.
Hypothesis CB : closed_below (b_ndofs b) k.
Hypothesis HP : held_in_place b k.
Hypothesis HS : forall e q a, In e (b_cells b) -> (q < b_nq b)%nat -> (a < b_ns b)%nat -> Rabs (s e q a) < resistances_of h e q a \/ hardens b h e q.
Hypothesis HZ : forall w, SpecLinear.admissible (b_ndofs b) k w -> virtual_power b z z h w + extra w = strain_power b inc w + flow_power b s w.
Let n := b_ndofs b.
Let start : vec := follow c (fun _ => 0).
Let energy (y : vec) : R := total b frames old h c k y - extra (follow c y).
Definition flow_part (e q a : nat) (y : vec) : R := system_potential b old h e q a (follow c y) - s e q a * slip_value b k e q a y.
Definition excess (y : vec) : R :=
  lsum (fun e => sumn (el_nq (b_element b e)) (fun q => el_w (b_element b e) q * sumn (cr_ns (b_crystal b e)) (fun a => flow_part e q a y))) (b_cells b).
Let squares (y : vec) : R := sumn n (fun d => fixed k d * (y d * y d)).
Let base : R := potential_energy z - state_power z (increment start z) - extra start.
Lemma tangent y : state_power z (increment (follow c y) z) + extra (follow k y) = state_power z (increment start z) + strain_power b inc (follow k y) + flow_power b s (follow k y).
Proof.
  pose proof (lin_state z) as L. assert (M : forall x, state_power z (increment x z) = state_power z x - state_power z z).
  { intros x. destruct L as (A & B). replace (increment x z) with (fun i => -1 * z i + x i) by (apply functional_extensionality; intros; unfold increment; ring). rewrite A. ring. }
  rewrite !M. rewrite (from_rest b c k HV CB (state_power z) y L). fold start. rewrite Rplus_assoc, <- (HZ _ (follow_admissible b c k HV CB y)), state_at_rest. ring.
Qed.
Lemma excess_is y : excess y = slip_potential b old h (follow c y) - flow_power b s (follow k y).
Proof.
  unfold excess, slip_potential, flow_power. rewrite <- lsum_minus. apply lsum_ext. intros e _. cbv zeta. rewrite <- sumn_minus. apply sumn_ext. intros q _.
  rewrite <- Rmult_minus_distr_l. f_equal. rewrite <- sumn_minus. reflexivity.
Qed.
(** The incompatible strains do no more power than the elastic energy can pay for. *)
Lemma strains_paid : below (fun y => 1/8 * elastic_gaps (follow c y) z - strain_power b inc (follow k y)).
Proof.
  set (P := fun e q y => el_w (b_element b e) q * (cr_N (b_crystal b e) 3 / cr_N (b_crystal b e) 0 *
    (1/8 * (let E := msub (elastic_strain_of b (macro_of b) (follow c y) e q) (elastic_strain_of b (macro_of b) z e q) in ddot (cr_dim (b_crystal b e)) E (c4 (cr_dim (b_crystal b e)) (cr_C (b_crystal b e)) E))
     - ddot (cr_dim (b_crystal b e)) (linear_strain b k y e q) (c4 (cr_dim (b_crystal b e)) (cr_C (b_crystal b e)) (inc e q))))).
  assert (E : forall y, 1/8 * elastic_gaps (follow c y) z - strain_power b inc (follow k y) = lsum (fun e => sumn (el_nq (b_element b e)) (fun q => P e q y)) (b_cells b)).
  { intros y. unfold elastic_gaps, strain_power. rewrite <- lsum_scal, <- lsum_minus. apply lsum_ext. intros e _. cbv zeta. rewrite <- sumn_scal, <- sumn_minus. apply sumn_ext. intros q _. unfold P, elastic_gap, linear_strain. cbv zeta. ring. }
  destruct (below_lsum (b_cells b) (fun e y => sumn (el_nq (b_element b e)) (fun q => P e q y))) as (B & H).
  - intros e He. apply (below_sumn (el_nq (b_element b e)) (P e)). intros q Hq. destruct (SM e He) as (W & N3 & _ & _ & MJ & PSD & _). cbv zeta in MJ, PSD.
    apply below_scal; [exact (W q Hq)|]. apply below_scal; [exact N3|]. rewrite (proj1 (sizes b C SM e He)) in Hq.
    destruct (quadratic_dominates (cr_dim (b_crystal b e)) (cr_C (b_crystal b e)) (inc e q) (1/8) ltac:(lra) MJ PSD (HI e q He Hq)) as (B & H). set (d := cr_dim (b_crystal b e)) in *.
    set (A := c4 d (cr_C (b_crystal b e)) (inc e q)) in *. set (E0 := msub (elastic_strain_of b (macro_of b) z e q) (elastic_strain_of b (macro_of b) start e q)). exists (B + Rabs (ddot d E0 A)). intros y. cbv zeta.
    set (F := msub (elastic_strain_of b (macro_of b) (follow c y) e q) (elastic_strain_of b (macro_of b) z e q)). specialize (H F (strains_apart b (follow c y) z SM e q He)).
    assert (PE : ddot d (linear_strain b k y e q) A = ddot d F A + ddot d E0 A).
    { unfold ddot. rewrite <- sumn_plus. apply sumn_ext. intros i _. rewrite <- sumn_plus. apply sumn_ext. intros i' _. rewrite <- Rmult_plus_distr_r. f_equal.
      pose proof (from_rest b c k HV CB (fun v => elastic_strain_of b (fun _ _ _ => 0) v e q i i') y (lin_elastic b e C He q i i')) as Q. cbv beta in Q. fold start in Q.
      unfold F, E0, msub. unfold linear_strain, elastic_strain_of in *. cbv zeta in *. lra. }
    rewrite PE. pose proof (Rle_abs (ddot d F A)). pose proof (Rle_abs (ddot d E0 A)). lra.
  - exists B. intros y. rewrite E. apply H.
Qed.
Lemma energy_bound : exists B, forall y, 1/8 * elastic_gaps (follow c y) z + excess y + squares y - B <= energy y.
Proof.
  destruct strains_paid as (B & H). exists (B - base). intros y. specialize (H y). pose proof (state_gap z (follow c y)) as A. pose proof (tangent y) as T1. pose proof (from_rest b c k HV CB extra y HE) as FE. fold start in FE.
  rewrite excess_is. unfold energy, total, incremental, squares. fold n. unfold potential_energy in *. unfold base, potential_energy. lra.
Qed.
Lemma flow_part_grows e q a : In e (b_cells b) -> (q < b_nq b)%nat -> (a < b_ns b)%nat -> exists m B, 0 < m /\ forall y, m * Rabs (slip_value b k e q a y) - B <= flow_part e q a y.
Proof.
  intros He Hq Ha. destruct (system_data b h SM SH SG e q a He Hq Ha) as (A1 & A2 & A3 & A4 & A5).
  assert (P : Rabs (s e q a) < resistances_of h e q a \/ 0 < own_hardening h e q).
  { destruct (HS e q a He Hq Ha) as [L|(F & P)]; [left; exact L|right]. unfold own_hardening. rewrite F. exact P. }
  destruct (system_margin _ (old_slip b old e q a) _ _ _ A1 A2 A3 A4 A5 (s e q a) P) as (m & B & M & H).
  set (o := old_slip b old e q a) in *. set (r := slip_at (b_element b e) (local_values b start e) q a). exists m, (m * Rabs (r - o) + B - s e q a * (r - o)). split; [exact M|]. intros y.
  specialize (H (slip_at (b_element b e) (local_values b (follow c y) e) q a)). unfold flow_part, system_potential. fold o. change (stress_of b old h e q a) with (trial_stress (cr_law (b_crystal b e)) o (resistances_of h e q a) (own_hardening h e q) (cr_dt (b_crystal b e))).
  pose proof (from_rest b c k HV CB (fun v => slip_at (b_element b e) (local_values b v e) q a) y (lin_slip b e C He q a)) as F. cbv beta in F. fold start r (slip_value b k e q a y) in F.
  set (v := slip_value b k e q a y) in *. rewrite F in H |- *. replace (r + v - o) with ((r - o) + v) in H by ring.
  assert (T1 : Rabs v <= Rabs ((r - o) + v) + Rabs (r - o)).
  { replace v with (((r - o) + v) + - (r - o)) at 1 by ring. eapply Rle_trans; [apply Rabs_triang|]. rewrite Rabs_Ropp. lra. }
  pose proof (Rmult_le_compat_l m _ _ ltac:(lra) T1). lra.
Qed.
Lemma flow_part_below e q a : In e (b_cells b) -> (q < b_nq b)%nat -> (a < b_ns b)%nat -> below (flow_part e q a).
Proof.
  intros He Hq Ha. destruct (flow_part_grows e q a He Hq Ha) as (m & B & M & H). exists B. intros y. specialize (H y). pose proof (Rabs_pos (slip_value b k e q a y)). nra.
Qed.
Lemma point_below e q : In e (b_cells b) -> (q < el_nq (b_element b e))%nat -> below (fun y => el_w (b_element b e) q * sumn (cr_ns (b_crystal b e)) (fun a => flow_part e q a y)).
Proof.
  intros He Hq. destruct (sizes b C SM e He) as (NQ & NS). rewrite NQ in Hq. apply below_scal; [apply (weight_nonneg b C SM); assumption|]. rewrite NS.
  apply (below_sumn (b_ns b) (flow_part e q)). intros a Ha. apply flow_part_below; assumption.
Qed.
Lemma excess_below : below excess.
Proof. unfold excess. apply (below_lsum (b_cells b) (fun e y => sumn _ (fun q => _))). intros e He. apply (below_sumn _ (fun q y => el_w (b_element b e) q * _)). intros q Hq. apply point_below; assumption. Qed.
Lemma excess_grows e q a : In e (b_cells b) -> (q < b_nq b)%nat -> (a < b_ns b)%nat -> exists m B, 0 < m /\ forall y, m * Rabs (slip_value b k e q a y) - B <= excess y.
Proof.
  intros He Hq Ha. destruct (sizes b C SM e He) as (NQ & NS). assert (Hq' : (q < el_nq (b_element b e))%nat) by lia.
  destruct (one_of_lsum (b_cells b) (fun e y => sumn (el_nq (b_element b e)) (fun q => el_w (b_element b e) q * sumn (cr_ns (b_crystal b e)) (fun a => flow_part e q a y))) e He) as (B1 & H1).
  { intros i Hi. apply (below_sumn _ (fun q y => el_w (b_element b i) q * _)). intros j Hj. apply point_below; assumption. }
  destruct (one_of_sumn (el_nq (b_element b e)) (fun q y => el_w (b_element b e) q * sumn (cr_ns (b_crystal b e)) (fun a => flow_part e q a y)) q Hq') as (B2 & H2).
  { intros j Hj. apply point_below; assumption. }
  destruct (one_of_sumn (cr_ns (b_crystal b e)) (flow_part e q) a) as (B3 & H3).
  { rewrite NS. exact Ha. } { rewrite NS. intros i Hi. apply flow_part_below; assumption. }
  destruct (flow_part_grows e q a He Hq Ha) as (m & B & M & H). destruct (SG e He) as (_ & _ & W & _). cbv zeta in W. specialize (W q Hq). set (w := el_w (b_element b e) q) in *.
  exists (w * m), (w * (B + B3) + B2 + B1). split; [apply Rmult_lt_0_compat; assumption|]. intros y. specialize (H y). specialize (H1 y). specialize (H2 y). specialize (H3 y). cbv beta in *. fold (excess y) in H1. fold w in H2.
  pose proof (Rmult_le_compat_l w _ _ ltac:(lra) H) as Q1. pose proof (Rmult_le_compat_l w _ _ ltac:(lra) H3) as Q3. lra.
Qed.
Lemma pairing_excess e q j : In e (b_cells b) -> (q < b_nq b)%nat -> exists B, forall y, Rabs (pairing b k e q j y) - B <= energy y.
Proof.
  intros He Hq. destruct (SG e He) as (_ & N3 & W & _). cbv zeta in *. specialize (W q Hq). destruct (SM e He) as (_ & _ & _ & _ & MJ & PSD & _). cbv zeta in MJ, PSD.
  set (g := linear_strain b k (unit_at j) e q). set (om := 1/8 * (el_w (b_element b e) q * (cr_N (b_crystal b e) 3 / cr_N (b_crystal b e) 0))).
  assert (OM : 0 < om) by (unfold om; pose proof (Rmult_lt_0_compat _ _ W N3); lra).
  destruct (quadratic_dominates (cr_dim (b_crystal b e)) (cr_C (b_crystal b e)) g om OM MJ PSD (linear_strain_symmetric b SM k _ e q He)) as (B1 & H1).
  destruct excess_below as (B2 & H2). destruct energy_bound as (B3 & H3). set (d := cr_dim (b_crystal b e)) in *. set (A := c4 d (cr_C (b_crystal b e)) g) in *.
  set (E0 := msub (elastic_strain_of b (macro_of b) z e q) (elastic_strain_of b (macro_of b) start e q)). exists (Rabs (ddot d E0 A) + B1 + B2 + B3). intros y.
  set (F := msub (elastic_strain_of b (macro_of b) (follow c y) e q) (elastic_strain_of b (macro_of b) z e q)).
  pose proof (H3 y) as EB. pose proof (one_gap (follow c y) z e q He Hq) as OG. pose proof (squares_nonneg b k y) as SQ. fold n in SQ. change (0 <= squares y) in SQ. specialize (H2 y). specialize (H1 F (strains_apart b (follow c y) z SM e q He)).
  assert (EG : 1/8 * elastic_gap (follow c y) z e q = om * ddot d F (c4 d (cr_C (b_crystal b e)) F)) by (unfold elastic_gap, om; cbv zeta; fold F d; ring).
  assert (PE : pairing b k e q j y = ddot d F A + ddot d E0 A).
  { unfold pairing. fold d g A. unfold ddot. rewrite <- sumn_plus. apply sumn_ext. intros i _. rewrite <- sumn_plus. apply sumn_ext. intros i' _. rewrite <- Rmult_plus_distr_r. f_equal.
    pose proof (from_rest b c k HV CB (fun v => elastic_strain_of b (fun _ _ _ => 0) v e q i i') y (lin_elastic b e C He q i i')) as Q. cbv beta in Q. fold start in Q.
    unfold F, E0, msub. unfold linear_strain, elastic_strain_of in *. cbv zeta in *. lra. }
  rewrite PE. pose proof (Rabs_triang (ddot d F A) (ddot d E0 A)). lra.
Qed.
Lemma carried_levels r : exists B, 0 < B /\ forall y, energy y <= r -> forall d, (d < n)%nat -> Rabs (y d) <= B.
Proof.
  destruct (level_bounded n (functionals b k) (functionals_linear b C c k HV CB) (functionals_injective b C SM SG c k HV CB HP) energy (fun _ => 0) (lin_zero n)) with (c := r) as (B & HB & L).
  - left. split; [reflexivity|]. intros l Hl. apply in_functionals in Hl. destruct Hl as [(e & q & j & He & Hq & Hj & ->)|[(e & q & a & He & Hq & Ha & ->)|(d & Hd & F & ->)]].
    + destruct (pairing_excess e q j He Hq) as (B & H). exists 1, B. split; [lra|]. intros y. specialize (H y). lra.
    + destruct (excess_grows e q a He Hq Ha) as (m & B & M & H). destruct energy_bound as (B3 & H3). exists m, (B + B3). split; [exact M|]. intros y. specialize (H y). specialize (H3 y). pose proof (gaps_nonneg (follow c y) z). pose proof (squares_nonneg b k y) as P. fold n in P. change (0 <= squares y) in P. lra.
    + destruct excess_below as (B & H). destruct energy_bound as (B3 & H3). exists 1, (B + 1 + B3). split; [lra|]. intros y. specialize (H y). pose proof (H3 y) as EB. pose proof (gaps_nonneg (follow c y) z).
      assert (Q : y d * y d <= squares y).
      { unfold squares. eapply Rle_trans; [|apply (sumn_term_le n (fun d => fixed k d * (y d * y d)) d); [|exact Hd]]; [cbv beta; rewrite F; lra|]. intros i _. pose proof (fixed_nonneg k i). nra. }
      assert (Rabs (y d) <= y d * y d + 1). { replace (y d * y d) with (Rabs (y d) * Rabs (y d)) by (rewrite <- Rabs_mult; apply Rabs_pos_eq; nra). pose proof (pow2_ge_0 (Rabs (y d) - 1)). pose proof (Rabs_pos (y d)). nra. }
      lra.
  - exists B. split; [exact HB|]. intros y Y. apply L. lra.
Qed.
End Carried.
Lemma carried_solution c k z inc s : (forall e q, In e (b_cells b) -> (q < b_nq b)%nat -> symmetric (cr_dim (b_crystal b e)) (inc e q)) ->
  homogeneous_version c k -> closed_below (b_ndofs b) k -> held_in_place b k ->
  (forall e q a, In e (b_cells b) -> (q < b_nq b)%nat -> (a < b_ns b)%nat -> Rabs (s e q a) < resistances_of h e q a \/ hardens b h e q) ->
  (forall w, SpecLinear.admissible (b_ndofs b) k w -> virtual_power b z z h w = strain_power b inc w + flow_power b s w) -> exists x, obeys c x /\ solves_step b old h k x.
Proof.
  intros HI HV CB HP HS HZ. apply (solution_of_levels b frames p0 old h C T D SM SI I SH NL SG c k HV CB). intros r.
  destruct (carried_levels c k (fun _ => 0) z inc s (lin_zero _) HI HV CB HP HS (fun w W => eq_trans (Rplus_0_r _) (HZ w W)) r) as (B & HB & L). exists B. split; [exact HB|]. intros y Y. apply L. cbv beta. rewrite Rminus_0_r. exact Y.
Qed.
End Limit.

(** ** The theorems *)
Lemma hardens_or_not b h c q : hardens b h c q \/ (sound_histories b h -> In c (b_cells b) -> (q < b_nq b)%nat -> own_hardening h c q = 0).
Proof.
  unfold hardens, own_hardening. destruct (flag_perfect_plasticity (prm (r_bulk h c q))); [right; reflexivity|].
  destruct (Rlt_dec 0 (linear_hardening_modulus (prm (r_bulk h c q)) / char_res (r_bulk h c q))) as [P|P]; [left; auto|right]. intros (SB & _) Hc Hq.
  destruct (SB c q Hc Hq) as (_ & A & _). lra.
Qed.
Lemma solved_is_carried b old h k x : consistent b -> b_decohesion b = false -> stable_material b (macro_of b) ->
  initialised b h -> sound_histories b h -> no_latent_hardening b h -> strict_grains b -> solves_step b old h k x -> loads_carried b h k.
Proof.
  intros C D SM I SH NL SG S. set (r := trial_histories b old x h) in *.
  set (s := fun c q a => scalar_microstress (cr_law (b_crystal b c)) (slip_at (b_element b c) (local_values b x c) q a) (slip_at (b_element b c) (local_values b old c) q a) (resistances_of r c q a) (cr_dt (b_crystal b c))).
  exists x, s. split.
  - intros c q a Hc Hq Ha. destruct (system_data b h SM SH SG c q a Hc Hq Ha) as (A1 & A2 & A3 & A4 & A5).
    destruct (hardens_or_not b h c q) as [P|Z]; [right; exact P|left]. specialize (Z SH Hc Hq).
    assert (E : resistances_of r c q a = resistances_of h c q a).
    { unfold r. rewrite (trial_resistance b old x h c q a C D I SH NL Hc Hq Ha). unfold own_hardening in Z. destruct (flag_perfect_plasticity _); [ring|]. rewrite Z. ring. }
    rewrite <- E in A4 |- *. unfold s. apply C25_bounded; assumption.
  - intros w W. specialize (S w W). fold r in S. rewrite power_flows in S.
    rewrite power_at_rest. rewrite (same_power b x x C D SM (fun _ _ => eq_refl) x (no_resistance r) (no_resistance h) w) by (intros; rewrite !no_resistance_zero; reflexivity).
    assert (F : flow_power b s w = slip_work b old x w r); [|lra]. unfold flow_power, slip_work. apply lsum_ext. intros c _. cbv zeta. apply sumn_ext. intros q _. f_equal. apply sumn_ext. intros a _. unfold s. ring.
Qed.
Lemma strain_power_zero b w : strain_power b (fun _ _ _ _ => 0) w = 0.
Proof.
  unfold strain_power. apply lsum_zero. intros c _. cbv zeta. apply sumn_zero. intros q _.
  rewrite (ddot_ext _ _ _ (elastic_strain_of b (fun _ _ _ => 0) w c q) (mscal 0 (fun _ _ => 0))); [rewrite ddot_scal_r; ring|reflexivity|].
  intros i j _ _. unfold mscal, c4. rewrite Rmult_0_l. apply sumn_zero. intros l _. apply sumn_zero. intros m _. ring.
Qed.
Lemma carried_supported b h k : loads_carried b h k -> loads_supported b h k.
Proof.
  intros (z & s & A & B). exists z, (fun _ _ _ _ => 0), s. split; [intros c q _ _ i j _ _; reflexivity|]. split; [exact A|]. intros w W. rewrite (B w W), strain_power_zero. ring.
Qed.
(** A step has a solution if and only if its loads can be carried below the resistances. *)
Theorem C111_solvable_iff_loads_carried : forall b frames p0 old h c k,
  consistent b -> two_sided b -> b_decohesion b = false -> stable_material b (macro_of b) -> stable_interfaces b frames p0 ->
  initialised b h -> sound_histories b h -> no_latent_hardening b h -> strict_grains b ->
  homogeneous_version c k -> closed_below (b_ndofs b) k -> held_in_place b k ->
  ((exists x, obeys c x /\ solves_step b old h k x) <-> loads_carried b h k).
Proof.
  intros b frames p0 old h c k C T D SM SI I SH NL SG HV CB HP. split.
  - intros (x & _ & S). apply (solved_is_carried b old h k x); assumption.
  - intros LC. destruct (carried_supported b h k LC) as (z & inc & s & HI & HS & HZ). exact (carried_solution b frames p0 old h C T D SM SI I SH NL SG c k z inc s HI HV CB HP HS HZ).
Qed.
Print Assumptions C111_solvable_iff_loads_carried.
(** In particular it does not depend on the old solution, the initial guess, the prescribed values of the supports or the time step. *)
Theorem C111_exactly_one_solution : forall b frames p0 old h c k,
  consistent b -> two_sided b -> b_decohesion b = false -> stable_material b (macro_of b) -> stable_interfaces b frames p0 ->
  initialised b h -> sound_histories b h -> no_latent_hardening b h -> strict_grains b ->
  homogeneous_version c k -> closed_below (b_ndofs b) k -> held_in_place b k -> loads_carried b h k ->
  exists x, obeys c x /\ solves_step b old h k x /\
  forall y, obeys c y -> solves_step b old h k y -> forall d, (d < b_ndofs b)%nat -> y d = x d.
Proof.
  intros b frames p0 old h c k C T D SM SI I SH NL SG HV CB HP LC.
  destruct (proj2 (C111_solvable_iff_loads_carried b frames p0 old h c k C T D SM SI I SH NL SG HV CB HP) LC) as (x & X & Sx). exists x. split; [exact X|]. split; [exact Sx|].
  intros y Y Sy. apply (C99_at_most_one_solution b frames p0 old y x h k C T D SM SI I SH NL SG (homogeneous_difference b c k y x HV Y X) Sy Sx). exact HP.
Qed.
Print Assumptions C111_exactly_one_solution.
Theorem C111_other_step : forall b frames p0 old old' h c c' k,
  consistent b -> two_sided b -> b_decohesion b = false -> stable_material b (macro_of b) -> stable_interfaces b frames p0 ->
  initialised b h -> sound_histories b h -> no_latent_hardening b h -> strict_grains b ->
  homogeneous_version c k -> homogeneous_version c' k -> closed_below (b_ndofs b) k -> held_in_place b k ->
  (exists x, obeys c x /\ solves_step b old h k x) -> exists x, obeys c' x /\ solves_step b old' h k x.
Proof.
  intros b frames p0 old old' h c c' k C T D SM SI I SH NL SG HV HV' CB HP E.
  apply (C111_solvable_iff_loads_carried b frames p0 old' h c' k C T D SM SI I SH NL SG HV' CB HP).
  apply (C111_solvable_iff_loads_carried b frames p0 old h c k C T D SM SI I SH NL SG HV CB HP). exact E.
Qed.
Print Assumptions C111_other_step.

(** *** Overload *)
Lemma mechanism_power b z h k w : consistent b -> b_decohesion b = false -> stable_material b (macro_of b) -> mechanism b k w -> virtual_power b z z h w = load_work b w.
Proof.
  intros C D SM (_ & M & MI). rewrite power_at_rest, virtual_power_parts. unfold load_work. apply lsum_ext. intros c Hc. cbv zeta. destruct (sizes b C SM c Hc) as (NQ & NS).
  rewrite (lsum_zero (side_power b z (no_resistance h) w c)).
  2:{ intros m Hm. rewrite (side_form b C D) by assumption. cbv zeta. apply sumn_zero. intros q Hq. destruct (if_microtraction (b_interface b c m)) eqn:EM; [|ring].
      rewrite (sumn_zero (if_ns (b_interface b c m))); [ring|]. intros a Ha. unfold slip_side. cbv zeta. rewrite (MI c m q a Hc Hm Hq EM Ha). ring. }
  match goal with |- - ?g + 0 + ?l = ?l' + ?l => enough (- g = l') by lra end.
  unfold grain_power. cbv zeta. rewrite NQ. match goal with |- - ?a = ?b => enough (b + a = 0) by lra end. rewrite <- sumn_plus. apply sumn_zero. intros q Hq. destruct (M c q Hc Hq) as (M1 & M2).
  rewrite <- Rmult_plus_distr_l.
  assert (Z1 : ddot (cr_dim (b_crystal b c)) (elastic_strain (cr_N (b_crystal b c) 0) (cr_P (b_crystal b c)) (strain_at (b_element b c) (local_values b w c) q) (slip_at (b_element b c) (local_values b w c) q) (cr_ns (b_crystal b c)))
     (stress_at (b_crystal b c) (b_element b c) (local_values b z c) q) = 0).
  { unfold ddot. apply sumn_zero. intros i Hi. apply sumn_zero. intros j Hj. rewrite elastic_sum. pose proof (M1 i j Hi Hj) as E. unfold elastic_strain_of in E. cbv zeta in E. rewrite Rplus_0_l in E. rewrite E. ring. }
  rewrite Z1. rewrite (sumn_zero (cr_ns (b_crystal b c)) (fun a => dot _ _ _)).
  2:{ intros a Ha. rewrite NS in Ha. unfold dot. apply sumn_zero. intros i Hi. rewrite (M2 a i Ha Hi). ring. }
  rewrite (sumn_zero (cr_ns (b_crystal b c)) (fun a => _ * scalar_microstress _ _ _ _ _)); [ring|]. intros a _. rewrite stress_at_rest. ring.
Qed.
(** Loads whose work on a mechanism reaches the most the slip systems can dissipate have no solution. *)
Theorem C111_overload : forall b old h k w,
  consistent b -> b_decohesion b = false -> stable_material b (macro_of b) ->
  initialised b h -> sound_histories b h -> no_latent_hardening b h -> strict_grains b ->
  mechanism b k w -> (forall c q, In c (b_cells b) -> (q < b_nq b)%nat -> ~ hardens b h c q) ->
  (exists c q a, In c (b_cells b) /\ (q < b_nq b)%nat /\ (a < b_ns b)%nat /\ slip_at (b_element b c) (local_values b w c) q a <> 0) ->
  flow_limit b h w <= load_work b w -> forall x, ~ solves_step b old h k x.
Proof.
  intros b old h k w C D SM I SH NL SG M NH (c0 & q0 & a0 & Hc0 & Hq0 & Ha0 & NZ) L x Sx.
  destruct (solved_is_carried b old h k x C D SM I SH NL SG Sx) as (z & s & HS & HZ). pose proof (HZ w (proj1 M)) as E. rewrite (mechanism_power b z h k w C D SM M) in E.
  assert (G : 0 < flow_limit b h w - flow_power b s w); [|lra].
  set (f := fun c q a => resistances_of h c q a * Rabs (slip_at (b_element b c) (local_values b w c) q a) - s c q a * slip_at (b_element b c) (local_values b w c) q a).
  assert (F : flow_limit b h w - flow_power b s w = lsum (fun c => sumn (el_nq (b_element b c)) (fun q => el_w (b_element b c) q * sumn (cr_ns (b_crystal b c)) (f c q))) (b_cells b)).
  { unfold flow_limit, flow_power. rewrite <- lsum_minus. apply lsum_ext. intros c _. cbv zeta. rewrite <- sumn_minus. apply sumn_ext. intros q _. rewrite <- Rmult_minus_distr_l, <- sumn_minus. reflexivity. }
  rewrite F.
  assert (B : forall c q a, In c (b_cells b) -> (q < b_nq b)%nat -> (a < b_ns b)%nat -> Rabs (s c q a) < resistances_of h c q a).
  { intros c q a Hc Hq Ha. destruct (HS c q a Hc Hq Ha) as [B|B]; [exact B|]. elim (NH c q Hc Hq B). }
  assert (P : forall c q a, In c (b_cells b) -> (q < b_nq b)%nat -> (a < b_ns b)%nat -> 0 <= f c q a /\ (slip_at (b_element b c) (local_values b w c) q a <> 0 -> 0 < f c q a)).
  { intros c q a Hc Hq Ha. specialize (B c q a Hc Hq Ha). unfold f. set (g := slip_at _ _ _ _). pose proof (Rle_abs (s c q a * g)) as A. rewrite Rabs_mult in A. pose proof (Rabs_pos g). split; [nra|]. intros N. pose proof (Rabs_pos_lt g N). nra. }
  assert (W : forall c q, In c (b_cells b) -> (q < b_nq b)%nat -> 0 < el_w (b_element b c) q) by (intros c q Hc Hq; destruct (SG c Hc) as (_ & _ & W & _); apply W, Hq).
  assert (CN : forall c, In c (b_cells b) -> forall q, (q < el_nq (b_element b c))%nat -> 0 <= el_w (b_element b c) q * sumn (cr_ns (b_crystal b c)) (f c q)).
  { intros c Hc q Hq. destruct (sizes b C SM c Hc) as (NQ & NS). rewrite NQ in Hq. apply Rmult_le_pos; [apply Rlt_le, W; assumption|]. rewrite NS. apply sumn_nonneg. intros a Ha. apply P; assumption. }
  destruct (sizes b C SM c0 Hc0) as (NQ & NS).
  eapply Rlt_le_trans; [|apply (lsum_term_le (fun c => sumn (el_nq (b_element b c)) (fun q => el_w (b_element b c) q * sumn (cr_ns (b_crystal b c)) (f c q))) (b_cells b) c0); [|exact Hc0]].
  - eapply Rlt_le_trans; [|apply (sumn_term_le _ (fun q => el_w (b_element b c0) q * sumn (cr_ns (b_crystal b c0)) (f c0 q)) q0); [apply CN, Hc0|lia]].
    apply Rmult_lt_0_compat; [apply W; assumption|]. rewrite NS. eapply Rlt_le_trans; [apply (P c0 q0 a0 Hc0 Hq0 Ha0), NZ|]. apply (sumn_term_le _ (f c0 q0)); [|exact Ha0]. intros a Ha. apply P; assumption.
  - intros c Hc. apply sumn_nonneg, CN, Hc.
Qed.
Print Assumptions C111_overload.
