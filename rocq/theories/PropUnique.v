(** * C99: a time step without latent hardening and decohesion has at most one solution, and
      accepted solutions are close to it. *)
From Coq Require Import FunctionalExtensionality.
From Verif Require Import Num ModelShear SpecShear ModelProgram SpecProgram PropProgram SumLemmas Tensors TensorLemmas ModelUtilities ModelElastic SpecElastic ProofElastic ModelMicro SpecMicro ProofMicro PropMicro
  ModelCohesive SpecCohesive ProofCohesive ModelHistory SpecHistory ModelInterface SpecInterface
  ModelFEField ModelActiveSet ModelLinear SpecLinear PropLinear ModelAssembly SpecAssembly ProofAssembly ProofFace
  ModelSolver ModelSweep SpecSweep PropSweep ModelStep SpecStep ProofStep PropStep ModelBody SpecBody PropBody SpecTangent SpecRun PropRun
  SpecEnergy ProofEnergy PropEnergy SpecStiffness SpecUnique.
Open Scope R_scope.

(** ** One slip system *)
Lemma microstress_unit l s old g dt : scalar_microstress l s old g dt = g * scalar_microstress l s old 1 dt.
Proof. unfold scalar_microstress. destruct (sl_rate_independent l); ring. Qed.
Lemma system_increasing l old g0 h dt s1 s2 : 0 < dt -> 0 < sl_k l -> 0 < g0 -> 0 <= h -> s1 < s2 ->
  let m s := scalar_microstress l s old (g0 + h * Rabs (s - old)) dt in
  m s1 <= m s2 /\ (sl_rate_independent l = false -> m s1 < m s2).
Proof.
  intros DT K G Hh L m. unfold m. rewrite (microstress_unit l s1), (microstress_unit l s2).
  destruct (C25_increasing l s1 s2 old 1 dt DT K Rlt_0_1 L) as (I1 & I2).
  destruct (C25_dissipative l s1 old 1 dt DT K Rlt_0_1) as (D1 & _). destruct (C25_dissipative l s2 old 1 dt DT K Rlt_0_1) as (D2 & _).
  set (u1 := scalar_microstress l s1 old 1 dt) in *. set (u2 := scalar_microstress l s2 old 1 dt) in *. clearbody u1 u2. clear m.
  assert (E1 : 0 <= u1 * (s1 - old)). { replace (u1 * (s1 - old)) with (dt * (u1 * ((s1 - old) / dt))) by (field; lra). apply Rmult_le_pos; lra. }
  assert (E2 : 0 <= u2 * (s2 - old)). { replace (u2 * (s2 - old)) with (dt * (u2 * ((s2 - old) / dt))) by (field; lra). apply Rmult_le_pos; lra. }
  clear D1 D2.
  assert (P1 : 0 <= Rabs (s1 - old)) by apply Rabs_pos. assert (P2 : 0 <= Rabs (s2 - old)) by apply Rabs_pos.
  assert (Q1 : 0 < g0 + h * Rabs (s1 - old)) by nra. assert (Q2 : 0 < g0 + h * Rabs (s2 - old)) by nra.
  destruct (Rle_or_lt old s1) as [C|C].
  - assert (G12 : g0 + h * Rabs (s1 - old) <= g0 + h * Rabs (s2 - old)). { rewrite !Rabs_pos_eq by lra. nra. }
    assert (U2 : 0 <= u2) by nra. set (g1 := g0 + _) in *. set (g2 := g0 + h * Rabs (s2 - old)) in *. clearbody g1 g2.
    split; [nra|]. intros RI. specialize (I2 RI). nra.
  - assert (U1 : u1 <= 0) by nra.
    destruct (Rle_or_lt s2 old) as [C2|C2].
    + assert (G12 : g0 + h * Rabs (s2 - old) <= g0 + h * Rabs (s1 - old)). { rewrite !Rabs_left1 by lra. nra. }
      set (g1 := g0 + _) in *. set (g2 := g0 + h * Rabs (s2 - old)) in *. clearbody g1 g2.
      split; [nra|]. intros RI. specialize (I2 RI). nra.
    + assert (U2 : 0 <= u2) by nra. set (g1 := g0 + _) in *. set (g2 := g0 + h * Rabs (s2 - old)) in *. clearbody g1 g2.
      split; [nra|]. intros RI. specialize (I2 RI). assert (A1 : g1 * u1 <= 0) by nra. assert (A2 : 0 <= g2 * u2) by nra.
      destruct (Rlt_or_le u1 0) as [Z|Z]; [assert (g1 * u1 < 0) by (clear - Z Q1; nra); lra|].
      assert (0 < g2 * u2) by (apply Rmult_lt_0_compat; lra). lra.
Qed.
Lemma system_apart l old g0 h dt s1 s2 : 0 < dt -> 0 < sl_k l -> 0 < g0 -> 0 <= h ->
  let m s := scalar_microstress l s old (g0 + h * Rabs (s - old)) dt in
  0 <= (s1 - s2) * (m s1 - m s2) /\ (sl_rate_independent l = false -> (s1 - s2) * (m s1 - m s2) = 0 -> s1 = s2).
Proof.
  intros DT K G Hh m. destruct (Rtotal_order s1 s2) as [L|[->|L]].
  - destruct (system_increasing l old g0 h dt s1 s2 DT K G Hh L) as (A & B). cbv beta zeta in A, B. fold (m s1) (m s2) in A, B. set (m1 := m s1) in *. set (m2 := m s2) in *. clearbody m1 m2. clear m. split; [nra|]. intros RI Z. specialize (B RI). exfalso. nra.
  - split; [lra|reflexivity].
  - destruct (system_increasing l old g0 h dt s2 s1 DT K G Hh L) as (A & B). cbv beta zeta in A, B. fold (m s1) (m s2) in A, B. set (m1 := m s1) in *. set (m2 := m s2) in *. clearbody m1 m2. clear m. split; [nra|]. intros RI Z. specialize (B RI). exfalso. nra.
Qed.

(** ** The grains *)
Section Two.
Variables (b : body) (old x y : vec) (rx ry : rank_data).
Let w := increment x y.
(** The summand of [apart]. *)
Definition cell_apart (c : nat) : R :=
  let k := b_crystal b c in let e := b_element b c in let d := cr_dim k in
  let X := local_values b x c in let Y := local_values b y c in let O := local_values b old c in
  sumn (el_nq e) (fun q => el_w e q *
    (cr_N k 3 / cr_N k 0 *
      (let D := msub (elastic_strain_of b (macro_of b) x c q) (elastic_strain_of b (macro_of b) y c q) in ddot d D (c4 d (cr_C k) D))
     + cr_N k 2 * sumn (cr_ns k) (fun a =>
         dot d (vsub (slip_gradient_at e X q a) (slip_gradient_at e Y q a))
           (fun i => val (vectorial_microstress (cr_factor k) (cr_p k) d (cr_dir k a) (cr_ort k a) (slip_gradient_at e X q a) i)
                   - val (vectorial_microstress (cr_factor k) (cr_p k) d (cr_dir k a) (cr_ort k a) (slip_gradient_at e Y q a) i)))
     + sumn (cr_ns k) (fun a => (slip_at e X q a - slip_at e Y q a) *
         (scalar_microstress (cr_law k) (slip_at e X q a) (slip_at e O q a) (resistances_of rx c q a) (cr_dt k)
          - scalar_microstress (cr_law k) (slip_at e Y q a) (slip_at e O q a) (resistances_of ry c q a) (cr_dt k))))).
Lemma apart_cells : apart b old x y rx ry = lsum cell_apart (b_cells b).
Proof. reflexivity. Qed.

Lemma grain_apart c : grain_power b old x rx w c - grain_power b old y ry w c = cell_apart c.
Proof.
  unfold grain_power, cell_apart. set (k := b_crystal b c). set (e := b_element b c). set (d := cr_dim k). cbv zeta.
  rewrite <- sumn_minus. apply sumn_ext. intros q Hq.
  set (D := msub (elastic_strain_of b (macro_of b) x c q) (elastic_strain_of b (macro_of b) y c q)).
  assert (ES : forall z, ddot d (elastic_strain (cr_N k 0) (cr_P k) (strain_at e (local_values b w c) q) (slip_at e (local_values b w c) q) (cr_ns k))
      (stress_at k e (local_values b z c) q) = ddot d D (c4 d (cr_C k) (elastic_strain_of b (macro_of b) z c q))).
  { intros z. apply ddot_ext.
    - intros i j _ _. rewrite elastic_sum. unfold w. rewrite strain_increment.
      rewrite (sumn_ext (cr_ns k) _ (fun a => slip_at e (local_values b x c) q a * cr_P k a i j - slip_at e (local_values b y c) q a * cr_P k a i j)).
      2:{ intros a _. rewrite slip_increment. ring. }
      rewrite sumn_minus. unfold D, msub, elastic_strain_of. fold k e. ring.
    - intros i j _ _. exact (stress_of_energy b z c q i j). }
  rewrite !ES.
  assert (DD : ddot d D (c4 d (cr_C k) D) = ddot d D (c4 d (cr_C k) (elastic_strain_of b (macro_of b) x c q)) - ddot d D (c4 d (cr_C k) (elastic_strain_of b (macro_of b) y c q))).
  { unfold ddot. rewrite <- sumn_minus. apply sumn_ext. intros i _. rewrite <- sumn_minus. apply sumn_ext. intros j _. rewrite <- Rmult_minus_distr_l. f_equal.
    unfold c4, D, msub. rewrite <- sumn_minus. apply sumn_ext. intros i' _. rewrite <- sumn_minus. apply sumn_ext. intros j' _. ring. }
  rewrite DD.
  assert (GG : sumn (cr_ns k) (fun a => dot d (slip_gradient_at e (local_values b w c) q a)
             (fun r => val (vectorial_microstress (cr_factor k) (cr_p k) d (cr_dir k a) (cr_ort k a) (slip_gradient_at e (local_values b x c) q a) r)))
     - sumn (cr_ns k) (fun a => dot d (slip_gradient_at e (local_values b w c) q a)
             (fun r => val (vectorial_microstress (cr_factor k) (cr_p k) d (cr_dir k a) (cr_ort k a) (slip_gradient_at e (local_values b y c) q a) r)))
     = sumn (cr_ns k) (fun a =>
         dot d (vsub (slip_gradient_at e (local_values b x c) q a) (slip_gradient_at e (local_values b y c) q a))
           (fun i => val (vectorial_microstress (cr_factor k) (cr_p k) d (cr_dir k a) (cr_ort k a) (slip_gradient_at e (local_values b x c) q a) i)
                   - val (vectorial_microstress (cr_factor k) (cr_p k) d (cr_dir k a) (cr_ort k a) (slip_gradient_at e (local_values b y c) q a) i)))).
  { rewrite <- sumn_minus. apply sumn_ext. intros a _. unfold dot. rewrite <- sumn_minus. apply sumn_ext. intros i _. unfold w. rewrite gradient_increment. ring. }
  rewrite <- GG.
  assert (SS : sumn (cr_ns k) (fun a => slip_at e (local_values b w c) q a *
             scalar_microstress (cr_law k) (slip_at e (local_values b x c) q a) (slip_at e (local_values b old c) q a) (nth a (slip_res (r_bulk rx c q)) 0) (cr_dt k))
     - sumn (cr_ns k) (fun a => slip_at e (local_values b w c) q a *
             scalar_microstress (cr_law k) (slip_at e (local_values b y c) q a) (slip_at e (local_values b old c) q a) (nth a (slip_res (r_bulk ry c q)) 0) (cr_dt k))
     = sumn (cr_ns k) (fun a => (slip_at e (local_values b x c) q a - slip_at e (local_values b y c) q a) *
         (scalar_microstress (cr_law k) (slip_at e (local_values b x c) q a) (slip_at e (local_values b old c) q a) (resistances_of rx c q a) (cr_dt k)
          - scalar_microstress (cr_law k) (slip_at e (local_values b y c) q a) (slip_at e (local_values b old c) q a) (resistances_of ry c q a) (cr_dt k)))).
  { rewrite <- sumn_minus. apply sumn_ext. intros a _. unfold w. rewrite slip_increment. unfold resistances_of. ring. }
  rewrite <- SS. ring.
Qed.

(** ** Interfaces that do not open *)
Lemma side_opposite z r c n : side_power b z r (increment y x) c n = - side_power b z r (increment x y) c n.
Proof.
  unfold side_power, interface_power. cbv zeta. rewrite <- sumn_opp. apply sumn_ext. intros q _.
  assert (A : forall s, sumn (el_nd (b_element b c)) (fun i => local_values b (increment y x) c i * fa_phi (b_face b c n) i q s) =
     - sumn (el_nd (b_element b c)) (fun i => local_values b (increment x y) c i * fa_phi (b_face b c n) i q s)).
  { intros s. rewrite <- sumn_opp. apply sumn_ext. intros i _. rewrite !local_increment. ring. }
  assert (B : forall a, sumn (el_nd (b_element b c)) (fun i => local_values b (increment y x) c i * fa_psi (b_face b c n) a i q) =
     - sumn (el_nd (b_element b c)) (fun i => local_values b (increment x y) c i * fa_psi (b_face b c n) a i q)).
  { intros s. rewrite <- sumn_opp. apply sumn_ext. intros i _. rewrite !local_increment. ring. }
  match goal with |- ?w * ((if ?D then ?f * dot ?d ?u ?v else 0) + (if ?M then ?g * sumn ?n ?p else 0)) = - (_ * ((if _ then _ * dot _ ?u' _ else 0) + (if _ then _ * sumn _ ?p' else 0))) =>
    assert (X : dot d u v = - dot d u' v); [|assert (Y : sumn n p = - sumn n p')] end.
  { unfold dot. rewrite <- sumn_opp. apply sumn_ext. intros s _. rewrite A. ring. }
  { rewrite <- sumn_opp. apply sumn_ext. intros a _. rewrite B. ring. }
  rewrite X, Y. destruct (if_decohesion _), (if_microtraction _); ring.
Qed.
Lemma sides_apart frames p0 : consistent b -> two_sided b -> stable_interfaces b frames p0 -> b_decohesion b = false ->
  lsum (fun c => lsum (side_power b x rx w c) (gb_neighbours b c)) (b_cells b) <= lsum (fun c => lsum (side_power b y ry w c) (gb_neighbours b c)) (b_cells b).
Proof.
  intros C T SI D.
  assert (Sym : forall z r, lsum (fun c => lsum (side_power b z r w c) (gb_neighbours b c)) (b_cells b) = lsum (fun c => lsum (fun n => side_power b z r w n c) (gb_neighbours b c)) (b_cells b)).
  { intros z r. apply both_sides; [apply C|]. intros c n Hc Hn. destruct SI as (_ & _ & _ & _ & SI). destruct (SI c n Hc Hn) as (A1 & A2 & _).
    destruct C as (_ & _ & _ & C2). destruct (C2 c n Hc Hn) as (A3 & _). auto. }
  assert (K : lsum (fun c => lsum (side_power b x rx w c) (gb_neighbours b c)) (b_cells b) + lsum (fun c => lsum (fun n => side_power b x rx w n c) (gb_neighbours b c)) (b_cells b)
    <= lsum (fun c => lsum (side_power b y ry w c) (gb_neighbours b c)) (b_cells b) + lsum (fun c => lsum (fun n => side_power b y ry w n c) (gb_neighbours b c)) (b_cells b)).
  { rewrite <- !lsum_plus. apply lsum_le. intros c Hc. rewrite <- !lsum_plus. apply lsum_le. intros n Hn.
    assert (G : forall z h r, grown b z h r) by (intros z h r E; congruence).
    pose proof (interface_balance b frames p0 y x ry rx c n C T SI (G _ _ _) Hc Hn) as B1. fold w in B1.
    pose proof (interface_balance b frames p0 x y rx ry c n C T SI (G _ _ _) Hc Hn) as B2. rewrite !side_opposite in B2. fold w in B2. lra. }
  rewrite <- !Sym in K. lra.
Qed.

(** The power the two solutions do on their difference tells how far they are apart. *)
Lemma power_apart frames p0 : consistent b -> two_sided b -> stable_interfaces b frames p0 -> b_decohesion b = false ->
  apart b old x y rx ry <= virtual_power b old y ry w - virtual_power b old x rx w.
Proof.
  intros C T SI D. rewrite apart_cells, !virtual_power_parts, !lsum_plus.
  pose proof (sides_apart frames p0 C T SI D) as S.
  rewrite (lsum_ext cell_apart (fun c => grain_power b old x rx w c - grain_power b old y ry w c)) by (intros; symmetry; apply grain_apart).
  rewrite lsum_minus.
  assert (E : forall z r, lsum (fun c => - grain_power b old z r w c) (b_cells b) = - lsum (grain_power b old z r w) (b_cells b)).
  { intros z r. clear. induction (b_cells b) as [|c l IH]; cbn; [ring|]. rewrite IH. ring. }
  rewrite !E. lra.
Qed.
End Two.

(** ** The trial solutions of a step *)
Lemma trial_resistance b old x h c q a : consistent b -> b_decohesion b = false -> initialised b h -> sound_histories b h -> no_latent_hardening b h ->
  In c (b_cells b) -> (q < b_nq b)%nat -> (a < b_ns b)%nat ->
  let p := prm (r_bulk h c q) in
  resistances_of (trial_histories b old x h) c q a = resistances_of h c q a +
    (if flag_perfect_plasticity p then 0 else linear_hardening_modulus p / char_res (r_bulk h c q)) *
    Rabs (slip_at (b_element b c) (local_values b x c) q a - slip_at (b_element b c) (local_values b old c) q a).
Proof.
  intros C D I S NL Hc Hq Ha p. pose proof C as (N & _). destruct S as (SB & _). destruct (SB c q Hc Hq) as (L & _).
  destruct (next_bulk b old x h c q N (or_intror D) I Hc Hq L) as (_ & _ & _ & E). specialize (E a Ha).
  rewrite (bulk_kept_by_finish b old x h c q N Hc Hq) in E. unfold resistances_of, trial_histories. rewrite E. f_equal. fold p.
  specialize (NL c q Hc Hq). cbv zeta in NL. fold p in NL. destruct (flag_perfect_plasticity p); [ring|].
  unfold hardening_increment. set (H := linear_hardening_modulus p / _). unfold slip_of.
  destruct NL as [NL|[NL|NL]]; [discriminate| |].
  - rewrite NL. rewrite (sumn_ext (b_ns b) _ (fun i => kron i a * (H * Rabs (slip_at (b_element b c) (local_values b x c) q i - slip_at (b_element b c) (local_values b old c) q i)))).
    + rewrite sumn_kron by exact Ha. reflexivity.
    + intros i _. rewrite (kron_sym i a). ring.
  - assert (b_ns b = 1)%nat as -> by lia. assert (a = 0)%nat as -> by lia. cbn [sumn]. unfold kron. cbn. ring.
Qed.

Section Step.
Variables (b : body) (old x y : vec) (h : rank_data).
Hypothesis C : consistent b.
Hypothesis D : b_decohesion b = false.
Hypothesis SM : stable_material b (macro_of b).
Hypothesis I : initialised b h.
Hypothesis S : sound_histories b h.
Hypothesis NL : no_latent_hardening b h.
Let rx := trial_histories b old x h.
Let ry := trial_histories b old y h.

Lemma slips_apart c q a : In c (b_cells b) -> (q < b_nq b)%nat -> (a < b_ns b)%nat ->
  let k := b_crystal b c in let e := b_element b c in
  let X := local_values b x c in let Y := local_values b y c in let O := local_values b old c in
  let z := (slip_at e X q a - slip_at e Y q a) *
         (scalar_microstress (cr_law k) (slip_at e X q a) (slip_at e O q a) (resistances_of rx c q a) (cr_dt k)
          - scalar_microstress (cr_law k) (slip_at e Y q a) (slip_at e O q a) (resistances_of ry c q a) (cr_dt k)) in
  0 <= z /\ (sl_rate_independent (cr_law k) = false -> z = 0 -> slip_at e X q a = slip_at e Y q a).
Proof.
  intros Hc Hq Ha k e X Y O z. unfold z, rx, ry. rewrite !trial_resistance by assumption.
  destruct (SM c Hc) as (_ & _ & _ & _ & _ & _ & _ & _ & _ & _ & _ & K & DT). cbv zeta in K, DT.
  destruct S as (SB & _). destruct (SB c q Hc Hq) as (_ & A1 & _ & A3). specialize (A3 a Ha).
  apply system_apart; try assumption. destruct (flag_perfect_plasticity _); [lra|exact A1].
Qed.
Lemma gradients_apart c q a : In c (b_cells b) ->
  let k := b_crystal b c in let e := b_element b c in let d := cr_dim k in
  let X := local_values b x c in let Y := local_values b y c in
  0 <= dot d (vsub (slip_gradient_at e X q a) (slip_gradient_at e Y q a))
           (fun i => val (vectorial_microstress (cr_factor k) (cr_p k) d (cr_dir k a) (cr_ort k a) (slip_gradient_at e X q a) i)
                   - val (vectorial_microstress (cr_factor k) (cr_p k) d (cr_dir k a) (cr_ort k a) (slip_gradient_at e Y q a) i)).
Proof.
  intros Hc k e d X Y. destruct C as (_ & _ & C1 & _). destruct (C1 c Hc) as (_ & _ & _ & _ & Hp & _).
  destruct (SM c Hc) as (_ & _ & _ & Hf & _). cbv zeta in Hf.
  rewrite dot_comm.
  rewrite (dot_ext d _ _ (vsub (vm (cr_factor k) (cr_p k) d (cr_dir k a) (cr_ort k a) (slip_gradient_at e X q a)) (vm (cr_factor k) (cr_p k) d (cr_dir k a) (cr_ort k a) (slip_gradient_at e Y q a)))
     (vsub (slip_gradient_at e X q a) (slip_gradient_at e Y q a))).
  - apply vm_monotone; assumption.
  - intros i _. rewrite !microstress_fin by exact Hp. reflexivity.
  - intros i _. reflexivity.
Qed.
Lemma strains_apart c q : In c (b_cells b) ->
  symmetric (cr_dim (b_crystal b c)) (msub (elastic_strain_of b (macro_of b) x c q) (elastic_strain_of b (macro_of b) y c q)).
Proof.
  intros Hc i j Hi Hj. destruct (SM c Hc) as (_ & _ & _ & _ & _ & _ & _ & _ & M & _). unfold msub.
  rewrite (elastic_symmetric b (macro_of b) (macro_of b) x c q SM Hc M i j Hi Hj), (elastic_symmetric b (macro_of b) (macro_of b) y c q SM Hc M i j Hi Hj). reflexivity.
Qed.
Lemma points_apart c q : In c (b_cells b) -> (q < b_nq b)%nat ->
  let k := b_crystal b c in let e := b_element b c in let d := cr_dim k in
  let X := local_values b x c in let Y := local_values b y c in let O := local_values b old c in
  let D := msub (elastic_strain_of b (macro_of b) x c q) (elastic_strain_of b (macro_of b) y c q) in
  let E := cr_N k 3 / cr_N k 0 * ddot d D (c4 d (cr_C k) D) in
  let G := cr_N k 2 * sumn (cr_ns k) (fun a =>
         dot d (vsub (slip_gradient_at e X q a) (slip_gradient_at e Y q a))
           (fun i => val (vectorial_microstress (cr_factor k) (cr_p k) d (cr_dir k a) (cr_ort k a) (slip_gradient_at e X q a) i)
                   - val (vectorial_microstress (cr_factor k) (cr_p k) d (cr_dir k a) (cr_ort k a) (slip_gradient_at e Y q a) i))) in
  let Z := sumn (cr_ns k) (fun a => (slip_at e X q a - slip_at e Y q a) *
         (scalar_microstress (cr_law k) (slip_at e X q a) (slip_at e O q a) (resistances_of rx c q a) (cr_dt k)
          - scalar_microstress (cr_law k) (slip_at e Y q a) (slip_at e O q a) (resistances_of ry c q a) (cr_dt k))) in
  0 <= el_w e q /\ 0 <= E /\ 0 <= G /\ 0 <= Z.
Proof.
  intros Hc Hq k e d X Y O DD E G Z. destruct (SM c Hc) as (W & N3 & N2 & _ & _ & PSD & _ & _ & _ & _ & NS & _).
  pose proof C as (_ & _ & C1 & _). destruct (C1 c Hc) as (_ & NQ & _).
  split; [apply W; rewrite NQ; exact Hq|]. split; [apply Rmult_le_pos; [exact N3|apply PSD, strains_apart, Hc]|].
  split; [apply Rmult_le_pos; [exact N2|apply sumn_nonneg; intros a _; apply gradients_apart, Hc]|].
  unfold Z, k. rewrite NS. apply sumn_nonneg. intros a Ha. apply slips_apart; assumption.
Qed.
Lemma cell_apart_nonneg c : In c (b_cells b) -> 0 <= cell_apart b old x y rx ry c.
Proof.
  intros Hc. unfold cell_apart. cbv zeta. apply sumn_nonneg. intros q Hq. pose proof C as (_ & _ & C1 & _). destruct (C1 c Hc) as (_ & NQ & _). rewrite NQ in Hq.
  destruct (points_apart c q Hc Hq) as (A1 & A2 & A3 & A4). apply Rmult_le_pos; [exact A1|]. cbv zeta in *. lra.
Qed.
Lemma apart_nonneg : 0 <= apart b old x y rx ry.
Proof. rewrite apart_cells. apply lsum_nonneg. intros c Hc. apply cell_apart_nonneg, Hc. Qed.
Lemma apart_zero c q : strict_grains b -> apart b old x y rx ry = 0 -> In c (b_cells b) -> (q < b_nq b)%nat ->
  (forall i j, (i < cr_dim (b_crystal b c))%nat -> (j < cr_dim (b_crystal b c))%nat -> strain_at (b_element b c) (local_values b (increment x y) c) q i j = 0) /\
  (forall a, (a < b_ns b)%nat -> slip_at (b_element b c) (local_values b (increment x y) c) q a = 0).
Proof.
  intros SG Z Hc Hq. rewrite apart_cells in Z.
  assert (Zc := lsum_zero_each _ _ cell_apart_nonneg Z c Hc).
  pose proof C as (_ & _ & C1 & _). destruct (C1 c Hc) as (_ & NQ & _). destruct (SG c Hc) as (RI & N3 & W & PD). cbv zeta in *.
  destruct (SM c Hc) as (_ & _ & _ & _ & _ & _ & _ & _ & _ & _ & NS & _).
  unfold cell_apart in Zc. cbv zeta in Zc. rewrite NQ in Zc.
  assert (Zq := sumn_zero_each (b_nq b) _ (fun q Hq => match points_apart c q Hc Hq with conj A1 (conj A2 (conj A3 A4)) =>
    Rmult_le_pos _ _ A1 (Rplus_le_le_0_compat _ _ (Rplus_le_le_0_compat _ _ A2 A3) A4) end) Zc q Hq). cbv beta in Zq.
  destruct (points_apart c q Hc Hq) as (A1 & A2 & A3 & A4). cbv zeta in *. specialize (W q Hq).
  apply Rmult_integral in Zq. destruct Zq as [Zq|Zq]; [lra|].
  match type of A2 with 0 <= ?u => assert (Z2 : u = 0) by lra end. match type of A4 with 0 <= ?u => assert (Z4 : u = 0) by lra end.
  assert (SL : forall a, (a < b_ns b)%nat -> slip_at (b_element b c) (local_values b (increment x y) c) q a = 0).
  { intros a Ha. rewrite NS in Z4. assert (Za := sumn_zero_each (b_ns b) _ (fun a Ha => proj1 (slips_apart c q a Hc Hq Ha)) Z4 a Ha). cbv beta in Za.
    rewrite slip_increment. rewrite (proj2 (slips_apart c q a Hc Hq Ha) RI Za). ring. }
  split; [|exact SL]. intros i j Hi Hj.
  apply Rmult_integral in Z2. destruct Z2 as [Z2|Z2]; [lra|].
  assert (F := PD _ (strains_apart c q Hc) Z2 i j Hi Hj). unfold msub, elastic_strain_of in F.
  assert (E : sumn (cr_ns (b_crystal b c)) (fun a => slip_at (b_element b c) (local_values b x c) q a * cr_P (b_crystal b c) a i j) =
    sumn (cr_ns (b_crystal b c)) (fun a => slip_at (b_element b c) (local_values b y c) q a * cr_P (b_crystal b c) a i j)).
  { apply sumn_ext. intros a Ha. rewrite NS in Ha. specialize (SL a Ha). rewrite slip_increment in SL. f_equal. lra. }
  rewrite strain_increment. rewrite E in F. lra.
Qed.
End Step.

(** ** The theorems *)
(** The residual is a monotone function of the trial solution. *)
Theorem C99_residual_is_monotone : forall b frames p0 old x y h,
  consistent b -> two_sided b -> b_decohesion b = false -> stable_material b (macro_of b) -> stable_interfaces b frames p0 ->
  initialised b h -> sound_histories b h -> no_latent_hardening b h ->
  let rx := trial_histories b old x h in let ry := trial_histories b old y h in
  0 <= apart b old x y rx ry <= virtual_power b old y ry (increment x y) - virtual_power b old x rx (increment x y).
Proof.
  intros b frames p0 old x y h C T D SM SI I S NL rx ry. split; [apply apart_nonneg; assumption|].
  apply (power_apart b old x y rx ry frames p0); assumption.
Qed.
(** Two solutions of the step have the same strains and slips at all points; if the body is held
    in place they are the same. *)
Theorem C99_at_most_one_solution : forall b frames p0 old x y h k,
  consistent b -> two_sided b -> b_decohesion b = false -> stable_material b (macro_of b) -> stable_interfaces b frames p0 ->
  initialised b h -> sound_histories b h -> no_latent_hardening b h -> strict_grains b ->
  same_supports b k x y -> solves_step b old h k x -> solves_step b old h k y ->
  (forall c q, In c (b_cells b) -> (q < b_nq b)%nat ->
     (forall i j, (i < cr_dim (b_crystal b c))%nat -> (j < cr_dim (b_crystal b c))%nat ->
        strain_at (b_element b c) (local_values b x c) q i j = strain_at (b_element b c) (local_values b y c) q i j) /\
     (forall a, (a < b_ns b)%nat -> slip_at (b_element b c) (local_values b x c) q a = slip_at (b_element b c) (local_values b y c) q a)) /\
  (held_in_place b k -> forall d, (d < b_ndofs b)%nat -> x d = y d).
Proof.
  intros b frames p0 old x y h k C T D SM SI I S NL SG SS Ex Ey.
  destruct (C99_residual_is_monotone b frames p0 old x y h C T D SM SI I S NL) as (A & B). cbv zeta in A, B.
  rewrite (Ex _ SS), (Ey _ SS) in B. assert (Z : apart b old x y (trial_histories b old x h) (trial_histories b old y h) = 0) by lra.
  assert (P := fun c q => apart_zero b old x y h C D SM I S NL c q SG Z). split.
  - intros c q Hc Hq. destruct (P c q Hc Hq) as (P1 & P2). split.
    + intros i j Hi Hj. specialize (P1 i j Hi Hj). rewrite strain_increment in P1. lra.
    + intros a Ha. specialize (P2 a Ha). rewrite slip_increment in P2. lra.
  - intros HP d Hd. pose proof (HP _ SS P d Hd) as E. unfold increment in E. lra.
Qed.

(** Two solutions obeying the same constraints differ by a motion at rest at the supports. *)
Lemma homogeneous_difference b c k x y : homogeneous_version c k -> SpecShear.obeys c x -> SpecShear.obeys c y -> same_supports b k x y.
Proof.
  intros HV X Y d es z Hd K. specialize (HV d). rewrite K in HV. destruct (c d) as [[es' z']|] eqn:E; [|contradiction]. destruct HV as (HV & _). subst es'.
  specialize (X d es z' E). specialize (Y d es z' E). unfold increment at 1. rewrite X, Y.
  assert (Q : lsum (fun e => snd e * increment x y (fst e)) es = lsum (fun e => snd e * x (fst e)) es - lsum (fun e => snd e * y (fst e)) es).
  { rewrite <- lsum_minus. apply lsum_ext. intros e _. unfold increment. ring. }
  rewrite Q. ring.
Qed.
(** Two solutions of the same step that were accepted, whatever algorithms, tolerances, initial
    guesses, linear solvers and line searches led to them, are as close as the tolerances say. *)
Theorem C99_accepted_solutions_are_close : forall b frames p0 e1 e2 sp1 sp2 a1 a2 fuel1 fuel2 t1 t2 oo1 oo2 s1 s2 r1 r2,
  consistent b -> two_sided b -> b_decohesion b = false -> stable_material b (macro_of b) -> stable_interfaces b frames p0 ->
  initialised b (st_hist s1) -> sound_histories b (st_hist s1) -> no_latent_hardening b (st_hist s1) ->
  works_on e1 b -> works_on e2 b -> rate_independent sp1 = false -> rate_independent sp2 = false ->
  st_hist s2 = st_hist s1 -> st_old s2 = st_old s1 -> p_newton (e_problem e2) = p_newton (e_problem e1) ->
  closed_below (b_ndofs b) (p_newton (e_problem e1)) ->
  solve_nonlinear_system e1 sp1 a1 fuel1 t1 oo1 s1 = Done r1 -> solve_nonlinear_system e2 sp2 a2 fuel2 t2 oo2 s2 = Done r2 ->
  well_formed_constraints a1 e1 -> well_formed_constraints a2 e2 ->
  p_affine (e_problem e2) = p_affine (e_problem e1) -> homogeneous_version (p_affine (e_problem e1)) (p_newton (e_problem e1)) ->
  let apart12 := apart b (st_old s1) (st_trial r1) (st_trial r2) (trial_histories b (st_old s1) (st_trial r1) (st_hist s1)) (trial_histories b (st_old s1) (st_trial r2) (st_hist s1)) in
  0 <= apart12 <= tolerated sp1 a1 b (increment (st_trial r1) (st_trial r2)) + tolerated sp2 a2 b (increment (st_trial r1) (st_trial r2)).
Proof.
  intros b frames p0 e1 e2 sp1 sp2 a1 a2 fuel1 fuel2 t1 t2 oo1 oo2 s1 s2 r1 r2 C T D SM SI I S NL W1 W2 RI1 RI2 EH EO EN CB S1 S2 F1 F2 EA HV.
  assert (SS : same_supports b (p_newton (e_problem e1)) (st_trial r1) (st_trial r2)).
  { apply (homogeneous_difference b _ _ _ _ HV); [exact (C97_accepted_solution_obeys_the_constraints _ _ _ _ _ _ _ _ _ F1 S1)|].
    rewrite <- EA. exact (C97_accepted_solution_obeys_the_constraints _ _ _ _ _ _ _ _ _ F2 S2). }
  assert (INT : forall e sp a fuel t oo s r, works_on e b -> initialised b (st_hist s) -> rate_independent sp = false ->
     solve_nonlinear_system e sp a fuel t oo s = Done r -> st_internal r = p_newton (e_problem e)).
  { intros e sp a fuel t oo s r (W & W' & _) Ii RI SV. pose proof C as (N & _).
    assert (HF : forgets_iterates (e_update e)) by (rewrite W'; apply body_forgets; [exact N|right; exact D]).
    destruct (accepted_step sp e HF _ _ _ _ _ _ (or_introl RI) SV) as (_ & _ & _ & _ & A5). rewrite (A5 RI).
    unfold merge, no_constraints. apply functional_extensionality. intros d. destruct (p_newton (e_problem e) d); reflexivity. }
  destruct (C99_residual_is_monotone b frames p0 (st_old s1) (st_trial r1) (st_trial r2) (st_hist s1) C T D SM SI I S NL) as (A & B). cbv zeta in A, B.
  split; [exact A|].
  assert (I2 : initialised b (st_hist s2)) by (rewrite EH; exact I).
  pose proof (INT _ _ _ _ _ _ _ _ W1 I RI1 S1) as N1. pose proof (INT _ _ _ _ _ _ _ _ W2 I2 RI2 S2) as N2. rewrite EN in N2.
  assert (Q1 := C92_accepted_solution_in_equilibrium b e1 sp1 a1 fuel1 t1 oo1 s1 r1 (increment (st_trial r1) (st_trial r2)) C (or_intror D) W1 I (or_introl RI1) S1
    ltac:(rewrite N1; exact CB) ltac:(rewrite N1; exact SS)).
  assert (Q2 := C92_accepted_solution_in_equilibrium b e2 sp2 a2 fuel2 t2 oo2 s2 r2 (increment (st_trial r1) (st_trial r2)) C (or_intror D) W2 I2 (or_introl RI2) S2
    ltac:(rewrite N2; exact CB) ltac:(rewrite N2; exact SS)).
  cbv zeta in Q1, Q2. rewrite EH, EO in Q2.
  fold (trial_histories b (st_old s1) (st_trial r1) (st_hist s1)) in Q1. fold (trial_histories b (st_old s1) (st_trial r2) (st_hist s1)) in Q2.
  assert (L1 : Rabs (virtual_power b (st_old s1) (st_trial r1) (trial_histories b (st_old s1) (st_trial r1) (st_hist s1)) (increment (st_trial r1) (st_trial r2)))
    <= tolerated sp1 a1 b (increment (st_trial r1) (st_trial r2))) by (unfold tolerated; destruct a1; exact Q1).
  assert (L2 : Rabs (virtual_power b (st_old s1) (st_trial r2) (trial_histories b (st_old s1) (st_trial r2) (st_hist s1)) (increment (st_trial r1) (st_trial r2)))
    <= tolerated sp2 a2 b (increment (st_trial r1) (st_trial r2))) by (unfold tolerated; destruct a2; exact Q2).
  assert (LB : forall u, - Rabs u <= u) by (intros u; pose proof (Rle_abs (- u)); rewrite Rabs_Ropp in H; lra).
  match type of L1 with Rabs ?u <= _ => pose proof (LB u) end. match type of L2 with Rabs ?u <= _ => pose proof (Rle_abs u) end. lra.
Qed.
