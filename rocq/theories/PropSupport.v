(** * C103: the supports balance the loads. *)
From Coq Require Import ZArith Lia Lra FunctionalExtensionality.
From Verif Require Import Num SumLemmas Tensors TensorLemmas ModelElastic ProofElastic ModelMicro SpecMicro ModelCohesive ProofCohesive ModelHistory ModelFEField ModelActiveSet ModelSolver
  ModelLoading ModelShear SpecShear PropShear ModelProgram SpecProgram PropProgram ModelLinear SpecLinear PropLinear ModelAssembly SpecAssembly
  ModelInterface ModelSweep PropSweep ModelStep SpecStep PropStep ModelBody SpecBody PropBody SpecTangent SpecRun SpecEnergy PropEnergy SpecMachine SpecSupport.
Open Scope R_scope.

(** ** Rigid motions *)
Lemma grain_rigid b old x r w c : rigid b w -> In c (b_cells b) ->
  grain_power b old x r w c = - sumn (el_nq (b_element b c)) (fun q => el_w (b_element b c) q * (cr_N (b_crystal b c) 3 / cr_N (b_crystal b c) 0 *
      dot (cr_dim (b_crystal b c)) (fun s => sumn (el_nd (b_element b c)) (fun i => local_values b w c i * el_phi (b_element b c) i q s)) (cr_supply (b_crystal b c) q))).
Proof.
  intros (R1 & _) Hc. unfold grain_power. cbv zeta. rewrite <- sumn_opp. apply sumn_ext. intros q Hq. destruct (R1 c q Hc Hq) as (E & S). cbv zeta in E, S.
  set (k := b_crystal b c) in *. set (e := b_element b c) in *. set (W := local_values b w c) in *. set (U := local_values b x c).
  assert (Z1 : ddot (cr_dim k) (elastic_strain (cr_N k 0) (cr_P k) (strain_at e W q) (slip_at e W q) (cr_ns k)) (stress_at k e U q) = 0).
  { unfold ddot. apply sumn_zero. intros i Hi. apply sumn_zero. intros j Hj. rewrite elastic_sum, (E i j Hi Hj).
    rewrite sumn_zero by (intros a Ha; rewrite (proj1 (S a Ha)); ring). ring. }
  rewrite Z1.
  match goal with |- context [cr_N k 2 * ?z] => assert (Z2 : z = 0) end.
  { apply sumn_zero. intros a Ha. unfold dot. apply sumn_zero. intros i Hi. rewrite (proj2 (S a Ha) i Hi). ring. }
  rewrite Z2.
  match goal with |- el_w e q * (_ + ?z) = _ => assert (Z3 : z = 0) end.
  { apply sumn_zero. intros a Ha. rewrite (proj1 (S a Ha)). ring. }
  rewrite Z3. ring.
Qed.
Lemma sides_rigid b x r w c n : consistent b -> two_sided b -> matching_interfaces b -> rigid b w -> In c (b_cells b) -> In n (gb_neighbours b c) ->
  side_power b x r w c n + side_power b x r w n c = 0.
Proof.
  intros C T MI (_ & R2) Hc Hn. destruct C as (_ & _ & _ & C2). destruct (C2 c n Hc Hn) as (Hn' & ND & NQ & DC & _).
  destruct (MI c n Hc Hn) as (_ & Hcn & M1 & M2 & M3 & M4 & M5 & M6 & M7 & M8 & FQ & FW).
  destruct (C2 n c Hn' Hcn) as (_ & ND' & NQ' & DC' & _). destruct (T c n Hc Hn) as (_ & TD & TF).
  assert (K : make_key n c = make_key c n) by apply PropSweep.make_key_sym.
  unfold side_power, interface_power. rewrite K, FQ. cbn [fh_damage fh_max fh_old]. cbv zeta. rewrite <- sumn_plus. apply sumn_zero. intros q Hq.
  rewrite (FW q Hq). destruct (TF q) as (EN & EP).
  destruct (R2 c n q Hc Hn Hq) as (O & S1). cbv zeta in O, S1.
  assert (Hq' : (q < fa_nq (b_face b n c))%nat) by (rewrite FQ; exact Hq).
  destruct (R2 n c q Hn' Hcn Hq') as (_ & S2). cbv zeta in S2.
  set (f := b_face b c n) in *. set (f' := b_face b n c) in *. set (p := b_interface b c n) in *. set (p' := b_interface b n c) in *.
  match goal with |- fa_w f q * (?A + ?B) + fa_w f q * (?A' + ?B') = 0 => assert (Z1 : B = 0); [|assert (Z2 : B' = 0); [|assert (Z3 : A + A' = 0)]] end.
  - destruct (if_microtraction p); [|reflexivity]. rewrite sumn_zero; [ring|]. intros a Ha. rewrite <- ND. fold (face_slip (fa_nd f) (fa_psi f) (local_values b w c) q a). rewrite (S1 a Ha). ring.
  - destruct (if_microtraction p'); [|reflexivity]. rewrite sumn_zero; [ring|]. intros a Ha. rewrite <- ND'. fold (face_slip (fa_nd f') (fa_psi f') (local_values b w n) q a). rewrite (S2 a Ha). ring.
  - rewrite DC, DC'. destruct (b_decohesion b); [|ring]. rewrite M1, M2, M3, M4, M5, M6, M7.
    set (delta := opening_at f (local_values b x c) (local_values b x n) q).
    assert (D1 : (fun r0 => sumn (fa_nd f) (fun j => local_values b x n j * fa_nphi f j q r0) - sumn (fa_nd f) (fun j => local_values b x c j * fa_phi f j q r0)) = delta) by reflexivity.
    assert (D2 : (fun r0 => sumn (fa_nd f') (fun j => local_values b x c j * fa_nphi f' j q r0) - sumn (fa_nd f') (fun j => local_values b x n j * fa_phi f' j q r0)) = vneg delta).
    { apply functional_extensionality. intros s. unfold vneg, delta, opening_at, vsub, face_displacement. rewrite TD.
      rewrite (sumn_ext (fa_nd f) (fun j => local_values b x c j * fa_nphi f' j q s) (fun j => local_values b x c j * fa_phi f j q s)) by (intros; rewrite (proj2 (EP _)); reflexivity).
      rewrite (sumn_ext (fa_nd f) (fun j => local_values b x n j * fa_phi f' j q s) (fun j => local_values b x n j * fa_nphi f j q s)) by (intros; rewrite (proj1 (EP _)); reflexivity).
      ring. }
    rewrite D1, D2, EN. unfold dot. rewrite <- Rmult_plus_distr_l, <- sumn_plus. rewrite sumn_zero; [ring|]. intros s Hs.
    rewrite traction_neg by assumption. rewrite contact_neg.
    assert (WE : sumn (el_nd (b_element b n)) (fun i => local_values b w n i * fa_phi f' i q s) = sumn (el_nd (b_element b c)) (fun i => local_values b w c i * fa_phi f i q s)).
    { specialize (O s Hs). unfold opening_at, vsub, face_displacement in O. rewrite <- ND, <- ND', TD.
      rewrite (sumn_ext (fa_nd f) (fun i => local_values b w n i * fa_phi f' i q s) (fun i => local_values b w n i * fa_nphi f i q s)) by (intros; rewrite (proj1 (EP _)); reflexivity). lra. }
    rewrite WE. destruct (cohesive_traction (if_dim p) (if_cohesive p) delta (fa_n f q) _ _ _ s); cbn [xneg val]; ring.
  - rewrite Z1, Z2. nra.
Qed.
(** The virtual power of any state on a rigid motion is the power of the loads. *)
Theorem C103_rigid_motions_feel_the_loads_only : forall b old x r w,
  consistent b -> two_sided b -> matching_interfaces b -> rigid b w -> virtual_power b old x r w = load_work b w.
Proof.
  intros b old x r w C T MI RI. rewrite virtual_power_parts. rewrite !lsum_plus.
  assert (F : lsum (fun c => lsum (side_power b x r w c) (gb_neighbours b c)) (b_cells b) = 0).
  { assert (B : lsum (fun c => lsum (side_power b x r w c) (gb_neighbours b c)) (b_cells b) = lsum (fun c => lsum (fun n => side_power b x r w n c) (gb_neighbours b c)) (b_cells b)).
    { apply both_sides; [apply C|]. intros c n Hc Hn. destruct (MI c n Hc Hn) as (A1 & A2 & _). destruct C as (_ & _ & _ & C2). destruct (C2 c n Hc Hn) as (A3 & _). auto. }
    assert (K : lsum (fun c => lsum (side_power b x r w c) (gb_neighbours b c)) (b_cells b) + lsum (fun c => lsum (fun n => side_power b x r w n c) (gb_neighbours b c)) (b_cells b) = 0).
    { rewrite <- lsum_plus. apply lsum_zero. intros c Hc. rewrite <- lsum_plus. apply lsum_zero. intros n Hn. apply sides_rigid; assumption. }
    rewrite <- B in K. lra. }
  rewrite F. unfold load_work. rewrite lsum_plus.
  rewrite (lsum_ext (fun c => - grain_power b old x r w c) (fun c => sumn (el_nq (b_element b c)) (fun q => el_w (b_element b c) q * (cr_N (b_crystal b c) 3 / cr_N (b_crystal b c) 0 *
      dot (cr_dim (b_crystal b c)) (fun s => sumn (el_nd (b_element b c)) (fun i => local_values b w c i * el_phi (b_element b c) i q s)) (cr_supply (b_crystal b c) q))))).
  - cbv zeta. ring.
  - intros c Hc. rewrite (grain_rigid b old x r w c RI Hc). ring.
Qed.

Lemma resultant_of_translation b i w : (forall c, In c (b_cells b) -> (i < cr_dim (b_crystal b c))%nat) -> translation b i w -> load_work b w = resultant b i.
Proof.
  intros Hi (_ & T). unfold load_work, resultant. apply lsum_ext. intros c Hc. destruct (T c Hc) as (T1 & T2). cbv zeta in T1, T2. cbv zeta.
  specialize (Hi c Hc). f_equal.
  - apply sumn_ext. intros q Hq. f_equal. f_equal. unfold dot. rewrite (sumn_ext _ _ (fun s => kron s i * cr_supply (b_crystal b c) q s)) by (intros s _; rewrite T1 by exact Hq; reflexivity).
    apply sumn_kron. exact Hi.
  - apply lsum_ext. intros f Hf. unfold load_power. apply sumn_ext. intros q Hq. f_equal. unfold dot.
    rewrite (sumn_ext _ _ (fun s => kron s i * nf_traction f q s)) by (intros s _; rewrite (T2 f q s Hf Hq); reflexivity). apply sumn_kron. exact Hi.
Qed.

(** ** The virtual power is linear in the motion *)
Lemma interface_linear p f h U Un w w' s s' : interface_power p f h U Un (fun q r => w q r - w' q r) (fun q a => s q a - s' q a) =
  interface_power p f h U Un w s - interface_power p f h U Un w' s'.
Proof.
  unfold interface_power. cbv zeta. rewrite <- sumn_minus. apply sumn_ext. intros q _. 
  set (t := fun r => degraded _ _ _ * val _ + contact_traction _ _ _ _ r). set (m := microtraction _ _ _ _ _ _). set (g := degraded (if_exponent p) _ (if_couple_micro p)).
  assert (E1 : dot (if_dim p) (fun r => w q r - w' q r) t = dot (if_dim p) (w q) t - dot (if_dim p) (w' q) t).
  { unfold dot. rewrite <- sumn_minus. apply sumn_ext. intros; ring. }
  assert (E2 : sumn (if_ns p) (fun a => (s q a - s' q a) * m a) = sumn (if_ns p) (fun a => s q a * m a) - sumn (if_ns p) (fun a => s' q a * m a)).
  { rewrite <- sumn_minus. apply sumn_ext. intros; ring. }
  rewrite E1, E2. destruct (if_decohesion p), (if_microtraction p); ring.
Qed.
Lemma power_minus b old x r u v : virtual_power b old x r (increment u v) = virtual_power b old x r u - virtual_power b old x r v.
Proof.
  rewrite !virtual_power_parts. rewrite <- lsum_minus. apply lsum_ext. intros c Hc.
  assert (A : grain_power b old x r (increment u v) c = grain_power b old x r u c - grain_power b old x r v c).
  { unfold grain_power. cbv zeta. rewrite <- sumn_minus. apply sumn_ext. intros q _.
    set (k := b_crystal b c). set (e := b_element b c). set (S := stress_at k e (local_values b x c) q).
    assert (E1 : ddot (cr_dim k) (elastic_strain (cr_N k 0) (cr_P k) (strain_at e (local_values b (increment u v) c) q) (slip_at e (local_values b (increment u v) c) q) (cr_ns k)) S =
      ddot (cr_dim k) (elastic_strain (cr_N k 0) (cr_P k) (strain_at e (local_values b u c) q) (slip_at e (local_values b u c) q) (cr_ns k)) S -
      ddot (cr_dim k) (elastic_strain (cr_N k 0) (cr_P k) (strain_at e (local_values b v c) q) (slip_at e (local_values b v c) q) (cr_ns k)) S).
    { unfold ddot. rewrite <- sumn_minus. apply sumn_ext. intros i _. rewrite <- sumn_minus. apply sumn_ext. intros j _. rewrite !elastic_sum, strain_increment.
      rewrite (sumn_ext (cr_ns k) _ (fun a => slip_at e (local_values b u c) q a * cr_P k a i j - slip_at e (local_values b v c) q a * cr_P k a i j)) by (intros a _; rewrite slip_increment; ring).
      rewrite sumn_minus. ring. }
    assert (E2 : dot (cr_dim k) (fun s => sumn (el_nd e) (fun i => local_values b (increment u v) c i * el_phi e i q s)) (cr_supply k q) =
      dot (cr_dim k) (fun s => sumn (el_nd e) (fun i => local_values b u c i * el_phi e i q s)) (cr_supply k q) -
      dot (cr_dim k) (fun s => sumn (el_nd e) (fun i => local_values b v c i * el_phi e i q s)) (cr_supply k q)).
    { unfold dot. rewrite <- sumn_minus. apply sumn_ext. intros s _.
      rewrite (sumn_ext (el_nd e) _ (fun i => local_values b u c i * el_phi e i q s - local_values b v c i * el_phi e i q s)) by (intros i _; rewrite local_increment; ring).
      rewrite sumn_minus. ring. }
    rewrite E1, E2. clear E1 E2.
    match goal with |- _ * (_ + _ * ?G + ?D) = _ * (_ + _ * ?G1 + ?D1) - _ * (_ + _ * ?G2 + ?D2) => assert (E3 : G = G1 - G2); [|assert (E4 : D = D1 - D2)] end.
    - rewrite <- sumn_minus. apply sumn_ext. intros a _. rewrite <- dot_sub_l. apply dot_ext; [intros i _; apply gradient_increment|reflexivity].
    - rewrite <- sumn_minus. apply sumn_ext. intros a _. rewrite slip_increment. ring.
    - rewrite E3, E4. ring. }
  assert (B : lsum (side_power b x r (increment u v) c) (gb_neighbours b c) = lsum (side_power b x r u c) (gb_neighbours b c) - lsum (side_power b x r v c) (gb_neighbours b c)).
  { rewrite <- lsum_minus. apply lsum_ext. intros n _. unfold side_power. cbv zeta. rewrite <- interface_linear. f_equal.
    - apply functional_extensionality. intros q. apply functional_extensionality. intros s. rewrite <- sumn_minus. apply sumn_ext. intros i _. rewrite local_increment. ring.
    - apply functional_extensionality. intros q. apply functional_extensionality. intros s. rewrite <- sumn_minus. apply sumn_ext. intros i _. rewrite local_increment. ring. }
  rewrite A, B.
  match goal with |- _ + ?L = _ + ?L1 - (_ + ?L2) => assert (D : L = L1 - L2) end.
  { rewrite <- lsum_minus. apply lsum_ext. intros f _. unfold load_power. rewrite <- sumn_minus. apply sumn_ext. intros q _. unfold dot. rewrite <- Rmult_minus_distr_l. f_equal. rewrite <- sumn_minus. apply sumn_ext. intros s _.
    rewrite (sumn_ext (el_nd (b_element b c)) _ (fun i => local_values b u c i * nf_phi f i q s - local_values b v c i * nf_phi f i q s)) by (intros i _; rewrite local_increment; ring).
    rewrite sumn_minus. ring. }
  rewrite D. ring.
Qed.

(** ** Accepted steps *)
Lemma passing_admissible n k w : lines_are_closed k -> admissible n k (passing k w).
Proof.
  intros CL d es z _ E. unfold passing at 1, obstructed at 1. rewrite E.
  assert (X : lsum (fun f => snd f * passing k w (fst f)) es = lsum (fun f => snd f * w (fst f)) es).
  { apply lsum_ext. intros [f a] Hf. cbn [fst snd]. unfold passing, obstructed. rewrite (CL d es z f a E Hf). ring. }
  rewrite X. ring.
Qed.
(** In an accepted step the supports balance the loads, as to every translation and rotation. *)
Theorem C103_supports_balance_the_loads : forall b e sp a fuel t oo s r w,
  consistent b -> exponential_damage_only b -> two_sided b -> matching_interfaces b -> works_on e b -> initialised b (st_hist s) ->
  rate_independent sp = false \/ a <> Monolithic ->
  solve_nonlinear_system e sp a fuel t oo s = Done r -> closed_below (b_ndofs b) (st_internal r) -> rigid b w ->
  let iv := body_update b (st_old s) (st_trial r) (body_store b (st_hist s)) in
  Rabs (support_work b (st_old s) (st_trial r) iv (obstructed (st_internal r) w) + load_work b w) <= tolerated sp a b (passing (st_internal r) w).
Proof.
  intros b e sp a fuel t oo s r w C M T MI W I Ha E CB RW iv.
  pose proof (C92_accepted_solution_in_equilibrium b e sp a fuel t oo s r _ C M W I Ha E CB (passing_admissible _ _ w (proj1 CB))) as Q. cbv zeta in Q. fold iv in Q.
  change (passing (st_internal r) w) with (increment w (obstructed (st_internal r) w)) in Q at 1.
  rewrite power_minus, (C103_rigid_motions_feel_the_loads_only b _ _ _ w C T MI RW) in Q.
  unfold support_work. replace (- virtual_power b (st_old s) (st_trial r) iv (obstructed (st_internal r) w) + load_work b w) with (load_work b w - virtual_power b (st_old s) (st_trial r) iv (obstructed (st_internal r) w)) by ring.
  destruct a; exact Q.
Qed.

(** ** The shear test *)
Lemma edges_split {H} (p : program H) w : obstructed_at_edges p w ->
  obstructed (newton_of (pr_strip p)) w = increment (edge_motion p 2 w) (fun d => - edge_motion p 3 w d).
Proof.
  intros (O1 & O2). apply functional_extensionality. intros d. unfold increment, edge_motion. specialize (O1 d). specialize (O2 d).
  destruct (on_edge p 2 d), (on_edge p 3 d); try ring.
  - rewrite O2 by reflexivity. ring.
  - destruct (Req_dec (obstructed (newton_of (pr_strip p)) w d) 0) as [Z|Z]; [rewrite Z; ring|]. destruct (O1 Z); discriminate.
Qed.
Lemma power_neg b old x r v : virtual_power b old x r (fun d => - v d) = - virtual_power b old x r v.
Proof.
  assert (E : (fun d => - v d) = increment (increment v v) v) by (apply functional_extensionality; intros d; unfold increment; ring).
  rewrite E, !power_minus. ring.
Qed.
Lemma balance_of_equilibrium (p : program rank_data) i w : lines_are_closed (newton_of (pr_strip p)) -> obstructed_at_edges p w ->
  forall bs xs old h, (forall b, In b bs -> consistent b /\ two_sided b /\ matching_interfaces b /\ translation b i w /\ forall c, In c (b_cells b) -> (i < cr_dim (b_crystal b c))%nat) ->
  equilibrium_of_run p bs xs old h -> edges_in_balance p i w bs xs old h.
Proof.
  intros CL OE. induction bs as [|b bs IH]; intros xs old h HB EQ; destruct xs as [|x xs]; try exact EQ.
  cbn [equilibrium_of_run edges_in_balance] in *. destruct EQ as (Q & EQ). destruct (HB b (or_introl eq_refl)) as (C & T & MI & TR & DI).
  split; [|apply IH; [intros b' Hb'; apply HB; right; exact Hb'|exact EQ]].
  specialize (Q _ (passing_admissible _ _ w CL)). change (passing (newton_of (pr_strip p)) w) with (increment w (obstructed (newton_of (pr_strip p)) w)) in Q at 1.
  rewrite power_minus, (C103_rigid_motions_feel_the_loads_only b _ _ _ w C T MI (proj1 TR)), (resultant_of_translation b i w DI TR) in Q.
  rewrite (edges_split p w OE), power_minus, power_neg in Q.
  unfold edge_force, support_work.
  set (l := resultant b i) in *. set (v2 := virtual_power b old x _ (edge_motion p 2 w)) in *. set (v3 := virtual_power b old x _ (edge_motion p 3 w)) in *.
  replace (- v2 + - v3 + l) with (l - (v2 - - v3)) by ring. unfold tolerated. destruct (pr_algorithm p); exact Q.
Qed.
(** In every accepted step of a shear test the forces of the upper and of the lower edge and the
    loads balance. *)
Theorem C103_edges_balance_in_the_shear_test : forall (p : program rank_data) bodies b0 a inner fuel oo s tr e i w,
  on_bodies p bodies b0 -> initialised b0 (st_hist s) -> rate_independent (pr_parameters p) = false ->
  (forall k dt, closed_below (b_ndofs (bodies k dt)) (newton_of (pr_strip p)) /\ two_sided (bodies k dt) /\ matching_interfaces (bodies k dt) /\
     translation (bodies k dt) i w /\ forall c, In c (b_cells (bodies k dt)) -> (i < cr_dim (b_crystal (bodies k dt) c))%nat) ->
  obstructed_at_edges p w ->
  program_run p a inner fuel oo s = (tr, e) ->
  edges_in_balance p i w (bodies_of bodies a 0 start_time (times_of tr)) (map (fun x => st_trial (ac_state x)) tr) (st_old s) (st_hist s).
Proof.
  intros p bodies b0 a inner fuel oo s tr e i w OB HI RI HB OE E.
  apply balance_of_equilibrium.
  - exact (proj1 (proj1 (HB 0%nat 0))).
  - exact OE.
  - assert (G : forall times k cur b, In b (bodies_of bodies a k cur times) -> exists m dt, b = bodies m dt).
    { induction times as [|t times IH]; intros k cur b; [intros []|]. cbn [bodies_of]. intros [<-|X]; [eauto|eauto]. }
    intros b Hb. destruct (G _ _ _ _ Hb) as (m & dt & ->). destruct (OB m dt) as (C & _). destruct (HB m dt) as (_ & T & MI & TR & DI). auto.
  - apply (C97_rate_dependent_run_in_equilibrium p bodies b0 a inner fuel oo s tr e); try assumption. intros k dt. apply HB.
Qed.
Lemma power_times b old x r t v : virtual_power b old x r (fun d => t * v d) = t * virtual_power b old x r v.
Proof.
  rewrite !virtual_power_parts. rewrite <- lsum_scale. apply lsum_ext. intros c Hc. set (u := fun d => t * v d).
  assert (LU : forall m i, local_values b u m i = t * local_values b v m i) by reflexivity.
  assert (SU : forall n (g : nat -> R), sumn n (fun i => local_values b u c i * g i) = t * sumn n (fun i => local_values b v c i * g i)).
  { intros n g. rewrite <- sumn_scal. apply sumn_ext. intros i _. rewrite LU. ring. }
  assert (A : grain_power b old x r u c = t * grain_power b old x r v c).
  { unfold grain_power. cbv zeta. rewrite <- sumn_scal. apply sumn_ext. intros q _.
    set (k := b_crystal b c). set (e := b_element b c). set (S := stress_at k e (local_values b x c) q).
    assert (SL : forall a, slip_at e (local_values b u c) q a = t * slip_at e (local_values b v c) q a) by (intros a; apply SU).
    assert (E1 : ddot (cr_dim k) (elastic_strain (cr_N k 0) (cr_P k) (strain_at e (local_values b u c) q) (slip_at e (local_values b u c) q) (cr_ns k)) S =
      t * ddot (cr_dim k) (elastic_strain (cr_N k 0) (cr_P k) (strain_at e (local_values b v c) q) (slip_at e (local_values b v c) q) (cr_ns k)) S).
    { unfold ddot. rewrite <- sumn_scal. apply sumn_ext. intros i _. rewrite <- sumn_scal. apply sumn_ext. intros j _. rewrite !elastic_sum.
      unfold strain_at. rewrite (SU (el_nd e) (fun n => el_eps e n q i j)).
      rewrite (sumn_ext (cr_ns k) _ (fun a => t * (slip_at e (local_values b v c) q a * cr_P k a i j))) by (intros a _; rewrite SL; ring).
      rewrite sumn_scal. ring. }
    assert (E2 : dot (cr_dim k) (fun s => sumn (el_nd e) (fun i => local_values b u c i * el_phi e i q s)) (cr_supply k q) =
      t * dot (cr_dim k) (fun s => sumn (el_nd e) (fun i => local_values b v c i * el_phi e i q s)) (cr_supply k q)).
    { unfold dot. rewrite <- sumn_scal. apply sumn_ext. intros s _. rewrite (SU (el_nd e) (fun n => el_phi e n q s)). ring. }
    rewrite E1, E2. clear E1 E2.
    match goal with |- _ * (_ + _ * ?G + ?D) = _ * (_ * (_ + _ * ?G1 + ?D1)) => assert (E3 : G = t * G1); [|assert (E4 : D = t * D1)] end.
    - rewrite <- sumn_scal. apply sumn_ext. intros a _. unfold dot. rewrite <- sumn_scal. apply sumn_ext. intros i _. unfold slip_gradient_at. rewrite (SU (el_nd e) (fun n => el_dpsi e a n q i)). ring.
    - rewrite <- sumn_scal. apply sumn_ext. intros a _. rewrite SL. ring.
    - rewrite E3, E4. ring. }
  assert (B : lsum (side_power b x r u c) (gb_neighbours b c) = t * lsum (side_power b x r v c) (gb_neighbours b c)).
  { rewrite <- lsum_scale. apply lsum_ext. intros n _. unfold side_power. cbv zeta. set (p := b_interface b c n). set (f := b_face b c n).
    unfold interface_power. cbv zeta. rewrite <- sumn_scal. apply sumn_ext. intros q _.
    set (tr := fun r => degraded _ _ _ * val _ + contact_traction _ _ _ _ r). set (m := microtraction _ _ _ _ _ _). set (g := degraded (if_exponent p) _ (if_couple_micro p)).
    match goal with |- _ * ((if _ then _ * ?D else 0) + (if _ then _ * g * ?M else 0)) = t * (_ * ((if _ then _ * ?D1 else 0) + (if _ then _ * g * ?M1 else 0))) => assert (E1 : D = t * D1); [|assert (E2 : M = t * M1)] end.
    - unfold dot. rewrite <- sumn_scal. apply sumn_ext. intros s _. rewrite (SU (el_nd (b_element b c)) (fun i => fa_phi f i q s)). ring.
    - rewrite <- sumn_scal. apply sumn_ext. intros a _. rewrite (SU (el_nd (b_element b c)) (fun i => fa_psi f a i q)). ring.
    - rewrite E1, E2. destruct (if_decohesion p), (if_microtraction p); ring. }
  rewrite A, B.
  match goal with |- _ + ?L = t * (_ + ?L1) => assert (D : L = t * L1) end.
  { rewrite <- lsum_scale. apply lsum_ext. intros f _. unfold load_power. rewrite <- sumn_scal. apply sumn_ext. intros q _.
    rewrite (dot_ext _ _ (nf_traction f q) (fun s => t * sumn (el_nd (b_element b c)) (fun i => local_values b v c i * nf_phi f i q s)) (nf_traction f q)); [|intros s _; apply (SU _ (fun i => nf_phi f i q s))|reflexivity].
    unfold dot. rewrite (sumn_ext _ _ (fun s => t * (sumn (el_nd (b_element b c)) (fun i => local_values b v c i * nf_phi f i q s) * nf_traction f q s))) by (intros; ring). rewrite sumn_scal. ring. }
  rewrite D. ring.
Qed.
(** The power of the machine (C101) is the force of the upper edge times its velocity [v]. *)
Theorem C103_machine_acts_through_the_upper_edge : forall (p : program rank_data) b old x iv w v,
  (forall d, crosshead p d = v * edge_motion p 3 w d) -> machine_power p b old x iv = v * edge_force p 3 w b old x iv.
Proof.
  intros p b old x iv w v E. unfold machine_power, edge_force, support_work.
  replace (crosshead p) with (fun d => v * edge_motion p 3 w d) by (apply functional_extensionality; intros d; symmetry; apply E).
  rewrite power_times. ring.
Qed.
