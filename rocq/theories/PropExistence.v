(** * C109: every time step of a stable body has exactly one solution. *)
From Coq Require Import FunctionalExtensionality.
From Verif Require Import Num ModelShear SpecShear ModelProgram SpecProgram PropProgram SumLemmas Tensors TensorLemmas ModelUtilities ModelElastic SpecElastic ProofElastic ModelMicro SpecMicro ProofMicro PropMicro
  ModelCohesive SpecCohesive ProofCohesive ModelHistory SpecHistory ModelInterface SpecInterface
  ModelFEField ModelActiveSet ModelLinear SpecLinear PropLinear ModelAssembly SpecAssembly ProofAssembly ProofFace
  ModelSolver ModelSweep SpecSweep PropSweep ModelStep SpecStep ProofStep PropStep ModelBody SpecBody PropBody SpecTangent SpecRun PropRun
  SpecEnergy ProofEnergy PropEnergy SpecStiffness SpecUnique PropUnique ProofMinimum ProofBound ProofPotential SpecExistence.
Open Scope R_scope.

(** ** Linear functionals of the nodal values *)
Lemma lin_scal n a l : linear_on n l -> linear_on n (fun v => a * l v).
Proof. intros (A & B). split; [intros k x y; rewrite A; ring|intros x y E; rewrite (B x y E); reflexivity]. Qed.
Lemma lin_scal_r n a l : linear_on n l -> linear_on n (fun v => l v * a).
Proof. intros (A & B). split; [intros k x y; rewrite A; ring|intros x y E; rewrite (B x y E); reflexivity]. Qed.
Lemma lin_plus n l m : linear_on n l -> linear_on n m -> linear_on n (fun v => l v + m v).
Proof. intros (A & B) (A' & B'). split; [intros k x y; rewrite A, A'; ring|intros x y E; rewrite (B x y E), (B' x y E); reflexivity]. Qed.
Lemma lin_minus n l m : linear_on n l -> linear_on n m -> linear_on n (fun v => l v - m v).
Proof. intros (A & B) (A' & B'). split; [intros k x y; rewrite A, A'; ring|intros x y E; rewrite (B x y E), (B' x y E); reflexivity]. Qed.
Lemma lin_opp n l : linear_on n l -> linear_on n (fun v => - l v).
Proof. intros (A & B). split; [intros k x y; rewrite A; ring|intros x y E; rewrite (B x y E); reflexivity]. Qed.
Lemma lin_zero n : linear_on n (fun _ => 0).
Proof. split; intros; ring. Qed.
Lemma lin_sumn n m (f : nat -> vec -> R) : (forall i, (i < m)%nat -> linear_on n (f i)) -> linear_on n (fun v => sumn m (fun i => f i v)).
Proof. intros H. induction m as [|m IH]; cbn [sumn]; [apply lin_zero|]. apply lin_plus; [apply IH; intros; apply H; lia|apply H; lia]. Qed.
Lemma lin_lsum {A} n (l : list A) (f : A -> vec -> R) : (forall i, In i l -> linear_on n (f i)) -> linear_on n (fun v => lsum (fun i => f i v) l).
Proof. intros H. induction l as [|i l IH]; cbn [lsum]; [apply lin_zero|]. apply lin_plus; [apply H; left; reflexivity|apply IH; intros; apply H; right; assumption]. Qed.
Lemma lin_ext n l m : (forall v, l v = m v) -> linear_on n l -> linear_on n m.
Proof. intros E (A & B). split; [intros k x y; rewrite <- !E; apply A|intros x y H; rewrite <- !E; apply B, H]. Qed.

Section Nodal.
Variables (b : body) (c : nat).
Hypothesis C : consistent b.
Hypothesis Hc : In c (b_cells b).
Let n := b_ndofs b.
Lemma lin_local i : (i < el_nd (b_element b c))%nat -> linear_on n (fun v => local_values b v c i).
Proof.
  intros Hi. destruct C as (_ & _ & C1 & _). destruct (C1 c Hc) as (A & _ & B & _). split; [intros; reflexivity|].
  intros x y E. apply E. apply B. rewrite A. exact Hi.
Qed.
Lemma lin_nodal (s : nat -> R) : linear_on n (fun v => sumn (el_nd (b_element b c)) (fun i => local_values b v c i * s i)).
Proof. apply (lin_sumn n _ (fun i v => local_values b v c i * s i)). intros i Hi. apply lin_scal_r, lin_local, Hi. Qed.
Lemma lin_strain q i j : linear_on n (fun v => strain_at (b_element b c) (local_values b v c) q i j).
Proof. apply lin_nodal. Qed.
Lemma lin_slip q a : linear_on n (fun v => slip_at (b_element b c) (local_values b v c) q a).
Proof. apply lin_nodal. Qed.
Lemma lin_gradient q a i : linear_on n (fun v => slip_gradient_at (b_element b c) (local_values b v c) q a i).
Proof. apply lin_nodal. Qed.
Lemma lin_dot d (f : nat -> vec -> R) u : (forall i, (i < d)%nat -> linear_on n (f i)) -> linear_on n (fun v => dot d (fun i => f i v) u).
Proof. intros H. apply (lin_sumn n d (fun i v => f i v * u i)). intros i Hi. apply lin_scal_r, H, Hi. Qed.
Lemma lin_elastic q i j : linear_on n (fun v => elastic_strain_of b (fun _ _ _ => 0) v c q i j).
Proof.
  unfold elastic_strain_of. cbv zeta. apply lin_plus; [apply lin_zero|]. apply lin_minus; [apply lin_strain|]. apply lin_scal.
  apply (lin_sumn n _ (fun a v => slip_at (b_element b c) (local_values b v c) q a * cr_P (b_crystal b c) a i j)). intros a _. apply lin_scal_r, lin_slip.
Qed.
End Nodal.

(** ** The incremental energy: stored energy, potential of the dissipative microstresses, loads *)
Section Energy.
Variables (b : body) (frames : nat -> frame) (p0 : interface) (old : vec) (h : rank_data).
Hypothesis C : consistent b.
Hypothesis T : two_sided b.
Hypothesis D : b_decohesion b = false.
Hypothesis SM : stable_material b (macro_of b).
Hypothesis SI : stable_interfaces b frames p0.
Hypothesis I : initialised b h.
Hypothesis SH : sound_histories b h.
Hypothesis NL : no_latent_hardening b h.
Hypothesis SG : strict_grains b.
Definition own_hardening (c q : nat) : R :=
  if flag_perfect_plasticity (prm (r_bulk h c q)) then 0 else linear_hardening_modulus (prm (r_bulk h c q)) / char_res (r_bulk h c q).
Definition old_slip (c q a : nat) : R := slip_at (b_element b c) (local_values b old c) q a.
Definition stress_of (c q a : nat) : R -> R :=
  trial_stress (cr_law (b_crystal b c)) (old_slip c q a) (resistances_of h c q a) (own_hardening c q) (cr_dt (b_crystal b c)).
Definition system_potential (c q a : nat) (x : vec) : R := potential (stress_of c q a) (old_slip c q a) (slip_at (b_element b c) (local_values b x c) q a).
Definition slip_potential (x : vec) : R :=
  lsum (fun c => sumn (el_nq (b_element b c)) (fun q => el_w (b_element b c) q * sumn (cr_ns (b_crystal b c)) (fun a => system_potential c q a x))) (b_cells b).
Definition stored (x : vec) : R := stored_energy b frames (macro_of b) x h.
Definition incremental (x : vec) : R := stored x + slip_potential x - load_work b x.
Definition slip_work (o x w : vec) (r : rank_data) : R :=
  lsum (fun c => let k := b_crystal b c in let e := b_element b c in
    sumn (el_nq e) (fun q => el_w e q * sumn (cr_ns k) (fun a => slip_at e (local_values b w c) q a *
             scalar_microstress (cr_law k) (slip_at e (local_values b x c) q a) (slip_at e (local_values b o c) q a) (resistances_of r c q a) (cr_dt k)))) (b_cells b).

Lemma system_data c q a : In c (b_cells b) -> (q < b_nq b)%nat -> (a < b_ns b)%nat ->
  sl_rate_independent (cr_law (b_crystal b c)) = false /\ 0 < cr_dt (b_crystal b c) /\ 0 < sl_k (cr_law (b_crystal b c)) /\ 0 < resistances_of h c q a /\ 0 <= own_hardening c q.
Proof.
  intros Hc Hq Ha. destruct (SG c Hc) as (RI & _). destruct (SM c Hc) as (_ & _ & _ & _ & _ & _ & _ & _ & _ & _ & _ & K & DT). cbv zeta in *.
  destruct SH as (SB & _). destruct (SB c q Hc Hq) as (_ & A1 & _ & A3). specialize (A3 a Ha).
  repeat split; try assumption. unfold own_hardening. destruct (flag_perfect_plasticity _); [lra|exact A1].
Qed.
Lemma stress_of_trial x c q a : In c (b_cells b) -> (q < b_nq b)%nat -> (a < b_ns b)%nat ->
  stress_of c q a (slip_at (b_element b c) (local_values b x c) q a) =
  scalar_microstress (cr_law (b_crystal b c)) (slip_at (b_element b c) (local_values b x c) q a) (old_slip c q a) (resistances_of (trial_histories b old x h) c q a) (cr_dt (b_crystal b c)).
Proof. intros Hc Hq Ha. rewrite (trial_resistance b old x h c q a C D I SH NL Hc Hq Ha). reflexivity. Qed.
Lemma sizes c : In c (b_cells b) -> el_nq (b_element b c) = b_nq b /\ cr_ns (b_crystal b c) = b_ns b.
Proof. intros Hc. destruct C as (_ & _ & C1 & _). destruct (C1 c Hc) as (_ & NQ & _). destruct (SM c Hc) as (_ & _ & _ & _ & _ & _ & _ & _ & _ & _ & NS & _). auto. Qed.
Lemma weight_nonneg c q : In c (b_cells b) -> (q < b_nq b)%nat -> 0 <= el_w (b_element b c) q.
Proof. intros Hc Hq. destruct (SM c Hc) as (W & _). apply W. rewrite (proj1 (sizes c Hc)). exact Hq. Qed.

Lemma slip_slope x y : slip_potential x - slip_potential y <= slip_work old x (increment x y) (trial_histories b old x h).
Proof.
  unfold slip_potential, slip_work. rewrite <- lsum_minus. apply lsum_le. intros c Hc. destruct (sizes c Hc) as (NQ & NS). cbv zeta. rewrite NQ, NS.
  rewrite <- sumn_minus. apply sumn_le. intros q Hq. rewrite <- Rmult_minus_distr_l. apply Rmult_le_compat_l; [apply weight_nonneg; assumption|].
  rewrite <- sumn_minus. apply sumn_le. intros a Ha. destruct (system_data c q a Hc Hq Ha) as (A1 & A2 & A3 & A4 & A5).
  fold (old_slip c q a). rewrite <- (stress_of_trial x c q a Hc Hq Ha). rewrite slip_increment. unfold system_potential.
  pose proof (potential_slope (stress_of c q a) (old_slip c q a) (trial_continuous _ _ _ _ _ A1 A3) (trial_increasing _ _ _ _ _ A2 A3 A4 A5)
    (slip_at (b_element b c) (local_values b x c) q a) (slip_at (b_element b c) (local_values b y c) q a)) as P.
  lra.
Qed.
Lemma stored_any x r : stored_energy b frames (macro_of b) x r = stored x.
Proof.
  unfold stored, stored_energy, interfaces_energy. f_equal. f_equal. apply lsum_ext. intros c _. apply lsum_ext. intros n _.
  unfold face_energy. rewrite D. reflexivity.
Qed.
Lemma power_old o x r w : virtual_power b o x r w + slip_work o x w r = virtual_power b old x r w + slip_work old x w r.
Proof.
  rewrite !virtual_power_parts. unfold slip_work. rewrite <- !lsum_plus. apply lsum_ext. intros c _. cbv zeta.
  match goal with |- - ?g + ?s + ?l + ?z = - ?g' + ?s + ?l + ?z' => enough (g - z = g' - z') by lra end.
  unfold grain_power. cbv zeta. rewrite <- !sumn_minus. apply sumn_ext. intros q _. unfold resistances_of. ring.
Qed.
Lemma no_macro x : macroscopic_work b (macro_of b) x = 0.
Proof.
  unfold macroscopic_work. apply lsum_zero. intros c _. cbv zeta. apply sumn_zero. intros q _.
  rewrite (ddot_ext _ _ _ (fun _ _ => 0) (stress_at (b_crystal b c) (b_element b c) (local_values b x c) q)); [|intros; unfold msub, macro_of; ring|reflexivity].
  assert (Z : forall d A, ddot d (fun _ _ => 0) A = 0) by (intros d A; apply sumn_zero; intros; apply sumn_zero; intros; ring). rewrite Z. ring.
Qed.
Lemma lin_load_power c f : In c (b_cells b) -> linear_on (b_ndofs b) (fun w => load_power (cr_dim (b_crystal b c)) f (fun q s => sumn (el_nd (b_element b c)) (fun i => local_values b w c i * nf_phi f i q s))).
Proof.
  intros Hc. unfold load_power. apply (lin_sumn _ _ (fun q w => nf_w f q * dot (cr_dim (b_crystal b c)) (fun s => sumn (el_nd (b_element b c)) (fun i => local_values b w c i * nf_phi f i q s)) (nf_traction f q))).
  intros q _. apply lin_scal. apply (lin_dot b (cr_dim (b_crystal b c)) (fun s w => sumn (el_nd (b_element b c)) (fun i => local_values b w c i * nf_phi f i q s))). intros s _. apply lin_nodal; assumption.
Qed.
Lemma lin_loads : linear_on (b_ndofs b) (load_work b).
Proof.
  unfold load_work. apply (lin_lsum _ (b_cells b) (fun c w => _ + _)). intros c Hc. cbv zeta. apply lin_plus.
  - apply (lin_sumn _ _ (fun q w => el_w (b_element b c) q * (cr_N (b_crystal b c) 3 / cr_N (b_crystal b c) 0 *
      dot (cr_dim (b_crystal b c)) (fun r => sumn (el_nd (b_element b c)) (fun i => local_values b w c i * el_phi (b_element b c) i q r)) (cr_supply (b_crystal b c) q)))).
    intros q _. apply lin_scal, lin_scal. apply (lin_dot b (cr_dim (b_crystal b c)) (fun r w => sumn (el_nd (b_element b c)) (fun i => local_values b w c i * el_phi (b_element b c) i q r))). intros s _. apply lin_nodal; assumption.
  - apply (lin_lsum _ (b_loads b c) (fun f w => load_power _ f _)). intros f _. apply lin_load_power, Hc.
Qed.
Lemma load_increment x y : load_work b (increment x y) = load_work b x - load_work b y.
Proof.
  pose proof lin_loads as (A & B). replace (increment x y) with (fun i => -1 * y i + x i) by (apply functional_extensionality; intros; unfold increment; ring). rewrite A. ring.
Qed.
(** Minus the virtual power is the slope of the incremental energy. *)
Lemma energy_slope x y : incremental x - incremental y <= - virtual_power b old x (trial_histories b old x h) (increment x y).
Proof.
  set (r := trial_histories b old x h). assert (G : grown b x h r) by (intros E; congruence).
  pose proof (body_balance b frames p0 (macro_of b) y x h r C T SM SI G) as B. fold (macro_of b) in B. change (fun c => cr_macro (b_crystal b c)) with (macro_of b) in B.
  rewrite no_macro, stored_any in B. fold (stored y) in B. rewrite load_increment in B.
  pose proof (slip_slope x y) as S. fold r in S. pose proof (power_old y x r (increment x y)) as P.
  assert (E : dissipated b y x r = slip_work y x (increment x y) r).
  { unfold dissipated, slip_work. apply lsum_ext. intros c _. cbv zeta. apply sumn_ext. intros q _. f_equal. apply sumn_ext. intros a _. rewrite slip_increment. reflexivity. }
  unfold incremental. lra.
Qed.

(** ** The virtual power: linear in the motion, continuous in the solution *)
Definition slip_side (x w : vec) (c n q a : nat) : R :=
  let p := b_interface b c n in let f := b_face b c n in
  sumn (el_nd (b_element b c)) (fun i => local_values b w c i * fa_psi f a i q) *
  microtraction (if_lambda p) (if_chi p) (if_ns p) (if_moduli p q)
    (fun s => sumn (fa_nd f) (fun j => local_values b x c j * fa_psi f s j q)) (fun s => sumn (fa_nd f) (fun j => local_values b x n j * fa_npsi f s j q)) a.
Lemma side_form x r w c n : In c (b_cells b) -> In n (gb_neighbours b c) -> side_power b x r w c n =
  let p := b_interface b c n in let f := b_face b c n in
  sumn (fa_nq f) (fun q => fa_w f q * (if if_microtraction p then if_N p 2 * degraded (if_exponent p) 0 (if_couple_micro p) * sumn (if_ns p) (fun a => slip_side x w c n q a) else 0)).
Proof.
  intros Hc Hn. destruct C as (_ & _ & _ & C2). destruct (C2 c n Hc Hn) as (_ & _ & _ & DC & _). rewrite D in DC.
  unfold side_power, interface_power. cbv zeta. apply sumn_ext. intros q _. rewrite DC. rewrite Rplus_0_l. reflexivity.
Qed.
Lemma lin_side x r c n : In c (b_cells b) -> In n (gb_neighbours b c) -> linear_on (b_ndofs b) (fun w => side_power b x r w c n).
Proof.
  intros Hc Hn. eapply lin_ext; [intros w; symmetry; apply side_form; assumption|]. cbv zeta.
  apply (lin_sumn _ _ (fun q w => fa_w (b_face b c n) q * _)). intros q _. apply lin_scal. destruct (if_microtraction _); [|apply lin_zero]. apply lin_scal.
  apply (lin_sumn _ _ (fun a w => slip_side x w c n q a)). intros a _. unfold slip_side. cbv zeta. apply lin_scal_r. apply lin_nodal; assumption.
Qed.
Lemma lin_grain x r c : In c (b_cells b) -> linear_on (b_ndofs b) (fun w => grain_power b old x r w c).
Proof.
  intros Hc. unfold grain_power. cbv zeta. apply (lin_sumn _ _ (fun q w => el_w (b_element b c) q * _)). intros q _. apply lin_scal. apply lin_plus; [apply lin_plus|].
  - apply lin_scal. apply lin_minus.
    + apply (lin_ext _ (fun w => ddot (cr_dim (b_crystal b c)) (elastic_strain_of b (fun _ _ _ => 0) w c q) (stress_at (b_crystal b c) (b_element b c) (local_values b x c) q))).
      * intros w. apply ddot_ext; [|reflexivity]. intros i j _ _. rewrite elastic_sum. unfold elastic_strain_of. ring.
      * unfold ddot. apply (lin_sumn _ _ (fun i w => sumn _ (fun j => elastic_strain_of b (fun _ _ _ => 0) w c q i j * _))). intros i _.
        apply (lin_sumn _ _ (fun j w => elastic_strain_of b (fun _ _ _ => 0) w c q i j * _)). intros j _. apply lin_scal_r, lin_elastic; assumption.
    + apply (lin_dot b (cr_dim (b_crystal b c)) (fun r w => sumn (el_nd (b_element b c)) (fun i => local_values b w c i * el_phi (b_element b c) i q r))). intros s _. apply lin_nodal; assumption.
  - apply lin_scal. apply (lin_sumn _ _ (fun a w => dot _ (fun i => slip_gradient_at (b_element b c) (local_values b w c) q a i) _)). intros a _.
    apply (lin_dot b _ (fun i w => slip_gradient_at (b_element b c) (local_values b w c) q a i)). intros i _. apply lin_gradient; assumption.
  - apply (lin_sumn _ _ (fun a w => slip_at (b_element b c) (local_values b w c) q a * _)). intros a _. apply lin_scal_r, lin_slip; assumption.
Qed.
Lemma lin_power x r : linear_on (b_ndofs b) (virtual_power b old x r).
Proof.
  eapply lin_ext; [intros w; symmetry; apply virtual_power_parts|]. apply (lin_lsum _ (b_cells b) (fun c w => - grain_power b old x r w c + _ + _)). intros c Hc.
  apply lin_plus; [apply lin_plus|].
  - apply lin_opp, lin_grain, Hc.
  - apply (lin_lsum _ (gb_neighbours b c) (fun n w => side_power b x r w c n)). intros n Hn. apply lin_side; assumption.
  - apply (lin_lsum _ (b_loads b c) (fun f w => load_power _ f _)). intros f _. apply lin_load_power, Hc.
Qed.
Section Continuous.
Variables (X : vec -> vec) (w : vec).
Hypothesis affine : forall l, linear_on (b_ndofs b) l -> continuous_on (b_ndofs b) (fun y => l (X y)).
Let n := b_ndofs b.
Lemma cont_minus f g : continuous_on n f -> continuous_on n g -> continuous_on n (fun y => f y - g y).
Proof. intros F G. apply (cont_ext n (fun y => f y + - g y)); [intros; ring|]. apply cont_plus; [exact F|apply cont_opp, G]. Qed.
Lemma cont_scal_r a f : continuous_on n f -> continuous_on n (fun y => f y * a).
Proof. intros F. apply (cont_ext n (fun y => a * f y)); [intros; ring|apply cont_scal, F]. Qed.
Lemma cont_elastic c q i j : In c (b_cells b) -> continuous_on n (fun y => elastic_strain_of b (macro_of b) (X y) c q i j).
Proof.
  intros Hc. apply (cont_ext n (fun y => macro_of b c i j + elastic_strain_of b (fun _ _ _ => 0) (X y) c q i j)).
  - intros y. unfold elastic_strain_of. ring.
  - apply cont_plus; [apply cont_const|]. apply (affine (fun v => elastic_strain_of b (fun _ _ _ => 0) v c q i j)). apply lin_elastic; assumption.
Qed.
Lemma cont_stress c q i j : In c (b_cells b) -> continuous_on n (fun y => stress_at (b_crystal b c) (b_element b c) (local_values b (X y) c) q i j).
Proof.
  intros Hc. eapply cont_ext; [intros y; symmetry; apply (stress_of_energy b (X y) c q i j)|]. change (fun c0 => cr_macro (b_crystal b c0)) with (macro_of b).
  unfold c4. apply (cont_sumn n _ (fun k y => sumn _ (fun l => _ * elastic_strain_of b (macro_of b) (X y) c q k l))). intros k _.
  apply (cont_sumn n _ (fun l y => _ * elastic_strain_of b (macro_of b) (X y) c q k l)). intros l _. apply cont_scal, cont_elastic, Hc.
Qed.
Lemma cont_dot d (u : vec) (f : vec -> vec) : (forall i, (i < d)%nat -> continuous_on n (fun y => f y i)) -> continuous_on n (fun y => dot d u (f y)).
Proof. intros H. unfold dot. apply (cont_sumn n d (fun i y => u i * f y i)). intros i Hi. apply cont_scal, H, Hi. Qed.
Lemma cont_micro c q a i : In c (b_cells b) -> let k := b_crystal b c in
  continuous_on n (fun y => val (vectorial_microstress (cr_factor k) (cr_p k) (cr_dim k) (cr_dir k a) (cr_ort k a) (slip_gradient_at (b_element b c) (local_values b (X y) c) q a) i)).
Proof.
  intros Hc k. destruct C as (_ & _ & C1 & _). destruct (C1 c Hc) as (_ & _ & _ & _ & Hp & _). fold k in Hp.
  eapply cont_ext; [intros y; rewrite (microstress_fin _ _ _ _ _ _ _ Hp); reflexivity|]. cbn [val]. unfold vm. apply cont_scal.
  assert (G : forall u, continuous_on n (fun y => phi (cr_p k) (dot (cr_dim k) u (slip_gradient_at (b_element b c) (local_values b (X y) c) q a)))).
  { intros u. apply (cont_comp n (fun y => dot (cr_dim k) u (slip_gradient_at (b_element b c) (local_values b (X y) c) q a)) (phi (cr_p k))); [apply phi_continuous, Hp|].
    apply cont_dot. intros j _. apply (affine (fun v => slip_gradient_at (b_element b c) (local_values b v c) q a j)). apply lin_gradient; assumption. }
  apply cont_plus; apply cont_scal_r, G.
Qed.
Lemma cont_grain c : In c (b_cells b) -> continuous_on n (fun y => grain_power b old (X y) (trial_histories b old (X y) h) w c).
Proof.
  intros Hc. destruct (sizes c Hc) as (NQ & NS). unfold grain_power. cbv zeta. rewrite NQ, NS.
  apply (cont_sumn n (b_nq b) (fun q y => el_w (b_element b c) q * _)). intros q Hq. apply cont_scal. apply cont_plus; [apply cont_plus|].
  - apply cont_scal. apply cont_minus; [|apply cont_const]. unfold ddot.
    apply (cont_sumn n _ (fun i y => sumn _ (fun j => _ * stress_at (b_crystal b c) (b_element b c) (local_values b (X y) c) q i j))). intros i _.
    apply (cont_sumn n _ (fun j y => _ * stress_at (b_crystal b c) (b_element b c) (local_values b (X y) c) q i j)). intros j _. apply cont_scal, cont_stress, Hc.
  - apply cont_scal. apply (cont_sumn n (b_ns b) (fun a y => dot _ (slip_gradient_at (b_element b c) (local_values b w c) q a) _)). intros a _. 
    apply (cont_dot _ _ (fun y i => val (vectorial_microstress (cr_factor (b_crystal b c)) (cr_p (b_crystal b c)) (cr_dim (b_crystal b c)) (cr_dir (b_crystal b c) a) (cr_ort (b_crystal b c) a) (slip_gradient_at (b_element b c) (local_values b (X y) c) q a) i))).
    intros i _. apply cont_micro, Hc.
  - apply (cont_sumn n (b_ns b) (fun a y => slip_at (b_element b c) (local_values b w c) q a * _)). intros a Ha. apply cont_scal.
    eapply cont_ext; [intros y; apply (stress_of_trial (X y) c q a Hc Hq Ha)|]. destruct (system_data c q a Hc Hq Ha) as (A1 & A2 & A3 & A4 & A5).
    apply (cont_comp n (fun y => slip_at (b_element b c) (local_values b (X y) c) q a) (stress_of c q a)); [apply trial_continuous; assumption|].
    apply (affine (fun v => slip_at (b_element b c) (local_values b v c) q a)). apply lin_slip; assumption.
Qed.
Lemma cont_side c m : In c (b_cells b) -> In m (gb_neighbours b c) -> continuous_on n (fun y => side_power b (X y) (trial_histories b old (X y) h) w c m).
Proof.
  intros Hc Hm. eapply cont_ext; [intros y; symmetry; apply side_form; assumption|]. cbv zeta.
  pose proof C as (_ & _ & C1 & C2). destruct (C2 c m Hc Hm) as (Hm' & ND & _). destruct (T c m Hc Hm) as (LN & _). destruct (C1 c Hc) as (L1 & _). destruct (C1 m Hm') as (L2 & _).
  assert (ND' : fa_nd (b_face b c m) = el_nd (b_element b m)) by lia.
  apply (cont_sumn n _ (fun q y => fa_w (b_face b c m) q * _)). intros q _. apply cont_scal. destruct (if_microtraction _); [|apply cont_const]. apply cont_scal.
  apply (cont_sumn n _ (fun a y => slip_side (X y) w c m q a)). intros a _. unfold slip_side. cbv zeta. apply cont_scal. unfold microtraction. apply cont_scal_r.
  apply (cont_sumn n _ (fun s y => _ - _)). intros s _. apply cont_minus; apply cont_scal.
  - rewrite ND. apply (affine (fun v => sumn (el_nd (b_element b c)) (fun j => local_values b v c j * fa_psi (b_face b c m) s j q))). apply lin_nodal; assumption.
  - rewrite ND'. apply (affine (fun v => sumn (el_nd (b_element b m)) (fun j => local_values b v m j * fa_npsi (b_face b c m) s j q))). apply lin_nodal; assumption.
Qed.
Lemma cont_power : continuous_on n (fun y => virtual_power b old (X y) (trial_histories b old (X y) h) w).
Proof.
  eapply cont_ext; [intros y; symmetry; apply virtual_power_parts|]. apply (cont_lsum n (b_cells b) (fun c y => - grain_power b old (X y) (trial_histories b old (X y) h) w c + _ + _)). intros c Hc.
  apply cont_plus; [apply cont_plus|apply cont_const].
  - apply cont_opp, cont_grain, Hc.
  - apply (cont_lsum n (gb_neighbours b c) (fun m y => side_power b (X y) (trial_histories b old (X y) h) w c m)). intros m Hm. apply cont_side; assumption.
Qed.
End Continuous.

(** ** Growth of the incremental energy *)
Lemma lsum_term_le {A} (f : A -> R) l a : (forall i, In i l -> 0 <= f i) -> In a l -> f a <= lsum f l.
Proof.
  induction l as [|i l IH]; intros H Ha; [destruct Ha|]. cbn [lsum]. pose proof (lsum_nonneg f l (fun j Hj => H j (or_intror Hj))). pose proof (H i (or_introl eq_refl)).
  destruct Ha as [->|Ha]; [lra|]. specialize (IH (fun j Hj => H j (or_intror Hj)) Ha). lra.
Qed.
Lemma system_nonneg c q a x : In c (b_cells b) -> (q < b_nq b)%nat -> (a < b_ns b)%nat -> 0 <= system_potential c q a x.
Proof.
  intros Hc Hq Ha. destruct (system_data c q a Hc Hq Ha) as (A1 & A2 & A3 & A4 & A5).
  apply potential_nonneg; [apply trial_continuous|apply trial_increasing|apply trial_rest]; assumption.
Qed.
Lemma slips_nonneg c x : In c (b_cells b) ->
  0 <= sumn (el_nq (b_element b c)) (fun q => el_w (b_element b c) q * sumn (cr_ns (b_crystal b c)) (fun a => system_potential c q a x)).
Proof.
  intros Hc. destruct (sizes c Hc) as (NQ & NS). rewrite NQ, NS. apply sumn_nonneg. intros q Hq. apply Rmult_le_pos; [apply weight_nonneg; assumption|].
  apply sumn_nonneg. intros a Ha. apply system_nonneg; assumption.
Qed.
Definition elastic_part (x : vec) (c q : nat) : R := let s := elastic_strain_of b (macro_of b) x c q in
  cr_N (b_crystal b c) 3 / cr_N (b_crystal b c) 0 * (1/2 * ddot (cr_dim (b_crystal b c)) s (c4 (cr_dim (b_crystal b c)) (cr_C (b_crystal b c)) s)).
Definition defect_part (x : vec) (c q : nat) : R := let k := b_crystal b c in
  cr_N k 2 * sumn (cr_ns k) (fun a => defect_energy (cr_factor k) (cr_p k) (cr_dim k) (cr_dir k a) (cr_ort k a) (slip_gradient_at (b_element b c) (local_values b x c) q a)).
Lemma parts_of_grain c q x : In c (b_cells b) -> 0 <= elastic_part x c q /\ 0 <= defect_part x c q.
Proof.
  intros Hc. pose proof (SM c Hc) as S. cbv zeta in S. destruct S as (W & N3 & N2 & F & _ & PSD & _ & _ & _ & S0 & _). split.
  - unfold elastic_part. cbv zeta. apply Rmult_le_pos; [exact N3|]. pose proof (PSD _ (elastic_symmetric b (macro_of b) (macro_of b) x c q SM Hc S0)). lra.
  - unfold defect_part. cbv zeta. apply Rmult_le_pos; [exact N2|]. apply sumn_nonneg. intros a _. apply defect_nonneg; [exact F|]. destruct C as (_ & _ & C1 & _). apply (C1 c Hc).
Qed.
Lemma grain_form x : grain_energy b (macro_of b) x = lsum (fun c => sumn (el_nq (b_element b c)) (fun q => el_w (b_element b c) q * (elastic_part x c q + defect_part x c q))) (b_cells b).
Proof. reflexivity. Qed.
Lemma interfaces_nonneg x : 0 <= interfaces_energy b frames x h.
Proof.
  unfold interfaces_energy. rewrite <- other_grains_visited. apply Rmult_le_pos; [lra|]. apply lsum_nonneg. intros c Hc. apply lsum_nonneg. intros n Hn.
  destruct SI as (ID & IC & SD & SMi & SI'). destruct (SI' c n Hc Hn) as (_ & _ & EI & _ & FP).
  unfold face_energy. rewrite EI. cbn [if_decohesion if_microtraction if_N if_dim if_ns if_exponent if_couple_macro if_couple_micro if_cohesive if_contact if_lambda if_chi if_dt if_moduli].
  apply sumn_nonneg. intros q Hq. destruct (FP q Hq) as (W0 & _). cbv zeta. rewrite D. apply Rmult_le_pos; [exact W0|]. apply Rplus_le_le_0_compat; [lra|].
  destruct (if_microtraction p0) eqn:DD; [|lra]. destruct (SMi eq_refl) as (Hd & HL & HX & HN2). apply Rmult_le_pos; [exact HN2|].
  unfold mismatch. cbn [if_exponent if_couple_micro if_lambda if_dim if_ns if_chi]. apply Rmult_le_pos; [apply degraded_nonneg|].
  apply Rmult_le_pos; [apply energy_nonneg; assumption|apply Rlt_le, Rinv_0_lt_compat; exact HX].
Qed.
Definition grain_part (x : vec) (c : nat) : R := sumn (el_nq (b_element b c)) (fun q => el_w (b_element b c) q * (elastic_part x c q + defect_part x c q)).
Lemma grain_part_nonneg x c : In c (b_cells b) -> 0 <= grain_part x c.
Proof.
  intros Hc. unfold grain_part. apply sumn_nonneg. intros q Hq. rewrite (proj1 (sizes c Hc)) in Hq. destruct (parts_of_grain c q x Hc) as (A & B).
  apply Rmult_le_pos; [apply weight_nonneg; assumption|lra].
Qed.
Lemma elastic_bound x c q : In c (b_cells b) -> (q < b_nq b)%nat -> el_w (b_element b c) q * elastic_part x c q <= stored x + slip_potential x.
Proof.
  intros Hc Hq. pose proof (interfaces_nonneg x) as A. assert (B : 0 <= slip_potential x) by (apply lsum_nonneg; intros; apply slips_nonneg; assumption).
  unfold stored, stored_energy. rewrite grain_form. change (fun c0 => sumn (el_nq (b_element b c0)) _) with (grain_part x).
  pose proof (lsum_term_le (grain_part x) (b_cells b) c (grain_part_nonneg x) Hc) as E.
  assert (F : el_w (b_element b c) q * (elastic_part x c q + defect_part x c q) <= grain_part x c).
  { unfold grain_part. apply (sumn_term_le _ (fun q => el_w (b_element b c) q * (elastic_part x c q + defect_part x c q))).
    - intros q' Hq'. rewrite (proj1 (sizes c Hc)) in Hq'. destruct (parts_of_grain c q' x Hc). apply Rmult_le_pos; [apply weight_nonneg; assumption|lra].
    - rewrite (proj1 (sizes c Hc)). exact Hq. }
  destruct (parts_of_grain c q x Hc) as (_ & G). pose proof (Rmult_le_pos _ _ (weight_nonneg c q Hc Hq) G). lra.
Qed.
Lemma slip_bound x c q a : In c (b_cells b) -> (q < b_nq b)%nat -> (a < b_ns b)%nat -> el_w (b_element b c) q * system_potential c q a x <= stored x + slip_potential x.
Proof.
  intros Hc Hq Ha. pose proof (interfaces_nonneg x) as A. unfold stored, stored_energy. rewrite grain_form. change (fun c0 => sumn (el_nq (b_element b c0)) (fun q0 => el_w (b_element b c0) q0 * (elastic_part x c0 q0 + defect_part x c0 q0))) with (grain_part x).
  pose proof (lsum_nonneg (grain_part x) (b_cells b) (grain_part_nonneg x)) as B.
  pose proof (lsum_term_le _ (b_cells b) c (fun c Hc => slips_nonneg c x Hc) Hc) as E. cbv beta in E. fold (slip_potential x) in E.
  destruct (sizes c Hc) as (NQ & NS). rewrite NQ, NS in E.
  pose proof (sumn_term_le (b_nq b) (fun q => el_w (b_element b c) q * sumn (b_ns b) (fun a => system_potential c q a x)) q
    (fun q Hq => Rmult_le_pos _ _ (weight_nonneg c q Hc Hq) (sumn_nonneg _ _ (fun a Ha => system_nonneg c q a x Hc Hq Ha))) Hq) as F. cbv beta in F.
  pose proof (sumn_term_le (b_ns b) (fun a => system_potential c q a x) a (fun a Ha => system_nonneg c q a x Hc Hq Ha) Ha) as G. cbv beta in G.
  pose proof (Rmult_le_compat_l _ _ _ (weight_nonneg c q Hc Hq) G). lra.
Qed.
(** Elastic energy grows with the work of the stresses on any fixed symmetric strain. *)
Lemma elastic_grows c q g a : In c (b_cells b) -> (q < b_nq b)%nat -> symmetric (cr_dim (b_crystal b c)) g ->
  exists z, forall x, a * Rabs (ddot (cr_dim (b_crystal b c)) (elastic_strain_of b (macro_of b) x c q) (c4 (cr_dim (b_crystal b c)) (cr_C (b_crystal b c)) g)) - z <= stored x + slip_potential x.
Proof.
  intros Hc Hq Sg. pose proof (SM c Hc) as S. cbv zeta in S. destruct S as (_ & _ & _ & _ & MJ & PSD & _ & _ & _ & S0 & _).
  destruct (SG c Hc) as (_ & N3 & W & _). cbv zeta in *. specialize (W q Hq). set (k := b_crystal b c) in *. set (d := cr_dim k) in *.
  set (om := el_w (b_element b c) q * (cr_N k 3 / cr_N k 0)). assert (OM : 0 < om) by (apply Rmult_lt_0_compat; assumption).
  set (gg := ddot d g (c4 d (cr_C k) g)). exists (om * (1/2 * ((a / om) * (a / om) * gg))). intros x.
  pose proof (elastic_symmetric b (macro_of b) (macro_of b) x c q SM Hc S0) as Se. fold k d in Se. set (e := elastic_strain_of b (macro_of b) x c q) in *.
  set (t := ddot d e (c4 d (cr_C k) g)).
  assert (K : forall r, r * t - 1/2 * (r * r * gg) <= 1/2 * ddot d e (c4 d (cr_C k) e)).
  { intros r. assert (Sr : symmetric d (mscal r g)) by (intros i j Hi Hj; unfold mscal; rewrite (Sg i j Hi Hj); reflexivity).
    pose proof (elastic_convex d (cr_C k) (mscal r g) e MJ PSD Sr Se) as Q.
    assert (E1 : ddot d (mscal r g) (c4 d (cr_C k) (mscal r g)) = r * r * gg).
    { rewrite ddot_scal_l. rewrite (ddot_ext d g _ g (mscal r (c4 d (cr_C k) g))); [|reflexivity|intros; unfold mscal at 2; apply c4_scal]. rewrite ddot_scal_r. unfold gg. ring. }
    assert (E2 : ddot d (msub (mscal r g) e) (c4 d (cr_C k) (mscal r g)) = r * r * gg - r * t).
    { rewrite <- E1. unfold t. rewrite <- ddot_scal_r. rewrite (ddot_ext d e (mscal r (c4 d (cr_C k) g)) e (c4 d (cr_C k) (mscal r g))); [|reflexivity|intros; unfold mscal at 1; symmetry; apply c4_scal].
      unfold ddot. rewrite <- sumn_minus. apply sumn_ext. intros i _. rewrite <- sumn_minus. apply sumn_ext. intros j _. unfold msub. ring. }
    rewrite E1, E2 in Q. lra. }
  pose proof (elastic_bound x c q Hc Hq) as B. unfold elastic_part in B. cbv zeta in B. fold k d e in B. rewrite <- Rmult_assoc in B. fold om in B.
  eapply Rle_trans; [|exact B]. set (ee := ddot d e (c4 d (cr_C k) e)) in *.
  assert (K2 : forall r, om * (r * t) - om * (1/2 * (r * r * gg)) <= om * (1/2 * ee)) by (intros r; rewrite <- Rmult_minus_distr_l; apply Rmult_le_compat_l; [lra|apply K]).
  destruct (Rle_dec 0 t) as [P|P].
  - rewrite (Rabs_pos_eq t P). specialize (K2 (a / om)). replace (om * (a / om * t)) with (a * t) in K2 by (field; lra). exact K2.
  - rewrite (Rabs_left t) by lra. specialize (K2 (- (a / om))). replace (om * (- (a / om) * t)) with (a * - t) in K2 by (field; lra).
    replace (- (a / om) * - (a / om) * gg) with (a / om * (a / om) * gg) in K2 by ring. exact K2.
Qed.
Lemma slip_grows c q a : In c (b_cells b) -> (q < b_nq b)%nat -> (a < b_ns b)%nat ->
  exists m z, 0 < m /\ forall x, m * Rabs (slip_at (b_element b c) (local_values b x c) q a - old_slip c q a) - z <= stored x + slip_potential x.
Proof.
  intros Hc Hq Ha. destruct (system_data c q a Hc Hq Ha) as (A1 & A2 & A3 & A4 & A5). destruct (SG c Hc) as (_ & _ & W & _). cbv zeta in W. specialize (W q Hq).
  destruct (system_grows _ (old_slip c q a) _ _ _ A1 A2 A3 A4 A5) as (m & z & M & Z). exists (el_w (b_element b c) q * m), (el_w (b_element b c) q * z).
  split; [apply Rmult_lt_0_compat; assumption|]. intros x. pose proof (slip_bound x c q a Hc Hq Ha) as B. eapply Rle_trans; [|exact B].
  rewrite Rmult_assoc, <- Rmult_minus_distr_l. apply Rmult_le_compat_l; [lra|apply Z].
Qed.
Lemma slip_grows_fast c q a m : all_systems_harden b h -> In c (b_cells b) -> (q < b_nq b)%nat -> (a < b_ns b)%nat ->
  exists z, forall x, m * Rabs (slip_at (b_element b c) (local_values b x c) q a - old_slip c q a) - z <= stored x + slip_potential x.
Proof.
  intros AH Hc Hq Ha. destruct (system_data c q a Hc Hq Ha) as (A1 & A2 & A3 & A4 & A5). destruct (SG c Hc) as (_ & _ & W & _). cbv zeta in W. specialize (W q Hq).
  assert (P : 0 < own_hardening c q) by (destruct (AH c q Hc Hq) as (F & P); unfold own_hardening; rewrite F; exact P).
  destruct (system_grows_fast _ (old_slip c q a) _ _ _ A1 A2 A3 A4 A5 P (m / el_w (b_element b c) q)) as (z & Z). exists (el_w (b_element b c) q * z).
  intros x. pose proof (slip_bound x c q a Hc Hq Ha) as B. eapply Rle_trans; [|exact B].
  replace (m * Rabs (slip_at (b_element b c) (local_values b x c) q a - old_slip c q a)) with (el_w (b_element b c) q * (m / el_w (b_element b c) q * Rabs (slip_at (b_element b c) (local_values b x c) q a - old_slip c q a))) by (field; lra).
  rewrite <- Rmult_minus_distr_l. apply Rmult_le_compat_l; [lra|apply Z].
Qed.

(** ** The supports *)
Definition follow (k : constraints) (y : vec) : vec := fun d => match k d with Some (es, z) => lsum (fun e => snd e * y (fst e)) es + z | None => y d end.
Section Supports.
Variables (c k : constraints).
Hypothesis HV : homogeneous_version c k.
Hypothesis CB : closed_below (b_ndofs b) k.
Let n := b_ndofs b.
Lemma free_entries d es z : c d = Some (es, z) -> forall e, In e es -> c (fst e) = None.
Proof.
  intros E [e v] Ie. pose proof (HV d) as H. rewrite E in H. destruct (k d) as [[es' z']|] eqn:K; [|contradiction]. destruct H as (-> & _).
  destruct CB as (CL & _). pose proof (CL d es z' e v K Ie) as F. pose proof (HV e) as H2. rewrite F in H2. cbn. destruct (c e) as [[? ?]|]; [contradiction|reflexivity].
Qed.
Lemma follow_obeys y : obeys c (follow c y).
Proof.
  intros d es z E. unfold follow at 1. rewrite E. f_equal. apply lsum_ext. intros e Ie. f_equal. unfold follow. rewrite (free_entries d es z E e Ie). reflexivity.
Qed.
Lemma follow_admissible y : SpecLinear.admissible n k (follow k y).
Proof.
  intros d es z _ E. unfold follow at 1. rewrite E. pose proof (HV d) as H. rewrite E in H. destruct (c d) as [[es' z']|]; [|contradiction]. destruct H as (-> & ->). rewrite Rplus_0_r.
  apply lsum_ext. intros [e v] Ie. f_equal. unfold follow. cbn [fst]. destruct CB as (CL & _). rewrite (CL d es' 0 e v E Ie). reflexivity.
Qed.
Lemma follow_fixed w d : SpecLinear.admissible n k w -> (d < n)%nat -> follow k w d = w d.
Proof.
  intros A Hd. unfold follow. destruct (k d) as [[es z]|] eqn:E; [|reflexivity]. rewrite (A d es z Hd E). pose proof (HV d) as H. rewrite E in H. destruct (c d) as [[? ?]|]; [|contradiction]. destruct H as (_ & ->). ring.
Qed.
Lemma follow_affine x y d : follow c x d - follow c y d = follow k (increment x y) d.
Proof.
  unfold follow. pose proof (HV d) as H. destruct (c d) as [[es z]|], (k d) as [[es' z']|]; try contradiction; [|reflexivity]. destruct H as (-> & ->).
  rewrite Rplus_0_r. replace (lsum (fun e => snd e * x (fst e)) es + z - (lsum (fun e => snd e * y (fst e)) es + z)) with (lsum (fun e => snd e * x (fst e)) es - lsum (fun e => snd e * y (fst e)) es) by ring.
  rewrite <- lsum_minus. apply lsum_ext. intros e _. unfold increment. ring.
Qed.
Lemma homogeneous_k d es z : k d = Some (es, z) -> z = 0.
Proof. intros E. pose proof (HV d) as H. rewrite E in H. destruct (c d) as [[? ?]|]; [|contradiction]. apply H. Qed.
Lemma follow_linear a x y d : follow k (fun i => a * x i + y i) d = a * follow k x d + follow k y d.
Proof.
  unfold follow. destruct (k d) as [[es z]|] eqn:E; [|reflexivity]. rewrite (homogeneous_k d es z E), !Rplus_0_r, <- lsum_scal, <- lsum_plus. apply lsum_ext. intros e _. ring.
Qed.
Lemma follow_local x y d : (forall i, (i < n)%nat -> x i = y i) -> (d < n)%nat -> follow k x d = follow k y d.
Proof.
  intros H Hd. unfold follow. destruct (k d) as [[es z]|] eqn:E; [|apply H, Hd]. f_equal. apply lsum_ext. intros [e v] Ie. f_equal. apply H. destruct CB as (_ & B). apply (B d es z e v E Ie).
Qed.
Lemma lin_follow l : linear_on n l -> linear_on n (fun y => l (follow k y)).
Proof.
  intros (A & B). split.
  - intros a x y. rewrite <- A. apply B. intros d _. apply follow_linear.
  - intros x y H. apply B. intros d Hd. apply follow_local; assumption.
Qed.
Lemma along l x y : linear_on n l -> l (follow c x) = l (follow c y) + l (follow k (increment x y)).
Proof.
  intros (A & B). rewrite (B (follow c x) (fun i => 1 * follow k (increment x y) i + follow c y i)); [rewrite A; ring|]. intros d _. rewrite <- follow_affine. ring.
Qed.
Let rest : vec := fun _ => 0.
Lemma from_rest l y : linear_on n l -> l (follow c y) = l (follow c rest) + l (follow k y).
Proof.
  intros L. rewrite (along l y rest L). f_equal. apply (proj2 L). intros d Hd. apply follow_local; [|exact Hd]. intros i _. unfold increment, rest. ring.
Qed.
Lemma affine_follow l : linear_on n l -> continuous_on n (fun y => l (follow c y)).
Proof.
  intros L. apply (cont_ext n (fun y => l (follow c rest) + l (follow k y))); [intros y; symmetry; apply from_rest, L|].
  apply cont_plus; [apply cont_const|]. apply (cont_linear n (fun y => l (follow k y))), lin_follow, L.
Qed.

(** The energy as a function of the free values; constrained dofs are fixed to zero. *)
Definition fixed (d : nat) : R := match k d with Some _ => 1 | None => 0 end.
Definition total (y : vec) : R := incremental (follow c y) + sumn n (fun d => fixed d * (y d * y d)).
Definition slope (y : vec) (d : nat) : R :=
  - virtual_power b old (follow c y) (trial_histories b old (follow c y) h) (follow k (unit_at d)) + fixed d * (2 * y d).
Lemma fixed_nonneg d : 0 <= fixed d.
Proof. unfold fixed. destruct (k d); lra. Qed.
Lemma total_convex x y : total x + sumn n (fun d => slope x d * (y d - x d)) <= total y.
Proof.
  set (P := virtual_power b old (follow c x) (trial_histories b old (follow c x) h)).
  assert (L : linear_on n P) by apply lin_power.
  pose proof (energy_slope (follow c x) (follow c y)) as E. fold P in E.
  assert (E1 : P (increment (follow c x) (follow c y)) = P (follow k (increment x y))) by (apply (proj2 L); intros d _; unfold increment at 1; apply follow_affine).
  assert (E2 : P (follow k (increment x y)) = sumn n (fun d => (x d - y d) * P (follow k (unit_at d)))).
  { apply (linear_expansion n (fun v => P (follow k v))). apply lin_follow, L. }
  assert (E3 : sumn n (fun d => slope x d * (y d - x d)) = sumn n (fun d => (x d - y d) * P (follow k (unit_at d))) + sumn n (fun d => fixed d * (2 * x d) * (y d - x d))).
  { rewrite <- sumn_plus. apply sumn_ext. intros d _. unfold slope. fold P. ring. }
  assert (E4 : sumn n (fun d => fixed d * (x d * x d)) + sumn n (fun d => fixed d * (2 * x d) * (y d - x d)) <= sumn n (fun d => fixed d * (y d * y d))).
  { rewrite <- sumn_plus. apply sumn_le. intros d _. pose proof (fixed_nonneg d). pose proof (pow2_ge_0 (y d - x d)). nra. }
  unfold total. rewrite E3, <- E2, <- E1. lra.
Qed.
Lemma slope_continuous x d e : (d < n)%nat -> 0 < e -> exists t, 0 < t /\ forall y, (forall i, (i < n)%nat -> Rabs (y i - x i) <= t) -> Rabs (slope y d - slope x d) <= e.
Proof.
  intros Hd He. assert (K : continuous_on n (fun y => slope y d)); [|exact (K x e He)]. unfold slope. apply cont_plus.
  - apply cont_opp. apply (cont_power (follow c) (follow k (unit_at d)) affine_follow).
  - apply cont_scal, cont_scal, cont_coordinate, Hd.
Qed.

(** ** Bounded level sets *)
Hypothesis HP : held_in_place b k.
Definition linear_strain (y : vec) (e q : nat) : mat := elastic_strain_of b (fun _ _ _ => 0) (follow k y) e q.
Definition pairing (e q j : nat) (y : vec) : R :=
  ddot (cr_dim (b_crystal b e)) (linear_strain y e q) (c4 (cr_dim (b_crystal b e)) (cr_C (b_crystal b e)) (linear_strain (unit_at j) e q)).
Definition slip_value (e q a : nat) (y : vec) : R := slip_at (b_element b e) (local_values b (follow k y) e) q a.
Definition functionals : list (vec -> R) :=
  flat_map (fun e => flat_map (fun q => map (pairing e q) (seq 0 n) ++ map (slip_value e q) (seq 0 (b_ns b))) (seq 0 (b_nq b))) (b_cells b)
  ++ map (fun d (y : vec) => y d) (filter (fun d => match k d with Some _ => true | None => false end) (seq 0 n)).
Lemma in_functionals l : In l functionals <->
  (exists e q j, In e (b_cells b) /\ (q < b_nq b)%nat /\ (j < n)%nat /\ l = pairing e q j) \/
  (exists e q a, In e (b_cells b) /\ (q < b_nq b)%nat /\ (a < b_ns b)%nat /\ l = slip_value e q a) \/
  (exists d, (d < n)%nat /\ fixed d = 1 /\ l = fun y => y d).
Proof.
  unfold functionals. rewrite in_app_iff, in_flat_map, in_map_iff. split.
  - intros [(e & He & H)|(d & <- & H)].
    + apply in_flat_map in H. destruct H as (q & Hq & H). apply in_seq in Hq. apply in_app_iff in H. destruct H as [H|H]; apply in_map_iff in H; destruct H as (j & <- & Hj); apply in_seq in Hj.
      * left. exists e, q, j. repeat split; try assumption; lia.
      * right. left. exists e, q, j. repeat split; try assumption; lia.
    + apply filter_In in H. destruct H as (Hd & F). apply in_seq in Hd. right. right. exists d. repeat split; [lia|]. unfold fixed. destruct (k d); [reflexivity|discriminate].
  - intros [(e & q & j & He & Hq & Hj & ->)|[(e & q & a & He & Hq & Ha & ->)|(d & Hd & F & ->)]].
    + left. exists e. split; [exact He|]. apply in_flat_map. exists q. split; [apply in_seq; lia|]. apply in_app_iff. left. apply in_map, in_seq. lia.
    + left. exists e. split; [exact He|]. apply in_flat_map. exists q. split; [apply in_seq; lia|]. apply in_app_iff. right. apply in_map, in_seq. lia.
    + right. exists d. split; [reflexivity|]. apply filter_In. split; [apply in_seq; lia|]. unfold fixed in F. destruct (k d); [reflexivity|lra].
Qed.
Lemma lin_linear_strain e q i j : In e (b_cells b) -> linear_on n (fun y => linear_strain y e q i j).
Proof. intros He. apply (lin_follow (fun v => elastic_strain_of b (fun _ _ _ => 0) v e q i j)). apply lin_elastic; assumption. Qed.
Lemma lin_against e q A : In e (b_cells b) -> linear_on n (fun y => ddot (cr_dim (b_crystal b e)) (linear_strain y e q) A).
Proof.
  intros He. unfold ddot. apply (lin_sumn _ _ (fun i y => sumn _ (fun j => linear_strain y e q i j * A i j))). intros i _.
  apply (lin_sumn _ _ (fun j y => linear_strain y e q i j * A i j)). intros j _. apply lin_scal_r, lin_linear_strain, He.
Qed.
Lemma functionals_linear l : In l functionals -> linear_on n l.
Proof.
  intros H. apply in_functionals in H. destruct H as [(e & q & j & He & Hq & Hj & ->)|[(e & q & a & He & Hq & Ha & ->)|(d & Hd & F & ->)]].
  - apply lin_against, He.
  - apply (lin_follow (fun v => slip_at (b_element b e) (local_values b v e) q a)). apply lin_slip; assumption.
  - split; [intros; reflexivity|intros x y E; apply E, Hd].
Qed.
Lemma linear_strain_symmetric y e q : In e (b_cells b) -> symmetric (cr_dim (b_crystal b e)) (linear_strain y e q).
Proof. intros He. apply (elastic_symmetric b (macro_of b) (fun _ _ _ => 0) _ e q SM He). intros i j _ _. reflexivity. Qed.
Lemma functionals_injective y : (forall l, In l functionals -> l y = 0) -> forall d, (d < n)%nat -> y d = 0.
Proof.
  intros Z. assert (V : forall d, (d < n)%nat -> follow k y d = 0).
  { apply HP; [apply follow_admissible|]. intros e q He Hq.
    assert (SL : forall a, (a < b_ns b)%nat -> slip_at (b_element b e) (local_values b (follow k y) e) q a = 0).
    { intros a Ha. apply (Z (slip_value e q a)). apply in_functionals. right. left. exists e, q, a. auto. }
    split; [|exact SL]. destruct (SG e He) as (_ & _ & _ & PD). cbv zeta in PD. destruct (SM e He) as (_ & _ & _ & _ & MJ & _). cbv zeta in MJ.
    assert (Q : ddot (cr_dim (b_crystal b e)) (linear_strain y e q) (c4 (cr_dim (b_crystal b e)) (cr_C (b_crystal b e)) (linear_strain y e q)) = 0).
    { rewrite (linear_expansion n (fun v => ddot (cr_dim (b_crystal b e)) (linear_strain v e q) (c4 (cr_dim (b_crystal b e)) (cr_C (b_crystal b e)) (linear_strain y e q))) y (lin_against e q _ He)).
      apply sumn_zero. intros j Hj. rewrite (ddot_major _ _ _ _ MJ). pose proof (Z (pairing e q j)) as Zj. unfold pairing in Zj. rewrite Zj; [ring|]. apply in_functionals. left. exists e, q, j. auto. }
    intros i j Hi Hj. pose proof (PD _ (linear_strain_symmetric y e q He) Q i j Hi Hj) as E. unfold linear_strain, elastic_strain_of in E. rewrite (proj2 (sizes e He)) in E.
    rewrite (sumn_zero (b_ns b)) in E by (intros a Ha; rewrite (SL a Ha); ring). lra. }
  intros d Hd. destruct (k d) as [[es z]|] eqn:E.
  - apply (Z (fun y => y d)). apply in_functionals. right. right. exists d. split; [exact Hd|]. split; [unfold fixed; rewrite E; reflexivity|reflexivity].
  - specialize (V d Hd). unfold follow in V. rewrite E in V. exact V.
Qed.
Definition grown_energy (y : vec) : R := stored (follow c y) + slip_potential (follow c y) + sumn n (fun d => fixed d * (y d * y d)) - load_work b (follow c rest).
Lemma total_parts y : total y = grown_energy y - load_work b (follow k y).
Proof. unfold total, grown_energy, incremental. rewrite (from_rest (load_work b) y lin_loads). ring. Qed.
Lemma squares_nonneg (y : vec) : 0 <= sumn n (fun d => fixed d * (y d * y d)).
Proof. apply sumn_nonneg. intros d _. pose proof (fixed_nonneg d). nra. Qed.
Lemma pairing_grows e q j a : In e (b_cells b) -> (q < b_nq b)%nat -> exists z, forall y, a * Rabs (pairing e q j y) - z <= grown_energy y.
Proof.
  intros He Hq. set (g := linear_strain (unit_at j) e q). destruct (elastic_grows e q g (Rabs a) He Hq (linear_strain_symmetric _ e q He)) as (z & Z).
  set (A := c4 (cr_dim (b_crystal b e)) (cr_C (b_crystal b e)) g) in *. set (d := cr_dim (b_crystal b e)) in *.
  set (t0 := ddot d (elastic_strain_of b (macro_of b) (follow c rest) e q) A).
  exists (z + Rabs a * Rabs t0 + load_work b (follow c rest)). intros y. specialize (Z (follow c y)).
  assert (E : ddot d (elastic_strain_of b (macro_of b) (follow c y) e q) A = t0 + pairing e q j y).
  { unfold t0, pairing. fold d g A. unfold ddot. rewrite <- sumn_plus. apply sumn_ext. intros i _. rewrite <- sumn_plus. apply sumn_ext. intros i' _. rewrite <- Rmult_plus_distr_r. f_equal.
    pose proof (from_rest (fun v => elastic_strain_of b (fun _ _ _ => 0) v e q i i') y (lin_elastic b e C He q i i')) as F. cbv beta in F. unfold linear_strain, elastic_strain_of in F |- *. lra. }
  rewrite E in Z. assert (T1 : Rabs (pairing e q j y) <= Rabs (t0 + pairing e q j y) + Rabs t0).
  { replace (pairing e q j y) with ((t0 + pairing e q j y) + - t0) at 1 by ring. eapply Rle_trans; [apply Rabs_triang|]. rewrite Rabs_Ropp. lra. }
  pose proof (squares_nonneg y). pose proof (Rle_abs a). pose proof (Rabs_pos (pairing e q j y)). pose proof (Rabs_pos a). unfold grown_energy.
  assert (a * Rabs (pairing e q j y) <= Rabs a * Rabs (t0 + pairing e q j y) + Rabs a * Rabs t0) by nra. lra.
Qed.
Lemma slip_value_bound e q a y : In e (b_cells b) ->
  Rabs (slip_value e q a y) <= Rabs (slip_at (b_element b e) (local_values b (follow c y) e) q a - old_slip e q a) + Rabs (old_slip e q a - slip_at (b_element b e) (local_values b (follow c rest) e) q a).
Proof.
  intros He. pose proof (from_rest (fun v => slip_at (b_element b e) (local_values b v e) q a) y (lin_slip b e C He q a)) as F. cbv beta in F. fold (slip_value e q a y) in F.
  replace (slip_value e q a y) with ((slip_at (b_element b e) (local_values b (follow c y) e) q a - old_slip e q a) + (old_slip e q a - slip_at (b_element b e) (local_values b (follow c rest) e) q a)) at 1 by lra.
  apply Rabs_triang.
Qed.
Lemma slip_value_grows e q a : In e (b_cells b) -> (q < b_nq b)%nat -> (a < b_ns b)%nat -> exists m z, 0 < m /\ forall y, m * Rabs (slip_value e q a y) - z <= grown_energy y.
Proof.
  intros He Hq Ha. destruct (slip_grows e q a He Hq Ha) as (m & z & M & Z). set (s0 := Rabs (old_slip e q a - slip_at (b_element b e) (local_values b (follow c rest) e) q a)).
  exists m, (z + m * s0 + load_work b (follow c rest)). split; [exact M|]. intros y. specialize (Z (follow c y)). pose proof (slip_value_bound e q a y He) as B. fold s0 in B.
  pose proof (squares_nonneg y). pose proof (Rmult_le_compat_l m _ _ ltac:(lra) B). unfold grown_energy. lra.
Qed.
Lemma slip_value_grows_fast e q a m : all_systems_harden b h -> In e (b_cells b) -> (q < b_nq b)%nat -> (a < b_ns b)%nat -> exists z, forall y, m * Rabs (slip_value e q a y) - z <= grown_energy y.
Proof.
  intros AH He Hq Ha. destruct (slip_grows_fast e q a (Rabs m) AH He Hq Ha) as (z & Z). set (s0 := Rabs (old_slip e q a - slip_at (b_element b e) (local_values b (follow c rest) e) q a)).
  exists (z + Rabs m * s0 + load_work b (follow c rest)). intros y. specialize (Z (follow c y)). pose proof (slip_value_bound e q a y He) as B. fold s0 in B.
  pose proof (squares_nonneg y). pose proof (Rmult_le_compat_l (Rabs m) _ _ (Rabs_pos m) B). pose proof (Rle_abs m). pose proof (Rabs_pos (slip_value e q a y)).
  pose proof (Rmult_le_compat_r (Rabs (slip_value e q a y)) _ _ (Rabs_pos (slip_value e q a y)) (Rle_abs m)). unfold grown_energy. lra.
Qed.
Lemma fixed_grows d a : (d < n)%nat -> fixed d = 1 -> exists z, forall y : vec, a * Rabs (y d) - z <= grown_energy y.
Proof.
  intros Hd F. exists (a * a + load_work b (follow c rest)). intros y.
  assert (A : y d * y d <= sumn n (fun d => fixed d * (y d * y d))).
  { eapply Rle_trans; [|apply (sumn_term_le n (fun d => fixed d * (y d * y d)) d); [|exact Hd]]; [cbv beta; rewrite F; lra|]. intros i _. pose proof (fixed_nonneg i). nra. }
  assert (B : 0 <= stored (follow c y)) by (apply (C95_stored_energy_nonneg b frames p0 (macro_of b) _ h C SM SI)).
  assert (E : 0 <= slip_potential (follow c y)) by (apply lsum_nonneg; intros; apply slips_nonneg; assumption).
  assert (Q : a * Rabs (y d) <= y d * y d + a * a). { replace (y d * y d) with (Rabs (y d) * Rabs (y d)) by (rewrite <- Rabs_mult; apply Rabs_pos_eq; nra). pose proof (pow2_ge_0 (Rabs (y d) - a)). pose proof (pow2_ge_0 (Rabs (y d))). nra. }
  unfold grown_energy. lra.
Qed.
Lemma levels : no_dead_loads b \/ all_systems_harden b h -> forall r, exists B, 0 < B /\ forall y, total y <= r -> forall d, (d < n)%nat -> Rabs (y d) <= B.
Proof.
  intros H r. destruct (level_bounded n functionals functionals_linear functionals_injective grown_energy (fun y => load_work b (follow k y)) (lin_follow _ lin_loads)) with (c := r) as (B & HB & L).
  - destruct H as [N|AH]; [left; split|right].
    + intros y. unfold load_work. apply lsum_zero. intros e He. destruct (N e He) as (S0 & ->). cbv zeta. cbn [lsum]. rewrite sumn_zero; [ring|]. intros q _.
      unfold dot. rewrite (sumn_zero (cr_dim _)); [ring|]. intros i _. rewrite S0. ring.
    + intros l Hl. apply in_functionals in Hl. destruct Hl as [(e & q & j & He & Hq & Hj & ->)|[(e & q & a & He & Hq & Ha & ->)|(d & Hd & F & ->)]].
      * destruct (pairing_grows e q j 1 He Hq) as (z & Z). exists 1, z. split; [lra|exact Z].
      * apply slip_value_grows; assumption.
      * destruct (fixed_grows d 1 Hd F) as (z & Z). exists 1, z. split; [lra|exact Z].
    + intros l a Hl. apply in_functionals in Hl. destruct Hl as [(e & q & j & He & Hq & Hj & ->)|[(e & q & s & He & Hq & Ha & ->)|(d & Hd & F & ->)]].
      * apply pairing_grows; assumption.
      * apply slip_value_grows_fast; assumption.
      * apply fixed_grows; assumption.
  - exists B. split; [exact HB|]. intros y Y. rewrite total_parts in Y. exact (L y Y).
Qed.
Lemma solution_of_levels : (forall r, exists B, 0 < B /\ forall y, total y <= r -> forall d, (d < n)%nat -> Rabs (y d) <= B) -> exists x, obeys c x /\ solves_step b old h k x.
Proof.
  intros H. destruct (H (total rest)) as (B & HB & L). destruct (critical_point n total slope B total_convex slope_continuous HB L) as (y & Y).
  exists (follow c y). split; [apply follow_obeys|]. intros w W. set (P := virtual_power b old (follow c y) (trial_histories b old (follow c y) h)).
  assert (LP : linear_on n P) by apply lin_power.
  rewrite (proj2 LP w (follow k w)) by (intros d Hd; symmetry; apply follow_fixed; assumption).
  rewrite (linear_expansion n (fun v => P (follow k v)) w (lin_follow P LP)). apply sumn_zero. intros d Hd. specialize (Y d Hd). unfold slope in Y. fold P in Y.
  destruct (k d) as [[es z]|] eqn:E.
  - assert (Z : P (follow k (unit_at d)) = 0); [|rewrite Z; ring]. rewrite <- (linear_zero n P LP). apply (proj2 LP). intros i Hi. unfold follow.
    destruct (k i) as [[es' z']|] eqn:E'.
    + rewrite (homogeneous_k i es' z' E'), Rplus_0_r. apply lsum_zero. intros [e v] Ie. unfold unit_at, kron. cbn [fst snd]. destruct (Nat.eqb_spec e d) as [->|]; [|ring].
      destruct CB as (CL & _). pose proof (CL i es' z' d v E' Ie) as F. congruence.
    + unfold unit_at, kron. destruct (Nat.eqb_spec i d) as [->|]; [congruence|reflexivity].
  - unfold fixed in Y. rewrite E in Y. replace (P (follow k (unit_at d))) with 0 by lra. ring.
Qed.
Lemma solution_exists : no_dead_loads b \/ all_systems_harden b h -> exists x, obeys c x /\ solves_step b old h k x.
Proof. intros H. exact (solution_of_levels (levels H)). Qed.
End Supports.
End Energy.

(** ** The theorem *)
(** A body driven by displacements, or one whose slip systems all harden, has exactly one
    solution in every time step. *)
Theorem C109_exactly_one_solution : forall b frames p0 old h c k,
  consistent b -> two_sided b -> b_decohesion b = false -> stable_material b (macro_of b) -> stable_interfaces b frames p0 ->
  initialised b h -> sound_histories b h -> no_latent_hardening b h -> strict_grains b ->
  homogeneous_version c k -> closed_below (b_ndofs b) k -> held_in_place b k ->
  no_dead_loads b \/ all_systems_harden b h ->
  exists x, obeys c x /\ solves_step b old h k x /\
  forall y, obeys c y -> solves_step b old h k y -> forall d, (d < b_ndofs b)%nat -> y d = x d.
Proof.
  intros b frames p0 old h c k C T D SM SI I SH NL SG HV CB HP H.
  destruct (solution_exists b frames p0 old h C T D SM SI I SH NL SG c k HV CB HP H) as (x & X & Sx). exists x. split; [exact X|]. split; [exact Sx|].
  intros y Y Sy. apply (C99_at_most_one_solution b frames p0 old y x h k C T D SM SI I SH NL SG (homogeneous_difference b c k y x HV Y X) Sy Sx). exact HP.
Qed.
Print Assumptions C109_exactly_one_solution.

(** ** Accepted solutions are close to the solution *)
Theorem C109_accepted_solution_is_close : forall b frames p0 e sp a fuel t oo s r,
  consistent b -> two_sided b -> b_decohesion b = false -> stable_material b (macro_of b) -> stable_interfaces b frames p0 ->
  initialised b (st_hist s) -> sound_histories b (st_hist s) -> no_latent_hardening b (st_hist s) -> strict_grains b ->
  works_on e b -> rate_independent sp = false -> well_formed_constraints a e ->
  homogeneous_version (p_affine (e_problem e)) (p_newton (e_problem e)) -> closed_below (b_ndofs b) (p_newton (e_problem e)) -> held_in_place b (p_newton (e_problem e)) ->
  no_dead_loads b \/ all_systems_harden b (st_hist s) ->
  solve_nonlinear_system e sp a fuel t oo s = Done r ->
  exists x, obeys (p_affine (e_problem e)) x /\ solves_step b (st_old s) (st_hist s) (p_newton (e_problem e)) x /\
  0 <= apart b (st_old s) x (st_trial r) (trial_histories b (st_old s) x (st_hist s)) (trial_histories b (st_old s) (st_trial r) (st_hist s))
    <= tolerated sp a b (increment x (st_trial r)).
Proof.
  intros b frames p0 e sp a fuel t oo s r C T D SM SI I SH NL SG W RI WF HV CB HP H SV.
  destruct (C109_exactly_one_solution b frames p0 (st_old s) (st_hist s) _ _ C T D SM SI I SH NL SG HV CB HP H) as (x & X & Sx & _). exists x. split; [exact X|]. split; [exact Sx|].
  pose proof (homogeneous_difference b _ _ _ _ HV X (C97_accepted_solution_obeys_the_constraints _ _ _ _ _ _ _ _ _ WF SV)) as SS.
  destruct (C99_residual_is_monotone b frames p0 (st_old s) x (st_trial r) (st_hist s) C T D SM SI I SH NL) as (A & B). cbv zeta in A, B. split; [exact A|].
  rewrite (Sx _ SS) in B.
  assert (N1 : st_internal r = p_newton (e_problem e)).
  { pose proof W as (W1 & W2 & _). pose proof C as (N & _).
    assert (HF : forgets_iterates (e_update e)) by (rewrite W2; apply body_forgets; [exact N|right; exact D]).
    destruct (accepted_step sp e HF _ _ _ _ _ _ (or_introl RI) SV) as (_ & _ & _ & _ & A5). rewrite (A5 RI).
    unfold merge, no_constraints. apply functional_extensionality. intros d. destruct (p_newton (e_problem e) d); reflexivity. }
  assert (Q := C92_accepted_solution_in_equilibrium b e sp a fuel t oo s r (increment x (st_trial r)) C (or_intror D) W I (or_introl RI) SV
    ltac:(rewrite N1; exact CB) ltac:(rewrite N1; exact SS)). cbv zeta in Q. fold (trial_histories b (st_old s) (st_trial r) (st_hist s)) in Q.
  assert (L : Rabs (virtual_power b (st_old s) (st_trial r) (trial_histories b (st_old s) (st_trial r) (st_hist s)) (increment x (st_trial r)))
    <= tolerated sp a b (increment x (st_trial r))) by (unfold tolerated; destruct a; exact Q).
  match type of L with Rabs ?u <= _ => pose proof (Rle_abs u) end. lra.
Qed.
Print Assumptions C109_accepted_solution_is_close.

(** ** Whole histories *)
(** What a step reads of the internal variables of a body without decohesion. *)
Definition same_resistances (b : body) (h h' : rank_data) : Prop := forall c q, In c (b_cells b) -> (q < b_nq b)%nat ->
  prm (r_bulk h' c q) = prm (r_bulk h c q) /\ char_res (r_bulk h' c q) = char_res (r_bulk h c q) /\
  forall a, (a < b_ns b)%nat -> resistances_of h' c q a = resistances_of h c q a.
Section Same.
Variables (b : body) (old old' : vec).
Hypothesis C : consistent b.
Hypothesis D : b_decohesion b = false.
Hypothesis SM : stable_material b (macro_of b).
Hypothesis EO : forall d, (d < b_ndofs b)%nat -> old' d = old d.
Lemma same_slip c q a : In c (b_cells b) -> slip_at (b_element b c) (local_values b old' c) q a = slip_at (b_element b c) (local_values b old c) q a.
Proof. intros Hc. apply (proj2 (lin_slip b c C Hc q a)). exact EO. Qed.
Lemma same_power x r r' w : (forall c q a, In c (b_cells b) -> (q < b_nq b)%nat -> (a < b_ns b)%nat -> resistances_of r' c q a = resistances_of r c q a) ->
  virtual_power b old' x r' w = virtual_power b old x r w.
Proof.
  intros E. rewrite !virtual_power_parts. apply lsum_ext. intros c Hc. f_equal. f_equal.
  - f_equal. unfold grain_power. cbv zeta. destruct (sizes b C SM c Hc) as (NQ & NS). rewrite NQ, NS. apply sumn_ext. intros q Hq. f_equal. f_equal. apply sumn_ext. intros a Ha.
    rewrite (same_slip c q a Hc). pose proof (E c q a Hc Hq Ha) as Ea. unfold resistances_of in Ea. rewrite Ea. reflexivity.
  - apply lsum_ext. intros n Hn. rewrite !(side_form b C D) by assumption. reflexivity.
Qed.
Variables (h h' : rank_data).
Hypothesis I : initialised b h.
Hypothesis I' : initialised b h'.
Hypothesis SH : sound_histories b h.
Hypothesis SH' : sound_histories b h'.
Hypothesis NL : no_latent_hardening b h.
Hypothesis SR : same_resistances b h h'.
Lemma same_latent : no_latent_hardening b h'.
Proof. intros c q Hc Hq. cbv zeta. destruct (SR c q Hc Hq) as (-> & _). exact (NL c q Hc Hq). Qed.
Lemma same_trial x x' c q a : (forall d, (d < b_ndofs b)%nat -> x' d = x d) -> In c (b_cells b) -> (q < b_nq b)%nat -> (a < b_ns b)%nat ->
  resistances_of (trial_histories b old' x' h') c q a = resistances_of (trial_histories b old x h) c q a.
Proof.
  intros EX Hc Hq Ha. rewrite (trial_resistance b old' x' h' c q a C D I' SH' same_latent Hc Hq Ha), (trial_resistance b old x h c q a C D I SH NL Hc Hq Ha).
  destruct (SR c q Hc Hq) as (E1 & E2 & E3). rewrite E1, E2, (E3 a Ha), (same_slip c q a Hc).
  assert (EX' : slip_at (b_element b c) (local_values b x' c) q a = slip_at (b_element b c) (local_values b x c) q a) by (apply (proj2 (lin_slip b c C Hc q a)); exact EX).
  rewrite EX'. reflexivity.
Qed.
Lemma same_step k x : solves_step b old' h' k x -> solves_step b old h k x.
Proof. intros S w W. rewrite <- (S w W). symmetry. apply same_power. intros c q a Hc Hq Ha. apply same_trial; auto. Qed.
Lemma same_next x x' : (forall d, (d < b_ndofs b)%nat -> x' d = x d) ->
  same_resistances b (body_finish b x (trial_histories b old x h)) (body_finish b x' (trial_histories b old' x' h')).
Proof.
  intros EX c q Hc Hq. pose proof C as (N & _). pose proof SH as (SB & _). pose proof SH' as (SB' & _). destruct (SB c q Hc Hq) as (L & _). destruct (SB' c q Hc Hq) as (L' & _).
  change (body_finish b x (trial_histories b old x h)) with (next_histories b old x h). change (body_finish b x' (trial_histories b old' x' h')) with (next_histories b old' x' h').
  destruct (next_bulk b old x h c q N (or_intror D) I Hc Hq L) as (A1 & A2 & _). destruct (next_bulk b old' x' h' c q N (or_intror D) I' Hc Hq L') as (B1 & B2 & _). cbv zeta in *.
  destruct (SR c q Hc Hq) as (E1 & E2 & E3). split; [congruence|]. split; [congruence|]. intros a Ha. unfold resistances_of.
  rewrite !(bulk_kept_by_finish b _ _ _ c q N Hc Hq). exact (same_trial x x' c q a EX Hc Hq Ha).
Qed.
End Same.
(** What one exact step keeps. *)
Definition ready (b : body) (h : rank_data) : Prop :=
  initialised b h /\ sound_histories b h /\ no_latent_hardening b h.
Lemma ready_next b old x h : consistent b -> two_sided b -> b_decohesion b = false -> ready b h -> ready b (next_histories b old x h) /\
  (all_systems_harden b h -> all_systems_harden b (next_histories b old x h)).
Proof.
  intros C T D (I & SH & NL). pose proof C as (N & _). pose proof SH as (SB & _).
  assert (K : forall c q, In c (b_cells b) -> (q < b_nq b)%nat -> prm (r_bulk (next_histories b old x h) c q) = prm (r_bulk h c q) /\ char_res (r_bulk (next_histories b old x h) c q) = char_res (r_bulk h c q)).
  { intros c q Hc Hq. destruct (SB c q Hc Hq) as (L & _). destruct (next_bulk b old x h c q N (or_intror D) I Hc Hq L) as (A1 & A2 & _). auto. }
  split; [split; [|split]|].
  - unfold next_histories, body_finish, body_update, body_store. apply initialised_sweep; [exact N|]. apply initialised_sweep; [exact N|]. apply initialised_sweep; assumption.
  - apply (sound_next b old x h); try assumption. right. exact D.
  - intros c q Hc Hq. cbv zeta. destruct (K c q Hc Hq) as (-> & _). exact (NL c q Hc Hq).
  - intros AH c q Hc Hq. destruct (K c q Hc Hq) as (-> & ->). exact (AH c q Hc Hq).
Qed.
Lemma ready_same b b' h : same_points b b' -> b_microtraction b = b_microtraction b' -> ready b h -> ready b' h.
Proof.
  intros P M (I & SH & NL). split; [exact (same_points_initialised b b' h P I)|]. split; [exact (same_points_sound b b' h P M SH)|].
  destruct P as (P1 & P2 & P3 & P4 & P5 & P6 & P7). unfold no_latent_hardening in *. rewrite <- P2, <- P3, <- P5. exact NL.
Qed.
Lemma harden_same b b' h : same_points b b' -> all_systems_harden b h -> all_systems_harden b' h.
Proof. intros (P1 & P2 & P3 & P4 & P5 & P6 & P7). unfold all_systems_harden. rewrite <- P2, <- P3. auto. Qed.

Section Run.
Variables (b0 : body) (frames : nat -> frame) (p0 : interface) (bodies : nat -> body) (c k : nat -> constraints) (x0 : vec) (h0 : rank_data).
Hypothesis ST : forall i, stable_step frames p0 (bodies i) (c i) (k i).
Hypothesis SP : forall i, same_points b0 (bodies i) /\ b_microtraction b0 = b_microtraction (bodies i) /\ b_ndofs (bodies i) = b_ndofs b0 /\ b_dofs (bodies i) = b_dofs b0.
Hypothesis R0 : ready b0 h0.
Hypothesis LD : (forall i, no_dead_loads (bodies i)) \/ all_systems_harden b0 h0.
Lemma ready_along n X H : H 0%nat = h0 -> exact_history n bodies c k X H -> forall i, (i <= n)%nat -> ready b0 (H i) /\ (all_systems_harden b0 h0 -> all_systems_harden b0 (H i)).
Proof.
  intros E0 EX. induction i as [|i IH]; intros Hi; [rewrite E0; auto|]. destruct IH as (R & A); [lia|]. destruct (EX i ltac:(lia)) as (_ & _ & ->).
  destruct (SP i) as (P & M & _). destruct (ST i) as (C & T & D & _). pose proof (same_points_sym _ _ P) as P'.
  destruct (ready_next (bodies i) (X i) (X (S i)) (H i) C T D (ready_same _ _ _ P M R)) as (R' & A').
  split; [exact (ready_same _ _ _ P' (eq_sym M) R')|]. intros AH. apply (harden_same _ _ _ P'), A', (harden_same _ _ _ P), A, AH.
Qed.
Lemma next_exists n X H : H 0%nat = h0 -> exact_history n bodies c k X H -> exists x, obeys (c n) x /\ solves_step (bodies n) (X n) (H n) (k n) x.
Proof.
  intros E0 EX. destruct (ready_along n X H E0 EX n (le_n n)) as (R & A). destruct (SP n) as (P & M & _). destruct (ST n) as (C & T & D & SM & SI & SG & HV & CB & HP).
  destruct (ready_same _ _ _ P M R) as (I & SH & NL).
  destruct (C109_exactly_one_solution (bodies n) frames p0 (X n) (H n) (c n) (k n) C T D SM SI I SH NL SG HV CB HP) as (x & Ox & Sx & _).
  - destruct LD as [L|L]; [left; apply L|right; apply (harden_same _ _ _ P), A, L].
  - exists x. auto.
Qed.
Lemma histories_exist n : exists X H, X 0%nat = x0 /\ H 0%nat = h0 /\ exact_history n bodies c k X H.
Proof.
  induction n as [|n (X & H & EX & EH & E)]; [exists (fun _ => x0), (fun _ => h0); split; [reflexivity|]; split; [reflexivity|]; intros i Hi; lia|].
  destruct (next_exists n X H EH E) as (x & Ox & Sx).
  exists (fun i => if Nat.eqb i (S n) then x else X i), (fun i => if Nat.eqb i (S n) then body_finish (bodies n) x (trial_histories (bodies n) (X n) x (H n)) else H i).
  split; [exact EX|]. split; [exact EH|]. intros i Hi. change (Nat.eqb (S i) (S n)) with (Nat.eqb i n).
  destruct (Nat.eqb_spec i (S n)) as [A|A]; [lia|]. destruct (Nat.eqb_spec i n) as [->|B]; [auto|]. apply E. lia.
Qed.
Lemma histories_unique n X H X' H' : X 0%nat = x0 -> H 0%nat = h0 -> exact_history n bodies c k X H -> X' 0%nat = x0 -> H' 0%nat = h0 -> exact_history n bodies c k X' H' ->
  forall i, (i <= n)%nat -> (forall d, (d < b_ndofs b0)%nat -> X' i d = X i d) /\ same_resistances b0 (H i) (H' i).
Proof.
  intros EX EH E EX' EH' E'. induction i as [|i IH]; intros Hi.
  - rewrite EX, EX', EH, EH'. split; [reflexivity|]. intros e q _ _. auto.
  - destruct IH as (IX & IR); [lia|]. destruct (ready_along n X H EH E i ltac:(lia)) as (R & _). destruct (ready_along n X' H' EH' E' i ltac:(lia)) as (R' & _).
    destruct (SP i) as (P & M & N & _). destruct (ST i) as (C & T & D & SM & SI & SG & HV & CB & HP).
    destruct (ready_same _ _ _ P M R) as (I1 & S1 & L1). destruct (ready_same _ _ _ P M R') as (I2 & S2 & L2).
    destruct (E i ltac:(lia)) as (O1 & V1 & ->). destruct (E' i ltac:(lia)) as (O2 & V2 & ->).
    assert (IR' : same_resistances (bodies i) (H i) (H' i)) by (destruct P as (P1 & P2 & P3 & P4 & P5 & P6 & P7); unfold same_resistances; rewrite <- P2, <- P3, <- P5; exact IR).
    rewrite <- N in *. pose proof (same_step (bodies i) (X i) (X' i) C D SM IX (H i) (H' i) I1 I2 S1 S2 L1 IR' (k i) (X' (S i)) V2) as V2'.
    assert (U : forall d, (d < b_ndofs (bodies i))%nat -> X' (S i) d = X (S i) d).
    { apply (C99_at_most_one_solution (bodies i) frames p0 (X i) (X' (S i)) (X (S i)) (H i) (k i) C T D SM SI I1 S1 L1 SG (homogeneous_difference _ _ _ _ _ HV O2 O1) V2' V1). exact HP. }
    split; [exact U|]. pose proof (same_next (bodies i) (X i) (X' i) C D IX (H i) (H' i) I1 I2 S1 S2 L1 IR' (X (S i)) (X' (S i)) U) as Q.
    destruct P as (P1 & P2 & P3 & P4 & P5 & P6 & P7). unfold same_resistances in *. rewrite P2, P3, P5. exact Q.
Qed.
End Run.
Theorem C109_whole_histories : forall b0 frames p0 bodies c k x0 h0 n,
  (forall i, stable_step frames p0 (bodies i) (c i) (k i)) ->
  (forall i, same_points b0 (bodies i) /\ b_microtraction b0 = b_microtraction (bodies i) /\ b_ndofs (bodies i) = b_ndofs b0 /\ b_dofs (bodies i) = b_dofs b0) ->
  initialised b0 h0 -> sound_histories b0 h0 -> no_latent_hardening b0 h0 ->
  (forall i, no_dead_loads (bodies i)) \/ all_systems_harden b0 h0 ->
  exists X H, X 0%nat = x0 /\ H 0%nat = h0 /\ exact_history n bodies c k X H /\
  forall X' H', X' 0%nat = x0 -> H' 0%nat = h0 -> exact_history n bodies c k X' H' ->
  forall i d, (i <= n)%nat -> (d < b_ndofs b0)%nat -> X' i d = X i d.
Proof.
  intros b0 frames p0 bodies c k x0 h0 n ST SP I SH NL LD. destruct (histories_exist b0 frames p0 bodies c k x0 h0 ST SP (conj I (conj SH NL)) LD n) as (X & H & EX & EH & E).
  exists X, H. split; [exact EX|]. split; [exact EH|]. split; [exact E|]. intros X' H' EX' EH' E' i d Hi Hd.
  apply (histories_unique b0 frames p0 bodies c k x0 h0 ST SP (conj I (conj SH NL)) n X H X' H' EX EH E EX' EH' E' i Hi). exact Hd.
Qed.
Print Assumptions C109_whole_histories.
