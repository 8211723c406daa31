(** * Running the statements of assemble_local_residual. *)
From Coq Require Import Lia Lra FunctionalExtensionality Eqdep_dec.
From Verif Require Import Num SumLemmas Tensors ModelElastic ModelMicro ModelCohesive ModelAssembly ModelScratch SpecScratch.
Open Scope R_scope.

Lemma xadd_assoc a b c : xadd a (xadd b c) = xadd (xadd a b) c.
Proof. destruct a, b, c; cbn; try reflexivity. f_equal. ring. Qed.
Lemma xadd_zero a : xadd a (Fin 0) = a.
Proof. destruct a; cbn; try reflexivity. f_equal. ring. Qed.
Lemma xadd_zero_l a : xadd (Fin 0) a = a.
Proof. destruct a; cbn; try reflexivity. f_equal. ring. Qed.
Lemma xsumn_start n f : forall acc, (fix go k := match k with O => acc | S k' => xadd (go k') (f k') end) n = xadd acc (xsumn n f).
Proof. intros acc. induction n as [|n IH]; cbn [xsumn]; [symmetry; apply xadd_zero|]. rewrite IH. symmetry. apply xadd_assoc. Qed.

(** ** Memory *)
Lemma set_same v i j x m : set v i j x m v i j = x.
Proof.
  unfold set. destruct (var_dec v v) as [E|N]; [|contradiction]. rewrite !Nat.eqb_refl. cbn [andb]. rewrite (UIP_dec var_dec E eq_refl). reflexivity.
Qed.
Lemma set_other v w i j x m : v <> w -> set v i j x m w = m w.
Proof. intros N. unfold set. destruct (var_dec v w) as [E|_]; [contradiction|reflexivity]. Qed.
Lemma set_index v i j x m i' j' : (i' <> i \/ j' <> j) -> set v i j x m v i' j' = m v i' j'.
Proof.
  intros N. unfold set. destruct (var_dec v v) as [E|K]; [|contradiction].
  destruct (Nat.eqb_spec i' i), (Nat.eqb_spec j' j); cbn [andb]; try reflexivity. lia.
Qed.
Definition keeps (v : var) (f : memory -> memory) : Prop := forall m, f m v = m v.
Lemma keeps_seq v f g : keeps v f -> keeps v g -> keeps v (seq2 f g).
Proof. intros A B m. unfold seq2. rewrite B. apply A. Qed.
Lemma keeps_loop v f n : (forall k, keeps v (f k)) -> keeps v (loop n f).
Proof. intros A. induction n as [|n IH]; intros m; cbn [loop]; [reflexivity|]. rewrite A. apply IH. Qed.
Lemma keeps_when v b f : keeps v f -> keeps v (when b f).
Proof. intros A. unfold when. destruct b; [exact A|intros m; reflexivity]. Qed.
Lemma keeps_set v w i j x : w <> v -> keeps v (set w i j x).
Proof. intros N m. apply set_other. exact N. Qed.
Lemma keeps_compute v w i j (x : memory -> value w) : w <> v -> keeps v (fun m => set w i j (x m) m).
Proof. intros N m. apply set_other. exact N. Qed.
Lemma keeps_fill v w n x : w <> v -> keeps v (fill w n x).
Proof. intros N. apply keeps_loop. intros k. apply keeps_set. exact N. Qed.
Lemma keeps_row v w a n x : w <> v -> keeps v (fill_row w a n x).
Proof. intros N. apply keeps_loop. intros k. apply keeps_set. exact N. Qed.
Ltac keep := lazymatch goal with
  | |- keeps _ (seq2 _ _) => apply keeps_seq; keep
  | |- keeps _ (when _ _) => apply keeps_when; keep
  | |- keeps _ (loop _ _) => apply keeps_loop; intros ?; keep
  | |- keeps _ (fill _ _ _) => apply keeps_fill; discriminate
  | |- keeps _ (fill_row _ _ _ _) => apply keeps_row; discriminate
  | |- keeps _ (set _ _ _ _) => apply keeps_set; discriminate
  | |- keeps _ (if ?b then _ else _) => destruct b; keep
  | |- keeps _ (fun m => set _ _ _ _ m) => intros ?; apply set_other; discriminate
  | |- keeps _ (fun m => let y := _ in set _ _ _ _ m) => intros ?; cbv zeta; apply set_other; discriminate
  end.
Lemma loop_rule (P : nat -> memory -> Prop) n f m : P 0%nat m -> (forall k u, (k < n)%nat -> P k u -> P (S k) (f k u)) -> P n (loop n f m).
Proof.
  intros A B. assert (G : forall k, (k <= n)%nat -> P k (loop k f m)); [|apply G; lia].
  induction k as [|k IH]; intros L; cbn [loop]; [exact A|]. apply B; [lia|]. apply IH. lia.
Qed.
Lemma fill_entry v n x m q : (q < n)%nat -> fill v n x m v q 0%nat = x q.
Proof.
  intros L. unfold fill. apply (loop_rule (fun k u => forall q, (q < k)%nat -> u v q 0%nat = x q)); [intros; lia| |exact L].
  intros k u _ A q' Q. destruct (Nat.eq_dec q' k) as [->|N]; [apply set_same|]. rewrite set_index by (left; exact N). apply A. lia.
Qed.
Lemma row_entry v a n x m q : (q < n)%nat -> fill_row v a n x m v a q = x q.
Proof.
  intros L. unfold fill_row. apply (loop_rule (fun k u => forall q, (q < k)%nat -> u v a q = x q)); [intros; lia| |exact L].
  intros k u _ A q' Q. destruct (Nat.eq_dec q' k) as [->|N]; [apply set_same|]. rewrite set_index by (right; exact N). apply A. lia.
Qed.
Lemma row_elsewhere v a n x m b q : b <> a -> fill_row v a n x m v b q = m v b q.
Proof.
  intros L. unfold fill_row. apply (loop_rule (fun k u => u v b q = m v b q)); [reflexivity|].
  intros k u _ A. rewrite set_index by (left; exact L). exact A.
Qed.
(** Rows filled one after the other. *)
Lemma rows_entry v ns n x g m a q : (forall b, keeps v (g b)) -> (a < ns)%nat -> (q < n)%nat -> loop ns (fun b => seq2 (fill_row v b n (x b)) (g b)) m v a q = x a q.
Proof.
  intros K A Q. apply (loop_rule (fun k u => forall a, (a < k)%nat -> u v a q = x a q)); [intros; lia| |exact A].
  intros k u _ IH b B. unfold seq2. rewrite (K k). destruct (Nat.eq_dec b k) as [->|N]; [apply row_entry; exact Q|]. rewrite row_elsewhere by exact N. apply IH. lia.
Qed.
(** The same when [g] comes first. *)
Lemma rows_entry_after v ns n x g m a q : (forall b, keeps v (g b)) -> (a < ns)%nat -> (q < n)%nat -> loop ns (fun b => seq2 (g b) (fill_row v b n (x b))) m v a q = x a q.
Proof.
  intros K A Q. apply (loop_rule (fun k u => forall a, (a < k)%nat -> u v a q = x a q)); [intros; lia| |exact A].
  intros k u _ IH b B. unfold seq2. destruct (Nat.eq_dec b k) as [->|N]; [apply row_entry; exact Q|]. rewrite row_elsewhere by exact N. rewrite (K k). apply IH. lia.
Qed.
(** Entries of local_rhs are updated one after the other; [t] does not read local_rhs. *)
Lemma update_loop n (f : nat -> memory -> memory) (t : nat -> xr) (m : memory) :
  (forall i (u : memory), (i < n)%nat -> (forall v, v <> LocalRhs -> u v = m v) ->
     f i u LocalRhs i 0%nat = xadd (u LocalRhs i 0%nat) (t i) /\ (forall k, k <> i -> f i u LocalRhs k 0%nat = u LocalRhs k 0%nat) /\ forall v, v <> LocalRhs -> f i u v = u v) ->
  (forall i, (i < n)%nat -> loop n f m LocalRhs i 0%nat = xadd (m LocalRhs i 0%nat) (t i)) /\ forall v, v <> LocalRhs -> loop n f m v = m v.
Proof.
  intros H.
  pose (P := fun k (u : memory) => (forall i, (i < k)%nat -> u LocalRhs i 0%nat = xadd (m LocalRhs i 0%nat) (t i)) /\
                         (forall i, (k <= i)%nat -> u LocalRhs i 0%nat = m LocalRhs i 0%nat) /\ forall v, v <> LocalRhs -> u v = m v).
  assert (G : P n (loop n f m)).
  { apply loop_rule.
    - repeat split; intros; try reflexivity. lia.
    - intros k u L (A & B & C). destruct (H k u L C) as (D & E & F). repeat split.
      + intros i K. destruct (Nat.eq_dec i k) as [->|N]; [rewrite D, B by lia; reflexivity|]. rewrite E by exact N. apply A. lia.
      + intros i K. rewrite E by lia. apply B. lia.
      + intros v V. rewrite F by exact V. apply C. exact V. }
  destruct G as (A & _ & B). split; assumption.
Qed.
(** Two rows at a time. *)
Lemma elastic_strain_ext N P eps g h n : (forall a, (a < n)%nat -> g a = h a) -> elastic_strain N P eps g n = elastic_strain N P eps h n.
Proof.
  induction n as [|n IH]; intros H; cbn [elastic_strain]; [reflexivity|]. rewrite IH by (intros; apply H; lia). rewrite (H n) by lia. reflexivity.
Qed.
Lemma microtraction_ext lambda chi n M g h g' h' a : (forall b, (b < n)%nat -> g b = g' b /\ h b = h' b) ->
  microtraction lambda chi n M g h a = microtraction lambda chi n M g' h' a.
Proof. intros H. unfold microtraction. f_equal. apply sumn_ext. intros b B. destruct (H b B) as [-> ->]. reflexivity. Qed.

Section Bulk.
Variable x : view.
Let c := v_crystal x.
Let e := v_element x.
Let nq := el_nq e.
Let nd := el_nd e.
Let ns := cr_ns c.
Let d := cr_dim c.
Hypothesis W : forall i, (i < nd)%nat -> (el_comp e i < d + ns)%nat.
Definition fields (m : memory) : Prop :=
  (forall q, (q < el_nq (v_element x))%nat -> m JxW q 0%nat = el_w (v_element x) q /\ m Strain q 0%nat = strain_at (v_element x) (v_U x) q /\ m Supply q 0%nat = cr_supply (v_crystal x) q) /\
  forall a q, (a < cr_ns (v_crystal x))%nat -> (q < el_nq (v_element x))%nat -> m Slips a q = slip_at (v_element x) (v_U x) q a /\ m OldSlips a q = slip_at (v_element x) (v_Uold x) q a /\ m Gradients a q = slip_gradient_at (v_element x) (v_U x) q a.
Lemma fields_kept (m u : memory) : u JxW = m JxW -> u Strain = m Strain -> u Supply = m Supply -> u Slips = m Slips -> u OldSlips = m OldSlips -> u Gradients = m Gradients -> fields m -> fields u.
Proof. intros A B C D E F G. unfold fields. rewrite A, B, C, D, E, F. exact G. Qed.
Lemma get_fields_ok (m : memory) : (v_supply x = true \/ forall q, (q < nq)%nat -> m Supply q 0%nat = cr_supply c q) -> fields (get_fields x m).
Proof.
  intros SU.
  pose (g := fun a => fill_row Slips a nq (fun q => slip_at e (v_U x) q a) ;; fill_row OldSlips a nq (fun q => slip_at e (v_Uold x) q a) ;; fill_row Gradients a nq (fun q => slip_gradient_at e (v_U x) q a)).
  assert (E : get_fields x m = loop ns g (when (v_supply x) (fill Supply nq (cr_supply c)) (fill Strain nq (strain_at e (v_U x)) (fill JxW nq (el_w e) m)))) by reflexivity.
  rewrite E. clear E. unfold fields. fold c. fold e. fold nq. fold ns. split.
  - intros q Q.
    assert (K1 : keeps JxW (loop ns g)) by (unfold g; keep).
    assert (K2 : keeps Strain (loop ns g)) by (unfold g; keep).
    assert (K3 : keeps Supply (loop ns g)) by (unfold g; keep).
    rewrite K1, K2, K3. repeat split.
    + assert (L1 : keeps JxW (when (v_supply x) (fill Supply nq (cr_supply c)))) by keep. rewrite L1.
      assert (L2 : keeps JxW (fill Strain nq (strain_at e (v_U x)))) by keep. rewrite L2. apply fill_entry. exact Q.
    + assert (L1 : keeps Strain (when (v_supply x) (fill Supply nq (cr_supply c)))) by keep. rewrite L1. apply fill_entry. exact Q.
    + unfold when. destruct (v_supply x).
      * apply (fill_entry Supply nq (cr_supply c)). exact Q.
      * assert (L2 : keeps Supply (fill Strain nq (strain_at e (v_U x)))) by keep. rewrite L2.
        assert (L3 : keeps Supply (fill JxW nq (el_w e))) by keep. rewrite L3. destruct SU as [D|D]; [discriminate|]. apply D. exact Q.
  - intros a q A Q.
    assert (F : forall m0, loop ns g m0 Slips a q = slip_at e (v_U x) q a /\ loop ns g m0 OldSlips a q = slip_at e (v_Uold x) q a /\ loop ns g m0 Gradients a q = slip_gradient_at e (v_U x) q a).
    { intros m0. repeat split.
      - unfold g. apply (rows_entry Slips ns nq (fun a q => slip_at e (v_U x) q a) (fun a => seq2 (fill_row OldSlips a nq (fun q => slip_at e (v_Uold x) q a)) (fill_row Gradients a nq (fun q => slip_gradient_at e (v_U x) q a)))); [intros b; keep|exact A|exact Q].
      - pose (G := fun k (u : memory) => forall a, (a < k)%nat -> u OldSlips a q = slip_at e (v_Uold x) q a).
        apply (loop_rule G); [unfold G; intros; lia| |exact A]. unfold G. intros k u _ IH b B. unfold g, seq2.
        assert (L : keeps OldSlips (fill_row Gradients k nq (fun q => slip_gradient_at e (v_U x) q k))) by keep. rewrite L.
        assert (L' : keeps OldSlips (fill_row Slips k nq (fun q => slip_at e (v_U x) q k))) by keep.
        destruct (Nat.eq_dec b k) as [->|N]; [apply (row_entry OldSlips k nq (fun q => slip_at e (v_Uold x) q k)); exact Q|]. rewrite row_elsewhere by exact N. rewrite L'. apply IH. lia.
      - pose (G := fun k (u : memory) => forall a, (a < k)%nat -> u Gradients a q = slip_gradient_at e (v_U x) q a).
        apply (loop_rule G); [unfold G; intros; lia| |exact A]. unfold G. intros k u _ IH b B. unfold g, seq2.
        assert (L : keeps Gradients (fill_row OldSlips k nq (fun q => slip_at e (v_Uold x) q k))) by keep.
        assert (L' : keeps Gradients (fill_row Slips k nq (fun q => slip_at e (v_U x) q k))) by keep.
        destruct (Nat.eq_dec b k) as [->|N]; [apply (row_entry Gradients k nq (fun q => slip_gradient_at e (v_U x) q k)); exact Q|]. rewrite row_elsewhere by exact N. rewrite L, L'. apply IH. lia. }
    apply F.
Qed.

(** Stresses and microstresses of a quadrature point. *)
Definition stressed (q : nat) (m : memory) : Prop :=
  m Stress q 0%nat = stress_at (v_crystal x) (v_element x) (v_U x) q /\
  forall a, (a < cr_ns (v_crystal x))%nat ->
    m VectorMicrostress a q = vectorial_microstress (cr_factor (v_crystal x)) (cr_p (v_crystal x)) (cr_dim (v_crystal x)) (cr_dir (v_crystal x) a) (cr_ort (v_crystal x) a) (slip_gradient_at (v_element x) (v_U x) q a) /\
    m ResolvedStress a q = resolved_shear_stress (cr_dim (v_crystal x)) (cr_P (v_crystal x) a) (stress_at (v_crystal x) (v_element x) (v_U x) q) /\
    m ScalarMicrostress a q = scalar_microstress (cr_law (v_crystal x)) (slip_at (v_element x) (v_U x) q a) (slip_at (v_element x) (v_Uold x) q a) (v_resistance x q a) (cr_dt (v_crystal x)).
Lemma stresses_keep v q : v <> Elastic -> v <> Stress -> v <> VectorMicrostress -> v <> ResolvedStress -> v <> ScalarMicrostress -> keeps v (point_stresses x q).
Proof.
  intros A B C D E. unfold point_stresses. apply keeps_seq; [intros m; apply set_other; congruence|]. apply keeps_seq; [intros m; apply set_other; congruence|].
  apply keeps_loop. intros k. apply keeps_seq; [intros m; apply set_other; congruence|]. apply keeps_seq; intros m; apply set_other; congruence.
Qed.
Lemma stresses_ok q (m : memory) : (q < nq)%nat -> fields m -> stressed q (point_stresses x q m).
Proof.
  intros Q [F1 F2]. unfold point_stresses. fold c. fold e. fold ns. fold d.
  destruct (F1 q Q) as (_ & FE & _).
  unfold seq2 at 1 2. cbv beta.
  set (m2 := set Stress q 0 _ _).
  assert (S2 : m2 Stress q 0%nat = stress_at c e (v_U x) q).
  { unfold m2. rewrite set_same, set_same, FE. unfold stress_at. fold d. f_equal. f_equal. apply elastic_strain_ext. intros a A. apply (F2 a q A Q). }
  assert (O2 : forall v, v <> Elastic -> v <> Stress -> m2 v = m v).
  { intros v A B. unfold m2. rewrite set_other by congruence. apply set_other. congruence. }
  pose (G := fun k (u : memory) => (forall v, v <> VectorMicrostress -> v <> ResolvedStress -> v <> ScalarMicrostress -> u v = m2 v) /\
     forall a, (a < k)%nat -> 
    u VectorMicrostress a q = vectorial_microstress (cr_factor c) (cr_p c) d (cr_dir c a) (cr_ort c a) (slip_gradient_at e (v_U x) q a) /\
    u ResolvedStress a q = resolved_shear_stress d (cr_P c a) (stress_at c e (v_U x) q) /\
    u ScalarMicrostress a q = scalar_microstress (cr_law c) (slip_at e (v_U x) q a) (slip_at e (v_Uold x) q a) (v_resistance x q a) (cr_dt c)).
  match goal with |- stressed q (loop ns ?f m2) => assert (GN : G ns (loop ns f m2)) end.
  { apply loop_rule.
    - split; [reflexivity|intros; lia].
    - intros k u L [U1 U2]. unfold seq2.
      destruct (F2 k q L Q) as (Z1 & Z2 & Z3).
      split.
      + intros v A B C. rewrite !set_other by congruence. apply U1; assumption.
      + intros a A. destruct (Nat.eq_dec a k) as [->|N].
        * split; [|split].
          -- rewrite set_other by discriminate. rewrite set_other by discriminate. rewrite set_same. rewrite U1 by discriminate. rewrite O2 by discriminate. rewrite Z3. reflexivity.
          -- rewrite set_other by discriminate. rewrite set_same. rewrite set_other by discriminate. rewrite U1 by discriminate. rewrite S2. reflexivity.
          -- rewrite set_same. rewrite !(set_other _ Slips) by discriminate. rewrite !(set_other _ OldSlips) by discriminate. rewrite !U1 by discriminate. rewrite !O2 by discriminate. rewrite Z1, Z2. reflexivity.
        * assert (A' : (a < k)%nat) by lia. destruct (U2 a A') as (V1 & V2 & V3). split; [|split].
          -- rewrite set_other by discriminate. rewrite set_other by discriminate. rewrite set_index by (left; exact N). exact V1.
          -- rewrite set_other by discriminate. rewrite set_index by (left; exact N). rewrite set_other by discriminate. exact V2.
          -- rewrite set_index by (left; exact N). rewrite set_other by discriminate. rewrite set_other by discriminate. exact V3. }
  destruct GN as [G1 G2]. split; [rewrite G1 by discriminate; exact S2|]. exact G2.
Qed.

(** Shape functions of a quadrature point. *)
Definition shaped (q : nat) (m : memory) : Prop := forall i, (i < el_nd (v_element x))%nat ->
  m Phi i 0%nat = el_phi (v_element x) i q /\ m SymGradPhi i 0%nat = el_eps (v_element x) i q /\
  forall a, (a < cr_ns (v_crystal x))%nat -> m ScalarPhi a i = el_psi (v_element x) a i q /\ m GradScalarPhi a i = el_dpsi (v_element x) a i q.
Lemma shapes_keep v q : v <> Phi -> v <> SymGradPhi -> v <> ScalarPhi -> v <> GradScalarPhi -> keeps v (point_shapes x q).
Proof.
  intros A B C D. unfold point_shapes. apply keeps_seq.
  - apply keeps_loop. intros k. apply keeps_seq; intros m; apply set_other; congruence.
  - apply keeps_loop. intros a. apply keeps_loop. intros k. apply keeps_seq; intros m; apply set_other; congruence.
Qed.
Lemma shapes_ok q (m : memory) : shaped q (point_shapes x q m).
Proof.
  unfold point_shapes. fold c. fold e. fold ns. fold nd.
  unfold seq2 at 1.
  match goal with |- shaped q (loop ns ?f (loop nd ?g m)) => set (f1 := f); set (g1 := g) end.
  assert (G : forall i, (i < nd)%nat -> loop nd g1 m Phi i 0%nat = el_phi e i q /\ loop nd g1 m SymGradPhi i 0%nat = el_eps e i q).
  { apply (loop_rule (fun k u => forall i, (i < k)%nat -> u Phi i 0%nat = el_phi e i q /\ u SymGradPhi i 0%nat = el_eps e i q)); [intros; lia|].
    intros k u _ IH i L. unfold g1, seq2. destruct (Nat.eq_dec i k) as [->|N].
    - split; [rewrite set_other by discriminate|]; apply set_same.
    - assert (L' : (i < k)%nat) by lia. destruct (IH i L') as [A B]. split.
      + rewrite set_other by discriminate. rewrite set_index by (left; exact N). exact A.
      + rewrite set_index by (left; exact N). rewrite set_other by discriminate. exact B. }
  set (m1 := loop nd g1 m) in *.
  assert (F : forall a, (a < ns)%nat -> forall i, (i < nd)%nat -> loop ns f1 m1 ScalarPhi a i = el_psi e a i q /\ loop ns f1 m1 GradScalarPhi a i = el_dpsi e a i q).
  { apply (loop_rule (fun k u => forall a, (a < k)%nat -> forall i, (i < nd)%nat -> u ScalarPhi a i = el_psi e a i q /\ u GradScalarPhi a i = el_dpsi e a i q)); [intros; lia|].
    intros k u _ IH a L.
    assert (I1 : forall i, (i < nd)%nat -> f1 k u ScalarPhi k i = el_psi e k i q /\ f1 k u GradScalarPhi k i = el_dpsi e k i q).
    { unfold f1. apply (loop_rule (fun l w => forall i, (i < l)%nat -> w ScalarPhi k i = el_psi e k i q /\ w GradScalarPhi k i = el_dpsi e k i q)); [intros; lia|].
      intros l w _ IW i LI. unfold seq2. destruct (Nat.eq_dec i l) as [->|N].
      - split; [rewrite set_other by discriminate|]; apply set_same.
      - assert (L' : (i < l)%nat) by lia. destruct (IW i L') as [A B]. split.
        + rewrite set_other by discriminate. rewrite set_index by (right; exact N). exact A.
        + rewrite set_index by (right; exact N). rewrite set_other by discriminate. exact B. }
    destruct (Nat.eq_dec a k) as [->|N]; [exact I1|]. intros i LI. assert (L' : (a < k)%nat) by lia. destruct (IH a L' i LI) as [A B].
    assert (K : f1 k u ScalarPhi a i = u ScalarPhi a i /\ f1 k u GradScalarPhi a i = u GradScalarPhi a i).
    { unfold f1. apply (loop_rule (fun l w => w ScalarPhi a i = u ScalarPhi a i /\ w GradScalarPhi a i = u GradScalarPhi a i)); [split; reflexivity|].
      intros l w _ [C D]. unfold seq2. split.
      - rewrite set_other by discriminate. rewrite set_index by (left; exact N). exact C.
      - rewrite set_index by (left; exact N). rewrite set_other by discriminate. exact D. }
    destruct K as [-> ->]. split; assumption. }
  assert (K1 : keeps Phi (loop ns f1)) by (unfold f1; keep).
  assert (K2 : keeps SymGradPhi (loop ns f1)) by (unfold f1; keep).
  intros i L. rewrite K1, K2. destruct (G i L) as [A B]. split; [exact A|]. split; [exact B|]. intros a LA. exact (F a LA i L).
Qed.
(** What a quadrature point adds to local_rhs. *)
Definition bulk_term (i q : nat) : xr := xneg
    (if Nat.ltb (el_comp e i) d then
       Fin (balance_factor c * (ddot d (el_eps e i q) (stress_at c e (v_U x) q) - dot d (el_phi e i q) (cr_supply c q)) * el_w e q)
     else
       let a := (el_comp e i - d)%nat in
       xmul (xsub (xmul (Fin (cr_N c 2)) (xdot d (el_dpsi e a i q) (vectorial_microstress (cr_factor c) (cr_p c) d (cr_dir c a) (cr_ort c a) (slip_gradient_at e (v_U x) q a))))
                  (Fin (el_psi e a i q * (cr_N c 3 * resolved_shear_stress d (cr_P c a) (stress_at c e (v_U x) q)
                         - scalar_microstress (cr_law c) (slip_at e (v_U x) q a) (slip_at e (v_Uold x) q a) (v_resistance x q a) (cr_dt c)))))
            (Fin (el_w e q))).
Lemma bulk_terms i : residual_bulk c e (v_U x) (v_Uold x) (v_resistance x) i = xsumn nq (bulk_term i).
Proof. reflexivity. Qed.
Lemma rhs_ok q (m : memory) : (q < nq)%nat -> fields m -> stressed q m -> shaped q m ->
  (forall i, (i < nd)%nat -> point_rhs x q m LocalRhs i 0%nat = xadd (m LocalRhs i 0%nat) (bulk_term i q)) /\ forall v, v <> LocalRhs -> point_rhs x q m v = m v.
Proof.
  intros Q [F1 F2] [T1 T2] H. unfold point_rhs. fold c. fold e. fold nd. fold d. apply update_loop. intros i u L O.
  split; [|split].
  - rewrite set_same. f_equal. unfold bulk_term. f_equal.
    destruct (H i L) as (P1 & P2 & P3). destruct (F1 q Q) as (J & _ & SU).
    destruct (Nat.ltb_spec (el_comp e i) d) as [B|B].
    + rewrite !O by discriminate. rewrite P1, P2, T1, J, SU. reflexivity.
    + cbv zeta. assert (A : (el_comp e i - d < ns)%nat) by (specialize (W i L); lia).
      destruct (P3 _ A) as [P4 P5]. destruct (T2 _ A) as (T3 & T4 & T5).
      rewrite !O by discriminate. rewrite P4, P5, T3, T4, T5, J. reflexivity.
  - intros k N. apply set_index. left. exact N.
  - intros v V. apply set_other. congruence.
Qed.
Lemma bulk_ok (m : memory) : fields m -> forall i, (i < nd)%nat -> bulk_part x m LocalRhs i 0%nat = xadd (m LocalRhs i 0%nat) (residual_bulk c e (v_U x) (v_Uold x) (v_resistance x) i).
Proof.
  intros F. unfold bulk_part. fold e. fold nq.
  match goal with |- forall i, _ -> loop nq ?f m _ _ _ = _ => set (g := f) end.
  assert (G : fields (loop nq g m) /\ forall i, (i < nd)%nat -> loop nq g m LocalRhs i 0%nat = xadd (m LocalRhs i 0%nat) (xsumn nq (bulk_term i))).
  { apply (loop_rule (fun k u => fields u /\ forall i, (i < nd)%nat -> u LocalRhs i 0%nat = xadd (m LocalRhs i 0%nat) (xsumn k (bulk_term i)))).
    - split; [exact F|]. intros i _. cbn [xsumn]. symmetry. apply xadd_zero.
    - intros q u Q [FU IH].
      set (u1 := point_stresses x q u). set (u2 := point_shapes x q u1).
      assert (E : g q u = point_rhs x q u2) by reflexivity.
      assert (F1 : fields u1) by (apply (fields_kept u); [apply (stresses_keep JxW)|apply (stresses_keep Strain)|apply (stresses_keep Supply)|apply (stresses_keep Slips)|apply (stresses_keep OldSlips)|apply (stresses_keep Gradients)|exact FU]; discriminate).
      assert (F2 : fields u2) by (apply (fields_kept u1); [apply (shapes_keep JxW)|apply (shapes_keep Strain)|apply (shapes_keep Supply)|apply (shapes_keep Slips)|apply (shapes_keep OldSlips)|apply (shapes_keep Gradients)|exact F1]; discriminate).
      assert (T : stressed q u2).
      { assert (T1 : stressed q u1) by (apply stresses_ok; assumption). unfold stressed in *.
        unfold u2. rewrite !(shapes_keep Stress) by discriminate. 
        destruct T1 as [A B]. split; [exact A|]. intros a L. destruct (B a L) as (C1 & C2 & C3).
        rewrite (shapes_keep VectorMicrostress q) by discriminate. rewrite (shapes_keep ResolvedStress q) by discriminate. rewrite (shapes_keep ScalarMicrostress q) by discriminate. repeat split; assumption. }
      destruct (rhs_ok q u2 Q F2 T (shapes_ok q u1)) as [A B]. rewrite E. split.
      + apply (fields_kept u2); try (apply B; discriminate). exact F2.
      + intros i L. rewrite (A i L). unfold u2, u1. rewrite (shapes_keep LocalRhs) by discriminate. rewrite (stresses_keep LocalRhs) by discriminate. rewrite (IH i L). cbn [xsumn]. symmetry. apply xadd_assoc. }
  intros i L. rewrite bulk_terms. exact (proj2 G i L).
Qed.
End Bulk.

(** ** Faces *)
Section Face.
Variable x : view.
Let c := v_crystal x.
Let e := v_element x.
Let nd := el_nd e.
Let ns := cr_ns c.
Let d := cr_dim c.
Variables (p : interface) (f : gb_face) (h : face_history) (Un : nat -> R).
Let fq := fa_nq f.
Hypothesis W : forall i, (i < nd)%nat -> (el_comp e i < d + ns)%nat.
Hypothesis WD : if_dim p = d.
Hypothesis WS : if_ns p = ns.
Hypothesis WN : fa_nd f = nd.
Hypothesis WC : forall i, (i < nd)%nat -> fa_comp f i = el_comp e i.
Definition face_fields (m : memory) : Prop := forall q, (q < fa_nq f)%nat ->
  (m FaceJxW q 0%nat = fa_w f q /\ m Normals q 0%nat = fa_n f q) /\
  (if_microtraction p = true -> m Moduli q 0%nat = if_moduli p q /\ forall a, (a < cr_ns (v_crystal x))%nat ->
     m FaceSlips a q = face_slip (el_nd (v_element x)) (fa_psi f) (v_U x) q a /\ m NeighbourSlips a q = face_slip (el_nd (v_element x)) (fa_npsi f) Un q a) /\
  (if_decohesion p = true -> m Displacements q 0%nat = face_displacement (el_nd (v_element x)) (fa_phi f) (v_U x) q /\
     m NeighbourDisplacements q 0%nat = face_displacement (el_nd (v_element x)) (fa_nphi f) Un q).
Lemma face_fields_kept (m u : memory) : u FaceJxW = m FaceJxW -> u Normals = m Normals -> u Moduli = m Moduli -> u FaceSlips = m FaceSlips -> u NeighbourSlips = m NeighbourSlips -> u Displacements = m Displacements -> u NeighbourDisplacements = m NeighbourDisplacements -> face_fields m -> face_fields u.
Proof. intros A B C D E F G H. unfold face_fields. rewrite A, B, C, D, E, F, G. exact H. Qed.
Lemma get_face_fields_ok (m : memory) : face_fields (get_face_fields x p f Un m).
Proof.
  pose (g := fun a => fill_row FaceSlips a fq (fun q => face_slip nd (fa_psi f) (v_U x) q a) ;; fill_row NeighbourSlips a fq (fun q => face_slip nd (fa_npsi f) Un q a)).
  pose (A := when (if_microtraction p) (fill Moduli fq (if_moduli p) ;; loop ns g)).
  pose (B := when (if_decohesion p) (fill Displacements fq (face_displacement nd (fa_phi f) (v_U x)) ;; fill NeighbourDisplacements fq (face_displacement nd (fa_nphi f) Un))).
  set (m2 := fill Normals fq (fa_n f) (fill FaceJxW fq (fa_w f) m)).
  assert (E : get_face_fields x p f Un m = B (A m2)) by reflexivity.
  rewrite E. clear E. intros q Q. split; [|split].
  - assert (K1 : keeps FaceJxW B) by (unfold B; keep). assert (K2 : keeps FaceJxW A) by (unfold A, g; keep).
    assert (K3 : keeps Normals B) by (unfold B; keep). assert (K4 : keeps Normals A) by (unfold A, g; keep).
    rewrite K1, K2, K3, K4. unfold m2. split.
    + assert (K5 : keeps FaceJxW (fill Normals fq (fa_n f))) by keep. rewrite K5. apply fill_entry. exact Q.
    + apply fill_entry. exact Q.
  - intros M. assert (K1 : keeps Moduli B) by (unfold B; keep). assert (K2 : keeps FaceSlips B) by (unfold B; keep). assert (K3 : keeps NeighbourSlips B) by (unfold B; keep).
    rewrite K1, K2, K3. unfold A. rewrite M. unfold when. split.
    + assert (K4 : keeps Moduli (loop ns g)) by (unfold g; keep). unfold seq2. rewrite K4. apply (fill_entry Moduli fq (if_moduli p)). exact Q.
    + intros a L. split.
      * unfold seq2, g. apply (rows_entry FaceSlips ns fq (fun a q => face_slip nd (fa_psi f) (v_U x) q a) (fun a => fill_row NeighbourSlips a fq (fun q => face_slip nd (fa_npsi f) Un q a))); [intros b; keep|exact L|exact Q].
      * unfold seq2, g. apply (rows_entry_after NeighbourSlips ns fq (fun a q => face_slip nd (fa_npsi f) Un q a) (fun a => fill_row FaceSlips a fq (fun q => face_slip nd (fa_psi f) (v_U x) q a))); [intros b; keep|exact L|exact Q].
  - intros D. unfold B. rewrite D. unfold when, seq2. split.
    + assert (K : keeps Displacements (fill NeighbourDisplacements fq (face_displacement nd (fa_nphi f) Un))) by keep. rewrite K.
      apply (fill_entry Displacements fq (face_displacement nd (fa_phi f) (v_U x))). exact Q.
    + apply (fill_entry NeighbourDisplacements fq (face_displacement nd (fa_nphi f) Un)). exact Q.
Qed.
(** Tractions and shape functions of a face point. *)
Definition face_point (q : nat) (m : memory) : Prop :=
  m DamageValues q 0%nat = damage_at p h q /\
  (if_microtraction p = true -> forall a, (a < cr_ns (v_crystal x))%nat ->
     m Microtractions a q = microtraction (if_lambda p) (if_chi p) (if_ns p) (if_moduli p q) (face_slip (fa_nd f) (fa_psi f) (v_U x) q) (face_slip (fa_nd f) (fa_npsi f) Un q) a /\
     forall i, (i < el_nd (v_element x))%nat -> m FaceScalarPhi a i = fa_psi f a i q) /\
  (if_decohesion p = true ->
     m CohesiveTractions q 0%nat = cohesive_traction (if_dim p) (if_cohesive p) (opening_at f (v_U x) Un q) (fa_n f q) (fh_max h q) (fh_old h q) (if_dt p) /\
     m ContactTractions q 0%nat = contact_traction (if_dim p) (if_contact p) (opening_at f (v_U x) Un q) (fa_n f q) /\
     forall i, (i < el_nd (v_element x))%nat -> m FacePhi i 0%nat = fa_phi f i q).
Lemma face_values_keep v q : v <> Microtractions -> v <> FaceScalarPhi -> v <> DamageValues -> v <> CohesiveTractions -> v <> ContactTractions -> v <> FacePhi -> keeps v (face_values x p f h q).
Proof.
  intros A B C D E F. unfold face_values. apply keeps_seq; [|apply keeps_seq].
  - apply keeps_when. apply keeps_loop. intros a. apply keeps_seq; [intros m; apply set_other; congruence|]. apply keeps_loop. intros i m. apply set_other. congruence.
  - intros m. apply set_other. congruence.
  - apply keeps_when. apply keeps_seq; [intros m; apply set_other; congruence|]. apply keeps_seq; [intros m; apply set_other; congruence|]. apply keeps_seq; [intros m; apply set_other; congruence|].
    apply keeps_loop. intros i m. apply set_other. congruence.
Qed.
Lemma face_values_ok q (m : memory) : (q < fq)%nat -> face_fields m -> face_point q (face_values x p f h q m).
Proof.
  intros Q FF. destruct (FF q Q) as ((F1 & F2) & F3 & F4).
  pose (A := when (if_microtraction p)
    (loop ns (fun a => (fun m => set Microtractions a q (microtraction (if_lambda p) (if_chi p) ns (m Moduli q 0%nat) (fun b => m FaceSlips b q) (fun b => m NeighbourSlips b q) a) m) ;;
       loop nd (fun i => set FaceScalarPhi a i (fa_psi f a i q))))).
  pose (B := when (if_decohesion p)
    (set DamageValues q 0 (fh_damage h q) ;;
     (fun m => let delta := vsub (m NeighbourDisplacements q 0%nat) (m Displacements q 0%nat) in
       set CohesiveTractions q 0 (cohesive_traction d (if_cohesive p) delta (m Normals q 0%nat) (fh_max h q) (fh_old h q) (if_dt p)) m) ;;
     (fun m => let delta := vsub (m NeighbourDisplacements q 0%nat) (m Displacements q 0%nat) in
       set ContactTractions q 0 (contact_traction d (if_contact p) delta (m Normals q 0%nat)) m) ;;
     loop nd (fun i => set FacePhi i 0 (fa_phi f i q)))).
  assert (E : face_values x p f h q m = B (set DamageValues q 0 0 (A m))) by reflexivity.
  rewrite E. clear E.
  assert (KA : forall v, v <> Microtractions -> v <> FaceScalarPhi -> keeps v A).
  { intros v N1 N2. unfold A. apply keeps_when. apply keeps_loop. intros a. apply keeps_seq; [intros u; apply set_other; congruence|]. apply keeps_loop. intros i u. apply set_other. congruence. }
  assert (KB : forall v, v <> DamageValues -> v <> CohesiveTractions -> v <> ContactTractions -> v <> FacePhi -> keeps v B).
  { intros v N1 N2 N3 N4. unfold B. apply keeps_when. apply keeps_seq; [intros u; apply set_other; congruence|]. apply keeps_seq; [intros u; apply set_other; congruence|]. apply keeps_seq; [intros u; apply set_other; congruence|].
    apply keeps_loop. intros i u. apply set_other. congruence. }
  set (u := set DamageValues q 0 0 (A m)).
  split; [|split].
  - unfold damage_at, B, when. destruct (if_decohesion p); [|unfold u; apply set_same].
    unfold seq2.
    assert (K : keeps DamageValues (loop nd (fun i => set FacePhi i 0 (fa_phi f i q)))) by keep. rewrite K. cbv zeta. rewrite !(set_other ContactTractions) by discriminate. rewrite !(set_other CohesiveTractions) by discriminate. apply set_same.
  - intros M a L. rewrite !KB by discriminate. unfold u. rewrite !(set_other DamageValues) by discriminate. unfold A. rewrite M. unfold when.
    destruct (F3 M) as [M1 M2].
    pose (P := fun k (w : memory) => (forall v, v <> Microtractions -> v <> FaceScalarPhi -> w v = m v) /\ forall a, (a < k)%nat ->
      w Microtractions a q = microtraction (if_lambda p) (if_chi p) (if_ns p) (if_moduli p q) (face_slip (fa_nd f) (fa_psi f) (v_U x) q) (face_slip (fa_nd f) (fa_npsi f) Un q) a /\
      forall i, (i < nd)%nat -> w FaceScalarPhi a i = fa_psi f a i q).
    match goal with |- loop ns ?g m _ _ _ = _ /\ _ => assert (G : P ns (loop ns g m)) end.
    { apply loop_rule.
      - split; [reflexivity|intros; lia].
      - intros k w LK [W1 W2].
        assert (KL : forall v, v <> FaceScalarPhi -> keeps v (loop nd (fun i => set FaceScalarPhi k i (fa_psi f k i q)))) by (intros v NV; apply keeps_loop; intros i w0; apply set_other; congruence).
        split.
        + intros v N1 N2. unfold seq2. rewrite KL by exact N2. rewrite set_other by congruence. apply W1; assumption.
        + intros b LB. split.
          * unfold seq2. rewrite KL by discriminate. destruct (Nat.eq_dec b k) as [->|N].
            -- rewrite set_same. rewrite WS, WN. rewrite !W1 by discriminate. rewrite M1. apply microtraction_ext. intros j LJ. destruct (M2 j LJ) as [-> ->]. split; reflexivity.
            -- rewrite set_index by (left; exact N). assert (LB' : (b < k)%nat) by lia. exact (proj1 (W2 b LB')).
          * intros i LI. unfold seq2. destruct (Nat.eq_dec b k) as [->|N].
            -- apply (row_entry FaceScalarPhi k nd (fun i => fa_psi f k i q)). exact LI.
            -- pose proof (row_elsewhere FaceScalarPhi k nd (fun i => fa_psi f k i q)) as RE. unfold fill_row in RE. rewrite RE by exact N.
               rewrite set_other by discriminate. assert (LB' : (b < k)%nat) by lia. exact (proj2 (W2 b LB') i LI). }
    destruct G as [_ G]. exact (G a L).
  - intros D. destruct (F4 D) as [D1 D2].
    assert (O : forall v, v <> Microtractions -> v <> FaceScalarPhi -> v <> DamageValues -> u v = m v).
    { intros v N1 N2 N3. unfold u. rewrite set_other by congruence. apply KA; assumption. }
    assert (OP : vsub (u NeighbourDisplacements q 0%nat) (u Displacements q 0%nat) = opening_at f (v_U x) Un q).
    { rewrite !O by discriminate. rewrite D1, D2. unfold opening_at. rewrite WN. reflexivity. }
    unfold B. rewrite D. unfold when, seq2. cbv zeta.
    assert (KL : forall v, v <> FacePhi -> keeps v (loop nd (fun i => set FacePhi i 0 (fa_phi f i q)))) by (intros v NV; apply keeps_loop; intros i w0; apply set_other; congruence).
    split; [|split].
    + rewrite KL by discriminate. rewrite (set_other ContactTractions CohesiveTractions) by discriminate. rewrite set_same.
      rewrite !(set_other DamageValues) by discriminate. rewrite OP. rewrite (O Normals) by discriminate. rewrite F2, WD. reflexivity.
    + rewrite KL by discriminate. rewrite set_same. rewrite !(set_other CohesiveTractions) by discriminate. rewrite !(set_other DamageValues) by discriminate. rewrite OP. rewrite (O Normals) by discriminate. rewrite F2, WD. reflexivity.
    + intros i LI. apply (fill_entry FacePhi nd (fun i => fa_phi f i q)). exact LI.
Qed.
(** What a face point adds to local_rhs. *)
Definition face_term (i q : nat) : xr :=
    let d := if_dim p in
    if Nat.ltb (fa_comp f i) d then
      if if_decohesion p then
        let delta := opening_at f (v_U x) Un q in
        let T := cohesive_traction d (if_cohesive p) delta (fa_n f q) (fh_max h q) (fh_old h q) (if_dt p) in
        xmul (xmul (Fin (if_factor p))
                   (xdot d (fa_phi f i q) (fun r =>
                      xadd (xmul (deg_macro p h q) (T r))
                           (Fin (contact_traction d (if_contact p) delta (fa_n f q) r)))))
             (Fin (fa_w f q))
      else Fin 0
    else
      if if_microtraction p then
        let a := (fa_comp f i - d)%nat in
        xmul (xmul (Fin (if_N p 2 * fa_psi f a i q)) (deg_micro p h q))
             (Fin (microtraction (if_lambda p) (if_chi p) (if_ns p) (if_moduli p q)
                     (face_slip (fa_nd f) (fa_psi f) (v_U x) q) (face_slip (fa_nd f) (fa_npsi f) Un q) a
                   * fa_w f q))
      else Fin 0.
Lemma face_terms i : residual_face p f h (v_U x) Un i = xsumn fq (face_term i).
Proof. reflexivity. Qed.
Lemma face_rhs_ok q (m : memory) : (q < fq)%nat -> face_fields m -> face_point q m ->
  (forall i, (i < nd)%nat -> face_rhs x p q m LocalRhs i 0%nat = xadd (m LocalRhs i 0%nat) (face_term i q)) /\ forall v, v <> LocalRhs -> face_rhs x p q m v = m v.
Proof.
  intros Q FF (T1 & T2 & T3). destruct (FF q Q) as ((F1 & F2) & _). unfold face_rhs. fold c. fold e. fold nd. fold d. apply update_loop. intros i u L O.
  unfold face_term. rewrite (WC i L), WD. cbv zeta. destruct (Nat.ltb_spec (el_comp e i) d) as [B|B].
  - destruct (if_decohesion p) eqn:D; cbn [when].
    + destruct (T3 eq_refl) as (C1 & C2 & C3). rewrite set_same. split; [|split].
      * f_equal. rewrite !O by discriminate. rewrite C1, C2, (C3 i L), T1, F1. rewrite WD. reflexivity.
      * intros k N. apply set_index. left. exact N.
      * intros v V. apply set_other. congruence.
    + split; [symmetry; apply xadd_zero|split; reflexivity].
  - destruct (if_microtraction p) eqn:M; cbn [when].
    + assert (A : (el_comp e i - d < ns)%nat) by (specialize (W i L); lia).
      destruct (T2 eq_refl _ A) as [C1 C2]. cbv zeta. rewrite set_same. split; [|split].
      * f_equal. rewrite !O by discriminate. rewrite C1, (C2 i L), T1, F1. reflexivity.
      * intros k N. apply set_index. left. exact N.
      * intros v V. apply set_other. congruence.
    + split; [symmetry; apply xadd_zero|split; reflexivity].
Qed.
Lemma get_face_fields_keep : keeps LocalRhs (get_face_fields x p f Un).
Proof. unfold get_face_fields. keep. Qed.
Lemma face_ok (m : memory) : forall i, (i < nd)%nat -> face_part x p f h Un m LocalRhs i 0%nat = xadd (m LocalRhs i 0%nat) (residual_face p f h (v_U x) Un i).
Proof.
  set (m1 := get_face_fields x p f Un m).
  pose (g := fun q => face_values x p f h q ;; face_rhs x p q).
  assert (E : face_part x p f h Un m = loop fq g m1) by reflexivity. rewrite E. clear E.
  assert (F0 : face_fields m1) by apply get_face_fields_ok.
  assert (R0 : m1 LocalRhs = m LocalRhs) by apply get_face_fields_keep.
  assert (G : face_fields (loop fq g m1) /\ forall i, (i < nd)%nat -> loop fq g m1 LocalRhs i 0%nat = xadd (m LocalRhs i 0%nat) (xsumn fq (face_term i))).
  { apply (loop_rule (fun k u => face_fields u /\ forall i, (i < nd)%nat -> u LocalRhs i 0%nat = xadd (m LocalRhs i 0%nat) (xsumn k (face_term i)))).
    - split; [exact F0|]. intros i _. rewrite R0. cbn [xsumn]. symmetry. apply xadd_zero.
    - intros q u Q [FU IH]. unfold g, seq2. set (u1 := face_values x p f h q u).
      assert (F1 : face_fields u1) by (apply (face_fields_kept u); [apply (face_values_keep FaceJxW)|apply (face_values_keep Normals)|apply (face_values_keep Moduli)|apply (face_values_keep FaceSlips)|apply (face_values_keep NeighbourSlips)|apply (face_values_keep Displacements)|apply (face_values_keep NeighbourDisplacements)|exact FU]; discriminate).
      destruct (face_rhs_ok q u1 Q F1 (face_values_ok q u Q FU)) as [A B]. split.
      + apply (face_fields_kept u1); try (apply B; discriminate). exact F1.
      + intros i L. rewrite (A i L). unfold u1. rewrite (face_values_keep LocalRhs) by discriminate. rewrite (IH i L). cbn [xsumn]. symmetry. apply xadd_assoc. }
  intros i L. rewrite face_terms. exact (proj2 G i L).
Qed.
End Face.

(** ** Loaded faces *)
Section Load.
Variable x : view.
Let c := v_crystal x.
Let e := v_element x.
Let nd := el_nd e.
Let d := cr_dim c.
Lemma fin_sum n (f : nat -> R) : xsumn n (fun q => Fin (f q)) = Fin (sumn n f).
Proof. induction n as [|n IH]; cbn [xsumn sumn]; [reflexivity|]. rewrite IH. reflexivity. Qed.
Lemma load_ok f (m : memory) : forall i, (i < nd)%nat -> load_part x f m LocalRhs i 0%nat = xadd (m LocalRhs i 0%nat) (Fin (residual_neumann d f i)).
Proof.
  set (m1 := fill FaceJxW (nf_nq f) (nf_w f) (fill NeumannValues (nf_nq f) (nf_traction f) m)).
  pose (t := fun (i q : nat) => Fin (dot d (nf_phi f i q) (nf_traction f q) * nf_w f q)).
  pose (g := fun q => loop nd (fun i => set FacePhi i 0 (nf_phi f i q)) ;;
    loop nd (fun i (m : memory) => set LocalRhs i 0 (xadd (m LocalRhs i 0%nat) (Fin (dot d (m FacePhi i 0%nat) (m NeumannValues q 0%nat) * m FaceJxW q 0%nat))) m)).
  assert (E : load_part x f m = loop (nf_nq f) g m1) by reflexivity. rewrite E. clear E.
  assert (A1 : forall q, (q < nf_nq f)%nat -> m1 FaceJxW q 0%nat = nf_w f q /\ m1 NeumannValues q 0%nat = nf_traction f q).
  { intros q Q. unfold m1. split; [apply fill_entry; exact Q|].
    assert (K : keeps NeumannValues (fill FaceJxW (nf_nq f) (nf_w f))) by keep. rewrite K. apply (fill_entry NeumannValues (nf_nq f) (nf_traction f)). exact Q. }
  assert (A2 : m1 LocalRhs = m LocalRhs).
  { unfold m1. assert (K : keeps LocalRhs (fill FaceJxW (nf_nq f) (nf_w f))) by keep. rewrite K.
    assert (K' : keeps LocalRhs (fill NeumannValues (nf_nq f) (nf_traction f))) by keep. apply K'. }
  assert (G : (loop (nf_nq f) g m1 FaceJxW = m1 FaceJxW /\ loop (nf_nq f) g m1 NeumannValues = m1 NeumannValues) /\ forall i, (i < nd)%nat -> loop (nf_nq f) g m1 LocalRhs i 0%nat = xadd (m LocalRhs i 0%nat) (xsumn (nf_nq f) (t i))).
  { apply (loop_rule (fun k u => (u FaceJxW = m1 FaceJxW /\ u NeumannValues = m1 NeumannValues) /\ forall i, (i < nd)%nat -> u LocalRhs i 0%nat = xadd (m LocalRhs i 0%nat) (xsumn k (t i)))).
    - split; [split; reflexivity|]. intros i _. rewrite A2. cbn [xsumn]. symmetry. apply xadd_zero.
    - intros q u Q [[U1 U2] IH]. destruct (A1 q Q) as [J T]. unfold g, seq2. set (u1 := loop nd _ u).
      assert (KL : forall v, v <> FacePhi -> u1 v = u v).
      { intros v NV. assert (K : keeps v (loop nd (fun i => set FacePhi i 0 (nf_phi f i q)))) by (apply keeps_loop; intros i w0; apply set_other; congruence). apply K. }
      assert (PH : forall i, (i < nd)%nat -> u1 FacePhi i 0%nat = nf_phi f i q) by (intros i L; apply (fill_entry FacePhi nd (fun i => nf_phi f i q)); exact L).
      match goal with |- (loop nd ?s u1 _ = _ /\ _) /\ _ => destruct (update_loop nd s (fun i => t i q) u1) as [B1 B2] end.
      { intros i w L O. rewrite set_same. split; [|split].
        - f_equal. unfold t. rewrite !O by discriminate. rewrite (PH i L). rewrite !KL by discriminate. rewrite U1, U2, J, T. reflexivity.
        - intros k N. apply set_index. left. exact N.
        - intros v V. apply set_other. congruence. }
      split.
      + rewrite !B2 by discriminate. rewrite !KL by discriminate. split; assumption.
      + intros i L. rewrite (B1 i L). rewrite KL by discriminate. rewrite (IH i L). cbn [xsumn]. symmetry. apply xadd_assoc. }
  intros i L. rewrite (proj2 G i L). f_equal. unfold t. apply fin_sum.
Qed.
End Load.

(** ** The whole cell *)
Lemma reset_ok x (m : memory) i : (i < el_nd (v_element x))%nat -> reset_rhs x m LocalRhs i 0%nat = Fin 0.
Proof. intros L. unfold reset_rhs. apply (fill_entry LocalRhs (el_nd (v_element x)) (fun _ => Fin 0)). exact L. Qed.
Lemma reset_keep x v : v <> LocalRhs -> keeps v (reset_rhs x).
Proof. intros N. unfold reset_rhs. apply keeps_fill. congruence. Qed.
Lemma get_fields_rhs x : keeps LocalRhs (get_fields x).
Proof. unfold get_fields. keep. Qed.
Lemma cell_ok x (m : memory) : well_formed x -> (v_supply x = true \/ forall q, m Supply q 0%nat = cr_supply (v_crystal x) q) ->
  forall i, (i < el_nd (v_element x))%nat -> assemble_local_residual x m LocalRhs i 0%nat = contribution x i.
Proof.
  intros [W F] SU i L. set (m0 := reset_rhs x m). set (m1 := get_fields x m0). set (m2 := bulk_part x m1).
  set (faces := fun m => fold_left (fun m y => let '(p, f, h, Un) := y in face_part x p f h Un m) (v_faces x) m).
  assert (E : assemble_local_residual x m = fold_left (fun m f => load_part x f m) (v_loads x) (faces m2)) by reflexivity. rewrite E. clear E.
  assert (F1 : fields x m1).
  { apply get_fields_ok. destruct SU as [A|A]; [left; exact A|right]. intros q _. unfold m0. rewrite (reset_keep x Supply) by discriminate. apply A. }
  assert (R2 : m2 LocalRhs i 0%nat = residual_bulk (v_crystal x) (v_element x) (v_U x) (v_Uold x) (v_resistance x) i).
  { unfold m2. rewrite (bulk_ok x W m1 F1 i L). unfold m1. rewrite get_fields_rhs. unfold m0. rewrite (reset_ok x m i L). apply xadd_zero_l. }
  unfold contribution, residual_cell. rewrite <- R2. clear R2 F1.
  assert (FA : forall l u, (forall p f h Un, In (p, f, h, Un) l -> In (p, f, h, Un) (v_faces x)) ->
     fold_left (fun m y => let '(p, f, h, Un) := y in face_part x p f h Un m) l u LocalRhs i 0%nat
     = fold_left (fun acc y => let '(p, f, h, Un) := y in xadd acc (residual_face p f h (v_U x) Un i)) l (u LocalRhs i 0%nat)).
  { induction l as [|[[[p f] h] Un] l IH]; intros u IN; cbn [fold_left]; [reflexivity|]. rewrite IH by (intros; apply IN; right; assumption). f_equal.
    destruct (F p f h Un (IN p f h Un (or_introl eq_refl))) as (WD & WS & WN & WC).
    apply (face_ok x p f h Un W WD WS WN WC). exact L. }
  assert (LO : forall l u, fold_left (fun m f => load_part x f m) l u LocalRhs i 0%nat = fold_left (fun acc f => xadd acc (Fin (residual_neumann (cr_dim (v_crystal x)) f i))) l (u LocalRhs i 0%nat)).
  { induction l as [|f l IH]; intros u; cbn [fold_left]; [reflexivity|]. rewrite IH. f_equal. apply (load_ok x f u i L). }
  rewrite LO. f_equal. unfold faces. apply FA. intros; assumption.
Qed.
(** The supply values of a scratch object are written only when there is a supply term. *)
Lemma fold_keeps {B} v (f : B -> memory -> memory) l : (forall b, keeps v (f b)) -> forall m, fold_left (fun m b => f b m) l m v = m v.
Proof. intros K. induction l as [|b l IH]; intros m; cbn [fold_left]; [reflexivity|]. rewrite IH. apply K. Qed.
Lemma supply_kept x : v_supply x = false -> keeps Supply (assemble_local_residual x).
Proof.
  intros N m. set (m0 := reset_rhs x m). set (m1 := get_fields x m0). set (m2 := bulk_part x m1).
  set (F := fun (y : interface * gb_face * face_history * (nat -> R)) m => let '(p, f, h, Un) := y in face_part x p f h Un m).
  assert (E : assemble_local_residual x m = fold_left (fun m f => load_part x f m) (v_loads x) (fold_left (fun m y => F y m) (v_faces x) m2)) by reflexivity. rewrite E. clear E.
  rewrite (fold_keeps Supply (load_part x)).
  - rewrite (fold_keeps Supply F).
    + assert (K2 : keeps Supply (bulk_part x)).
      { unfold bulk_part. apply keeps_loop. intros q. apply keeps_seq; [|apply keeps_seq].
        - apply (stresses_keep x Supply); discriminate.
        - apply (shapes_keep x Supply); discriminate.
        - unfold point_rhs. keep. }
      unfold m2. rewrite K2. unfold m1. assert (K1 : keeps Supply (get_fields x)).
      { unfold get_fields. rewrite N. apply keeps_seq; [keep|]. apply keeps_seq; [keep|]. apply keeps_seq; [intros w; reflexivity|]. keep. }
      rewrite K1. apply (reset_keep x Supply). discriminate.
    + intros [[[p f] h] Un]. unfold F, face_part. apply keeps_seq.
      * unfold get_face_fields. keep.
      * apply keeps_loop. intros q. apply keeps_seq; [apply (face_values_keep x p f h Supply); discriminate|].
        unfold face_rhs. apply keeps_loop. intros i. destruct (Nat.ltb (el_comp (v_element x) i) (cr_dim (v_crystal x))); apply keeps_when; intros w; cbv zeta; apply set_other; discriminate.
  - intros f. unfold load_part. apply keeps_seq; [keep|]. apply keeps_seq; [keep|]. apply keeps_loop. intros q. apply keeps_seq; [keep|]. apply keeps_loop. intros i w. apply set_other. discriminate.
Qed.
