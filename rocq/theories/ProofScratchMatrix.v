(** * Running the statements of assemble_local_jacobian. *)
From Coq Require Import Lia Lra List.
Import ListNotations.
From Verif Require Import Num SumLemmas Tensors ModelElastic ModelMicro ModelCohesive ModelAssembly ModelScratch SpecScratch ProofScratch ModelScratchMatrix SpecScratchMatrix.
Open Scope R_scope.

(** ** Tables *)
Lemma pairs_entry v w (y : nat -> value v) (z : nat -> value w) nd m i : v <> w -> (i < nd)%nat ->
  loop nd (fun i => seq2 (set v i 0%nat (y i)) (set w i 0%nat (z i))) m v i 0%nat = y i /\ loop nd (fun i => seq2 (set v i 0%nat (y i)) (set w i 0%nat (z i))) m w i 0%nat = z i.
Proof.
  intros N. revert i.
  apply (loop_rule (fun k u => forall i, (i < k)%nat -> u v i 0%nat = y i /\ u w i 0%nat = z i)); [intros; lia|].
  intros k u _ IH i L. unfold seq2. destruct (Nat.eq_dec i k) as [->|M].
  - split; [rewrite set_other by congruence|]; apply set_same.
  - assert (L' : (i < k)%nat) by lia. destruct (IH i L') as [A B]. split.
    + rewrite set_other by congruence. rewrite set_index by (left; exact M). exact A.
    + rewrite set_index by (left; exact M). rewrite set_other by congruence. exact B.
Qed.
Lemma row_pairs v w (y : nat -> value v) (z : nat -> value w) nd m a : v <> w ->
  let m' := loop nd (fun i => seq2 (set v a i (y i)) (set w a i (z i))) m in
  (forall i, (i < nd)%nat -> m' v a i = y i /\ m' w a i = z i) /\ forall b i, b <> a -> m' v b i = m v b i /\ m' w b i = m w b i.
Proof.
  intros N. cbv zeta.
  apply (loop_rule (fun k u => (forall i, (i < k)%nat -> u v a i = y i /\ u w a i = z i) /\ forall b i, b <> a -> u v b i = m v b i /\ u w b i = m w b i)).
  - split; [intros; lia|intros; split; reflexivity].
  - intros k u _ [IH IO]. unfold seq2. split.
    + intros i L. destruct (Nat.eq_dec i k) as [->|M].
      * split; [rewrite set_other by congruence|]; apply set_same.
      * assert (L' : (i < k)%nat) by lia. destruct (IH i L') as [A B]. split.
        -- rewrite set_other by congruence. rewrite set_index by (right; exact M). exact A.
        -- rewrite set_index by (right; exact M). rewrite set_other by congruence. exact B.
    + intros b i M. destruct (IO b i M) as [A B]. split.
      * rewrite set_other by congruence. rewrite set_index by (left; exact M). exact A.
      * rewrite set_index by (left; exact M). rewrite set_other by congruence. exact B.
Qed.
Lemma table_pairs v w (y : nat -> nat -> value v) (z : nat -> nat -> value w) (g : nat -> memory -> memory) ns nd m : v <> w -> (forall a, keeps v (g a)) -> (forall a, keeps w (g a)) ->
  forall a, (a < ns)%nat -> forall i, (i < nd)%nat ->
  loop ns (fun a => seq2 (g a) (loop nd (fun i => seq2 (set v a i (y a i)) (set w a i (z a i))))) m v a i = y a i /\
  loop ns (fun a => seq2 (g a) (loop nd (fun i => seq2 (set v a i (y a i)) (set w a i (z a i))))) m w a i = z a i.
Proof.
  intros N KV KW.
  apply (loop_rule (fun k u => forall a, (a < k)%nat -> forall i, (i < nd)%nat -> u v a i = y a i /\ u w a i = z a i)); [intros; lia|].
  intros k u _ IH a L i LI. unfold seq2 at 1 3.
  destruct (row_pairs v w (y k) (z k) nd (g k u) k N) as [A B].
  destruct (Nat.eq_dec a k) as [->|M]; [apply A; exact LI|].
  destruct (B a i M) as [-> ->]. rewrite KV, KW. apply IH; [lia|exact LI].
Qed.
(** ** Updates of the two matrices *)
Definition other (v : var) : Prop := v <> LocalMatrix /\ v <> CouplingMatrix.
Definition updates (i j : nat) (f : memory -> memory) (t s : xr) (u : memory) : Prop :=
  f u LocalMatrix i j = xadd (u LocalMatrix i j) t /\ f u CouplingMatrix i j = xadd (u CouplingMatrix i j) s /\
  (forall k l, (k <> i \/ l <> j) -> f u LocalMatrix k l = u LocalMatrix k l /\ f u CouplingMatrix k l = u CouplingMatrix k l) /\
  forall v, other v -> f u v = u v.
Definition updated (n : nat) (m m' : memory) (t s : nat -> nat -> xr) : Prop :=
  (forall i j, (i < n)%nat -> (j < n)%nat -> m' LocalMatrix i j = xadd (m LocalMatrix i j) (t i j) /\ m' CouplingMatrix i j = xadd (m CouplingMatrix i j) (s i j)) /\
  forall v, other v -> m' v = m v.
Lemma matrix_loop n (f : nat -> nat -> memory -> memory) (t s : nat -> nat -> xr) (m : memory) :
  (forall i j (u : memory), (i < n)%nat -> (j < n)%nat -> (forall v, other v -> u v = m v) -> updates i j (f i j) (t i j) (s i j) u) ->
  updated n m (loop n (fun i => loop n (fun j => f i j)) m) t s.
Proof.
  intros H.
  pose (P := fun k (u : memory) => (forall i j, (i < k)%nat -> (j < n)%nat -> u LocalMatrix i j = xadd (m LocalMatrix i j) (t i j) /\ u CouplingMatrix i j = xadd (m CouplingMatrix i j) (s i j)) /\
    (forall i j, (k <= i)%nat -> u LocalMatrix i j = m LocalMatrix i j /\ u CouplingMatrix i j = m CouplingMatrix i j) /\ forall v, other v -> u v = m v).
  assert (G : P n (loop n (fun i => loop n (fun j => f i j)) m)).
  { apply loop_rule.
    - split; [intros; lia|]. split; [intros; split; reflexivity|intros; reflexivity].
    - intros k u L (A & B & C).
      pose (Q := fun l (w : memory) => (forall j, (j < l)%nat -> w LocalMatrix k j = xadd (u LocalMatrix k j) (t k j) /\ w CouplingMatrix k j = xadd (u CouplingMatrix k j) (s k j)) /\
        (forall i j, (i <> k \/ (l <= j)%nat) -> w LocalMatrix i j = u LocalMatrix i j /\ w CouplingMatrix i j = u CouplingMatrix i j) /\ forall v, other v -> w v = u v).
      assert (GQ : Q n (loop n (fun j => f k j) u)).
      { apply loop_rule.
        - split; [intros; lia|]. split; [intros; split; reflexivity|intros; reflexivity].
        - intros l w LL (D & E & F). destruct (H k l w L LL) as (U1 & U2 & U3 & U4); [intros v V; rewrite (F v V); apply C; exact V|].
          split; [|split].
          + intros j J. destruct (Nat.eq_dec j l) as [->|N].
            * destruct (E k l (or_intror (le_n l))) as [E1 E2]. rewrite U1, U2, E1, E2. split; reflexivity.
            * destruct (U3 k j (or_intror N)) as [-> ->]. apply D. lia.
          + intros i j IJ. assert (M : i <> k \/ j <> l) by lia. destruct (U3 i j M) as [-> ->]. apply E. lia.
          + intros v V. rewrite (U4 v V). apply F. exact V. }
      destruct GQ as (D & E & F). split; [|split].
      + intros i j I J. destruct (Nat.eq_dec i k) as [->|N].
        * destruct (D j J) as [-> ->]. destruct (B k j (le_n k)) as [-> ->]. split; reflexivity.
        * destruct (E i j (or_introl N)) as [-> ->]. apply A; [lia|exact J].
      + intros i j I. assert (N : i <> k) by lia. destruct (E i j (or_introl N)) as [-> ->]. apply B. lia.
      + intros v V. rewrite (F v V). apply C. exact V. }
  destruct G as (A & _ & C). split; [exact A|exact C].
Qed.
Lemma add_matrix i j t (u : memory) : updates i j (add_to LocalMatrix i j t) (t u) (Fin 0) u.
Proof.
  unfold updates, add_to. rewrite set_same. rewrite !(set_other LocalMatrix CouplingMatrix) by discriminate. split; [reflexivity|]. split; [symmetry; apply xadd_zero|]. split.
  - intros k l N. rewrite set_index by exact N. split; reflexivity.
  - intros v [A B]. apply set_other. congruence.
Qed.
Lemma add_coupling i j t (u : memory) : updates i j (add_to CouplingMatrix i j t) (Fin 0) (t u) u.
Proof.
  unfold updates, add_to. rewrite set_same. rewrite !(set_other CouplingMatrix LocalMatrix) by discriminate. split; [symmetry; apply xadd_zero|]. split; [reflexivity|]. split.
  - intros k l N. rewrite set_index by exact N. split; reflexivity.
  - intros v [A B]. apply set_other. congruence.
Qed.
Lemma updates_none i j (u : memory) : updates i j (fun m => m) (Fin 0) (Fin 0) u.
Proof. unfold updates. rewrite !xadd_zero. repeat split. Qed.
Lemma updates_seq i j f g t s t' s' (u : memory) : updates i j f t s u -> updates i j g t' s' (f u) -> updates i j (seq2 f g) (xadd t t') (xadd s s') u.
Proof.
  intros (A & B & C & D) (A' & B' & C' & D'). unfold updates, seq2. rewrite A', B', A, B, !xadd_assoc. split; [reflexivity|]. split; [reflexivity|]. split.
  - intros k l N. destruct (C' k l N) as [-> ->]. apply C. exact N.
  - intros v V. rewrite (D' v V). apply D. exact V.
Qed.
Lemma updates_eq i j f t s t' s' (u : memory) : updates i j f t s u -> t = t' -> s = s' -> updates i j f t' s' u.
Proof. intros H -> ->. exact H. Qed.
Lemma scalar_jacobian_ext l g g' h h' r dt a b : g a = g' a -> g b = g' b -> h a = h' a -> h b = h' b -> scalar_jacobian l g h r dt a b = scalar_jacobian l g' h' r dt a b.
Proof. intros A B C D. unfold scalar_jacobian. cbv zeta. rewrite A, B, C, D. reflexivity. Qed.

Lemma zeroed v n (z : value v) (m : memory) : forall i j, (i < n)%nat -> (j < n)%nat -> loop n (fun i => fill_row v i n (fun _ => z)) m v i j = z.
Proof.
  intros i j L J. revert i L. apply (loop_rule (fun k u => forall i, (i < k)%nat -> u v i j = z)); [intros; lia|].
  intros k u _ IH i L. destruct (Nat.eq_dec i k) as [->|N]; [apply (row_entry v k n (fun _ => z)); exact J|]. rewrite row_elsewhere by exact N. apply IH. lia.
Qed.
Lemma zeroed_keeps v w n (z : value v) : v <> w -> keeps w (loop n (fun i => fill_row v i n (fun _ => z))).
Proof. intros N. apply keeps_loop. intros i. apply keeps_row. exact N. Qed.

(** ** Quadrature points *)
Section Bulk.
Variable x : matrix_view.
Let c := mv_crystal x.
Let e := mv_element x.
Let nq := el_nq e.
Let nd := el_nd e.
Let ns := cr_ns c.
Let d := cr_dim c.
Hypothesis W : forall i, (i < nd)%nat -> (el_comp e i < d + ns)%nat.
Definition mfields (m : memory) : Prop :=
  m Stiffness 0%nat 0%nat = cr_C (mv_crystal x) /\
  (forall a, (a < cr_ns (mv_crystal x))%nat -> m Schmid a 0%nat = cr_P (mv_crystal x) a) /\
  (forall q, (q < el_nq (mv_element x))%nat -> m JxW q 0%nat = el_w (mv_element x) q) /\
  forall a q, (a < cr_ns (mv_crystal x))%nat -> (q < el_nq (mv_element x))%nat -> m Slips a q = slip_at (mv_element x) (mv_U x) q a /\ m OldSlips a q = slip_at (mv_element x) (mv_Uold x) q a /\ m Gradients a q = slip_gradient_at (mv_element x) (mv_U x) q a.
Lemma mfields_kept (m u : memory) : u Stiffness = m Stiffness -> u Schmid = m Schmid -> u JxW = m JxW -> u Slips = m Slips -> u OldSlips = m OldSlips -> u Gradients = m Gradients -> mfields m -> mfields u.
Proof. intros A B C D E F G. unfold mfields. rewrite A, B, C, D, E, F. exact G. Qed.
Lemma get_mfields_ok (m : memory) : mfields (get_matrix_fields x m).
Proof.
  pose (g := fun a => fill_row Slips a nq (fun q => slip_at e (mv_U x) q a) ;; fill_row OldSlips a nq (fun q => slip_at e (mv_Uold x) q a) ;; fill_row Gradients a nq (fun q => slip_gradient_at e (mv_U x) q a)).
  assert (E : get_matrix_fields x m = loop ns g (fill JxW nq (el_w e) (fill Schmid ns (cr_P c) (set Stiffness 0 0 (cr_C c) m)))) by reflexivity.
  rewrite E. clear E. unfold mfields. fold c. fold e. fold nq. fold ns.
  assert (K1 : keeps JxW (loop ns g)) by (unfold g; keep).
  assert (K2 : keeps Schmid (loop ns g)) by (unfold g; keep).
  assert (K3 : keeps Stiffness (loop ns g)) by (unfold g; keep).
  assert (K4 : keeps Schmid (fill JxW nq (el_w e))) by keep.
  assert (K5 : keeps Stiffness (fill JxW nq (el_w e))) by keep.
  assert (K6 : keeps Stiffness (fill Schmid ns (cr_P c))) by keep.
  split; [rewrite K3, K5, K6; apply set_same|].
  split; [intros a L; rewrite K2, K4; apply fill_entry; exact L|].
  split; [intros q L; rewrite K1; apply fill_entry; exact L|].
  intros a q A Q. pose proof (fun m0 => get_fields_ok (mk_view c e (mv_U x) (mv_Uold x) (mv_resistance x) true [] []) m0 (or_introl eq_refl)) as F0.
  split; [|split].
  - unfold g. apply (rows_entry Slips ns nq (fun a q => slip_at e (mv_U x) q a) (fun a => seq2 (fill_row OldSlips a nq (fun q => slip_at e (mv_Uold x) q a)) (fill_row Gradients a nq (fun q => slip_gradient_at e (mv_U x) q a)))); [intros b; keep|exact A|exact Q].
  - pose (G := fun k (u : memory) => forall a, (a < k)%nat -> u OldSlips a q = slip_at e (mv_Uold x) q a).
    apply (loop_rule G); [unfold G; intros; lia| |exact A]. unfold G. intros k u _ IH b B. unfold g, seq2.
    assert (L : keeps OldSlips (fill_row Gradients k nq (fun q => slip_gradient_at e (mv_U x) q k))) by keep. rewrite L.
    assert (L' : keeps OldSlips (fill_row Slips k nq (fun q => slip_at e (mv_U x) q k))) by keep.
    destruct (Nat.eq_dec b k) as [->|N]; [apply (row_entry OldSlips k nq (fun q => slip_at e (mv_Uold x) q k)); exact Q|]. rewrite row_elsewhere by exact N. rewrite L'. apply IH. lia.
  - pose (G := fun k (u : memory) => forall a, (a < k)%nat -> u Gradients a q = slip_gradient_at e (mv_U x) q a).
    apply (loop_rule G); [unfold G; intros; lia| |exact A]. unfold G. intros k u _ IH b B. unfold g, seq2.
    assert (L : keeps Gradients (fill_row OldSlips k nq (fun q => slip_at e (mv_Uold x) q k))) by keep.
    assert (L' : keeps Gradients (fill_row Slips k nq (fun q => slip_at e (mv_U x) q k))) by keep.
    destruct (Nat.eq_dec b k) as [->|N]; [apply (row_entry Gradients k nq (fun q => slip_gradient_at e (mv_U x) q k)); exact Q|]. rewrite row_elsewhere by exact N. rewrite L, L'. apply IH. lia.
Qed.
Definition mpoint (q : nat) (m : memory) : Prop :=
  (forall a b, (a < cr_ns (mv_crystal x))%nat -> (b < cr_ns (mv_crystal x))%nat ->
     m ScalarJacobian q 0%nat a b = scalar_jacobian (cr_law (mv_crystal x)) (slip_at (mv_element x) (mv_U x) q) (slip_at (mv_element x) (mv_Uold x) q) (mv_resistance x q) (cr_dt (mv_crystal x)) a b) /\
  (forall i, (i < el_nd (mv_element x))%nat -> m SymGradPhi i 0%nat = el_eps (mv_element x) i q) /\
  forall a, (a < cr_ns (mv_crystal x))%nat ->
    m VectorJacobian q a = vectorial_jacobian (cr_factor (mv_crystal x)) (cr_p (mv_crystal x)) (cr_dim (mv_crystal x)) (cr_dir (mv_crystal x) a) (cr_ort (mv_crystal x) a) (slip_gradient_at (mv_element x) (mv_U x) q a) /\
    forall i, (i < el_nd (mv_element x))%nat -> m ScalarPhi a i = el_psi (mv_element x) a i q /\ m GradScalarPhi a i = el_dpsi (mv_element x) a i q.
Lemma matrix_point_keep v q : v <> ScalarJacobian -> v <> SymGradPhi -> v <> VectorJacobian -> v <> ScalarPhi -> v <> GradScalarPhi -> keeps v (matrix_point x q).
Proof.
  intros A B C D E. unfold matrix_point. apply keeps_seq; [intros m; apply set_other; congruence|]. apply keeps_seq.
  - apply keeps_loop. intros k m. apply set_other. congruence.
  - apply keeps_loop. intros a. apply keeps_seq; [intros m; apply set_other; congruence|]. apply keeps_loop. intros k. apply keeps_seq; intros m; apply set_other; congruence.
Qed.
Lemma matrix_point_ok q (m : memory) : (q < nq)%nat -> mfields m -> mpoint q (matrix_point x q m).
Proof.
  intros Q (_ & _ & _ & F).
  pose (m1 := set ScalarJacobian q 0 (scalar_jacobian (cr_law c) (fun a => m Slips a q) (fun a => m OldSlips a q) (mv_resistance x q) (cr_dt c)) m).
  pose (m2 := loop nd (fun i => set SymGradPhi i 0 (el_eps e i q)) m1).
  pose (g := fun a (m : memory) => set VectorJacobian q a (vectorial_jacobian (cr_factor c) (cr_p c) d (cr_dir c a) (cr_ort c a) (m Gradients a q)) m).
  pose (t := fun a => loop nd (fun i => set ScalarPhi a i (el_psi e a i q) ;; set GradScalarPhi a i (el_dpsi e a i q))).
  assert (E : matrix_point x q m = loop ns (fun a => g a ;; t a) m2) by reflexivity. rewrite E. clear E.
  assert (KG : forall v a, v <> VectorJacobian -> keeps v (g a)) by (intros v a N u; apply set_other; congruence).
  assert (KT : forall v a, v <> ScalarPhi -> v <> GradScalarPhi -> keeps v (t a)) by (intros v a N1 N2; apply keeps_loop; intros k; apply keeps_seq; intros u; apply set_other; congruence).
  assert (KL : forall v, v <> VectorJacobian -> v <> ScalarPhi -> v <> GradScalarPhi -> keeps v (loop ns (fun a => g a ;; t a))) by (intros v N1 N2 N3; apply keeps_loop; intros a; apply keeps_seq; [apply KG; exact N1|apply KT; assumption]).
  assert (K2 : forall v, v <> SymGradPhi -> m2 v = m1 v).
  { intros v N. unfold m2. assert (K : keeps v (loop nd (fun i => set SymGradPhi i 0 (el_eps e i q)))) by (apply keeps_loop; intros k u; apply set_other; congruence). apply K. }
  unfold mpoint. fold c. fold e. fold nd. fold ns. fold d. split; [|split].
  - intros a b A B. rewrite KL by discriminate. rewrite K2 by discriminate. unfold m1. rewrite set_same.
    destruct (F a q A Q) as (A1 & A2 & _). destruct (F b q B Q) as (B1 & B2 & _). apply scalar_jacobian_ext; assumption.
  - intros i L. rewrite KL by discriminate. apply (fill_entry SymGradPhi nd (fun i => el_eps e i q)). exact L.
  - intros a A. split.
    + revert a A. pose (P := fun k (u : memory) => u Gradients = m Gradients /\ forall a, (a < k)%nat -> u VectorJacobian q a = vectorial_jacobian (cr_factor c) (cr_p c) d (cr_dir c a) (cr_ort c a) (slip_gradient_at e (mv_U x) q a)).
      assert (G : P ns (loop ns (fun a => g a ;; t a) m2)).
      { apply loop_rule.
        - split; [|intros; lia]. rewrite K2 by discriminate. apply set_other. discriminate.
        - intros k u L [U1 U2]. split.
          + unfold seq2. rewrite KT by discriminate. rewrite KG by discriminate. exact U1.
          + intros a A. unfold seq2. rewrite KT by discriminate. destruct (Nat.eq_dec a k) as [->|N].
            * unfold g. rewrite set_same, U1. destruct (F k q L Q) as (_ & _ & ->). reflexivity.
            * unfold g. rewrite set_index by (right; exact N). apply U2. lia. }
      exact (proj2 G).
    + intros i L. apply (table_pairs ScalarPhi GradScalarPhi (fun a i => el_psi e a i q) (fun a i => el_dpsi e a i q) g ns nd m2); [discriminate|intros b; apply KG; discriminate|intros b; apply KG; discriminate|exact A|exact L].
Qed.
(** What a quadrature point adds to the entries. *)
Definition matrix_term (i j q : nat) : xr :=
    let d := cr_dim (mv_crystal x) in
    let a := (el_comp e i - d)%nat in
    let b := (el_comp e j - d)%nat in
    match Nat.ltb (el_comp e i) d, Nat.ltb (el_comp e j) d with
    | true, true =>
        Fin (balance_factor c * ddot d (el_eps e i q) (c4 d (cr_C c) (el_eps e j q)) * el_w e q)
    | true, false =>
        Fin (- (balance_factor c * cr_N c 0 * ddot d (el_eps e i q) (c4 d (cr_C c) (cr_P c b))
                * el_psi e b j q * el_w e q))
    | false, true =>
        Fin (- (cr_N c 3 * el_psi e a i q * ddot d (cr_P c a) (c4 d (cr_C c) (el_eps e j q)) * el_w e q))
    | false, false =>
        xadd
          (if Nat.eqb a b then
             xmul (xmul (Fin (cr_N c 2))
                        (xdot d (el_dpsi e a i q)
                           (fun r => xsumn d (fun s =>
                              xmul (vectorial_jacobian (cr_factor c) (cr_p c) d (cr_dir c a) (cr_ort c a)
                                      (slip_gradient_at e (mv_U x) q a) r s)
                                   (Fin (el_dpsi e b j q s))))))
                  (Fin (el_w e q))
           else Fin 0)
          (Fin (- (el_psi e a i q *
                   (-1 * cr_N c 0 * cr_N c 3 * ddot d (cr_P c a) (c4 d (cr_C c) (cr_P c b))
                    - scalar_jacobian (cr_law c) (slip_at e (mv_U x) q) (slip_at e (mv_Uold x) q) (mv_resistance x q) (cr_dt c) a b)
                   * el_psi e b j q * el_w e q)))
    end.
Lemma matrix_terms i j : jacobian_bulk c e (mv_U x) (mv_Uold x) (mv_resistance x) i j = xsumn nq (matrix_term i j).
Proof. reflexivity. Qed.
Lemma matrix_entries_ok q (m : memory) : (q < nq)%nat -> mfields m -> mpoint q m ->
  updated nd m (matrix_entries x q m) (fun i j => matrix_term i j q) (fun _ _ => Fin 0).
Proof.
  intros Q (F1 & F2 & F3 & F4) (T1 & T2 & T3). unfold matrix_entries. fold c. fold e. fold nd. fold d.
  apply (matrix_loop nd (fun i j => _)). intros i j u L J O. specialize (F3 q Q).
  assert (O' : forall v, v <> LocalMatrix -> v <> CouplingMatrix -> u v = m v) by (intros v A B; apply O; split; assumption).
  unfold matrix_term. fold c. fold d. cbv zeta. pose proof (W i L) as WI. pose proof (W j J) as WJ.
  destruct (Nat.ltb_spec (el_comp e i) d) as [A|A], (Nat.ltb_spec (el_comp e j) d) as [B|B].
  - eapply updates_eq; [apply add_matrix| |reflexivity]. cbv beta. rewrite !O' by discriminate. rewrite (T2 i L), (T2 j J), F1, F3. reflexivity.
  - assert (B' : (el_comp e j - d < ns)%nat) by lia. eapply updates_eq; [apply add_matrix| |reflexivity]. cbv beta zeta. rewrite !O' by discriminate. rewrite (T2 i L), F1, F3, (F2 _ B').
    destruct (T3 _ B') as [_ P]. destruct (P j J) as [-> _]. reflexivity.
  - assert (A' : (el_comp e i - d < ns)%nat) by lia. eapply updates_eq; [apply add_matrix| |reflexivity]. cbv beta zeta. rewrite !O' by discriminate. rewrite (T2 j J), F1, F3, (F2 _ A').
    destruct (T3 _ A') as [_ P]. destruct (P i L) as [-> _]. reflexivity.
  - assert (A' : (el_comp e i - d < ns)%nat) by lia. assert (B' : (el_comp e j - d < ns)%nat) by lia.
    destruct (T3 _ A') as [V PA]. destruct (T3 _ B') as [_ PB]. destruct (PA i L) as [PA1 PA2]. destruct (PB j J) as [PB1 PB2].
    assert (SECOND : forall w : memory, (forall v, other v -> w v = m v) -> forall K, K = Fin (- (el_psi e (el_comp e i - d) i q * (-1 * cr_N c 0 * cr_N c 3 * ddot d (cr_P c (el_comp e i - d)) (c4 d (cr_C c) (cr_P c (el_comp e j - d)))
                    - scalar_jacobian (cr_law c) (slip_at e (mv_U x) q) (slip_at e (mv_Uold x) q) (mv_resistance x q) (cr_dt c) (el_comp e i - d) (el_comp e j - d)) * el_psi e (el_comp e j - d) j q * el_w e q)) ->
      Fin (- (w ScalarPhi (el_comp e i - d)%nat i * (-1 * cr_N c 0 * cr_N c 3 * ddot d (w Schmid (el_comp e i - d)%nat 0%nat) (c4 d (w Stiffness 0%nat 0%nat) (w Schmid (el_comp e j - d)%nat 0%nat))
                    - w ScalarJacobian q 0%nat (el_comp e i - d)%nat (el_comp e j - d)%nat) * w ScalarPhi (el_comp e j - d)%nat j * w JxW q 0%nat)) = K).
    { intros w OW K ->. rewrite !OW by (split; discriminate). rewrite PA1, PB1, (F2 _ A'), (F2 _ B'), F1, F3, (T1 _ _ A' B'). reflexivity. }
    destruct (Nat.eqb (el_comp e i - d) (el_comp e j - d)) eqn:EQ; cbn [when].
    + eapply updates_eq; [eapply updates_seq; [apply add_matrix|apply add_matrix]| |apply xadd_zero]. cbv beta. f_equal.
      * rewrite !O' by discriminate. rewrite PA2, V, F3. rewrite PB2. reflexivity.
      * apply SECOND; [|reflexivity]. intros v OV. destruct (add_matrix i j (fun m0 => xmul (xmul (Fin (cr_N c 2)) (xdot d (m0 GradScalarPhi (el_comp e i - d)%nat i) (fun r => xsumn d (fun s => xmul (m0 VectorJacobian q (el_comp e i - d)%nat r s) (Fin (m0 GradScalarPhi (el_comp e j - d)%nat j s))))))
               (Fin (m0 JxW q 0%nat))) u) as (_ & _ & _ & Z). rewrite (Z v OV). apply O. exact OV.
    + eapply updates_eq; [eapply updates_seq; [apply updates_none|apply add_matrix]| |apply xadd_zero]. cbv beta. f_equal. apply SECOND; [exact O|reflexivity].
Qed.
Lemma keeps_add v w i j t : other v -> keeps v (add_to w i j t).
Proof. intros [A B] m. destruct w; apply set_other; congruence. Qed.
Lemma matrix_entries_keep v q : other v -> keeps v (matrix_entries x q).
Proof.
  intros O. unfold matrix_entries. apply keeps_loop. intros i. apply keeps_loop. intros j. cbv zeta.
  destruct (Nat.ltb (el_comp (mv_element x) i) (cr_dim (mv_crystal x))), (Nat.ltb (el_comp (mv_element x) j) (cr_dim (mv_crystal x))); try (apply keeps_add; exact O).
  apply keeps_seq; [apply keeps_when|]; apply keeps_add; exact O.
Qed.
Lemma matrix_bulk_ok (m : memory) : mfields m -> forall i j, (i < nd)%nat -> (j < nd)%nat ->
  matrix_bulk x m LocalMatrix i j = xadd (m LocalMatrix i j) (jacobian_bulk c e (mv_U x) (mv_Uold x) (mv_resistance x) i j).
Proof.
  intros F. pose (g := fun q => matrix_point x q ;; matrix_entries x q).
  assert (E : matrix_bulk x m = loop nq g m) by reflexivity. rewrite E. clear E.
  assert (G : mfields (loop nq g m) /\ forall i j, (i < nd)%nat -> (j < nd)%nat -> loop nq g m LocalMatrix i j = xadd (m LocalMatrix i j) (xsumn nq (matrix_term i j))).
  { apply (loop_rule (fun k u => mfields u /\ forall i j, (i < nd)%nat -> (j < nd)%nat -> u LocalMatrix i j = xadd (m LocalMatrix i j) (xsumn k (matrix_term i j)))).
    - split; [exact F|]. intros i j _ _. cbn [xsumn]. symmetry. apply xadd_zero.
    - intros q u Q [FU IH]. unfold g, seq2. set (u1 := matrix_point x q u).
      assert (F1 : mfields u1) by (apply (mfields_kept u); [apply (matrix_point_keep Stiffness)|apply (matrix_point_keep Schmid)|apply (matrix_point_keep JxW)|apply (matrix_point_keep Slips)|apply (matrix_point_keep OldSlips)|apply (matrix_point_keep Gradients)|exact FU]; discriminate).
      destruct (matrix_entries_ok q u1 Q F1 (matrix_point_ok q u Q FU)) as [A B]. split.
      + apply (mfields_kept u1); try (apply B; split; discriminate). exact F1.
      + intros i j L J. rewrite (proj1 (A i j L J)). unfold u1. rewrite (matrix_point_keep LocalMatrix) by discriminate. rewrite (IH i j L J). cbn [xsumn]. symmetry. apply xadd_assoc. }
  intros i j L J. rewrite matrix_terms. exact (proj2 G i j L J).
Qed.
End Bulk.

(** ** Faces *)
Section Face.
Variable x : matrix_view.
Let c := mv_crystal x.
Let e := mv_element x.
Let nd := el_nd e.
Let ns := cr_ns c.
Let d := cr_dim c.
Variables (p : interface) (f : gb_face) (h : face_history) (Un : nat -> R) (indices : list nat).
Let fq := fa_nq f.
Hypothesis W : forall i, (i < nd)%nat -> (el_comp e i < d + ns)%nat.
Hypothesis WD : if_dim p = d.
Hypothesis WN : fa_nd f = nd.
Hypothesis WC : forall i, (i < nd)%nat -> fa_comp f i = el_comp e i /\ (fa_ncomp f i < d + ns)%nat.
Definition mface_fields (m : memory) : Prop := forall q, (q < fa_nq f)%nat ->
  (m FaceJxW q 0%nat = fa_w f q /\ m Normals q 0%nat = fa_n f q) /\
  (if_microtraction p = true -> m Moduli q 0%nat = if_moduli p q) /\
  (if_decohesion p = true -> m Displacements q 0%nat = face_displacement (el_nd (mv_element x)) (fa_phi f) (mv_U x) q /\
     m NeighbourDisplacements q 0%nat = face_displacement (el_nd (mv_element x)) (fa_nphi f) Un q).
Lemma mface_fields_kept (m u : memory) : u FaceJxW = m FaceJxW -> u Normals = m Normals -> u Moduli = m Moduli -> u Displacements = m Displacements -> u NeighbourDisplacements = m NeighbourDisplacements -> mface_fields m -> mface_fields u.
Proof. intros A B C F G H. unfold mface_fields. rewrite A, B, C, F, G. exact H. Qed.
(** Bookkeeping is not touched by the computation of entries. *)
Definition booked (v : var) : Prop := v = LocalMatrix \/ v = CellIndices \/ v = AtBoundary \/ v = NeighboursIndices \/ v = CouplingMatrices.
Lemma get_matrix_face_ok (m : memory) : let m' := get_matrix_face x p f Un indices m in
  mface_fields m' /\ (forall i j, (i < nd)%nat -> (j < nd)%nat -> m' CouplingMatrix i j = Fin 0) /\ m' NeighbourIndices 0%nat 0%nat = indices /\ forall v, booked v -> m' v = m v.
Proof.
  pose (Z := loop nd (fun i => fill_row CouplingMatrix i nd (fun _ => Fin 0))).
  pose (A := when (if_microtraction p) (fill Moduli fq (if_moduli p))).
  pose (B := when (if_decohesion p) (fill Displacements fq (face_displacement nd (fa_phi f) (mv_U x)) ;; fill NeighbourDisplacements fq (face_displacement nd (fa_nphi f) Un))).
  pose (J := fill FaceJxW fq (fa_w f)). pose (N := fill Normals fq (fa_n f)). pose (I0 := set NeighbourIndices 0 0 indices).
  cbv zeta. assert (E : get_matrix_face x p f Un indices m = B (A (N (J (I0 (Z m)))))) by reflexivity. rewrite E. clear E.
  split; [|split; [|split]].
  - intros q Q. split; [|split].
    + assert (K1 : keeps FaceJxW B) by (unfold B; keep). assert (K2 : keeps FaceJxW A) by (unfold A; keep). assert (K5 : keeps FaceJxW N) by (unfold N; keep).
      assert (K3 : keeps Normals B) by (unfold B; keep). assert (K4 : keeps Normals A) by (unfold A; keep).
      rewrite K1, K2, K5, K3, K4. split; apply fill_entry; exact Q.
    + intros M. assert (K1 : keeps Moduli B) by (unfold B; keep). rewrite K1. unfold A. rewrite M. apply (fill_entry Moduli fq (if_moduli p)). exact Q.
    + intros D. unfold B. rewrite D. unfold when, seq2. split.
      * assert (K : keeps Displacements (fill NeighbourDisplacements fq (face_displacement nd (fa_nphi f) Un))) by keep. rewrite K.
        apply (fill_entry Displacements fq (face_displacement nd (fa_phi f) (mv_U x))). exact Q.
      * apply (fill_entry NeighbourDisplacements fq (face_displacement nd (fa_nphi f) Un)). exact Q.
  - intros i j L K.
    assert (K1 : keeps CouplingMatrix B) by (unfold B; keep). assert (K2 : keeps CouplingMatrix A) by (unfold A; keep). assert (K3 : keeps CouplingMatrix N) by (unfold N; keep).
    assert (K4 : keeps CouplingMatrix J) by (unfold J; keep). assert (K5 : keeps CouplingMatrix I0) by (unfold I0; keep). rewrite K1, K2, K3, K4, K5.
    unfold Z. apply (zeroed CouplingMatrix nd (Fin 0)); assumption.
  - assert (K1 : keeps NeighbourIndices B) by (unfold B; keep). assert (K2 : keeps NeighbourIndices A) by (unfold A; keep). assert (K3 : keeps NeighbourIndices N) by (unfold N; keep).
    assert (K4 : keeps NeighbourIndices J) by (unfold J; keep). rewrite K1, K2, K3, K4. apply set_same.
  - intros v V.
    assert (K1 : keeps v B) by (unfold B; apply keeps_when; apply keeps_seq; apply keeps_fill; destruct V as [->|[->|[->|[->| ->]]]]; discriminate).
    assert (K2 : keeps v A) by (unfold A; apply keeps_when; apply keeps_fill; destruct V as [->|[->|[->|[->| ->]]]]; discriminate).
    assert (K3 : keeps v N) by (unfold N; apply keeps_fill; destruct V as [->|[->|[->|[->| ->]]]]; discriminate).
    assert (K4 : keeps v J) by (unfold J; apply keeps_fill; destruct V as [->|[->|[->|[->| ->]]]]; discriminate).
    assert (K5 : keeps v I0) by (unfold I0; apply keeps_set; destruct V as [->|[->|[->|[->| ->]]]]; discriminate).
    assert (K6 : keeps v Z) by (unfold Z; apply (zeroed_keeps CouplingMatrix); destruct V as [->|[->|[->|[->| ->]]]]; discriminate).
    rewrite K1, K2, K3, K4, K5. apply K6.
Qed.
Definition mface_point (q : nat) (m : memory) : Prop :=
  m DamageValues q 0%nat = damage_at p h q /\
  (if_microtraction p = true ->
     m IntraGateaux q 0%nat = intra_gateaux (if_lambda p) (if_chi p) (if_moduli p q) /\ m InterGateaux q 0%nat = inter_gateaux (if_lambda p) (if_chi p) (if_moduli p q) /\
     forall a, (a < cr_ns (mv_crystal x))%nat -> forall i, (i < el_nd (mv_element x))%nat -> m FaceScalarPhi a i = fa_psi f a i q /\ m NeighbourFaceScalarPhi a i = fa_npsi f a i q) /\
  (if_decohesion p = true ->
     m CohesiveJacobian q 0%nat = cohesive_jacobian (if_dim p) (if_cohesive p) (opening_at f (mv_U x) Un q) (fa_n f q) (fh_max h q) (fh_old h q) (if_dt p) /\
     m ContactJacobian q 0%nat = contact_jacobian (if_dim p) (if_contact p) (opening_at f (mv_U x) Un q) (fa_n f q) /\
     forall i, (i < el_nd (mv_element x))%nat -> m FacePhi i 0%nat = fa_phi f i q /\ m NeighbourFacePhi i 0%nat = fa_nphi f i q).
Definition written_at_points (v : var) : Prop := v = DamageValues \/ v = CohesiveJacobian \/ v = ContactJacobian \/ v = FacePhi \/ v = NeighbourFacePhi \/ v = IntraGateaux \/ v = InterGateaux \/ v = FaceScalarPhi \/ v = NeighbourFaceScalarPhi.
Lemma matrix_face_point_keep v q : ~ written_at_points v -> keeps v (matrix_face_point x p f h q).
Proof.
  unfold written_at_points. intros N. unfold matrix_face_point. apply keeps_seq; [apply keeps_set; intuition congruence|]. apply keeps_seq.
  - apply keeps_when. apply keeps_seq; [apply keeps_set; intuition congruence|]. apply keeps_seq; [intros m; apply set_other; intuition congruence|]. apply keeps_seq; [intros m; apply set_other; intuition congruence|].
    apply keeps_loop. intros i. apply keeps_seq; apply keeps_set; intuition congruence.
  - apply keeps_when. apply keeps_seq; [intros m; apply set_other; intuition congruence|]. apply keeps_seq; [intros m; apply set_other; intuition congruence|].
    apply keeps_loop. intros a. apply keeps_loop. intros i. apply keeps_seq; apply keeps_set; intuition congruence.
Qed.
Lemma matrix_face_point_ok q (m : memory) : (q < fq)%nat -> mface_fields m -> mface_point q (matrix_face_point x p f h q m).
Proof.
  intros Q FF. destruct (FF q Q) as ((F1 & F2) & F3 & F4).
  pose (B := when (if_decohesion p)
    (set DamageValues q 0 (fh_damage h q) ;;
     (fun m => let delta := vsub (m NeighbourDisplacements q 0%nat) (m Displacements q 0%nat) in
       set CohesiveJacobian q 0 (cohesive_jacobian d (if_cohesive p) delta (m Normals q 0%nat) (fh_max h q) (fh_old h q) (if_dt p)) m) ;;
     (fun m => let delta := vsub (m NeighbourDisplacements q 0%nat) (m Displacements q 0%nat) in
       set ContactJacobian q 0 (contact_jacobian d (if_contact p) delta (m Normals q 0%nat)) m) ;;
     loop nd (fun i => set FacePhi i 0 (fa_phi f i q) ;; set NeighbourFacePhi i 0 (fa_nphi f i q)))).
  pose (A := when (if_microtraction p)
    ((fun m => set IntraGateaux q 0 (intra_gateaux (if_lambda p) (if_chi p) (m Moduli q 0%nat)) m) ;;
     (fun m => set InterGateaux q 0 (inter_gateaux (if_lambda p) (if_chi p) (m Moduli q 0%nat)) m) ;;
     loop ns (fun a => loop nd (fun i => set FaceScalarPhi a i (fa_psi f a i q) ;; set NeighbourFaceScalarPhi a i (fa_npsi f a i q))))).
  set (u := set DamageValues q 0%nat 0 m).
  assert (E : matrix_face_point x p f h q m = A (B u)) by reflexivity. rewrite E. clear E.
  assert (KA : forall v, v <> IntraGateaux -> v <> InterGateaux -> v <> FaceScalarPhi -> v <> NeighbourFaceScalarPhi -> keeps v A).
  { intros v N1 N2 N3 N4. unfold A. apply keeps_when. apply keeps_seq; [intros w; apply set_other; congruence|]. apply keeps_seq; [intros w; apply set_other; congruence|].
    apply keeps_loop. intros a. apply keeps_loop. intros i. apply keeps_seq; apply keeps_set; congruence. }
  assert (KB : forall v, v <> DamageValues -> v <> CohesiveJacobian -> v <> ContactJacobian -> v <> FacePhi -> v <> NeighbourFacePhi -> keeps v B).
  { intros v N1 N2 N3 N4 N5. unfold B. apply keeps_when. apply keeps_seq; [apply keeps_set; congruence|]. apply keeps_seq; [intros w; apply set_other; congruence|]. apply keeps_seq; [intros w; apply set_other; congruence|].
    apply keeps_loop. intros i. apply keeps_seq; apply keeps_set; congruence. }
  pose (L := loop nd (fun i => set FacePhi i 0 (fa_phi f i q) ;; set NeighbourFacePhi i 0 (fa_nphi f i q))).
  assert (KL : forall v, v <> FacePhi -> v <> NeighbourFacePhi -> keeps v L) by (intros v N1 N2; apply keeps_loop; intros i; apply keeps_seq; apply keeps_set; congruence).
  split; [|split].
  - rewrite KA by discriminate. unfold damage_at, B, when. destruct (if_decohesion p); [|unfold u; apply set_same].
    unfold seq2 at 1 2 3. fold L. rewrite KL by discriminate. cbv zeta. rewrite !(set_other ContactJacobian) by discriminate. rewrite !(set_other CohesiveJacobian) by discriminate. apply set_same.
  - intros M. unfold A. rewrite M. unfold when, seq2 at 1 2 5 6.
    set (w := B u). assert (MW : w Moduli = m Moduli) by (unfold w; rewrite KB by discriminate; apply set_other; discriminate).
    pose (T := loop ns (fun a => loop nd (fun i => set FaceScalarPhi a i (fa_psi f a i q) ;; set NeighbourFaceScalarPhi a i (fa_npsi f a i q)))).
    assert (KT : forall v, v <> FaceScalarPhi -> v <> NeighbourFaceScalarPhi -> keeps v T) by (intros v N1 N2; apply keeps_loop; intros a; apply keeps_loop; intros i; apply keeps_seq; apply keeps_set; congruence).
    unfold seq2. fold T. split; [|split].
    + change (T (set InterGateaux q 0%nat (inter_gateaux (if_lambda p) (if_chi p) (set IntraGateaux q 0%nat (intra_gateaux (if_lambda p) (if_chi p) (w Moduli q 0%nat)) w Moduli q 0%nat)) (set IntraGateaux q 0%nat (intra_gateaux (if_lambda p) (if_chi p) (w Moduli q 0%nat)) w)) IntraGateaux q 0%nat = intra_gateaux (if_lambda p) (if_chi p) (if_moduli p q)).
      rewrite KT by discriminate. rewrite set_other by discriminate. rewrite set_same, MW, (F3 M). reflexivity.
    + change (T (set InterGateaux q 0%nat (inter_gateaux (if_lambda p) (if_chi p) (set IntraGateaux q 0%nat (intra_gateaux (if_lambda p) (if_chi p) (w Moduli q 0%nat)) w Moduli q 0%nat)) (set IntraGateaux q 0%nat (intra_gateaux (if_lambda p) (if_chi p) (w Moduli q 0%nat)) w)) InterGateaux q 0%nat = inter_gateaux (if_lambda p) (if_chi p) (if_moduli p q)).
      rewrite KT by discriminate. rewrite set_same. rewrite set_other by discriminate. rewrite MW, (F3 M). reflexivity.
    + intros a LA i LI.
      apply (table_pairs FaceScalarPhi NeighbourFaceScalarPhi (fun a i => fa_psi f a i q) (fun a i => fa_npsi f a i q) (fun _ m => m) ns nd _ ltac:(discriminate) (fun _ _ => eq_refl) (fun _ _ => eq_refl) a LA i LI).
  - intros D. destruct (F4 D) as [D1 D2]. rewrite !KA by discriminate.
    assert (O : forall v, v <> DamageValues -> u v = m v) by (intros v N; apply set_other; congruence).
    assert (OP : vsub (u NeighbourDisplacements q 0%nat) (u Displacements q 0%nat) = opening_at f (mv_U x) Un q).
    { rewrite !O by discriminate. rewrite D1, D2. unfold opening_at. rewrite WN. reflexivity. }
    unfold B. rewrite D. unfold when, seq2 at 1 2 3 5 6 7. fold L. cbv zeta.
    split; [|split].
    + rewrite KL by discriminate. rewrite (set_other ContactJacobian CohesiveJacobian) by discriminate. rewrite set_same.
      rewrite !(set_other DamageValues) by discriminate. rewrite OP. rewrite (O Normals) by discriminate. rewrite F2, WD. reflexivity.
    + rewrite KL by discriminate. rewrite set_same. rewrite !(set_other CohesiveJacobian) by discriminate. rewrite !(set_other DamageValues) by discriminate. rewrite OP. rewrite (O Normals) by discriminate. rewrite F2, WD. reflexivity.
    + intros i LI. apply (pairs_entry FacePhi NeighbourFacePhi (fun i => fa_phi f i q) (fun i => fa_nphi f i q) nd _ i ltac:(discriminate) LI).
Qed.
Lemma stored_form_ok q (m : memory) a b : mface_point q m -> if_decohesion p = true -> stored_form x p q m a b = traction_form p f h (mv_U x) Un q a b.
Proof.
  intros (T1 & _ & T3) D. destruct (T3 D) as (C1 & C2 & _). unfold stored_form, traction_form, deg_macro. cbv zeta. rewrite T1, C1, C2, WD. reflexivity.
Qed.
Definition mface_term (i j q : nat) : xr :=
    let d := if_dim p in
    let a := (fa_comp f i - d)%nat in
    let b := (fa_comp f j - d)%nat in
    match Nat.ltb (fa_comp f i) d, Nat.ltb (fa_comp f j) d with
    | true, true =>
        if if_decohesion p then
          xneg (xmul (Fin (if_factor p * -1 * fa_w f q))
                     (traction_form p f h (mv_U x) Un q (fa_phi f i q) (fa_phi f j q)))
        else Fin 0
    | false, false =>
        if if_microtraction p then
          xneg (xmul (Fin (if_N p 2 * fa_psi f a i q
                           * intra_gateaux (if_lambda p) (if_chi p) (if_moduli p q) a b
                           * fa_psi f b j q * fa_w f q))
                     (deg_micro p h q))
        else Fin 0
    | _, _ => Fin 0
    end.
Definition mcoupling_term (i j q : nat) : xr :=
    let d := if_dim p in
    let a := (fa_comp f i - d)%nat in
    let b := (fa_ncomp f j - d)%nat in
    match Nat.ltb (fa_comp f i) d, Nat.ltb (fa_comp f j) d with
    | true, true =>
        if if_decohesion p then
          xneg (xmul (Fin (if_factor p * fa_w f q))
                     (traction_form p f h (mv_U x) Un q (fa_phi f i q) (fa_nphi f j q)))
        else Fin 0
    | false, false =>
        if if_microtraction p then
          xneg (xmul (Fin (if_N p 2 * fa_psi f a i q
                           * inter_gateaux (if_lambda p) (if_chi p) (if_moduli p q) a b
                           * fa_npsi f b j q * fa_w f q))
                     (deg_micro p h q))
        else Fin 0
    | _, _ => Fin 0
    end.
Lemma mface_terms i j : jacobian_face_local p f h (mv_U x) Un i j = xsumn fq (mface_term i j) /\ jacobian_face_coupling p f h (mv_U x) Un i j = xsumn fq (mcoupling_term i j).
Proof. split; reflexivity. Qed.
Lemma mface_point_kept q (m u : memory) : (forall v, other v -> u v = m v) -> mface_point q m -> mface_point q u.
Proof. intros O. unfold mface_point. rewrite !O by (split; discriminate). exact (fun H => H). Qed.
Lemma both_added i j t s (u : memory) : (forall m : memory, (forall v, other v -> m v = u v) -> t m = t u /\ s m = s u) ->
  updates i j (seq2 (add_to LocalMatrix i j t) (add_to CouplingMatrix i j s)) (t u) (s u) u.
Proof.
  intros H. pose proof (add_matrix i j t u) as A. set (u1 := add_to LocalMatrix i j t u) in *.
  pose proof (add_coupling i j s u1) as B. assert (E : s u1 = s u) by (apply H; apply A). rewrite E in B.
  eapply updates_eq; [apply (updates_seq i j _ _ _ _ _ _ u A B)|apply xadd_zero|apply xadd_zero_l].
Qed.
Lemma matrix_face_entries_ok q (m : memory) : (q < fq)%nat -> mface_fields m -> mface_point q m ->
  updated nd m (matrix_face_entries x p f q m) (fun i j => mface_term i j q) (fun i j => mcoupling_term i j q).
Proof.
  intros Q FF FP. destruct (FF q Q) as ((F1 & _) & _). unfold matrix_face_entries. fold c. fold e. fold nd. fold d.
  apply (matrix_loop nd (fun i j => _)). intros i j u L J O.
  unfold mface_term, mcoupling_term. destruct (WC i L) as [WI _]. destruct (WC j J) as [WJ WJ']. rewrite WI, WJ, WD. cbv zeta.
  pose proof (W i L) as WI'. pose proof (W j J) as WJ''.
  assert (FPu : forall w : memory, (forall v, other v -> w v = u v) -> mface_point q w) by (intros w OW; apply (mface_point_kept q m); [intros v V; rewrite (OW v V); apply O; exact V|exact FP]).
  assert (FJu : forall w : memory, (forall v, other v -> w v = u v) -> w FaceJxW q 0%nat = fa_w f q) by (intros w OW; rewrite OW by (split; discriminate); rewrite O by (split; discriminate); exact F1).
  destruct (Nat.ltb_spec (el_comp e i) d) as [A|A], (Nat.ltb_spec (el_comp e j) d) as [B|B]; cbn [andb negb]; try apply updates_none.
  - destruct (if_decohesion p) eqn:D; cbn [when]; [|apply updates_none].
    match goal with |- updates i j (seq2 (add_to _ _ _ ?t) (add_to _ _ _ ?s)) ?T ?S u =>
      assert (H : forall w : memory, (forall v, other v -> w v = u v) -> t w = T /\ s w = S) end.
    { intros w OW. pose proof (FPu w OW) as PW. rewrite (FJu w OW). rewrite !(stored_form_ok q w _ _ PW D). destruct PW as (_ & _ & P3). destruct (P3 D) as (_ & _ & PH).
      destruct (PH i L) as [-> _]. destruct (PH j J) as [-> ->]. split; reflexivity. }
    eapply updates_eq; [apply both_added|apply H; reflexivity|apply H; reflexivity].
    intros w OW. destruct (H w OW) as [-> ->]. destruct (H u (fun v _ => eq_refl)) as [-> ->]. split; reflexivity.
  - destruct (if_microtraction p) eqn:M; cbn [when]; [|apply updates_none].
    match goal with |- updates i j (seq2 (add_to _ _ _ ?t) (add_to _ _ _ ?s)) ?T ?S u =>
      assert (H : forall w : memory, (forall v, other v -> w v = u v) -> t w = T /\ s w = S) end.
    { intros w OW. pose proof (FPu w OW) as PW. rewrite (FJu w OW). destruct PW as (P1 & P2 & _). destruct (P2 M) as (G1 & G2 & PH).
      assert (LA : (el_comp e i - d < cr_ns (mv_crystal x))%nat) by (fold c; fold ns; lia).
      assert (LB : (el_comp e j - d < cr_ns (mv_crystal x))%nat) by (fold c; fold ns; lia).
      assert (LN : (fa_ncomp f j - d < cr_ns (mv_crystal x))%nat) by (fold c; fold ns; lia).
      destruct (PH _ LA i L) as [-> _]. destruct (PH _ LB j J) as [-> _]. destruct (PH _ LN j J) as [_ ->]. rewrite G1, G2, P1. split; reflexivity. }
    eapply updates_eq; [apply both_added|apply H; reflexivity|apply H; reflexivity].
    intros w OW. destruct (H w OW) as [-> ->]. destruct (H u (fun v _ => eq_refl)) as [-> ->]. split; reflexivity.
Qed.
(** One face: the local matrix grows, one coupling matrix and one list of indices are appended. *)
Lemma matrix_face_ok (m : memory) : let m' := matrix_face x p f h Un indices m in
  (forall i j, (i < nd)%nat -> (j < nd)%nat -> m' LocalMatrix i j = xadd (m LocalMatrix i j) (jacobian_face_local p f h (mv_U x) Un i j)) /\
  m' NeighboursIndices 0%nat 0%nat = m NeighboursIndices 0%nat 0%nat ++ [indices] /\
  (exists C, m' CouplingMatrices 0%nat 0%nat = m CouplingMatrices 0%nat 0%nat ++ [C] /\ same_matrix nd C (jacobian_face_coupling p f h (mv_U x) Un)) /\
  m' CellIndices = m CellIndices /\ m' AtBoundary = m AtBoundary.
Proof.
  pose (g := fun q => matrix_face_point x p f h q ;; matrix_face_entries x p f q).
  set (m1 := get_matrix_face x p f Un indices m).
  destruct (get_matrix_face_ok m) as (F0 & Z0 & I0 & B0). fold m1 in F0, Z0, I0, B0.
  pose (P := fun k (u : memory) => mface_fields u /\ (forall i j, (i < nd)%nat -> (j < nd)%nat ->
      u LocalMatrix i j = xadd (m LocalMatrix i j) (xsumn k (mface_term i j)) /\ u CouplingMatrix i j = xsumn k (mcoupling_term i j)) /\
      u NeighbourIndices = m1 NeighbourIndices /\ u CellIndices = m1 CellIndices /\ u AtBoundary = m1 AtBoundary /\ u NeighboursIndices = m1 NeighboursIndices /\ u CouplingMatrices = m1 CouplingMatrices).
  assert (G : P fq (loop fq g m1)).
  { apply loop_rule.
    - split; [exact F0|]. split; [|repeat split]. intros i j L J. cbn [xsumn]. split; [rewrite (B0 LocalMatrix) by (left; reflexivity); symmetry; apply xadd_zero|apply Z0; assumption].
    - intros q u Q (FU & IH & U1 & U2 & U3 & U4 & U5). unfold P, g, seq2. set (u1 := matrix_face_point x p f h q u).
      assert (K : forall v, ~ written_at_points v -> u1 v = u v) by (intros v N; apply (matrix_face_point_keep v q N)).
      assert (F1 : mface_fields u1) by (apply (mface_fields_kept u); try (apply K; unfold written_at_points; intuition discriminate); exact FU).
      destruct (matrix_face_entries_ok q u1 Q F1 (matrix_face_point_ok q u Q FU)) as [A B]. split.
      { apply (mface_fields_kept u1); try (apply B; split; discriminate). exact F1. }
      split.
      { intros i j L J. destruct (A i j L J) as [-> ->]. rewrite !K by (unfold written_at_points; intuition discriminate). destruct (IH i j L J) as [-> ->]. cbn [xsumn].
        split; [symmetry; apply xadd_assoc|reflexivity]. }
      rewrite !B by (split; discriminate). rewrite !K by (unfold written_at_points; intuition discriminate). repeat split; assumption. }
  destruct G as (_ & G1 & G2 & G3 & G4 & G5 & G6). set (m2 := loop fq g m1) in *.
  cbv zeta.
  assert (E : matrix_face x p f h Un indices m =
    (let m3 := set NeighboursIndices 0%nat 0%nat (m2 NeighboursIndices 0%nat 0%nat ++ [m2 NeighbourIndices 0%nat 0%nat]) m2 in
     set CouplingMatrices 0%nat 0%nat (m3 CouplingMatrices 0%nat 0%nat ++ [fun i j => m3 CouplingMatrix i j]) m3)) by reflexivity.
  rewrite E. cbv zeta. clear E. set (m3 := set NeighboursIndices 0%nat 0%nat (m2 NeighboursIndices 0%nat 0%nat ++ [m2 NeighbourIndices 0%nat 0%nat]) m2).
  assert (K3 : forall v, v <> NeighboursIndices -> m3 v = m2 v) by (intros v N; apply set_other; congruence).
  split; [|split; [|split; [|split]]].
  - intros i j L J. rewrite set_other by discriminate. rewrite K3 by discriminate. rewrite (proj1 (mface_terms i j)). apply G1; assumption.
  - rewrite set_other by discriminate. unfold m3. rewrite set_same. rewrite G5, G2, I0. rewrite (B0 NeighboursIndices) by (unfold booked; auto 6). reflexivity.
  - exists (fun i j => m3 CouplingMatrix i j). split.
    + rewrite set_same. f_equal. rewrite K3 by discriminate. rewrite G6. rewrite (B0 CouplingMatrices) by (unfold booked; auto 6). reflexivity.
    + intros i j L J. rewrite K3 by discriminate. rewrite (proj2 (mface_terms i j)). apply G1; assumption.
  - rewrite set_other by discriminate. rewrite K3 by discriminate. rewrite G3. apply B0. unfold booked; auto 6.
  - rewrite set_other by discriminate. rewrite K3 by discriminate. rewrite G4. apply B0. unfold booked; auto 6.
Qed.
End Face.

(** ** The whole cell *)
Lemma reset_copy_ok x (m : memory) : let m' := reset_copy x m in
  (forall i j, (i < el_nd (mv_element x))%nat -> (j < el_nd (mv_element x))%nat -> m' LocalMatrix i j = Fin 0) /\
  m' AtBoundary 0%nat 0%nat = false /\ m' NeighboursIndices 0%nat 0%nat = [] /\ m' CouplingMatrices 0%nat 0%nat = [] /\ m' CellIndices 0%nat 0%nat = mv_indices x.
Proof.
  cbv zeta. unfold reset_copy. set (nd := el_nd (mv_element x)). unfold seq2.
  split; [|split; [|split; [|split]]].
  - intros i j L J. rewrite !set_other by discriminate. apply (zeroed LocalMatrix nd (Fin 0)); assumption.
  - do 3 rewrite set_other by discriminate. apply set_same.
  - do 2 rewrite set_other by discriminate. apply set_same.
  - rewrite set_other by discriminate. apply set_same.
  - apply set_same.
Qed.
Lemma matrix_bulk_keep x v : v = AtBoundary \/ v = NeighboursIndices \/ v = CouplingMatrices \/ v = CellIndices -> keeps v (seq2 (get_matrix_fields x) (matrix_bulk x)).
Proof.
  intros V. apply keeps_seq.
  - unfold get_matrix_fields. destruct V as [->|[->|[->| ->]]]; keep.
  - unfold matrix_bulk. apply keeps_loop. intros q. apply keeps_seq.
    + apply matrix_point_keep; destruct V as [->|[->|[->| ->]]]; discriminate.
    + apply matrix_entries_keep. destruct V as [->|[->|[->| ->]]]; split; discriminate.
Qed.
Lemma get_matrix_fields_keep x : keeps LocalMatrix (get_matrix_fields x).
Proof. unfold get_matrix_fields. keep. Qed.
Lemma matrix_cell_ok x (m : memory) : matrix_well_formed x -> same_copy (el_nd (mv_element x)) (copied (assemble_local_jacobian x m)) (matrix_contribution x).
Proof.
  intros [W F]. set (nd := el_nd (mv_element x)) in *.
  set (m0 := reset_copy x m). destruct (reset_copy_ok x m) as (R1 & R2 & R3 & R4 & R5). fold m0 nd in R1, R2, R3, R4, R5.
  set (m1 := matrix_bulk x (get_matrix_fields x m0)).
  assert (L1 : forall i j, (i < nd)%nat -> (j < nd)%nat -> m1 LocalMatrix i j = jacobian_bulk (mv_crystal x) (mv_element x) (mv_U x) (mv_Uold x) (mv_resistance x) i j).
  { intros i j L J. unfold m1. rewrite (matrix_bulk_ok x W _ (get_mfields_ok x m0) i j L J). rewrite get_matrix_fields_keep. rewrite (R1 i j L J). apply xadd_zero_l. }
  assert (K1 : forall v, v = AtBoundary \/ v = NeighboursIndices \/ v = CouplingMatrices \/ v = CellIndices -> m1 v = m0 v) by (intros v V; apply (matrix_bulk_keep x v V)).
  assert (E : assemble_local_jacobian x m = when (mv_boundary x) (set AtBoundary 0 0 true ;;
     (fun m => fold_left (fun m y => let '(p, f, h, Un, indices) := y in matrix_face x p f h Un indices m) (mv_faces x) m)) m1) by reflexivity.
  rewrite E. clear E. unfold copied, matrix_contribution. destruct (mv_boundary x) eqn:MB; cbn [when].
  2:{ split; [|split; [|split; [|split]]]; cbn [cd_matrix cd_indices cd_boundary cd_couplings cd_neighbours fold_left map].
      - intros i j L J. apply L1; assumption.
      - rewrite K1 by auto. exact R5.
      - rewrite K1 by auto. exact R2.
      - rewrite K1 by auto. rewrite R4. constructor.
      - rewrite K1 by auto. exact R3. }
  set (m2 := set AtBoundary 0%nat 0%nat true m1).
  assert (FA : forall l (u : memory), (forall p f h Un indices, In (p, f, h, Un, indices) l -> In (p, f, h, Un, indices) (mv_faces x)) ->
     let u' := fold_left (fun m y => let '(p, f, h, Un, indices) := y in matrix_face x p f h Un indices m) l u in
     (forall i j, (i < nd)%nat -> (j < nd)%nat -> u' LocalMatrix i j = fold_left (fun acc y => let '(p, f, h, Un, _) := y in xadd acc (jacobian_face_local p f h (mv_U x) Un i j)) l (u LocalMatrix i j)) /\
     (exists Cs, u' CouplingMatrices 0%nat 0%nat = u CouplingMatrices 0%nat 0%nat ++ Cs /\ Forall2 (same_matrix nd) Cs (map (fun y => let '(p, f, h, Un, _) := y in jacobian_face_coupling p f h (mv_U x) Un) l)) /\
     u' NeighboursIndices 0%nat 0%nat = u NeighboursIndices 0%nat 0%nat ++ map (fun y => let '(_, _, _, _, indices) := y in indices) l /\
     u' CellIndices = u CellIndices /\ u' AtBoundary = u AtBoundary).
  { induction l as [|[[[[p f] h] Un] indices] l IH]; intros u IN; cbv zeta; cbn [fold_left map].
    - split; [reflexivity|]. split; [exists []; split; [symmetry; apply app_nil_r|constructor]|]. split; [symmetry; apply app_nil_r|split; reflexivity].
    - destruct (F p f h Un indices (IN p f h Un indices (or_introl eq_refl))) as (WD & WN & WC).
      destruct (matrix_face_ok x p f h Un indices W WD WN WC u) as (A1 & A2 & (C & A3 & A4) & A5 & A6).
      destruct (IH (matrix_face x p f h Un indices u) (fun p' f' h' Un' i' I => IN p' f' h' Un' i' (or_intror I))) as (B1 & (Cs & B2 & B3) & B4 & B5 & B6).
      split; [|split; [|split; [|split]]].
      + intros i j L J. rewrite (B1 i j L J). rewrite (A1 i j L J). reflexivity.
      + exists (C :: Cs). split; [rewrite B2, A3, <- app_assoc; reflexivity|]. constructor; [exact A4|exact B3].
      + rewrite B4, A2, <- app_assoc. reflexivity.
      + rewrite B5. exact A5.
      + rewrite B6. exact A6. }
  destruct (FA (mv_faces x) m2 (fun p f h Un i I => I)) as (B1 & (Cs & B2 & B3) & B4 & B5 & B6).
  unfold seq2. fold m2. cbv zeta in *. set (u' := fold_left _ (mv_faces x) m2) in *.
  split; [|split; [|split; [|split]]]; cbn [cd_matrix cd_indices cd_boundary cd_couplings cd_neighbours].
  - intros i j L J. rewrite (B1 i j L J). unfold m2. rewrite set_other by discriminate. rewrite (L1 i j L J). reflexivity.
  - rewrite B5. unfold m2. rewrite set_other by discriminate. rewrite K1 by auto. exact R5.
  - rewrite B6. unfold m2. apply (set_same AtBoundary).
  - rewrite B2. unfold m2. rewrite set_other by discriminate. rewrite (K1 CouplingMatrices) by auto. rewrite R4. exact B3.
  - rewrite B4. unfold m2. rewrite set_other by discriminate. rewrite (K1 NeighboursIndices) by auto. rewrite R3. reflexivity.
Qed.
