(** * C76, C77: sparsity pattern; the linear system under constraints. *)
From Verif Require Import Num SumLemmas ModelHistory ModelFEField ModelActiveSet SpecActiveSet PropActiveSet
  ModelLinear SpecLinear.
Open Scope R_scope.

(** ** Sums over lists *)
Lemma lsum_app {A} (f : A -> R) a b : lsum f (a ++ b) = lsum f a + lsum f b.
Proof. induction a; simpl; [ring|]. rewrite IHa. ring. Qed.
Lemma lsum_ext {A} (f g : A -> R) l : (forall x, In x l -> f x = g x) -> lsum f l = lsum g l.
Proof. induction l as [|a l IH]; intros H; simpl; [reflexivity|]. rewrite H, IH; auto; [intros; apply H; right; auto|left; auto]. Qed.
Lemma lsum_flat_map {A B} (f : B -> R) (g : A -> list B) l :
  lsum f (flat_map g l) = lsum (fun x => lsum f (g x)) l.
Proof. induction l; simpl; [reflexivity|]. rewrite lsum_app, IHl. reflexivity. Qed.
Lemma lsum_map {A B} (f : B -> R) (g : A -> B) l : lsum f (map g l) = lsum (fun x => f (g x)) l.
Proof. induction l; simpl; [reflexivity|]. rewrite IHl. reflexivity. Qed.
Lemma lsum_plus {A} (f g : A -> R) l : lsum (fun x => f x + g x) l = lsum f l + lsum g l.
Proof. induction l; simpl; [ring|]. rewrite IHl. ring. Qed.
Lemma lsum_scal {A} k (f : A -> R) l : lsum (fun x => k * f x) l = k * lsum f l.
Proof. induction l; simpl; [ring|]. rewrite IHl. ring. Qed.
Lemma lsum_scal_r {A} k (f : A -> R) l : lsum (fun x => f x * k) l = lsum f l * k.
Proof. induction l; simpl; [ring|]. rewrite IHl. ring. Qed.
Lemma lsum_zero {A} (f : A -> R) l : (forall x, In x l -> f x = 0) -> lsum f l = 0.
Proof. induction l as [|a l IH]; intros H; simpl; [reflexivity|]. rewrite H, IH; [ring|intros; apply H; right; auto|left; auto]. Qed.
Lemma lsum_seq (f : nat -> R) n : lsum f (seq 0 n) = sumn n f.
Proof.
  induction n; [reflexivity|]. rewrite seq_S, lsum_app, IHn. simpl. ring.
Qed.
Lemma enumerate_nth {A} (l : list A) (d : A) :
  enumerate l = map (fun i => (i, nth i l d)) (seq 0 (length l)).
Proof.
  unfold enumerate.
  cut (forall k, combine (seq k (length l)) l = map (fun i => (i, nth (i - k) l d)) (seq k (length l))).
  { intros H. rewrite H. apply map_ext. intros i. rewrite Nat.sub_0_r. reflexivity. }
  induction l as [|a l IH]; intros k; [reflexivity|]. cbn [length seq combine map].
  rewrite Nat.sub_diag. cbn [nth]. f_equal. rewrite IH. apply map_ext_in. intros i Hi. apply in_seq in Hi.
  f_equal. replace (i - k)%nat with (S (i - S k)) by lia. reflexivity.
Qed.
Lemma lsum_enumerate {A} (f : nat * A -> R) (l : list A) d :
  lsum f (enumerate l) = sumn (length l) (fun i => f (i, nth i l d)).
Proof. rewrite (enumerate_nth l d), lsum_map, lsum_seq. reflexivity. Qed.
Lemma In_enumerate {A} (l : list A) i x : In (i, x) (enumerate l) -> In x l.
Proof. unfold enumerate. intros H. apply in_combine_r in H. exact H. Qed.
Lemma In_enumerate_ex {A} (l : list A) x : In x l -> exists i, In (i, x) (enumerate l).
Proof.
  intros H. destruct (In_nth l x x H) as (i & Hi & E). exists i. rewrite (enumerate_nth l x).
  apply in_map_iff. exists i. rewrite E. split; auto. apply in_seq. lia.
Qed.

(** ** Pattern *)
Lemma In_rectangle c rows cols r s :
  In (r, s) (pattern_rectangle c rows cols) <->
  exists d e w w', In d rows /\ In e cols /\ In (r, w) (resolve c d) /\ In (s, w') (resolve c e).
Proof.
  unfold pattern_rectangle. rewrite in_flat_map. split.
  - intros (d & Hd & H). apply in_flat_map in H. destruct H as (e & He & H).
    apply in_flat_map in H. destruct H as ([r' w] & Hr & H). apply in_map_iff in H.
    destruct H as ([s' w'] & E & Hs). cbn [fst] in E. injection E as -> ->. exists d, e, w, w'. auto.
  - intros (d & e & w & w' & Hd & He & Hr & Hs). exists d. split; auto. apply in_flat_map. exists e. split; auto.
    apply in_flat_map. exists (r, w). split; auto. apply in_map_iff. exists (s, w'). auto.
Qed.
Lemma In_rectangle_writes c rows cols M r s v :
  In (r, s, v) (rectangle_writes c rows cols M) ->
  exists d e w w', In d rows /\ In e cols /\ In (r, w) (resolve c d) /\ In (s, w') (resolve c e).
Proof.
  unfold rectangle_writes. rewrite in_flat_map. intros ([i d] & Hd & H).
  apply in_flat_map in H. destruct H as ([j e] & He & H).
  apply in_flat_map in H. destruct H as ([r' w] & Hr & H). apply in_map_iff in H.
  destruct H as ([s' w'] & E & Hs). cbn [fst snd] in *. injection E as -> -> _.
  exists d, e, w, w'. apply In_enumerate in Hd. apply In_enumerate in He. auto.
Qed.
Lemma position_in_spec pattern r s v : position_in pattern (r, s, v) = true <-> In (r, s) pattern.
Proof.
  unfold position_in. rewrite existsb_exists. cbn [fst snd]. split.
  - intros ([a b] & H & E). apply andb_prop in E. destruct E as [E1 E2].
    apply Nat.eqb_eq in E1, E2. cbn in *. subst. exact H.
  - intros H. exists (r, s). cbn. rewrite !Nat.eqb_refl. auto.
Qed.
Lemma interfaces_flag x : cell_is_at_grain_boundary x = true <-> interfaces x <> [].
Proof.
  unfold cell_is_at_grain_boundary, interfaces. induction (mc_faces x) as [|f fs IH]; simpl.
  - split; [discriminate|intros H; contradict H; reflexivity].
  - destruct f as [n|]; [|exact IH]. destruct (negb _) eqn:E; simpl; [|exact IH].
    split; [discriminate|reflexivity].
Qed.
Lemma rectangle_within a b rows cols r s : stays_within a b ->
  (exists d e w w', In d rows /\ In e cols /\ In (r, w) (resolve a d) /\ In (s, w') (resolve a e)) ->
  In (r, s) (pattern_rectangle b rows cols).
Proof.
  intros H (d & e & w & w' & Hd & He & Hr & Hs). apply In_rectangle.
  destruct (H _ _ _ Hr) as (u & Hu). destruct (H _ _ _ Hs) as (u' & Hu'). exists d, e, u, u'. auto.
Qed.
(** Positions of one cell in the pattern. *)
Definition cell_pattern (c : constraints) (couple : bool) (x : mesh_cell) : list (nat * nat) :=
  pattern_square c (mc_dofs x) ++
  (if andb (cell_is_at_grain_boundary x) couple
   then flat_map (fun n => pattern_rectangle c (mc_dofs x) (nb_dofs n)) (interfaces x) else []).
Lemma make_pattern_cells c couple cells pattern : make_sparsity_pattern c couple cells = Ok pattern ->
  forall p, In p pattern <-> exists x, In x cells /\ In p (cell_pattern c couple x).
Proof.
  revert pattern. induction cells as [|x cells IH]; intros pattern H p; cbn [make_sparsity_pattern] in H.
  - injection H as <-. split; [intros []|intros (x & [] & _)].
  - destruct (Nat.eqb _ _); [|discriminate]. cbv zeta in H. destruct (andb (andb _ _) _); [discriminate|].
    destruct (make_sparsity_pattern c couple cells) as [rest| |]; cbn [rbind] in H; try discriminate.
    injection H as <-. specialize (IH rest eq_refl p). rewrite app_assoc, in_app_iff, IH. fold (cell_pattern c couple x).
    split.
    + intros [H|(y & Hy & H)]; [exists x|exists y]; simpl; auto.
    + intros (y & [<-|Hy] & H); [left; auto|right; exists y; auto].
Qed.
Lemma copy_within a b couple l : stays_within a b ->
  exists ws, copy_jacobian a couple l = Ok ws /\
    forall r s v, In (r, s, v) ws -> In (r, s) (cell_pattern b couple (ls_cell l)).
Proof.
  intros H. unfold copy_jacobian, cell_pattern.
  assert (S : forall r s v, In (r, s, v) (square_writes a (mc_dofs (ls_cell l)) (ls_matrix l)) ->
    In (r, s) (pattern_square b (mc_dofs (ls_cell l)))).
  { intros r s v HI. unfold square_writes in HI. unfold pattern_square. apply in_app_iff. apply in_app_iff in HI.
    destruct HI as [HI|HI].
    - left. apply In_rectangle_writes in HI. eapply rectangle_within; eauto.
    - apply in_flat_map in HI. destruct HI as ([i d] & Hd & HI). apply In_enumerate in Hd. cbn [snd fst] in HI.
      destruct (is_constrained a d) eqn:Ca; [|destruct HI]. destruct HI as [E|[]]. injection E as <- <- _.
      destruct (is_constrained b d) eqn:Cb.
      + right. apply in_flat_map. exists d. rewrite Cb. simpl. auto.
      + left. apply In_rectangle. exists d, d, 1, 1. unfold is_constrained in Cb. unfold resolve.
        destruct (b d); [discriminate|]. simpl. auto. }
  destruct (andb _ couple) eqn:A.
  - apply andb_prop in A. destruct A as [A _]. apply interfaces_flag in A.
    destruct (interfaces (ls_cell l)) as [|n ns] eqn:EI; [contradict A; reflexivity|].
    eexists. split; [reflexivity|]. intros r s v HI. rewrite in_app_iff in HI |- *. destruct HI as [HI|HI]; [left; eauto|right].
    apply in_flat_map in HI. destruct HI as ([k m] & Hm & HI). apply In_enumerate in Hm. cbn [snd fst] in HI.
    apply in_flat_map. exists m. split; auto. apply In_rectangle_writes in HI. eapply rectangle_within; eauto.
  - eexists. split; [reflexivity|]. intros r s v HI. rewrite in_app_iff. left. eauto.
Qed.

(** Once the pattern has been made, assembling the Jacobian never adds to a position outside it
    (which would throw), for every constraints object whose dofs stand for what they stood for
    when the pattern was made, or for less. *)
Theorem C76_assembly_stays_in_the_pattern : forall made used couple ls pattern,
  make_sparsity_pattern made couple (map ls_cell ls) = Ok pattern ->
  stays_within used made ->
  exists ws, assemble_jacobian pattern used couple ls = Ok ws.
Proof.
  intros made used couple ls pattern HP HW.
  assert (I : forall l, In l ls -> forall p, In p (cell_pattern made couple (ls_cell l)) -> In p pattern).
  { intros l Hl p Hp. apply (make_pattern_cells _ _ _ _ HP). exists (ls_cell l). split; auto. apply in_map; auto. }
  clear HP. induction ls as [|l ls IH]; [exists []; reflexivity|]. cbn [assemble_jacobian].
  destruct (copy_within used made couple l HW) as (ws & E & HI). rewrite E. cbn [rbind].
  replace (forallb (position_in pattern) ws) with true.
  - destruct IH as (rest & E'); [intros l' Hl'; apply I; right; auto|]. rewrite E'. cbn [rbind]. eauto.
  - symmetry. apply forallb_forall. intros [[r s] v] Hw. apply position_in_spec. apply (I l); [left; auto|]. eauto.
Qed.

(** ** Constraints of the active set algorithm *)
Lemma loop_lines affine trial ys h ds k :
  snd (active_loop affine trial ys h ds) k = h k \/
  (h k = None /\ snd (active_loop affine trial ys h ds) k = Some zero_line).
Proof.
  induction ds as [|d ds IH] using rev_ind.
  - left. simpl. unfold merge. destruct (h k); reflexivity.
  - rewrite loop_snoc. destruct (active_loop affine trial ys h ds) as [act ina]. cbn [snd] in IH.
    unfold active_step. cbn [snd]. destruct (negb _); [|exact IH]. unfold add_line.
    destruct (Nat.eqb_spec k d) as [<-|N]; [|exact IH].
    destruct IH as [E|[H0 E]]; rewrite E; [|auto]. destruct (h k); auto.
Qed.
Lemma internal_lines p trial s d :
  p_rate_independent p = true ->
  (forall k l, p_hanging p k = Some l -> p_newton p k = Some l) ->
  internal_constraints (recomputed p trial s) d = p_newton p d \/
  internal_constraints (recomputed p trial s) d = Some zero_line.
Proof.
  intros HR HH. destruct (Nat.eq_dec (p_n_slips p) 0) as [Z|NZ].
  - left. unfold recomputed, active_set_algorithm, determine_active_set. rewrite HR, Z. cbn.
    unfold merge. destruct (p_newton p d); reflexivity.
  - destruct (recomputed_active p trial s HR ltac:(lia)) as (_ & EI). rewrite EI.
    unfold merge. destruct (loop_lines (p_affine p) trial (yield_of p) (p_hanging p) (p_owned_slip p) d) as [E|[_ E]];
      rewrite E; [|auto]. left. destruct (p_hanging p d) eqn:EH; [symmetry; auto|]. destruct (p_newton p d); reflexivity.
Qed.

(** Whatever the active set, its constraints are closed, homogeneous and within the Newton
    constraints: the active set may change without remaking the pattern. *)
Theorem C76_active_sets_stay_within_the_newton_constraints : forall p trial s,
  p_rate_independent p = true ->
  (forall k l, p_hanging p k = Some l -> p_newton p k = Some l) ->
  lines_are_closed (p_newton p) -> homogeneous (p_newton p) ->
  let used := close_constraints (internal_constraints (recomputed p trial s)) in
  stays_within used (p_newton p) /\ lines_are_closed used /\ homogeneous used.
Proof.
  intros p trial s HR HH HC HO used. set (i := internal_constraints (recomputed p trial s)) in *.
  assert (L : forall d, i d = p_newton p d \/ i d = Some zero_line) by (intros d; apply internal_lines; auto).
  assert (E : forall d es b e w, p_newton p d = Some (es, b) -> In (e, w) es -> i e = None \/ i e = Some zero_line).
  { intros d es b e w Hd He. pose proof (HC d es b e w Hd He). destruct (L e) as [->|]; auto. }
  assert (U : forall d es b, used d = Some (es, b) ->
    b = 0 /\ (es = [] \/ exists es', p_newton p d = Some (es', b) /\
                        forall e w, In (e, w) es -> i e = None /\ In (e, w) es')).
  { intros d es b Hd. unfold used, close_constraints in Hd. destruct (L d) as [Ed|Ed]; rewrite Ed in Hd.
    - destruct (p_newton p d) as [[es' b']|] eqn:En; [|discriminate]. injection Hd as <- <-.
      split; [eapply HO; eauto|]. right. exists es'. split; auto. intros e w He. apply in_flat_map in He.
      destruct He as ([m u] & Hm & He). cbn [fst snd] in He.
      destruct (E d es' b' m u En Hm) as [Em|Em]; rewrite Em in He; simpl in He; [|destruct He].
      destruct He as [X|[]]. injection X as <- <-. auto.
    - simpl in Hd. injection Hd as <- <-. auto. }
  split; [|split].
  - intros d e w He. unfold resolve in He |- *.
    destruct (used d) as [[es b]|] eqn:Ud.
    + destruct (U d es b Ud) as (_ & [->|(es' & En & He')]); [destruct He|]. rewrite En. exists w. apply He'. exact He.
    + unfold used, close_constraints in Ud. destruct (L d) as [Ed|Ed]; rewrite Ed in Ud; [|discriminate].
      destruct (p_newton p d) as [[? ?]|]; [discriminate|]. eauto.
  - intros d es b e w Hd He. destruct (U d es b Hd) as (_ & [->|(es' & _ & H)]); [destruct He|].
    destruct (H e w He) as [N _]. unfold used, close_constraints. rewrite N. reflexivity.
  - intros d es b Hd. destruct (U d es b Hd); auto.
Qed.

(** Together: the Jacobian can be assembled after every determination of the active set. *)
Theorem C76_jacobian_assembles_for_every_active_set : forall p trial s couple ls pattern,
  p_rate_independent p = true ->
  (forall k l, p_hanging p k = Some l -> p_newton p k = Some l) ->
  lines_are_closed (p_newton p) -> homogeneous (p_newton p) ->
  make_sparsity_pattern (p_newton p) couple (map ls_cell ls) = Ok pattern ->
  exists ws, assemble_jacobian pattern (close_constraints (internal_constraints (recomputed p trial s))) couple ls = Ok ws.
Proof.
  intros p trial s couple ls pattern HR HH HC HO HP. apply C76_assembly_stays_in_the_pattern with (made := p_newton p); auto.
  apply C76_active_sets_stay_within_the_newton_constraints; auto.
Qed.

(** The pattern is refused exactly when an element does not match the material of its cell, or
    of the other side of a coupled interface. *)
Theorem C76_pattern_needs_matching_elements : forall c couple cells,
  (exists pattern, make_sparsity_pattern c couple cells = Ok pattern) <->
  (forall x, In x cells -> mc_fe x = mc_material x /\
     (couple = true -> forall n, In (Some n) (mc_faces x) -> nb_material n <> mc_material x -> nb_fe n = nb_material n)).
Proof.
  intros c couple cells. induction cells as [|x cells IH].
  - split; [intros _ x []|exists []; reflexivity].
  - cbn [make_sparsity_pattern]. cbv zeta.
    assert (HI : forall n, In n (interfaces x) <-> In (Some n) (mc_faces x) /\ nb_material n <> mc_material x).
    { intros n. unfold interfaces. rewrite in_flat_map. split.
      - intros ([m|] & Hm & H); [|destruct H]. destruct (Nat.eqb_spec (mc_material x) (nb_material m)); simpl in H; [destruct H|].
        destruct H as [<-|[]]. auto.
      - intros [Hm Hn]. exists (Some n). split; auto. destruct (Nat.eqb_spec (mc_material x) (nb_material n)); [congruence|].
        simpl; auto. }
    destruct (Nat.eqb_spec (mc_fe x) (mc_material x)) as [Ex|Ex].
    + destruct (andb (andb _ _) _) eqn:B.
      * split; [intros (? & H); discriminate|]. intros H. exfalso.
        apply andb_prop in B. destruct B as [B B3]. apply andb_prop in B. destruct B as [B1 B2].
        apply existsb_exists in B3. destruct B3 as (n & Hn & B3). apply HI in Hn. destruct Hn as [Hn1 Hn2].
        destruct (H x (or_introl eq_refl)) as (_ & H'). rewrite (H' B2 n Hn1 Hn2), Nat.eqb_refl in B3. discriminate.
      * split.
        -- intros (pattern & H) y [<-|Hy].
           ++ split; auto. intros Hc n Hn1 Hn2.
              assert (Hn : In n (interfaces x)) by (apply HI; auto).
              assert (F : cell_is_at_grain_boundary x = true) by (apply interfaces_flag; intros Z; rewrite Z in Hn; destruct Hn).
              rewrite F, Hc in B. cbn [andb] in B. destruct (Nat.eqb_spec (nb_fe n) (nb_material n)) as [|NE]; auto.
              exfalso. apply Bool.not_true_iff_false in B. apply B. apply existsb_exists. exists n. split; auto.
              apply Nat.eqb_neq in NE. rewrite NE. reflexivity.
           ++ apply IH; auto. destruct (make_sparsity_pattern c couple cells); try discriminate. eauto.
        -- intros H. destruct (proj2 IH) as (rest & E); [intros y Hy; apply H; right; auto|]. rewrite E. cbn [rbind]. eauto.
    + split; [intros (? & H); discriminate|]. intros H. destruct (H x (or_introl eq_refl)). contradiction.
Qed.

(** ** C77: the constrained linear system *)
Definition expand (c : constraints) (v : vec) (d : nat) : R := lsum (fun e => snd e * v (fst e)) (resolve c d).
Definition form (ws : list (nat * nat * R)) (v x : vec) : R :=
  lsum (fun w => v (fst (fst w)) * snd w * x (snd (fst w))) ws.
Lemma form_app a b v x : form (a ++ b) v x = form a v x + form b v x.
Proof. apply lsum_app. Qed.
Lemma matrix_form n ws v x :
  (forall r s u, In (r, s, u) ws -> (r < n)%nat /\ (s < n)%nat) ->
  sumn n (fun r => v r * sumn n (fun s => matrix_of ws r s * x s)) = form ws v x.
Proof.
  induction ws as [|[[r0 s0] u] ws IH]; intros H.
  - unfold form. cbn [matrix_of lsum fold_right]. rewrite (sumn_ext _ _ (fun _ => 0)); [apply sumn_0|].
    intros r _. rewrite (sumn_ext _ _ (fun _ => 0)) by (intros; ring). rewrite sumn_0. ring.
  - change (form ((r0, s0, u) :: ws) v x) with (v r0 * u * x s0 + form ws v x).
    rewrite <- IH by (intros r s u' Hin; apply (H r s u'); right; auto).
    destruct (H r0 s0 u (or_introl eq_refl)) as [Hr Hs].
    transitivity (sumn n (fun r => kron r r0 * (v r0 * u * x s0) + v r * sumn n (fun s => matrix_of ws r s * x s))).
    + apply sumn_ext; intros r _.
      rewrite (sumn_ext n (fun s => matrix_of ((r0, s0, u) :: ws) r s * x s)
        (fun s => kron s s0 * (kron r r0 * u * x s0) + matrix_of ws r s * x s)).
      * rewrite sumn_plus, sumn_kron by exact Hs. unfold kron. destruct (Nat.eqb_spec r r0) as [->|]; ring.
      * intros s _. cbn [matrix_of fold_right fst snd]. fold (matrix_of ws r s). unfold kron.
        rewrite (Nat.eqb_sym r0 r), (Nat.eqb_sym s0 s).
        destruct (Nat.eqb_spec r r0) as [->|], (Nat.eqb_spec s s0) as [->|]; cbn [andb]; ring.
    + rewrite sumn_plus, sumn_kron by exact Hr. reflexivity.
Qed.
Lemma vector_form n ws v :
  (forall r u, In (r, u) ws -> (r < n)%nat) ->
  sumn n (fun r => v r * vector_of ws r) = lsum (fun w => v (fst w) * snd w) ws.
Proof.
  induction ws as [|[r0 u] ws IH]; intros H.
  - cbn [vector_of lsum fold_right]. rewrite (sumn_ext _ _ (fun _ => 0)); [apply sumn_0|]. intros; ring.
  - cbn [lsum fst snd]. rewrite <- IH by (intros r u' Hin; apply (H r u'); right; auto).
    specialize (H r0 u (or_introl eq_refl)).
    transitivity (sumn n (fun r => kron r r0 * (v r0 * u) + v r * vector_of ws r)).
    + apply sumn_ext; intros r _. cbn [vector_of fold_right fst snd]. fold (vector_of ws r). unfold kron.
      rewrite (Nat.eqb_sym r0 r). destruct (Nat.eqb_spec r r0) as [->|]; ring.
    + rewrite sumn_plus, sumn_kron by exact H. reflexivity.
Qed.
Lemma rectangle_form c rows cols M v x :
  form (rectangle_writes c rows cols M) v x =
  sumn (length rows) (fun i => expand c v (nth i rows 0%nat) *
    sumn (length cols) (fun j => M i j * expand c x (nth j cols 0%nat))).
Proof.
  unfold form, rectangle_writes. rewrite lsum_flat_map, (lsum_enumerate _ rows 0%nat).
  apply sumn_ext; intros i _. rewrite lsum_flat_map, (lsum_enumerate _ cols 0%nat), <- sumn_scal.
  apply sumn_ext; intros j _. cbn [fst snd]. rewrite lsum_flat_map. unfold expand.
  rewrite <- Rmult_assoc, (Rmult_comm (lsum _ _) (M i j)), Rmult_assoc, <- lsum_scal_r, <- lsum_scal.
  apply lsum_ext. intros [r w] _. rewrite lsum_map. cbn [fst snd].
  rewrite <- !lsum_scal. apply lsum_ext. intros [s w'] _. cbn [fst snd]. ring.
Qed.
(** Diagonal entries of the constrained dofs. *)
Definition diagonal_form (c : constraints) (l : local_system) (v x : vec) : R :=
  let dofs := mc_dofs (ls_cell l) in
  sumn (length dofs) (fun i => if is_constrained c (nth i dofs 0%nat)
    then constrained_diagonal (length dofs) (ls_matrix l) i * (v (nth i dofs 0%nat) * x (nth i dofs 0%nat)) else 0).
Definition cell_work (couple : bool) (l : local_system) (w y : vec) : R :=
  let dofs := mc_dofs (ls_cell l) in
  sumn (length dofs) (fun i => w (nth i dofs 0%nat) *
      (sumn (length dofs) (fun j => ls_matrix l i j * y (nth j dofs 0%nat)) +
       (if couple then
          sumn (length (interfaces (ls_cell l))) (fun k =>
            let far := nb_dofs (nth k (interfaces (ls_cell l)) (mk_neighbour 0 0 [])) in
            sumn (length far) (fun j => ls_coupling l k i j * y (nth j far 0%nat)))
        else 0))).
Lemma copy_form c couple l ws v x : copy_jacobian c couple l = Ok ws ->
  form ws v x = cell_work couple l (expand c v) (expand c x) + diagonal_form c l v x.
Proof.
  intros H.
  assert (S : form (square_writes c (mc_dofs (ls_cell l)) (ls_matrix l)) v x =
    sumn (length (mc_dofs (ls_cell l))) (fun i => expand c v (nth i (mc_dofs (ls_cell l)) 0%nat) *
      sumn (length (mc_dofs (ls_cell l))) (fun j => ls_matrix l i j * expand c x (nth j (mc_dofs (ls_cell l)) 0%nat)))
    + diagonal_form c l v x).
  { unfold square_writes. rewrite form_app, rectangle_form. f_equal. unfold form.
    rewrite lsum_flat_map, (lsum_enumerate _ _ 0%nat). unfold diagonal_form. apply sumn_ext; intros i _. cbn [fst snd].
    destruct (is_constrained c _); cbn [lsum fst snd]; ring. }
  unfold copy_jacobian in H. cbv zeta in H.
  assert (T : forall X : list (nat * nat * R), (couple = true -> interfaces (ls_cell l) = [] \/
      X = flat_map (fun n => rectangle_writes c (mc_dofs (ls_cell l)) (nb_dofs (snd n)) (ls_coupling l (fst n)))
          (enumerate (interfaces (ls_cell l)))) ->
    (couple = false \/ interfaces (ls_cell l) = [] -> X = []) ->
    form (square_writes c (mc_dofs (ls_cell l)) (ls_matrix l) ++ X) v x =
    cell_work couple l (expand c v) (expand c x) + diagonal_form c l v x).
  { intros X HT HF. rewrite form_app, S. unfold cell_work.
    enough (form X v x = sumn (length (mc_dofs (ls_cell l))) (fun i => expand c v (nth i (mc_dofs (ls_cell l)) 0%nat) *
      (if couple then
          sumn (length (interfaces (ls_cell l))) (fun k =>
            let far := nb_dofs (nth k (interfaces (ls_cell l)) (mk_neighbour 0 0 [])) in
            sumn (length far) (fun j => ls_coupling l k i j * expand c x (nth j far 0%nat)))
        else 0))) as ->.
    { rewrite Rplus_assoc, (Rplus_comm (diagonal_form c l v x)), <- Rplus_assoc. f_equal.
      rewrite <- sumn_plus. apply sumn_ext; intros i _. symmetry. apply Rmult_plus_distr_l. }
    destruct couple.
    - destruct (HT eq_refl) as [E|E].
      + rewrite (HF (or_intror E)), E. unfold form. cbn [lsum length sumn].
        rewrite (sumn_ext _ _ (fun _ => 0)) by (intros; ring). rewrite sumn_0. reflexivity.
      + rewrite E. unfold form. rewrite lsum_flat_map, (lsum_enumerate _ _ (mk_neighbour 0 0 [])).
        rewrite (sumn_ext _ (fun i => expand c v _ * _) _ (fun i _ => eq_sym (sumn_scal _ _ _))).
        rewrite sumn_swap. apply sumn_ext; intros k _. cbn [fst snd].
        fold (form (rectangle_writes c (mc_dofs (ls_cell l)) (nb_dofs (nth k (interfaces (ls_cell l)) (mk_neighbour 0 0 [])))
          (ls_coupling l k)) v x). apply rectangle_form.
    - rewrite (HF (or_introl eq_refl)). unfold form. cbn [lsum].
      rewrite (sumn_ext _ _ (fun _ => 0)) by (intros; ring). rewrite sumn_0. reflexivity. }
  destruct (andb (cell_is_at_grain_boundary (ls_cell l)) couple) eqn:A.
  - apply andb_prop in A. destruct A as [A1 ->]. apply interfaces_flag in A1.
    destruct (interfaces (ls_cell l)) as [|n ns] eqn:EI; [discriminate|]. injection H as <-. apply T; auto.
    intros [X|X]; discriminate.
  - injection H as <-. rewrite <- (app_nil_r (square_writes _ _ _)). apply T; auto.
    intros ->. rewrite Bool.andb_true_r in A. left. destruct (interfaces (ls_cell l)) eqn:E; auto.
    assert (cell_is_at_grain_boundary (ls_cell l) = true) by (apply interfaces_flag; rewrite E; discriminate). congruence.
Qed.
Lemma assemble_form pattern c couple ls ws v x : assemble_jacobian pattern c couple ls = Ok ws ->
  form ws v x = jacobian_work couple ls (expand c v) (expand c x) + lsum (fun l => diagonal_form c l v x) ls.
Proof.
  revert ws. induction ls as [|l ls IH]; intros ws H; cbn [assemble_jacobian] in H.
  - injection H as <-. unfold form, jacobian_work. simpl. ring.
  - destruct (copy_jacobian c couple l) as [w1| |] eqn:E1; cbn [rbind] in H; try discriminate.
    destruct (forallb _ _); [|discriminate].
    destruct (assemble_jacobian pattern c couple ls) as [w2| |] eqn:E2; cbn [rbind] in H; try discriminate.
    injection H as <-. rewrite form_app, (copy_form _ _ _ _ _ _ E1), (IH _ eq_refl).
    unfold jacobian_work. cbn [lsum]. fold (cell_work couple l (expand c v) (expand c x)). ring.
Qed.
Lemma residual_form_c c ls v :
  lsum (fun w => v (fst w) * snd w) (assemble_residual c ls) = residual_work ls (expand c v).
Proof.
  unfold assemble_residual, residual_work. rewrite lsum_flat_map. apply lsum_ext. intros l _.
  unfold vector_writes. rewrite lsum_flat_map, (lsum_enumerate _ _ 0%nat). apply sumn_ext; intros i _.
  rewrite lsum_map. cbn [fst snd]. unfold expand. rewrite <- lsum_scal_r. apply lsum_ext. intros; cbn; ring.
Qed.
(** Positions lie below [n]. *)
Lemma resolve_below n c ls d e w : numbered n c ls -> (d < n)%nat -> In (e, w) (resolve c d) -> (e < n)%nat.
Proof.
  intros (_ & _ & H & _) Hd He. unfold resolve in He. destruct (c d) as [[es b]|] eqn:E.
  - eapply H; eauto.
  - destruct He as [X|[]]. injection X as <- _. exact Hd.
Qed.
Lemma assemble_below n pattern c couple ls0 ls ws : numbered n c ls0 -> incl ls ls0 ->
  assemble_jacobian pattern c couple ls = Ok ws ->
  forall r s u, In (r, s, u) ws -> (r < n)%nat /\ (s < n)%nat.
Proof.
  intros HN. pose proof HN as (H1 & H2 & H3 & _). revert ws. induction ls as [|l ls IH]; intros ws Hi H r s u Hw; cbn [assemble_jacobian] in H.
  - injection H as <-. destruct Hw.
  - destruct (copy_jacobian c couple l) as [w1| |] eqn:E1; cbn [rbind] in H; try discriminate.
    destruct (forallb _ _); [|discriminate].
    destruct (assemble_jacobian pattern c couple ls) as [w2| |] eqn:E2; cbn [rbind] in H; try discriminate.
    injection H as <-. apply in_app_iff in Hw. destruct Hw as [Hw|Hw].
    2:{ eapply (IH w2); eauto. intros y Hy. apply Hi. right; auto. }
    assert (Hl : In l ls0) by (apply Hi; left; auto).
    assert (R : forall cols, (forall e, In e cols -> (e < n)%nat) -> forall M,
      In (r, s, u) (rectangle_writes c (mc_dofs (ls_cell l)) cols M) -> (r < n)%nat /\ (s < n)%nat).
    { intros cols Hc M HI. apply In_rectangle_writes in HI. destruct HI as (d & e & a & b & Hd & He & Hr & Hs).
      split; [eapply (resolve_below n c ls0 d); eauto|eapply (resolve_below n c ls0 e); eauto]. }
    assert (Q : In (r, s, u) (square_writes c (mc_dofs (ls_cell l)) (ls_matrix l)) -> (r < n)%nat /\ (s < n)%nat).
    { intros HI. unfold square_writes in HI. apply in_app_iff in HI. destruct HI as [HI|HI].
      - eapply R; eauto.
      - apply in_flat_map in HI. destruct HI as ([i d] & Hd & HI). cbn [fst snd] in HI.
        apply In_enumerate in Hd. destruct (is_constrained c d); [|destruct HI]. destruct HI as [X|[]].
        injection X as <- <- _. eauto. }
    unfold copy_jacobian in E1. cbv zeta in E1. destruct (andb _ couple).
    + destruct (interfaces (ls_cell l)) as [|m ms] eqn:EI; [discriminate|]. rewrite <- EI in E1. apply (f_equal (fun r => match r with Ok x => x | _ => [] end)) in E1. cbv beta iota in E1. subst w1.
      rewrite in_app_iff in Hw. destruct Hw as [Hw|Hw]; auto. apply in_flat_map in Hw. destruct Hw as ([k m'] & Hm & Hw).
      apply In_enumerate in Hm. cbn [fst snd] in Hw. eapply R; [|exact Hw]. intros e He. eapply H2; eauto.
    + injection E1 as <-. auto.
Qed.
Lemma residual_below n c ls r u : numbered n c ls -> In (r, u) (assemble_residual c ls) -> (r < n)%nat.
Proof.
  intros HN H. pose proof HN as (H1 & _). unfold assemble_residual in H. apply in_flat_map in H. destruct H as (l & Hl & H).
  unfold vector_writes in H. apply in_flat_map in H. destruct H as ([i d] & Hd & H). apply In_enumerate in Hd.
  apply in_map_iff in H. destruct H as ([e w] & X & He). cbn [fst snd] in *. injection X as <- _.
  eapply resolve_below; eauto.
Qed.
Lemma diagonal_positive n M i : 0 < constrained_diagonal n M i.
Proof.
  unfold constrained_diagonal. destruct (Reqb (Rabs (M i i)) 0) eqn:E.
  - unfold average_diagonal. cbv zeta. destruct (Reqb (sumn n (fun i => Rabs (M i i)) / INR n) 0) eqn:A; [lra|].
    apply Reqb_false in A. enough (0 <= sumn n (fun i => Rabs (M i i)) / INR n) by lra.
    destruct n as [|n]; [simpl; unfold Rdiv; rewrite Rmult_0_l; lra|].
    apply Rmult_le_pos; [apply sumn_nonneg; intros; apply Rabs_pos|]. left. apply Rinv_0_lt_compat. apply lt_0_INR. lia.
  - apply Reqb_false in E. pose proof (Rabs_pos (M i i)). lra.
Qed.
Lemma expand_distribute c v d : homogeneous c -> distribute c v d = expand c v d.
Proof.
  intros H. unfold distribute, expand, resolve. destruct (c d) as [[es b]|] eqn:E.
  - rewrite (H d es b E). clear E.
    cut (forall a, fold_left (fun acc e => acc + snd e * v (fst e)) es a = a + lsum (fun e => snd e * v (fst e)) es).
    { intros G. rewrite G. ring. }
    induction es as [|e es IH]; intros a; simpl; [ring|]. rewrite IH. ring.
  - simpl. ring.
Qed.
Lemma expand_unit c d k : lines_are_closed c -> c k <> None -> expand c (fun r => kron r k) d = 0.
Proof.
  intros HC Hk. unfold expand, resolve. destruct (c d) as [[es b]|] eqn:E.
  - apply lsum_zero. intros [e w] He. cbn [fst snd]. unfold kron. destruct (Nat.eqb_spec e k) as [->|]; [|ring].
    exfalso. apply Hk. eapply HC; eauto.
  - simpl. unfold kron. destruct (Nat.eqb_spec d k) as [->|]; [contradiction|ring].
Qed.
Lemma expand_admissible n c v : lines_are_closed c -> admissible n c (expand c v).
Proof.
  intros HC d es b Hd E. unfold expand at 1, resolve. rewrite E. apply lsum_ext. intros [e w] He. cbn [fst snd].
  f_equal. unfold expand, resolve. rewrite (HC d es b e w E He). simpl. ring.
Qed.
Definition free_part (c : constraints) (v : vec) : vec := fun d => if is_constrained c d then 0 else v d.
Lemma expand_free_part n c v d : lines_are_closed c -> admissible n c v -> (d < n)%nat -> expand c (free_part c v) d = v d.
Proof.
  intros HC HA Hd. unfold expand, resolve, free_part, is_constrained. destruct (c d) as [[es b]|] eqn:E.
  - rewrite (HA d es b Hd E). apply lsum_ext. intros [e w] He. cbn [fst snd]. rewrite (HC d es b e w E He). reflexivity.
  - simpl. rewrite E. ring.
Qed.
Lemma works_ext n c couple ls w w' y y' : numbered n c ls ->
  (forall d, (d < n)%nat -> w d = w' d) -> (forall d, (d < n)%nat -> y d = y' d) ->
  jacobian_work couple ls w y = jacobian_work couple ls w' y' /\ residual_work ls w = residual_work ls w'.
Proof.
  intros (H1 & H2 & _ & _) Hw Hy. split; apply lsum_ext; intros l Hl.
  - cbv zeta. apply sumn_ext; intros i Hi. f_equal; [apply Hw, (H1 l); auto; apply nth_In; auto|].
    f_equal; [apply sumn_ext; intros j Hj; f_equal; apply Hy, (H1 l); auto; apply nth_In; auto|].
    destruct couple; [|reflexivity]. apply sumn_ext; intros k Hk. apply sumn_ext; intros j Hj. f_equal.
    apply Hy. eapply (H2 l); eauto; [|apply nth_In; exact Hj]. apply nth_In; exact Hk.
  - apply sumn_ext; intros i Hi. f_equal. apply Hw, (H1 l); auto. apply nth_In; auto.
Qed.
Lemma diagonal_zero c l v x : (forall d, In d (mc_dofs (ls_cell l)) -> is_constrained c d = true -> v d * x d = 0) -> diagonal_form c l v x = 0.
Proof.
  intros H. unfold diagonal_form. apply sumn_zero. intros i Hi. destruct (is_constrained c _) eqn:E; [|reflexivity].
  rewrite H; auto; [ring|apply nth_In; auto].
Qed.

(** The linear system solved for the Newton update is the Newton system restricted to updates
    and tests obeying the constraints: a vector solves the assembled system if and only if it
    vanishes at the constrained dofs and the update distributed from it balances the residual
    against every admissible test. *)
Theorem C77_linear_system_is_the_constrained_newton_system : forall pattern c couple n ls ws x,
  lines_are_closed c -> homogeneous c -> numbered n c ls ->
  assemble_jacobian pattern c couple ls = Ok ws ->
  (solves n (matrix_of ws) (vector_of (assemble_residual c ls)) x <->
   (forall d, (d < n)%nat -> c d <> None -> x d = 0) /\
   (forall w, admissible n c w -> jacobian_work couple ls w (newton_update c x) = residual_work ls w)).
Proof.
  intros pattern c couple n ls ws x HC HO HN HA.
  assert (EN : forall d, newton_update c x d = expand c x d) by (intros; apply expand_distribute; auto).
  assert (BF : forall v, sumn n (fun r => v r * sumn n (fun s => matrix_of ws r s * x s)) =
    jacobian_work couple ls (expand c v) (expand c x) + lsum (fun l => diagonal_form c l v x) ls).
  { intros v. rewrite matrix_form by (eapply assemble_below; eauto; intros y Hy; exact Hy). eapply assemble_form; eauto. }
  assert (VF : forall v, sumn n (fun r => v r * vector_of (assemble_residual c ls) r) = residual_work ls (expand c v)).
  { intros v. rewrite vector_form by (intros; eapply residual_below; eauto). apply residual_form_c. }
  split.
  - intros HS.
    assert (HT : forall v, jacobian_work couple ls (expand c v) (expand c x) + lsum (fun l => diagonal_form c l v x) ls
                           = residual_work ls (expand c v)).
    { intros v. rewrite <- BF, <- VF. apply sumn_ext; intros r Hr. f_equal. apply HS, Hr. }
    assert (Z : forall d, (d < n)%nat -> c d <> None -> x d = 0).
    { intros d Hd Hc. specialize (HT (fun r => kron r d)).
      destruct (works_ext n c couple ls (expand c (fun r => kron r d)) (fun _ => 0) (expand c x) (expand c x) HN) as [Ej Er];
        [intros; apply expand_unit; auto|auto|]. rewrite Ej, Er in HT.
      assert (J0 : jacobian_work couple ls (fun _ => 0) (expand c x) = 0).
      { unfold jacobian_work. apply lsum_zero. intros l _. cbv zeta. apply sumn_zero. intros; ring. }
      assert (R0 : residual_work ls (fun _ => 0) = 0).
      { unfold residual_work. apply lsum_zero. intros l _. apply sumn_zero. intros; ring. }
      rewrite J0, R0 in HT.
      assert (D : forall l, diagonal_form c l (fun r => kron r d) x =
        x d * sumn (length (mc_dofs (ls_cell l))) (fun i => if Nat.eqb (nth i (mc_dofs (ls_cell l)) 0%nat) d
           then constrained_diagonal (length (mc_dofs (ls_cell l))) (ls_matrix l) i else 0)).
      { intros l. unfold diagonal_form. rewrite <- sumn_scal. apply sumn_ext; intros i _. unfold kron.
        destruct (Nat.eqb_spec (nth i (mc_dofs (ls_cell l)) 0%nat) d) as [->|].
        - replace (is_constrained c d) with true; [ring|]. unfold is_constrained. destruct (c d); [reflexivity|contradiction].
        - destruct (is_constrained c _); ring. }
      rewrite (lsum_ext _ _ ls (fun l _ => D l)), lsum_scal in HT.
      match type of HT with 0 + x d * ?S = 0 => assert (P : 0 < S) end.
      { destruct HN as (_ & _ & _ & HX). destruct (HX d Hd Hc) as (l & Hl & Hdl). clear -Hl Hdl.
        assert (NN : forall l, 0 <= sumn (length (mc_dofs (ls_cell l))) (fun i => if Nat.eqb (nth i (mc_dofs (ls_cell l)) 0%nat) d
           then constrained_diagonal (length (mc_dofs (ls_cell l))) (ls_matrix l) i else 0)).
        { intros l'. apply sumn_nonneg. intros i _. destruct (Nat.eqb _ _); [left; apply diagonal_positive|lra]. }
        induction ls as [|l0 ls IH]; [destruct Hl|]. cbn [lsum]. 
        assert (N2 : 0 <= lsum (fun l => sumn (length (mc_dofs (ls_cell l))) (fun i => if Nat.eqb (nth i (mc_dofs (ls_cell l)) 0%nat) d
           then constrained_diagonal (length (mc_dofs (ls_cell l))) (ls_matrix l) i else 0)) ls).
        { clear -NN. induction ls as [|l ls IH]; cbn [lsum]; [lra|]. specialize (NN l). lra. }
        destruct Hl as [->|Hl].
        - destruct (In_nth _ _ 0%nat Hdl) as (i & Hi & Ei).
          pose proof (sumn_term_le (length (mc_dofs (ls_cell l))) (fun i => if Nat.eqb (nth i (mc_dofs (ls_cell l)) 0%nat) d
            then constrained_diagonal (length (mc_dofs (ls_cell l))) (ls_matrix l) i else 0) i) as T.
          cbv beta in T. rewrite Ei, Nat.eqb_refl in T.
          pose proof (diagonal_positive (length (mc_dofs (ls_cell l))) (ls_matrix l) i).
          enough (constrained_diagonal (length (mc_dofs (ls_cell l))) (ls_matrix l) i <=
             sumn (length (mc_dofs (ls_cell l))) (fun i => if Nat.eqb (nth i (mc_dofs (ls_cell l)) 0%nat) d
            then constrained_diagonal (length (mc_dofs (ls_cell l))) (ls_matrix l) i else 0)) by lra.
          apply T; auto. intros k Hk. destruct (Nat.eqb _ _); [left; apply diagonal_positive|lra].
        - specialize (IH Hl). specialize (NN l0). lra. }
      rewrite Rplus_0_l in HT. apply Rmult_integral in HT. destruct HT as [->|HT]; [reflexivity|lra]. }
    split; [exact Z|]. intros w Hw. specialize (HT (free_part c w)).
    assert (D0 : lsum (fun l => diagonal_form c l (free_part c w) x) ls = 0).
    { apply lsum_zero. intros l Hl. apply diagonal_zero. intros d _ Hd. unfold free_part. rewrite Hd. ring. }
    rewrite D0, Rplus_0_r in HT.
    destruct (works_ext n c couple ls (expand c (free_part c w)) w (expand c x) (newton_update c x) HN) as [Ej Er];
      [intros; eapply expand_free_part; eauto|intros; symmetry; auto|]. rewrite <- Ej, <- Er. exact HT.
  - intros [Z HT] r Hr.
    transitivity (sumn n (fun k => kron k r * sumn n (fun s => matrix_of ws k s * x s))); [symmetry; apply (sumn_kron n r (fun k => sumn n (fun s => matrix_of ws k s * x s))); exact Hr|].
    rewrite (BF (fun k => kron k r)).
    rewrite <- (sumn_kron n r (vector_of (assemble_residual c ls)) Hr), (VF (fun k => kron k r)).
    rewrite (lsum_zero (fun l => diagonal_form c l (fun k => kron k r) x) ls), Rplus_0_r.
    + rewrite <- HT by (apply expand_admissible; auto).
      destruct (works_ext n c couple ls (expand c (fun k => kron k r)) (expand c (fun k => kron k r)) (expand c x) (newton_update c x) HN) as [Ej _]; auto.
    + intros l Hl. apply diagonal_zero. intros d Hd Hc. destruct HN as (H1 & _). rewrite Z; [ring|eapply H1; eauto|].
      unfold is_constrained in Hc. destruct (c d); [discriminate|discriminate].
Qed.

(** The update obeys the constraints; conversely every admissible solution of the restricted
    Newton system is the update belonging to a solution of the assembled system. *)
Theorem C77_update_is_admissible_and_complete : forall pattern c couple n ls ws,
  lines_are_closed c -> homogeneous c -> numbered n c ls ->
  assemble_jacobian pattern c couple ls = Ok ws ->
  (forall x, admissible n c (newton_update c x)) /\
  (forall y, admissible n c y ->
     (forall w, admissible n c w -> jacobian_work couple ls w y = residual_work ls w) ->
     exists x, solves n (matrix_of ws) (vector_of (assemble_residual c ls)) x /\
       forall d, (d < n)%nat -> newton_update c x d = y d).
Proof.
  intros pattern c couple n ls ws HC HO HN HA.
  split.
  - intros x d es b Hd E. unfold newton_update. rewrite expand_distribute by auto.
    rewrite (expand_admissible n c x HC d es b Hd E). apply lsum_ext. intros [e w] He. cbn [fst snd].
    rewrite expand_distribute by auto. reflexivity.
  - intros y Hy HT. exists (free_part c y).
    assert (E : forall d, (d < n)%nat -> newton_update c (free_part c y) d = y d).
    { intros d Hd. unfold newton_update. rewrite expand_distribute by auto. eapply expand_free_part; eauto. }
    split; [|exact E]. apply (C77_linear_system_is_the_constrained_newton_system pattern c couple n ls ws); auto. split.
    + intros d Hd Hc. unfold free_part, is_constrained. destruct (c d); [reflexivity|contradiction].
    + intros w Hw. rewrite <- (HT w Hw). destruct (works_ext n c couple ls w w (newton_update c (free_part c y)) y HN); auto.
Qed.

(** Closing does not change what the constraints say: the same dofs are constrained, the same
    vectors obey them, and afterwards every line refers to unconstrained dofs. *)
Theorem C76_closing_keeps_the_solutions : forall n c, at_most_two_steps n c ->
  (forall v, admissible n (close_constraints c) v <-> admissible n c v) /\
  (forall d, close_constraints c d = None <-> c d = None) /\
  (forall d es b e w, (d < n)%nat -> close_constraints c d = Some (es, b) -> In (e, w) es -> close_constraints c e = None) /\
  (homogeneous c -> homogeneous (close_constraints c)).
Proof.
  intros n c H.
  assert (N : forall d, close_constraints c d = None <-> c d = None).
  { intros d. unfold close_constraints. destruct (c d) as [[es b]|]; split; congruence. }
  assert (LINE : forall v es, (forall e w es' b', In (e, w) es -> c e = Some (es', b') -> v e = lsum (fun x => snd x * v (fst x)) es') ->
    lsum (fun e => snd e * v (fst e)) (flat_map (fun e => match c (fst e) with
      | None => [e] | Some (es', _) => map (fun e' => (fst e', snd e * snd e')) es' end) es)
    = lsum (fun e => snd e * v (fst e)) es).
  { intros v es L. rewrite lsum_flat_map. apply lsum_ext. intros [e w] He. cbn [fst snd].
    destruct (c e) as [[es' b']|] eqn:E; [|cbn; ring].
    rewrite lsum_map, (L e w es' b' He E), <- lsum_scal. apply lsum_ext. intros; cbn; ring. }
  split; [|split; [exact N|split]].
  - intros v. split; intros A d es b Hd E.
    + assert (A0 := A). specialize (A d). unfold close_constraints in A at 1. rewrite E in A.
      rewrite (A _ b Hd eq_refl). apply LINE. intros e w es' b' He E'.
      destruct (H d es b e w Hd E He) as [Le C].
      rewrite (A0 e (flat_map (fun x => match c (fst x) with
        | None => [x] | Some (es', _) => map (fun e' => (fst e', snd x * snd e')) es' end) es') b' Le);
        [|unfold close_constraints; rewrite E'; reflexivity].
      rewrite LINE; [reflexivity|]. intros e2 w2 es2 b2 H2 E2. rewrite (C es' b' e2 w2 E' H2) in E2. discriminate.
    + unfold close_constraints in E. destruct (c d) as [[es0 b0]|] eqn:E0; [|discriminate]. injection E as <- <-.
      rewrite LINE; [exact (A d es0 b0 Hd E0)|]. intros e w es' b' He E'. apply (A e es' b'); auto.
      apply (H d es0 b0 e w Hd E0 He).
  - intros d es b e w Hd E He. apply N. unfold close_constraints in E.
    destruct (c d) as [[es0 b0]|] eqn:E0; [|discriminate]. injection E as <- <-.
    apply in_flat_map in He. destruct He as ([e1 w1] & H1 & H2). cbn [fst snd] in H2.
    destruct (c e1) as [[es' b']|] eqn:E1.
    + apply in_map_iff in H2. destruct H2 as ([e2 w2] & X & H2). cbn [fst snd] in X. injection X as -> _.
      destruct (H d es0 b0 e1 w1 Hd E0 H1) as [_ C]. eapply C; eauto.
    + destruct H2 as [X|[]]. injection X as -> ->. exact E1.
  - intros O d es b E. unfold close_constraints in E. destruct (c d) as [[es0 b0]|] eqn:E0; [|discriminate].
    injection E as _ <-. eapply O; eauto.
Qed.
(** Dof 2 follows half of dof 1, which follows dof 0. *)
Example C76_closing_example :
  let c : constraints := fun d => if Nat.eqb d 2 then Some ([(1%nat, 1/2)], 0) else if Nat.eqb d 1 then Some ([(0%nat, 1)], 0) else None in
  at_most_two_steps 3 c /\ close_constraints c 2%nat = Some ([(0%nat, 1/2 * 1)], 0).
Proof.
  split; [|reflexivity]. intros d es b e w Hd E He.
  destruct (Nat.eqb_spec d 2) as [->|N2].
  - injection E as <- <-. destruct He as [X|[]]. injection X as <- <-. split; [lia|]. intros es' b' e' w' E He.
    cbn in E. injection E as <- <-. destruct He as [X|[]]. injection X as <- <-. reflexivity.
  - destruct (Nat.eqb_spec d 1) as [->|N1]; [|discriminate]. injection E as <- <-. destruct He as [X|[]]. injection X as <- <-.
    split; [lia|]. intros es' b' e' w' E. discriminate.
Qed.

(** Two grains with two dofs each: dof 0 is held, dof 3 follows dof 1. *)
Definition two_grains : list local_system :=
  [mk_local_system (mk_mesh_cell 0 0 [0; 1]%nat [None; Some (mk_neighbour 1 1 [2; 3]%nat)])
     (fun i j => 2 * kron i j) (fun _ _ _ => -1) (fun _ => 1);
   mk_local_system (mk_mesh_cell 1 1 [2; 3]%nat [Some (mk_neighbour 0 0 [0; 1]%nat); None])
     (fun i j => 2 * kron i j) (fun _ _ _ => -1) (fun _ => 0)].
Definition held : constraints := fun d =>
  if Nat.eqb d 0 then Some ([], 0) else if Nat.eqb d 3 then Some ([(1%nat, 1)], 0) else None.
Example C76_example : exists pattern ws,
  make_sparsity_pattern held true (map ls_cell two_grains) = Ok pattern /\
  In (0, 0)%nat pattern /\ ~ In (0, 1)%nat pattern /\ In (1, 2)%nat pattern /\ stays_within held held /\
  assemble_jacobian pattern held true two_grains = Ok ws.
Proof.
  destruct (C76_assembly_stays_in_the_pattern held held true two_grains
    (match make_sparsity_pattern held true (map ls_cell two_grains) with Ok p => p | _ => [] end)) as (ws & E).
  - reflexivity.
  - intros d e w H. eauto.
  - eexists _, ws. split; [reflexivity|]. split; [vm_compute; tauto|]. split; [vm_compute; intuition discriminate|].
    split; [vm_compute; tauto|]. split; [intros d e w H; eauto|exact E].
Qed.
Example C77_example : lines_are_closed held /\ homogeneous held /\ numbered 4 held two_grains.
Proof.
  assert (H : forall d es b, held d = Some (es, b) -> b = 0 /\ (es = [] \/ es = [(1%nat, 1)])).
  { intros d es b E. unfold held in E. destruct (Nat.eqb d 0); [injection E as <- <-; auto|].
    destruct (Nat.eqb d 3); [injection E as <- <-; auto|discriminate]. }
  split; [|split; [|split; [|split; [|split]]]].
  - intros d es b e w E He. destruct (H _ _ _ E) as (_ & [->| ->]); [destruct He|]. destruct He as [X|[]]. injection X as <- _. reflexivity.
  - intros d es b E. apply (H _ _ _ E).
  - intros l d [<-|[<-|[]]]; simpl; intuition lia.
  - intros l m d [<-|[<-|[]]]; simpl; intros [<-|[]]; simpl; intuition lia.
  - intros d es b e w _ E He. destruct (H _ _ _ E) as (_ & [->| ->]); [destruct He|]. destruct He as [X|[]]. injection X as <- _. lia.
  - intros d Hd _. destruct (le_lt_dec d 1).
    + exists (nth 0 two_grains (hd (nth 1 two_grains (nth 0 two_grains (mk_local_system (mk_mesh_cell 0 0 [] []) (fun _ _ => 0) (fun _ _ _ => 0) (fun _ => 0)))) [])).
      split; [left; reflexivity|]. simpl. lia.
    + exists (nth 1 two_grains (mk_local_system (mk_mesh_cell 0 0 [] []) (fun _ _ => 0) (fun _ _ _ => 0) (fun _ => 0))).
      split; [right; left; reflexivity|]. simpl. lia.
Qed.

(** The pattern does not survive the relaxation of a constraint: with the support removed after
    the pattern was made, assembling the Jacobian throws. *)
Theorem C76_relaxed_constraints_refuted : exists made used ls pattern,
  make_sparsity_pattern made true (map ls_cell ls) = Ok pattern /\
  (forall d l, used d = Some l -> made d = Some l) /\
  assemble_jacobian pattern used true ls = Throw.
Proof.
  exists held, no_constraints, two_grains. eexists. split; [reflexivity|]. split; [discriminate|]. reflexivity.
Qed.
