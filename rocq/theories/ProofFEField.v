From Verif Require Import Num SumLemmas ModelFEField SpecFEField.
Open Scope nat_scope.

(** ** Layout *)
Lemma seq_map_add a n : map (fun k => a + k) (seq 0 n) = seq a n.
Proof.
  revert a; induction n as [|n IH]; intros a; simpl; auto.
  f_equal; [lia|]. rewrite <- seq_shift, map_map. rewrite <- (IH (S a)).
  apply map_ext; intros; lia.
Qed.

Lemma blocks_seq a m n :
  flat_map (fun i => map (fun j => a + i * m + j) (seq 0 m)) (seq 0 n) = seq a (n * m).
Proof.
  assert (E : forall b, flat_map (fun i => map (fun j => a + i * m + j) (seq 0 m)) (seq b n)
                        = seq (a + b * m) (n * m)).
  { induction n as [|n IH]; intros b; simpl; auto.
    rewrite IH, seq_app, seq_map_add. f_equal. f_equal; lia. }
  rewrite E. f_equal. lia.
Qed.

Lemma nth_error_seq a n i : i < n -> nth_error (seq a n) i = Some (a + i).
Proof.
  revert a i; induction n as [|n IH]; intros a i H; [lia|].
  destruct i; simpl; [f_equal; lia|]. rewrite IH by lia. f_equal; lia.
Qed.

Lemma nth_error_map_seq {A} (f : nat -> A) n i :
  i < n -> nth_error (map f (seq 0 n)) i = Some (f i).
Proof. intros H. rewrite nth_error_map, nth_error_seq by lia. reflexivity. Qed.

Lemma flat_map_ext_in {A B} (f g : A -> list B) l :
  (forall a, In a l -> f a = g a) -> flat_map f l = flat_map g l.
Proof. induction l; simpl; intros H; auto. rewrite H, IHl; auto. Qed.

Lemma repeat_blocks_length {A} (x y : A) i m n :
  length (flat_map (fun j => map (fun _ => if Nat.eqb i j then x else y) (seq 0 m)) (seq 0 n))
  = n * m.
Proof.
  generalize 0 at 2. induction n as [|n IH]; intros b; simpl; auto.
  rewrite app_length, map_length, seq_length, IH. reflexivity.
Qed.

(** Value at position [c] of a sequence of blocks of length [m]. *)
Lemma repeat_blocks_nth {A} (x y : A) i m n k j :
  k < n -> j < m ->
  nth_error (flat_map (fun j => map (fun _ => if Nat.eqb i j then x else y) (seq 0 m)) (seq 0 n))
            (k * m + j) = Some (if Nat.eqb i k then x else y).
Proof.
  intros Hk Hj.
  assert (E : forall n b k, k < n ->
    nth_error (flat_map (fun j => map (fun _ => if Nat.eqb i j then x else y) (seq 0 m)) (seq b n))
      (k * m + j) = Some (if Nat.eqb i (b + k) then x else y)).
  { clear n k Hk. induction n as [|n IH]; intros b k Hk; [lia|].
    simpl. destruct k.
    - simpl. rewrite nth_error_app1 by (rewrite map_length, seq_length; lia).
      rewrite nth_error_map_seq by lia. rewrite Nat.add_0_r. reflexivity.
    - rewrite nth_error_app2 by (rewrite map_length, seq_length; simpl; lia).
      rewrite map_length, seq_length.
      replace (S k * m + j - m) with (k * m + j) by (simpl; lia).
      rewrite IH by lia. replace (S b + k) with (b + S k) by lia. reflexivity. }
  rewrite E by lia. reflexivity.
Qed.

Lemma set_nth_length l i x : length (set_nth l i x) = length l.
Proof. revert i; induction l; destruct i; simpl; auto. Qed.

Lemma set_nth_same l i x : i < length l -> nth_error (set_nth l i x) i = Some x.
Proof.
  revert i; induction l; intros i H; simpl in *; [lia|].
  destruct i; simpl; auto. apply IHl; lia.
Qed.

Lemma set_nth_other l i j x : i <> j -> nth_error (set_nth l i x) j = nth_error l j.
Proof.
  revert i j; induction l; intros i j H; simpl; auto.
  destruct i, j; simpl; auto; try lia.
Qed.

Lemma writes_length l ps : length (writes l ps) = length l.
Proof.
  revert l; induction ps; intros l; simpl; auto.
  unfold writes in *; simpl. rewrite IHps, set_nth_length. reflexivity.
Qed.

Lemma writes_nth ps : forall l c w,
  c < length l -> (forall v, In (c, v) ps -> v = w) ->
  (In (c, w) ps \/ nth_error l c = Some w) ->
  nth_error (writes l ps) c = Some w.
Proof.
  induction ps as [|[i x] ps IH]; intros l c w Hc Hv Hin; simpl in *.
  - destruct Hin as [[]|E]; exact E.
  - unfold writes; simpl. apply IH.
    + rewrite set_nth_length; exact Hc.
    + intros v H; apply Hv; right; exact H.
    + destruct (Nat.eq_dec i c) as [->|Hne].
      * right. rewrite set_nth_same by exact Hc.
        f_equal. apply Hv. left; reflexivity.
      * destruct Hin as [[E|E]|E]; [inversion E; congruence|left; exact E|].
        right. rewrite set_nth_other by exact Hne. exact E.
Qed.

Lemma in_mapping dim dec nc ns c v :
  In (c, v) (mapping_writes dim dec nc ns) <->
  exists i, i < nc /\
    ((exists j, j < dim /\ c = (if dec then i * dim else 0) + j /\ v = j) \/
     (exists j, j < ns /\ c = (if dec then nc * dim else dim) + i * ns + j /\ v = dim + j)).
Proof.
  unfold mapping_writes. rewrite in_flat_map. split.
  - intros (i & Hi & H). apply in_seq in Hi. exists i; split; [lia|].
    apply in_app_or in H. destruct H as [H|H]; apply in_map_iff in H;
      destruct H as (j & E & Hj); apply in_seq in Hj; injection E as <- <-;
      [left|right]; exists j; repeat split; lia.
  - intros (i & Hi & H). exists i; split; [apply in_seq; lia|].
    apply in_or_app. destruct H as [(j & Hj & -> & ->)|(j & Hj & -> & ->)]; [left|right];
      apply in_map_iff; exists j; split; auto; apply in_seq; lia.
Qed.

Lemma block_index i m j k l : j < m -> l < m -> i * m + j = k * m + l -> i = k /\ j = l.
Proof.
  intros Hj Hl E.
  assert (i = k).
  { destruct (Nat.lt_trichotomy i k) as [H|[H|H]]; auto; exfalso.
    - assert (S i * m <= k * m) by (apply Nat.mul_le_mono_r; lia). simpl in *; lia.
    - assert (S k * m <= i * m) by (apply Nat.mul_le_mono_r; lia). simpl in *; lia. }
  subst; lia.
Qed.

Lemma block_bound i m j n : i < n -> j < m -> i * m + j < n * m.
Proof.
  intros Hi Hj. assert (S i * m <= n * m) by (apply Nat.mul_le_mono_r; lia). simpl in *; lia.
Qed.

Lemma mapping_displacement dim dec nc ns i j :
  i < nc -> j < dim ->
  nth_error (component_mapping dim dec nc ns) ((if dec then i * dim else 0) + j) = Some j.
Proof.
  intros Hi Hj. unfold component_mapping. apply writes_nth.
  - rewrite repeat_length. destruct dec; [|lia].
    pose proof (block_bound i dim j nc Hi Hj). nia.
  - intros v H. apply in_mapping in H. destruct H as (k & Hk & [(l & Hl & E & ->)|(l & Hl & E & ->)]).
    + destruct dec; [|simpl in E; lia]. apply block_index in E; lia.
    + exfalso. destruct dec; [|simpl in E; lia].
      pose proof (block_bound i dim j nc Hi Hj). lia.
  - left. apply in_mapping. exists i; split; auto. left; exists j; auto.
Qed.

Lemma mapping_slip dim dec nc ns i j :
  i < nc -> j < ns ->
  nth_error (component_mapping dim dec nc ns)
    ((if dec then nc * dim else dim) + i * ns + j) = Some (dim + j).
Proof.
  intros Hi Hj. unfold component_mapping. apply writes_nth.
  - rewrite repeat_length. pose proof (block_bound i ns j nc Hi Hj). destruct dec; nia.
  - intros v H. apply in_mapping in H. destruct H as (k & Hk & [(l & Hl & E & ->)|(l & Hl & E & ->)]).
    + exfalso. destruct dec; [|simpl in E; lia].
      pose proof (block_bound k dim l nc Hk Hl). lia.
    + assert (E' : i * ns + j = k * ns + l) by (destruct dec; lia).
      apply block_index in E'; lia.
  - left. apply in_mapping. exists i; split; auto. right; exists j; auto.
Qed.

Lemma elements_length dim du ds dec nc ns i :
  length (crystal_elements dim du ds dec nc ns i)
  = n_displacement_components dim dec nc + nc * ns.
Proof.
  unfold crystal_elements, n_displacement_components.
  rewrite app_length, repeat_blocks_length. f_equal.
  destruct dec; [rewrite repeat_blocks_length; lia|]. rewrite map_length, seq_length; lia.
Qed.

Lemma elements_displacement dim du ds dec nc ns i k j :
  i < nc -> k < nc -> j < dim ->
  nth_error (crystal_elements dim du ds dec nc ns i) ((if dec then k * dim else 0) + j)
  = Some (if orb (negb dec) (Nat.eqb i k) then FE_Q du else FE_Nothing).
Proof.
  intros Hi Hk Hj. unfold crystal_elements.
  destruct dec; simpl.
  - rewrite nth_error_app1
      by (rewrite repeat_blocks_length; apply block_bound; auto).
    apply repeat_blocks_nth; auto.
  - rewrite nth_error_app1 by (rewrite map_length, seq_length; lia).
    apply (nth_error_map_seq (fun _ => FE_Q du)); auto.
Qed.

Lemma elements_slip dim du ds dec nc ns i k j :
  i < nc -> k < nc -> j < ns ->
  nth_error (crystal_elements dim du ds dec nc ns i)
    ((if dec then nc * dim else dim) + k * ns + j)
  = Some (if Nat.eqb i k then FE_Q ds else FE_Nothing).
Proof.
  intros Hi Hk Hj. unfold crystal_elements.
  rewrite nth_error_app2
    by (destruct dec; [rewrite repeat_blocks_length|rewrite map_length, seq_length]; lia).
  replace (_ - _) with (k * ns + j)
    by (destruct dec; [rewrite repeat_blocks_length|rewrite map_length, seq_length]; lia).
  apply repeat_blocks_nth; auto.
Qed.

(** ** Dof sets *)
Lemma fold_filter {A} (f : nat -> A -> bool) (l : list nat) : forall (x : list A) d,
  In d (fold_left (fun l i => filter (f i) l) l x) <->
  In d x /\ forall i, In i l -> f i d = true.
Proof.
  induction l as [|i l IH]; intros x d; simpl.
  - intuition.
  - rewrite IH, filter_In. split.
    + intros [[H1 H2] H3]; split; auto. intros k [->|Hk]; auto.
    + intros [H1 H2]; split; auto.
Qed.

Lemma filter_false {A} (l : list A) : filter (fun _ => false) l = [].
Proof. induction l; auto. Qed.

Lemma fold_filter_eq {A} (f : nat -> A -> bool) (l : list nat) : forall (x : list A),
  fold_left (fun l i => filter (f i) l) l x = filter (fun d => forallb (fun i => f i d) l) x.
Proof.
  induction l as [|i l IH]; intros x; simpl.
  - symmetry. induction x; simpl; auto. f_equal; auto.
  - rewrite IH. clear IH. induction x as [|a x IHx]; simpl; auto.
    destruct (f i a) eqn:E; simpl.
    + destruct (forallb (fun i => f i a) l); simpl; rewrite IHx; reflexivity.
    + exact IHx.
Qed.

Lemma filter_ext_in' {A} (f g : A -> bool) l :
  (forall a, In a l -> f a = g a) -> filter f l = filter g l.
Proof. induction l; simpl; intros H; auto. rewrite H, IHl; auto. Qed.

(** The displacement components, as a bound. *)
Lemma slip_dofs_are_slip dim du ds dec single n0 m0 nc ns nm :
  0 < nc ->
  slip_dofs (setup_extractors (construct dim du ds dec single n0 m0) nc ns) nm =
  filter (fun d => Nat.leb (n_displacement_components dim dec nc) (component_of nm d)) (owned nm).
Proof.
  intros Hnc. unfold slip_dofs.
  rewrite (fold_filter_eq (fun i d => negb (in_vector _ _ _))).
  apply filter_ext_in'. intros d _. simpl.
  set (c := component_of nm d). unfold n_displacement_components.
  assert (Hex : forall i, i < nc -> nth i (new_displacement_extractors dim dec nc) 0 =
                          if dec then i * dim else 0).
  { intros i Hi. apply nth_error_nth. unfold new_displacement_extractors.
    apply nth_error_map_seq; auto. }
  destruct (Nat.leb_spec (dim * (if dec then nc else 1)) c) as [H|H].
  - apply forallb_forall. intros i Hi. apply in_seq in Hi. rewrite Hex by lia.
    unfold in_vector. apply Bool.negb_true_iff.
    apply Bool.andb_false_iff. right. apply Nat.ltb_ge. destruct dec; [|lia].
    assert (S i * dim <= nc * dim) by (apply Nat.mul_le_mono_r; lia). simpl in *; lia.
  - apply Bool.not_true_is_false. intros HF. rewrite forallb_forall in HF.
    destruct dec.
    + assert (Hd : dim <> 0) by (intros ->; simpl in H; lia).
      set (i := c / dim).
      assert (Hi : i < nc) by (apply Nat.div_lt_upper_bound; lia).
      specialize (HF i ltac:(apply in_seq; lia)). rewrite Hex in HF by exact Hi.
      apply Bool.negb_true_iff in HF. unfold in_vector in HF.
      pose proof (Nat.div_mod c dim Hd). pose proof (Nat.mod_upper_bound c dim Hd).
      fold i in H0. apply Bool.andb_false_iff in HF.
      destruct HF as [HF|HF]; [apply Nat.leb_gt in HF|apply Nat.ltb_ge in HF]; nia.
    + specialize (HF 0 ltac:(apply in_seq; lia)). rewrite Hex in HF by exact Hnc.
      apply Bool.negb_true_iff in HF. unfold in_vector in HF. simpl in HF.
      apply Nat.ltb_ge in HF. lia.
Qed.

Lemma displacement_dofs_are_displacement dim du ds dec single n0 m0 nc ns nm :
  0 < nc ->
  displacement_dofs (setup_extractors (construct dim du ds dec single n0 m0) nc ns) nm =
  filter (fun d => Nat.ltb (component_of nm d) (n_displacement_components dim dec nc)) (owned nm).
Proof.
  intros Hnc. unfold displacement_dofs. rewrite slip_dofs_are_slip by exact Hnc.
  apply filter_ext_in'. intros d Hd.
  destruct (Nat.ltb_spec (component_of nm d) (n_displacement_components dim dec nc)) as [H|H].
  - apply Bool.negb_true_iff. apply Bool.not_true_is_false. intros E.
    apply existsb_exists in E. destruct E as (x & Hx & E). apply Nat.eqb_eq in E; subst x.
    apply filter_In in Hx. destruct Hx as [_ Hx]. apply Nat.leb_le in Hx. lia.
  - apply Bool.negb_false_iff. apply existsb_exists. exists d; split; [|apply Nat.eqb_refl].
    apply filter_In; split; auto. apply Nat.leb_le; exact H.
Qed.

(** ** Sums of squares *)
Open Scope R_scope.
Lemma rank_squares_acc v ds : forall a,
  fold_left (fun acc d => acc + v d * v d) ds a = a + rank_squares v ds.
Proof.
  unfold rank_squares. induction ds as [|d ds IH]; intros a; simpl; [ring|].
  rewrite IH. rewrite (IH (0 + v d * v d)). ring.
Qed.

Lemma rank_squares_cons v d ds : rank_squares v (d :: ds) = v d * v d + rank_squares v ds.
Proof. unfold rank_squares at 1. simpl. rewrite rank_squares_acc. ring. Qed.

Lemma rank_squares_app v a b : rank_squares v (a ++ b) = rank_squares v a + rank_squares v b.
Proof.
  induction a as [|d a IH]; simpl; [unfold rank_squares at 2; simpl; ring|].
  rewrite !rank_squares_cons, IH. ring.
Qed.

Lemma rank_squares_nonneg v ds : 0 <= rank_squares v ds.
Proof.
  induction ds as [|d ds IH]; [unfold rank_squares; simpl; lra|].
  rewrite rank_squares_cons. nra.
Qed.

Lemma rank_squares_perm v a b : Permutation a b -> rank_squares v a = rank_squares v b.
Proof.
  induction 1; auto.
  - rewrite !rank_squares_cons, IHPermutation; reflexivity.
  - rewrite !rank_squares_cons; ring.
  - congruence.
Qed.

Lemma rank_squares_seq v n : rank_squares v (seq 0 n) = total_squares n v.
Proof.
  unfold total_squares. induction n as [|n IH]; [reflexivity|].
  rewrite seq_S, rank_squares_app, IH. simpl. rewrite rank_squares_cons.
  unfold rank_squares; simpl; ring.
Qed.

Lemma mpi_flat v p own : mpi_sum p (fun r => rank_squares v (own r)) =
  rank_squares v (flat_map own (seq 0 p)).
Proof.
  unfold mpi_sum. induction p as [|p IH]; [reflexivity|].
  rewrite seq_S, flat_map_app, rank_squares_app, <- IH. simpl. rewrite app_nil_r. reflexivity.
Qed.

Lemma rank_squares_split v (f : nat -> bool) ds :
  rank_squares v ds = rank_squares v (filter f ds) + rank_squares v (filter (fun d => negb (f d)) ds).
Proof.
  induction ds as [|d ds IH]; [unfold rank_squares; simpl; ring|].
  simpl. rewrite rank_squares_cons, IH. destruct (f d); simpl; rewrite !rank_squares_cons; ring.
Qed.

Lemma mpi_nonneg p v own : 0 <= mpi_sum p (fun r => rank_squares v (own r)).
Proof. rewrite mpi_flat. apply rank_squares_nonneg. Qed.

Lemma mpi_split v (f : nat -> nat -> bool) p own :
  mpi_sum p (fun r => rank_squares v (own r)) =
  mpi_sum p (fun r => rank_squares v (filter (f r) (own r))) +
  mpi_sum p (fun r => rank_squares v (filter (fun d => negb (f r d)) (own r))).
Proof.
  unfold mpi_sum. rewrite <- sumn_plus. apply sumn_ext. intros. apply rank_squares_split.
Qed.

Lemma sqrt_sq x : 0 <= x -> sqrt x * sqrt x = x.
Proof. apply sqrt_sqrt. Qed.
