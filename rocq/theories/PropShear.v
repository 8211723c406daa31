(** * C81, C82: the constraints of the simple shear problem. *)
From Verif Require Import Num SumLemmas ModelFEField ModelActiveSet ModelLoading ModelShear SpecLinear SpecShear
  PropLinear SpecLoading PropLoading.
From Coq Require Import FunctionalExtensionality.
Open Scope nat_scope.

(** ** C81 *)
Definition held (o : option line) : option line := match o with Some l => Some l | None => Some zero_line end.
Lemma pin_fold (p : nat -> bool) (g : nat -> nat) l : forall c d,
  fold_left (fun c i => if p i then add_line c (g i) else c) l c d =
  if existsb (fun i => p i && Nat.eqb (g i) d) l then held (c d) else c d.
Proof.
  induction l as [|i l IH]; intros c d; cbn [fold_left existsb]; [reflexivity|].
  rewrite IH. destruct (p i) eqn:P; cbn [andb orb]; [|reflexivity].
  unfold add_line. rewrite (Nat.eqb_sym d (g i)). destruct (Nat.eqb (g i) d) eqn:E; cbn [orb]; [|reflexivity].
  apply Nat.eqb_eq in E. subst d. destruct (existsb _ l); unfold held; destruct (c (g i)); reflexivity.
Qed.
Lemma microhard_at dim ns pu pg fd c i : NoDup fd -> i < length fd ->
  microhard_face dim ns pu pg fd c (nth i fd 0) =
  if Nat.leb dim (nth i (cell_components dim ns pu pg) 0) then held (c (nth i fd 0)) else c (nth i fd 0).
Proof.
  intros N L. unfold microhard_face.
  rewrite (pin_fold (fun i => Nat.leb dim (nth i (cell_components dim ns pu pg) 0)) (fun i => nth i fd 0)).
  match goal with |- (if ?e then _ else _) = (if ?b then _ else _) => replace e with b; [reflexivity|] end.
  destruct (Nat.leb dim (nth i (cell_components dim ns pu pg) 0)) eqn:B; symmetry.
  - apply existsb_exists. exists i. split; [apply in_seq; lia|]. rewrite B, Nat.eqb_refl. reflexivity.
  - apply not_true_is_false. intros H. apply existsb_exists in H. destruct H as (j & J & H).
    apply in_seq in J. apply andb_prop in H. destruct H as (H1 & H2). apply Nat.eqb_eq in H2.
    assert (j = i) by (apply (proj1 (NoDup_nth fd 0) N); [lia|exact L|exact H2]). subst j. congruence.
Qed.
Lemma right_iff dim ns pu pg : microhard_as_documented dim ns pu pg <->
  forall i, i < length (face_components dim ns pu pg) ->
    Nat.leb dim (nth i (cell_components dim ns pu pg) 0) = Nat.leb dim (nth i (face_components dim ns pu pg) 0).
Proof.
  split.
  - intros H i L. set (n := length (face_components dim ns pu pg)) in *.
    pose proof (H (seq 0 n) no_constraints (seq_NoDup n 0) (seq_length n 0) i ltac:(rewrite seq_length; exact L)) as E.
    rewrite microhard_at in E by (try apply seq_NoDup; rewrite seq_length; exact L).
    unfold no_constraints, held in E.
    destruct (Nat.leb dim (nth i (cell_components dim ns pu pg) 0)), (Nat.leb dim (nth i (face_components dim ns pu pg) 0));
      auto; discriminate.
  - intros H fd c N L i Hi. rewrite microhard_at by assumption. rewrite H by lia. reflexivity.
Qed.

Lemma times_app {A} (l : list A) a b : times (a + b) l = times a l ++ times b l.
Proof. induction a; cbn [times Nat.add]; [reflexivity|]. rewrite IHa, app_assoc. reflexivity. Qed.
Lemma times_length {A} (l : list A) a : length (times a l) = a * length l.
Proof. induction a; cbn [times Nat.mul]; [reflexivity|]. rewrite app_length, IHa. reflexivity. Qed.
Lemma once l : flat_map (fun c : nat => repeat c 1) l = l.
Proof. induction l as [|a l IH]; [reflexivity|]. exact (f_equal (cons a) IH). Qed.
Lemma none l : flat_map (fun c : nat => repeat c 0) l = [].
Proof. induction l as [|a l IH]; [reflexivity|exact IH]. Qed.
Lemma copies_length n l : length (flat_map (fun c : nat => repeat c n) l) = n * length l.
Proof. induction l; cbn [flat_map length]; [lia|]. rewrite app_length, repeat_length, IHl. lia. Qed.
Lemma copies_in n a l x : In x (flat_map (fun c : nat => repeat c n) (seq a l)) -> a <= x < a + l.
Proof.
  intros H. apply in_flat_map in H. destruct H as (c & Hc & Hx). apply repeat_spec in Hx. subst. apply in_seq in Hc. lia.
Qed.
Lemma object_low dim ns nu ng i : i < nu * dim -> nth i (object_components dim ns nu ng) 0 < dim.
Proof.
  intros L. unfold object_components. rewrite app_nth1 by (rewrite copies_length, seq_length; exact L).
  apply (copies_in nu 0 dim). apply nth_In. rewrite copies_length, seq_length. exact L.
Qed.
Lemma object_high dim ns nu ng i : nu * dim <= i < nu * dim + ng * ns -> dim <= nth i (object_components dim ns nu ng) 0.
Proof.
  intros L. unfold object_components. rewrite app_nth2 by (rewrite copies_length, seq_length; lia).
  rewrite copies_length, seq_length. apply (copies_in ng dim ns). apply nth_In. rewrite copies_length, seq_length. lia.
Qed.
Lemma object_length dim ns nu ng : length (object_components dim ns nu ng) = nu * dim + ng * ns.
Proof. unfold object_components. rewrite app_length, !copies_length, !seq_length. reflexivity. Qed.

Lemma prefix_right dim ns pu pg rest : cell_components dim ns pu pg = face_components dim ns pu pg ++ rest ->
  microhard_as_documented dim ns pu pg.
Proof. intros E. apply right_iff. intros i L. rewrite E, app_nth1 by exact L. reflexivity. Qed.

(** What lies behind the vertices of a face, in the two numberings. *)
Lemma behind dim ns pu pg v : v = (if Nat.eqb dim 2 then 2 else 4) -> dim = 2 \/ dim = 3 ->
  exists f c, face_components dim ns pu pg = times v (object_components dim ns 1 1) ++
                object_components dim ns (pu - 1) (pg - 1) ++
                (if Nat.eqb dim 2 then [] else object_components dim ns (pu - 1) (pg - 1) ++ f) /\
              cell_components dim ns pu pg = times v (object_components dim ns 1 1) ++
                object_components dim ns 1 1 ++ object_components dim ns 1 1 ++ c.
Proof.
  intros -> [-> | ->]; unfold face_components, cell_components, components_on; cbn [Nat.eqb].
  - exists [], (times 4 (object_components 2 ns (pu - 1) (pg - 1)) ++
      times 1 (object_components 2 ns ((pu - 1) * (pu - 1)) ((pg - 1) * (pg - 1))) ++ []). split.
    + cbn [times]. rewrite ?app_nil_r. reflexivity.
    + cbn [times]. rewrite ?app_nil_r, <- !app_assoc. reflexivity.
  - exists (object_components 3 ns (pu - 1) (pg - 1) ++ object_components 3 ns (pu - 1) (pg - 1) ++
      object_components 3 ns ((pu - 1) * (pu - 1)) ((pg - 1) * (pg - 1))),
     (object_components 3 ns 1 1 ++ object_components 3 ns 1 1 ++ times 12 (object_components 3 ns (pu - 1) (pg - 1)) ++
      times 6 (object_components 3 ns ((pu - 1) * (pu - 1)) ((pg - 1) * (pg - 1))) ++
      object_components 3 ns ((pu - 1) * (pu - 1) * (pu - 1)) ((pg - 1) * (pg - 1) * (pg - 1))). split.
    + cbn [times]. rewrite ?app_nil_r, <- !app_assoc. reflexivity.
    + cbn [times]. rewrite ?app_nil_r, <- !app_assoc. reflexivity.
Qed.

Lemma nth_skip (l1 l2 : list nat) k : nth (length l1 + k) (l1 ++ l2) 0 = nth k l2 0.
Proof. rewrite app_nth2 by lia. f_equal. lia. Qed.

(** The microhard condition does what it says exactly for these degrees (displacements, slips). *)
Theorem C81_microhard_exactly_the_slip_dofs : forall dim ns pu pg,
  dim = 2 \/ dim = 3 -> 1 <= ns -> 1 <= pu -> 1 <= pg ->
  (microhard_as_documented dim ns pu pg <->
   (pu = 1 /\ pg = 1) \/ (pu = 2 /\ pg = 2) \/ (dim = 2 /\ pu = 2 /\ pg = 1)).
Proof.
  intros dim ns pu pg D NS PU PG. split.
  - intros H. rewrite right_iff in H.
    destruct (behind dim ns pu pg _ eq_refl D) as (f & c & F & C).
    rewrite F, C in H. clear F C. set (v := times _ _) in H.
    assert (W : forall k, k < length (object_components dim ns (pu - 1) (pg - 1) ++
        (if Nat.eqb dim 2 then [] else object_components dim ns (pu - 1) (pg - 1) ++ f)) ->
      Nat.leb dim (nth k (object_components dim ns 1 1 ++ object_components dim ns 1 1 ++ c) 0) =
      Nat.leb dim (nth k (object_components dim ns (pu - 1) (pg - 1) ++
        (if Nat.eqb dim 2 then [] else object_components dim ns (pu - 1) (pg - 1) ++ f)) 0)).
    { intros k L. specialize (H (length v + k)). rewrite !nth_skip in H. apply H. rewrite app_length. lia. }
    clear H v.
    assert (LO : length (object_components dim ns (pu - 1) (pg - 1)) = (pu - 1) * dim + (pg - 1) * ns) by apply object_length.
    assert (L1 : length (object_components dim ns 1 1) = dim + ns) by (rewrite object_length; lia).
    assert (A0 : forall k, k < (pu - 1) * dim + (pg - 1) * ns ->
      Nat.leb dim (nth k (object_components dim ns 1 1 ++ object_components dim ns 1 1 ++ c) 0) =
      Nat.leb dim (nth k (object_components dim ns (pu - 1) (pg - 1)) 0)).
    { intros k L. rewrite W by (rewrite app_length; lia). f_equal. apply app_nth1. lia. }
    assert (lowc : forall k, k < dim -> Nat.leb dim (nth k (object_components dim ns 1 1 ++ object_components dim ns 1 1 ++ c) 0) = false).
    { intros k L. rewrite app_nth1 by lia. apply Nat.leb_gt, object_low. lia. }
    assert (highc : forall k, dim <= k < dim + ns -> Nat.leb dim (nth k (object_components dim ns 1 1 ++ object_components dim ns 1 1 ++ c) 0) = true).
    { intros k L. rewrite app_nth1 by lia. apply Nat.leb_le, object_high. lia. }
    assert (lowc2 : Nat.leb dim (nth (dim + ns) (object_components dim ns 1 1 ++ object_components dim ns 1 1 ++ c) 0) = false).
    { rewrite app_nth2 by lia. rewrite app_nth1 by lia. apply Nat.leb_gt, object_low. rewrite L1. lia. }
    destruct (Nat.eq_dec pu 1) as [->|P1].
    { left. split; [reflexivity|]. destruct (Nat.eq_dec pg 1) as [E|N]; [exact E|exfalso].
      specialize (A0 0 ltac:(nia)). rewrite lowc in A0 by lia.
      symmetry in A0. apply Nat.leb_gt in A0. pose proof (object_high dim ns (1 - 1) (pg - 1) 0 ltac:(nia)). lia. }
    destruct (Nat.eq_dec pu 2) as [->|P2].
    2:{ exfalso. specialize (A0 dim ltac:(nia)). rewrite highc in A0 by lia.
        symmetry in A0. apply Nat.leb_le in A0. pose proof (object_low dim ns (pu - 1) (pg - 1) dim ltac:(nia)). lia. }
    right. destruct (Nat.eq_dec pg 1) as [->|G1].
    { right. split; [|auto]. destruct D as [E|E]; [exact E|exfalso]. subst dim. cbn [Nat.eqb] in W.
      specialize (W 3). rewrite !app_length, LO in W. specialize (W ltac:(cbn; lia)).
      rewrite highc in W by lia. rewrite app_nth2 in W by (rewrite LO; cbn; lia).
      rewrite app_nth1 in W by (rewrite LO; cbn; lia). rewrite LO in W.
      symmetry in W. apply Nat.leb_le in W.
      pose proof (object_low 3 ns (2 - 1) (1 - 1) (3 - ((2 - 1) * 3 + (1 - 1) * ns)) ltac:(cbn; lia)). lia. }
    left. split; [reflexivity|]. destruct (Nat.eq_dec pg 2) as [E|G2]; [exact E|exfalso].
    specialize (A0 (dim + ns) ltac:(nia)). rewrite lowc2 in A0. symmetry in A0. apply Nat.leb_gt in A0.
    pose proof (object_high dim ns (2 - 1) (pg - 1) (dim + ns) ltac:(nia)). lia.
  - intros [[-> ->]|[[-> ->]|(-> & -> & ->)]].
    + assert (Z : object_components dim ns 0 0 = []) by (unfold object_components; rewrite !none; reflexivity).
      apply (prefix_right _ _ _ _ (times (if Nat.eqb dim 2 then 2 else 4) (object_components dim ns 1 1))).
      unfold cell_components, face_components, components_on. cbn [Nat.sub Nat.mul]. rewrite Z.
      destruct D as [-> | ->]; cbn [Nat.eqb times app]; rewrite ?app_nil_r, <- ?app_assoc; reflexivity.
    + apply (prefix_right _ _ _ _ (times (if Nat.eqb dim 2 then 6 else 18) (object_components dim ns 1 1))).
      unfold cell_components, face_components, components_on. cbn [Nat.sub Nat.mul Nat.add].
      destruct D as [-> | ->]; cbn [Nat.eqb times]; rewrite ?app_nil_r, <- ?app_assoc; reflexivity.
    + apply (prefix_right 2 ns 2 1 (seq 2 ns ++ object_components 2 ns 1 1 ++ times 5 (object_components 2 ns 1 0))).
      assert (Z : object_components 2 ns 1 1 = object_components 2 ns 1 0 ++ seq 2 ns).
      { unfold object_components. rewrite none, app_nil_r, !once. reflexivity. }
      unfold cell_components, face_components, components_on. cbn [Nat.eqb Nat.sub Nat.mul Nat.add]. rewrite Z.
      cbn [times]; rewrite ?app_nil_r, <- ?app_assoc; reflexivity.
Qed.

(** With the default degrees (2 and 1) in three dimensions every grain-boundary face gets a
    displacement dof fixed to zero: the first displacement dof of its second line. *)
Theorem C81_default_degrees_3d_refuted : forall ns face_dofs c,
  1 <= ns -> NoDup face_dofs -> length face_dofs = length (face_components 3 ns 2 1) ->
  let i := 4 * (3 + ns) + 3 in
  nth i (face_components 3 ns 2 1) 0 = 0 /\
  (c (nth i face_dofs 0) = None ->
   microhard_face 3 ns 2 1 face_dofs c (nth i face_dofs 0) = Some ([], 0%R)).
Proof.
  intros ns fd c NS N L i.
  destruct (behind 3 ns 2 1 4 eq_refl (or_intror eq_refl)) as (f & cc & F & C). cbn [Nat.eqb] in F.
  set (v := times 4 (object_components 3 ns 1 1)) in *.
  assert (LV : length v = 4 * (3 + ns)) by (unfold v; rewrite times_length, object_length; lia).
  assert (O : object_components 3 ns (2 - 1) (1 - 1) = [0; 1; 2]).
  { unfold object_components. cbn [Nat.sub]. rewrite none, app_nil_r. reflexivity. }
  assert (I : i = length v + 3) by (unfold i; lia).
  split.
  - rewrite F, I, nth_skip, O. reflexivity.
  - intros H. rewrite microhard_at; [|exact N|].
    + rewrite C, I, nth_skip, <- I, H.
      replace (Nat.leb 3 (nth 3 (object_components 3 ns 1 1 ++ object_components 3 ns 1 1 ++ cc) 0)) with true; [reflexivity|].
      symmetry. apply Nat.leb_le. rewrite app_nth1 by (rewrite object_length; lia). apply object_high. lia.
    + rewrite L, F, O, app_length, I. cbn [length app]. lia.
Qed.

(** No other dof than those of the face is touched. *)
Theorem C81_other_dofs_untouched : forall dim ns pu pg face_dofs c d,
  ~ In d face_dofs -> microhard_face dim ns pu pg face_dofs c d = c d.
Proof.
  intros dim ns pu pg fd c d H. unfold microhard_face.
  rewrite (pin_fold (fun i => Nat.leb dim (nth i (cell_components dim ns pu pg) 0)) (fun i => nth i fd 0)).
  destruct (existsb _ _) eqn:E; [|reflexivity]. exfalso. apply existsb_exists in E. destruct E as (j & J & E).
  apply andb_prop in E. destruct E as (_ & E). apply Nat.eqb_eq in E. apply in_seq in J. apply H. subst d.
  apply nth_In. lia.
Qed.

Example C81_example : face_components 2 2 2 1 = [0;1;2;3; 0;1;2;3; 0;1] /\
  map (microhard_face 2 2 2 1 [10;11;12;13;14;15;16;17;18;19] no_constraints) [10;12;13;17;18;19] =
    [None; Some ([], 0%R); Some ([], 0%R); Some ([], 0%R); None; None].
Proof. split; reflexivity. Qed.

(** ** C82 *)
Definition orelse (a b : option line) : option line := match a with Some _ => a | None => b end.
Definition fills (F : constraints -> constraints) (o : nat -> option line) : Prop :=
  forall c d, F c d = orelse (c d) (o d).
Fixpoint first_of {A} (o : A -> option line) (l : list A) : option line :=
  match l with [] => None | a :: l' => orelse (o a) (first_of o l') end.
Lemma orelse_assoc a b c : orelse (orelse a b) c = orelse a (orelse b c).
Proof. destruct a; reflexivity. Qed.
Lemma orelse_none a : orelse a None = a.
Proof. destruct a; reflexivity. Qed.
Lemma fold_fills {A} (F : A -> constraints -> constraints) (o : A -> nat -> option line) l :
  (forall a, fills (F a) (o a)) -> fills (fun c => fold_left (fun c a => F a c) l c) (fun d => first_of (fun a => o a d) l).
Proof.
  intros H. induction l as [|a l IH]; intros c d; cbn [fold_left first_of]; [rewrite orelse_none; reflexivity|].
  rewrite (IH (F a c) d), (H a c d). apply orelse_assoc.
Qed.
Definition value_line (f : nat -> option ((nat -> R) -> nat -> R)) (mask : nat -> bool) (b : boundary_dof) (d : nat) : option line :=
  match f (b_id b) with
  | Some g => if mask (b_comp b) && Nat.eqb (b_dof b) d then Some ([], g (b_point b) (b_comp b)) else None
  | None => None
  end.
Lemma interpolate_fills f mask bs : fills (interpolate f mask bs) (fun d => first_of (fun b => value_line f mask b d) bs).
Proof.
  unfold interpolate.
  pose proof (fold_fills (fun b c => match f (b_id b) with
      | Some g => if mask (b_comp b) && negb (is_constrained c (b_dof b))
                  then (fun k => if Nat.eqb k (b_dof b) then Some ([], g (b_point b) (b_comp b)) else c k)
                  else c
      | None => c end) (fun b d => value_line f mask b d) bs) as H. apply H. clear H.
  intros b c d. unfold value_line. destruct (f (b_id b)) as [g|]; [|rewrite orelse_none; reflexivity].
  destruct (mask (b_comp b)); cbn [andb]; [|rewrite orelse_none; reflexivity].
  unfold is_constrained. destruct (Nat.eqb (b_dof b) d) eqn:E.
  - apply Nat.eqb_eq in E. subst d. destruct (c (b_dof b)) as [l|] eqn:K; cbn [negb].
    + rewrite K. reflexivity. + rewrite Nat.eqb_refl. reflexivity.
  - rewrite orelse_none. destruct (c (b_dof b)); cbn [negb]; [reflexivity|]. rewrite Nat.eqb_sym, E. reflexivity.
Qed.
Lemma microhard_fills dim ns pu pg fd : exists o, fills (microhard_face dim ns pu pg fd) o /\ forall d, o d = None \/ o d = Some zero_line.
Proof.
  exists (fun d => if existsb (fun i => Nat.leb dim (nth i (cell_components dim ns pu pg) 0) && Nat.eqb (nth i fd 0) d)
                         (seq 0 (length fd)) then Some zero_line else None). split.
  - intros c d. unfold microhard_face.
    rewrite (pin_fold (fun i => Nat.leb dim (nth i (cell_components dim ns pu pg) 0)) (fun i => nth i fd 0)).
    destruct (existsb _ _); [destruct (c d); reflexivity|rewrite orelse_none; reflexivity].
  - intros d. destruct (existsb _ _); auto.
Qed.

(** The lines prescribed for the displacements and the slips at the boundary. *)
Definition displacement_lines (m : strip) f (d : nat) : option line :=
  first_of (fun k => first_of (fun b => value_line f (displacement_mask (s_dim m) (s_decohesion m) k) b d) (s_boundary m))
    (seq 0 (s_nc m)).
Definition slip_lines (m : strip) f (d : nat) : option line :=
  first_of (fun k => first_of (fun a => first_of (fun b =>
     value_line f (slip_mask (s_dim m) (s_decohesion m) (s_nc m) (s_ns m) k a) b d) (s_boundary m)) (seq 0 (s_ns m)))
    (seq 0 (s_nc m)).

Definition before_periodicity (m : strip) (upper : (nat -> R) -> nat -> R) (h : nat -> option line) (d : nat) : option line :=
  orelse (s_hanging m d) (orelse (displacement_lines m (on_boundaries zero_function upper) d)
    (orelse (slip_lines m (on_boundaries zero_function zero_function) d) (h d))).
Lemma build_split (m : strip) : exists h, (forall d, h d = None \/ h d = Some zero_line) /\
  forall upper, build_constraints m upper = periodicity m (before_periodicity m upper h).
Proof.
  assert (M : exists h, fills (fun c => if s_microhard m
            then fold_left (fun c f => microhard_face (s_dim m) (s_ns m) (s_pu m) (s_pg m) f c) (s_faces m) c
            else c) h /\ forall d, h d = None \/ h d = Some zero_line).
  { destruct (s_microhard m).
    - induction (s_faces m) as [|f fs IH].
      + exists (fun _ => None). split; [intros c d; rewrite orelse_none; reflexivity|auto].
      + destruct IH as (h & H1 & H2). destruct (microhard_fills (s_dim m) (s_ns m) (s_pu m) (s_pg m) f) as (o & O1 & O2).
        exists (fun d => orelse (o d) (h d)). split.
        * intros c d. cbn [fold_left]. rewrite (H1 _ d), (O1 c d). apply orelse_assoc.
        * intros d. destruct (O2 d) as [E|E]; rewrite E; cbn; auto.
    - exists (fun _ => None). split; [intros c d; rewrite orelse_none; reflexivity|auto]. }
  destruct M as (h & H1 & H2). exists h. split; [exact H2|]. intros upper.
  unfold build_constraints. cbv zeta.
  set (c0 := merge no_constraints (s_hanging m)).
  set (c1 := fold_left _ _ c0). set (c2 := fold_left _ _ c1).
  f_equal. apply functional_extensionality. intros d. rewrite (H1 c2 d). unfold before_periodicity.
  assert (E1 : c1 d = orelse (c0 d) (displacement_lines m (on_boundaries zero_function upper) d)).
  { unfold c1. apply (fold_fills (fun k => interpolate (on_boundaries zero_function upper)
      (displacement_mask (s_dim m) (s_decohesion m) k) (s_boundary m))
      (fun k d => first_of (fun b => value_line (on_boundaries zero_function upper) (displacement_mask (s_dim m) (s_decohesion m) k) b d) (s_boundary m))).
    intros k. apply interpolate_fills. }
  assert (E2 : c2 d = orelse (c1 d) (slip_lines m (on_boundaries zero_function zero_function) d)).
  { unfold c2. apply (fold_fills (fun k c => fold_left (fun c a =>
      interpolate (on_boundaries zero_function zero_function) (slip_mask (s_dim m) (s_decohesion m) (s_nc m) (s_ns m) k a) (s_boundary m) c)
      (seq 0 (s_ns m)) c)
      (fun k d => first_of (fun a => first_of (fun b =>
        value_line (on_boundaries zero_function zero_function) (slip_mask (s_dim m) (s_decohesion m) (s_nc m) (s_ns m) k a) b d) (s_boundary m)) (seq 0 (s_ns m)))).
    intros k. apply (fold_fills (fun a => interpolate (on_boundaries zero_function zero_function) (slip_mask (s_dim m) (s_decohesion m) (s_nc m) (s_ns m) k a) (s_boundary m))
      (fun a d => first_of (fun b => value_line (on_boundaries zero_function zero_function) (slip_mask (s_dim m) (s_decohesion m) (s_nc m) (s_ns m) k a) b d) (s_boundary m))).
    intros a. apply interpolate_fills. }
  assert (E0 : c0 d = s_hanging m d) by (unfold c0, merge, no_constraints; destruct (s_hanging m d); reflexivity).
  rewrite E2, E1, E0, !orelse_assoc. reflexivity.
Qed.

Definition same_line (a n : option line) : Prop :=
  match a, n with
  | None, None => True
  | Some (es, _), Some (es', b') => es' = es /\ b' = 0%R
  | _, _ => False
  end.
Lemma same_orelse a n a' n' : same_line a n -> same_line a' n' -> same_line (orelse a a') (orelse n n').
Proof. destruct a as [[]|], n as [[]|]; cbn; tauto. Qed.
Lemma same_first {A} (o o' : A -> option line) l : (forall a, In a l -> same_line (o a) (o' a)) -> same_line (first_of o l) (first_of o' l).
Proof. induction l as [|a l IH]; intros H; cbn [first_of]; [exact I|]. apply same_orelse; [apply H; left; reflexivity|apply IH; intros; apply H; right; auto]. Qed.
Lemma same_value u mask b d : same_line (value_line (on_boundaries zero_function u) mask b d)
                                        (value_line (on_boundaries zero_function zero_function) mask b d).
Proof.
  unfold value_line, on_boundaries. destruct (Nat.eqb (b_id b) 2); [|destruct (Nat.eqb (b_id b) 3)]; try exact I;
    destruct (mask (b_comp b) && Nat.eqb (b_dof b) d)%bool; cbn; auto.
Qed.
Lemma same_periodicity m a n : (forall d, same_line (a d) (n d)) -> forall d, same_line (periodicity m a d) (periodicity m n d).
Proof.
  intros H. unfold periodicity.
  assert (K : forall a n : constraints, (forall d, same_line (a d) (n d)) -> forall d, is_constrained a d = is_constrained n d).
  { intros a' n' H' d. specialize (H' d). unfold is_constrained. destruct (a' d) as [[]|], (n' d) as [[]|]; cbn in H'; tauto. }
  replace (is_constrained n) with (is_constrained a) by (apply functional_extensionality; apply K; exact H).
  generalize (s_periodic m (is_constrained a)). intros l. revert a n H.
  induction l as [|p l IH]; intros a n H d; cbn [fold_left]; [apply H|].
  apply IH. intros e. rewrite (K a n H (fst p)). destruct (is_constrained n (fst p)); [apply H|].
  destruct (Nat.eqb e (fst p)); [cbn; auto|apply H].
Qed.
Lemma periodicity_keeps m c d l : c d = Some l -> periodicity m c d = Some l.
Proof.
  unfold periodicity. generalize (s_periodic m (is_constrained c)). intros ps. revert c.
  induction ps as [|p ps IH]; intros c H; cbn [fold_left]; [exact H|]. apply IH.
  unfold is_constrained. destruct (c (fst p)) eqn:E; [exact H|].
  destruct (Nat.eqb d (fst p)) eqn:K; [apply Nat.eqb_eq in K; subst; congruence|exact H].
Qed.
Lemma build_hanging m u d l : s_hanging m d = Some l -> build_constraints m u d = Some l.
Proof.
  intros H. destruct (build_split m) as (h & _ & B). rewrite B. apply periodicity_keeps.
  unfold before_periodicity. rewrite H. reflexivity.
Qed.
Lemma merged_build m u d : merge (merge no_constraints (s_hanging m)) (build_constraints m u) d = build_constraints m u d.
Proof.
  unfold merge, no_constraints. destruct (build_constraints m u d) eqn:E; [reflexivity|].
  destruct (s_hanging m d) eqn:K; [|reflexivity]. rewrite (build_hanging m u d _ K) in E. discriminate.
Qed.
Definition only_upper (u : (nat -> R) -> nat -> R) (id : nat) : option ((nat -> R) -> nat -> R) := if Nat.eqb id 3 then Some u else None.
Lemma update_split m u d : update_constraints m u d = orelse (s_hanging m d) (displacement_lines m (only_upper u) d).
Proof.
  unfold update_constraints.
  rewrite (fold_fills (fun k => interpolate (only_upper u) (displacement_mask (s_dim m) (s_decohesion m) k) (s_boundary m))
      (fun k d => first_of (fun b => value_line (only_upper u) (displacement_mask (s_dim m) (s_decohesion m) k) b d) (s_boundary m))).
  - unfold merge, no_constraints. destruct (s_hanging m d); reflexivity.
  - intros k. apply interpolate_fills.
Qed.
Lemma first_some {A} (o : A -> option line) l x : first_of o l = Some x -> exists a, In a l /\ o a = Some x.
Proof.
  induction l as [|a l IH]; cbn [first_of]; [discriminate|]. destruct (o a) eqn:E; cbn [orelse].
  - intros H. exists a. split; [left; reflexivity|congruence].
  - intros H. destruct (IH H) as (b & B1 & B2). exists b. split; [right; exact B1|exact B2].
Qed.
Lemma first_none {A} (o : A -> option line) l a : In a l -> o a <> None -> first_of o l <> None.
Proof.
  induction l as [|b l IH]; intros H N; [destruct H|]. cbn [first_of]. destruct H as [->|H].
  - destruct (o a); [discriminate|tauto]. - destruct (o b); [discriminate|]. cbn. apply IH; auto.
Qed.
Lemma displacement_lines_some m f d x : displacement_lines m f d = Some x ->
  exists k b g, k < s_nc m /\ In b (s_boundary m) /\ f (b_id b) = Some g /\
    displacement_mask (s_dim m) (s_decohesion m) k (b_comp b) = true /\ b_dof b = d /\ x = ([], g (b_point b) (b_comp b)).
Proof.
  intros H. apply first_some in H. destruct H as (k & K & H). apply first_some in H. destruct H as (b & B & H).
  unfold value_line in H. destruct (f (b_id b)) as [g|] eqn:G; [|discriminate].
  destruct (displacement_mask (s_dim m) (s_decohesion m) k (b_comp b)) eqn:Q; cbn [andb] in H; [|discriminate].
  destruct (Nat.eqb (b_dof b) d) eqn:E; [|discriminate]. apply Nat.eqb_eq in E. apply in_seq in K.
  exists k, b, g. repeat split; auto; try lia. congruence.
Qed.
Lemma displacement_lines_none m f k b g : k < s_nc m -> In b (s_boundary m) -> f (b_id b) = Some g ->
  displacement_mask (s_dim m) (s_decohesion m) k (b_comp b) = true -> displacement_lines m f (b_dof b) <> None.
Proof.
  intros K B F Q. apply (first_none _ _ k); [apply in_seq; lia|]. apply (first_none _ _ b); [exact B|].
  unfold value_line. rewrite F, Q, Nat.eqb_refl. discriminate.
Qed.

(** At every time the Newton constraints are the homogeneous version of the constraints of the
    solution. *)
Theorem C82_newton_constraints_are_the_homogeneous_version : forall m start uppers,
  homogeneous (s_hanging m) -> homogeneous_version (affine_after m start uppers) (newton_of m).
Proof.
  intros m start us H d. change (same_line (affine_after m start us d) (newton_of m d)).
  unfold newton_of. rewrite merged_build. induction us as [|u us IH]; cbn [affine_after].
  - rewrite merged_build. destruct (build_split m) as (h & Hh & B). rewrite !B. apply same_periodicity.
    intros e. unfold before_periodicity. apply same_orelse.
    { destruct (s_hanging m e) as [[es b]|] eqn:E; cbn; [|exact I]. split; [reflexivity|]. exact (H _ _ _ E). }
    apply same_orelse; [apply same_first; intros k _; apply same_first; intros b _; apply same_value|].
    apply same_orelse; [apply same_first; intros k _; apply same_first; intros a _; apply same_first; intros b _; apply same_value|].
    destruct (Hh e) as [E|E]; rewrite E; cbn; auto.
  - unfold merge at 1. rewrite update_split. destruct (s_hanging m d) as [[es b]|] eqn:E; cbn [orelse].
    { rewrite (build_hanging m _ d _ E). cbn. split; [reflexivity|]. exact (H _ _ _ E). }
    destruct (displacement_lines m (only_upper u) d) as [x|] eqn:X; [|exact IH].
    destruct (displacement_lines_some _ _ _ _ X) as (k & b & g & K & B & F & Q & Db & ->).
    destruct (build_split m) as (h & Hh & BB). rewrite BB.
    assert (Z : exists x, displacement_lines m (on_boundaries zero_function zero_function) d = Some x).
    { destruct (displacement_lines m (on_boundaries zero_function zero_function) d) eqn:Z; [eexists; reflexivity|].
      exfalso. rewrite <- Db in Z. revert Z. apply (displacement_lines_none m _ k b zero_function K B); [|exact Q].
      unfold only_upper in F. unfold on_boundaries. destruct (Nat.eqb (b_id b) 3); [|discriminate].
      destruct (Nat.eqb (b_id b) 2); reflexivity. }
    destruct Z as (x & Z). destruct (displacement_lines_some _ _ _ _ Z) as (k' & b' & g' & _ & _ & F' & _ & _ & ->).
    rewrite (periodicity_keeps m _ d ([], g' (b_point b') (b_comp b'))).
    + cbn. split; [reflexivity|]. unfold on_boundaries in F'. destruct (Nat.eqb (b_id b') 2); [inversion F'; reflexivity|].
      destruct (Nat.eqb (b_id b') 3); inversion F'. reflexivity.
    + unfold before_periodicity. rewrite E, Z. reflexivity.
Qed.

Lemma lsum_scale {A} (f : A -> R) c l : lsum (fun e => (c * f e)%R) l = (c * lsum f l)%R.
Proof. induction l; cbn [lsum]; [ring|]. rewrite IHl. ring. Qed.
Lemma lsum_comb (x y : vec) (w : R) (es : list (nat * R)) :
  (lsum (fun e => snd e * (x (fst e) + w * y (fst e))) es =
   lsum (fun e => snd e * x (fst e)) es + w * lsum (fun e => snd e * y (fst e)) es)%R.
Proof. induction es as [|e es IH]; cbn [lsum]; [ring|]. rewrite IH. ring. Qed.

(** Hence the increments keeping the boundary, periodicity and hanging-node conditions of a
    step are exactly the vectors obeying the Newton constraints. *)
Theorem C82_newton_updates_keep_the_conditions : forall m start uppers x y w,
  homogeneous (s_hanging m) -> obeys (affine_after m start uppers) x ->
  (obeys (newton_of m) y -> obeys (affine_after m start uppers) (fun d => x d + w * y d)%R) /\
  (w <> 0%R -> obeys (affine_after m start uppers) (fun d => x d + w * y d)%R -> obeys (newton_of m) y).
Proof.
  intros m start us x y w H X. pose proof (C82_newton_constraints_are_the_homogeneous_version m start us H) as V.
  split.
  - intros Y d es b E. specialize (V d). rewrite E in V. destruct (newton_of m d) as [[es' b']|] eqn:N; [|contradiction].
    destruct V as (-> & ->). rewrite lsum_comb, (X d es b E), (Y d es _ N). ring.
  - intros W Y d es b E. specialize (V d). rewrite E in V. destruct (affine_after m start us d) as [[es' b']|] eqn:N; [|contradiction].
    destruct V as (-> & ->). specialize (Y d es' b' N). cbn beta in Y. rewrite (lsum_comb x y w) in Y. pose proof (X d es' b' N) as X'.
    apply Rmult_eq_reg_l with w; [|exact W]. lra.
Qed.

Lemma displacement_mask_covers (m : strip) k : is_displacement_component m k -> 0 < s_nc m ->
  exists cr, cr < s_nc m /\ displacement_mask (s_dim m) (s_decohesion m) cr k = true.
Proof.
  unfold is_displacement_component, displacement_mask. destruct (s_decohesion m); intros K N.
  - destruct (Nat.eq_dec (s_dim m) 0) as [Z|Z]; [rewrite Z in K; lia|].
    exists (k / s_dim m). pose proof (Nat.div_mod_eq k (s_dim m)). pose proof (Nat.mod_upper_bound k (s_dim m) Z).
    split; [apply Nat.div_lt_upper_bound; lia|]. apply andb_true_intro. split; [apply Nat.leb_le|apply Nat.ltb_lt]; nia.
  - exists 0. split; [exact N|]. cbn. apply Nat.ltb_lt. lia.
Qed.
Lemma displacement_mask_only (m : strip) cr k : cr < s_nc m ->
  displacement_mask (s_dim m) (s_decohesion m) cr k = true -> is_displacement_component m k.
Proof.
  unfold is_displacement_component, displacement_mask. intros C H. apply andb_prop in H. destruct H as (A & B).
  apply Nat.leb_le in A. apply Nat.ltb_lt in B. destruct (s_decohesion m); nia.
Qed.
Lemma slip_mask_covers (m : strip) k : is_slip_component m k ->
  exists cr a, cr < s_nc m /\ a < s_ns m /\ slip_mask (s_dim m) (s_decohesion m) (s_nc m) (s_ns m) cr a k = true.
Proof.
  unfold is_slip_component, slip_mask. intros K.
  set (o := if s_decohesion m then s_nc m * s_dim m else s_dim m).
  assert (O : s_dim m * (if s_decohesion m then s_nc m else 1) = o) by (unfold o; destruct (s_decohesion m); lia).
  rewrite O in K. destruct (Nat.eq_dec (s_ns m) 0) as [Z|Z]; [rewrite Z in K; lia|].
  exists ((k - o) / s_ns m), ((k - o) mod s_ns m).
  pose proof (Nat.div_mod_eq (k - o) (s_ns m)). pose proof (Nat.mod_upper_bound (k - o) (s_ns m) Z).
  split; [apply Nat.div_lt_upper_bound; lia|]. split; [assumption|]. apply Nat.eqb_eq. nia.
Qed.

(** The values prescribed in each step: the displacement control at the upper boundary (id 3),
    zero displacement at the lower one (id 2), zero slip at both. *)
Theorem C82_prescribed_values : forall m start u us b,
  consistent m -> 0 < s_nc m -> In b (s_boundary m) -> s_hanging m (b_dof b) = None ->
  (is_displacement_component m (b_comp b) -> b_id b = 3 ->
     affine_after m start (u :: us) (b_dof b) = Some ([], u (b_point b) (b_comp b))) /\
  (is_displacement_component m (b_comp b) -> b_id b = 2 ->
     (forall b', In b' (s_boundary m) -> b_dof b' = b_dof b -> b_id b' <> 3) ->
     affine_after m start (u :: us) (b_dof b) = Some ([], 0%R)) /\
  (is_slip_component m (b_comp b) -> b_id b = 2 \/ b_id b = 3 ->
     affine_after m start (u :: us) (b_dof b) = Some ([], 0%R)).
Proof.
  intros m start u us b C N B H.
  assert (NU : (forall b', In b' (s_boundary m) -> b_dof b' = b_dof b -> is_displacement_component m (b_comp b') -> b_id b' <> 3) ->
     affine_after m start (u :: us) (b_dof b) = affine_after m start [] (b_dof b)).
  { intros K. assert (U : forall v, update_constraints m v (b_dof b) = None).
    { intros v. rewrite update_split, H. cbn [orelse].
      destruct (displacement_lines m (only_upper v) (b_dof b)) as [x|] eqn:X; [|reflexivity]. exfalso.
      destruct (displacement_lines_some _ _ _ _ X) as (k & b' & g & Kc & B' & F & Q & Db & _).
      specialize (K b' B' Db (displacement_mask_only m k _ Kc Q)). unfold only_upper in F.
      destruct (Nat.eqb (b_id b') 3) eqn:E; [apply Nat.eqb_eq in E; contradiction|discriminate]. }
    assert (G : forall l, affine_after m start l (b_dof b) = affine_after m start [] (b_dof b)).
    { induction l as [|v l IH]; [reflexivity|]. cbn [affine_after]. unfold merge at 1. rewrite U. exact IH. }
    apply G. }
  split; [|split].
  - intros D I3. cbn [affine_after]. unfold merge at 1. rewrite update_split, H. cbn [orelse].
    destruct (displacement_lines m (only_upper u) (b_dof b)) as [x|] eqn:X.
    + destruct (displacement_lines_some _ _ _ _ X) as (k & b' & g & Kc & B' & F & Q & Db & ->).
      destruct (C b' b B' B Db) as (-> & ->). unfold only_upper in F. destruct (Nat.eqb (b_id b') 3); [|discriminate].
      inversion F. reflexivity.
    + exfalso. destruct (displacement_mask_covers m _ D N) as (cr & Hcr & Q).
      revert X. apply (displacement_lines_none m _ cr b u Hcr B); [|exact Q]. unfold only_upper. rewrite I3. reflexivity.
  - intros D I2 K. rewrite NU by (intros b' B' E _; apply K; assumption). cbn [affine_after]. rewrite merged_build.
    destruct (build_split m) as (h & Hh & BB). rewrite BB.
    apply periodicity_keeps. unfold before_periodicity. rewrite H. cbn [orelse].
    destruct (displacement_lines m (on_boundaries zero_function start) (b_dof b)) as [x|] eqn:X.
    + destruct (displacement_lines_some _ _ _ _ X) as (k & b' & g & Kc & B' & F & Q & Db & ->). cbn [orelse].
      specialize (K b' B' Db). unfold on_boundaries in F. destruct (Nat.eqb (b_id b') 2); [inversion F; reflexivity|].
      destruct (Nat.eqb (b_id b') 3) eqn:E3; [apply Nat.eqb_eq in E3; contradiction|discriminate].
    + exfalso. destruct (displacement_mask_covers m _ D N) as (cr & Hcr & Q).
      revert X. apply (displacement_lines_none m _ cr b zero_function Hcr B); [|exact Q].
      unfold on_boundaries. rewrite I2. reflexivity.
  - intros S I. assert (ND : ~ is_displacement_component m (b_comp b)) by (unfold is_displacement_component, is_slip_component in *; lia).
    rewrite NU.
    2:{ intros b' B' E D. exfalso. apply ND. destruct (C b' b B' B E) as (<- & _). exact D. }
    cbn [affine_after]. rewrite merged_build. destruct (build_split m) as (h & Hh & BB). rewrite BB.
    apply periodicity_keeps. unfold before_periodicity. rewrite H. cbn [orelse].
    destruct (displacement_lines m (on_boundaries zero_function start) (b_dof b)) as [x|] eqn:X.
    { exfalso. destruct (displacement_lines_some _ _ _ _ X) as (k & b' & g & Kc & B' & F & Q & Db & _).
      apply ND. destruct (C b' b B' B Db) as (<- & _). exact (displacement_mask_only m k _ Kc Q). }
    cbn [orelse]. destruct (slip_lines m (on_boundaries zero_function zero_function) (b_dof b)) as [x|] eqn:X2.
    + unfold slip_lines in X2. apply first_some in X2. destruct X2 as (k & _ & X2). apply first_some in X2.
      destruct X2 as (a & _ & X2). apply first_some in X2. destruct X2 as (b' & _ & X2).
      unfold value_line, on_boundaries in X2. cbn [orelse].
      destruct (Nat.eqb (b_id b') 2); [|destruct (Nat.eqb (b_id b') 3); [|discriminate]];
        (destruct (_ && _)%bool; [inversion X2; reflexivity|discriminate]).
    + exfalso. destruct (slip_mask_covers m _ S) as (cr & a & Hcr & Ha & Q). revert X2. unfold slip_lines.
      apply (first_none _ _ cr); [apply in_seq; lia|]. apply (first_none _ _ a); [apply in_seq; lia|].
      apply (first_none _ _ b); [exact B|]. unfold value_line, on_boundaries. rewrite Q, Nat.eqb_refl.
      destruct I as [-> | ->]; discriminate.
Qed.

(** The shear actually applied: in each step at time [t] the loaded component of every crystal
    is moved by t * height * maximum load, in units of the characteristic displacement. *)
Theorem C82_applied_shear : forall m start us b l height char component t,
  consistent m -> 0 < s_nc m -> In b (s_boundary m) -> s_hanging m (b_dof b) = None ->
  l_type l = Monotonic -> component < s_dim m -> is_displacement_component m (b_comp b) -> b_id b = 3 ->
  let control := make_displacement_control l (s_nc m) height (s_decohesion m) char component in
  let value := if Nat.eqb (b_comp b mod s_dim m) component then (t * height * l_max l / char)%R else 0%R in
  affine_after m start (control_at (s_dim m) control t :: us) (b_dof b) = Some ([], value).
Proof.
  intros m start us b l h ch comp t C N B H T Hc D I3 control value.
  destruct (C82_prescribed_values m start (control_at (s_dim m) control t) us b C N B H) as (P & _ & _).
  rewrite (P D I3). unfold control_at, value. do 2 f_equal.
  destruct (C52_monotonic_load (s_dim m) l (s_nc m) h (s_decohesion m) ch comp t (b_comp b) Hc T) as (L & NL).
  fold control in L, NL. unfold is_displacement_component in D.
  assert (Z : s_dim m <> 0) by lia.
  pose proof (Nat.div_mod_eq (b_comp b) (s_dim m)) as DM. pose proof (Nat.mod_upper_bound (b_comp b) (s_dim m) Z) as MB.
  destruct (Nat.eqb (b_comp b mod s_dim m) comp) eqn:E.
  - apply Nat.eqb_eq in E. apply L. exists (b_comp b / s_dim m). split; [lia|].
    destruct (s_decohesion m).
    + right. split; [reflexivity|]. apply Nat.div_lt_upper_bound; lia.
    + left. apply Nat.div_small. lia.
  - apply Nat.eqb_neq in E. apply NL. intros (i & Ei & _). apply E. rewrite Ei.
    rewrite Nat.mod_add by exact Z. apply Nat.mod_small. exact Hc.
Qed.

Example C82_example :
  let bs := [mk_boundary_dof 0 2 0 (fun _ => 0%R); mk_boundary_dof 1 3 0 (fun _ => 1%R); mk_boundary_dof 2 3 2 (fun _ => 1%R)] in
  let m := mk_strip 2 true 1 1 1 1 no_constraints bs false [] (fun c => if c 5 then [] else [(5, [(6, 1%R)])]) in
  consistent m /\ homogeneous (s_hanging m) /\
  map (affine_after m (fun _ _ => 0%R) [(fun _ _ => 7%R)]) [0; 1; 2; 5; 6] =
    [Some ([], 0%R); Some ([], 7%R); Some ([], 0%R); Some ([(6, 1%R)], 0%R); None].
Proof.
  cbv zeta. split; [|split; [intros d es b H; discriminate|reflexivity]].
  intros b b' I I'. cbn [s_boundary] in I, I'.
  destruct I as [<-|[<-|[<-|[]]]]; destruct I' as [<-|[<-|[<-|[]]]]; cbn; intros E; try discriminate; auto.
Qed.
