(** * C90 (histories) and C91 (system and active sets): independence of the partition. *)
From Coq Require Import FunctionalExtensionality Permutation.
From Verif Require Import Num SumLemmas Tensors TensorLemmas ModelUtilities ModelCohesive SpecCohesive ProofCohesive
  ModelHistory ModelInterface ProofInterface ModelFEField ModelActiveSet SpecActiveSet PropActiveSet ModelLinear
  SpecLinear PropLinear ModelSweep SpecSweep.
Open Scope R_scope.

(** ** The calls a single history object receives *)
Definition bulk_ops (c q : nat) (xs : list call) : list ModelHistory.op :=
  flat_map (fun x => match x with
    | CBulk c' q' o => if andb (Nat.eqb c c') (Nat.eqb q q') then [o] else []
    | CFace _ _ _ _ => [] end) xs.
Definition face_ops (k : ModelInterface.key) (q : nat) (xs : list call) : list face_call :=
  flat_map (fun x => match x with
    | CFace c n q' o => if andb (ModelInterface.key_eqb k (make_key c n)) (Nat.eqb q q') then [o] else []
    | CBulk _ _ _ => [] end) xs.

Lemma exec_all_bulk c q xs : forall r s, exec_all xs r = Ok s ->
  brun (r_bulk r c q) (bulk_ops c q xs) = Ok (r_bulk s c q).
Proof.
  induction xs as [|x xs IH]; intros r s E; cbn [exec_all] in E.
  - injection E as <-. reflexivity.
  - destruct (exec r x) as [r1| |] eqn:X; try discriminate E. cbn [rbind] in E. apply IH in E.
    unfold bulk_ops. cbn [flat_map]. fold (bulk_ops c q xs). unfold exec in X. destruct x as [c' q' o|c' n q' o].
    + destruct (ModelHistory.step (r_bulk r c' q') o) as [h| |] eqn:S; try discriminate X. injection X as <-.
      unfold set_bulk in E. cbn [r_bulk] in E.
      destruct (Nat.eqb c c' && Nat.eqb q q')%bool eqn:B; [|exact E].
      apply Bool.andb_true_iff in B. destruct B as [B1 B2]. apply Nat.eqb_eq in B1, B2. subst c' q'.
      cbn [app brun]. rewrite S. exact E.
    + destruct (face_step _ o) as [h| |]; try discriminate X. injection X as <-. exact E.
Qed.
Lemma exec_all_face k q xs : forall r s, exec_all xs r = Ok s ->
  frun (r_face r k q) (face_ops k q xs) = Ok (r_face s k q).
Proof.
  induction xs as [|x xs IH]; intros r s E; cbn [exec_all] in E.
  - injection E as <-. reflexivity.
  - destruct (exec r x) as [r1| |] eqn:X; try discriminate E. cbn [rbind] in E. apply IH in E.
    unfold face_ops. cbn [flat_map]. fold (face_ops k q xs). unfold exec in X. destruct x as [c' q' o|c' n q' o].
    + destruct (ModelHistory.step _ o) as [h| |]; try discriminate X. injection X as <-. exact E.
    + destruct (face_step (r_face r (make_key c' n) q') o) as [h| |] eqn:S; try discriminate X. injection X as <-.
      unfold set_face in E. cbn [r_face] in E.
      destruct (ModelInterface.key_eqb k (make_key c' n) && Nat.eqb q q')%bool eqn:B; [|exact E].
      apply Bool.andb_true_iff in B. destruct B as [B1 B2]. apply Nat.eqb_eq in B2. subst q'.
      assert (K : k = make_key c' n).
      { unfold ModelInterface.key_eqb in B1. apply Bool.andb_true_iff in B1. destruct B1 as [P Q].
        apply Nat.eqb_eq in P, Q. destruct k as [k1 k2], (make_key c' n); cbn in *; subst; reflexivity. }
      rewrite <- K in S. cbn [app frun]. rewrite S. exact E.
Qed.
(** All calls succeed iff those of every object do. *)
Lemma exec_all_ok xs : forall r,
  (forall c q, exists h, brun (r_bulk r c q) (bulk_ops c q xs) = Ok h) ->
  (forall k q, exists h, frun (r_face r k q) (face_ops k q xs) = Ok h) ->
  exists s, exec_all xs r = Ok s.
Proof.
  induction xs as [|x xs IH]; intros r B F; [eexists; reflexivity|]. cbn [exec_all].
  destruct x as [c q o|c n q o]; cbn [exec]; [|set (k := make_key c n)].
  - destruct (B c q) as [h Hh]. unfold bulk_ops in Hh. cbn [flat_map] in Hh. rewrite !Nat.eqb_refl in Hh.
    cbn [andb app brun] in Hh.
    destruct (ModelHistory.step (r_bulk r c q) o) as [h1| |] eqn:S; cbn [rbind] in Hh |- *; try discriminate Hh.
    apply IH; [|exact F]. intros c' q'. cbn [set_bulk r_bulk].
    destruct (Nat.eqb c' c && Nat.eqb q' q)%bool eqn:E.
    + apply Bool.andb_true_iff in E. destruct E as [E1 E2]. apply Nat.eqb_eq in E1, E2. subst. eauto.
    + destruct (B c' q') as [g G]. unfold bulk_ops in G. cbn [flat_map] in G. rewrite E in G. eauto.
  - destruct (F k q) as [h Hh]. unfold face_ops in Hh. cbn [flat_map] in Hh.
    assert (R : ModelInterface.key_eqb k (make_key c n) = true)
      by (unfold ModelInterface.key_eqb, k; rewrite !Nat.eqb_refl; reflexivity).
    rewrite R, Nat.eqb_refl in Hh. cbn [andb app frun] in Hh.
    destruct (face_step (r_face r k q) o) as [h1| |] eqn:S; cbn [rbind] in Hh |- *; try discriminate Hh.
    fold k. apply IH; [exact B|]. intros k' q'. cbn [set_face r_face].
    destruct (ModelInterface.key_eqb k' k && Nat.eqb q' q)%bool eqn:E.
    + apply Bool.andb_true_iff in E. destruct E as [E1 E2]. apply Nat.eqb_eq in E2. subst.
      assert (K : k' = k).
      { unfold ModelInterface.key_eqb in E1. apply Bool.andb_true_iff in E1. destruct E1 as [P Q].
        apply Nat.eqb_eq in P, Q. destruct k' as [k1 k2], k; cbn in *; subst; reflexivity. }
      rewrite K. eauto.
    + destruct (F k' q') as [g G]. unfold face_ops in G. cbn [flat_map] in G. fold k in G. rewrite E in G. eauto.
Qed.

(** ** Which calls these are *)
Lemma bulk_ops_app c q a b : bulk_ops c q (a ++ b) = bulk_ops c q a ++ bulk_ops c q b.
Proof. apply flat_map_app. Qed.
Lemma face_ops_app k q a b : face_ops k q (a ++ b) = face_ops k q a ++ face_ops k q b.
Proof. apply flat_map_app. Qed.
Lemma bulk_ops_flat {A} c q (f : A -> list call) l : bulk_ops c q (flat_map f l) = flat_map (fun x => bulk_ops c q (f x)) l.
Proof. induction l; cbn [flat_map]; [reflexivity|]. rewrite bulk_ops_app, IHl. reflexivity. Qed.
Lemma face_ops_flat {A} k q (f : A -> list call) l : face_ops k q (flat_map f l) = flat_map (fun x => face_ops k q (f x)) l.
Proof. induction l; cbn [flat_map]; [reflexivity|]. rewrite face_ops_app, IHl. reflexivity. Qed.
Lemma flat_map_nil {A B} (f : A -> list B) l : (forall x, In x l -> f x = []) -> flat_map f l = [].
Proof. induction l as [|x l IH]; intros H; cbn; [reflexivity|]. rewrite H, IH by (cbn; auto; intros; apply H; right; auto). reflexivity. Qed.

Lemma bulk_of_points c q c' (f : nat -> list ModelHistory.op) n :
  bulk_ops c q (flat_map (fun q' => map (CBulk c' q') (f q')) (seq 0 n)) =
  if andb (Nat.eqb c c') (Nat.ltb q n) then f q else [].
Proof.
  rewrite bulk_ops_flat.
  assert (E : forall q', bulk_ops c q (map (CBulk c' q') (f q')) = if andb (Nat.eqb c c') (Nat.eqb q q') then f q' else []).
  { intros q'. unfold bulk_ops. induction (f q') as [|o os IH]; cbn [map flat_map]; [destruct (_ && _)%bool; reflexivity|].
    rewrite IH. destruct (_ && _)%bool; reflexivity. }
  destruct (Nat.ltb q n) eqn:L.
  - apply Nat.ltb_lt in L. rewrite Bool.andb_true_r. rewrite <- (firstn_skipn q (seq 0 n)).
    assert (SQ : seq 0 n = seq 0 q ++ q :: seq (S q) (n - S q)).
    { replace n with (q + S (n - S q))%nat at 1 by lia. rewrite seq_app. reflexivity. }
    rewrite firstn_skipn, SQ, flat_map_app. cbn [flat_map]. rewrite E, Nat.eqb_refl, Bool.andb_true_r.
    rewrite (flat_map_nil _ (seq 0 q)), (flat_map_nil _ (seq (S q) (n - S q))).
    + cbn. apply app_nil_r.
    + intros x Hx. apply in_seq in Hx. rewrite E. replace (Nat.eqb q x) with false by (symmetry; apply Nat.eqb_neq; lia).
      rewrite Bool.andb_false_r. reflexivity.
    + intros x Hx. apply in_seq in Hx. rewrite E. replace (Nat.eqb q x) with false by (symmetry; apply Nat.eqb_neq; lia).
      rewrite Bool.andb_false_r. reflexivity.
  - apply Nat.ltb_ge in L. rewrite Bool.andb_false_r. apply flat_map_nil. intros x Hx. apply in_seq in Hx. rewrite E.
    replace (Nat.eqb q x) with false by (symmetry; apply Nat.eqb_neq; lia). rewrite Bool.andb_false_r. reflexivity.
Qed.
Lemma face_of_points k q c n (f : nat -> face_call) m :
  face_ops k q (map (fun q' => CFace c n q' (f q')) (seq 0 m)) =
  if andb (ModelInterface.key_eqb k (make_key c n)) (Nat.ltb q m) then [f q] else [].
Proof.
  unfold face_ops. rewrite flat_map_concat_map, map_map, <- flat_map_concat_map.
  destruct (ModelInterface.key_eqb k (make_key c n)); cbn [andb].
  - destruct (Nat.ltb q m) eqn:L.
    + apply Nat.ltb_lt in L.
      assert (SQ : seq 0 m = seq 0 q ++ q :: seq (S q) (m - S q)).
      { replace m with (q + S (m - S q))%nat at 1 by lia. rewrite seq_app. reflexivity. }
      rewrite SQ, flat_map_app. cbn [flat_map]. rewrite Nat.eqb_refl.
      rewrite (flat_map_nil _ (seq 0 q)), (flat_map_nil _ (seq (S q) (m - S q))); [reflexivity| |];
        intros x Hx; apply in_seq in Hx; replace (Nat.eqb q x) with false by (symmetry; apply Nat.eqb_neq; lia); reflexivity.
    + apply Nat.ltb_ge in L. apply flat_map_nil. intros x Hx. apply in_seq in Hx.
      replace (Nat.eqb q x) with false by (symmetry; apply Nat.eqb_neq; lia). reflexivity.
  - apply flat_map_nil. reflexivity.
Qed.

(** A cell's point: its cell's calls, once. *)
Lemma bulk_sweep e cells w c q : NoDup cells ->
  bulk_ops c q (sweep_calls e cells w) = if andb (mem c cells) (Nat.ltb q (w_nq e)) then bulk_call e w c q else [].
Proof.
  intros N. unfold sweep_calls. rewrite bulk_ops_flat.
  assert (E : forall c', bulk_ops c q (cell_calls e w c') = if andb (Nat.eqb c c') (Nat.ltb q (w_nq e)) then bulk_call e w c' q else []).
  { intros c'. unfold cell_calls. rewrite bulk_ops_app, bulk_of_points, bulk_ops_flat, (flat_map_nil _ (visited _ _ _)).
    - apply app_nil_r.
    - intros n _. unfold bulk_ops. rewrite flat_map_concat_map, map_map, <- flat_map_concat_map. apply flat_map_nil. reflexivity. }
  rewrite (flat_map_ext _ (fun c' => if andb (Nat.eqb c c') (Nat.ltb q (w_nq e)) then bulk_call e w c' q else [])) by exact E.
  clear E. induction N as [|c' cells X N IH]; [reflexivity|]. cbn [flat_map]. rewrite IH.
  unfold mem. cbn [existsb]. fold (mem c cells). destruct (Nat.eqb c c') eqn:C; cbn [orb].
  - apply Nat.eqb_eq in C. subst c'. rewrite (proj2 (mem_not_In c cells) X). cbn [andb]. apply app_nil_r.
  - reflexivity.
Qed.
(** The visits of an interface. *)
Definition visits (e : sweep_env) (cells : list nat) (k : ModelInterface.key) : list (nat * nat) :=
  filter (fun v => ModelInterface.key_eqb k (make_key (fst v) (snd v)))
    (flat_map (fun c => map (pair c) (visited (w_mesh e) (w_decohesion e) c)) cells).
Lemma filter_app' {A} (f : A -> bool) a b : filter f (a ++ b) = filter f a ++ filter f b.
Proof. induction a as [|x a IH]; cbn; [reflexivity|]. rewrite IH. destruct (f x); reflexivity. Qed.
Lemma face_sweep e cells w k q :
  face_ops k q (sweep_calls e cells w) =
  if Nat.ltb q (w_nfq e) then map (fun v => face_call_of e w (fst v) (snd v) q) (visits e cells k) else [].
Proof.
  unfold sweep_calls, visits. rewrite face_ops_flat. induction cells as [|c cells IH].
  - cbn [flat_map filter map]. destruct (Nat.ltb q (w_nfq e)); reflexivity.
  - cbn [flat_map]. rewrite IH, filter_app', map_app. clear IH.
    assert (E : face_ops k q (cell_calls e w c) =
      if Nat.ltb q (w_nfq e) then map (fun v => face_call_of e w (fst v) (snd v) q)
        (filter (fun v => ModelInterface.key_eqb k (make_key (fst v) (snd v)))
           (map (pair c) (visited (w_mesh e) (w_decohesion e) c))) else []).
    { unfold cell_calls. rewrite face_ops_app, face_ops_flat, (flat_map_nil _ (seq 0 (w_nq e))).
      - cbn [app]. rewrite face_ops_flat. induction (visited (w_mesh e) (w_decohesion e) c) as [|n ns IH].
        + cbn [flat_map filter map]. destruct (Nat.ltb q (w_nfq e)); reflexivity.
        + cbn [flat_map map filter fst snd]. rewrite IH, face_of_points.
          destruct (ModelInterface.key_eqb k (make_key c n)), (Nat.ltb q (w_nfq e)); reflexivity.
      - intros q' _. unfold face_ops. rewrite flat_map_concat_map, map_map, <- flat_map_concat_map.
        apply flat_map_nil. reflexivity. }
    rewrite E. destruct (Nat.ltb q (w_nfq e)); reflexivity.
Qed.

Lemma in_visited m c n : In n (visited m true c) <-> grain_neighbours m c n.
Proof.
  unfold visited, grain_neighbours, at_grain_boundary. rewrite Bool.andb_true_r.
  assert (F : In n (flat_map (fun f => match f with
                          | Some n => if to_other_grain m c f then [n] else []
                          | None => [] end) (sm_faces m c)) <->
              In (Some n) (sm_faces m c) /\ sm_material m c <> sm_material m n).
  { rewrite in_flat_map. split.
    - intros (f & Hf & X). destruct f as [n'|]; [|destruct X]. unfold to_other_grain in X.
      destruct (Nat.eqb (sm_material m c) (sm_material m n')) eqn:Q; [destruct X|]. destruct X as [<-|[]].
      apply Nat.eqb_neq in Q. auto.
    - intros [Hf Q]. exists (Some n). split; [exact Hf|]. unfold to_other_grain.
      rewrite (proj2 (Nat.eqb_neq _ _) Q). left. reflexivity. }
  destruct (existsb _ _) eqn:G.
  - exact F.
  - split; [intros []|]. rewrite <- F. intros X. rewrite in_flat_map in X. destruct X as (f & Hf & X).
    assert (T : existsb (to_other_grain m c) (sm_faces m c) = true).
    { apply existsb_exists. exists f. split; [exact Hf|]. destruct f; [|destruct X].
      destruct (to_other_grain m c (Some n0)); [reflexivity|destruct X]. }
    congruence.
Qed.
Lemma make_key_sym a b : make_key a b = make_key b a.
Proof. unfold make_key. destruct (Nat.ltb_spec a b), (Nat.ltb_spec b a); try reflexivity; try lia. assert (a = b) by lia; subst; reflexivity. Qed.
Lemma make_key_inj a b c n : make_key a b = make_key c n -> (c = a /\ n = b) \/ (c = b /\ n = a).
Proof.
  unfold make_key. destruct (Nat.ltb_spec a b), (Nat.ltb_spec c n); intros E; injection E; intros; subst; auto.
Qed.
Lemma key_eqb_true k l : ModelInterface.key_eqb k l = true <-> k = l.
Proof.
  unfold ModelInterface.key_eqb. rewrite Bool.andb_true_iff, !Nat.eqb_eq. destruct k, l; cbn. split.
  - intros [-> ->]; reflexivity.
  - intros E; injection E; auto.
Qed.
(** Both sides, and only they, visit the interface. *)
Lemma in_visits e cells a b v : w_decohesion e = true -> mutual (w_mesh e) -> grain_neighbours (w_mesh e) a b ->
  (In v (visits e cells (make_key a b)) <-> (v = (a, b) /\ In a cells) \/ (v = (b, a) /\ In b cells)).
Proof.
  intros D M G. assert (G' : grain_neighbours (w_mesh e) b a) by (destruct G; split; [apply M|]; auto).
  unfold visits. rewrite filter_In, in_flat_map, key_eqb_true, D. split.
  - intros ((c & Hc & X) & K). apply in_map_iff in X. destruct X as (n & <- & X). cbn [fst snd] in K.
    apply make_key_inj in K. destruct K as [[-> ->]|[-> ->]]; auto.
  - intros [[-> H]|[-> H]]; (split; [|cbn [fst snd]; auto using make_key_sym]); eexists; (split; [exact H|]);
      apply in_map, in_visited; assumption.
Qed.
Lemma no_visits e cells k : w_decohesion e = false -> visits e cells k = [].
Proof.
  intros D. unfold visits. rewrite (flat_map_nil _ cells); [reflexivity|]. intros c _. unfold visited.
  rewrite D, Bool.andb_false_r. reflexivity.
Qed.

(** ** Both sides make the same call *)
Lemma vsub_neg a b : vsub a b = vneg (vsub b a).
Proof. apply functional_extensionality. intros i. unfold vsub, vneg. ring. Qed.
Lemma opening_symmetric e x a b q : opposite_normals e -> grain_neighbours (w_mesh e) a b -> opening_from e x b a q = opening_from e x a b q.
Proof.
  intros O G. unfold opening_from. rewrite (O a b q G), (vsub_neg (f_displacement x a b q)), !eff_eq. apply opening_neg.
Qed.
Lemma stored_symmetric r d u v n : stored_opening r d u v (vneg n) = stored_opening r d v u n.
Proof.
  unfold stored_opening.
  assert (P : normal_projector (vneg n) = normal_projector n).
  { apply functional_extensionality; intros i; apply functional_extensionality; intros j.
    unfold normal_projector, symmetrize, outer, vneg. field. }
  assert (T : tangential_projector (vneg n) = tangential_projector n) by (unfold tangential_projector; rewrite P; reflexivity).
  rewrite P, T, (vsub_neg v u).
  assert (Q : forall M w, norm d (mv d M (vneg w)) = norm d (mv d M w)).
  { intros M w. unfold norm. f_equal. apply sumn_ext; intros i _.
    assert (E : mv d M (vneg w) i = - mv d M w i).
    { unfold mv, vneg. generalize d. intros k. induction k as [|k IH]; cbn [sumn]; [ring|]. rewrite IH. ring. }
    rewrite E. ring. }
  rewrite !Q. reflexivity.
Qed.
Lemma same_call e w a b q s : w_model e = OrtizEtAl -> opposite_normals e -> grain_neighbours (w_mesh e) a b ->
  face_step s (face_call_of e w b a q) = face_step s (face_call_of e w a b q).
Proof.
  intros M O G. destruct w as [| | |x|x]; cbn [face_call_of]; try reflexivity.
  - rewrite M, opening_symmetric by assumption. reflexivity.
  - rewrite (O a b q G). cbn [face_step istep]. rewrite stored_symmetric. reflexivity.
Qed.
Lemma repeated_call e w a b q s s' : w_model e = OrtizEtAl ->
  face_step s (face_call_of e w a b q) = Ok s' -> face_step s' (face_call_of e w a b q) = Ok s'.
Proof.
  intros M. destruct w as [| | |x|x]; cbn [face_call_of face_step].
  - cbn [istep]. destruct (i_prm s) eqn:P; intros E; injection E as <-; cbn [i_prm]; rewrite ?P; reflexivity.
  - cbn [istep]. intros E; injection E as <-; reflexivity.
  - cbn [istep]. intros E; injection E as <-; reflexivity.
  - rewrite M. cbn [face_step istep]. destruct (i_prm s) eqn:P; [|discriminate]. intros E; injection E as <-.
    cbn [i_prm i_tmp0 i_tmp1 i_old]. reflexivity.
  - cbn [istep]. intros E; injection E as <-. reflexivity.
Qed.
Lemma frun_app s a b : frun s (a ++ b) = rbind (frun s a) (fun t => frun t b).
Proof. revert s. induction a as [|o a IH]; intros s; cbn; [reflexivity|]. destruct (face_step s o); cbn; auto. Qed.

(** A sweep is one call on the point, from whichever side. *)
Lemma face_once e cells w a b q s : w_model e = OrtizEtAl -> opposite_normals e -> mutual (w_mesh e) ->
  w_decohesion e = true -> grain_neighbours (w_mesh e) a b -> owns_a_side cells a b -> (q < w_nfq e)%nat ->
  frun s (face_ops (make_key a b) q (sweep_calls e cells w)) = face_step s (face_call_of e w a b q).
Proof.
  intros M O MU D G OW Q. rewrite face_sweep, (proj2 (Nat.ltb_lt _ _) Q).
  assert (V : forall v, In v (visits e cells (make_key a b)) -> v = (a, b) \/ v = (b, a)).
  { intros v Hv. apply (in_visits e cells a b v D MU G) in Hv. tauto. }
  assert (NE : visits e cells (make_key a b) <> []).
  { destruct OW as [H|H]; [assert (X : In (a, b) (visits e cells (make_key a b)))|assert (X : In (b, a) (visits e cells (make_key a b)))];
      try (apply (in_visits e cells a b _ D MU G); tauto); intros E; rewrite E in X; destruct X. }
  revert V NE. generalize (visits e cells (make_key a b)) as vs. intros vs V NE.
  assert (S : forall v t, In v vs -> face_step t (face_call_of e w (fst v) (snd v) q) = face_step t (face_call_of e w a b q)).
  { intros v t Hv. destruct (V v Hv) as [-> | ->]; cbn [fst snd]; [reflexivity|apply same_call; assumption]. }
  destruct vs as [|v vs]; [congruence|]. cbn [map frun]. rewrite S by (left; reflexivity).
  destruct (face_step s (face_call_of e w a b q)) as [t| |] eqn:E; try reflexivity. cbn [rbind].
  apply repeated_call in E; [|exact M]. clear NE.
  assert (S' : forall v', In v' vs -> face_step t (face_call_of e w (fst v') (snd v') q) = Ok t).
  { intros v' Hv. rewrite S by (right; exact Hv). exact E. }
  clear - S'. induction vs as [|v' vs IH]; [reflexivity|]. cbn [map frun]. rewrite S' by (left; reflexivity).
  cbn [rbind]. apply IH. intros; apply S'; right; assumption.
Qed.
Lemma face_once_run e cells ws a b q : w_model e = OrtizEtAl -> opposite_normals e -> mutual (w_mesh e) ->
  w_decohesion e = true -> grain_neighbours (w_mesh e) a b -> owns_a_side cells a b -> (q < w_nfq e)%nat ->
  forall s, frun s (face_ops (make_key a b) q (flat_map (sweep_calls e cells) ws)) =
            frun s (map (fun w => face_call_of e w a b q) ws).
Proof.
  intros M O MU D G OW Q. rewrite face_ops_flat. induction ws as [|w ws IH]; intros s; [reflexivity|].
  cbn [flat_map map frun]. rewrite frun_app, face_once by assumption.
  destruct (face_step s (face_call_of e w a b q)); cbn; auto.
Qed.
Lemma bulk_once_run e cells ws c q : NoDup cells ->
  bulk_ops c q (flat_map (sweep_calls e cells) ws) =
  if andb (mem c cells) (Nat.ltb q (w_nq e)) then flat_map (fun w => bulk_call e w c q) ws else [].
Proof.
  intros N. rewrite bulk_ops_flat.
  rewrite (flat_map_ext _ (fun w => if andb (mem c cells) (Nat.ltb q (w_nq e)) then bulk_call e w c q else []))
    by (intros w; apply bulk_sweep; exact N).
  destruct (mem c cells && Nat.ltb q (w_nq e))%bool; [reflexivity|apply flat_map_nil; reflexivity].
Qed.
Lemma face_none e cells ws a b q : (w_decohesion e = false \/ (w_nfq e <= q)%nat \/ 
    mutual (w_mesh e) /\ grain_neighbours (w_mesh e) a b /\ ~ owns_a_side cells a b) ->
  face_ops (make_key a b) q (flat_map (sweep_calls e cells) ws) = [].
Proof.
  intros H. rewrite face_ops_flat. apply flat_map_nil. intros w _. rewrite face_sweep.
  destruct (Nat.ltb q (w_nfq e)) eqn:L; [|reflexivity]. apply Nat.ltb_lt in L.
  destruct (w_decohesion e) eqn:D; [|rewrite no_visits by exact D; reflexivity].
  destruct H as [H|[H|(MU & G & NO)]]; [discriminate|lia|].
  destruct (visits e cells (make_key a b)) as [|v vs] eqn:V; [reflexivity|]. exfalso. apply NO.
  assert (X : In v (visits e cells (make_key a b))) by (rewrite V; left; reflexivity).
  apply (in_visits e cells a b v D MU G) in X. unfold owns_a_side. tauto.
Qed.

(** *** C90
    Whatever cells two ranks (of one run, or of two runs with different numbers of ranks) own
    and in whatever order they visit them: they agree on all history objects both of them
    hold, if they agreed before. *)
Theorem C90_histories_do_not_depend_on_the_partition : forall e ws cells1 cells2 r1 r2 s1 s2,
  w_model e = OrtizEtAl -> opposite_normals e -> mutual (w_mesh e) -> NoDup cells1 -> NoDup cells2 ->
  run_sweeps e cells1 ws r1 = Ok s1 -> run_sweeps e cells2 ws r2 = Ok s2 ->
  (forall c q, In c cells1 -> In c cells2 -> r_bulk r1 c q = r_bulk r2 c q -> r_bulk s1 c q = r_bulk s2 c q) /\
  (forall a b q, grain_neighbours (w_mesh e) a b -> owns_a_side cells1 a b -> owns_a_side cells2 a b ->
     r_face r1 (make_key a b) q = r_face r2 (make_key a b) q ->
     r_face s1 (make_key a b) q = r_face s2 (make_key a b) q).
Proof.
  intros e ws cells1 cells2 r1 r2 s1 s2 M O MU N1 N2 E1 E2. unfold run_sweeps in *. split.
  - intros c q I1 I2 A. pose proof (exec_all_bulk c q _ _ _ E1) as B1. pose proof (exec_all_bulk c q _ _ _ E2) as B2.
    rewrite bulk_once_run in B1, B2 by assumption. rewrite (proj2 (mem_In _ _) I1) in B1.
    rewrite (proj2 (mem_In _ _) I2), <- A, B1 in B2. injection B2. auto.
  - intros a b q G O1 O2 A. pose proof (exec_all_face (make_key a b) q _ _ _ E1) as B1.
    pose proof (exec_all_face (make_key a b) q _ _ _ E2) as B2.
    destruct (Nat.lt_ge_cases q (w_nfq e)) as [Q|Q].
    + destruct (w_decohesion e) eqn:D.
      * rewrite face_once_run in B1, B2 by assumption. rewrite <- A, B1 in B2. injection B2. auto.
      * rewrite face_none in B1, B2 by auto. cbn in B1, B2. congruence.
    + rewrite face_none in B1, B2 by auto. cbn in B1, B2. congruence.
Qed.

(** Every object gets each call exactly once, as in a run on one rank that visited it once;
    objects of other ranks are left alone. *)
Theorem C90_every_sweep_counts_once : forall e ws cells r s,
  w_model e = OrtizEtAl -> opposite_normals e -> mutual (w_mesh e) -> w_decohesion e = true -> NoDup cells ->
  run_sweeps e cells ws r = Ok s ->
  (forall c q, In c cells -> (q < w_nq e)%nat ->
     brun (r_bulk r c q) (flat_map (fun w => bulk_call e w c q) ws) = Ok (r_bulk s c q)) /\
  (forall a b q, grain_neighbours (w_mesh e) a b -> owns_a_side cells a b -> (q < w_nfq e)%nat ->
     frun (r_face r (make_key a b) q) (map (fun w => face_call_of e w a b q) ws) = Ok (r_face s (make_key a b) q)) /\
  (forall c q, ~ In c cells -> r_bulk s c q = r_bulk r c q) /\
  (forall a b q, grain_neighbours (w_mesh e) a b -> ~ owns_a_side cells a b ->
     r_face s (make_key a b) q = r_face r (make_key a b) q).
Proof.
  intros e ws cells r s M O MU D N E. unfold run_sweeps in E. split; [|split; [|split]].
  - intros c q I Q. pose proof (exec_all_bulk c q _ _ _ E) as B. rewrite bulk_once_run in B by assumption.
    rewrite (proj2 (mem_In _ _) I), (proj2 (Nat.ltb_lt _ _) Q) in B. exact B.
  - intros a b q G OW Q. pose proof (exec_all_face (make_key a b) q _ _ _ E) as B.
    rewrite face_once_run in B by assumption. exact B.
  - intros c q I. pose proof (exec_all_bulk c q _ _ _ E) as B. rewrite bulk_once_run in B by assumption.
    rewrite (proj2 (mem_not_In _ _) I) in B. cbn in B. congruence.
  - intros a b q G OW. pose proof (exec_all_face (make_key a b) q _ _ _ E) as B. rewrite face_none in B by auto.
    cbn in B. congruence.
Qed.

(** The sweeps complete on every rank of a partition iff they complete on one rank. *)
Lemma visits_nonempty e cells k v : In v (visits e cells k) ->
  w_decohesion e = true /\ grain_neighbours (w_mesh e) (fst v) (snd v) /\ k = make_key (fst v) (snd v) /\ In (fst v) cells.
Proof.
  intros H. destruct (w_decohesion e) eqn:D; [|rewrite no_visits in H by exact D; destruct H].
  unfold visits in H. rewrite filter_In, in_flat_map, key_eqb_true, D in H.
  destruct H as ((c & Hc & X) & K). apply in_map_iff in X. destruct X as (n & <- & X). cbn [fst snd] in *.
  apply in_visited in X. auto.
Qed.
Lemma exec_covered e ws own r : w_model e = OrtizEtAl -> opposite_normals e -> mutual (w_mesh e) -> NoDup own ->
  (forall c, In c own -> exists cells s, NoDup cells /\ In c cells /\ run_sweeps e cells ws r = Ok s) ->
  exists t, run_sweeps e own ws r = Ok t.
Proof.
  intros M O MU N C. unfold run_sweeps. apply exec_all_ok.
  - intros c q. rewrite bulk_once_run by exact N. destruct (mem c own) eqn:I; [|eexists; reflexivity].
    apply mem_In in I. destruct (C c I) as (cells & s & NC & IC & E).
    pose proof (exec_all_bulk c q _ _ _ E) as B. rewrite bulk_once_run in B by exact NC.
    rewrite (proj2 (mem_In _ _) IC) in B. eauto.
  - intros k q. destruct (Nat.lt_ge_cases q (w_nfq e)) as [Q|Q].
    + destruct (visits e own k) as [|v vs] eqn:V.
      * exists (r_face r k q). assert (Z : face_ops k q (flat_map (sweep_calls e own) ws) = []); [|rewrite Z; reflexivity].
        rewrite face_ops_flat. apply flat_map_nil. intros w _. rewrite face_sweep, V.
        destruct (Nat.ltb q (w_nfq e)); reflexivity.
      * destruct (visits_nonempty e own k v ltac:(rewrite V; left; reflexivity)) as (D & G & -> & I).
        destruct (C _ I) as (cells & s & NC & IC & E).
        pose proof (exec_all_face (make_key (fst v) (snd v)) q _ _ _ E) as B.
        rewrite face_once_run in B by (auto; left; exact IC).
        rewrite face_once_run by (auto; left; exact I). eauto.
    + exists (r_face r k q). assert (Z : face_ops k q (flat_map (sweep_calls e own) ws) = []); [|rewrite Z; reflexivity].
      rewrite face_ops_flat. apply flat_map_nil. intros w _. rewrite face_sweep, (proj2 (Nat.ltb_ge _ _) Q). reflexivity.
Qed.
Lemma NoDup_concat_in {A} (ls : list (list A)) l : NoDup (concat ls) -> In l ls -> NoDup l.
Proof.
  induction ls as [|x ls IH]; intros N I; [destruct I|]. cbn in N. destruct I as [->|I].
  - clear - N. induction l as [|y l IH]; [constructor|]. cbn in N. inversion N; subst. constructor; [|auto].
    intros X. apply H1, in_or_app. auto.
  - apply IH; [|exact I]. clear - N. induction x as [|y x IH]; [exact N|]. cbn in N. inversion N; subst. auto.
Qed.
Theorem C90_completes_on_every_partition_or_none : forall e ws ranks cells r,
  w_model e = OrtizEtAl -> opposite_normals e -> mutual (w_mesh e) -> NoDup cells -> partition ranks cells ->
  ((exists s, run_sweeps e cells ws r = Ok s) <->
   (forall own, In own ranks -> exists s, run_sweeps e own ws r = Ok s)).
Proof.
  intros e ws ranks cells r M O MU N P. unfold partition in P.
  assert (NC : NoDup (concat ranks)) by (eapply Permutation_NoDup; [apply Permutation_sym; exact P|exact N]).
  split.
  - intros (s & E) own I. apply exec_covered; auto; [eapply NoDup_concat_in; eauto|].
    intros c Hc. exists cells, s. split; [exact N|]. split; [|exact E].
    eapply Permutation_in; [exact P|]. apply in_concat. eauto.
  - intros A. apply exec_covered; auto. intros c Hc.
    apply (Permutation_in _ (Permutation_sym P)) in Hc. apply in_concat in Hc. destruct Hc as (own & I & Hc).
    destruct (A own I) as (s & E). exists own, s. split; [eapply NoDup_concat_in; eauto|]. auto.
Qed.

(** ** The rate model *)
Lemma NoDup_map_pair {A B} (x : A) (l : list B) : NoDup l -> NoDup (map (pair x) l).
Proof.
  induction 1 as [|y l X N IH]; cbn; constructor; [|exact IH].
  intros H. apply in_map_iff in H. destruct H as (z & E & H). injection E as ->. contradiction.
Qed.
Lemma NoDup_app_disjoint {A} (a b : list A) : NoDup a -> NoDup b -> (forall x, In x a -> ~ In x b) -> NoDup (a ++ b).
Proof.
  intros Na Nb D. induction Na as [|x a X Na IH]; [exact Nb|]. cbn. constructor.
  - intros H. apply in_app_or in H. destruct H as [H|H]; [contradiction|]. apply (D x); [left; reflexivity|exact H].
  - apply IH. intros y Hy. apply D. right. exact Hy.
Qed.
Lemma NoDup_visited m dec c : one_common_face m -> NoDup (visited m dec c).
Proof.
  intros U. unfold visited. destruct (andb _ _); [|constructor]. specialize (U c).
  induction (sm_faces m c) as [|f fs IH]; cbn [flat_map] in *; [constructor|].
  destruct f as [n|]; [|apply IH; exact U]. cbn [app] in U. inversion U; subst.
  destruct (to_other_grain m c (Some n)); [|apply IH; assumption]. cbn [app]. constructor; [|apply IH; assumption].
  intros X. apply H1. apply in_flat_map in X. destruct X as (f & Hf & X). apply in_flat_map. exists f. split; [exact Hf|].
  destruct f as [n'|]; [|exact X]. destruct (to_other_grain m c (Some n')); [exact X|destruct X].
Qed.
Lemma NoDup_visits e cells k : one_common_face (w_mesh e) -> NoDup cells -> NoDup (visits e cells k).
Proof.
  intros U N. unfold visits. apply NoDup_filter. induction N as [|c cells X N IH]; cbn [flat_map]; [constructor|].
  apply NoDup_app_disjoint; [apply NoDup_map_pair, NoDup_visited; exact U|exact IH|].
  intros v Hv Hw. apply in_map_iff in Hv. destruct Hv as (n & <- & _). apply in_flat_map in Hw.
  destruct Hw as (c' & Hc & Hw). apply in_map_iff in Hw. destruct Hw as (n' & E & _). injection E as <- _. contradiction.
Qed.
Lemma visits_length e cells a b : w_decohesion e = true -> mutual (w_mesh e) -> one_common_face (w_mesh e) ->
  NoDup cells -> grain_neighbours (w_mesh e) a b ->
  length (visits e cells (make_key a b)) = ((if mem a cells then 1 else 0) + (if mem b cells then 1 else 0))%nat.
Proof.
  intros D MU U N G. assert (AB : a <> b) by (destruct G as [_ G]; intros ->; congruence).
  set (exp := (if mem a cells then [(a, b)] else []) ++ (if mem b cells then [(b, a)] else [])).
  assert (P : Permutation (visits e cells (make_key a b)) exp).
  { apply NoDup_Permutation.
    - apply NoDup_visits; assumption.
    - unfold exp. destruct (mem a cells), (mem b cells); cbn; repeat constructor; cbn; intuition congruence.
    - intros v. rewrite (in_visits e cells a b v D MU G). unfold exp. rewrite in_app_iff, <- !mem_In.
      destruct (mem a cells), (mem b cells); cbn; intuition congruence. }
  rewrite (Permutation_length P). unfold exp. rewrite app_length. destruct (mem a cells), (mem b cells); reflexivity.
Qed.
Lemma same_call_rate e w a b q s : opposite_normals e -> grain_neighbours (w_mesh e) a b -> same_energy w ->
  face_step s (face_call_of e w b a q) = face_step s (face_call_of e w a b q).
Proof.
  intros O G S. destruct w as [| | |x|x]; cbn [face_call_of]; try reflexivity.
  - rewrite opening_symmetric by assumption. cbn in S. rewrite (S b a q). destruct (w_model e); reflexivity.
  - rewrite (O a b q G). cbn [face_step istep]. rewrite stored_symmetric. reflexivity.
Qed.
Lemma frun_same_length A l1 : forall l2 s, length l1 = length l2 ->
  (forall o t, In o l1 -> face_step t o = face_step t A) -> (forall o t, In o l2 -> face_step t o = face_step t A) ->
  frun s l1 = frun s l2.
Proof.
  induction l1 as [|o l1 IH]; intros [|o2 l2] s L H1 H2; cbn in L; try discriminate; [reflexivity|].
  cbn [frun]. rewrite (H1 o s), (H2 o2 s) by (left; reflexivity). destruct (face_step s A) as [t| |]; cbn; try reflexivity.
  apply IH; [lia| |]; intros; [apply H1|apply H2]; right; assumption.
Qed.
(** With the rate model (and with any other) two ranks agree on an interface if both own the
    same number of its sides. *)
Theorem C90_rate_model_partial : forall e ws cells1 cells2 r1 r2 s1 s2,
  opposite_normals e -> mutual (w_mesh e) -> one_common_face (w_mesh e) -> NoDup cells1 -> NoDup cells2 ->
  (forall w, In w ws -> same_energy w) ->
  run_sweeps e cells1 ws r1 = Ok s1 -> run_sweeps e cells2 ws r2 = Ok s2 ->
  forall a b q, grain_neighbours (w_mesh e) a b -> owns_a_side cells1 a b -> owns_a_side cells2 a b ->
    (owns_both_sides cells1 a b <-> owns_both_sides cells2 a b) ->
    r_face r1 (make_key a b) q = r_face r2 (make_key a b) q ->
    r_face s1 (make_key a b) q = r_face s2 (make_key a b) q.
Proof.
  intros e ws cells1 cells2 r1 r2 s1 s2 O MU U N1 N2 S E1 E2 a b q G O1 O2 BB A. unfold run_sweeps in *.
  pose proof (exec_all_face (make_key a b) q _ _ _ E1) as B1. pose proof (exec_all_face (make_key a b) q _ _ _ E2) as B2.
  enough (X : forall s, frun s (face_ops (make_key a b) q (flat_map (sweep_calls e cells1) ws)) =
                        frun s (face_ops (make_key a b) q (flat_map (sweep_calls e cells2) ws))).
  { rewrite X, A, B2 in B1. congruence. }
  clear - O MU U N1 N2 S G O1 O2 BB. rewrite !face_ops_flat.
  destruct (w_decohesion e) eqn:D; [|intros s].
  2:{ rewrite !(flat_map_nil _ ws); [reflexivity| |]; intros w _; rewrite face_sweep, no_visits by exact D;
      destruct (Nat.ltb q (w_nfq e)); reflexivity. }
  induction ws as [|w ws IH]; intros s; [reflexivity|]. cbn [flat_map]. rewrite !frun_app.
  assert (Y : frun s (face_ops (make_key a b) q (sweep_calls e cells1 w)) = frun s (face_ops (make_key a b) q (sweep_calls e cells2 w))).
  { rewrite !face_sweep. destruct (Nat.ltb q (w_nfq e)); [|reflexivity].
    assert (Z : forall cells o t, In o (map (fun v => face_call_of e w (fst v) (snd v) q) (visits e cells (make_key a b))) ->
      face_step t o = face_step t (face_call_of e w a b q)).
    { intros cells o t Ho. apply in_map_iff in Ho. destruct Ho as (v & <- & Hv).
      apply (in_visits e cells a b v D MU G) in Hv. destruct Hv as [[-> _]|[-> _]]; [reflexivity|].
      apply same_call_rate; [exact O|exact G|apply S; left; reflexivity]. }
    apply (frun_same_length (face_call_of e w a b q)); [|apply Z|apply Z].
    rewrite !map_length, !visits_length by assumption. unfold owns_a_side, owns_both_sides in *. rewrite <- !mem_In in *.
    destruct (mem a cells1), (mem b cells1), (mem a cells2), (mem b cells2); try reflexivity; exfalso; intuition congruence. }
  rewrite Y. destruct (frun s (face_ops _ _ (sweep_calls e cells2 w))) as [t| |]; cbn [rbind]; try reflexivity.
  apply IH. intros w0 H0. apply S. right. exact H0.
Qed.

(** Two cells, one interface point that opens by one. *)
Definition pair_mesh : sweep_mesh := mk_sweep_mesh (fun c => c)
  (fun c => match c with 0%nat => [None; Some 1%nat] | 1%nat => [Some 0%nat] | _ => [] end).
Definition along (x : R) : vec := fun i => if Nat.eqb i 0 then x else 0.
Definition pair_fields : fields :=
  mk_fields (fun _ => []) (fun _ => []) (fun c _ _ => if Nat.eqb c 0 then along 0 else along 1) (fun _ _ _ => 1/4).
Definition pair_env (m : damage_model) : sweep_env :=
  mk_sweep_env pair_mesh true 1 1 2 (mk_hardening 1 0 0 true) 0 1 prm_m1 (mk_cohesive 1 1 1 1 1) 1 m
    (fun c _ _ => if Nat.eqb c 0 then along 1 else vneg (along 1)).
Definition pair_start : rank_data := mk_rank_data (fun _ _ => ModelHistory.construct (mk_hardening 1 0 0 true) 1) (fun _ _ => i_construct).

Lemma pair_neighbours a b : grain_neighbours pair_mesh a b <-> (a = 0 /\ b = 1)%nat \/ (a = 1 /\ b = 0)%nat.
Proof.
  split.
  - intros [I _]. unfold pair_mesh in I. cbn [sm_faces] in I. destruct a as [|[|a]].
    + destruct I as [I|[I|[]]]; [discriminate|]. injection I as <-. auto.
    + destruct I as [I|[]]. injection I as <-. auto.
    + destruct I.
  - intros [[-> ->]|[-> ->]]; (split; [|cbn; discriminate]); cbn; auto.
Qed.
Lemma pair_well_formed m : opposite_normals (pair_env m) /\ mutual (w_mesh (pair_env m)) /\ one_common_face (w_mesh (pair_env m)).
Proof.
  split; [|split].
  - intros a b q G. apply pair_neighbours in G. destruct G as [[-> ->]|[-> ->]]; cbn; [reflexivity|].
    apply functional_extensionality. intros i. unfold vneg. ring.
  - intros a b I. destruct a as [|[|a]]; cbn in I.
    + destruct I as [I|[I|[]]]; [discriminate|]. injection I as <-. cbn. auto.
    + destruct I as [I|[]]. injection I as <-. cbn. auto.
    + destruct I.
  - intros [|[|a]]; cbn; repeat constructor; auto.
Qed.
Lemma pair_opening m : opening_from (pair_env m) pair_fields 0 1 0 = 1 /\ opening_from (pair_env m) pair_fields 1 0 0 = 1.
Proof.
  assert (A : opening_from (pair_env m) pair_fields 0 1 0 = 1).
  { unfold opening_from. change (w_dim (pair_env m)) with 2%nat. change (ratio (w_cohesive (pair_env m))) with 1.
    unfold effective_opening.
    assert (D : dot 2 (w_normal (pair_env m) 0 1 0) (vsub (f_displacement pair_fields 1 0 0) (f_displacement pair_fields 0 1 0)) = 1)
      by (cbn; unfold vsub, along; cbn; ring).
    assert (T : norm 2 (mv 2 (tangential_projector (w_normal (pair_env m) 0 1 0))
                 (vsub (f_displacement pair_fields 1 0 0) (f_displacement pair_fields 0 1 0))) = 0).
    { unfold norm. rewrite <- sqrt_0. f_equal. unfold dot, mv, tangential_projector, normal_projector, symmetrize, outer, msub, unit_mat, kron.
      cbn. unfold vsub, along; cbn. field. }
    cbv zeta. rewrite D, T. unfold macaulay_brackets. rewrite (proj2 (Rltb_true 0 1)) by lra.
    replace (1 * 1 + 1 * 1 * 0 * 0) with 1 by ring. apply sqrt_1. }
  split; [exact A|]. destruct (pair_well_formed m) as (O & _).
  rewrite <- A. apply opening_symmetric; [exact O|]. apply pair_neighbours. auto.
Qed.
(** The sweeps of a rank owning [cells] of the pair, from the face's point of view. *)
Definition pair_ops (m : damage_model) (v : nat * nat) (w : sweep) : face_call := face_call_of (pair_env m) w (fst v) (snd v) 0.
Lemma pair_run m cells h : cells = [0%nat] \/ cells = [1%nat] \/ cells = [0; 1]%nat ->
  frun i_construct (flat_map (fun w => map (fun v => pair_ops m v w) (visits (pair_env m) cells (0, 1)%nat)) [Initialise; Refresh pair_fields]) = Ok h ->
  exists s, run_sweeps (pair_env m) cells [Initialise; Refresh pair_fields] pair_start = Ok s /\ r_face s (make_key 0 1) 0 = h.
Proof.
  intros C F.
  assert (N : NoDup cells) by (destruct C as [->|[->| ->]]; repeat constructor; cbn; intuition congruence).
  assert (OPS : face_ops (0, 1)%nat 0 (flat_map (sweep_calls (pair_env m) cells) [Initialise; Refresh pair_fields]) =
    flat_map (fun w => map (fun v => pair_ops m v w) (visits (pair_env m) cells (0, 1)%nat)) [Initialise; Refresh pair_fields]).
  { rewrite face_ops_flat. apply flat_map_ext. intros w. rewrite face_sweep. reflexivity. }
  assert (E : exists s, run_sweeps (pair_env m) cells [Initialise; Refresh pair_fields] pair_start = Ok s).
  { apply exec_all_ok.
    - intros c q. rewrite bulk_once_run by exact N. destruct (mem c cells && _)%bool; eexists; reflexivity.
    - intros k q. destruct (Nat.ltb q 1) eqn:Q.
      + apply Nat.ltb_lt in Q. assert (q = 0)%nat by lia. subst q.
        destruct (visits (pair_env m) cells k) as [|v vs] eqn:V.
        * eexists. rewrite face_ops_flat, (flat_map_nil _ [Initialise; Refresh pair_fields]); [reflexivity|].
          intros w _. rewrite face_sweep, V. reflexivity.
        * destruct (visits_nonempty (pair_env m) cells k v ltac:(rewrite V; left; reflexivity)) as (_ & G & -> & _).
          apply pair_neighbours in G.
          assert (K : make_key (fst v) (snd v) = (0, 1)%nat) by (destruct G as [[-> ->]|[-> ->]]; reflexivity).
          rewrite K. exists h. rewrite OPS. exact F.
      + eexists. rewrite face_ops_flat, (flat_map_nil _ [Initialise; Refresh pair_fields]); [reflexivity|].
        intros w _. rewrite face_sweep. change (w_nfq (pair_env m)) with 1%nat. rewrite Q. reflexivity. }
  destruct E as (s & E). exists s. split; [exact E|].
  pose proof (exec_all_face (0, 1)%nat 0 _ _ _ E) as B. rewrite OPS in B. change (r_face pair_start (0, 1)%nat 0) with i_construct in B.
  rewrite F in B. injection B as ->. reflexivity.
Qed.

(** With the rate model the damage depends on the number of ranks: a rank that owns both
    sides counts the step twice. *)
Theorem C90_rate_model_depends_on_the_partition_refuted : exists e ws r all left right,
  opposite_normals e /\ mutual (w_mesh e) /\ one_common_face (w_mesh e) /\ grain_neighbours (w_mesh e) 0 1 /\
  (forall w, In w ws -> same_energy w) /\
  run_sweeps e [0; 1]%nat ws r = Ok all /\ run_sweeps e [0%nat] ws r = Ok left /\ run_sweeps e [1%nat] ws r = Ok right /\
  i_damage (r_face left (make_key 0 1) 0) = Fin (1/2) /\ i_damage (r_face right (make_key 0 1) 0) = Fin (1/2) /\
  i_damage (r_face all (make_key 0 1) 0) = Fin (1/4).
Proof.
  set (m := RateM1 2).
  assert (U1 : face_step st_m1 (FRate 2 (1/4) 1 1) = Ok (mk_ihist (Some prm_m1) (Fin (1/2)) 1 0 (Fin 0) 0)).
  { cbn [face_step]. unfold st_m1. rewrite m1_update by lra. rewrite (proj2 (Rltb_false _ _)) by lra.
    replace ((1 - 0) / 2) with (1/2) by field. reflexivity. }
  assert (U2 : face_step (mk_ihist (Some prm_m1) (Fin (1/2)) 1 0 (Fin 0) 0) (FRate 2 (1/4) 1 1)
             = Ok (mk_ihist (Some prm_m1) (Fin (1/4)) 1 0 (Fin 0) 0)).
  { cbn [face_step].
    assert (X : update_point_M1 2 (1/4) 1 1 (mk_ihist (Some prm_m1) (Fin (1/2)) 1 0 (Fin 0) 0)
              = update_point_M1 2 (1/4) 1 1 (mk_ihist (Some prm_m1) (Fin (1/2)) 0 0 (Fin 0) 0)) by reflexivity.
    rewrite X, m1_update by lra. rewrite (proj2 (Rltb_false _ _)) by lra.
    replace ((1 - 1/2) / 2) with (1/4) by field. reflexivity. }
  assert (P01 : pair_ops m (0, 1)%nat (Refresh pair_fields) = FRate 2 (1/4) 1 1).
  { unfold pair_ops, face_call_of. change (w_model (pair_env m)) with m. unfold m. cbn [fst snd]. rewrite (proj1 (pair_opening _)). reflexivity. }
  assert (P10 : pair_ops m (1, 0)%nat (Refresh pair_fields) = FRate 2 (1/4) 1 1).
  { unfold pair_ops, face_call_of. change (w_model (pair_env m)) with m. unfold m. cbn [fst snd]. rewrite (proj2 (pair_opening _)). reflexivity. }
  assert (I : forall v, face_step i_construct (pair_ops m v Initialise) = Ok st_m1) by reflexivity.
  assert (I2 : forall v, face_step st_m1 (pair_ops m v Initialise) = Ok st_m1) by reflexivity.
  destruct (pair_run m [0; 1]%nat (mk_ihist (Some prm_m1) (Fin (1/4)) 1 0 (Fin 0) 0)) as (all & Ea & Fa); [auto| |].
  { change (visits (pair_env m) [0; 1]%nat (0, 1)%nat) with [(0, 1); (1, 0)]%nat. cbn [flat_map map app frun].
    rewrite I. cbn [rbind]. rewrite I2. cbn [rbind]. rewrite P01, U1. cbn [rbind]. rewrite P10, U2. reflexivity. }
  destruct (pair_run m [0%nat] (mk_ihist (Some prm_m1) (Fin (1/2)) 1 0 (Fin 0) 0)) as (left & El & Fl); [auto| |].
  { change (visits (pair_env m) [0]%nat (0, 1)%nat) with [(0, 1)]%nat. cbn [flat_map map app frun].
    rewrite I. cbn [rbind]. rewrite P01, U1. reflexivity. }
  destruct (pair_run m [1%nat] (mk_ihist (Some prm_m1) (Fin (1/2)) 1 0 (Fin 0) 0)) as (right & Er & Fr); [auto| |].
  { change (visits (pair_env m) [1]%nat (0, 1)%nat) with [(1, 0)]%nat. cbn [flat_map map app frun].
    rewrite I. cbn [rbind]. rewrite P10, U1. reflexivity. }
  exists (pair_env m), [Initialise; Refresh pair_fields], pair_start, all, left, right.
  destruct (pair_well_formed m) as (O & MU & OC).
  split; [exact O|]. split; [exact MU|]. split; [exact OC|]. split; [apply pair_neighbours; auto|].
  split. { intros w [<-|[<-|[]]]; cbn; auto. }
  split; [exact Ea|]. split; [exact El|]. split; [exact Er|].
  rewrite Fa, Fl, Fr. repeat split; reflexivity.
Qed.

(** The hypotheses of C90 hold for the pair with the exponential model, where both
    partitions give the opening 1. *)
Example C90_example : exists all left,
  opposite_normals (pair_env OrtizEtAl) /\ mutual (w_mesh (pair_env OrtizEtAl)) /\
  partition [[1]; [0]]%nat [0; 1]%nat /\
  run_sweeps (pair_env OrtizEtAl) [0; 1]%nat [Initialise; Refresh pair_fields] pair_start = Ok all /\
  run_sweeps (pair_env OrtizEtAl) [0%nat] [Initialise; Refresh pair_fields] pair_start = Ok left /\
  i_max (r_face all (make_key 0 1) 0) = 1 /\ i_max (r_face left (make_key 0 1) 0) = 1.
Proof.
  assert (W : forall v, v = (0, 1)%nat \/ v = (1, 0)%nat -> pair_ops OrtizEtAl v (Refresh pair_fields) = FCall (IUpdateExp 1)).
  { intros v [->| ->]; unfold pair_ops, face_call_of; cbn [fst snd w_model pair_env];
      [rewrite (proj1 (pair_opening _))|rewrite (proj2 (pair_opening _))]; reflexivity. }
  set (h := mk_ihist (Some prm_m1) (Fin (exponential_damage 1 1)) 1 0 (Fin 0) 0).
  assert (T : Rltb 0 1 = true) by (apply Rltb_true; lra).
  assert (U : face_step st_m1 (FCall (IUpdateExp 1)) = Ok h)
    by (cbn [face_step istep i_prm st_m1 i_tmp1 i_zero_damage prm_m1]; rewrite T; reflexivity).
  assert (U2 : face_step h (FCall (IUpdateExp 1)) = Ok h)
    by (unfold h; cbn [face_step istep i_prm i_tmp1 i_zero_damage prm_m1]; rewrite T; reflexivity).
  destruct (pair_run OrtizEtAl [0; 1]%nat h) as (all & Ea & Fa); [auto| |].
  { change (visits (pair_env OrtizEtAl) [0; 1]%nat (0, 1)%nat) with [(0, 1); (1, 0)]%nat. cbn [flat_map map app frun].
    change (face_step i_construct (pair_ops OrtizEtAl (0, 1)%nat Initialise)) with (Ok st_m1). cbn [rbind].
    change (face_step st_m1 (pair_ops OrtizEtAl (1, 0)%nat Initialise)) with (Ok st_m1). cbn [rbind].
    rewrite !W by auto. rewrite U. cbn [rbind]. rewrite U2. reflexivity. }
  destruct (pair_run OrtizEtAl [0%nat] h) as (left & El & Fl); [auto| |].
  { change (visits (pair_env OrtizEtAl) [0]%nat (0, 1)%nat) with [(0, 1)]%nat. cbn [flat_map map app frun].
    change (face_step i_construct (pair_ops OrtizEtAl (0, 1)%nat Initialise)) with (Ok st_m1). cbn [rbind].
    rewrite !W by auto. rewrite U. reflexivity. }
  exists all, left. destruct (pair_well_formed OrtizEtAl) as (O & MU & _).
  split; [exact O|]. split; [exact MU|]. split; [cbn; apply perm_swap|]. split; [exact Ea|]. split; [exact El|].
  rewrite Fa, Fl. split; reflexivity.
Qed.

(** ** C91: the assembled system *)
Lemma vector_of_app a b d : vector_of (a ++ b) d = vector_of a d + vector_of b d.
Proof. unfold vector_of. induction a as [|w a IH]; cbn; [ring|]. rewrite IH. ring. Qed.
Lemma matrix_of_app a b r s : matrix_of (a ++ b) r s = matrix_of a r s + matrix_of b r s.
Proof. unfold matrix_of. induction a as [|w a IH]; cbn; [ring|]. rewrite IH. ring. Qed.
Lemma vector_of_flat {A} (f : A -> list (nat * R)) l d : vector_of (flat_map f l) d = lsum (fun x => vector_of (f x) d) l.
Proof. induction l as [|x l IH]; cbn [flat_map lsum]; [reflexivity|]. rewrite vector_of_app, IH. reflexivity. Qed.
Lemma matrix_of_flat {A} (f : A -> list (nat * nat * R)) l r s : matrix_of (flat_map f l) r s = lsum (fun x => matrix_of (f x) r s) l.
Proof. induction l as [|x l IH]; cbn [flat_map lsum]; [reflexivity|]. rewrite matrix_of_app, IH. reflexivity. Qed.
Lemma lsum_perm {A} (f : A -> R) l l' : Permutation l l' -> lsum f l = lsum f l'.
Proof. induction 1; cbn; lra. Qed.

Lemma resolve_same a b d : a d = b d -> resolve a d = resolve b d.
Proof. intros E. unfold resolve. rewrite E. reflexivity. Qed.
Lemma flat_map_ext_in' {A B} (f g : A -> list B) l : (forall x, In x l -> f x = g x) -> flat_map f l = flat_map g l.
Proof. induction l as [|x l IH]; intros H; cbn; [reflexivity|]. rewrite H, IH; [reflexivity| |left; reflexivity]. intros; apply H; right; assumption. Qed.
Lemma vector_writes_same a b dofs v : (forall d, In d dofs -> a d = b d) -> vector_writes a dofs v = vector_writes b dofs v.
Proof.
  intros H. unfold vector_writes. apply flat_map_ext_in'. intros [i d] I. cbn [fst snd].
  rewrite (resolve_same a b d) by (apply H; eapply In_enumerate; exact I). reflexivity.
Qed.
Lemma rectangle_writes_same a b rows cols M : (forall d, In d rows \/ In d cols -> a d = b d) ->
  rectangle_writes a rows cols M = rectangle_writes b rows cols M.
Proof.
  intros H. unfold rectangle_writes. apply flat_map_ext_in'. intros [i d] I. apply flat_map_ext_in'. intros [j e] J. cbn [fst snd].
  rewrite (resolve_same a b d), (resolve_same a b e); [reflexivity| |]; apply H; [right|left]; eapply In_enumerate; eassumption.
Qed.
Lemma copy_same a b couple l : (forall d, meets [l] d -> a d = b d) -> copy_jacobian a couple l = copy_jacobian b couple l.
Proof.
  intros H.
  assert (HD : forall d, In d (mc_dofs (ls_cell l)) -> a d = b d) by (intros d I; apply H; exists l; cbn; auto).
  assert (SQ : square_writes a (mc_dofs (ls_cell l)) (ls_matrix l) = square_writes b (mc_dofs (ls_cell l)) (ls_matrix l)).
  { unfold square_writes. f_equal.
    - apply rectangle_writes_same. intros d [I|I]; auto.
    - apply flat_map_ext_in'. intros [i d] I. cbn [fst snd]. apply In_enumerate in I.
      unfold is_constrained. rewrite (HD d I). reflexivity. }
  unfold copy_jacobian. rewrite SQ. destruct (andb _ _); [|reflexivity].
  assert (FM : forall ns, incl ns (interfaces (ls_cell l)) ->
     flat_map (fun n => rectangle_writes a (mc_dofs (ls_cell l)) (nb_dofs (snd n)) (ls_coupling l (fst n))) (enumerate ns) =
     flat_map (fun n => rectangle_writes b (mc_dofs (ls_cell l)) (nb_dofs (snd n)) (ls_coupling l (fst n))) (enumerate ns)).
  { intros ns INC. apply flat_map_ext_in'. intros [i n] I. cbn [fst snd]. apply In_enumerate, INC in I.
    apply rectangle_writes_same. intros d [J|J]; [auto|]. apply H. exists l. split; [left; reflexivity|]. right. eauto. }
  destruct (interfaces (ls_cell l)) as [|n ns] eqn:E; [reflexivity|]. rewrite FM by apply incl_refl. reflexivity.
Qed.

(** The residual: ranks with the same constraints, as far as they meet them, assemble the
    residual of one rank. *)
Theorem C91_residual_does_not_depend_on_the_partition : forall c (ranks : list (constraints * list local_system)) cells,
  Permutation (flat_map snd ranks) cells ->
  (forall r d, In r ranks -> meets (snd r) d -> fst r d = c d) ->
  forall d, vector_of (parallel_residual ranks) d = vector_of (assemble_residual c cells) d.
Proof.
  intros c ranks cells P C d. unfold assemble_residual. rewrite vector_of_flat, <- (lsum_perm _ _ _ P).
  unfold parallel_residual. rewrite vector_of_flat, lsum_flat_map. apply lsum_ext. intros [c' ls] I. cbn [fst snd].
  unfold assemble_residual. rewrite vector_of_flat. apply lsum_ext. intros l L. f_equal. apply vector_writes_same.
  intros e E. apply (C (c', ls) e I). cbn [snd]. exists l. auto.
Qed.

Lemma assemble_ok pattern c couple ls : forall ws, assemble_jacobian pattern c couple ls = Ok ws ->
  (forall l, In l ls -> exists w, copy_jacobian c couple l = Ok w /\ forallb (position_in pattern) w = true) /\
  ws = flat_map (fun l => match copy_jacobian c couple l with Ok w => w | _ => [] end) ls.
Proof.
  induction ls as [|l ls IH]; intros ws E; cbn [assemble_jacobian] in E.
  - injection E as <-. split; [intros l []|reflexivity].
  - destruct (copy_jacobian c couple l) as [w| |] eqn:L; try discriminate E. cbn [rbind] in E.
    destruct (forallb (position_in pattern) w) eqn:F; [|discriminate E].
    destruct (assemble_jacobian pattern c couple ls) as [rest| |] eqn:S; try discriminate E. cbn [rbind] in E. injection E as <-.
    destruct (IH rest eq_refl) as [A B]. split.
    + intros l' [<-|I]; eauto.
    + cbn [flat_map]. rewrite L, B. reflexivity.
Qed.
Lemma assemble_ok_rev pattern c couple ls :
  (forall l, In l ls -> exists w, copy_jacobian c couple l = Ok w /\ forallb (position_in pattern) w = true) ->
  exists ws, assemble_jacobian pattern c couple ls = Ok ws.
Proof.
  induction ls as [|l ls IH]; intros H; [eexists; reflexivity|]. cbn [assemble_jacobian].
  destruct (H l ltac:(left; reflexivity)) as (w & E & F). rewrite E. cbn [rbind]. rewrite F.
  destruct IH as (ws & E'). { intros; apply H; right; assumption. } rewrite E'. cbn. eauto.
Qed.
Lemma parallel_ok pattern couple ranks : forall ws, parallel_jacobian pattern couple ranks = Ok ws ->
  (forall r, In r ranks -> exists w, assemble_jacobian pattern (fst r) couple (snd r) = Ok w) /\
  ws = flat_map (fun r => match assemble_jacobian pattern (fst r) couple (snd r) with Ok w => w | _ => [] end) ranks.
Proof.
  induction ranks as [|[c ls] ranks IH]; intros ws E; cbn [parallel_jacobian] in E.
  - injection E as <-. split; [intros r []|reflexivity].
  - destruct (assemble_jacobian pattern c couple ls) as [w| |] eqn:L; try discriminate E. cbn [rbind] in E.
    destruct (parallel_jacobian pattern couple ranks) as [rest| |] eqn:S; try discriminate E. cbn [rbind] in E. injection E as <-.
    destruct (IH rest eq_refl) as [A B]. split.
    + intros r [<-|I]; cbn; eauto.
    + cbn [flat_map fst snd]. rewrite L, B. reflexivity.
Qed.
Lemma parallel_ok_rev pattern couple ranks :
  (forall r, In r ranks -> exists w, assemble_jacobian pattern (fst r) couple (snd r) = Ok w) ->
  exists ws, parallel_jacobian pattern couple ranks = Ok ws.
Proof.
  induction ranks as [|[c ls] ranks IH]; intros H; [eexists; reflexivity|]. cbn [parallel_jacobian].
  destruct (H (c, ls) ltac:(left; reflexivity)) as (w & E). cbn [fst snd] in E. rewrite E. cbn [rbind].
  destruct IH as (ws & E'). { intros; apply H; right; assumption. } rewrite E'. cbn. eauto.
Qed.

(** The Jacobian likewise; it assembles on the ranks iff it assembles on one. *)
Theorem C91_jacobian_does_not_depend_on_the_partition : forall pattern couple c (ranks : list (constraints * list local_system)) cells,
  Permutation (flat_map snd ranks) cells ->
  (forall r d, In r ranks -> meets (snd r) d -> fst r d = c d) ->
  (forall ws, parallel_jacobian pattern couple ranks = Ok ws ->
     exists ws', assemble_jacobian pattern c couple cells = Ok ws' /\ forall r s, matrix_of ws r s = matrix_of ws' r s) /\
  (forall ws', assemble_jacobian pattern c couple cells = Ok ws' ->
     exists ws, parallel_jacobian pattern couple ranks = Ok ws /\ forall r s, matrix_of ws r s = matrix_of ws' r s).
Proof.
  intros pattern couple c ranks cells P C.
  assert (SAME : forall r l, In r ranks -> In l (snd r) -> copy_jacobian (fst r) couple l = copy_jacobian c couple l).
  { intros r l I L. apply copy_same. intros d (l' & [<-|[]] & M). apply (C r d I). exists l. auto. }
  assert (FWD : forall ws, parallel_jacobian pattern couple ranks = Ok ws -> exists ws', assemble_jacobian pattern c couple cells = Ok ws').
  { intros ws E. destruct (parallel_ok _ _ _ _ E) as [A _]. apply assemble_ok_rev. intros l L.
    apply (Permutation_in _ (Permutation_sym P)) in L. apply in_flat_map in L. destruct L as (r & I & L).
    destruct (A r I) as (w & E'). destruct (assemble_ok _ _ _ _ _ E') as [B _]. destruct (B l L) as (w' & E2 & F).
    exists w'. split; [|exact F]. rewrite <- E2. symmetry. apply SAME; assumption. }
  assert (BWD : forall ws', assemble_jacobian pattern c couple cells = Ok ws' -> exists ws, parallel_jacobian pattern couple ranks = Ok ws).
  { intros ws' E. destruct (assemble_ok _ _ _ _ _ E) as [A _]. apply parallel_ok_rev. intros r I. apply assemble_ok_rev. intros l L.
    specialize (SAME r l I L). cbv beta in SAME |- *. destruct (A l) as (w' & E2 & F); [|exists w'; split; [rewrite <- E2; exact SAME|exact F]].
    eapply Permutation_in; [exact P|]. apply in_flat_map. eauto. }
  assert (EQ : forall ws ws', parallel_jacobian pattern couple ranks = Ok ws -> assemble_jacobian pattern c couple cells = Ok ws' ->
    forall r s, matrix_of ws r s = matrix_of ws' r s).
  { intros ws ws' E E' x y. destruct (parallel_ok _ _ _ _ E) as [A ->]. destruct (assemble_ok _ _ _ _ _ E') as [_ ->].
    rewrite !matrix_of_flat, <- (lsum_perm _ _ _ P), lsum_flat_map. apply lsum_ext. intros r I.
    destruct (A r I) as (w & Ew). rewrite Ew. destruct (assemble_ok _ _ _ _ _ Ew) as [_ ->].
    rewrite matrix_of_flat. apply lsum_ext. intros l L. specialize (SAME r l I L).
    assert (Z : match copy_jacobian (fst r) couple l with Ok w0 => w0 | _ => [] end = match copy_jacobian c couple l with Ok w0 => w0 | _ => [] end) by (rewrite SAME; reflexivity).
    f_equal. exact Z. }
  split.
  - intros ws E. destruct (FWD ws E) as (ws' & E'). eauto.
  - intros ws' E'. destruct (BWD ws' E') as (ws & E). eauto.
Qed.

(** ** C91: the active sets *)
Lemma on_rank_yield p o s : yield_of (on_rank p o s) = yield_of p.
Proof. reflexivity. Qed.

(** Without periodicity every rank decides for its dofs what one rank would decide. *)
Theorem C91_active_sets_do_not_depend_on_the_partition : forall p trial own own_slip t0 t1 d,
  p_rate_independent p = true -> (0 < p_n_slips p)%nat ->
  incl (p_owned_slip p) (p_owned p) -> incl own_slip own -> incl own_slip (p_owned_slip p) ->
  (forall k m, ~ slave_of (p_affine p) k m) -> In d own_slip ->
  let alone := recomputed p trial t0 in let rank := recomputed (on_rank p own own_slip) trial t1 in
  (In d (active_set rank) <-> In d (active_set alone)) /\ (In d (inactive_set rank) <-> In d (inactive_set alone)).
Proof.
  intros p trial own own_slip t0 t1 d HR HN I1 I2 I3 HS ID alone rank.
  destruct (C43_sets_without_periodicity p trial t0 d HR HN I1 HS) as [A B].
  destruct (C43_sets_without_periodicity (on_rank p own own_slip) trial t1 d HR HN I2 HS) as [A' B'].
  rewrite on_rank_yield in A', B'. cbn [on_rank p_owned_slip p_affine] in A', B'.
  unfold alone, rank. rewrite A, B, A', B'. pose proof (I3 d ID). tauto.
Qed.

(** What the internal constraints say about a dof. *)
Lemma internal_of p trial s d :
  p_rate_independent p = true -> (0 < p_n_slips p)%nat -> NoDup (p_owned_slip p) -> incl (p_owned_slip p) (p_owned p) ->
  (forall k m, ~ slave_of (p_affine p) k m) ->
  let t := recomputed p trial s in
  internal_constraints t d =
    match p_hanging p d with
    | Some l => Some l
    | None => if andb (mem d (p_owned_slip p)) (negb (mem d (active_set t))) then Some zero_line else p_newton p d
    end.
Proof.
  intros HR HN HU HI HS t. unfold t. destruct (recomputed_active p trial s HR HN) as (EA & EI). rewrite EI. unfold merge.
  assert (Edn : match p_newton p d with Some l => Some l | None => no_constraints d end = p_newton p d)
    by (destruct (p_newton p d); reflexivity).
  rewrite Edn. destruct (mem d (p_owned_slip p)) eqn:SL; cbn [andb].
  - apply mem_In in SL. destruct (in_split _ _ SL) as (l1 & l2 & E).
    pose proof HU as HU'. rewrite E in HU'. apply NoDup_remove_2 in HU'.
    rewrite E, loop_lines_at by (intros X; apply HU'; apply in_or_app; auto).
    assert (M : mem d (fst (active_loop (p_affine p) trial (yield_of p) (p_hanging p) (l1 ++ [d]))) = mem d (active_set (recomputed p trial s))).
    { apply Bool.eq_iff_eq_true. rewrite !mem_In, EA, !loop_active. split; intros (k & Hk & Y & A); exists k.
      - split; [|split; assumption]. rewrite E. apply in_app_or in Hk. apply in_or_app. destruct Hk as [Hk|[<-|[]]]; cbn; auto.
      - destruct A as [[<- A]|A]; [|exfalso; eapply HS; eauto]. split; [apply in_or_app; cbn; auto|]. split; auto. }
    rewrite M. destruct (mem d (active_set (recomputed p trial s))); cbn [negb]; destruct (p_hanging p d); reflexivity.
  - apply mem_not_In in SL. rewrite loop_lines_out by exact SL. destruct (p_hanging p d); reflexivity.
Qed.

(** The rate-independent system does not depend on the partition as long as no rank meets an
    inactive dof that another rank owns. *)
Theorem C91_system_with_active_sets_partial : forall p trial t0 couple pattern
    (ranks : list (list nat * list nat * state * list local_system)) cells,
  p_rate_independent p = true -> (0 < p_n_slips p)%nat ->
  NoDup (p_owned_slip p) -> incl (p_owned_slip p) (p_owned p) -> (forall k m, ~ slave_of (p_affine p) k m) ->
  (forall own own_slip t ls, In (own, own_slip, t, ls) ranks ->
     incl own_slip own /\ incl own_slip (p_owned_slip p) /\ NoDup own_slip /\
     forall d, meets ls d -> In d (inactive_set (recomputed p trial t0)) -> In d own_slip) ->
  (forall own own_slip t ls, In (own, own_slip, t, ls) ranks ->
     forall d, meets ls d -> In d (p_owned_slip p) -> dirichlet (p_affine p) d ->
     p_hanging p d <> None \/ p_newton p d = Some zero_line) ->
  Permutation (flat_map snd ranks) cells ->
  let internal := fun r => internal_constraints (recomputed (on_rank p (fst (fst (fst r))) (snd (fst (fst r)))) trial (snd (fst r))) in
  let parallel := map (fun r => (internal r, snd r)) ranks in
  let alone := internal_constraints (recomputed p trial t0) in
  (forall d, vector_of (parallel_residual parallel) d = vector_of (assemble_residual alone cells) d) /\
  (forall ws', assemble_jacobian pattern alone couple cells = Ok ws' ->
     exists ws, parallel_jacobian pattern couple parallel = Ok ws /\ forall r s, matrix_of ws r s = matrix_of ws' r s).
Proof.
  intros p trial t0 couple pattern ranks cells HR HN HU HI HS HRK HDI P internal parallel alone.
  assert (P' : Permutation (flat_map snd parallel) cells).
  { unfold parallel. rewrite flat_map_concat_map, map_map. cbn [snd]. rewrite <- flat_map_concat_map. exact P. }
  assert (C : forall r d, In r parallel -> meets (snd r) d -> fst r d = alone d).
  { intros r d I M. unfold parallel in I. apply in_map_iff in I. destruct I as ([[[own own_slip] t] ls] & <- & I).
    cbn [fst snd] in *. destruct (HRK _ _ _ _ I) as (I1 & I2 & I3 & I4). specialize (HDI _ _ _ _ I d M). specialize (I4 d M).
    unfold internal, alone. cbn [fst snd].
    rewrite (internal_of p trial t0 d HR HN HU HI HS).
    rewrite (internal_of (on_rank p own own_slip) trial t d HR HN I3 I1 HS). cbn [on_rank p_hanging p_owned_slip p_newton].
    destruct (p_hanging p d) eqn:HG; [reflexivity|].
    destruct (mem d own_slip) eqn:OS.
    - apply mem_In in OS. rewrite (proj2 (mem_In _ _) (I2 d OS)). cbn [andb].
      destruct (C91_active_sets_do_not_depend_on_the_partition p trial own own_slip t0 t d HR HN HI I1 I2 HS OS) as [A _].
      rewrite <- !mem_In in A.
      destruct (mem d (active_set (recomputed (on_rank p own own_slip) trial t))), (mem d (active_set (recomputed p trial t0)));
        try reflexivity; exfalso; intuition congruence.
    - cbn [andb]. destruct (mem d (p_owned_slip p)) eqn:SL; [|reflexivity]. cbn [andb].
      destruct (mem d (active_set (recomputed p trial t0))) eqn:AC; [reflexivity|]. cbn [negb].
      apply mem_In in SL. apply mem_not_In in AC, OS.
      destruct (is_identity_constrained (p_affine p) d || negb (is_constrained (p_affine p) d))%bool eqn:ND.
      + exfalso. apply OS, I4. apply recomputed_inactive; [exact HR|]. apply flag_no_dirichlet in ND. auto.
      + assert (DI : dirichlet (p_affine p) d).
        { unfold dirichlet. apply Bool.orb_false_iff in ND. destruct ND as [N1 N2]. apply Bool.negb_false_iff in N2. split.
          - unfold is_constrained in N2. destruct (p_affine p d); congruence.
          - intros m Hm. exact (HS d m Hm). }
        destruct (HDI SL DI) as [X|X]; [congruence|]. rewrite X. reflexivity. }
  split.
  - apply C91_residual_does_not_depend_on_the_partition; assumption.
  - exact (proj2 (C91_jacobian_does_not_depend_on_the_partition pattern couple alone parallel cells P' C)).
Qed.

(** ** Counterexamples *)
(** Dofs 0 and 2 are displacements, dof 1 is a slip shared by two cells; nothing yields. *)
Definition shared_problem : problem :=
  mk_problem 1 true (mk_hardening (1/2) 0 0 true) 1 [0; 1; 2]%nat [1%nat]
    no_constraints no_constraints no_constraints (fun _ => 0) (fun _ => 1/2).
Definition unit_cell (dofs : list nat) : local_system :=
  mk_local_system (mk_mesh_cell 0 0 dofs []) (fun _ _ => 0) (fun _ _ _ => 0) (fun _ => 1).
Definition any_state : state := mk_state [] [] no_constraints (fun _ => 0).
Lemma no_slaves k m : ~ slave_of no_constraints k m.
Proof. intros (b & E). discriminate E. Qed.

(** An inactive dof is constrained only on the rank that owns it: the cells of other ranks
    add to its residual, which vanishes in a run on one rank. *)
Theorem C91_inactive_dofs_of_other_ranks_refuted : exists p trial t own0 slip0 own1 slip1 ls0 ls1 d,
  p_rate_independent p = true /\ (0 < p_n_slips p)%nat /\ (forall k m, ~ slave_of (p_affine p) k m) /\
  Permutation (own0 ++ own1) (p_owned p) /\ Permutation (slip0 ++ slip1) (p_owned_slip p) /\
  let alone := recomputed p trial t in
  let rank0 := recomputed (on_rank p own0 slip0) trial t in
  let rank1 := recomputed (on_rank p own1 slip1) trial t in
  In d (inactive_set alone) /\ In d (inactive_set rank0) /\
  vector_of (assemble_residual (internal_constraints alone) (ls0 ++ ls1)) d = 0 /\
  vector_of (parallel_residual [(internal_constraints rank0, ls0); (internal_constraints rank1, ls1)]) d = 1.
Proof.
  exists shared_problem, (fun _ => 0), any_state, [0; 1]%nat, [1%nat], [2%nat], [], [unit_cell [0; 1]%nat], [unit_cell [1; 2]%nat], 1%nat.
  assert (Y : yield_of shared_problem 1%nat = 1/2) by (unfold yield_of; cbn; field).
  split; [reflexivity|]. split; [cbn; lia|]. split; [exact no_slaves|].
  split; [reflexivity|]. split; [reflexivity|]. cbv zeta.
  assert (A : In 1%nat (inactive_set (recomputed shared_problem (fun _ => 0) any_state))).
  { apply (C43_sets_without_periodicity shared_problem (fun _ => 0) any_state 1%nat); try reflexivity; try exact no_slaves; [cbn; lia|cbn; intros x H; cbn in *; intuition|].
    split; [left; reflexivity|]. split; [reflexivity|]. rewrite Y, Rabs_R0. lra. }
  assert (B : In 1%nat (inactive_set (recomputed (on_rank shared_problem [0; 1]%nat [1%nat]) (fun _ => 0) any_state))).
  { apply (C43_sets_without_periodicity (on_rank shared_problem [0; 1]%nat [1%nat]) (fun _ => 0) any_state 1%nat); try reflexivity; try exact no_slaves; [cbn; lia|cbn; intros x H; cbn in *; intuition|].
    split; [left; reflexivity|]. split; [reflexivity|]. rewrite on_rank_yield, Y, Rabs_R0. lra. }
  split; [exact A|]. split; [exact B|].
  assert (CA : forall d, internal_constraints (recomputed shared_problem (fun _ => 0) any_state) d = if Nat.eqb d 1 then Some zero_line else None).
  { intros d. rewrite internal_of; try reflexivity; try exact no_slaves; [|cbn; lia|repeat constructor; cbn; tauto|cbn; intros x H; cbn in *; intuition].
    cbn [shared_problem p_hanging p_owned_slip p_newton no_constraints]. apply recomputed_inactive in A; [|reflexivity].
    destruct A as (_ & _ & _ & A). unfold mem at 1. cbn [existsb]. rewrite Bool.orb_false_r.
    destruct (Nat.eqb d 1) eqn:D; cbn [andb]; [|reflexivity]. apply Nat.eqb_eq in D. subst d.
    rewrite (proj2 (mem_not_In _ _) A). reflexivity. }
  assert (C0 : forall d, internal_constraints (recomputed (on_rank shared_problem [0; 1]%nat [1%nat]) (fun _ => 0) any_state) d = if Nat.eqb d 1 then Some zero_line else None).
  { intros d. rewrite internal_of; try reflexivity; try exact no_slaves; [|cbn; lia|repeat constructor; cbn; tauto|cbn; intros x H; cbn in *; intuition].
    cbn [on_rank shared_problem p_hanging p_owned_slip p_newton no_constraints]. apply recomputed_inactive in B; [|reflexivity].
    destruct B as (_ & _ & _ & B). unfold mem at 1. cbn [existsb]. rewrite Bool.orb_false_r.
    destruct (Nat.eqb d 1) eqn:D; cbn [andb]; [|reflexivity]. apply Nat.eqb_eq in D. subst d.
    rewrite (proj2 (mem_not_In _ _) B). reflexivity. }
  assert (C1 : forall d, internal_constraints (recomputed (on_rank shared_problem [2%nat] []) (fun _ => 0) any_state) d = None).
  { intros d. rewrite internal_of; try reflexivity; try exact no_slaves; [cbn; lia|constructor|cbn; intros x []]. }
  revert CA C0 C1. generalize (internal_constraints (recomputed shared_problem (fun _ => 0) any_state)) as a.
  generalize (internal_constraints (recomputed (on_rank shared_problem [0; 1]%nat [1%nat]) (fun _ => 0) any_state)) as b.
  generalize (internal_constraints (recomputed (on_rank shared_problem [2%nat] []) (fun _ => 0) any_state)) as c.
  intros c b a CA C0 C1. cbn. unfold resolve. rewrite !CA, !C0, !C1. cbn. split; lra.
Qed.

(** Dof 1 is a periodic slave of dof 0 and yields, dof 0 does not: on one rank both are
    active, on two ranks the rank owning dof 0 does not learn of it. *)
Theorem C91_periodic_active_sets_refuted : exists p trial t own0 slip0 own1 slip1 m,
  p_rate_independent p = true /\ (0 < p_n_slips p)%nat /\ closed (p_affine p) /\
  Permutation (own0 ++ own1) (p_owned p) /\ Permutation (slip0 ++ slip1) (p_owned_slip p) /\ In m slip0 /\
  In m (active_set (recomputed p trial t)) /\
  ~ In m (active_set (recomputed (on_rank p own0 slip0) trial t)) /\
  In m (inactive_set (recomputed (on_rank p own0 slip0) trial t)) /\
  In m (active_set (recomputed (on_rank p own1 slip1) trial t)).
Proof.
  set (aff := fun d => if Nat.eqb d 1 then Some ([(0%nat, 1)], 0) else None : option line).
  set (p := mk_problem 1 true (mk_hardening (1/2) 0 0 true) 1 [0; 1]%nat [0; 1]%nat aff no_constraints no_constraints (fun _ => 0) (fun _ => 1/2)).
  set (trial := fun d => if Nat.eqb d 1 then 1 else 0).
  assert (Y : forall d, yield_of p d = 1/2) by (intros d; unfold yield_of; cbn; field).
  assert (S1 : slave_of aff 1 0) by (exists 0; reflexivity).
  assert (YI : yields trial (yield_of p) 1) by (unfold yields; rewrite Y; unfold trial; cbn; rewrite Rabs_R1; lra).
  assert (NA : ~ In 0%nat (active_set (recomputed (on_rank p [0%nat] [0%nat]) trial any_state))).
  { intros H. apply (C43_active_iff_yielding (on_rank p [0%nat] [0%nat]) trial any_state 0%nat) in H; [|reflexivity|cbn; lia].
    rewrite on_rank_yield in H. cbn [on_rank p_owned_slip] in H.
    destruct H as [(_ & H & _)|(d & [<-|[]] & H & _)]; unfold yields in H; rewrite Y in H; unfold trial in H; cbn in H; rewrite Rabs_R0 in H; lra. }
  exists p, trial, any_state, [0%nat], [0%nat], [1%nat], [1%nat], 0%nat.
  split; [reflexivity|]. split; [cbn; lia|].
  split. { intros d es b e w E I. cbn in E. unfold aff in E. destruct (Nat.eqb d 1); [|discriminate]. injection E as <- <-.
    destruct I as [I|[]]. injection I as <- <-. reflexivity. }
  split; [reflexivity|]. split; [reflexivity|]. split; [left; reflexivity|].
  split. { apply C43_active_iff_yielding; [reflexivity|cbn; lia|]. right. exists 1%nat. split; [right; left; reflexivity|]. auto. }
  split; [exact NA|].
  split. { apply recomputed_inactive; [reflexivity|]. split; [left; reflexivity|]. split; [left; reflexivity|]. split; [|exact NA].
    intros [X _]. apply X. reflexivity. }
  apply C43_active_iff_yielding; [reflexivity|cbn; lia|]. right. exists 1%nat. split; [left; reflexivity|]. auto.
Qed.

(** Two cells in a row with a slip dof each and a shared displacement dof: the hypotheses of
    the partial theorem hold, with an inactive dof on either rank. *)
Example C91_example :
  let p := mk_problem 1 true (mk_hardening (1/2) 0 0 true) 1 [0; 1; 2]%nat [0; 2]%nat
    no_constraints no_constraints no_constraints (fun _ => 0) (fun _ => 1/2) in
  let ranks := [([0; 1], [0], any_state, [unit_cell [0; 1]]); ([2], [2], any_state, [unit_cell [1; 2]])]%nat in
  NoDup (p_owned_slip p) /\ incl (p_owned_slip p) (p_owned p) /\ (forall k m, ~ slave_of (p_affine p) k m) /\
  In 0%nat (inactive_set (recomputed p (fun _ => 0) any_state)) /\
  (forall own own_slip t ls, In (own, own_slip, t, ls) ranks ->
     incl own_slip own /\ incl own_slip (p_owned_slip p) /\ NoDup own_slip /\
     forall d, meets ls d -> In d (inactive_set (recomputed p (fun _ => 0) any_state)) -> In d own_slip) /\
  Permutation (flat_map snd ranks) [unit_cell [1; 2]; unit_cell [0; 1]]%nat.
Proof.
  intros p ranks. split; [repeat constructor; cbn; intuition congruence|].
  split; [intros x [<-|[<-|[]]]; cbn; auto|]. split; [exact no_slaves|].
  split. { apply (C43_sets_without_periodicity p (fun _ => 0) any_state 0%nat); try reflexivity; try exact no_slaves;
      [cbn; lia|intros x [<-|[<-|[]]]; cbn; auto|]. split; [left; reflexivity|]. split; [reflexivity|].
    unfold yield_of; cbn. rewrite Rabs_R0. lra. }
  split; [|cbn; apply perm_swap].
  intros own own_slip t ls I.
  assert (W : forall d, In d (inactive_set (recomputed p (fun _ => 0) any_state)) -> d = 0%nat \/ d = 2%nat).
  { intros d Hd. apply recomputed_inactive in Hd; [|reflexivity]. destruct Hd as (_ & Hd & _). cbn in Hd. intuition. }
  destruct I as [I|[I|[]]]; injection I as <- <- <- <-; (split; [intros x [<-|[]]; cbn; auto|]);
    (split; [intros x [<-|[]]; cbn; auto|]); (split; [repeat constructor; cbn; auto|]);
    intros d (l & [<-|[]] & [M|(n & [] & _)]) Hd; apply W in Hd; cbn in M; cbn; intuition congruence.
Qed.
