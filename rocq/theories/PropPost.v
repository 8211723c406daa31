(** * C59, C60, C61, C66: von Mises, averages, projection. *)
From Coq Require Import Permutation Lra.
From Verif Require Import Num SumLemmas Tensors TensorLemmas ModelElastic ModelAssembly ModelPost SpecPost.
Open Scope R_scope.

(** ** C59 *)
Lemma von_mises_is_formula s : sym3 s -> von_mises_stress s = von_mises_formula s.
Proof.
  intros H. unfold von_mises_stress, von_mises_formula. f_equal.
  assert (H1 := H 0%nat 1%nat ltac:(lia) ltac:(lia)). assert (H2 := H 0%nat 2%nat ltac:(lia) ltac:(lia)).
  assert (H3 := H 1%nat 2%nat ltac:(lia) ltac:(lia)).
  unfold ddot, c4, deviatoric_projector, identity_tensor, kron; cbn -[Rdiv]. rewrite <- H1, <- H2, <- H3. field.
Qed.
Lemma von_mises_ext s t : same3 s t -> von_mises_stress s = von_mises_stress t.
Proof.
  intros H. unfold von_mises_stress. f_equal. f_equal.
  assert (E : forall i j, c4 3 deviatoric_projector s i j = c4 3 deviatoric_projector t i j).
  { intros. unfold c4. apply sumn_ext; intros; apply sumn_ext; intros. rewrite (H i0 i1) by assumption. reflexivity. }
  apply ddot_ext; intros; apply E.
Qed.
Lemma sym3_only a b t : sym3 (only_at a b t).
Proof.
  intros i j _ _. unfold only_at.
  destruct (Nat.eqb i a), (Nat.eqb j b), (Nat.eqb i b), (Nat.eqb j a); reflexivity.
Qed.
Lemma von_mises_scal k s : von_mises_stress (mscal k s) = Rabs k * von_mises_stress s.
Proof.
  unfold von_mises_stress.
  replace (3 / 2 * ddot 3 (c4 3 deviatoric_projector (mscal k s)) (c4 3 deviatoric_projector (mscal k s)))
    with (k ^ 2 * (3 / 2 * ddot 3 (c4 3 deviatoric_projector s) (c4 3 deviatoric_projector s)))
    by (unfold ddot, c4, mscal; cbn -[Rdiv]; ring).
  rewrite sqrt_mult_alt by apply pow2_ge_0. f_equal.
  rewrite <- (sqrt_Rsqr_abs k). f_equal. unfold Rsqr; ring.
Qed.

(** For every (symmetric) stress. *)
Theorem C59_von_mises : forall s, sym3 s ->
  von_mises_stress s = von_mises_formula s /\
  0 <= von_mises_stress s /\
  (forall p, von_mises_stress (madd s (pressure p)) = von_mises_stress s) /\
  (forall k, von_mises_stress (mscal k s) = Rabs k * von_mises_stress s) /\
  (forall a t, (a < 3)%nat -> same3 s (only_at a a t) -> von_mises_stress s = Rabs t) /\
  (forall a b t, (a < 3)%nat -> (b < 3)%nat -> a <> b -> same3 s (only_at a b t) ->
     von_mises_stress s = sqrt 3 * Rabs t) /\
  (von_mises_stress s = 0 <-> hydrostatic s).
Proof.
  intros s H. assert (F := von_mises_is_formula s H).
  assert (Habs : forall t : R, sqrt (t ^ 2) = Rabs t).
  { intros t. rewrite <- (sqrt_Rsqr_abs t). f_equal. unfold Rsqr; ring. }
  repeat split.
  - exact F.
  - apply sqrt_pos.
  - intros p. unfold von_mises_stress. f_equal. unfold ddot, c4, madd, pressure, deviatoric_projector, identity_tensor, kron.
    cbn -[Rdiv]. field.
  - intros k. apply von_mises_scal.
  - intros a t Ha Hs. rewrite (von_mises_ext _ _ Hs), (von_mises_is_formula _ (sym3_only a a t)), <- Habs.
    unfold von_mises_formula. f_equal.
    destruct a as [|[|[|]]]; try lia; cbn; field.
  - intros a b t Ha Hb Hab Hs. rewrite (von_mises_ext _ _ Hs), (von_mises_is_formula _ (sym3_only a b t)), <- Habs.
    rewrite <- sqrt_mult_alt by lra. unfold von_mises_formula. f_equal.
    destruct a as [|[|[|]]]; destruct b as [|[|[|]]]; try lia; cbn; field.
  - intros E. rewrite F in E. unfold von_mises_formula in E. cbv zeta in E.
    apply sqrt_eq_0 in E.
    2: { repeat match goal with |- context [?x ^ 2] => let H := fresh in assert (H := pow2_ge_0 x);
           let v := fresh in set (v := x ^ 2) in *; clearbody v end. lra. }
    exists (s 0%nat 0%nat).
    assert (Q : forall x, 0 <= x ^ 2) by (intros; apply pow2_ge_0).
    pose proof (Q (s 0%nat 0%nat - s 1%nat 1%nat)) as q1. pose proof (Q (s 1%nat 1%nat - s 2%nat 2%nat)) as q2.
    pose proof (Q (s 2%nat 2%nat - s 0%nat 0%nat)) as q3. pose proof (Q (s 0%nat 1%nat)) as q4.
    pose proof (Q (s 1%nat 2%nat)) as q5. pose proof (Q (s 0%nat 2%nat)) as q6.
    assert (Z : forall x, x ^ 2 = 0 -> x = 0) by (intros x Hx; nra).
    assert (z1 := Z (s 0%nat 0%nat - s 1%nat 1%nat) ltac:(lra)).
    assert (z3 := Z (s 2%nat 2%nat - s 0%nat 0%nat) ltac:(lra)).
    assert (z4 := Z (s 0%nat 1%nat) ltac:(lra)). assert (z5 := Z (s 1%nat 2%nat) ltac:(lra)).
    assert (z6 := Z (s 0%nat 2%nat) ltac:(lra)).
    intros i j Hi Hj. unfold pressure.
    assert (H1 := H 0%nat 1%nat ltac:(lia) ltac:(lia)). assert (H2 := H 0%nat 2%nat ltac:(lia) ltac:(lia)).
    assert (H3 := H 1%nat 2%nat ltac:(lia) ltac:(lia)).
    destruct i as [|[|[|]]]; destruct j as [|[|[|]]]; try lia; cbn; lra.
  - intros (p & Hp). rewrite (von_mises_ext _ _ Hp).
    unfold von_mises_stress, ddot, c4, pressure, deviatoric_projector, identity_tensor, kron. cbn -[Rdiv].
    transitivity (sqrt 0); [f_equal; field|apply sqrt_0].
Qed.
(** A sheared, pressurised state. *)
Example C59_example : sym3 (madd (only_at 0 1 2) (pressure 5)) /\
  von_mises_stress (madd (only_at 0 1 2) (pressure 5)) = sqrt 3 * 2.
Proof.
  split.
  - intros i j Hi Hj. unfold madd, pressure. rewrite (sym3_only 0 1 2 i j Hi Hj), (Nat.eqb_sym i j). reflexivity.
  - destruct (C59_von_mises (only_at 0 1 2) (sym3_only _ _ _)) as (_ & _ & Hp & _ & _ & Hs & _).
    rewrite Hp, (Hs 0%nat 1%nat 2); try lia; [|intros ? ? _ _; reflexivity].
    rewrite Rabs_pos_eq by lra. reflexivity.
Qed.

(** In the plane the homogenisation table applies the projector of dimension 2: its von Mises
    stress is the one of the same stress with zero out-of-plane components only for trace-free
    stresses. *)
Theorem C71_plane_von_mises_partial : forall s, s 0%nat 1%nat = s 1%nat 0%nat ->
  let embedded := convert_2d_to_3d 2 s in
  table_von_mises_stress 3 embedded = von_mises_stress embedded /\
  (table_von_mises_stress 2 s = von_mises_stress embedded <-> s 0%nat 0%nat + s 1%nat 1%nat = 0) /\
  table_von_mises_stress 2 s <= von_mises_stress embedded.
Proof.
  intros s Hs embedded. split; [reflexivity|].
  assert (E : forall A, (A = ddot 2 (c4 2 deviatoric_projector s) (c4 2 deviatoric_projector s)) ->
     ddot 3 (c4 3 deviatoric_projector embedded) (c4 3 deviatoric_projector embedded)
     = A + (s 0%nat 0%nat + s 1%nat 1%nat) ^ 2 / 9).
  { intros A ->. unfold embedded, ddot, c4, deviatoric_projector, identity_tensor, kron, convert_2d_to_3d.
    cbn -[Rdiv]. rewrite <- Hs. field. }
  unfold table_von_mises_stress, von_mises_stress.
  set (A := ddot 2 (c4 2 deviatoric_projector s) (c4 2 deviatoric_projector s)) in *.
  assert (HA : 0 <= A) by apply ddot_nonneg.
  rewrite (E A eq_refl). assert (Hq := pow2_ge_0 (s 0%nat 0%nat + s 1%nat 1%nat)). split.
  - split; intros H.
    + apply sqrt_inj in H; [|lra|lra]. assert (Hz : (s 0%nat 0%nat + s 1%nat 1%nat) ^ 2 = 0) by lra. nra.
    + f_equal. rewrite H. lra.
  - apply sqrt_le_1_alt. lra.
Qed.
(** Equal biaxial tension: reported 1/sqrt 3 of the actual value. *)
Theorem C71_plane_von_mises_refuted : exists s, s 0%nat 1%nat = s 1%nat 0%nat /\
  von_mises_stress (convert_2d_to_3d 2 s) = 1 /\ table_von_mises_stress 2 s = sqrt (1 / 3).
Proof.
  exists (pressure 1). split; [reflexivity|]. split.
  - rewrite von_mises_is_formula.
    + transitivity (sqrt 1); [|apply sqrt_1]. unfold von_mises_formula. f_equal. cbn. field.
    + intros i j Hi Hj. destruct i as [|[|[|]]]; destruct j as [|[|[|]]]; try lia; reflexivity.
  - unfold table_von_mises_stress. f_equal. unfold ddot, c4, pressure, deviatoric_projector, identity_tensor, kron. cbn -[Rdiv]. field.
Qed.

(** ** Weighted means *)
Lemma total_app l l' : total (l ++ l') = total l + total l'.
Proof. unfold total. induction l; simpl; [lra|]. rewrite IHl. lra. Qed.
Lemma moment_app l l' : moment (l ++ l') = moment l + moment l'.
Proof. unfold moment. induction l; simpl; [lra|]. rewrite IHl. lra. Qed.
Lemma total_perm l l' : Permutation l l' -> total l = total l'.
Proof. induction 1; simpl in *; unfold total in *; simpl; lra. Qed.
Lemma moment_perm l l' : Permutation l l' -> moment l = moment l'.
Proof. induction 1; simpl in *; unfold moment in *; simpl; lra. Qed.
Lemma total_seq n (w v : nat -> R) : total (map (fun q => (w q, v q)) (seq 0 n)) = sumn n w.
Proof. induction n; [reflexivity|]. rewrite seq_S, map_app, total_app, IHn. simpl. unfold total; simpl. lra. Qed.
Lemma moment_seq n (w v : nat -> R) : moment (map (fun q => (w q, v q)) (seq 0 n)) = sumn n (fun q => v q * w q).
Proof. induction n; [reflexivity|]. rewrite seq_S, map_app, moment_app, IHn. simpl. unfold moment; simpl. lra. Qed.
Lemma moment_bounds l lo hi : (forall x, In x l -> 0 <= fst x /\ lo <= snd x <= hi) ->
  lo * total l <= moment l <= hi * total l.
Proof.
  induction l as [|x l IH]; intros H; unfold total, moment in *; simpl; [lra|].
  destruct (H x (or_introl eq_refl)) as (Hw & Hl & Hh).
  assert (IH' := IH (fun y Hy => H y (or_intror Hy))).
  assert (lo * fst x <= fst x * snd x) by nra. assert (fst x * snd x <= hi * fst x) by nra. lra.
Qed.
Lemma mean_bounds l lo hi m : 0 < total l -> (forall x, In x l -> 0 <= fst x /\ lo <= snd x <= hi) ->
  is_mean l m -> lo <= m <= hi.
Proof. intros Ht H Hm. destruct (moment_bounds l lo hi H) as (H1 & H2). unfold is_mean in Hm. split; nra. Qed.

Section Ranks.
  Context {A : Type}.
  Lemma rank_sum_acc (f : A -> R) l acc : fold_left (fun a c => a + f c) l acc = acc + fold_right (fun c a => f c + a) 0 l.
  Proof. revert acc. induction l as [|x l IH]; intros acc; simpl; [lra|]. rewrite IH. lra. Qed.
  Lemma ranks_sum (f : A -> R) (g : A -> list (R * R)) (h : list (R * R) -> R) ranks :
    h [] = 0 -> (forall l l', h (l ++ l') = h l + h l') -> (forall c, h (g c) = f c) ->
    mpi_sum (map (rank_sum f) ranks) = h (flat_map g (List.concat ranks)).
  Proof.
    intros H0 Happ Hf. induction ranks as [|r ranks IH]; simpl; [auto|].
    rewrite flat_map_app, Happ, <- IH. f_equal. unfold rank_sum. rewrite rank_sum_acc, Rplus_0_l.
    clear IH. induction r as [|c r IHr]; simpl; [auto|]. rewrite Happ, <- IHr, Hf. lra.
  Qed.
End Ranks.

Lemma perm_concat_map {A B} (g : A -> list B) l l' : Permutation l l' -> Permutation (flat_map g l) (flat_map g l').
Proof.
  induction 1; simpl; auto.
  - apply Permutation_app_head; assumption.
  - rewrite !app_assoc. apply Permutation_app_tail, Permutation_app_comm.
  - eapply Permutation_trans; eassumption.
Qed.

(** ** C60 *)
Lemma elastic_sum N P eps gamma n r s :
  elastic_strain N P eps gamma n r s = eps r s - N * sumn n (fun a => gamma a * P a r s).
Proof. induction n; simpl; [lra|]. unfold msub, mscal. rewrite IHn. lra. Qed.
Lemma stress_is_point_stress c q i j :
  stress_at (hc_crystal c) (hc_element c) (hc_U c) q i j = point_stress i j c q.
Proof.
  unfold stress_at, point_stress, c4. apply sumn_ext; intros r _. apply sumn_ext; intros s _.
  unfold madd. rewrite elastic_sum. unfold strain_at, slip_at. f_equal. lra.
Qed.
Definition volume_weights (ranks : list (list hcell)) : Prop :=
  forall c q, In c (List.concat ranks) -> (q < el_nq (hc_element c))%nat -> 0 <= el_w (hc_element c) q.

Lemma homogenise_mean (f : hcell -> R) (v : hcell -> nat -> R) ranks :
  (forall c, f c = sumn (el_nq (hc_element c)) (fun q => v c q * el_w (hc_element c) q)) ->
  0 < total (sample v ranks) ->
  homogenise f ranks = Fin (moment (sample v ranks) / total (sample v ranks)).
Proof.
  intros Hf Hpos. unfold homogenise.
  rewrite (ranks_sum f (sample_cell v) moment), (ranks_sum cell_volume (sample_cell v) total).
  - fold (sample v ranks). unfold xdiv. destruct (Reqb _ 0) eqn:E; [apply Reqb_true in E; lra|reflexivity].
  - reflexivity.
  - apply total_app.
  - intros c. apply total_seq.
  - reflexivity.
  - apply moment_app.
  - intros c. rewrite Hf. apply moment_seq.
Qed.
Lemma sample_total v v' ranks : total (sample v ranks) = total (sample v' ranks).
Proof.
  unfold sample. induction (List.concat ranks) as [|c l IH]; [reflexivity|].
  simpl. rewrite !total_app, IH. unfold sample_cell. rewrite !total_seq. reflexivity.
Qed.

(** For every distribution of cells over ranks with positive total volume: component (i,j) of the
    macroscopic stress is the volume-weighted mean of the point stresses; it depends neither on
    the partition nor on the order of cells; it lies between any bounds of the point values, so
    that a uniform field is reproduced.  The same for the strain fluctuations. *)
Theorem C60_macroscopic_stress : forall ranks i j,
  volume_weights ranks -> 0 < total (sample (point_stress i j) ranks) ->
  exists m, macroscopic_stress ranks i j = Fin m /\
    is_mean (sample (point_stress i j) ranks) m /\
    (forall ranks', Permutation (List.concat ranks) (List.concat ranks') ->
       macroscopic_stress ranks' i j = Fin m) /\
    (forall lo hi, (forall c q, In c (List.concat ranks) -> (q < el_nq (hc_element c))%nat ->
       lo <= point_stress i j c q <= hi) -> lo <= m <= hi) /\
    (forall s, (forall c q, In c (List.concat ranks) -> (q < el_nq (hc_element c))%nat ->
       point_stress i j c q = s) -> m = s).
Proof.
  intros ranks i j Hw Hpos.
  assert (Hf : forall c, cell_stress c i j =
     sumn (el_nq (hc_element c)) (fun q => point_stress i j c q * el_w (hc_element c) q)).
  { intros c. unfold cell_stress. apply sumn_ext; intros q _. rewrite stress_is_point_stress. reflexivity. }
  exists (moment (sample (point_stress i j) ranks) / total (sample (point_stress i j) ranks)).
  assert (Hmean : is_mean (sample (point_stress i j) ranks)
     (moment (sample (point_stress i j) ranks) / total (sample (point_stress i j) ranks))).
  { unfold is_mean. field. lra. }
  assert (Hb : forall lo hi, (forall c q, In c (List.concat ranks) -> (q < el_nq (hc_element c))%nat ->
       lo <= point_stress i j c q <= hi) ->
       lo <= moment (sample (point_stress i j) ranks) / total (sample (point_stress i j) ranks) <= hi).
  { intros lo hi H. refine (mean_bounds _ lo hi _ Hpos _ Hmean).
    intros x Hx. apply in_flat_map in Hx. destruct Hx as (c & Hc & Hx).
    apply in_map_iff in Hx. destruct Hx as (q & <- & Hq). apply in_seq in Hq. simpl.
    split; [apply Hw|apply H]; auto; lia. }
  repeat split.
  - unfold macroscopic_stress. apply homogenise_mean; assumption.
  - exact Hmean.
  - intros ranks' HP. unfold macroscopic_stress.
    assert (HPs : Permutation (sample (point_stress i j) ranks) (sample (point_stress i j) ranks'))
      by (apply perm_concat_map; assumption).
    rewrite (homogenise_mean _ (point_stress i j)); [|assumption|rewrite <- (total_perm _ _ HPs); assumption].
    rewrite (total_perm _ _ HPs), (moment_perm _ _ HPs). reflexivity.
  - exact (proj1 (Hb lo hi H)).
  - exact (proj2 (Hb lo hi H)).
  - intros s H. destruct (Hb s s) as (H1 & H2); [|lra]. intros c q Hc Hq. rewrite (H c q Hc Hq). lra.
Qed.
(** The other two homogenised tensors are means of the same kind; for a homogeneous crystal
    (the same stiffness and the same prescribed strain everywhere) the fluctuation is what is left
    of the macroscopic stress after subtracting C : E. *)
Theorem C60_fluctuations : forall ranks i j,
  0 < total (sample (point_strain i j) ranks) ->
  microstrain_fluctuations ranks i j =
    Fin (moment (sample (point_strain i j) ranks) / total (sample (point_strain i j) ranks)) /\
  (forall (C : ten4) (E : mat) d,
     (forall c, In c (List.concat ranks) -> cr_C (hc_crystal c) = C /\ cr_macro (hc_crystal c) = E /\ cr_dim (hc_crystal c) = d) ->
     exists m f, macroscopic_stress ranks i j = Fin m /\ microstress_fluctuations ranks i j = Fin f /\
       m = f + sumn d (fun r => sumn d (fun s => C i j r s * E r s))).
Proof.
  intros ranks i j Hpos. split.
  { unfold microstrain_fluctuations. apply homogenise_mean; [|assumption]. intros c. reflexivity. }
  intros C E d Hu.
  set (vs := fun c q => stress_at (hc_crystal c) (hc_element c) (hc_U c) q i j).
  set (vf := fun c q => stress_fluct_at (hc_crystal c) (hc_element c) (hc_U c) q i j).
  assert (Hps : 0 < total (sample vs ranks)) by (rewrite (sample_total vs (point_strain i j)); assumption).
  assert (Hpf : 0 < total (sample vf ranks)) by (rewrite (sample_total vf (point_strain i j)); assumption).
  exists (moment (sample vs ranks) / total (sample vs ranks)), (moment (sample vf ranks) / total (sample vf ranks)).
  repeat split.
  - unfold macroscopic_stress. apply homogenise_mean; [|assumption]. intros c; reflexivity.
  - unfold microstress_fluctuations. apply homogenise_mean; [|assumption]. intros c; reflexivity.
  - set (K := sumn d _).
    assert (Hm : moment (sample vs ranks) = moment (sample vf ranks) + K * total (sample vf ranks)).
    { unfold sample. clear Hpos Hps Hpf. induction (List.concat ranks) as [|c l IH]; [unfold moment, total; simpl; lra|].
      simpl. rewrite !moment_app, !total_app, IH by (intros; apply Hu; right; assumption).
      unfold sample_cell. rewrite !moment_seq, !total_seq.
      destruct (Hu c (or_introl eq_refl)) as (HC & HE & Hd).
      replace (sumn (el_nq (hc_element c)) (fun q => vs c q * el_w (hc_element c) q))
        with (sumn (el_nq (hc_element c)) (fun q => vf c q * el_w (hc_element c) q + K * el_w (hc_element c) q)).
      - rewrite sumn_plus, sumn_scal. lra.
      - apply sumn_ext; intros q _. unfold vs, vf, stress_at, stress_fluct_at, c4, K, madd. rewrite HC, HE, Hd.
        rewrite <- Rmult_plus_distr_r. f_equal. rewrite <- sumn_plus. apply sumn_ext; intros r _.
        rewrite <- sumn_plus. apply sumn_ext; intros s _. lra. }
    rewrite (sample_total vs vf), Hm. field. rewrite (sample_total vf vs). lra.
Qed.
(** Two ranks, three one-point cells with stresses 1, 2, 3 (here from the macroscopic strain) and
    volumes 1, 1, 2: the mean is 9/4. *)
Definition ex_cell (w s : R) : hcell :=
  mk_hcell (mk_crystal 1 0 (fun _ => 1) (fun _ _ _ _ => s) (fun _ => fun _ _ => 0)
              (ModelMicro.mk_scalar_law ModelUtilities.Atan 1 0 0 1 true false) 1 2 (fun _ => vzero) (fun _ => vzero)
              (fun _ _ => 1) (fun _ => vzero) 1)
           (mk_element 1 0 (fun _ => 0%nat) (fun _ => w) (fun _ _ => vzero) (fun _ _ _ _ => 0) (fun _ _ _ => 0) (fun _ _ _ => vzero))
           (fun _ => 0).
Example C60_example :
  volume_weights [[ex_cell 1 1; ex_cell 1 2]; [ex_cell 2 3]] /\
  0 < total (sample (point_stress 0 0) [[ex_cell 1 1; ex_cell 1 2]; [ex_cell 2 3]]) /\
  macroscopic_stress [[ex_cell 1 1; ex_cell 1 2]; [ex_cell 2 3]] 0 0 = Fin (9 / 4).
Proof.
  assert (W : volume_weights [[ex_cell 1 1; ex_cell 1 2]; [ex_cell 2 3]]).
  { intros c q Hc _. simpl in Hc. destruct Hc as [<-|[<-|[<-|[]]]]; simpl; lra. }
  assert (T : total (sample (point_stress 0 0) [[ex_cell 1 1; ex_cell 1 2]; [ex_cell 2 3]]) = 4)
    by (unfold total; simpl; lra).
  split; [exact W|]. split; [rewrite T; lra|].
  unfold macroscopic_stress. rewrite (homogenise_mean _ (point_stress 0 0)).
  - rewrite T. f_equal. unfold moment. simpl. unfold point_stress; simpl. field.
  - intros c. unfold cell_stress. apply sumn_ext; intros q _. rewrite stress_is_point_stress. reflexivity.
  - rewrite T; lra.
Qed.

(** ** C61 *)
(** With at least one rank the function reads an indeterminate value: undefined behaviour whatever
    the interfaces and their damage. *)
Theorem C61_refuted : forall ranks, ranks <> [] -> get_macroscopic_damage ranks = UB.
Proof.
  intros [|fs ranks] H; [congruence|]. unfold get_macroscopic_damage, macroscopic_damage_from. simpl.
  destruct fs as [|f fs]; reflexivity.
Qed.
Lemma accumulate_some fs a : accumulate_faces (Some a) fs = Ok (Some (a + fold_right (fun f acc => face_damage f + acc) 0 fs)).
Proof. revert a. induction fs as [|f fs IH]; intros a; simpl; [f_equal; f_equal; lra|]. rewrite IH. f_equal. f_equal. lra. Qed.
Lemma mpi_damage_some x ranks : mpi_sum_damage (Some x) ranks = Ok (INR (List.length ranks) * x + moment (sample_faces ranks)).
Proof.
  induction ranks as [|fs ranks IH]; simpl List.length; [simpl; unfold moment; simpl; f_equal; lra|].
  cbn [mpi_sum_damage]. rewrite accumulate_some. cbn [rbind]. rewrite IH. cbn [rbind]. f_equal.
  rewrite S_INR. unfold sample_faces. simpl. rewrite flat_map_app, moment_app.
  assert (E : fold_right (fun f acc => face_damage f + acc) 0 fs = moment (flat_map sample_face fs)).
  { clear. induction fs as [|f fs IH]; [reflexivity|]. simpl. rewrite moment_app, IH. unfold sample_face.
    rewrite moment_seq. reflexivity. }
  rewrite E. lra.
Qed.
(** Had the accumulator been initialised with 0, the area-weighted mean would be returned, in
    [0,1] if all damages are, independently of the partition; with any other initial value [x] the
    result is off by n_ranks x / area; without grain boundary faces it is 0/0. *)
Theorem C61_macroscopic_damage_partial : forall ranks,
  (0 < total (sample_faces ranks) ->
   exists m, macroscopic_damage_from (Some 0) ranks = Ok (Fin m) /\ is_mean (sample_faces ranks) m /\
     ((forall x, In x (sample_faces ranks) -> 0 <= fst x /\ 0 <= snd x <= 1) -> 0 <= m <= 1) /\
     (forall ranks', Permutation (List.concat ranks) (List.concat ranks') ->
        macroscopic_damage_from (Some 0) ranks' = Ok (Fin m)) /\
     (forall x, macroscopic_damage_from (Some x) ranks =
        Ok (Fin (m + INR (List.length ranks) * x / total (sample_faces ranks))))) /\
  (List.concat ranks = [] -> macroscopic_damage_from (Some 0) ranks = Ok NaN).
Proof.
  intros ranks.
  assert (HA : forall rs, mpi_sum (map (rank_sum face_area) rs) = total (sample_faces rs)).
  { intros rs. apply ranks_sum; [reflexivity|apply total_app|]. intros f. apply total_seq. }
  split.
  - intros Hpos. exists (moment (sample_faces ranks) / total (sample_faces ranks)).
    assert (Hmean : is_mean (sample_faces ranks) (moment (sample_faces ranks) / total (sample_faces ranks)))
      by (unfold is_mean; field; lra).
    assert (Hgen : forall rs x, 0 < total (sample_faces rs) ->
      macroscopic_damage_from (Some x) rs = Ok (Fin ((INR (List.length rs) * x + moment (sample_faces rs)) / total (sample_faces rs)))).
    { intros rs x Hp. unfold macroscopic_damage_from. rewrite mpi_damage_some. cbn [rbind]. rewrite HA.
      unfold xdiv. destruct (Reqb _ 0) eqn:E; [apply Reqb_true in E; lra|reflexivity]. }
    repeat split.
    + rewrite Hgen by assumption. f_equal. f_equal. field. lra.
    + exact Hmean.
    + eapply (proj1 (mean_bounds _ 0 1 _ Hpos H Hmean)).
    + eapply (proj2 (mean_bounds _ 0 1 _ Hpos H Hmean)).
    + intros ranks' HP.
      assert (HPs : Permutation (sample_faces ranks) (sample_faces ranks')) by (apply perm_concat_map; assumption).
      rewrite Hgen by (rewrite <- (total_perm _ _ HPs); assumption).
      rewrite (total_perm _ _ HPs), (moment_perm _ _ HPs). f_equal. f_equal. field.
      rewrite <- (total_perm _ _ HPs). lra.
    + intros x. rewrite Hgen by assumption. f_equal. f_equal. field. lra.
  - intros HN. unfold macroscopic_damage_from. rewrite mpi_damage_some. cbn [rbind]. rewrite HA.
    unfold sample_faces. rewrite HN. unfold total, moment, xdiv, Reqb, xsign, Rltb. simpl.
    destruct (Req_EM_T 0 0); [|lra]. f_equal.
    destruct (Rlt_dec 0 (INR (Datatypes.length ranks) * 0 + 0)); [lra|].
    destruct (Rlt_dec (INR (Datatypes.length ranks) * 0 + 0) 0); [lra|reflexivity].
Qed.
Example C61_example : 0 < total (sample_faces [[mk_dface 2 (fun _ => 1) (fun q => if Nat.eqb q 0 then 0 else 1)]; []]) /\
  macroscopic_damage_from (Some 0) [[mk_dface 2 (fun _ => 1) (fun q => if Nat.eqb q 0 then 0 else 1)]; []] = Ok (Fin (1 / 2)).
Proof.
  split; [unfold total; simpl; lra|]. unfold macroscopic_damage_from, mpi_sum_damage, accumulate_faces, accumulate, face_damage, face_area.
  simpl. unfold rank_sum, mpi_sum, face_area. simpl. unfold xdiv.
  destruct (Reqb _ 0) eqn:E; [apply Reqb_true in E; lra|]. f_equal. f_equal. field.
Qed.

(** ** C66 *)
Lemma scatter_sum loc fs k : scatter loc fs k =
  fold_right (fun f acc => sumn (pf_nd f) (fun i => if Nat.eqb (pf_dof f i) k then loc f i else 0) + acc) 0 fs.
Proof. unfold scatter. rewrite (rank_sum_acc (fun f => sumn (pf_nd f) (fun i => if Nat.eqb (pf_dof f i) k then loc f i else 0))). lra. Qed.
Lemma scatter_lin (a b : pface -> nat -> R) (la lb : R) fs k :
  (forall f i, In f fs -> (i < pf_nd f)%nat -> pf_dof f i = k -> la * a f i <= lb * b f i) ->
  la * scatter a fs k <= lb * scatter b fs k.
Proof.
  intros H. rewrite !scatter_sum. induction fs as [|f fs IH]; simpl; [lra|].
  assert (IH' := IH (fun g i Hg => H g i (or_intror Hg))).
  assert (la * sumn (pf_nd f) (fun i => if Nat.eqb (pf_dof f i) k then a f i else 0)
          <= lb * sumn (pf_nd f) (fun i => if Nat.eqb (pf_dof f i) k then b f i else 0)).
  { rewrite <- !sumn_scal. apply sumn_le. intros i Hi. destruct (Nat.eqb (pf_dof f i) k) eqn:E; [|lra].
    apply Nat.eqb_eq in E. apply (H f i (or_introl eq_refl) Hi E). }
  lra.
Qed.
(** The shape functions of the projection space sum to one (FE_Q). *)
Definition partition_of_unity (fs : list pface) : Prop := forall f q, In f fs -> (q < pf_nq f)%nat ->
  sumn (pf_nd f) (fun j => pf_phi f j q) = 1.
Lemma local_lumped_unity fs f i : partition_of_unity fs -> In f fs ->
  local_lumped f i = sumn (pf_nq f) (fun q => pf_phi f i q * pf_w f q).
Proof.
  intros HP Hf. unfold local_lumped. apply sumn_ext; intros q Hq.
  replace (pf_phi f i q * pf_w f q) with (pf_phi f i q * pf_w f q * sumn (pf_nd f) (fun j => pf_phi f j q))
    by (rewrite (HP f q Hf Hq); ring).
  rewrite <- sumn_scal. apply sumn_ext; intros j _. ring.
Qed.
(** Every mesh, every damage field, every degree of freedom with positive lumped mass. *)
Theorem C66_projection : forall fs k, partition_of_unity fs -> 0 < scatter local_lumped fs k ->
  (forall c, (forall f q, In f fs -> (q < pf_nq f)%nat -> pf_D f q = c) -> projected_damage fs k = c) /\
  (forall lo hi,
     (forall f i q, In f fs -> (i < pf_nd f)%nat -> (q < pf_nq f)%nat -> 0 <= pf_phi f i q /\ 0 <= pf_w f q) ->
     (forall f q, In f fs -> (q < pf_nq f)%nat -> (exists i, (i < pf_nd f)%nat /\ pf_dof f i = k) ->
        lo <= pf_D f q <= hi) ->
     lo <= projected_damage fs k <= hi).
Proof.
  intros fs k HP Hpos.
  assert (Hd : projected_damage fs k = scatter local_rhs fs k / scatter local_lumped fs k).
  { unfold projected_damage. destruct (Reqb _ 0) eqn:E; [apply Reqb_true in E; lra|reflexivity]. }
  split.
  - intros c Hc.
    assert (E1 : scatter local_rhs fs k = c * scatter local_lumped fs k).
    { rewrite !scatter_sum. clear Hpos Hd. revert HP Hc. induction fs as [|f fs IH]; intros HP Hc; simpl; [lra|].
      rewrite IH; [|intros g q Hg; apply HP; right; assumption|intros g q Hg; apply Hc; right; assumption].
      rewrite Rmult_plus_distr_l. f_equal. rewrite <- sumn_scal. apply sumn_ext; intros i Hi.
      destruct (Nat.eqb (pf_dof f i) k); [|lra].
      rewrite (local_lumped_unity (f :: fs) f i HP (or_introl eq_refl)). unfold local_rhs.
      rewrite <- sumn_scal. apply sumn_ext; intros q Hq. rewrite (Hc f q (or_introl eq_refl) Hq). ring. }
    rewrite Hd, E1. field. lra.
  - intros lo hi Hnn Hb.
    assert (B1 : lo * scatter local_lumped fs k <= 1 * scatter local_rhs fs k).
    { apply scatter_lin. intros f i Hf Hi Hk. rewrite (local_lumped_unity fs f i HP Hf). unfold local_rhs.
      rewrite Rmult_1_l, <- sumn_scal. apply sumn_le. intros q Hq.
      destruct (Hnn f i q Hf Hi Hq) as (P1 & P2).
      destruct (Hb f q Hf Hq) as (Q1 & _); [exists i; auto|].
      assert (0 <= pf_phi f i q * pf_w f q) by (apply Rmult_le_pos; assumption). nra. }
    assert (B2 : 1 * scatter local_rhs fs k <= hi * scatter local_lumped fs k).
    { apply scatter_lin. intros f i Hf Hi Hk. rewrite (local_lumped_unity fs f i HP Hf). unfold local_rhs.
      rewrite Rmult_1_l, <- sumn_scal. apply sumn_le. intros q Hq.
      destruct (Hnn f i q Hf Hi Hq) as (P1 & P2).
      destruct (Hb f q Hf Hq) as (_ & Q2); [exists i; auto|].
      assert (0 <= pf_phi f i q * pf_w f q) by (apply Rmult_le_pos; assumption). nra. }
    rewrite Hd. split.
    + apply Rmult_le_reg_r with (scatter local_lumped fs k); [assumption|].
      unfold Rdiv. rewrite Rmult_assoc, Rinv_l by lra. lra.
    + apply Rmult_le_reg_r with (scatter local_lumped fs k); [assumption|].
      unfold Rdiv. rewrite Rmult_assoc, Rinv_l by lra. lra.
Qed.
(** A degree of freedom touched by no interface face (zero lumped mass) gets 0, not NaN. *)
Theorem C66_untouched : forall fs k,
  (forall f i, In f fs -> (i < pf_nd f)%nat -> pf_dof f i <> k) -> projected_damage fs k = 0.
Proof.
  intros fs k H. unfold projected_damage.
  replace (scatter local_lumped fs k) with 0.
  - destruct (Reqb 0 0) eqn:E; [reflexivity|apply Reqb_false in E; lra].
  - symmetry. rewrite scatter_sum. induction fs as [|f fs IH]; simpl; [reflexivity|].
    rewrite IH by (intros g i Hg; apply H; right; assumption).
    rewrite sumn_zero; [lra|]. intros i Hi. destruct (Nat.eqb (pf_dof f i) k) eqn:E; [|reflexivity].
    apply Nat.eqb_eq in E. exfalso. exact (H f i (or_introl eq_refl) Hi E).
Qed.
(** Two linear shape functions on one face, one point in the middle. *)
Example C66_example :
  let f := mk_pface 1 2 (fun i => i) (fun _ => 1) (fun _ _ => 1 / 2) (fun _ => 3 / 10) in
  partition_of_unity [f] /\ 0 < scatter local_lumped [f] 0 /\ projected_damage [f] 0 = 3 / 10.
Proof.
  intros f.
  assert (HP : partition_of_unity [f]).
  { intros g q [<-|[]] _. simpl. lra. }
  assert (Hm : 0 < scatter local_lumped [f] 0) by (unfold scatter, local_lumped; simpl; lra).
  split; [exact HP|]. split; [exact Hm|].
  apply (proj1 (C66_projection [f] 0 HP Hm)). intros g q [<-|[]] _. reflexivity.
Qed.
