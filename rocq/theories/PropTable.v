(** * C83: the boundary table. *)
From Coq Require Import Permutation.
From Verif Require Import Num SumLemmas Tensors ModelUtilities ModelMicro ModelAssembly ModelPost SpecPost PropPost
  ModelLoading SpecLoading PropLoading ModelTable.
Open Scope R_scope.

(** Shear stress at a point of a face (no macroscopic strain). *)
Definition boundary_stress (c : hcell) (q : nat) : R :=
  let k := hc_crystal c in let e := hc_element c in
  sumn (cr_dim k) (fun r => sumn (cr_dim k) (fun s => cr_C k 0%nat 1%nat r s *
    (sumn (el_nd e) (fun n => hc_U c n * el_eps e n q r s)
     - cr_N k 0 * sumn (cr_ns k) (fun a => sumn (el_nd e) (fun n => hc_U c n * el_psi e a n q) * cr_P k a r s)))).

Lemma table_stress_value width ranks : width <> 0 ->
  table_stress width ranks = Fin (moment (sample boundary_stress ranks) / width).
Proof.
  intros W. unfold table_stress. rewrite (ranks_sum (fun c => cell_stress_fluct c 0 1) (sample_cell boundary_stress) moment).
  - fold (sample boundary_stress ranks). unfold xdiv. destruct (Reqb width 0) eqn:E; [apply Reqb_true in E; contradiction|reflexivity].
  - reflexivity.
  - apply moment_app.
  - intros c. unfold sample_cell. rewrite moment_seq. unfold cell_stress_fluct. apply sumn_ext; intros q _. f_equal.
    unfold stress_fluct_at, boundary_stress, c4. apply sumn_ext; intros r _. apply sumn_ext; intros s _.
    rewrite elastic_sum. reflexivity.
Qed.

(** The faces cover the upper boundary: their weights add up to its measure. *)
Definition covers (dim : nat) (w : R) (ranks : list (list hcell)) : Prop :=
  total (sample boundary_stress ranks) = upper_boundary_measure dim w.

(** In plane problems the stress column is the mean shear stress on the upper boundary,
    whatever the partition. *)
Theorem C83_stress_column_2d : forall n ranks, (0 < n)%nat -> covers 2 (strip_width n) ranks ->
  exists m, table_stress (strip_width n) ranks = Fin m /\ is_mean (sample boundary_stress ranks) m /\
    (forall ranks', Permutation (List.concat ranks) (List.concat ranks') ->
       table_stress (strip_width n) ranks' = Fin m) /\
    (volume_weights ranks -> forall lo hi, (forall c q, In c (List.concat ranks) -> (q < el_nq (hc_element c))%nat ->
       lo <= boundary_stress c q <= hi) -> lo <= m <= hi).
Proof.
  intros n ranks N C. unfold covers, upper_boundary_measure in C. cbn in C.
  assert (W : 0 < strip_width n) by (unfold strip_width; apply Rdiv_lt_0_compat; [lra|apply lt_0_INR; lia]).
  exists (moment (sample boundary_stress ranks) / strip_width n).
  assert (M : is_mean (sample boundary_stress ranks) (moment (sample boundary_stress ranks) / strip_width n)).
  { unfold is_mean. rewrite C. field. lra. }
  split; [apply table_stress_value; lra|]. split; [exact M|]. split.
  - intros ranks' P. rewrite table_stress_value by lra.
    rewrite (moment_perm _ _ (perm_concat_map _ _ _ P : Permutation (sample boundary_stress ranks) (sample boundary_stress ranks'))).
    reflexivity.
  - intros V lo hi H. refine (mean_bounds _ lo hi _ _ _ M); [rewrite C; exact W|].
    intros x Hx. apply in_flat_map in Hx. destruct Hx as (c & Hc & Hx).
    apply in_map_iff in Hx. destruct Hx as (q & <- & Hq). apply in_seq in Hq. simpl.
    split; [apply V|apply H]; auto; lia.
Qed.

(** In space it is the mean multiplied by the width of the strip. *)
Theorem C83_stress_column_3d_refuted : forall n ranks m, (0 < n)%nat -> covers 3 (strip_width n) ranks ->
  is_mean (sample boundary_stress ranks) m ->
  table_stress (strip_width n) ranks = Fin (strip_width n * m) /\
  ((1 < n)%nat -> m <> 0 -> table_stress (strip_width n) ranks <> Fin m).
Proof.
  intros n ranks m N C M. unfold covers, upper_boundary_measure in C. cbn in C.
  assert (W : 0 < strip_width n) by (unfold strip_width; apply Rdiv_lt_0_compat; [lra|apply lt_0_INR; lia]).
  assert (T : table_stress (strip_width n) ranks = Fin (strip_width n * m)).
  { rewrite table_stress_value by lra. f_equal. unfold is_mean in M. rewrite C in M. rewrite <- M. field. lra. }
  split; [exact T|]. intros N1 M0. rewrite T. intros E. injection E as E.
  assert (strip_width n < 1).
  { unfold strip_width. apply (Rmult_lt_reg_r (INR n)); [apply lt_0_INR; lia|]. unfold Rdiv. rewrite Rmult_1_l, Rinv_l, Rmult_1_l.
    - apply (lt_INR 1 n N1). - apply not_0_INR. lia. }
  apply M0. apply Rmult_eq_reg_l with (strip_width n - 1); lra.
Qed.

(** Monotonic loading: the shear column is the prescribed displacement of the upper boundary
    (in physical units) over the height of the strip. *)
Theorem C83_shear_column_monotonic : forall l dim n_crystals height decohesion char component initial t,
  l_type l = Monotonic -> (component < dim)%nat -> height <> 0 -> char <> 0 ->
  table_shear l initial t =
    vector_value dim (make_displacement_control l n_crystals height decohesion char component) t component * char / height.
Proof.
  intros l dim nc h dec ch comp ini t T C H CH.
  destruct (C52_monotonic_load dim l nc h dec ch comp t comp C T) as (L & _).
  rewrite L by (exists 0%nat; split; [lia|left; reflexivity]). unfold table_shear. rewrite T. field. split; assumption.
Qed.

(** Cyclic loading: it is not. *)
Theorem C83_shear_column_cyclic_refuted : exists l initial t,
  l_type l = Cyclic /\ 0 < initial <= t /\
  table_shear l initial t = 1 /\
  vector_value 2 (make_displacement_control l 1 1 false 1 0) t 0 * 1 / 1 = 2.
Proof.
  exists (mk_loading Cyclic 1 0 1 1 1 1 1 1 1 true), 1, 2.
  split; [reflexivity|]. split; [lra|]. split.
  - unfold table_shear. cbn [l_type l_max l_min l_period]. rewrite (proj2 (Rleb_true 1 2)) by lra.
    replace (2 * PI / 1 * (2 - 1)) with (2 * PI) by field. rewrite cos_2PI. lra.
  - unfold vector_value, make_displacement_control, displacement_load. cbn. lra.
Qed.

Definition one_face (w s : R) : hcell :=
  mk_hcell (mk_crystal 2 0 (fun _ => 1) (fun _ _ _ _ => 1) (fun _ _ _ => 0%R) (mk_scalar_law Atan 1 0 0 1 true false)
              1 2 (fun _ _ => 0%R) (fun _ _ => 0%R) (fun _ _ => 0%R) (fun _ _ => 0%R) 1)
    (mk_element 1 1 (fun _ => 0%nat) (fun _ => w) (fun _ _ _ => 0%R) (fun _ _ r s => if Nat.eqb (r + s) 1 then / 2 else 0)
       (fun _ _ _ => 0%R) (fun _ _ _ _ => 0%R)) (fun _ => s).
Example C83_example : covers 2 (strip_width 2) [[one_face (1/4) 3]; [one_face (1/4) 5]] /\
  volume_weights [[one_face (1/4) 3]; [one_face (1/4) 5]] /\
  table_stress (strip_width 2) [[one_face (1/4) 3]; [one_face (1/4) 5]] = Fin 4.
Proof.
  assert (W : strip_width 2 = 1 / 2) by (unfold strip_width; simpl; lra).
  split; [|split].
  - unfold covers. rewrite W. unfold upper_boundary_measure. cbn. lra.
  - intros c q Hc _. simpl in Hc. destruct Hc as [<-|[<-|[]]]; simpl; lra.
  - rewrite table_stress_value by (rewrite W; lra). rewrite W. f_equal. cbn. lra.
Qed.
