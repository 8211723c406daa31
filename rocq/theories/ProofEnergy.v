(** * Proofs for C95: convexity of the energies, pointwise. *)
From Coquelicot Require Import Coquelicot.
From Coq Require Import FunctionalExtensionality.
From Verif Require Import Num SumLemmas Tensors TensorLemmas ModelUtilities ProofUtilities ModelElastic SpecElastic ProofElastic ModelMicro SpecMicro ProofMicro
  ModelCohesive SpecCohesive ProofCohesive ModelHistory SpecInterface ModelInterface
  ModelFEField ModelActiveSet ModelLinear SpecLinear PropLinear ModelAssembly SpecAssembly ProofAssembly ProofFace
  ModelSolver ModelSweep ModelStep ModelBody SpecBody SpecTangent SpecRun SpecEnergy.
Open Scope R_scope.

(** ** Elasticity *)
Lemma elastic_convex d C e e0 : major_symmetric d C -> (forall A, symmetric d A -> 0 <= ddot d A (c4 d C A)) ->
  symmetric d e -> symmetric d e0 ->
  1/2 * ddot d e (c4 d C e) - 1/2 * ddot d e0 (c4 d C e0) <= ddot d (msub e e0) (c4 d C e).
Proof.
  intros M P S S0.
  assert (D : symmetric d (msub e e0)) by (intros i j Hi Hj; unfold msub; rewrite (S i j), (S0 i j) by assumption; reflexivity).
  specialize (P _ D).
  assert (L : forall A B C', ddot d (msub A B) C' = ddot d A C' - ddot d B C').
  { intros. unfold ddot, msub. rewrite <- sumn_minus. apply sumn_ext; intros. rewrite <- sumn_minus. apply sumn_ext; intros. ring. }
  rewrite L in P |- *.
  rewrite (ddot_major d C e (msub e e0) M), (ddot_major d C e0 (msub e e0) M) in P. rewrite !L in P.
  rewrite (ddot_major d C e0 e M) in P |- *. lra.
Qed.

(** ** Defect energy *)
Lemma defect_convex factor p d dir ort g g0 : 2 <= p -> 0 <= factor ->
  defect_energy factor p d dir ort g - defect_energy factor p d dir ort g0 <= dot d (vm factor p d dir ort g) (vsub g g0).
Proof.
  intros Hp Hf. set (w := vsub g g0). set (at_ := fun t => vadd g0 (vscal t w)).
  set (f := fun t => defect_energy factor p d dir ort (at_ t)).
  assert (DF : forall t, is_derive f t (dot d (vm factor p d dir ort (at_ t)) w)).
  { intros t. pose proof (energy_gradient factor p d dir ort (at_ t) w Hp) as H.
    apply (is_derive_ext (fun s => defect_energy factor p d dir ort (vadd (at_ t) (vscal (s - t) w)))).
    - intros s. unfold f. f_equal. apply functional_extensionality; intros i. unfold at_, vadd, vscal. ring.
    - assert (D1 : is_derive (fun s => s - t) t 1) by (auto_derive; auto; ring).
      assert (H' : is_derive (fun s => defect_energy factor p d dir ort (vadd (at_ t) (vscal s w))) (t - t) (dot d (vm factor p d dir ort (at_ t)) w))
        by (replace (t - t) with 0 by ring; exact H).
      pose proof (is_derive_comp (fun s => defect_energy factor p d dir ort (vadd (at_ t) (vscal s w))) (fun s => s - t) t _ _ H' D1) as K.
      replace (dot d (vm factor p d dir ort (at_ t)) w) with (scal 1 (dot d (vm factor p d dir ort (at_ t)) w)) by apply Rmult_1_l. exact K. }
  assert (E1 : f 1 = defect_energy factor p d dir ort g).
  { unfold f. f_equal. apply functional_extensionality; intros i. unfold at_, w, vadd, vscal, vsub. ring. }
  assert (E0 : f 0 = defect_energy factor p d dir ort g0).
  { unfold f. f_equal. apply functional_extensionality; intros i. unfold at_, vadd, vscal. ring. }
  destruct (MVT_cor4 f (fun t => dot d (vm factor p d dir ort (at_ t)) w) 0 1) with (b := 1) as (t & Et & Ht).
  { intros c _. apply DF. } { rewrite Rminus_0_r, Rabs_R1. lra. }
  rewrite E1, E0 in Et. rewrite Et. rewrite Rminus_0_r, Rmult_1_r. rewrite !Rminus_0_r, Rabs_R1 in Ht.
  pose proof (vm_monotone factor p d dir ort g (at_ t) Hp Hf) as Mo.
  assert (EV : forall i, vsub g (at_ t) i = vscal (1 - t) w i) by (intros i; unfold vsub, at_, w, vadd, vscal, vsub; ring).
  rewrite (dot_ext d _ (vsub g (at_ t)) (vsub (vm factor p d dir ort g) (vm factor p d dir ort (at_ t))) (vscal (1 - t) w)) in Mo by (intros; auto).
  rewrite dot_scal_r, dot_sub_l in Mo. pose proof (Rle_abs t) as T1.
  destruct (Req_dec t 1) as [->|T].
  - assert (at_ 1 = g) as -> by (apply functional_extensionality; intros i; unfold at_, w, vadd, vscal, vsub; ring). lra.
  - nra.
Qed.

(** ** Interfaces *)
Lemma degraded_mono m x y b : 0 < m -> x <= y -> y <= 1 -> 0 <= degraded m y b <= degraded m x b.
Proof.
  intros Hm Hxy Hy. unfold degraded. destruct b; [|lra]. split; [apply pow_abs_nonneg|].
  destruct (Req_dec y 1) as [->|Ny].
  - replace (1 - 1) with 0 by ring. unfold pow_abs at 1. destruct (Req_EM_T 0 0); [|lra]. destruct (Req_EM_T m 0); [lra|]. apply pow_abs_nonneg.
  - rewrite !pow_abs_pos by lra. destruct (Req_dec x y) as [->|N]; [lra|]. left. unfold Rpower. apply exp_increasing.
    apply Rmult_lt_compat_l; [exact Hm|]. apply ln_increasing; lra.
Qed.
Lemma secant_is c mx : secant_stiffness (crit_traction c) (crit_opening c) (char_disp c) mx = secant c mx.
Proof. reflexivity. Qed.
Lemma secant_decreasing c x y : good_cohesive c -> x <= y -> 0 < secant c y <= secant c x.
Proof.
  intros G H. split; [apply secant_pos; exact G|]. destruct G as (A & B & C & D). unfold secant.
  apply Rmult_le_compat_l.
  - apply Rmult_le_pos; [apply Rmult_le_pos; lra|left; apply Rinv_0_lt_compat; exact B].
  - destruct H as [H|H]; [|subst; lra]. left. apply exp_increasing.
    assert (E : char_disp c * x / crit_opening c < char_disp c * y / crit_opening c); [|lra].
    apply Rmult_lt_compat_r; [apply Rinv_0_lt_compat; exact B|]. apply Rmult_lt_compat_l; assumption.
Qed.
Lemma traction_value d c delta n mx old dt i : good_cohesive c -> 0 < dt -> (i < d)%nat ->
  mixed_opening (ratio c) d n delta <= mx ->
  val (cohesive_traction d c delta n mx old dt i) = secant c mx / char_stress c * pull (ratio c) d n delta i.
Proof.
  intros G Hdt Hi He. pose proof (mixed_nonneg (ratio c) d n delta) as P.
  destruct (Rle_lt_or_eq_dec 0 mx ltac:(lra)) as [Hm|Hm].
  - rewrite unloading_traction by (try assumption; lra). reflexivity.
  - assert (Z : mixed_opening (ratio c) d n delta = 0) by lra.
    rewrite pull_zero by assumption. rewrite Rmult_0_r. unfold cohesive_traction. rewrite dir_zero by assumption.
    destruct (traction_factor _ _ _ _) as [t| | |]; cbn [xmul].
    + rewrite Rmult_0_l. destruct G as (_ & _ & C & _). rewrite xdiv_fin by lra. cbn [val]. unfold Rdiv. ring.
    + unfold xsign. rewrite (proj2 (Rltb_false 0 0)) by lra. reflexivity.
    + unfold xsign. rewrite (proj2 (Rltb_false 0 0)) by lra. reflexivity.
    + reflexivity.
Qed.
Lemma opening_convex r d n delta delta0 : unit_vec d n ->
  1/2 * mixed_opening r d n delta ^ 2 - 1/2 * mixed_opening r d n delta0 ^ 2 <= dot d (pull r d n delta) (vsub delta delta0).
Proof.
  intros U. replace (mixed_opening r d n delta ^ 2) with (opening_sq r d n delta) by (rewrite <- mixed_times; ring).
  replace (mixed_opening r d n delta0 ^ 2) with (opening_sq r d n delta0) by (rewrite <- mixed_times; ring).
  unfold opening_sq.
  assert (E : dot d (pull r d n delta) (vsub delta delta0) =
    Rmax (dot d n delta) 0 * (dot d n delta - dot d n delta0) + r ^ 2 * dot d (tangential d n delta) (vsub delta delta0)).
  { rewrite <- dot_sub_r. rewrite <- dot_scal_l, <- dot_scal_l, <- dot_add_l. reflexivity. }
  rewrite E.
  assert (T : dot d (tangential d n delta) (vsub delta delta0) =
    dot d (tangential d n delta) (tangential d n delta) - dot d (tangential d n delta) (tangential d n delta0)).
  { rewrite <- dot_sub_r.
    assert (Q : forall i, vsub delta delta0 i = vadd (vsub (tangential d n delta) (tangential d n delta0)) (vscal (dot d n delta - dot d n delta0) n) i)
      by (intros i; unfold vsub, vadd, vscal, tangential; ring).
    rewrite (dot_ext d _ (vsub delta delta0) (tangential d n delta) _ ltac:(reflexivity) (fun i _ => Q i)).
    rewrite dot_add_r, dot_scal_r, (dot_comm d (tangential d n delta) n), tang_orth by exact U. ring. }
  rewrite T.
  pose proof (dot_nonneg d (vsub (tangential d n delta) (tangential d n delta0))) as S.
  rewrite dot_sub_l, !dot_sub_r, (dot_comm d (tangential d n delta0) (tangential d n delta)) in S.
  pose proof (pow2_ge_0 r) as R2.
  set (a := dot d n delta) in *. set (a0 := dot d n delta0) in *.
  set (tt := dot d (tangential d n delta) (tangential d n delta)) in *. set (t0 := dot d (tangential d n delta) (tangential d n delta0)) in *.
  set (s0 := dot d (tangential d n delta0) (tangential d n delta0)) in *.
  assert (X : 1/2 * Rmax a 0 ^ 2 - 1/2 * Rmax a0 0 ^ 2 <= Rmax a 0 * (a - a0)).
  { pose proof (pow2_ge_0 (a - a0)). pose proof (pow2_ge_0 a). pose proof (pow2_ge_0 a0).
    unfold Rmax. destruct (Rle_dec a 0), (Rle_dec a0 0); [lra|lra| |lra]. assert (0 <= a * - a0) by (apply Rmult_le_pos; lra). lra. }
  assert (Y : 0 <= r ^ 2 * (tt - t0 - (t0 - s0))) by (apply Rmult_le_pos; lra). lra.
Qed.
Lemma contact_convex d k delta delta0 n : 0 <= penalty k -> 0 < ct_stress k -> 0 < ct_disp k ->
  1/2 * (penalty k * ct_disp k / ct_stress k) * Rmax (- dot d delta n) 0 ^ 2 - 1/2 * (penalty k * ct_disp k / ct_stress k) * Rmax (- dot d delta0 n) 0 ^ 2
  <= dot d (contact_traction d k delta n) (vsub delta delta0).
Proof.
  intros A B C. set (K := penalty k * ct_disp k / ct_stress k).
  assert (HK : 0 <= K) by (apply Rmult_le_pos; [apply Rmult_le_pos; lra|left; apply Rinv_0_lt_compat; exact B]).
  assert (E : forall i, contact_traction d k delta n i = vscal (- (K * Rmax (- dot d delta n) 0)) n i).
  { intros i. unfold contact_traction, vscal, K. rewrite macaulay_max. unfold Rdiv. ring. }
  rewrite (dot_ext d _ (vsub delta delta0) _ (vsub delta delta0) (fun i _ => E i) ltac:(reflexivity)).
  rewrite dot_scal_l, dot_sub_r, !(dot_comm d n). set (a := dot d delta n). set (a0 := dot d delta0 n).
  assert (X : 1/2 * Rmax (- a) 0 ^ 2 - 1/2 * Rmax (- a0) 0 ^ 2 <= - Rmax (- a) 0 * (a - a0)).
  { pose proof (pow2_ge_0 (a - a0)). pose proof (pow2_ge_0 a). pose proof (pow2_ge_0 a0).
    unfold Rmax. destruct (Rle_dec (- a) 0), (Rle_dec (- a0) 0); [lra|lra| |lra]. assert (0 <= - a * a0) by (apply Rmult_le_pos; lra). lra. }
  replace (1/2 * K * Rmax (- a) 0 ^ 2 - 1/2 * K * Rmax (- a0) 0 ^ 2) with (K * (1/2 * Rmax (- a) 0 ^ 2 - 1/2 * Rmax (- a0) 0 ^ 2)) by ring.
  replace (- (K * Rmax (- a) 0) * (a - a0)) with (K * (- Rmax (- a) 0 * (a - a0))) by ring.
  apply Rmult_le_compat_l; assumption.
Qed.

(** Slip mismatch. *)
Lemma micro_side lambda chi d ns nb cur n g_nb g_cur s : (d = 2 \/ d = 3)%nat -> chi <> 0 ->
  sumn ns (fun a => s a * microtraction lambda chi ns (intra d cur n, inter d cur nb n) g_cur g_nb a) =
  lambda / chi * ddotr d (cols d) (fun i j => sumn ns (fun a => s a * slip_burgers d cur n a i j)) (jump d ns nb cur n g_nb g_cur).
Proof.
  intros Hd Hchi. set (J := jump d ns nb cur n g_nb g_cur).
  rewrite (ddotr_sum_l d (cols d) ns (fun a i j => s a * slip_burgers d cur n a i j)), <- sumn_scal. apply sumn_ext. intros a Ha.
  assert (E : microtraction lambda chi ns (intra d cur n, inter d cur nb n) g_cur g_nb a = lambda / chi * ddotr d (cols d) (slip_burgers d cur n a) J).
  { rewrite ddotr_comm. unfold J, jump. rewrite (ddotr_sum_l d (cols d) ns (fun b i j => g_nb b * slip_burgers d nb n b i j - g_cur b * slip_burgers d cur n b i j)).
    unfold microtraction. cbn [fst snd]. rewrite <- sumn_scal_r, <- sumn_scal. apply sumn_ext. intros b _. rewrite ddotr_lin.
    unfold intra, inter. rewrite !modulus_inner by exact Hd.
    rewrite (ddotr_comm d (cols d) (slip_burgers d cur n b)), (ddotr_comm d (cols d) (slip_burgers d nb n b)). field. exact Hchi. }
  rewrite E. assert (L : ddotr d (cols d) (fun i j => s a * slip_burgers d cur n a i j) J = s a * ddotr d (cols d) (slip_burgers d cur n a) J).
  { unfold ddotr. rewrite <- sumn_scal. apply sumn_ext; intros. rewrite <- sumn_scal. apply sumn_ext; intros. ring. }
  rewrite L. ring.
Qed.
Lemma burgers_neg d f n a i j : (d = 2 \/ d = 3)%nat -> slip_burgers d f (vneg n) a i j = - slip_burgers d f n a i j.
Proof. intros [-> | ->]; unfold slip_burgers, cross2, cross, vneg; [ring|]. destruct j as [|[|[|j]]]; ring. Qed.
Lemma jump_other d ns nb cur n g_nb g_cur i j : (d = 2 \/ d = 3)%nat ->
  jump d ns cur nb (vneg n) g_cur g_nb i j = jump d ns nb cur n g_nb g_cur i j.
Proof. intros Hd. apply sumn_ext. intros a _. rewrite !burgers_neg by exact Hd. ring. Qed.
Lemma micro_power lambda chi d ns nb cur n g_nb g_cur s_nb s_cur : (d = 2 \/ d = 3)%nat -> chi <> 0 ->
  sumn ns (fun a => s_cur a * microtraction lambda chi ns (intra d cur n, inter d cur nb n) g_cur g_nb a) +
  sumn ns (fun a => s_nb a * microtraction lambda chi ns (intra d nb (vneg n), inter d nb cur (vneg n)) g_nb g_cur a) =
  - (lambda / chi * ddotr d (cols d) (jump d ns nb cur n s_nb s_cur) (jump d ns nb cur n g_nb g_cur)).
Proof.
  intros Hd Hchi. rewrite !micro_side by assumption.
  set (J := jump d ns nb cur n g_nb g_cur).
  rewrite (ddotr_ext d (cols d) (fun i j => sumn ns (fun a => s_nb a * slip_burgers d nb (vneg n) a i j)) (fun i j => (-1) * sumn ns (fun a => s_nb a * slip_burgers d nb n a i j) - 0 * 0)
     (jump d ns cur nb (vneg n) g_cur g_nb) J).
  2:{ intros i j. rewrite Rmult_0_l, Rminus_0_r, <- sumn_scal. apply sumn_ext; intros a _. rewrite burgers_neg by exact Hd. ring. }
  2:{ intros i j. apply jump_other; exact Hd. }
  rewrite (ddotr_ext d (cols d) (jump d ns nb cur n s_nb s_cur) (fun i j => 1 * sumn ns (fun a => s_nb a * slip_burgers d nb n a i j) - 1 * sumn ns (fun a => s_cur a * slip_burgers d cur n a i j)) J J).
  2:{ intros i j. rewrite !Rmult_1_l, <- sumn_minus. reflexivity. } 2: reflexivity.
  rewrite !ddotr_lin.
  assert (Z : ddotr d (cols d) (fun _ _ => 0) J = 0).
  { unfold ddotr. apply sumn_zero; intros; apply sumn_zero; intros; ring. }
  unfold Rdiv. ring.
Qed.
Lemma mismatch_convex lambda d ns nb cur n g_nb g_cur h_nb h_cur : (d = 2 \/ d = 3)%nat -> 0 <= lambda ->
  interface_energy lambda d ns nb cur n g_nb g_cur - interface_energy lambda d ns nb cur n h_nb h_cur <=
  lambda * ddotr d (cols d) (jump d ns nb cur n (fun a => g_nb a - h_nb a) (fun a => g_cur a - h_cur a)) (jump d ns nb cur n g_nb g_cur).
Proof.
  intros Hd Hl. rewrite !energy_jump by exact Hd. set (G := jump d ns nb cur n g_nb g_cur). set (H := jump d ns nb cur n h_nb h_cur).
  rewrite (ddotr_ext d (cols d) (jump d ns nb cur n (fun a => g_nb a - h_nb a) (fun a => g_cur a - h_cur a)) (fun i j => 1 * G i j - 1 * H i j) G G).
  2:{ intros i j. unfold G, H, jump. rewrite !Rmult_1_l, <- sumn_minus. apply sumn_ext; intros; ring. } 2: reflexivity.
  rewrite ddotr_lin. pose proof (ddotr_nonneg d (cols d) (fun i j => G i j - 1 * H i j)) as P. rewrite ddotr_sub in P.
  rewrite (ddotr_comm d (cols d) H G). nra.
Qed.
