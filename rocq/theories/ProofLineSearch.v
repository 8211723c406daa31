From Verif Require Import Num ModelLineSearch SpecLineSearch.
From Coq Require Import Psatz.
Open Scope R_scope.

Ltac rb :=
  repeat match goal with
  | H : Rltb _ _ = true |- _ => apply Rltb_true in H
  | H : Rltb _ _ = false |- _ => apply Rltb_false in H
  | H : Reqb _ _ = true |- _ => apply Reqb_true in H
  | H : Reqb _ _ = false |- _ => apply Reqb_false in H
  end.

(** clamping lemma *)
Lemma clamp_range (x : xr) (lo hi : R) :
  lo <= hi ->
  let r := if xltb x (Fin lo) then Fin lo else if xgtb x (Fin hi) then Fin hi else x in
  (r = NaN /\ x = NaN) \/ exists y, r = Fin y /\ lo <= y <= hi.
Proof.
  intros Hle. cbv zeta. destruct x as [r| | |]; unfold xgtb; simpl.
  - right. destruct (Rltb r lo) eqn:E1; [exists lo; rb; split; [reflexivity|lra]|].
    destruct (Rltb hi r) eqn:E2; [exists hi; rb; split; [reflexivity|lra]|].
    exists r; rb; split; [reflexivity|lra].
  - right; exists hi; split; [reflexivity|lra].
  - right; exists lo; split; [reflexivity|lra].
  - left; auto.
Qed.

Lemma get_lambda_first s f l :
  n_iterations s = 0%nat ->
  snd (get_lambda s f l) = NaN \/
  exists y, snd (get_lambda s f l) = Fin y /\ 1/10 <= y <= 5/10.
Proof.
  intros H. unfold get_lambda. rewrite H. cbn [snd]. unfold quadratic_backtracking.
  set (x := xdiv _ _).
  destruct (clamp_range x (1/10) (5/10)) as [[H1 H2]|H1]; [lra| |]; auto.
Qed.

Lemma get_lambda_later s f l n :
  n_iterations s = S n -> 0 < l ->
  snd (get_lambda s f (Fin l)) = NaN \/
  exists y, snd (get_lambda s f (Fin l)) = Fin y /\ 1/10 * l <= y <= 5/10 * l.
Proof.
  intros H Hl. unfold get_lambda. rewrite H. cbn [snd]. unfold cubic_backtracking.
  destruct (cubic_coefficients _) as [c0 c1].
  cbn [lambda_old descent xmul].
  match goal with |- context [xltb ?x (Fin (1/10 * l))] => set (z := x) end.
  destruct (clamp_range z (1/10 * l) (5/10 * l)) as [[H1 H2]|H1]; [lra| |]; auto.
Qed.

(** Characterisation of the cubic coefficients on finite data. *)
Definition cA (l m v0 v1 : R) : R := (v0 / (l*l) - v1 / (m*m)) / (l - m).
Definition cB (l m v0 v1 : R) : R := (- m * v0 / (l*l) + l * v1 / (m*m)) / (l - m).

Lemma Reqb_neq x y : x <> y -> Reqb x y = false.
Proof. intros; apply Reqb_false; assumption. Qed.

Lemma cubic_coefficients_fin n nm al f0 d l m f1 f2 :
  l <> 0 -> m <> 0 -> l <> m ->
  cubic_coefficients (mk_ls n nm al (Fin f0) (Fin d) (Fin l) (Fin m) (Fin f1) (Fin f2)) =
  (Fin (cA l m (f1 - f0 - l * d) (f2 - f0 - m * d)),
   Fin (cB l m (f1 - f0 - l * d) (f2 - f0 - m * d))).
Proof.
  intros Hl Hm Hlm. unfold cubic_coefficients.
  assert (Hll : l * l <> 0) by nra. assert (Hmm : m * m <> 0) by nra.
  assert (Hd : l + - m <> 0) by lra.
  cbn [lambda_old lambda_oold f_old f_oold f_init descent xmul xneg xsub xadd xdiv].
  rewrite (Reqb_neq _ _ Hll), (Reqb_neq _ _ Hmm), (Reqb_neq _ _ Hd).
  cbn [xneg xmul xadd].
  f_equal; f_equal; unfold cA, cB; field; repeat split; lra.
Qed.

Lemma cubic_backtracking_fin n nm al f0 d l m f1 f2 :
  l <> 0 -> m <> 0 -> l <> m ->
  let A := cA l m (f1 - f0 - l * d) (f2 - f0 - m * d) in
  let B := cB l m (f1 - f0 - l * d) (f2 - f0 - m * d) in
  let D := B * B - 3 * A * d in
  let r := cubic_backtracking (mk_ls n nm al (Fin f0) (Fin d) (Fin l) (Fin m) (Fin f1) (Fin f2)) in
  let raw := if Rltb D 0 then NaN
             else if Reqb (3 * A) 0 then xsign (- B + sqrt D)
             else Fin ((- B + sqrt D) / (3 * A)) in
  r = if xltb raw (Fin (1/10*l)) then Fin (1/10*l)
      else if xgtb raw (Fin (5/10*l)) then Fin (5/10*l) else raw.
Proof.
  intros Hl Hm Hlm. cbv zeta. unfold cubic_backtracking.
  rewrite cubic_coefficients_fin by assumption.
  cbn [lambda_old descent xmul xneg xsub xadd xsqrt].
  set (A := cA _ _ _ _). set (B := cB _ _ _ _).
  replace (B * B + - (3 * A * d)) with (B * B - 3 * A * d) by ring.
  destruct (Rltb (B * B - 3 * A * d) 0) eqn:E.
  - reflexivity.
  - cbn [xadd xdiv]. reflexivity.
Qed.

(** *** Algebra of the discriminant: with two rejected trials and alpha <= 1/4 the
    discriminant is non-negative (Dennis & Schnabel). *)
Lemma curv_lower alpha f0 l f :
  0 < l -> 0 < f0 -> ~ armijo alpha f0 l f -> (1 - alpha) * (2 * f0) / l <= curvature f0 l f.
Proof.
  unfold armijo, curvature. intros Hl Hf H. apply Rnot_lt_le in H.
  assert (E : (1 - alpha) * (2 * f0) / l = ((1 - alpha) * (2 * f0) * l) / (l * l)) by (field; lra).
  rewrite E. unfold Rdiv. apply Rmult_le_compat_r.
  - left. apply Rinv_0_lt_compat. nra.
  - nra.
Qed.

Lemma cA_curv f0 l m f1 f2 : l <> 0 -> m <> 0 -> l <> m ->
  cA l m (f1 - f0 - l * (-2*f0)) (f2 - f0 - m * (-2*f0)) =
  (curvature f0 l f1 - curvature f0 m f2) / (l - m).
Proof. intros. unfold cA, curvature. field. repeat split; lra. Qed.

Lemma cB_curv f0 l m f1 f2 : l <> 0 -> m <> 0 -> l <> m ->
  cB l m (f1 - f0 - l * (-2*f0)) (f2 - f0 - m * (-2*f0)) =
  (l * curvature f0 m f2 - m * curvature f0 l f1) / (l - m).
Proof. intros. unfold cB, curvature. field. repeat split; lra. Qed.

Lemma disc_alg l m g1 g2 e : (* l new (small), m old (large) *)
  0 < l -> l < m -> 0 <= e -> 3/4 * e / m <= g2 ->
  let A := (g1 - g2) / (l - m) in
  let B := (l * g2 - m * g1) / (l - m) in
  0 <= B * B + 3 * A * e.
Proof.
  intros Hl Hlm He Hg2. cbv zeta.
  set (D := m - l). assert (HD : 0 < D) by (unfold D; lra).
  replace (l - m) with (- D) by (unfold D; ring).
  set (x := g1 - g2).
  assert (EB : (l * g2 - m * g1) / - D = (m * x + D * g2) / D).
  { unfold x, D. field. lra. }
  rewrite EB.
  assert (E : (m * x + D * g2) / D * ((m * x + D * g2) / D) + 3 * (x / - D) * e =
              ((m * x + D * g2) * (m * x + D * g2) - 3 * x * D * e) / (D * D)).
  { field. lra. }
  rewrite E. apply Rmult_le_pos; [|left; apply Rinv_0_lt_compat; nra].
  destruct (Rle_dec x 0) as [Hx|Hx].
  - assert (0 <= (m * x + D * g2) * (m * x + D * g2)) by apply Rle_0_sqr.
    assert (0 <= D * e) by nra. nra.
  - apply Rnot_le_lt in Hx.
    assert (Hm : 0 < m) by lra.
    assert (H4 : 4 * (m * x) * (D * g2) <= (m * x + D * g2) * (m * x + D * g2)).
    { pose proof (Rle_0_sqr (m * x - D * g2)) as Hs. unfold Rsqr in Hs. nra. }
    assert (Hmg : 3/4 * e <= m * g2).
    { apply (Rmult_le_compat_r m) in Hg2; [|lra].
      replace (3/4 * e / m * m) with (3/4 * e) in Hg2 by (field; lra). lra. }
    assert (0 < x * D) by nra.
    assert (x * D * (3 * e) <= x * D * (4 * (m * g2))) by (apply Rmult_le_compat_l; lra).
    nra.
Qed.

Lemma disc_nonneg alpha f0 l m f1 f2 :
  0 < l -> l < m -> 0 < f0 -> 0 < alpha <= 1/4 -> ~ armijo alpha f0 m f2 ->
  let A := cA l m (f1 - f0 - l * (-2*f0)) (f2 - f0 - m * (-2*f0)) in
  let B := cB l m (f1 - f0 - l * (-2*f0)) (f2 - f0 - m * (-2*f0)) in
  0 <= B * B - 3 * A * (-2 * f0).
Proof.
  intros Hl Hlm Hf0 Ha Hrej. cbv zeta.
  rewrite cA_curv, cB_curv by lra.
  pose proof (curv_lower alpha f0 m f2 ltac:(lra) Hf0 Hrej) as Hc.
  assert (Hc' : 3/4 * (2 * f0) / m <= curvature f0 m f2).
  { eapply Rle_trans; [|exact Hc]. unfold Rdiv. apply Rmult_le_compat_r.
    - left. apply Rinv_0_lt_compat. lra.
    - nra. }
  pose proof (disc_alg l m (curvature f0 l f1) (curvature f0 m f2) (2 * f0) Hl Hlm ltac:(lra) Hc') as H.
  cbv zeta in H.
  replace (- 3 * 0) with 0 in H by ring.
  lra.
Qed.

Lemma B_pos_when_equal l m g : 0 < l -> l < m -> (l * g - m * g) / (l - m) = g.
Proof. intros. field. lra. Qed.

(** In the driver: the step computed after two rejected trials is NaN iff both
    trials predict the same curvature. *)
Lemma cubic_driver n nm al f0 l m f1 f2 :
  0 < l -> l <= 5/10 * m -> 0 < f0 -> 0 < al <= 1/4 -> ~ armijo al f0 m f2 ->
  let r := cubic_backtracking (mk_ls n nm al (Fin f0) (Fin (-2 * f0)) (Fin l) (Fin m) (Fin f1) (Fin f2)) in
  (r = NaN <-> curvature f0 l f1 = curvature f0 m f2).
Proof.
  intros Hl Hlm Hf0 Ha Hrej. cbv zeta.
  assert (Hlm' : l < m) by lra.
  rewrite cubic_backtracking_fin by lra.
  pose proof (disc_nonneg al f0 l m f1 f2 Hl Hlm' Hf0 Ha Hrej) as HD. cbv zeta in HD.
  set (A := cA _ _ _ _) in *. set (B := cB _ _ _ _) in *.
  assert (E : Rltb (B * B - 3 * A * (-2 * f0)) 0 = false) by (apply Rltb_false; exact HD).
  rewrite E.
  assert (EA : A = (curvature f0 l f1 - curvature f0 m f2) / (l - m)) by (apply cA_curv; lra).
  assert (HA : A = 0 <-> curvature f0 l f1 = curvature f0 m f2).
  { rewrite EA. split; intros H.
    - apply (f_equal (fun z => z * (l - m))) in H.
      replace ((curvature f0 l f1 - curvature f0 m f2) / (l - m) * (l - m))
        with (curvature f0 l f1 - curvature f0 m f2) in H by (field; lra). lra.
    - rewrite H. unfold Rminus at 1. rewrite Rplus_opp_r. unfold Rdiv. ring. }
  assert (Hg : 0 < curvature f0 m f2).
  { pose proof (curv_lower al f0 m f2 ltac:(lra) Hf0 Hrej).
    assert (0 < (1 - al) * (2 * f0) / m).
    { apply Rmult_lt_0_compat; [nra|apply Rinv_0_lt_compat; lra]. }
    lra. }
  destruct (Reqb (3 * A) 0) eqn:EA0; rb.
  - assert (A = 0) by lra.
    assert (Hc : curvature f0 l f1 = curvature f0 m f2) by (apply HA; assumption).
    assert (EB : B = curvature f0 m f2).
    { unfold B. rewrite cB_curv by lra. rewrite Hc. apply B_pos_when_equal; lra. }
    split; [intros _; exact Hc|intros _].
    replace (B * B - 3 * A * (-2 * f0)) with (B * B) by (rewrite H; ring).
    rewrite sqrt_square by lra.
    replace (- B + B) with 0 by ring.
    unfold xsign, Rltb. destruct (Rlt_dec 0 0); [lra|]. reflexivity.
  - split; intros H.
    + exfalso. destruct (clamp_range (Fin ((- B + sqrt (B * B - 3 * A * (-2 * f0))) / (3 * A)))
                           (1/10*l) (5/10*l)) as [[_ H1]|[y [H1 _]]]; [lra|discriminate|].
      rewrite H1 in H. discriminate.
    + apply HA in H. rewrite H in EA0. lra.
Qed.

(** ** The driver *)
Section Driver.
Variable obj : nat -> xr -> xr.
Variable s0 : ls.
Hypothesis Hfresh : n_iterations s0 = 0%nat.

Lemma get_lambda_n s f l : n_iterations (fst (get_lambda s f l)) = S (n_iterations s).
Proof. unfold get_lambda. destruct (n_iterations s) eqn:E; simpl; congruence. Qed.
Lemma get_lambda_nmax s f l : n_max (fst (get_lambda s f l)) = n_max s.
Proof. unfold get_lambda. destruct (n_iterations s); reflexivity. Qed.
Lemma get_lambda_alpha s f l : alpha (fst (get_lambda s f l)) = alpha s.
Proof. unfold get_lambda. destruct (n_iterations s); reflexivity. Qed.
Lemma get_lambda_f0 s f l : f_init (fst (get_lambda s f l)) = f_init s.
Proof. unfold get_lambda. destruct (n_iterations s); reflexivity. Qed.
Lemma get_lambda_d s f l : descent (fst (get_lambda s f l)) = descent s.
Proof. unfold get_lambda. destruct (n_iterations s); reflexivity. Qed.
Lemma get_lambda_old s f l : lambda_old (fst (get_lambda s f l)) = l.
Proof. unfold get_lambda. destruct (n_iterations s); reflexivity. Qed.
Lemma get_lambda_fold s f l : f_old (fst (get_lambda s f l)) = f.
Proof. unfold get_lambda. destruct (n_iterations s); reflexivity. Qed.

Lemma trial_S k : trial obj s0 (S k) =
  let '(s, l, f) := trial obj s0 k in
  (fst (get_lambda s f l), snd (get_lambda s f l), obj (S k) (snd (get_lambda s f l))).
Proof. simpl. destruct (trial obj s0 k) as [[s l] f]. destruct (get_lambda s f l); reflexivity. Qed.

Lemma trial_inv k : let s := fst (fst (trial obj s0 k)) in
  n_iterations s = k /\ n_max s = n_max s0 /\ alpha s = alpha s0 /\
  f_init s = f_init s0 /\ descent s = descent s0.
Proof.
  induction k as [|k IH]; [simpl; auto|].
  rewrite trial_S. destruct (trial obj s0 k) as [[s l] f]. cbn [fst snd] in *.
  rewrite get_lambda_n, get_lambda_nmax, get_lambda_alpha, get_lambda_f0, get_lambda_d.
  intuition congruence.
Qed.

Lemma accepted_budget : accepted (trial obj s0 (S (n_max s0))) = true.
Proof.
  pose proof (trial_inv (S (n_max s0))) as H. cbv zeta in H.
  destruct (trial obj s0 (S (n_max s0))) as [[s l] f]. cbn [fst] in H.
  unfold accepted, sufficient_descent. destruct H as [-> [-> _]].
  rewrite (proj2 (Nat.ltb_lt _ _)) by lia. reflexivity.
Qed.

Lemma search_loop_trial fuel k :
  (exists j, (k <= j)%nat /\ (j <= k + fuel)%nat /\ accepted (trial obj s0 j) = true) ->
  exists j, (k <= j <= k + fuel)%nat /\ accepted (trial obj s0 j) = true /\
    (forall i, (k <= i < j)%nat -> accepted (trial obj s0 i) = false) /\
    (let '(s, l, f) := trial obj s0 k in search_loop obj fuel k s l f) = Some (trial obj s0 j).
Proof.
  revert k. induction fuel as [|fuel IH]; intros k [j [H1 [H2 H3]]].
  - assert (j = k) by lia. subst. exists k.
    repeat split; try lia; [exact H3|].
    destruct (trial obj s0 k) as [[s l] f] eqn:E. cbn [accepted] in H3.
    cbn [search_loop]. rewrite H3. reflexivity.
  - destruct (accepted (trial obj s0 k)) eqn:Ek.
    + exists k. repeat split; try lia; [exact Ek|].
      destruct (trial obj s0 k) as [[s l] f] eqn:E. cbn [accepted] in Ek.
      cbn [search_loop]. rewrite Ek. reflexivity.
    + assert (Hj : (S k <= j)%nat).
      { destruct (Nat.eq_dec j k) as [->|]; [congruence|lia]. }
      destruct (IH (S k)) as [j' [[J1 J2] [J3 [J4 J5]]]].
      { exists j. repeat split; auto; lia. }
      exists j'. repeat split; try lia; auto.
      * intros i Hi. destruct (Nat.eq_dec i k) as [->|]; [exact Ek|apply J4; lia].
      * rewrite trial_S in J5.
        destruct (trial obj s0 k) as [[s l] f] eqn:E. cbn [accepted] in Ek.
        cbn [search_loop]. rewrite Ek.
        destruct (get_lambda s f l) as [s' l'] eqn:G. cbn [fst snd] in J5. exact J5.
Qed.

Lemma line_search_terminates :
  exists j, (j <= S (n_max s0))%nat /\
    line_search obj (S (n_max s0)) s0 = Some (trial obj s0 j) /\
    accepted (trial obj s0 j) = true /\
    (forall i, (i < j)%nat -> accepted (trial obj s0 i) = false).
Proof.
  destruct (search_loop_trial (S (n_max s0)) 0) as [j [[J1 J2] [J3 [J4 J5]]]].
  - exists (S (n_max s0)). repeat split; try lia. apply accepted_budget.
  - exists j. repeat split; try lia; auto. intros; apply J4; lia.
Qed.
End Driver.

(** Real-valued driver: finite steps, finite values. *)
Section RealDriver.
Variable obj : nat -> xr -> xr.
Variables (s : ls) (f0 : R).
Let s0 := reinit s (Fin f0).

Lemma s0_fields : n_iterations s0 = 0%nat /\ alpha s0 = alpha s /\ n_max s0 = n_max s /\
  f_init s0 = Fin f0 /\ descent s0 = Fin (-2 * f0).
Proof. repeat split. Qed.

Lemma trial_steps_bounds k l m :
  step_of (trial obj s0 k) = Fin l -> step_of (trial obj s0 (S k)) = m ->
  0 < l ->
  m = NaN \/ exists y, m = Fin y /\ 1/10 * l <= y <= 5/10 * l.
Proof.
  intros Hl Hm Hpos.
  pose proof (trial_inv obj s0 eq_refl k) as Hinv. cbv zeta in Hinv.
  unfold step_of in *. rewrite trial_S in Hm.
  destruct k as [|k].
  - simpl in Hl. inversion Hl; subst l.
    cbn [trial fst snd] in Hm. subst m.
    destruct (get_lambda_first s0 (obj 0%nat (Fin 1)) (Fin 1) eq_refl) as [H|[y [H H']]]; [left; exact H|].
    right; exists y; split; [exact H|lra].
  - destruct (trial obj s0 (S k)) as [[sk lk] fk]. cbn [fst snd] in *. subst lk m.
    destruct Hinv as [Hn _]. apply (get_lambda_later sk fk l k); assumption.
Qed.

(** A rejected trial with finite data fails Armijo. *)
Lemma rejected_armijo k l f :
  step_of (trial obj s0 k) = Fin l -> value_of (trial obj s0 k) = Fin f ->
  accepted (trial obj s0 k) = false -> ~ armijo (alpha s) f0 l f.
Proof.
  intros Hl Hf Ha.
  pose proof (trial_inv obj s0 eq_refl k) as Hinv. cbv zeta in Hinv.
  destruct (trial obj s0 k) as [[sk lk] fk]. unfold step_of, value_of in *. cbn [fst snd] in *.
  subst. unfold accepted, sufficient_descent in Ha.
  destruct Hinv as [H1 [H2 [H3 [H4 H5]]]].
  destruct (Nat.ltb (n_max sk) (n_iterations sk)); [discriminate|].
  rewrite H3, H4, H5 in Ha. simpl in Ha. rb. unfold armijo. simpl. lra.
Qed.

Lemma accepted_armijo k l f :
  step_of (trial obj s0 k) = Fin l -> value_of (trial obj s0 k) = Fin f -> (k <= n_max s)%nat ->
  (accepted (trial obj s0 k) = true <-> armijo (alpha s) f0 l f).
Proof.
  intros Hl Hf Hk.
  pose proof (trial_inv obj s0 eq_refl k) as Hinv. cbv zeta in Hinv.
  destruct (trial obj s0 k) as [[sk lk] fk]. unfold step_of, value_of in *. cbn [fst snd] in *.
  subst. unfold accepted, sufficient_descent.
  destruct Hinv as [H1 [H2 [H3 [H4 H5]]]].
  assert (E : Nat.ltb (n_max sk) (n_iterations sk) = false).
  { apply Nat.ltb_ge. rewrite H1, H2. exact Hk. }
  rewrite E, H3, H4, H5. simpl. rewrite Rltb_true. unfold armijo. lra.
Qed.

Lemma first_step_finite f :
  0 < f0 -> 0 <= f -> obj 0%nat (Fin 1) = Fin f ->
  exists y, step_of (trial obj s0 1) = Fin y /\ 1/10 <= y <= 5/10.
Proof.
  intros Hf0 Hf Hobj. unfold step_of. rewrite trial_S. cbn [trial fst snd]. rewrite Hobj.
  unfold get_lambda. cbn [n_iterations s0 reinit snd]. unfold quadratic_backtracking.
  cbn [descent f_init xneg xdiv xsub xadd s0 reinit xmul].
  rewrite (Reqb_neq 2 0) by lra. cbn [xdiv].
  rewrite (Reqb_neq (f + - f0 + - (-2 * f0)) 0) by lra.
  set (x := _ / _).
  destruct (clamp_range (Fin x) (1/10) (5/10)) as [[_ H]|H]; [lra|discriminate|exact H].
Qed.

Lemma later_step_nan_iff k l m f1 f2 :
  0 < f0 -> 0 < alpha s <= 1/4 -> 0 < m ->
  step_of (trial obj s0 k) = Fin m -> value_of (trial obj s0 k) = Fin f2 ->
  accepted (trial obj s0 k) = false ->
  step_of (trial obj s0 (S k)) = Fin l -> value_of (trial obj s0 (S k)) = Fin f1 ->
  (step_of (trial obj s0 (S (S k))) = NaN <-> curvature f0 l f1 = curvature f0 m f2).
Proof.
  intros Hf0 Ha Hm Hsm Hvm Hrej Hsl Hvl.
  pose proof (rejected_armijo k m f2 Hsm Hvm Hrej) as Hno.
  destruct (trial_steps_bounds k m (Fin l) Hsm Hsl Hm) as [H|[y [H Hy]]]; [discriminate|].
  inversion H; subst y; clear H.
  pose proof (trial_inv obj s0 eq_refl (S k)) as Hinv. cbv zeta in Hinv.
  unfold step_of at 1. rewrite (trial_S obj s0 (S k)).
  (* recover lambda_old / f_old of the state after the first of the two trials *)
  assert (Hold : lambda_old (fst (fst (trial obj s0 (S k)))) = Fin m /\
                 f_old (fst (fst (trial obj s0 (S k)))) = Fin f2).
  { rewrite trial_S. unfold step_of, value_of in *.
    destruct (trial obj s0 k) as [[sk lk] fk]. cbn [fst snd] in *. subst.
    split; [apply get_lambda_old|apply get_lambda_fold]. }
  unfold step_of, value_of in *.
  destruct (trial obj s0 (S k)) as [[sk lk] fk]. cbn [fst snd] in *. subst lk fk.
  destruct Hinv as [H1 [H2 [H3 [H4 H5]]]]. destruct Hold as [H6 H7].
  unfold get_lambda. rewrite H1. cbn [snd].
  rewrite H4, H5, H6, H7, H3, H2. cbn [descent f_init s0 reinit alpha n_max xmul].
  apply cubic_driver; try lra; assumption.
Qed.
End RealDriver.

(** ** C04: the interpolation polynomials *)
Lemma quadratic_is_minimiser s f0 f x :
  n_iterations s = 0%nat -> f_init s = Fin f0 -> descent s = Fin (-2*f0) ->
  snd (get_lambda s (Fin f) (Fin 1)) = Fin x -> 1/10 < x < 5/10 -> 0 < f0 ->
  let q t := f0 + (-2*f0) * t + (f - f0 - (-2*f0)) * (t*t) in
  q 1 = f /\ forall t, q x <= q t.
Proof.
  intros Hn Hf Hd Hx Hr Hf0. cbv zeta. split; [ring|].
  unfold get_lambda in Hx. rewrite Hn in Hx. cbn [snd] in Hx.
  unfold quadratic_backtracking in Hx. cbn [descent f_init] in Hx. rewrite Hf, Hd in Hx.
  cbn [xneg xdiv xsub xadd] in Hx. rewrite (Reqb_neq 2 0) in Hx by lra.
  cbn [xdiv] in Hx.
  set (den := f + - f0 + - (-2 * f0)) in *.
  destruct (Reqb den 0) eqn:E; rb.
  { (* pole: the raw value is +inf, clamped to 5/10 *)
    exfalso.
    assert (Hs : xsign (- (-2 * f0) / 2) = PInf).
    { unfold xsign. rewrite (proj2 (Rltb_true _ _)); [reflexivity|lra]. }
    rewrite Hs in Hx. simpl in Hx. inversion Hx. lra. }
  set (raw := - (-2 * f0) / 2 / den) in *.
  unfold xgtb in Hx. cbn [xltb] in Hx.
  destruct (Rltb raw (1/10)) eqn:E1; [inversion Hx; lra|].
  destruct (Rltb (5/10) raw) eqn:E2; [inversion Hx; lra|].
  rb. inversion Hx. subst x.
  assert (Hden : raw * den = f0) by (unfold raw; field; assumption).
  assert (Hdp : 0 < den) by nra.
  intros t.
  assert (Ed : f - f0 - -2 * f0 = den) by (unfold den; ring).
  rewrite Ed.
  assert (H : f0 + -2 * f0 * t + den * (t * t) - (f0 + -2 * f0 * raw + den * (raw * raw))
              = den * ((t - raw) * (t - raw))).
  { rewrite <- Hden at 2 4. ring. }
  assert (0 <= (t - raw) * (t - raw)) by apply Rle_0_sqr. nra.
Qed.

Lemma cubic_is_stationary s f0 d l m f1 f2 n x :
  n_iterations s = S n -> f_init s = Fin f0 -> descent s = Fin d ->
  lambda_old s = Fin m -> f_old s = Fin f2 ->
  l <> 0 -> m <> 0 -> l <> m ->
  snd (get_lambda s (Fin f1) (Fin l)) = Fin x -> 1/10*l < x < 5/10*l ->
  exists A B,
    let p t := f0 + d * t + B * (t*t) + A * (t*t*t) in
    p l = f1 /\ p m = f2 /\
    d + 2 * B * x + 3 * A * (x*x) = 0 /\ 0 <= 2 * B + 6 * A * x.
Proof.
  intros Hn Hf Hd Hm Hf2 Hl0 Hm0 Hlm Hx Hr.
  unfold get_lambda in Hx. rewrite Hn in Hx. cbn [snd] in Hx.
  rewrite Hf, Hd, Hm, Hf2 in Hx.
  rewrite cubic_backtracking_fin in Hx by assumption.
  set (A := cA l m (f1 - f0 - l * d) (f2 - f0 - m * d)) in *.
  set (B := cB l m (f1 - f0 - l * d) (f2 - f0 - m * d)) in *.
  exists A, B. cbv zeta.
  split; [unfold A, B, cA, cB; field; repeat split; lra|].
  split; [unfold A, B, cA, cB; field; repeat split; lra|].
  set (D := B * B - 3 * A * d) in *.
  destruct (Rltb D 0) eqn:ED; rb.
  { simpl in Hx. discriminate. }
  destruct (Reqb (3*A) 0) eqn:EA; rb.
  { exfalso. unfold xsign in Hx.
    destruct (Rltb 0 (- B + sqrt D)); [simpl in Hx; inversion Hx; lra|].
    destruct (Rltb (- B + sqrt D) 0); simpl in Hx; inversion Hx; lra. }
  set (raw := (- B + sqrt D) / (3 * A)) in *.
  unfold xgtb in Hx. cbn [xltb] in Hx.
  destruct (Rltb raw (1/10*l)) eqn:E1; [inversion Hx; lra|].
  destruct (Rltb (5/10*l) raw) eqn:E2; [inversion Hx; lra|].
  rb. inversion Hx. subst x.
  assert (Hraw : 3 * A * raw = - B + sqrt D) by (unfold raw; field; lra).
  assert (Hsq : sqrt D * sqrt D = D) by (apply sqrt_sqrt; assumption).
  split.
  - assert (H : 3 * A * (d + 2 * B * raw + 3 * A * (raw*raw)) = 0).
    { replace (3 * A * (d + 2 * B * raw + 3 * A * (raw*raw)))
        with (3 * A * d + 2 * B * (3 * A * raw) + (3 * A * raw) * (3 * A * raw)) by ring.
      rewrite Hraw.
      replace ((- B + sqrt D) * (- B + sqrt D)) with (B*B - 2 * B * sqrt D + sqrt D * sqrt D) by ring.
      rewrite Hsq. unfold D. ring. }
    apply Rmult_integral in H. destruct H; [lra|assumption].
  - replace (2 * B + 6 * A * raw) with (2 * (B + 3 * A * raw)) by ring.
    rewrite Hraw. pose proof (sqrt_pos D). lra.
Qed.

(** ** C05 *)
Lemma macro_trials m stored newton t0 ls i :
  ls <> [] ->
  block_of m i = Macro -> constraint m i = None ->
  search_trials m stored newton Macro t0 ls i = stored i + last ls 0 * newton i.
Proof.
  intros Hne Hb Hc.
  unfold search_trials.
  destruct (exists_last Hne) as [ls' [l Hls]]. subst ls.
  rewrite fold_left_app, last_last. cbn [fold_left].
  generalize (fold_left (fun t l0 => search_trial_step m stored newton t Macro l0) ls' t0) as t.
  intros t. unfold search_trial_step, update_trial, reset_trial, set_block, distribute.
  rewrite Hb, Hc. cbn [block_eqb]. rewrite ?Hb. cbn [block_eqb]. reflexivity.
Qed.

Lemma search_other_block m stored newton t ls i :
  block_of m i = Micro ->
  search_trials m stored newton Macro t ls i = t i.
Proof.
  intros Hb. unfold search_trials. revert t.
  induction ls as [|l ls IH]; intros t; [reflexivity|].
  cbn [fold_left]. rewrite IH.
  unfold search_trial_step, update_trial, reset_trial, set_block.
  rewrite Hb. reflexivity.
Qed.

Lemma micro_trials_accumulate m stored newton ls i :
  block_of m i = Micro -> constraint m i = None ->
  search_trials m stored newton Micro (search_entry m stored newton Micro) ls i
  = stored i + (1 + fold_right Rplus 0 ls) * newton i.
Proof.
  intros Hb Hc.
  assert (H : forall t, search_trials m stored newton Micro t ls i =
                        t i + fold_right Rplus 0 ls * newton i).
  { unfold search_trials. induction ls as [|l ls IH]; intros t.
    - simpl; ring.
    - cbn [fold_left fold_right]. rewrite IH.
      unfold search_trial_step, update_trial, reset_trial, set_block, distribute.
      rewrite Hb, Hc. cbn [block_eqb]. rewrite ?Hb. cbn [block_eqb]. ring. }
  rewrite H.
  unfold search_entry, update_trial, set_block, distribute.
  rewrite Hb, Hc. cbn [block_eqb]. rewrite ?Hb; cbn [block_eqb]. ring.
Qed.

(** NaN is sticky, hence the global shape of the step sequence. *)
Lemma get_lambda_nan s f n : n_iterations s = S n -> snd (get_lambda s f NaN) = NaN.
Proof.
  intros H. unfold get_lambda. rewrite H. cbn [snd].
  unfold cubic_backtracking, cubic_coefficients.
  cbn [lambda_old lambda_oold f_old f_oold f_init descent xsub xadd xneg xdiv xmul].
  reflexivity.
Qed.

Lemma trial_step_shape obj s f0 k :
  step_of (trial obj (reinit s f0) k) = NaN \/
  exists y, step_of (trial obj (reinit s f0) k) = Fin y /\ (1/10)^k <= y <= (1/2)^k.
Proof.
  induction k as [|k IH].
  - right. exists 1. simpl. split; [reflexivity|lra].
  - pose proof (trial_inv obj (reinit s f0) eq_refl k) as Hinv. cbv zeta in Hinv.
    unfold step_of in *. rewrite trial_S.
    destruct k as [|k].
    + cbn [trial fst snd].
      destruct (get_lambda_first (reinit s f0) (obj 0%nat (Fin 1)) (Fin 1) eq_refl)
        as [H|[y [H H']]]; [left; exact H|].
      right; exists y; split; [exact H|simpl; lra].
    + destruct (trial obj (reinit s f0) (S k)) as [[sk lk] fk]. cbn [fst snd] in *.
      destruct Hinv as [Hn _].
      destruct IH as [->|[y [-> Hy]]].
      * left. apply get_lambda_nan with k; assumption.
      * assert (Hp : 0 < (1/10)^(S k)) by (apply pow_lt; lra).
        destruct (get_lambda_later sk fk y k Hn ltac:(lra)) as [H|[z [H Hz]]]; [left; exact H|].
        right; exists z; split; [exact H|].
        change ((1/10)^(S (S k))) with (1/10 * (1/10)^(S k)).
        change ((1/2)^(S (S k))) with (1/2 * (1/2)^(S k)). lra.
Qed.

Lemma search_loop_some obj fuel k s l f s' l' f' :
  search_loop obj fuel k s l f = Some (s', l', f') ->
  sufficient_descent s' f' l' = true /\ n_max s' = n_max s /\ alpha s' = alpha s /\
  f_init s' = f_init s /\ descent s' = descent s.
Proof.
  revert k s l f. induction fuel as [|fuel IH]; intros k s l f H; cbn [search_loop] in H.
  - destruct (sufficient_descent s f l) eqn:E; [|discriminate].
    inversion H; subst; auto.
  - destruct (sufficient_descent s f l) eqn:E; [inversion H; subst; auto|].
    destruct (get_lambda s f l) as [s1 l1] eqn:G.
    apply IH in H.
    pose proof (get_lambda_nmax s f l). pose proof (get_lambda_alpha s f l).
    pose proof (get_lambda_f0 s f l). pose proof (get_lambda_d s f l).
    rewrite G in *. cbn [fst] in *. intuition congruence.
Qed.

Lemma search_loop_mono obj fuel fuel' k s l f r :
  search_loop obj fuel k s l f = Some r -> (fuel <= fuel')%nat ->
  search_loop obj fuel' k s l f = Some r.
Proof.
  revert fuel' k s l f. induction fuel as [|fuel IH]; intros fuel' k s l f H Hle.
  - cbn [search_loop] in H. destruct (sufficient_descent s f l) eqn:E; [|discriminate].
    destruct fuel'; cbn [search_loop]; rewrite E; exact H.
  - destruct fuel' as [|fuel']; [lia|]. cbn [search_loop] in *.
    destruct (sufficient_descent s f l); [congruence|].
    destruct (get_lambda s f l) as [s1 l1]. apply IH; [assumption|lia].
Qed.

Lemma line_search_armijo obj fuel s f0 s' l f :
  line_search obj fuel (reinit s (Fin f0)) = Some (s', Fin l, Fin f) ->
  (n_iterations s' <= n_max s)%nat ->
  f < (1 - 2 * alpha s * l) * f0.
Proof.
  intros H Hn. unfold line_search in H. apply search_loop_some in H.
  destruct H as [H1 [H2 [H3 [H4 H5]]]].
  unfold sufficient_descent in H1. rewrite H2, H3, H4, H5 in H1.
  cbn [n_max alpha f_init descent reinit] in H1.
  rewrite (proj2 (Nat.ltb_ge _ _) Hn) in H1. simpl in H1. rb. lra.
Qed.

Lemma line_search_residual_decreases obj fuel s r0 s' l r :
  line_search obj fuel (reinit s (objective (Fin r0))) = Some (s', Fin l, objective (Fin r)) ->
  (n_iterations s' <= n_max s)%nat -> 0 <= r0 -> 0 <= r -> 0 < l -> 0 < alpha s ->
  r < r0.
Proof.
  intros H Hn Hr0 Hr Hl Ha.
  unfold objective in H. cbn [xmul] in H.
  apply line_search_armijo in H; [|exact Hn].
  assert (0 < alpha s * l) by nra.
  assert (0 <= 5/10 * r0 * r0) by nra.
  assert (5/10 * r * r < 5/10 * r0 * r0) by nra.
  nra.
Qed.

Lemma line_search_is_trial obj fuel s f0 r :
  line_search obj fuel (reinit s f0) = Some r ->
  exists j, (j <= S (n_max s))%nat /\ r = trial obj (reinit s f0) j.
Proof.
  intros H.
  destruct (line_search_terminates obj (reinit s f0) eq_refl) as [j [Hj [H1 _]]].
  exists j. split; [exact Hj|].
  unfold line_search in *.
  apply (search_loop_mono _ _ (Nat.max fuel (S (n_max (reinit s f0))))) in H; [|apply Nat.le_max_l].
  apply (search_loop_mono _ _ (Nat.max fuel (S (n_max (reinit s f0))))) in H1; [|apply Nat.le_max_r].
  congruence.
Qed.

Lemma line_search_step_range obj fuel s f0 s' l f :
  line_search obj fuel (reinit s f0) = Some (s', Fin l, f) -> 0 < l <= 1.
Proof.
  intros H. destruct (line_search_is_trial _ _ _ _ _ H) as [j [_ Hj]].
  destruct (trial_step_shape obj s f0 j) as [Hn|[y [Hy Hb]]]; rewrite <- Hj in *;
    unfold step_of in *; cbn [fst snd] in *; [discriminate|].
  inversion Hy; subst y.
  assert (0 < (1/10)^j) by (apply pow_lt; lra).
  assert ((1/2)^j <= 1).
  { pose proof (pow_incr (1/2) 1 j ltac:(lra)) as Hp. rewrite pow1 in Hp. exact Hp. }
  lra.
Qed.
