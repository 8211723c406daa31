(** * The Gaussian integral bound: [int_0^x e^(-t^2) dt]^2 < PI/4. *)
From Coquelicot Require Import Coquelicot.
From Verif Require Import Num ModelUtilities.
Open Scope R_scope.

Ltac toR := match goal with |- @eq _ ?a ?b => change (@eq R a b) end.

Definition gauss (t : R) : R := exp (- (t * t)).

Lemma gauss_cont t : continuous gauss t.
Proof.
  apply (ex_derive_continuous (V:=R_NormedModule)). unfold gauss. auto_derive. auto.
Qed.

Lemma gauss_ex a b : ex_RInt gauss a b.
Proof. apply (ex_RInt_continuous (V:=R_CompleteNormedModule)). intros; apply gauss_cont. Qed.

Lemma gauss_pos t : 0 < gauss t.
Proof. apply exp_pos. Qed.

Definition E0 (x : R) : R := RInt gauss 0 x.

Lemma E0_derive x : is_derive E0 x (gauss x).
Proof.
  apply (is_derive_RInt gauss E0 0 x).
  - exists (mkposreal 1 Rlt_0_1). intros y _. apply (RInt_correct (V:=R_CompleteNormedModule)), gauss_ex.
  - apply gauss_cont.
Qed.

(** G(x) = int_0^1 e^{-x^2 (1+t^2)} / (1+t^2) dt *)
Definition gk (x t : R) : R := exp (- (x * x * (1 + t * t))) / (1 + t * t).

Lemma gk_den t : 1 + t * t <> 0.
Proof. pose proof (Rle_0_sqr t). unfold Rsqr in *. lra. Qed.

Lemma gk_derive x t : is_derive (fun x => gk x t) x (- 2 * x * exp (- (x * x * (1 + t * t)))).
Proof.
  unfold gk. auto_derive.
  - exact I.
  - field. apply gk_den.
Qed.

Lemma gk_cont x t : continuous (gk x) t.
Proof.
  apply (ex_derive_continuous (V:=R_NormedModule)). unfold gk. auto_derive. apply gk_den.
Qed.

Definition G (x : R) : R := RInt (gk x) 0 1.

Lemma G_derive x : is_derive G x (RInt (fun t => - 2 * x * exp (- (x * x * (1 + t * t)))) 0 1).
Proof.
  assert (H := is_derive_RInt_param gk 0 1 x).
  assert (E : RInt (fun t => - 2 * x * exp (- (x * x * (1 + t * t)))) 0 1
            = RInt (fun t => Derive (fun u => gk u t) x) 0 1).
  { apply RInt_ext. intros t _. symmetry. apply is_derive_unique, gk_derive. }
  rewrite E. apply H.
  - exists (mkposreal 1 Rlt_0_1). intros y _ t _. eexists; apply gk_derive.
  - intros t _.
    apply (continuity_2d_pt_ext (fun u v => - 2 * u * exp (- (u * u * (1 + v * v))))).
    + intros u v. symmetry. apply is_derive_unique, gk_derive.
    + apply continuity_2d_pt_mult.
      * apply continuity_2d_pt_mult; [apply continuity_2d_pt_const|apply continuity_2d_pt_id1].
      * apply (continuity_1d_2d_pt_comp exp).
        -- apply derivable_continuous_pt, derivable_pt_exp.
        -- apply continuity_2d_pt_opp. apply continuity_2d_pt_mult.
           ++ apply continuity_2d_pt_mult; apply continuity_2d_pt_id1.
           ++ apply continuity_2d_pt_plus; [apply continuity_2d_pt_const|].
              apply continuity_2d_pt_mult; apply continuity_2d_pt_id2.
  - exists (mkposreal 1 Rlt_0_1). intros y _. apply (ex_RInt_continuous (V:=R_CompleteNormedModule)). intros; apply gk_cont.
Qed.

Lemma inner x : RInt (fun t => - 2 * x * exp (- (x * x * (1 + t * t)))) 0 1
              = - 2 * gauss x * E0 x.
Proof.
  assert (H : RInt (fun t => x * gauss (x * t + 0)) 0 1 = E0 x).
  { assert (H0 := RInt_comp_lin (V:=R_CompleteNormedModule) gauss x 0 0 1 (gauss_ex _ _)).
    replace (x * 0 + 0) with 0 in H0 by ring. replace (x * 1 + 0) with x in H0 by ring.
    exact H0. }
  rewrite <- H.
  assert (K : RInt (fun t => (-2 * gauss x) * (x * gauss (x * t + 0))) 0 1
            = (-2 * gauss x) * RInt (fun t => x * gauss (x * t + 0)) 0 1).
  { apply (RInt_scal (V:=R_CompleteNormedModule) (fun t => x * gauss (x*t+0)) 0 1 (-2 * gauss x)).
    apply (ex_RInt_continuous (V:=R_CompleteNormedModule)). intros z _.
    apply (ex_derive_continuous (V:=R_NormedModule)). unfold gauss. auto_derive. auto. }
  rewrite <- K. apply RInt_ext. intros t _.
  unfold gauss. replace (- (x * x * (1 + t * t))) with (- (x * x) + - ((x * t + 0) * (x * t + 0))) by ring.
  rewrite exp_plus. toR. ring.
Qed.

Lemma G_0 : G 0 = PI / 4.
Proof.
  unfold G. rewrite (RInt_ext _ (fun t => / (1 + t * t))).
  2:{ intros t _. unfold gk. replace (- (0 * 0 * (1 + t * t))) with 0 by ring.
      rewrite exp_0. toR. field. apply gk_den. }
  rewrite <- atan_1.
  replace (atan 1) with (minus (atan 1) (atan 0)) by (rewrite atan_0; unfold minus, plus, opp; simpl; ring).
  apply is_RInt_unique. apply (is_RInt_derive (V:=R_CompleteNormedModule) atan).
  - intros t _. rewrite is_derive_Reals. replace (/ (1 + t*t)) with (/ (1 + t^2)) by (f_equal; ring).
    apply derivable_pt_lim_atan.
  - intros t _. apply (ex_derive_continuous (V:=R_NormedModule)). auto_derive. apply gk_den.
Qed.

Lemma G_pos x : 0 < G x.
Proof.
  apply RInt_gt_0; [lra| |].
  - intros t _. unfold gk. apply Rdiv_lt_0_compat; [apply exp_pos|].
    pose proof (Rle_0_sqr t). unfold Rsqr in *. lra.
  - intros t _. apply gk_cont.
Qed.

Lemma gauss_identity x : E0 x * E0 x + G x = PI / 4.
Proof.
  assert (D : forall y, is_derive (fun y => E0 y * E0 y + G y) y 0).
  { intros y.
    pose proof (E0_derive y) as H1. pose proof (G_derive y) as H2.
    rewrite inner in H2.
    replace 0 with (plus (gauss y * E0 y + E0 y * gauss y) (-2 * gauss y * E0 y))
      by (unfold plus; simpl; ring).
    apply (is_derive_plus (V:=R_NormedModule) (fun y => E0 y * E0 y) G); [|exact H2].
    apply (is_derive_mult E0 E0); auto. intros; apply Rmult_comm. }
  assert (C : E0 x * E0 x + G x = E0 0 * E0 0 + G 0).
  { destruct (Req_dec x 0) as [->|Hx]; [reflexivity|].
    destruct (MVT_gen (fun y => E0 y * E0 y + G y) 0 x (fun _ => 0)) as (c & _ & Hc).
    - intros; apply D.
    - intros y _. apply derivable_continuous_pt. exists 0. apply is_derive_Reals, D.
    - lra. }
  rewrite C, G_0. unfold E0. rewrite RInt_point. unfold zero; simpl. ring.
Qed.

Lemma E0_bound x : Rabs (E0 x) < sqrt PI / 2.
Proof.
  pose proof (gauss_identity x) as H. pose proof (G_pos x) as HG.
  pose proof PI_RGT_0 as Hpi.
  assert (Hs : 0 < sqrt PI) by (apply sqrt_lt_R0; auto).
  assert (Hq : (sqrt PI / 2) * (sqrt PI / 2) = PI / 4).
  { replace (sqrt PI / 2 * (sqrt PI / 2)) with ((sqrt PI * sqrt PI) / 4) by field.
    rewrite sqrt_sqrt by lra. reflexivity. }
  
  apply Rabs_def1; apply Rnot_le_lt; intro K; nra.
Qed.

Lemma erf_bound x : Rabs (erf x) < 1.
Proof.
  assert (Hs : 0 < sqrt PI) by (apply sqrt_lt_R0, PI_RGT_0).
  unfold erf. change (RInt (fun t => exp (- (t * t))) 0 x) with (E0 x).
  rewrite Rabs_mult, (Rabs_right (2 / sqrt PI)).
  2:{ apply Rle_ge, Rlt_le, Rdiv_lt_0_compat; lra. }
  pose proof (E0_bound x) as H.
  apply (Rmult_lt_compat_l (2 / sqrt PI)) in H; [|apply Rdiv_lt_0_compat; lra].
  replace (2 / sqrt PI * (sqrt PI / 2)) with 1 in H by (field; lra). exact H.
Qed.

Lemma erf_derive x : is_derive erf x (2 / sqrt PI * gauss x).
Proof.
  unfold erf. apply (is_derive_scal E0 x (2 / sqrt PI) (gauss x)). apply E0_derive.
Qed.

Lemma E0_odd x : E0 (- x) = - E0 x.
Proof.
  unfold E0.
  assert (H := RInt_comp_lin (V:=R_CompleteNormedModule) gauss (-1) 0 0 x (gauss_ex _ _)).
  replace (-1 * 0 + 0) with 0 in H by ring. replace (-1 * x + 0) with (- x) in H by ring.
  rewrite <- H.
  assert (K : RInt (fun t => -1 * gauss t) 0 x = -1 * RInt gauss 0 x)
    by apply (RInt_scal (V:=R_CompleteNormedModule) gauss 0 x (-1) (gauss_ex 0 x)).
  rewrite (RInt_ext _ (fun t => -1 * gauss t)).
  - rewrite K. ring.
  - intros t _. unfold scal; simpl; unfold mult; simpl. unfold gauss. do 3 f_equal. toR; ring.
Qed.

Lemma erf_odd x : erf (- x) = - erf x.
Proof.
  unfold erf. change (RInt (fun t => exp (- (t * t))) 0 ?y) with (E0 y).
  rewrite E0_odd. ring.
Qed.
