From Coq Require Import FunctionalExtensionality.
From Coquelicot Require Import Coquelicot.
From Verif Require Import Num SumLemmas Tensors TensorLemmas ModelUtilities ProofErf ProofUtilities
  ModelElastic SpecElastic ProofElastic ModelMicro SpecMicro ProofMicro PropMicro ModelCohesive SpecCohesive ProofCohesive
  SpecInterface PropCohesive ModelAssembly SpecAssembly ProofAssembly ProofNewton.
Open Scope R_scope.

Lemma locally_forall n (P : nat -> R -> Prop) (x : R) :
  (forall q, (q < n)%nat -> locally x (P q)) -> locally x (fun t => forall q, (q < n)%nat -> P q t).
Proof.
  induction n as [|n IH]; intros H.
  - exists (mkposreal 1 Rlt_0_1). intros t _ q Hq. lia.
  - assert (A := IH (fun q Hq => H q ltac:(lia))). assert (B := H n ltac:(lia)).
    destruct A as [ea A]. destruct B as [eb B].
    assert (Pm : 0 < Rmin ea eb) by (apply Rmin_pos; apply cond_pos).
    exists (mkposreal _ Pm). intros t Ht q Hq. destruct (Nat.eq_dec q n) as [->|Hn].
    + apply B. eapply ball_le; [|exact Ht]. apply Rmin_r.
    + apply A; [|lia]. eapply ball_le; [|exact Ht]. apply Rmin_l.
Qed.

Lemma opening_at_along f U Un V Vn t q :
  opening_at f (along U V t) (along Un Vn t) q = vadd (opening_at f U Un q) (vscal t (opening_at f V Vn q)).
Proof.
  apply functional_extensionality. intros r. unfold opening_at, face_displacement, vsub, vadd, vscal, along.
  rewrite Rmult_minus_distr_l, <- !sumn_scal.
  transitivity ((sumn (fa_nd f) (fun i => Un i * fa_nphi f i q r) + sumn (fa_nd f) (fun i => t * (Vn i * fa_nphi f i q r)))
    - (sumn (fa_nd f) (fun i => U i * fa_phi f i q r) + sumn (fa_nd f) (fun i => t * (V i * fa_phi f i q r)))); [|ring].
  rewrite <- !sumn_plus. f_equal; apply sumn_ext; intros; ring.
Qed.
Lemma face_slip_along nd psi U V t q : face_slip nd psi (along U V t) q = along (face_slip nd psi U q) (face_slip nd psi V q) t.
Proof.
  apply functional_extensionality. intros a. unfold face_slip, along. rewrite <- sumn_scal, <- sumn_plus.
  apply sumn_ext; intros; ring.
Qed.

Lemma deg_fin m x b : 0 < m -> 0 <= x <= 1 -> degradation m x b = Fin (val (degradation m x b)).
Proof.
  intros Hm Hx. destruct b; [|reflexivity]. destruct (degradation_range m x Hm Hx) as (y & E & _). rewrite E. reflexivity.
Qed.
Lemma damage_range p h q : (if_decohesion p = true -> 0 <= fh_damage h q <= 1) -> 0 <= damage_at p h q <= 1.
Proof. unfold damage_at. destruct (if_decohesion p); intros; [auto|lra]. Qed.

Lemma jacobian_fin d c delta n mx old dt r s : char_stress c <> 0 -> mx <> 0 ->
  cohesive_jacobian d c delta n mx old dt r s = Fin (val (cohesive_jacobian d c delta n mx old dt r s)).
Proof.
  intros Hc Hm. unfold cohesive_jacobian. destruct (branch_of _ _ _).
  - rewrite xdiv_fin by auto. reflexivity.
  - rewrite xdiv_fin by auto. cbn [xmul]. rewrite xdiv_fin by auto. reflexivity.
  - rewrite xdiv_fin by auto. reflexivity.
Qed.

Definition face_K (p : interface) (f : gb_face) (h : face_history) (U Un : nat -> R) (q : nat) : mat := fun r s =>
  val (deg_macro p h q) *
    val (cohesive_jacobian (if_dim p) (if_cohesive p) (opening_at f U Un q) (fa_n f q) (fh_max h q) (fh_old h q) (if_dt p) r s)
  + contact_jacobian (if_dim p) (if_contact p) (opening_at f U Un q) (fa_n f q) r s.

Lemma traction_form_fin p f h U Un q x y : char_stress (if_cohesive p) <> 0 -> fh_max h q <> 0 ->
  0 < if_exponent p -> 0 <= damage_at p h q <= 1 ->
  traction_form p f h U Un q x y = Fin (dot (if_dim p) x (mv (if_dim p) (face_K p f h U Un q) y)).
Proof.
  intros Hc Hm He Hd. apply xdot_fin. intros r Hr. apply xsumn_fin'. intros s Hs. unfold face_K.
  unfold deg_macro. rewrite deg_fin by auto. rewrite jacobian_fin by auto. reflexivity.
Qed.

(** The largest opening follows the current one (C12). *)
Definition tracked (p : interface) (f : gb_face) (m0 old damage : nat -> R) (U Un : nat -> R) : face_history :=
  mk_face_history (fun q => Rmax (m0 q) (mixed_opening (ratio (if_cohesive p)) (if_dim p) (fa_n f q) (opening_at f U Un q)))
                  old damage.

(** A quadrature point that is inside the unloading range or beyond the largest opening so far. *)
Definition regular_point (p : interface) (f : gb_face) (m0 old : nat -> R) (U Un : nat -> R) (q : nat) : Prop :=
  let e := mixed_opening (ratio (if_cohesive p)) (if_dim p) (fa_n f q) (opening_at f U Un q) in
  unit_vec (if_dim p) (fa_n f q) /\ dot (if_dim p) (fa_n f q) (opening_at f U Un q) <> 0 /\ 0 < e /\
  (e < m0 q \/ (m0 q < e /\ old q <= e)).

Lemma mixed_locally d r n delta w : unit_vec d n -> dot d n delta <> 0 -> 0 < mixed_opening r d n delta ->
  forall P : R -> Prop, locally (mixed_opening r d n delta) P ->
  locally 0 (fun t => P (mixed_opening r d n (vadd delta (vscal t w)))).
Proof.
  intros U Hn He P HP. assert (D := derive_mixed d r n delta w U Hn ltac:(lra)).
  assert (C := ex_derive_continuous (fun t => mixed_opening r d n (vadd delta (vscal t w))) 0
     (ex_intro _ _ D)).
  assert (E : mixed_opening r d n (vadd delta (vscal 0 w)) = mixed_opening r d n delta).
  { f_equal. apply functional_extensionality; intros i. unfold vadd, vscal. ring. }
  apply (C P). rewrite E. exact HP.
Qed.

Lemma derive_tracked_traction d c delta n m0 old dt w i : good_cohesive c -> 0 < dt -> (i < d)%nat -> unit_vec d n ->
  dot d n delta <> 0 -> 0 < mixed_opening (ratio c) d n delta ->
  (mixed_opening (ratio c) d n delta < m0 \/ (m0 < mixed_opening (ratio c) d n delta /\ old <= mixed_opening (ratio c) d n delta)) ->
  is_derive (fun t => let x := vadd delta (vscal t w) in
      val (cohesive_traction d c x n (Rmax m0 (mixed_opening (ratio c) d n x)) old dt i)) 0
    (char_disp c * sumn d (fun j => val (cohesive_jacobian d c delta n (Rmax m0 (mixed_opening (ratio c) d n delta)) old dt i j) * w j)).
Proof.
  intros G Hdt Hi U Hn He [K|[K Ho]].
  - rewrite (Rmax_left m0) by lra.
    assert (D := derive_unloading d c delta n m0 old dt w i G ltac:(lra) Hi U Hn (conj He K)).
    apply (is_derive_ext_loc (fun t => val (cohesive_traction d c (vadd delta (vscal t w)) n m0 old dt i))).
    + assert (L := mixed_locally d (ratio c) n delta w U Hn He _ (open_lt _ _ K)).
      destruct L as [ep L]. exists ep. intros t Ht. specialize (L t Ht). cbv beta in L. cbv zeta. rewrite Rmax_left by lra. reflexivity.
    + exact D.
  - rewrite (Rmax_right m0) by lra.
    assert (D := derive_loading d c delta n old dt w i G Hdt Hi U Hn He Ho).
    apply (is_derive_ext_loc (fun t => let x := vadd delta (vscal t w) in
       val (cohesive_traction d c x n (mixed_opening (ratio c) d n x) old dt i))).
    + assert (L := mixed_locally d (ratio c) n delta w U Hn He _ (open_gt _ _ K)).
      destruct L as [ep L]. exists ep. intros t Ht. specialize (L t Ht). cbv beta in L. cbv zeta. rewrite Rmax_right by lra. reflexivity.
    + exact D.
Qed.

(** Finite close to a regular point. *)
Lemma tracked_finite d c delta n m0 old dt w : good_cohesive c -> 0 < dt -> unit_vec d n ->
  dot d n delta <> 0 -> 0 < mixed_opening (ratio c) d n delta ->
  locally 0 (fun t => let x := vadd delta (vscal t w) in forall i, (i < d)%nat ->
     cohesive_traction d c x n (Rmax m0 (mixed_opening (ratio c) d n x)) old dt i =
     Fin (val (cohesive_traction d c x n (Rmax m0 (mixed_opening (ratio c) d n x)) old dt i))).
Proof.
  intros G Hdt U Hn He. destruct (mixed_locally d (ratio c) n delta w U Hn He _ (open_gt _ _ He)) as [ep L].
  exists ep. intros t Ht x i Hi. specialize (L t Ht). cbv beta in L. fold x in L.
  rewrite unloading_traction; auto; [lra| |apply Rmax_r].
  pose proof (Rmax_r m0 (mixed_opening (ratio c) d n x)). lra.
Qed.

Definition face_params_ok (p : interface) : Prop :=
  good_cohesive (if_cohesive p) /\ 0 < if_dt p /\ 0 < if_exponent p /\ ct_disp (if_contact p) = char_disp (if_cohesive p).

Lemma sum_face_disp d f x M V nphi q :
  sumn (fa_nd f) (fun j => dot d x (mv d M (nphi j q)) * V j) =
  dot d x (mv d M (face_displacement (fa_nd f) nphi V q)).
Proof.
  symmetry. rewrite (dot_sum_r d (fa_nd f) x V (fun j => mv d M (nphi j q))).
  - apply sumn_ext; intros; ring.
  - intros r Hr. apply (dot_sum_r d (fa_nd f) (fun s => M r s) V (fun j => nphi j q)). intros s Hs. reflexivity.
Qed.

Lemma tracked_max_pos p f m0 old damage U Un q : regular_point p f m0 old U Un q ->
  0 < fh_max (tracked p f m0 old damage U Un) q.
Proof.
  intros (_ & _ & He & _). cbn [fh_max tracked].
  pose proof (Rmax_r (m0 q) (mixed_opening (ratio (if_cohesive p)) (if_dim p) (fa_n f q) (opening_at f U Un q))). lra.
Qed.

Lemma local_displacement p f h U Un i j : primitive_face (if_dim p) (if_ns p) f -> face_params_ok p ->
  if_decohesion p = true -> (forall q, (q < fa_nq f)%nat -> 0 < fh_max h q /\ 0 <= fh_damage h q <= 1) ->
  (i < fa_nd f)%nat -> (j < fa_nd f)%nat -> (fa_comp f i < if_dim p)%nat ->
  jacobian_face_local p f h U Un i j = Fin (sumn (fa_nq f) (fun q =>
    if_factor p * dot (if_dim p) (fa_phi f i q) (mv (if_dim p) (face_K p f h U Un q) (fa_phi f j q)) * fa_w f q)) /\
  jacobian_face_coupling p f h U Un i j = Fin (sumn (fa_nq f) (fun q =>
    - (if_factor p * dot (if_dim p) (fa_phi f i q) (mv (if_dim p) (face_K p f h U Un q) (fa_nphi f j q)) * fa_w f q))).
Proof.
  intros P ((G1 & G2 & G3 & G4) & Hdt & He & Hchi) Hde Hq Hi Hj Ci.
  split; apply xsumn_fin'; intros q Hqq; cbv zeta; rewrite (proj2 (Nat.ltb_lt _ _) Ci), Hde;
    destruct (Hq q Hqq) as [Hm Hd]; destruct (P j q Hj Hqq) as (_ & _ & Pj & _);
    destruct (Nat.ltb_spec (fa_comp f j) (if_dim p)) as [Cj|Cj].
  1,3: (rewrite traction_form_fin by (auto; try lra; apply damage_range; auto); cbn [xmul xneg]; f_equal; ring).
  - f_equal. rewrite dot_comm, dot_zero_l; [ring|]. intros r. apply mv_zero. intros s. apply (Pj Cj s).
  - f_equal. rewrite dot_comm, dot_zero_l; [ring|]. intros r. apply mv_zero. intros s. apply (Pj Cj s).
Qed.

Lemma mv_sub d A v w r : mv d A (vsub v w) r = mv d A v r - mv d A w r.
Proof. unfold mv, vsub. rewrite <- sumn_minus. apply sumn_ext; intros; ring. Qed.

Lemma derive_face_displacement p f m0 old damage U Un V Vn i :
  primitive_face (if_dim p) (if_ns p) f -> face_params_ok p -> if_decohesion p = true ->
  (forall q, (q < fa_nq f)%nat -> regular_point p f m0 old U Un q /\ 0 <= damage q <= 1) ->
  (i < fa_nd f)%nat -> (fa_comp f i < if_dim p)%nat ->
  let h := tracked p f m0 old damage U Un in
  is_derive (fun t => let U' := along U V t in let Un' := along Un Vn t in
               val (residual_face p f (tracked p f m0 old damage U' Un') U' Un' i)) 0
    (char_disp (if_cohesive p) *
     - (sumn (fa_nd f) (fun j => val (jacobian_face_local p f h U Un i j) * V j)
        + sumn (fa_nd f) (fun j => val (jacobian_face_coupling p f h U Un i j) * Vn j))).
Proof.
  intros P OK Hde Hq Hi Ci h. pose proof OK as (G & Hdt & He & Hchi). set (d := if_dim p) in *. set (c := if_cohesive p) in *.
  set (DV := opening_at f V Vn). set (chi := char_disp c).
  (* real form near 0 *)
  set (T := fun q t r => let x := vadd (opening_at f U Un q) (vscal t (DV q)) in
     val (deg_macro p h q) * val (cohesive_traction d c x (fa_n f q) (Rmax (m0 q) (mixed_opening (ratio c) d (fa_n f q) x)) (old q) (if_dt p) r)
     + contact_traction d (if_contact p) x (fa_n f q) r).
  apply (is_derive_ext_loc (fun t => sumn (fa_nq f) (fun q => if_factor p * dot d (fa_phi f i q) (T q t) * fa_w f q))).
  { assert (L := locally_forall (fa_nq f) _ 0 (fun q Hqq => tracked_finite d c (opening_at f U Un q) (fa_n f q) (m0 q) (old q) (if_dt p) (DV q) G Hdt
      (proj1 (proj1 (Hq q Hqq))) (proj1 (proj2 (proj1 (Hq q Hqq)))) (proj1 (proj2 (proj2 (proj1 (Hq q Hqq))))))).
    destruct L as [ep L]. exists ep. intros t Ht. specialize (L t Ht). cbv beta zeta in L. cbv zeta.
    unfold residual_face. fold d. rewrite (proj2 (Nat.ltb_lt _ _) Ci), Hde.
    symmetry. erewrite xsumn_fin'; [reflexivity|]. intros q Hqq. cbv zeta. fold c.
    rewrite (xdot_fin d _ _ (T q t)); [reflexivity|].
    intros r Hr. unfold T. cbv zeta. rewrite opening_at_along. fold (DV q). cbn [fh_max tracked fh_old].
    fold c d. rewrite opening_at_along. fold (DV q). rewrite (L q Hqq r Hr).
    unfold deg_macro. cbn [tracked damage_at fh_damage]. 
    rewrite (deg_fin (if_exponent p) (damage_at p (tracked p f m0 old damage (along U V t) (along Un Vn t)) q)); auto.
    apply damage_range. intros _. apply Hq; auto. }
  assert (F := fun j Hj => local_displacement p f h U Un i j P OK Hde
     (fun q Hqq => conj (tracked_max_pos p f m0 old damage U Un q (proj1 (Hq q Hqq))) (proj2 (Hq q Hqq))) Hi Hj Ci).
  replace (chi * _) with (sumn (fa_nq f) (fun q => if_factor p * dot d (fa_phi f i q) (fun r => chi * mv d (face_K p f h U Un q) (DV q) r) * fa_w f q)).
  - apply (derive_sumn (fa_nq f) (fun q t => if_factor p * dot d (fa_phi f i q) (T q t) * fa_w f q)). intros q Hqq.
    assert (D : is_derive (fun t => dot d (fa_phi f i q) (T q t)) 0 (dot d (fa_phi f i q) (fun r => chi * mv d (face_K p f h U Un q) (DV q) r))).
    { apply derive_dot. intros r Hr. destruct (Hq q Hqq) as [(Uq & Nq & Eq & Cq) _].
      assert (D1 := is_derive_scal _ 0 (val (deg_macro p h q)) _ (derive_tracked_traction d c (opening_at f U Un q) (fa_n f q) (m0 q) (old q) (if_dt p) (DV q) r G Hdt Hr Uq Nq Eq Cq)).
      assert (Nq' : dot d (opening_at f U Un q) (fa_n f q) <> 0) by (rewrite dot_comm; exact Nq).
      assert (D2 := derive_contact d (if_contact p) (opening_at f U Un q) (fa_n f q) (DV q) r Nq').
      assert (D3 := is_derive_plus _ _ 0 _ _ D1 D2). unfold T. cbv zeta.
      match type of D3 with is_derive _ _ ?x => match goal with |- is_derive _ _ ?x' => replace x' with x end end; [exact D3|].
      unfold plus; simpl. rewrite Hchi. fold c chi. unfold mv, face_K. fold d c. cbn [tracked fh_max fh_old h]. fold c d.
      rewrite (sumn_ext d (fun j => (_ + _) * DV q j) (fun j => val (deg_macro p h q) * (val (cohesive_jacobian d c (opening_at f U Un q) (fa_n f q)
         (Rmax (m0 q) (mixed_opening (ratio c) d (fa_n f q) (opening_at f U Un q))) (old q) (if_dt p) r j) * DV q j)
         + contact_jacobian d (if_contact p) (opening_at f U Un q) (fa_n f q) r j * DV q j)) by (intros; ring).
      rewrite sumn_plus, sumn_scal. ring. }
    assert (D' := is_derive_scal_l _ 0 _ (fa_w f q) (is_derive_scal _ 0 (if_factor p) _ D)).
    exact D'.
  - rewrite (sumn_ext (fa_nd f) (fun j => val (jacobian_face_local p f h U Un i j) * V j)
      (fun j => sumn (fa_nq f) (fun q => if_factor p * fa_w f q * (dot d (fa_phi f i q) (mv d (face_K p f h U Un q) (fa_phi f j q)) * V j))));
      [|intros j Hj; rewrite (proj1 (F j Hj)); cbn [val]; rewrite <- sumn_scal_r; apply sumn_ext; intros; fold d; ring].
    rewrite (sumn_ext (fa_nd f) (fun j => val (jacobian_face_coupling p f h U Un i j) * Vn j)
      (fun j => sumn (fa_nq f) (fun q => - (if_factor p * fa_w f q) * (dot d (fa_phi f i q) (mv d (face_K p f h U Un q) (fa_nphi f j q)) * Vn j))));
      [|intros j Hj; rewrite (proj2 (F j Hj)); cbn [val]; rewrite <- sumn_scal_r; apply sumn_ext; intros; fold d; ring].
    rewrite (sumn_swap (fa_nd f)), (sumn_swap (fa_nd f)), <- sumn_plus, <- sumn_opp, <- sumn_scal. apply sumn_ext; intros q Hqq.
    rewrite !sumn_scal, !sum_face_disp.
    rewrite (dot_ext d (fa_phi f i q) (fun r => chi * mv d (face_K p f h U Un q) (DV q) r) (fa_phi f i q)
      (vscal chi (vsub (mv d (face_K p f h U Un q) (face_displacement (fa_nd f) (fa_nphi f) Vn q))
                       (mv d (face_K p f h U Un q) (face_displacement (fa_nd f) (fa_phi f) V q))))).
    + rewrite dot_scal_r, dot_sub_r. ring.
    + auto.
    + intros r Hr. unfold vscal, DV, opening_at. rewrite mv_sub. reflexivity.
Qed.

(** ** Slip rows *)
Lemma face_comp_slip d ns f j q : primitive_face d ns f -> (j < fa_nd f)%nat -> (q < fa_nq f)%nat -> ~ (fa_comp f j < d)%nat ->
  (fa_comp f j - d < ns)%nat /\ forall a, (a < ns)%nat -> a <> (fa_comp f j - d)%nat -> fa_psi f a j q = 0 /\ fa_npsi f a j q = 0.
Proof.
  intros P Hj Hq Cj. destruct (P j q Hj Hq) as (A & _ & _ & K). split; [lia|]. intros a Ha Hn. apply K; auto; lia.
Qed.
Lemma face_comp_disp d ns f j q a : primitive_face d ns f -> (j < fa_nd f)%nat -> (q < fa_nq f)%nat -> (fa_comp f j < d)%nat ->
  (a < ns)%nat -> fa_psi f a j q = 0 /\ fa_npsi f a j q = 0.
Proof. intros P Hj Hq Cj Ha. destruct (P j q Hj Hq) as (_ & _ & _ & K). apply K; auto; lia. Qed.

Lemma local_slip p f h U Un i j : primitive_face (if_dim p) (if_ns p) f -> 0 < if_exponent p ->
  if_microtraction p = true -> (forall q, (q < fa_nq f)%nat -> if_decohesion p = true -> 0 <= fh_damage h q <= 1) ->
  (i < fa_nd f)%nat -> (j < fa_nd f)%nat -> ~ (fa_comp f i < if_dim p)%nat ->
  let a := (fa_comp f i - if_dim p)%nat in
  jacobian_face_local p f h U Un i j = Fin (sumn (fa_nq f) (fun q =>
    - (if_N p 2 * fa_psi f a i q * val (deg_micro p h q) * fa_w f q)
    * sumn (if_ns p) (fun b => intra_gateaux (if_lambda p) (if_chi p) (if_moduli p q) a b * fa_psi f b j q))) /\
  jacobian_face_coupling p f h U Un i j = Fin (sumn (fa_nq f) (fun q =>
    - (if_N p 2 * fa_psi f a i q * val (deg_micro p h q) * fa_w f q)
    * sumn (if_ns p) (fun b => inter_gateaux (if_lambda p) (if_chi p) (if_moduli p q) a b * fa_npsi f b j q))).
Proof.
  intros P He Hmi Hd Hi Hj Ci a.
  assert (Ci' : Nat.ltb (fa_comp f i) (if_dim p) = false) by (apply Nat.ltb_ge; lia).
  split; apply xsumn_fin'; intros q Hq; cbv zeta; rewrite Ci', Hmi;
    destruct (Nat.ltb_spec (fa_comp f j) (if_dim p)) as [Cj|Cj].
  - f_equal. rewrite (sumn_zero (if_ns p)); [ring|]. intros b Hb. rewrite (proj1 (face_comp_disp _ _ _ _ _ b P Hj Hq Cj Hb)). ring.
  - destruct (face_comp_slip _ _ _ _ _ P Hj Hq ltac:(lia)) as [Hb K].
    unfold deg_micro. rewrite deg_fin by (auto; apply damage_range; auto). cbn [xmul xneg val]. f_equal.
    rewrite (sumn_single (if_ns p) (fa_comp f j - if_dim p)); auto; [unfold a; ring|].
    intros b Hb' Hn. rewrite (proj1 (K b Hb' Hn)). ring.
  - f_equal. rewrite (sumn_zero (if_ns p)); [ring|]. intros b Hb. rewrite (proj2 (face_comp_disp _ _ _ _ _ b P Hj Hq Cj Hb)). ring.
  - destruct (face_comp_slip _ _ _ _ _ P Hj Hq ltac:(lia)) as [Hb K]. destruct (P j q Hj Hq) as (_ & En & _).
    rewrite En.
    unfold deg_micro. rewrite deg_fin by (auto; apply damage_range; auto). cbn [xmul xneg val]. f_equal.
    rewrite (sumn_single (if_ns p) (fa_comp f j - if_dim p)); auto; [unfold a; ring|].
    intros b Hb' Hn. rewrite (proj2 (K b Hb' Hn)). ring.
Qed.

Lemma microtraction_along lambda chi n M gc gn vc vn t a :
  microtraction lambda chi n M (along gc vc t) (along gn vn t) a =
  microtraction lambda chi n M gc gn a
  + t * (sumn n (fun b => intra_gateaux lambda chi M a b * vc b) + sumn n (fun b => inter_gateaux lambda chi M a b * vn b)).
Proof.
  unfold microtraction, along, intra_gateaux, inter_gateaux. rewrite <- sumn_plus, <- sumn_scal, <- !sumn_scal_r, <- sumn_plus.
  apply sumn_ext; intros. unfold Rdiv. ring.
Qed.

Lemma derive_face_slip p f (h : face_history) (H : R -> face_history) U Un V Vn i :
  primitive_face (if_dim p) (if_ns p) f -> 0 < if_exponent p -> if_microtraction p = true ->
  (forall q, (q < fa_nq f)%nat -> if_decohesion p = true -> 0 <= fh_damage h q <= 1) ->
  (forall t, fh_damage (H t) = fh_damage h) ->
  (i < fa_nd f)%nat -> ~ (fa_comp f i < if_dim p)%nat ->
  is_derive (fun t => val (residual_face p f (H t) (along U V t) (along Un Vn t) i)) 0
    (- (sumn (fa_nd f) (fun j => val (jacobian_face_local p f h U Un i j) * V j)
        + sumn (fa_nd f) (fun j => val (jacobian_face_coupling p f h U Un i j) * Vn j))).
Proof.
  intros P He Hmi Hd HH Hi Ci. set (a := (fa_comp f i - if_dim p)%nat).
  assert (Ci' : Nat.ltb (fa_comp f i) (if_dim p) = false) by (apply Nat.ltb_ge; lia).
  set (w := fun q => if_N p 2 * fa_psi f a i q * val (deg_micro p h q) * fa_w f q).
  set (A := fun q => sumn (if_ns p) (fun b => intra_gateaux (if_lambda p) (if_chi p) (if_moduli p q) a b * face_slip (fa_nd f) (fa_psi f) V q b)
     + sumn (if_ns p) (fun b => inter_gateaux (if_lambda p) (if_chi p) (if_moduli p q) a b * face_slip (fa_nd f) (fa_npsi f) Vn q b)).
  set (M0 := fun q => microtraction (if_lambda p) (if_chi p) (if_ns p) (if_moduli p q)
                     (face_slip (fa_nd f) (fa_psi f) U q) (face_slip (fa_nd f) (fa_npsi f) Un q) a).
  apply (is_derive_ext (fun t => sumn (fa_nq f) (fun q => w q * (M0 q + t * A q)))).
  { intros t. unfold residual_face. rewrite Ci', Hmi. symmetry. erewrite xsumn_fin'; [reflexivity|]. intros q Hq. cbv zeta. fold a.
    unfold deg_micro, damage_at. rewrite HH. fold (damage_at p h q).
    rewrite deg_fin by (auto; apply damage_range; auto). rewrite !face_slip_along, microtraction_along. fold (M0 q) (A q).
    cbn [xmul]. f_equal. unfold w, deg_micro. ring. }
  replace (- _) with (sumn (fa_nq f) (fun q => w q * A q)).
  - apply (derive_sumn (fa_nq f) (fun q t => w q * (M0 q + t * A q))). intros q Hq. auto_derive; auto. ring.
  - assert (F := fun j Hj => local_slip p f h U Un i j P He Hmi Hd Hi Hj Ci). cbv zeta in F. fold a in F.
    rewrite (sumn_ext (fa_nd f) (fun j => val (jacobian_face_local p f h U Un i j) * V j)
      (fun j => sumn (fa_nq f) (fun q => - w q * (sumn (if_ns p) (fun b => intra_gateaux (if_lambda p) (if_chi p) (if_moduli p q) a b * fa_psi f b j q) * V j))));
      [|intros j Hj; rewrite (proj1 (F j Hj)); cbn [val]; rewrite <- sumn_scal_r; apply sumn_ext; intros; unfold w; ring].
    rewrite (sumn_ext (fa_nd f) (fun j => val (jacobian_face_coupling p f h U Un i j) * Vn j)
      (fun j => sumn (fa_nq f) (fun q => - w q * (sumn (if_ns p) (fun b => inter_gateaux (if_lambda p) (if_chi p) (if_moduli p q) a b * fa_npsi f b j q) * Vn j))));
      [|intros j Hj; rewrite (proj2 (F j Hj)); cbn [val]; rewrite <- sumn_scal_r; apply sumn_ext; intros; unfold w; ring].
    rewrite (sumn_swap (fa_nd f)), (sumn_swap (fa_nd f)), <- sumn_plus, <- sumn_opp. apply sumn_ext; intros q Hq.
    rewrite !sumn_scal. unfold A.
    rewrite (sumn_ext (fa_nd f) (fun j => sumn (if_ns p) (fun b => intra_gateaux _ _ _ a b * fa_psi f b j q) * V j)
      (fun j => V j * dot (if_ns p) (fun b => intra_gateaux (if_lambda p) (if_chi p) (if_moduli p q) a b) (fun b => fa_psi f b j q))) by (intros; unfold dot; ring).
    rewrite (sumn_ext (fa_nd f) (fun j => sumn (if_ns p) (fun b => inter_gateaux _ _ _ a b * fa_npsi f b j q) * Vn j)
      (fun j => Vn j * dot (if_ns p) (fun b => inter_gateaux (if_lambda p) (if_chi p) (if_moduli p q) a b) (fun b => fa_npsi f b j q))) by (intros; unfold dot; ring).
    rewrite <- !(dot_sum_r (if_ns p) (fa_nd f) _ _ _ (face_slip (fa_nd f) _ _ q)) by (intros; reflexivity). unfold dot. ring.
Qed.

(** ** The two sides of a face *)
Lemma opening_at_other f U Un q : opening_at (other_side f) Un U q = vneg (opening_at f U Un q).
Proof. apply functional_extensionality. intros r. unfold opening_at, vsub, vneg. cbn [other_side fa_nd fa_nphi fa_phi]. ring. Qed.

Lemma face_K_other p p' f h U Un q r s : (r < if_dim p)%nat -> (s < if_dim p)%nat -> char_stress (if_cohesive p) <> 0 ->
  if_dim p' = if_dim p -> if_cohesive p' = if_cohesive p -> if_contact p' = if_contact p -> if_dt p' = if_dt p ->
  if_exponent p' = if_exponent p -> if_couple_macro p' = if_couple_macro p -> if_decohesion p' = if_decohesion p ->
  face_K p' (other_side f) h Un U q r s = face_K p f h U Un q s r.
Proof.
  intros Hr Hs Hc E1 E2 E3 E4 E5 E6 E7. unfold face_K, deg_macro, damage_at. rewrite E1, E2, E3, E4, E5, E6, E7, opening_at_other.
  cbn [other_side fa_n].
  destruct (C34_action_reaction (if_dim p) (if_cohesive p) (if_contact p) (opening_at f U Un q) (fa_n f q) (fh_max h q) (fh_old h q) (if_dt p) r s Hr Hs Hc)
    as (_ & _ & A & _ & B).
  rewrite A, B, C32_jacobian_symmetric. f_equal.
  unfold contact_jacobian, mscal, symmetrize. f_equal. unfold outer. f_equal. ring.
Qed.

Lemma dot_mv_transpose d x A y B : (forall r s, (r < d)%nat -> (s < d)%nat -> B s r = A r s) ->
  dot d x (mv d A y) = dot d y (mv d B x).
Proof.
  intros H. unfold dot, mv.
  rewrite (sumn_ext d _ (fun r => sumn d (fun s => x r * (A r s * y s)))) by (intros; rewrite sumn_scal; reflexivity).
  rewrite sumn_swap. apply sumn_ext; intros s Hs. rewrite <- sumn_scal. apply sumn_ext; intros r Hr. rewrite H by auto. ring.
Qed.
