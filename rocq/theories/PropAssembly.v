(** * C36-C38, C65, C69, C70: assembly of the Newton system. *)
From Coq Require Import FunctionalExtensionality.
From Coquelicot Require Import Coquelicot.
From Verif Require Import Num SumLemmas Tensors TensorLemmas ModelUtilities ProofErf ProofUtilities
  ModelElastic SpecElastic ProofElastic ModelMicro SpecMicro ProofMicro PropMicro ModelCohesive SpecCohesive ProofCohesive
  SpecInterface PropCohesive ModelAssembly SpecAssembly ProofAssembly ProofNewton ProofFace.
Open Scope R_scope.

(** The slip resistances the history holds when the trial state is [U] (C10). *)
Definition resistances (c : crystal) (e : element) (g0 : nat -> nat -> R) (Uold U : nat -> R) (q a : nat) : R :=
  resistance (sl_perfect (cr_law c)) (sl_H (cr_law c) / sl_chi (cr_law c)) (sl_q (cr_law c)) (cr_ns c)
    (g0 q) (slip_at e Uold q) (slip_at e U q) a.

Lemma exact_from_jacobian c e U Uold V g0 i (D : nat -> nat -> nat -> R) :
  primitive (cr_dim c) (cr_ns c) e -> 2 <= cr_p c -> cr_N c 0 <> 0 -> (i < el_nd e)%nat ->
  (forall q a, (q < el_nq e)%nat -> (a < cr_ns c)%nat ->
     is_derive (fun t => scalar_microstress (cr_law c) (along (slip_at e U q) (slip_at e V q) t a) (slip_at e Uold q a)
        (hardened (cr_ns c) (hmat (cr_law c)) (g0 q) (slip_at e Uold q) (along (slip_at e U q) (slip_at e V q) t) a) (cr_dt c)) 0
       (sumn (cr_ns c) (fun b => (scalar_jacobian (cr_law c) (slip_at e U q) (slip_at e Uold q)
          (hardened (cr_ns c) (hmat (cr_law c)) (g0 q) (slip_at e Uold q) (slip_at e U q)) (cr_dt c) a b + D q a b) * slip_at e V q b))) ->
  is_derive (fun t => val (residual_bulk c e (along U V t) Uold (resistances c e g0 Uold (along U V t)) i)) 0
    (- sumn (el_nd e) (fun j => val (jacobian_bulk c e U Uold (resistances c e g0 Uold U) i j) * V j)
     - sumn (el_nq e) (fun q => sumn (cr_ns c) (fun a => el_psi e a i q * sumn (cr_ns c) (fun b => D q a b * slip_at e V q b)) * el_w e q)).
Proof.
  intros H Hp HN Hi HD.
  assert (K := derive_residual c e U Uold V (fun t => resistances c e g0 Uold (along U V t))
    (fun q a b => scalar_jacobian (cr_law c) (slip_at e U q) (slip_at e Uold q) (resistances c e g0 Uold U q) (cr_dt c) a b + D q a b) i H Hp HN Hi).
  assert (J : forall q, resistances c e g0 Uold U q = hardened (cr_ns c) (hmat (cr_law c)) (g0 q) (slip_at e Uold q) (slip_at e U q)).
  { intros q. apply functional_extensionality. intros a. apply resistance_hardened. }
  match type of K with ?A -> _ => assert (HA : A) end.
  { intros q a Hq Ha. eapply is_derive_ext; [|rewrite J; apply (HD q a Hq Ha)].
    intros t. cbv beta. unfold resistances. rewrite resistance_hardened, slip_at_along. reflexivity. }
  specialize (K HA).
  match type of K with is_derive _ _ ?x => match goal with |- is_derive _ _ ?y => replace y with x end end; [exact K|].
  rewrite (sumn_ext (el_nd e) (fun j => val (jacobian_bulk _ _ _ _ _ _ _) * V j)
    (fun j => V j * sumn (el_nq e) (fun q => jac_form c e U Uold (resistances c e g0 Uold U) i j q * el_w e q)))
    by (intros j Hj; rewrite jacobian_form by auto; cbn [val]; ring).
  rewrite (sumn_ext (el_nd e) (fun j => V j * sumn (el_nq e) (fun q => jac_form_with _ _ _ _ _ _ _ * el_w e q))
    (fun j => V j * sumn (el_nq e) (fun q => jac_form c e U Uold (resistances c e g0 Uold U) i j q * el_w e q)
       + sumn (el_nq e) (fun q => (V j * sumn (cr_ns c) (fun a => el_psi e a i q * sumn (cr_ns c) (fun b => D q a b * el_psi e b j q))) * el_w e q))).
  - rewrite sumn_plus, Ropp_plus_distr. unfold Rminus. f_equal. f_equal. rewrite sumn_swap. apply sumn_ext; intros q Hq.
    rewrite sumn_scal_r. f_equal.
    rewrite (sumn_ext (el_nd e) _ (fun j => sumn (cr_ns c) (fun a => el_psi e a i q * (V j * sumn (cr_ns c) (fun b => D q a b * el_psi e b j q)))))
      by (intros; rewrite <- sumn_scal; apply sumn_ext; intros; ring).
    rewrite sumn_swap. apply sumn_ext; intros a Ha. rewrite sumn_scal. f_equal. symmetry.
    apply (dot_sum_r (cr_ns c) (el_nd e) (fun b => D q a b) V (fun j b => el_psi e b j q)). intros b Hb. reflexivity.
  - intros j Hj. rewrite <- sumn_scal, <- sumn_scal, <- sumn_plus. apply sumn_ext; intros q Hq.
    unfold jac_form_with, jac_form.
    rewrite (sumn_ext (cr_ns c) (fun a => el_psi e a i q * sumn (cr_ns c) (fun b => (_ + D q a b) * el_psi e b j q))
      (fun a => el_psi e a i q * sumn (cr_ns c) (fun b => scalar_jacobian (cr_law c) (slip_at e U q) (slip_at e Uold q)
          (resistances c e g0 Uold U q) (cr_dt c) a b * el_psi e b j q)
        + el_psi e a i q * sumn (cr_ns c) (fun b => D q a b * el_psi e b j q))).
    + rewrite sumn_plus. ring.
    + intros a Ha. rewrite <- Rmult_plus_distr_l, <- sumn_plus. f_equal. apply sumn_ext; intros; ring.
Qed.

(** ** C36.  Moving the coefficients along any [V], the right-hand side changes by minus the matrix times [V]. *)
Theorem C36_newton_exact_perfect_plasticity : forall c e U Uold V g0 i,
  primitive (cr_dim c) (cr_ns c) e -> 2 <= cr_p c -> cr_N c 0 <> 0 -> 0 < cr_dt c -> 0 < sl_k (cr_law c) ->
  sl_rate_independent (cr_law c) = false -> sl_perfect (cr_law c) = true -> (i < el_nd e)%nat ->
  is_derive (fun t => val (residual_bulk c e (along U V t) Uold (resistances c e g0 Uold (along U V t)) i)) 0
    (- sumn (el_nd e) (fun j => val (jacobian_bulk c e U Uold (resistances c e g0 Uold U) i j) * V j)).
Proof.
  intros c e U Uold V g0 i H Hp HN Hdt Hk Hr Hpp Hi.
  assert (Z : forall a b, hmat (cr_law c) a b = 0) by (intros; unfold hmat; rewrite Hpp; reflexivity).
  assert (K := exact_from_jacobian c e U Uold V g0 i (fun _ _ _ => 0) H Hp HN Hi).
  match type of K with ?A -> _ => assert (HA : A) end.
  { intros q a Hq Ha.
    assert (D := derive_microstress_along (cr_law c) (cr_ns c) (g0 q) (slip_at e Uold q) (slip_at e U q) (slip_at e V q) (cr_dt c) a Hdt Hk Hr Ha
      (fun b _ => or_introl (Z a b))).
    match type of D with is_derive _ _ ?x => match goal with |- is_derive _ _ ?y => replace y with x end end; [exact D|].
    apply sumn_ext; intros b Hb. unfold jac_defect. rewrite Z. ring. }
  specialize (K HA).
  match type of K with is_derive _ _ ?x => match goal with |- is_derive _ _ ?y => replace y with x end end; [exact K|].
  rewrite (sumn_zero (el_nq e)); [ring|]. intros q Hq. rewrite sumn_zero; [ring|]. intros a Ha. rewrite sumn_zero; [ring|]. intros; ring.
Qed.
Print Assumptions C36_newton_exact_perfect_plasticity.

Theorem C36_newton_exact_rate_independent : forall c e U Uold V g0 i,
  primitive (cr_dim c) (cr_ns c) e -> 2 <= cr_p c -> cr_N c 0 <> 0 -> 0 < cr_dt c ->
  sl_rate_independent (cr_law c) = true -> (i < el_nd e)%nat ->
  (forall q b, (q < el_nq e)%nat -> (b < cr_ns c)%nat -> slip_at e U q b <> slip_at e Uold q b) ->
  is_derive (fun t => val (residual_bulk c e (along U V t) Uold (resistances c e g0 Uold (along U V t)) i)) 0
    (- sumn (el_nd e) (fun j => val (jacobian_bulk c e U Uold (resistances c e g0 Uold U) i j) * V j)).
Proof.
  intros c e U Uold V g0 i H Hp HN Hdt Hr Hi Hf.
  assert (K := exact_from_jacobian c e U Uold V g0 i (fun _ _ _ => 0) H Hp HN Hi).
  match type of K with ?A -> _ => assert (HA : A) end.
  { intros q a Hq Ha.
    assert (D := derive_microstress_ri_along (cr_law c) (cr_ns c) (g0 q) (slip_at e Uold q) (slip_at e U q) (slip_at e V q) (cr_dt c) a Hdt Hr Ha
      (fun b Hb => Hf q b Hq Hb)).
    match type of D with is_derive _ _ ?x => match goal with |- is_derive _ _ ?y => replace y with x end end; [exact D|].
    apply sumn_ext; intros b Hb. ring. }
  specialize (K HA).
  match type of K with is_derive _ _ ?x => match goal with |- is_derive _ _ ?y => replace y with x end end; [exact K|].
  rewrite (sumn_zero (el_nq e)); [ring|]. intros q Hq. rewrite sumn_zero; [ring|]. intros a Ha. rewrite sumn_zero; [ring|]. intros; ring.
Qed.
Print Assumptions C36_newton_exact_rate_independent.

(** Rate-dependent hardening: the matrix misses a term proportional to the hardening modulus and to
    sign(rate) - regularised sign(rate). *)
Theorem C36_newton_hardening_partial : forall c e U Uold V g0 i,
  primitive (cr_dim c) (cr_ns c) e -> 2 <= cr_p c -> cr_N c 0 <> 0 -> 0 < cr_dt c -> 0 < sl_k (cr_law c) ->
  sl_rate_independent (cr_law c) = false -> (i < el_nd e)%nat ->
  (forall q b, (q < el_nq e)%nat -> (b < cr_ns c)%nat -> slip_at e U q b <> slip_at e Uold q b) ->
  is_derive (fun t => val (residual_bulk c e (along U V t) Uold (resistances c e g0 Uold (along U V t)) i)) 0
    (- sumn (el_nd e) (fun j => val (jacobian_bulk c e U Uold (resistances c e g0 Uold U) i j) * V j)
     - sumn (el_nq e) (fun q => sumn (cr_ns c) (fun a => el_psi e a i q * sumn (cr_ns c) (fun b =>
         jac_defect (cr_law c) (slip_at e U q) (slip_at e Uold q) (cr_dt c) a b * slip_at e V q b)) * el_w e q)).
Proof.
  intros c e U Uold V g0 i H Hp HN Hdt Hk Hr Hi Hf.
  apply (exact_from_jacobian c e U Uold V g0 i (fun q a b => jac_defect (cr_law c) (slip_at e U q) (slip_at e Uold q) (cr_dt c) a b)); auto.
  intros q a Hq Ha. apply derive_microstress_along; auto.
Qed.
Print Assumptions C36_newton_hardening_partial.

(** A one-element example: one slip system, unit shape function. *)
Definition unit_element (d : nat) : element :=
  mk_element 1 1 (fun _ => d) (fun _ => 1) (fun _ _ => vzero) (fun _ _ _ _ => 0)
    (fun a _ _ => if Nat.eqb a 0 then 1 else 0) (fun _ _ _ => vzero).
Definition unit_crystal (l : scalar_law) : crystal :=
  mk_crystal 2 1 (fun _ => 1) (fun _ _ _ _ => 0) (fun _ _ _ => 0) l 1 2 (fun _ => vzero) (fun _ => vzero)
    (fun _ _ => 0) (fun _ => vzero) 1.
Lemma unit_primitive : primitive 2 1 (unit_element 2).
Proof.
  intros j q Hj Hq. cbn in *. split; [lia|]. split; [intros; split; reflexivity|].
  intros a Ha Hn r. lia.
Qed.
Lemma unit_slip U q : slip_at (unit_element 2) U q 0%nat = U 0%nat.
Proof. unfold slip_at. cbn. ring. Qed.
Example C36_nonvacuous : primitive 2 1 (unit_element 2) /\ 2 <= cr_p (unit_crystal (law_ex false true)) /\
  slip_at (unit_element 2) (fun _ => 1) 0 0%nat <> slip_at (unit_element 2) (fun _ => 0) 0 0%nat /\
  jacobian_bulk (unit_crystal (law_ex false true)) (unit_element 2) (fun _ => 1) (fun _ => 0) (fun _ _ => 100) 0 0 = Fin 500.
Proof.
  split; [apply unit_primitive|]. split; [cbn; lra|]. split; [rewrite !unit_slip; lra|].
  rewrite jacobian_form; [|apply unit_primitive|cbn; lra|cbn; lra|cbn; lia|cbn; lia].
  f_equal. cbn [unit_element unit_crystal el_nq sumn]. unfold jac_form.
  cbn [cr_dim cr_ns cr_N cr_law cr_dt unit_crystal el_psi el_dpsi unit_element el_w sumn Nat.eqb].
  unfold dof_strain. cbn [cr_ns unit_crystal elastic_strain].
  unfold dot, vzero, ddot. cbn [sumn].
  unfold scalar_jacobian. cbn [sl_perfect sl_rate_independent law_ex Nat.eqb andb negb].
  rewrite !unit_slip. unfold sl_entry. cbn [sl_H sl_q sl_chi law_ex].
  replace ((1 - 0) / 1) with 1 by lra. unfold sl_sgn. rewrite (proj2 (Rltb_true 0 1)), (proj2 (Rltb_false 1 0)) by lra. unfold b2R.
  unfold c4, msub, mscal. cbn [sumn unit_crystal unit_element cr_C cr_P cr_N el_eps el_psi cr_dim Nat.eqb]. lra.
Qed.

Definition hard_law : scalar_law := mk_scalar_law Tanh 1 1 1 1 false false.
Theorem C36_newton_hardening_refuted :
  ~ is_derive (fun t => val (residual_bulk (unit_crystal hard_law) (unit_element 2) (along (fun _ => 1) (fun _ => 1) t) (fun _ => 0)
        (resistances (unit_crystal hard_law) (unit_element 2) (fun _ _ => 1) (fun _ => 0) (along (fun _ => 1) (fun _ => 1) t)) 0)) 0
    (- sumn 1 (fun j => val (jacobian_bulk (unit_crystal hard_law) (unit_element 2) (fun _ => 1) (fun _ => 0)
          (resistances (unit_crystal hard_law) (unit_element 2) (fun _ _ => 1) (fun _ => 0) (fun _ => 1)) 0 j) * 1)).
Proof.
  intros K.
  assert (L := C36_newton_hardening_partial (unit_crystal hard_law) (unit_element 2) (fun _ => 1) (fun _ => 0) (fun _ => 1) (fun _ _ => 1) 0
    unit_primitive ltac:(cbn; lra) ltac:(cbn; lra) ltac:(cbn; lra) ltac:(cbn; lra) eq_refl ltac:(cbn; lia)).
  match type of L with ?A -> _ => assert (HA : A) end.
  { intros q b Hq Hb. cbn in Hb. replace b with 0%nat by lia. rewrite !unit_slip. lra. }
  specialize (L HA). apply is_derive_unique in K. apply is_derive_unique in L.
  assert (E := eq_trans (eq_sym K) L). clear K L. cbn [el_nd unit_element] in E.
  match type of E with _ = _ - ?x => assert (Z : x = 0) by (apply (Rplus_eq_reg_l (- x)); lra) end.
  cbn [el_nq unit_element cr_ns unit_crystal sumn cr_law cr_dt el_psi Nat.eqb el_w] in Z.
  unfold jac_defect in Z. rewrite !unit_slip in Z. unfold hmat, sl_entry in Z.
  cbn [hard_law sl_perfect sl_H sl_chi sl_q Nat.eqb] in Z.
  replace ((1 - 0) / 1) with 1 in Z by lra. replace (1 - 0) with 1 in Z by lra.
  unfold sl_sgn in Z. rewrite (proj2 (Rltb_true 0 1)), (proj2 (Rltb_false 1 0)) in Z by lra. unfold b2R in Z.
  set (r := reg_value _ 1) in Z.
  assert (B : -1 < r < 1 /\ 0 < r).
  { unfold r. rewrite reg_value_sigmoid. split.
    - destruct (sigmoid_bound (sl_reg hard_law) (sl_k hard_law) 1 ltac:(cbn; lra)); split; lra.
    - pose proof (microstress_dissipative hard_law 1 0 1 1 ltac:(lra) ltac:(cbn; lra) ltac:(lra)) as [P Q].
      unfold scalar_microstress in P, Q. cbn [sl_rate_independent hard_law] in P, Q.
      replace ((1 - 0) / 1) with 1 in P, Q by lra. rewrite reg_value_sigmoid in P, Q.
      destruct P as [P|P]; [cbn in *; lra|]. exfalso. assert (1 = 0) by (apply Q; lra). lra. }
  destruct B as [[B1 B2] B3].
  assert (r * (1 - r) = 0) by (clear E; lra). nra.
Qed.
Print Assumptions C36_newton_hardening_refuted.

(** ** C37 *)
Lemma point_jac_sym c e U q a x y : dot (cr_dim c) x (mv (cr_dim c) (point_jac c e U q a) y) = dot (cr_dim c) y (mv (cr_dim c) (point_jac c e U q a) x).
Proof. apply dot_mv_transpose. intros r s _ _. unfold point_jac, vm_tensor. ring. Qed.

Theorem C37_bulk_symmetric : forall c e U Uold g i j,
  primitive (cr_dim c) (cr_ns c) e -> 2 <= cr_p c -> cr_N c 0 <> 0 -> major_symmetric (cr_dim c) (cr_C c) ->
  (i < el_nd e)%nat -> (j < el_nd e)%nat ->
  jacobian_bulk c e U Uold g i j = jacobian_bulk c e U Uold g j i.
Proof.
  intros c e U Uold g i j H Hp HN HC Hi Hj. rewrite !jacobian_form by auto. f_equal. apply sumn_ext; intros q Hq. f_equal.
  unfold jac_form. f_equal; [f_equal|].
  - f_equal. apply ddot_major; auto.
  - f_equal. apply sumn_ext; intros. apply point_jac_sym.
  - set (J := scalar_jacobian _ _ _ _ _).
    exact (dot_mv_transpose (cr_ns c) (fun a => el_psi e a i q) J (fun b => el_psi e b j q) J
      (fun r s _ _ => jacobian_symmetric _ _ _ _ _ s r)).
Qed.
Print Assumptions C37_bulk_symmetric.

(** Coupling blocks of the two sides of a grain boundary face are transposes of each other.  [p'] is the
    neighbour's view: same laws and history, exchanged interaction moduli (C28_exchange). *)
Theorem C37_coupling_transposed : forall p p' f h U Un i j,
  primitive_face (if_dim p) (if_ns p) f -> face_params_ok p ->
  (forall q, (q < fa_nq f)%nat -> 0 < fh_max h q /\ 0 <= fh_damage h q <= 1) ->
  p' = mk_interface (if_dim p) (if_ns p) (if_N p) (if_decohesion p) (if_microtraction p) (if_cohesive p) (if_contact p)
         (if_exponent p) (if_couple_macro p) (if_couple_micro p) (if_lambda p) (if_chi p) (if_moduli p') (if_dt p) ->
  (forall q a b, snd (if_moduli p' q) b a = snd (if_moduli p q) a b) ->
  (i < fa_nd f)%nat -> (j < fa_nd f)%nat ->
  jacobian_face_coupling p' (other_side f) h Un U j i = jacobian_face_coupling p f h U Un i j.
Proof.
  intros p p' f h U Un i j P OK Hq Ep HM Hi Hj. pose proof OK as ((G1 & G2 & G3 & G4) & Hdt & He & Hchi).
  unfold jacobian_face_coupling. rewrite Ep. cbn [if_dim if_ns if_N if_decohesion if_microtraction if_cohesive if_contact if_exponent
    if_couple_macro if_couple_micro if_lambda if_chi if_moduli if_dt other_side fa_nq fa_comp fa_ncomp fa_psi fa_npsi fa_phi fa_nphi fa_w].
  apply xsumn_ext. intros q Hqq. cbv zeta. destruct (P i q Hi Hqq) as (_ & Ei & _). destruct (P j q Hj Hqq) as (_ & Ej & _).
  rewrite Ei, Ej. destruct (Hq q Hqq) as [Hm Hd].
  destruct (Nat.ltb (fa_comp f j) (if_dim p)) eqn:Cj, (Nat.ltb (fa_comp f i) (if_dim p)) eqn:Ci; auto.
  - destruct (if_decohesion p) eqn:Hde; auto. f_equal. rewrite (traction_form_fin p f) by (auto; try lra; apply damage_range; auto).
    rewrite traction_form_fin by (cbn [if_cohesive if_exponent if_dim]; auto; try lra; unfold damage_at; cbn [if_decohesion]; rewrite ?Hde; auto).
    unfold if_factor. cbn [if_N]. f_equal. f_equal.
    apply dot_mv_transpose. intros r s Hr Hs. symmetry. apply face_K_other; auto. lra.
  - destruct (if_microtraction p); auto. f_equal. f_equal. f_equal. unfold inter_gateaux. rewrite HM. ring.
Qed.
Print Assumptions C37_coupling_transposed.

(** Together with C37_local_symmetric this makes the assembled matrix of the two cells symmetric. *)
Theorem C37_local_symmetric : forall p f h U Un i j,
  primitive_face (if_dim p) (if_ns p) f -> face_params_ok p ->
  (forall q, (q < fa_nq f)%nat -> 0 < fh_max h q /\ 0 <= fh_damage h q <= 1) ->
  (forall q a b, fst (if_moduli p q) a b = fst (if_moduli p q) b a) ->
  (i < fa_nd f)%nat -> (j < fa_nd f)%nat ->
  jacobian_face_local p f h U Un i j = jacobian_face_local p f h U Un j i.
Proof.
  intros p f h U Un i j P OK Hq HM Hi Hj. pose proof OK as ((G1 & G2 & G3 & G4) & Hdt & He & Hchi).
  unfold jacobian_face_local. apply xsumn_ext. intros q Hqq. cbv zeta. destruct (Hq q Hqq) as [Hm Hd].
  destruct (Nat.ltb (fa_comp f j) (if_dim p)) eqn:Cj, (Nat.ltb (fa_comp f i) (if_dim p)) eqn:Ci; auto.
  - destruct (if_decohesion p) eqn:Hde; auto. f_equal.
    rewrite !traction_form_fin by (auto; try lra; apply damage_range; auto). f_equal. f_equal.
    apply dot_mv_transpose. intros r s Hr Hs. unfold face_K.
    rewrite C32_jacobian_symmetric. f_equal.
    unfold contact_jacobian, mscal, symmetrize. f_equal. unfold outer. f_equal. ring.
  - destruct (if_microtraction p); auto. f_equal. f_equal. f_equal. unfold intra_gateaux. rewrite HM. ring.
Qed.
Print Assumptions C37_local_symmetric.

(** ** C38 *)
Lemma microstress_at_rest l x g dt : scalar_microstress l x x g dt = 0.
Proof.
  unfold scalar_microstress. replace ((x - x) / dt) with 0 by (unfold Rdiv; ring).
  assert (Z : sl_sgn 0 = 0). { destruct (sgn_cases 0) as [[? ?]|[[? ?]|[? ?]]]; auto; lra. }
  destruct (sl_rate_independent l); [rewrite Z; ring|].
  assert (O := microstress_odd (mk_scalar_law (sl_reg l) (sl_k l) (sl_H l) (sl_q l) (sl_chi l) (sl_perfect l) false) 0 0 1 1).
  unfold scalar_microstress in O. cbn [sl_rate_independent] in O. replace ((0 - (0 - 0) - 0) / 1) with 0 in O by lra.
  replace ((0 - 0) / 1) with 0 in O by lra. 
  assert (Z2 : reg_value l 0 = 0) by (unfold reg_value in *; cbn [sl_reg sl_k] in O; destruct (sl_reg l); lra).
  rewrite Z2. ring.
Qed.

Theorem C38_unloaded_body_in_equilibrium : forall c e U Uold g i,
  primitive (cr_dim c) (cr_ns c) e -> 2 <= cr_p c -> cr_N c 0 <> 0 -> (i < el_nd e)%nat ->
  (* no elastic strain, slips as before, uniform slips, no body force *)
  (forall q r s, (q < el_nq e)%nat -> (r < cr_dim c)%nat -> (s < cr_dim c)%nat ->
     cr_macro c r s + strain_at e U q r s = cr_N c 0 * sumn (cr_ns c) (fun a => slip_at e U q a * cr_P c a r s)) ->
  (forall q a, (q < el_nq e)%nat -> (a < cr_ns c)%nat -> slip_at e U q a = slip_at e Uold q a) ->
  (forall q a r, (q < el_nq e)%nat -> (a < cr_ns c)%nat -> slip_gradient_at e U q a r = 0) ->
  (forall q r, (q < el_nq e)%nat -> cr_supply c q r = 0) ->
  residual_bulk c e U Uold g i = Fin 0.
Proof.
  intros c e U Uold g i H Hp HN Hi HE HS HG HB. rewrite residual_form by auto. f_equal.
  rewrite sumn_zero; [ring|]. intros q Hq. unfold res_form.
  rewrite (ddot_ext _ (dof_strain c e i q) (stress_at c e U q) (dof_strain c e i q) (fun _ _ => 0)); auto.
  - rewrite (dot_comm _ (el_phi e i q)), dot_zero_l by (intros; apply HB; auto).
    rewrite (sumn_zero (cr_ns c)).
    + rewrite (sumn_zero (cr_ns c)).
      * unfold ddot. rewrite sumn_zero; [ring|]. intros. apply sumn_zero. intros; ring.
      * intros a Ha. rewrite (HS q a Hq Ha), microstress_at_rest. ring.
    + intros a Ha. rewrite dot_comm. apply dot_zero_l. intros r. unfold point_xi, vm.
      rewrite !(dot_comm _ _ (slip_gradient_at e U q a)), !dot_zero_l by (intros; apply HG; auto). unfold phi. ring.
  - intros r s Hr Hs. unfold stress_at. rewrite (c4_ext _ _ (cr_C c) _ (fun _ _ => 0)); auto.
    + apply sumn_zero; intros; apply sumn_zero; intros; ring.
    + intros k l Hk Hl. unfold madd. rewrite elastic_sum. pose proof (HE q k l Hq Hk Hl). lra.
Qed.
Print Assumptions C38_unloaded_body_in_equilibrium.

(** The zero state of the whole cell, grain boundaries and boundary faces included. *)
Theorem C38_virgin_cell_in_equilibrium : forall c e faces loads g i,
  primitive (cr_dim c) (cr_ns c) e -> 2 <= cr_p c -> cr_N c 0 <> 0 -> (i < el_nd e)%nat ->
  (forall r s, cr_macro c r s = 0) -> (forall q r, cr_supply c q r = 0) ->
  (forall p f h Un, In (p, f, h, Un) faces -> face_params_ok p /\ (forall j, Un j = 0) /\
     forall q, fh_max h q = 0 /\ fh_old h q = 0 /\ fh_damage h q = 0) ->
  (forall f, In f loads -> forall q r, nf_traction f q r = 0) ->
  residual_cell c e faces loads (fun _ => 0) (fun _ => 0) g i = Fin 0.
Proof.
  intros c e faces loads g i H Hp HN Hi HM HB HF HL. unfold residual_cell.
  assert (Z : forall n f, sumn n (fun j => 0 * f j) = 0) by (intros; apply sumn_zero; intros; ring).
  rewrite C38_unloaded_body_in_equilibrium; auto.
  2: { intros q r s _ _ _. rewrite HM. unfold strain_at, slip_at. rewrite Z, (sumn_zero (cr_ns c)); [ring|]. intros a _. rewrite Z. ring. }
  2: { intros. unfold slip_gradient_at. apply Z. }
  assert (F : fold_left (fun acc x => let '(p, f, h, Un) := x in xadd acc (residual_face p f h (fun _ => 0) Un i)) faces (Fin 0) = Fin 0).
  { induction faces as [|[[[p f] h] Un] faces IH]; [reflexivity|]. cbn [fold_left].
    destruct (HF p f h Un (or_introl eq_refl)) as (OK & HU & Hh). pose proof OK as (G & Hdt & He & Hchi).
    assert (R0 : residual_face p f h (fun _ => 0) Un i = Fin 0).
    { unfold residual_face. rewrite (xsumn_fin' _ _ (fun _ => 0)); [rewrite sumn_0; reflexivity|]. intros q Hq. cbv zeta.
      destruct (Hh q) as (M0 & O0 & D0).
      assert (DZ : forall r, opening_at f (fun _ => 0) Un q r = 0).
      { intros r. unfold opening_at, face_displacement, vsub. rewrite Z, sumn_zero; [ring|]. intros; rewrite HU; ring. }
      destruct (Nat.ltb (fa_comp f i) (if_dim p)).
      - destruct (if_decohesion p) eqn:Hde; auto.
        rewrite (xdot_fin _ _ _ (fun _ => 0)).
        + cbn [xmul]. rewrite (dot_comm _ (fa_phi f i q)), dot_zero_l by auto. f_equal. ring.
        + intros r Hr. destruct G as (G1 & G2 & G3 & G4).
          assert (E0 : mixed_opening (ratio (if_cohesive p)) (if_dim p) (fa_n f q) (opening_at f (fun _ => 0) Un q) = 0).
          { unfold mixed_opening, tangential. rewrite !(dot_comm _ (fa_n f q)), (dot_zero_l _ (opening_at f (fun _ => 0) Un q)) by auto.
            rewrite (dot_zero_l _ (fun i0 => _)); [|intros; rewrite DZ; ring].
            rewrite Rmax_left by lra. replace (0 ^ 2 + _) with 0 by ring. apply sqrt_0. }
          rewrite C30_zero_opening_zero_traction; auto; [|right; rewrite M0, O0; split; lra].
          unfold deg_macro. rewrite deg_fin; [|auto|apply damage_range; rewrite D0; intros; lra].
          unfold contact_traction. rewrite dot_zero_l by auto.
          cbn [xmul xadd]. f_equal. unfold macaulay_brackets. rewrite Ropp_0.
          destruct (Rltb 0 0); ring.
      - destruct (if_microtraction p) eqn:Hmi; auto.
        unfold deg_micro. rewrite deg_fin; [|auto|apply damage_range; rewrite D0; intros; lra].
        cbn [xmul]. f_equal. unfold microtraction. rewrite (sumn_zero (if_ns p)); [ring|]. intros b Hb.
        unfold face_slip. rewrite Z, (sumn_zero (fa_nd f)); [ring|]. intros; rewrite HU; ring. }
    rewrite R0. cbn [xadd]. rewrite Rplus_0_l. apply IH. intros p' f' h' Un' Hin. apply (HF p' f' h' Un'). right; auto. }
  rewrite F. clear F. induction loads as [|f loads IH]; [reflexivity|]. cbn [fold_left].
  assert (N0 : residual_neumann (cr_dim c) f i = 0).
  { apply sumn_zero. intros q _. rewrite dot_comm, dot_zero_l; [ring|]. intros r. apply (HL f (or_introl eq_refl)). }
  rewrite N0. cbn [xadd]. rewrite Rplus_0_l. apply IH. intros f' Hin. apply (HL f'). right; auto.
Qed.
Print Assumptions C38_virgin_cell_in_equilibrium.

Example C38_nonvacuous : primitive 2 1 (unit_element 2) /\
  residual_bulk (unit_crystal (law_ex false false)) (unit_element 2) (fun _ => 0) (fun _ => 0) (fun _ _ => 70) 0 = Fin 0.
Proof.
  split; [apply unit_primitive|]. apply C38_unloaded_body_in_equilibrium; auto; try (cbn; lra).
  - apply unit_primitive.
  - intros. unfold strain_at, slip_at. cbn. ring.
  - intros. unfold slip_gradient_at. cbn. unfold vzero. ring.
Qed.

(** ** C65 *)
Theorem C65_slip_rows_exact : forall p f (h : face_history) (H : R -> face_history) U Un V Vn i,
  primitive_face (if_dim p) (if_ns p) f -> 0 < if_exponent p -> if_microtraction p = true ->
  (forall q, (q < fa_nq f)%nat -> if_decohesion p = true -> 0 <= fh_damage h q <= 1) ->
  (forall t, fh_damage (H t) = fh_damage h) ->
  (i < fa_nd f)%nat -> ~ (fa_comp f i < if_dim p)%nat ->
  is_derive (fun t => val (residual_face p f (H t) (along U V t) (along Un Vn t) i)) 0
    (- (sumn (fa_nd f) (fun j => val (jacobian_face_local p f h U Un i j) * V j)
        + sumn (fa_nd f) (fun j => val (jacobian_face_coupling p f h U Un i j) * Vn j))).
Proof. exact derive_face_slip. Qed.
Print Assumptions C65_slip_rows_exact.

(** Displacement rows; [char_disp] is the characteristic displacement, one without dimensionless form. *)
Theorem C65_displacement_rows_partial : forall p f m0 old damage U Un V Vn i,
  primitive_face (if_dim p) (if_ns p) f -> face_params_ok p -> if_decohesion p = true ->
  (forall q, (q < fa_nq f)%nat -> regular_point p f m0 old U Un q /\ 0 <= damage q <= 1) ->
  (i < fa_nd f)%nat -> (fa_comp f i < if_dim p)%nat ->
  let h := tracked p f m0 old damage U Un in
  is_derive (fun t => let U' := along U V t in let Un' := along Un Vn t in
               val (residual_face p f (tracked p f m0 old damage U' Un') U' Un' i)) 0
    (char_disp (if_cohesive p) *
     - (sumn (fa_nd f) (fun j => val (jacobian_face_local p f h U Un i j) * V j)
        + sumn (fa_nd f) (fun j => val (jacobian_face_coupling p f h U Un i j) * Vn j))).
Proof. exact derive_face_displacement. Qed.
Print Assumptions C65_displacement_rows_partial.

Theorem C65_exact_undimensioned : forall p f m0 old damage U Un V Vn i,
  primitive_face (if_dim p) (if_ns p) f -> face_params_ok p -> if_decohesion p = true -> if_microtraction p = true ->
  char_disp (if_cohesive p) = 1 ->
  (forall q, (q < fa_nq f)%nat -> regular_point p f m0 old U Un q /\ 0 <= damage q <= 1) ->
  (i < fa_nd f)%nat ->
  let h := tracked p f m0 old damage U Un in
  is_derive (fun t => let U' := along U V t in let Un' := along Un Vn t in
               val (residual_face p f (tracked p f m0 old damage U' Un') U' Un' i)) 0
    (- (sumn (fa_nd f) (fun j => val (jacobian_face_local p f h U Un i j) * V j)
        + sumn (fa_nd f) (fun j => val (jacobian_face_coupling p f h U Un i j) * Vn j))).
Proof.
  intros p f m0 old damage U Un V Vn i P OK Hde Hmi H1 Hq Hi h.
  destruct (le_lt_dec (if_dim p) (fa_comp f i)) as [Ci|Ci].
  - apply (C65_slip_rows_exact p f h (fun t => tracked p f m0 old damage (along U V t) (along Un Vn t))); auto; try lia.
    + apply OK.
    + intros q Hqq _. apply Hq; auto.
  - assert (D := C65_displacement_rows_partial p f m0 old damage U Un V Vn i P OK Hde Hq Hi Ci).
    cbv zeta in D. rewrite H1, Rmult_1_l in D. exact D.
Qed.
Print Assumptions C65_exact_undimensioned.

(** With a characteristic displacement other than one the displacement block is off by that factor. *)
Theorem C65_dimensionless_refuted : forall p f m0 old damage U Un V Vn i,
  primitive_face (if_dim p) (if_ns p) f -> face_params_ok p -> if_decohesion p = true ->
  char_disp (if_cohesive p) <> 1 ->
  (forall q, (q < fa_nq f)%nat -> regular_point p f m0 old U Un q /\ 0 <= damage q <= 1) ->
  (i < fa_nd f)%nat -> (fa_comp f i < if_dim p)%nat ->
  let h := tracked p f m0 old damage U Un in
  let coded := sumn (fa_nd f) (fun j => val (jacobian_face_local p f h U Un i j) * V j)
        + sumn (fa_nd f) (fun j => val (jacobian_face_coupling p f h U Un i j) * Vn j) in
  coded <> 0 ->
  ~ is_derive (fun t => let U' := along U V t in let Un' := along Un Vn t in
               val (residual_face p f (tracked p f m0 old damage U' Un') U' Un' i)) 0 (- coded).
Proof.
  intros p f m0 old damage U Un V Vn i P OK Hde H1 Hq Hi Ci h coded Hc K.
  assert (D := C65_displacement_rows_partial p f m0 old damage U Un V Vn i P OK Hde Hq Hi Ci).
  cbv zeta in D, K. fold h in D. fold coded in D. apply is_derive_unique in D. apply is_derive_unique in K.
  rewrite K in D. apply H1. apply (Rmult_eq_reg_r (- coded)); [lra|lra].
Qed.
Print Assumptions C65_dimensionless_refuted.

(** A face with one degree of freedom on each side, opened by one in the normal direction. *)
Definition unit_face : gb_face :=
  mk_gb_face 1 1 (fun _ => 0%nat) (fun _ => 0%nat) (fun _ => 1) (fun _ i => kron i 0)
    (fun _ _ i => kron i 0) (fun _ _ i => kron i 0) (fun _ _ _ => 0) (fun _ _ _ => 0).
Definition unit_interface : interface :=
  mk_interface 2 1 (fun _ => 1) true true (mk_cohesive 1 1 0 1 1) (mk_contact 1 1 1) 1 true true 1 1
    (fun _ => (fun _ _ => 0, fun _ _ => 0)) 1.
Example C65_nonvacuous : primitive_face 2 1 unit_face /\ face_params_ok unit_interface /\
  regular_point unit_interface unit_face (fun _ => 2) (fun _ => 0) (fun _ => 0) (fun _ => 1) 0.
Proof.
  split; [|split].
  - intros j q Hj Hq. cbn in *. repeat split; auto; try lia; intros; try lia; reflexivity.
  - repeat split; cbn; lra.
  - assert (O : opening_at unit_face (fun _ => 0) (fun _ => 1) 0 = fun i => kron i 0).
    { apply functional_extensionality. intros r. unfold opening_at, face_displacement, vsub. cbn. ring. }
    unfold regular_point. rewrite O. cbn [if_dim unit_interface fa_n unit_face if_cohesive ratio].
    assert (D : dot 2 (fun i => kron i 0) (fun i => kron i 0) = 1) by (unfold dot, kron; simpl; ring).
    assert (M : mixed_opening 0 2 (fun i => kron i 0) (fun i => kron i 0) = 1).
    { unfold mixed_opening. rewrite D, Rmax_left by lra. replace (1 ^ 2 + _) with 1 by ring. apply sqrt_1. }
    rewrite M, D. repeat split; try lra. unfold unit_vec. exact D.
Qed.

(** ** C69 *)
Theorem C69_newton_matrix_psd : forall c e U Uold g V,
  primitive (cr_dim c) (cr_ns c) e -> 2 <= cr_p c -> 0 < cr_N c 0 -> 0 <= cr_N c 2 -> 0 <= cr_N c 3 ->
  (forall A, symmetric (cr_dim c) A -> 0 <= ddot (cr_dim c) A (c4 (cr_dim c) (cr_C c) A)) ->
  (forall j q, symmetric (cr_dim c) (el_eps e j q)) -> (forall a, symmetric (cr_dim c) (cr_P c a)) ->
  (forall q, (q < el_nq e)%nat -> 0 <= el_w e q) -> 0 <= cr_factor c ->
  0 < cr_dt c -> 0 < sl_k (cr_law c) -> 0 < sl_chi (cr_law c) -> 0 <= sl_H (cr_law c) -> 0 <= sl_q (cr_law c) <= 1 ->
  (forall q a, (q < el_nq e)%nat -> (a < cr_ns c)%nat -> 0 <= g q a) ->
  0 <= sumn (el_nd e) (fun i => V i * sumn (el_nd e) (fun j => val (jacobian_bulk c e U Uold g i j) * V j)).
Proof.
  intros c e U Uold g V H Hp HN HN2 HN3 HC Heps HP Hw Hf Hdt Hk Hchi HH Hqh Hg.
  set (D := fun q a b => scalar_jacobian (cr_law c) (slip_at e U q) (slip_at e Uold q) (g q) (cr_dt c) a b).
  rewrite (sumn_ext (el_nd e) _ (fun i => sumn (el_nq e) (fun q => el_w e q * (V i * sumn (el_nd e) (fun j => V j * jac_form_with D c e U i j q))))).
  2: { intros i Hi. rewrite (sumn_ext (el_nd e) _ (fun j => sumn (el_nq e) (fun q => el_w e q * (V j * jac_form_with D c e U i j q)))).
       - rewrite sumn_swap, <- sumn_scal. apply sumn_ext; intros q _. rewrite sumn_scal. ring.
       - intros j Hj. rewrite jacobian_form by (auto; lra). cbn [val]. rewrite <- sumn_scal_r. apply sumn_ext; intros q _.
         unfold jac_form, jac_form_with, D. ring. }
  rewrite sumn_swap. apply sumn_nonneg. intros q Hq. rewrite sumn_scal. apply Rmult_le_pos; auto.
  rewrite (sumn_ext (el_nd e) _ (fun i =>
     balance_factor c * (V i * ddot (cr_dim c) (dof_strain c e i q) (c4 (cr_dim c) (cr_C c) (field_strain c e V q)))
     + cr_N c 2 * (V i * sumn (cr_ns c) (fun a => dot (cr_dim c) (el_dpsi e a i q) (mv (cr_dim c) (point_jac c e U q a) (slip_gradient_at e V q a))))
     + V i * sumn (cr_ns c) (fun a => el_psi e a i q * sumn (cr_ns c) (fun b => D q a b * slip_at e V q b))))
     by (intros; rewrite jac_form_field; ring).
  rewrite !sumn_plus, !sumn_scal.
  assert (S1 : sumn (el_nd e) (fun i => V i * ddot (cr_dim c) (dof_strain c e i q) (c4 (cr_dim c) (cr_C c) (field_strain c e V q)))
    = ddot (cr_dim c) (field_strain c e V q) (c4 (cr_dim c) (cr_C c) (field_strain c e V q))).
  { symmetry. rewrite ddot_comm. rewrite (ddot_sum_r _ (el_nd e) _ V (fun j => dof_strain c e j q)) by (intros; apply field_strain_sum).
    apply sumn_ext; intros. f_equal. apply ddot_comm. }
  assert (S2 : sumn (el_nd e) (fun i => V i * sumn (cr_ns c) (fun a => dot (cr_dim c) (el_dpsi e a i q) (mv (cr_dim c) (point_jac c e U q a) (slip_gradient_at e V q a))))
    = sumn (cr_ns c) (fun a => dot (cr_dim c) (slip_gradient_at e V q a) (mv (cr_dim c) (point_jac c e U q a) (slip_gradient_at e V q a)))).
  { rewrite (sumn_ext (el_nd e) _ (fun i => sumn (cr_ns c) (fun a => V i * dot (cr_dim c) (el_dpsi e a i q) (mv (cr_dim c) (point_jac c e U q a) (slip_gradient_at e V q a)))))
      by (intros; rewrite sumn_scal; reflexivity).
    rewrite sumn_swap. apply sumn_ext; intros a Ha. symmetry. rewrite dot_comm.
    rewrite (dot_sum_r _ (el_nd e) _ V (fun j => el_dpsi e a j q)) by (intros; reflexivity).
    apply sumn_ext; intros. f_equal. apply dot_comm. }
  assert (S3 : sumn (el_nd e) (fun i => V i * sumn (cr_ns c) (fun a => el_psi e a i q * sumn (cr_ns c) (fun b => D q a b * slip_at e V q b)))
    = sumn (cr_ns c) (fun a => slip_at e V q a * sumn (cr_ns c) (fun b => D q a b * slip_at e V q b))).
  { rewrite (sumn_ext (el_nd e) _ (fun i => sumn (cr_ns c) (fun a => V i * el_psi e a i q * sumn (cr_ns c) (fun b => D q a b * slip_at e V q b))))
      by (intros; rewrite <- sumn_scal; apply sumn_ext; intros; ring).
    rewrite sumn_swap. apply sumn_ext; intros a Ha. rewrite sumn_scal_r. reflexivity. }
  rewrite S1, S2, S3. apply Rplus_le_le_0_compat; [apply Rplus_le_le_0_compat|].
  - apply Rmult_le_pos; [unfold balance_factor; apply Rmult_le_pos; auto; left; apply Rinv_0_lt_compat; auto|].
    apply HC. apply elastic_symmetric; auto. intros r s Hr Hs. unfold strain_at. apply sumn_ext; intros. rewrite (Heps i q r s); auto.
  - apply Rmult_le_pos; auto. apply sumn_nonneg. intros a Ha.
    destruct (C27_jacobian_symmetric_psd (cr_factor c) (cr_p c) (cr_dim c) (cr_dir c a) (cr_ort c a) (slip_gradient_at e U q a) Hp Hf) as [_ Q].
    specialize (Q (slip_gradient_at e V q a)). unfold dot, mv. erewrite sumn_ext; [exact Q|]. intros r Hr. cbv beta. f_equal.
    apply sumn_ext; intros s Hs. rewrite vjacobian_fin by auto. reflexivity.
  - apply jacobian_psd; auto.
Qed.
Print Assumptions C69_newton_matrix_psd.

(** ** C70.  Tested with any virtual coefficients [W] the assembled right-hand side is the virtual power
    of the loads minus that of the stresses and microstresses. *)
Theorem C70_virtual_power : forall c e U Uold g W,
  primitive (cr_dim c) (cr_ns c) e -> 2 <= cr_p c -> cr_N c 0 <> 0 ->
  let body := fun q => fun r => sumn (el_nd e) (fun i => W i * el_phi e i q r) in
  sumn (el_nd e) (fun i => W i * val (residual_bulk c e U Uold g i)) =
  - sumn (el_nq e) (fun q => el_w e q *
      (balance_factor c *
        (ddot (cr_dim c) (elastic_strain (cr_N c 0) (cr_P c) (strain_at e W q) (slip_at e W q) (cr_ns c)) (stress_at c e U q)
         - dot (cr_dim c) (body q) (cr_supply c q))
       + cr_N c 2 * sumn (cr_ns c) (fun a => dot (cr_dim c) (slip_gradient_at e W q a)
           (fun r => val (vectorial_microstress (cr_factor c) (cr_p c) (cr_dim c) (cr_dir c a) (cr_ort c a) (slip_gradient_at e U q a) r)))
       + sumn (cr_ns c) (fun a => slip_at e W q a *
           scalar_microstress (cr_law c) (slip_at e U q a) (slip_at e Uold q a) (g q a) (cr_dt c)))).
Proof.
  intros c e U Uold g W H Hp HN body.
  rewrite (sumn_ext (el_nd e) _ (fun i => sumn (el_nq e) (fun q => - (el_w e q * (W i * res_form c e U Uold g i q)))))
    by (intros i Hi; rewrite residual_form by auto; cbn [val]; rewrite <- sumn_opp, <- sumn_scal; apply sumn_ext; intros; ring).
  rewrite sumn_swap, <- sumn_opp. apply sumn_ext; intros q Hq.
  rewrite sumn_opp, sumn_scal. f_equal. f_equal. unfold res_form.
  rewrite (sumn_ext (el_nd e) _ (fun i =>
     balance_factor c * (W i * ddot (cr_dim c) (dof_strain c e i q) (stress_at c e U q) - W i * dot (cr_dim c) (el_phi e i q) (cr_supply c q))
     + cr_N c 2 * (W i * sumn (cr_ns c) (fun a => dot (cr_dim c) (el_dpsi e a i q) (point_xi c e U q a)))
     + W i * sumn (cr_ns c) (fun a => el_psi e a i q * scalar_microstress (cr_law c) (slip_at e U q a) (slip_at e Uold q a) (g q a) (cr_dt c))))
     by (intros; ring).
  rewrite !sumn_plus, !sumn_scal, sumn_minus. f_equal; [f_equal|].
  - f_equal. f_equal.
    + symmetry. rewrite ddot_comm. rewrite (ddot_sum_r _ (el_nd e) _ W (fun j => dof_strain c e j q)) by (intros; apply (field_strain_sum c e W q)).
      apply sumn_ext; intros. f_equal. apply ddot_comm.
    + symmetry. rewrite dot_comm. rewrite (dot_sum_r _ (el_nd e) _ W (fun j => el_phi e j q)) by (intros; reflexivity).
      apply sumn_ext; intros. f_equal. apply dot_comm.
  - f_equal. rewrite (sumn_ext (el_nd e) _ (fun i => sumn (cr_ns c) (fun a => W i * dot (cr_dim c) (el_dpsi e a i q) (point_xi c e U q a))))
      by (intros; rewrite sumn_scal; reflexivity).
    rewrite sumn_swap. apply sumn_ext; intros a Ha. symmetry. rewrite dot_comm.
    rewrite (dot_sum_r _ (el_nd e) _ W (fun j => el_dpsi e a j q)) by (intros; reflexivity).
    apply sumn_ext; intros. f_equal. rewrite dot_comm. apply dot_ext; auto. intros r Hr. rewrite microstress_fin by auto. reflexivity.
  - rewrite (sumn_ext (el_nd e) _ (fun i => sumn (cr_ns c) (fun a => W i * el_psi e a i q * scalar_microstress (cr_law c) (slip_at e U q a) (slip_at e Uold q a) (g q a) (cr_dt c))))
      by (intros; rewrite <- sumn_scal; apply sumn_ext; intros; ring).
    rewrite sumn_swap. apply sumn_ext; intros a Ha. rewrite sumn_scal_r. reflexivity.
Qed.
Print Assumptions C70_virtual_power.
