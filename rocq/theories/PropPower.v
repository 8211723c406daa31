(** * C70 (whole cell), C34, C35: virtual power of grain boundaries and boundary loads. *)
From Coq Require Import FunctionalExtensionality.
From Coquelicot Require Import Coquelicot.
From Verif Require Import Num SumLemmas Tensors TensorLemmas ModelUtilities ProofUtilities
  ModelElastic SpecElastic ProofElastic ModelMicro SpecMicro ProofMicro PropMicro ModelCohesive SpecCohesive ProofCohesive
  SpecInterface PropCohesive ModelAssembly SpecAssembly ProofAssembly ProofNewton ProofFace PropAssembly.
Open Scope R_scope.

Lemma degradation_degraded m x b : 0 < m -> x <= 1 -> degradation m x b = Fin (degraded m x b).
Proof.
  intros Hm Hx. unfold degradation, degraded, pow_abs, cpow. destruct b; [|reflexivity].
  destruct (Req_EM_T (1 - x) 0) as [E|N].
  - rewrite E. rewrite (proj2 (Rltb_false 0 0)) by lra. rewrite (proj2 (Reqb_true 0 0)) by lra.
    rewrite (proj2 (Rltb_true 0 m)) by lra. destruct (Req_EM_T m 0); [lra|reflexivity].
  - rewrite (proj2 (Rltb_true 0 (1 - x))) by lra. rewrite Rabs_right by lra. reflexivity.
Qed.

(** C35. The value of the degradation function. *)
Theorem C35_value : forall m x, 0 < m -> x < 1 ->
  degradation m x true = Fin (Rpower (1 - x) m) /\ degradation m x false = Fin 1.
Proof.
  intros m x Hm Hx. split; [|reflexivity]. rewrite degradation_degraded by lra.
  unfold degraded, pow_abs. destruct (Req_EM_T (1 - x) 0); [lra|]. rewrite Rabs_right by lra. reflexivity.
Qed.
Print Assumptions C35_value.

(** What one face adds to one row. *)
Definition face_row (p : interface) (f : gb_face) (h : face_history) (U Un : nat -> R) (i q : nat) : R :=
  (if if_decohesion p then
     if_factor p * dot (if_dim p) (fa_phi f i q) (fun r =>
       degraded (if_exponent p) (damage_at p h q) (if_couple_macro p) *
         val (cohesive_traction (if_dim p) (if_cohesive p) (opening_at f U Un q) (fa_n f q) (fh_max h q) (fh_old h q) (if_dt p) r)
       + contact_traction (if_dim p) (if_contact p) (opening_at f U Un q) (fa_n f q) r)
   else 0)
  + (if if_microtraction p then
       if_N p 2 * degraded (if_exponent p) (damage_at p h q) (if_couple_micro p) *
       sumn (if_ns p) (fun a => fa_psi f a i q *
         microtraction (if_lambda p) (if_chi p) (if_ns p) (if_moduli p q)
           (face_slip (fa_nd f) (fa_psi f) U q) (face_slip (fa_nd f) (fa_npsi f) Un q) a)
     else 0).

(** The tractions at the face are numbers and the damage is a damage. *)
Definition sound_face (p : interface) (f : gb_face) (h : face_history) (U Un : nat -> R) : Prop :=
  primitive_face (if_dim p) (if_ns p) f /\
  (if_decohesion p = true -> forall q, (q < fa_nq f)%nat -> 0 <= fh_damage h q <= 1 /\
     forall r, (r < if_dim p)%nat -> finite (cohesive_traction (if_dim p) (if_cohesive p)
       (fun r => sumn (fa_nd f) (fun j => Un j * fa_nphi f j q r) - sumn (fa_nd f) (fun j => U j * fa_phi f j q r))
       (fa_n f q) (fh_max h q) (fh_old h q) (if_dt p) r)).

Lemma residual_face_row p f h U Un i : 0 < if_exponent p -> sound_face p f h U Un -> (i < fa_nd f)%nat ->
  residual_face p f h U Un i = Fin (sumn (fa_nq f) (fun q => fa_w f q * face_row p f h U Un i q)).
Proof.
  intros He [P S] Hi. unfold residual_face. apply xsumn_fin'. intros q Hq. cbv zeta.
  assert (HD : 0 <= damage_at p h q <= 1) by (apply damage_range; intros D; apply (S D q Hq)).
  unfold face_row. destruct (Nat.ltb (fa_comp f i) (if_dim p)) eqn:C.
  - apply Nat.ltb_lt in C.
    assert (Z : sumn (if_ns p) (fun a => fa_psi f a i q *
         microtraction (if_lambda p) (if_chi p) (if_ns p) (if_moduli p q)
           (face_slip (fa_nd f) (fa_psi f) U q) (face_slip (fa_nd f) (fa_npsi f) Un q) a) = 0).
    { apply sumn_zero. intros a Ha. rewrite (proj1 (face_comp_disp _ _ f i q a P Hi Hq C Ha)). ring. }
    rewrite Z. destruct (if_decohesion p) eqn:De.
    + rewrite (xdot_fin _ _ _ (fun r => degraded (if_exponent p) (damage_at p h q) (if_couple_macro p) *
         val (cohesive_traction (if_dim p) (if_cohesive p) (opening_at f U Un q) (fa_n f q) (fh_max h q) (fh_old h q) (if_dt p) r)
       + contact_traction (if_dim p) (if_contact p) (opening_at f U Un q) (fa_n f q) r)).
      * cbn [xmul]. f_equal. destruct (if_microtraction p); ring.
      * intros r Hr. unfold deg_macro. rewrite degradation_degraded by lra.
        destruct (S eq_refl q Hq) as [_ F]. specialize (F r Hr). unfold finite in F.
        change (fun r => sumn (fa_nd f) (fun j => Un j * fa_nphi f j q r) - sumn (fa_nd f) (fun j => U j * fa_phi f j q r))
          with (opening_at f U Un q) in F. rewrite F at 1. reflexivity.
    + f_equal. destruct (if_microtraction p); ring.
  - apply Nat.ltb_ge in C.
    assert (NC : ~ (fa_comp f i < if_dim p)%nat) by lia.
    destruct (P i q Hi Hq) as (_ & _ & HP & _).
    rewrite (dot_zero_l _ (fa_phi f i q)) by (intros r; apply (HP C r)).
    destruct (face_comp_slip _ _ f i q P Hi Hq NC) as [HA HZ].
    destruct (if_microtraction p).
    + unfold deg_micro. rewrite degradation_degraded by lra. cbn [xmul]. f_equal.
      rewrite (sumn_single _ (fa_comp f i - if_dim p)) by (auto; intros a Ha Hn; rewrite (proj1 (HZ a Ha Hn)); ring).
      destruct (if_decohesion p); ring.
    + f_equal. destruct (if_decohesion p); ring.
Qed.

Lemma face_rows_power p f h U Un W :
  sumn (fa_nd f) (fun i => W i * sumn (fa_nq f) (fun q => fa_w f q * face_row p f h U Un i q)) =
  interface_power p f h U Un (fun q r => sumn (fa_nd f) (fun i => W i * fa_phi f i q r))
                             (fun q a => sumn (fa_nd f) (fun i => W i * fa_psi f a i q)).
Proof.
  rewrite (sumn_ext (fa_nd f) _ (fun i => sumn (fa_nq f) (fun q => fa_w f q * (W i * face_row p f h U Un i q))))
    by (intros; rewrite <- sumn_scal; apply sumn_ext; intros; ring).
  rewrite sumn_swap. unfold interface_power. apply sumn_ext; intros q Hq. rewrite sumn_scal. f_equal.
  cbv zeta. change (fun r => sumn (fa_nd f) (fun j => Un j * fa_nphi f j q r) - sumn (fa_nd f) (fun j => U j * fa_phi f j q r))
    with (opening_at f U Un q).
  change (if if_decohesion p then fh_damage h q else 0) with (damage_at p h q).
  unfold face_row. rewrite (sumn_ext (fa_nd f) _ (fun i =>
    W i * (if if_decohesion p then
     if_factor p * dot (if_dim p) (fa_phi f i q) (fun r =>
       degraded (if_exponent p) (damage_at p h q) (if_couple_macro p) *
         val (cohesive_traction (if_dim p) (if_cohesive p) (opening_at f U Un q) (fa_n f q) (fh_max h q) (fh_old h q) (if_dt p) r)
       + contact_traction (if_dim p) (if_contact p) (opening_at f U Un q) (fa_n f q) r)
   else 0) + W i * (if if_microtraction p then
       if_N p 2 * degraded (if_exponent p) (damage_at p h q) (if_couple_micro p) *
       sumn (if_ns p) (fun a => fa_psi f a i q *
         microtraction (if_lambda p) (if_chi p) (if_ns p) (if_moduli p q)
           (face_slip (fa_nd f) (fa_psi f) U q) (face_slip (fa_nd f) (fa_npsi f) Un q) a)
     else 0))) by (intros; ring).
  rewrite sumn_plus. f_equal.
  - destruct (if_decohesion p).
    + unfold if_factor. rewrite (sumn_ext (fa_nd f) _ (fun i => if_N p 3 / if_N p 0 * (W i * dot (if_dim p) (fa_phi f i q) (fun r =>
       degraded (if_exponent p) (damage_at p h q) (if_couple_macro p) *
         val (cohesive_traction (if_dim p) (if_cohesive p) (opening_at f U Un q) (fa_n f q) (fh_max h q) (fh_old h q) (if_dt p) r)
       + contact_traction (if_dim p) (if_contact p) (opening_at f U Un q) (fa_n f q) r)))) by (intros; ring).
      rewrite sumn_scal. f_equal. symmetry. rewrite dot_comm.
      rewrite (dot_sum_r _ (fa_nd f) _ W (fun i => fa_phi f i q)) by (intros; reflexivity).
      apply sumn_ext; intros. f_equal. apply dot_comm.
    + apply sumn_zero; intros; ring.
  - destruct (if_microtraction p).
    + set (mu := microtraction _ _ _ _ _ _).
      change (microtraction (if_lambda p) (if_chi p) (if_ns p) (if_moduli p q)
        (fun b => sumn (fa_nd f) (fun j => U j * fa_psi f b j q)) (fun b => sumn (fa_nd f) (fun j => Un j * fa_npsi f b j q))) with mu.
      rewrite (sumn_ext (fa_nd f) _ (fun i => if_N p 2 * degraded (if_exponent p) (damage_at p h q) (if_couple_micro p) *
        sumn (if_ns p) (fun a => W i * fa_psi f a i q * mu a))).
      * rewrite sumn_scal. f_equal. rewrite sumn_swap. apply sumn_ext; intros a Ha. apply sumn_scal_r.
      * intros i Hi. rewrite (sumn_ext (if_ns p) (fun a => W i * fa_psi f a i q * mu a) (fun a => W i * (fa_psi f a i q * mu a))) by (intros; ring).
        rewrite sumn_scal. ring.
    + apply sumn_zero; intros; ring.
Qed.

(** ** C70 for the whole cell: bulk, grain boundaries and loaded boundary faces. *)
Lemma cell_rows_power c e faces loads U Uold g W :
  primitive (cr_dim c) (cr_ns c) e -> 2 <= cr_p c -> cr_N c 0 <> 0 ->
  (forall p f h Un, In (p, f, h, Un) faces -> fa_nd f = el_nd e /\
     forall i, (i < el_nd e)%nat -> residual_face p f h U Un i = Fin (sumn (fa_nq f) (fun q => fa_w f q * face_row p f h U Un i q))) ->
  (forall i, (i < el_nd e)%nat -> finite (residual_cell c e faces loads U Uold g i)) /\
  sumn (el_nd e) (fun i => W i * val (residual_cell c e faces loads U Uold g i)) =
  sumn (el_nd e) (fun i => W i * val (residual_bulk c e U Uold g i))
  + sum_over (fun x => let '(p, f, h, Un) := x in
       interface_power p f h U Un (fun q r => sumn (el_nd e) (fun i => W i * fa_phi f i q r))
                                  (fun q a => sumn (el_nd e) (fun i => W i * fa_psi f a i q))) faces
  + sum_over (fun f => load_power (cr_dim c) f (fun q r => sumn (el_nd e) (fun i => W i * nf_phi f i q r))) loads.
Proof.
  intros H Hp HN HF.
  assert (L : forall i b, fold_left (fun acc f => xadd acc (Fin (residual_neumann (cr_dim c) f i))) loads (Fin b)
    = Fin (b + sum_over (fun f => residual_neumann (cr_dim c) f i) loads)).
  { intros i. clear. induction loads as [|f l IH]; intros b; cbn [fold_left sum_over fold_right].
    - f_equal. ring.
    - cbn [xadd]. rewrite IH. f_equal. unfold sum_over. ring. }
  assert (G : forall i b, (i < el_nd e)%nat ->
    fold_left (fun acc x => let '(p, f, h, Un) := x in xadd acc (residual_face p f h U Un i)) faces (Fin b)
    = Fin (b + sum_over (fun x => let '(p, f, h, Un) := x in
        sumn (fa_nq f) (fun q => fa_w f q * face_row p f h U Un i q)) faces)).
  { clear L. intros i b Hi. revert b. induction faces as [|[[[p f] h] Un] l IH]; intros b; cbn [fold_left sum_over fold_right].
    - f_equal. ring.
    - destruct (HF p f h Un (or_introl eq_refl)) as [E S].
      rewrite (S i Hi). cbn [xadd].
      rewrite IH by (intros p' f' h' Un' I; apply HF; right; auto). f_equal. unfold sum_over. ring. }
  assert (B : forall i, (i < el_nd e)%nat -> residual_bulk c e U Uold g i = Fin (val (residual_bulk c e U Uold g i)))
    by (intros i Hi; rewrite residual_form by auto; reflexivity).
  assert (K : forall i, (i < el_nd e)%nat -> residual_cell c e faces loads U Uold g i =
    Fin (val (residual_bulk c e U Uold g i)
      + sum_over (fun x => let '(p, f, h, Un) := x in
        sumn (fa_nq f) (fun q => fa_w f q * face_row p f h U Un i q)) faces
      + sum_over (fun f => residual_neumann (cr_dim c) f i) loads)).
  { intros i Hi. unfold residual_cell. rewrite (B i Hi). rewrite G by auto. rewrite L. reflexivity. }
  split; [intros i Hi; unfold finite; rewrite (K i Hi); reflexivity|].
  rewrite (sumn_ext (el_nd e) _ (fun i => W i * val (residual_bulk c e U Uold g i)
     + W i * sum_over (fun x => let '(p, f, h, Un) := x in
        sumn (fa_nq f) (fun q => fa_w f q * face_row p f h U Un i q)) faces
     + W i * sum_over (fun f => residual_neumann (cr_dim c) f i) loads))
    by (intros i Hi; rewrite (K i Hi); cbn [val]; ring).
  rewrite !sumn_plus. f_equal; [f_equal|].
  - clear G K L. induction faces as [|[[[p f] h] Un] l IH]; cbn [sum_over fold_right].
    + apply sumn_zero; intros; ring.
    + destruct (HF p f h Un (or_introl eq_refl)) as [E S].
      rewrite (sumn_ext (el_nd e) _ (fun i => W i * sumn (fa_nq f) (fun q => fa_w f q * face_row p f h U Un i q)
        + W i * sum_over (fun x => let '(p, f, h, Un) := x in
            sumn (fa_nq f) (fun q => fa_w f q * face_row p f h U Un i q)) l)) by (intros; unfold sum_over; ring).
      rewrite sumn_plus. f_equal.
      * rewrite <- E. apply face_rows_power.
      * apply IH. intros p' f' h' Un' I. apply HF. right; auto.
  - clear. induction loads as [|f l IH]; cbn [sum_over fold_right].
    + apply sumn_zero; intros; ring.
    + rewrite (sumn_ext (el_nd e) _ (fun i => W i * residual_neumann (cr_dim c) f i
        + W i * sum_over (fun f => residual_neumann (cr_dim c) f i) l)) by (intros; unfold sum_over; ring).
      rewrite sumn_plus. f_equal; [|apply IH].
      unfold residual_neumann, load_power.
      rewrite (sumn_ext (el_nd e) _ (fun i => sumn (nf_nq f) (fun q => nf_w f q * (W i * dot (cr_dim c) (nf_phi f i q) (nf_traction f q)))))
        by (intros; rewrite <- sumn_scal; apply sumn_ext; intros; ring).
      rewrite sumn_swap. apply sumn_ext; intros q Hq. rewrite sumn_scal. f_equal. symmetry. rewrite dot_comm.
      rewrite (dot_sum_r _ (el_nd e) _ W (fun i => nf_phi f i q)) by (intros; reflexivity).
      apply sumn_ext; intros. f_equal. apply dot_comm.
Qed.
Theorem C70_virtual_power_cell : forall c e faces loads U Uold g W,
  primitive (cr_dim c) (cr_ns c) e -> 2 <= cr_p c -> cr_N c 0 <> 0 ->
  (forall p f h Un, In (p, f, h, Un) faces -> fa_nd f = el_nd e /\ 0 < if_exponent p /\ sound_face p f h U Un) ->
  (forall i, (i < el_nd e)%nat -> finite (residual_cell c e faces loads U Uold g i)) /\
  sumn (el_nd e) (fun i => W i * val (residual_cell c e faces loads U Uold g i)) =
  sumn (el_nd e) (fun i => W i * val (residual_bulk c e U Uold g i))
  + sum_over (fun x => let '(p, f, h, Un) := x in
       interface_power p f h U Un (fun q r => sumn (el_nd e) (fun i => W i * fa_phi f i q r))
                                  (fun q a => sumn (el_nd e) (fun i => W i * fa_psi f a i q))) faces
  + sum_over (fun f => load_power (cr_dim c) f (fun q r => sumn (el_nd e) (fun i => W i * nf_phi f i q r))) loads.
Proof.
  intros c e faces loads U Uold g W H Hp HN HF. apply cell_rows_power; auto.
  intros p f h Un I. destruct (HF p f h Un I) as (E & He & S). split; [exact E|].
  intros i Hi. apply residual_face_row; auto. rewrite E. exact Hi.
Qed.
Print Assumptions C70_virtual_power_cell.

(** The same without assuming that the tractions are numbers: it suffices that the entries
    the code computed are (this is what the solver's norms show, C92). *)
Lemma xadd_finite a b : finite (xadd a b) -> finite a /\ finite b.
Proof. unfold finite. destruct a, b; cbn; intros E; try discriminate E; split; reflexivity. Qed.
Lemma xmul_finite_r a b : finite (xmul (Fin a) b) -> finite b.
Proof.
  unfold finite. destruct b; cbn; try reflexivity; unfold xsign; repeat match goal with |- context [if ?c then _ else _] => destruct c end; cbn; intros E; try discriminate E; reflexivity.
Qed.
Lemma xmul_finite_l a b : finite (xmul b (Fin a)) -> finite b.
Proof.
  unfold finite. destruct b; cbn; try reflexivity; unfold xsign; repeat match goal with |- context [if ?c then _ else _] => destruct c end; cbn; intros E; try discriminate E; reflexivity.
Qed.
Lemma xsumn_finite n f : finite (xsumn n f) -> forall i, (i < n)%nat -> finite (f i).
Proof.
  induction n as [|n IH]; cbn [xsumn]; intros F i Hi; [lia|]. apply xadd_finite in F. destruct F as [F1 F2].
  destruct (Nat.eq_dec i n) as [->|]; [exact F2|]. apply IH; [exact F1|lia].
Qed.
Lemma residual_face_row_finite p f h U Un i : 0 < if_exponent p -> primitive_face (if_dim p) (if_ns p) f ->
  (if_decohesion p = true -> forall q, (q < fa_nq f)%nat -> 0 <= fh_damage h q <= 1) -> (i < fa_nd f)%nat ->
  finite (residual_face p f h U Un i) ->
  residual_face p f h U Un i = Fin (sumn (fa_nq f) (fun q => fa_w f q * face_row p f h U Un i q)).
Proof.
  intros He P S Hi F. unfold residual_face in F |- *. apply xsumn_fin'. intros q Hq.
  pose proof (xsumn_finite _ _ F q Hq) as Fq. clear F. cbv zeta in Fq |- *.
  assert (HD : 0 <= damage_at p h q <= 1) by (apply damage_range; intros D; apply (S D q Hq)).
  unfold face_row. destruct (Nat.ltb (fa_comp f i) (if_dim p)) eqn:C.
  - apply Nat.ltb_lt in C.
    assert (Z : sumn (if_ns p) (fun a => fa_psi f a i q *
         microtraction (if_lambda p) (if_chi p) (if_ns p) (if_moduli p q)
           (face_slip (fa_nd f) (fa_psi f) U q) (face_slip (fa_nd f) (fa_npsi f) Un q) a) = 0).
    { apply sumn_zero. intros a Ha. rewrite (proj1 (face_comp_disp _ _ f i q a P Hi Hq C Ha)). ring. }
    rewrite Z. destruct (if_decohesion p) eqn:De.
    + apply xmul_finite_l, xmul_finite_r in Fq. unfold xdot in Fq.
      rewrite (xdot_fin _ _ _ (fun r => degraded (if_exponent p) (damage_at p h q) (if_couple_macro p) *
         val (cohesive_traction (if_dim p) (if_cohesive p) (opening_at f U Un q) (fa_n f q) (fh_max h q) (fh_old h q) (if_dt p) r)
       + contact_traction (if_dim p) (if_contact p) (opening_at f U Un q) (fa_n f q) r)).
      * cbn [xmul]. f_equal. destruct (if_microtraction p); ring.
      * intros r Hr. pose proof (xsumn_finite _ _ Fq r Hr) as T. cbv beta in T.
        apply xmul_finite_r, xadd_finite in T. destruct T as [T _].
        unfold deg_macro in *. rewrite degradation_degraded in * by lra. apply xmul_finite_r in T. unfold finite in T.
        rewrite T at 1. reflexivity.
    + f_equal. destruct (if_microtraction p); ring.
  - apply Nat.ltb_ge in C.
    assert (NC : ~ (fa_comp f i < if_dim p)%nat) by lia.
    destruct (P i q Hi Hq) as (_ & _ & HP & _).
    rewrite (dot_zero_l _ (fa_phi f i q)) by (intros r; apply (HP C r)).
    destruct (face_comp_slip _ _ f i q P Hi Hq NC) as [HA HZ].
    destruct (if_microtraction p).
    + unfold deg_micro. rewrite degradation_degraded by lra. cbn [xmul]. f_equal.
      rewrite (sumn_single _ (fa_comp f i - if_dim p)) by (auto; intros a Ha Hn; rewrite (proj1 (HZ a Ha Hn)); ring).
      destruct (if_decohesion p); ring.
    + f_equal. destruct (if_decohesion p); ring.
Qed.
Lemma fold_xadd_finite {A} (t : A -> xr) l : forall b, finite (fold_left (fun acc x => xadd acc (t x)) l b) ->
  finite b /\ forall x, In x l -> finite (t x).
Proof.
  induction l as [|y l IH]; intros b F; [split; [exact F|intros x []]|]. cbn [fold_left] in F. apply IH in F.
  destruct F as [F G]. apply xadd_finite in F. destruct F as [F1 F2]. split; [exact F1|].
  intros x [<-|I]; auto.
Qed.
Lemma fold_left_ext' {A B} (f g : B -> A -> B) l : (forall b a, f b a = g b a) -> forall b, fold_left f l b = fold_left g l b.
Proof. intros E. induction l as [|a l IH]; intros b; cbn; [reflexivity|]. rewrite E. apply IH. Qed.
Theorem C70_virtual_power_of_finite_entries : forall c e faces loads U Uold g W,
  primitive (cr_dim c) (cr_ns c) e -> 2 <= cr_p c -> cr_N c 0 <> 0 ->
  (forall p f h Un, In (p, f, h, Un) faces -> fa_nd f = el_nd e /\ 0 < if_exponent p /\
     primitive_face (if_dim p) (if_ns p) f /\
     (if_decohesion p = true -> forall q, (q < fa_nq f)%nat -> 0 <= fh_damage h q <= 1)) ->
  (forall i, (i < el_nd e)%nat -> finite (residual_cell c e faces loads U Uold g i)) ->
  sumn (el_nd e) (fun i => W i * val (residual_cell c e faces loads U Uold g i)) =
  sumn (el_nd e) (fun i => W i * val (residual_bulk c e U Uold g i))
  + sum_over (fun x => let '(p, f, h, Un) := x in
       interface_power p f h U Un (fun q r => sumn (el_nd e) (fun i => W i * fa_phi f i q r))
                                  (fun q a => sumn (el_nd e) (fun i => W i * fa_psi f a i q))) faces
  + sum_over (fun f => load_power (cr_dim c) f (fun q r => sumn (el_nd e) (fun i => W i * nf_phi f i q r))) loads.
Proof.
  intros c e faces loads U Uold g W H Hp HN HF FI. apply cell_rows_power; auto.
  intros p f h Un I. destruct (HF p f h Un I) as (E & He & P & S). split; [exact E|].
  intros i Hi. apply residual_face_row_finite; auto; [rewrite E; exact Hi|].
  specialize (FI i Hi). unfold residual_cell in FI. apply fold_xadd_finite in FI. destruct FI as [FI _].
  rewrite (fold_left_ext' _ (fun acc x => xadd acc (let '(p, f, h, Un) := x in residual_face p f h U Un i))) in FI
    by (intros acc [[[? ?] ?] ?]; reflexivity).
  apply fold_xadd_finite in FI. destruct FI as [_ FI]. exact (FI (p, f, h, Un) I).
Qed.
Print Assumptions C70_virtual_power_of_finite_entries.

(** The stress in that balance is the stiffness applied to macroscopic strain plus the elastic part
    of the strain of the displacement fluctuation. *)
Theorem C70_stress_includes_macroscopic_strain : forall c e U q r s,
  stress_at c e U q r s = sumn (cr_dim c) (fun k => sumn (cr_dim c) (fun l => cr_C c r s k l *
    (cr_macro c k l + (sumn (el_nd e) (fun i => U i * el_eps e i q k l)
       - cr_N c 0 * sumn (cr_ns c) (fun a => sumn (el_nd e) (fun i => U i * el_psi e a i q) * cr_P c a k l))))).
Proof.
  intros. unfold stress_at, c4, madd. apply sumn_ext; intros k _. apply sumn_ext; intros l _.
  rewrite elastic_sum. reflexivity.
Qed.
Print Assumptions C70_stress_includes_macroscopic_strain.

(** The number returned by assemble_residual is half the sum of the squared entries. *)
Theorem C70_objective : forall n r, residual_objective n r = / 2 * sumn n (fun i => r i * r i).
Proof. intros. unfold residual_objective. rewrite Rmult_assoc, norm_sq. unfold dot. field. Qed.
Print Assumptions C70_objective.

(** C34 in the assembled balance: the two sides together expend exactly the power of the traction on
    the virtual opening (without microtractions; [p'] are the same interface parameters seen from the
    other side). *)
Theorem C34_power_of_both_sides : forall p f h U Un w wn s sn,
  if_microtraction p = false -> if_decohesion p = true -> char_stress (if_cohesive p) <> 0 ->
  interface_power p f h U Un w s + interface_power p (other_side f) h Un U wn sn =
  - sumn (fa_nq f) (fun q => fa_w f q * (if_N p 3 / if_N p 0 *
      dot (if_dim p) (fun r => wn q r - w q r) (fun r =>
        degraded (if_exponent p) (fh_damage h q) (if_couple_macro p) *
          val (cohesive_traction (if_dim p) (if_cohesive p)
            (fun r => sumn (fa_nd f) (fun j => Un j * fa_nphi f j q r) - sumn (fa_nd f) (fun j => U j * fa_phi f j q r))
            (fa_n f q) (fh_max h q) (fh_old h q) (if_dt p) r)
        + contact_traction (if_dim p) (if_contact p)
            (fun r => sumn (fa_nd f) (fun j => Un j * fa_nphi f j q r) - sumn (fa_nd f) (fun j => U j * fa_phi f j q r))
            (fa_n f q) r))).
Proof.
  intros p f h U Un w wn s sn Hm Hd Hc. unfold interface_power. rewrite Hm, Hd.
  cbn [other_side fa_nq fa_w fa_nd fa_nphi fa_phi fa_n]. rewrite <- sumn_plus, <- sumn_opp.
  apply sumn_ext; intros q Hq. cbv zeta.
  set (delta := fun r => sumn (fa_nd f) (fun j => Un j * fa_nphi f j q r) - sumn (fa_nd f) (fun j => U j * fa_phi f j q r)).
  assert (E : (fun r => sumn (fa_nd f) (fun j => U j * fa_phi f j q r) - sumn (fa_nd f) (fun j => Un j * fa_nphi f j q r)) = vneg delta)
    by (apply functional_extensionality; intros r; unfold vneg, delta; ring).
  rewrite E. set (T := fun r => _ * val (cohesive_traction _ _ delta _ _ _ _ r) + _).
  rewrite (dot_ext _ (wn q) _ (wn q) (fun r => - T r)); [|reflexivity|].
  - unfold dot. rewrite (sumn_ext _ (fun i => wn q i * - T i) (fun i => - (wn q i * T i))) by (intros; ring).
    rewrite (sumn_ext _ (fun i => (wn q i - w q i) * T i) (fun i => wn q i * T i - w q i * T i)) by (intros; ring).
    rewrite sumn_opp, sumn_minus. ring.
  - intros r Hr. destruct (C34_action_reaction (if_dim p) (if_cohesive p) (if_contact p) delta (fa_n f q) (fh_max h q) (fh_old h q) (if_dt p) r r Hr Hr Hc)
      as (_ & A & _ & B & _).
    rewrite A, B. unfold T. destruct (cohesive_traction _ _ delta _ _ _ _ r); cbn [xneg val]; ring.
Qed.
Print Assumptions C34_power_of_both_sides.

(** ** Non-vacuity.  A two-dof cell (one displacement, one slip) of a cubic crystal with a damaged grain
    boundary on one side and a loaded boundary on another. *)
Lemma traction_finite d c delta n mx old dt r : char_stress c <> 0 -> mx <> 0 ->
  finite (cohesive_traction d c delta n mx old dt r).
Proof.
  intros Hc Hm. unfold finite, cohesive_traction. cbv zeta. unfold traction_factor.
  destruct (branch_of _ _ _); rewrite ?(xdiv_fin _ mx) by auto; cbn [xmul]; rewrite xdiv_fin by auto; reflexivity.
Qed.

Definition two_element : element :=
  mk_element 1 2 (fun i => if Nat.eqb i 0 then 0%nat else 2%nat) (fun _ => 1)
    (fun i _ r => if Nat.eqb i 0 then kron r 0 else 0)
    (fun i _ r s => if Nat.eqb i 0 then (if Nat.eqb r s then kron r 0 else 1/2) else 0)
    (fun a i _ => if (Nat.eqb a 0 && Nat.eqb i 1)%bool then 1 else 0)
    (fun a i _ r => if (Nat.eqb a 0 && Nat.eqb i 1)%bool then kron r 0 else 0).
Definition two_crystal : crystal :=
  mk_crystal 2 1 (fun _ => 1) (cubic 2 3 1 1) (fun _ r s => if Nat.eqb r s then 0 else 1/2) (law_ex false false)
    1 2 (fun _ r => kron r 0) (fun _ => vzero) (fun _ _ => 0) (fun _ => vzero) 1.
Definition two_face : gb_face :=
  mk_gb_face 1 2 (fun i => if Nat.eqb i 0 then 0%nat else 2%nat) (fun i => if Nat.eqb i 0 then 0%nat else 2%nat)
    (fun _ => 1) (fun _ r => kron r 0)
    (fun i _ r => if Nat.eqb i 0 then kron r 0 else 0) (fun i _ r => if Nat.eqb i 0 then kron r 0 else 0)
    (fun a i _ => if (Nat.eqb a 0 && Nat.eqb i 1)%bool then 1 else 0)
    (fun a i _ => if (Nat.eqb a 0 && Nat.eqb i 1)%bool then 1 else 0).
Definition two_history : face_history := mk_face_history (fun _ => 2) (fun _ => 0) (fun _ => 1/2).
Definition two_interface : interface :=
  mk_interface 2 1 (fun _ => 1) true true (mk_cohesive 1 1 0 1 1) (mk_contact 1 1 1) 1 true false 1 1
    (fun _ => (fun _ _ => 1, fun _ _ => 1)) 1.

Lemma two_primitive : primitive 2 1 two_element.
Proof.
  intros j q Hj Hq. cbn in Hj. destruct j as [|[|j]]; [| |lia]; cbn.
  - repeat split; intros; try lia; destruct a; cbn; try reflexivity.
  - repeat split; intros; try lia; try reflexivity; destruct a; try lia; cbn; reflexivity.
Qed.
Example C70_cell_nonvacuous :
  primitive (cr_dim two_crystal) (cr_ns two_crystal) two_element /\ 2 <= cr_p two_crystal /\
  cr_N two_crystal 0 <> 0 /\ 0 < if_exponent two_interface /\ fa_nd two_face = el_nd two_element /\
  sound_face two_interface two_face two_history (fun _ => 0) (fun _ => 1) /\
  (* the neighbour slips by one: microtraction -lambda (0 - 1) = 1 on the virtual slip *)
  interface_power two_interface two_face two_history (fun _ => 0) (fun j => kron j 1)
    (fun _ _ => 0) (fun _ _ => 1) = 1.
Proof.
  split; [exact two_primitive|]. split; [cbn; lra|]. split; [cbn; lra|]. split; [cbn; lra|]. split; [reflexivity|].
  split; [split|].
  - intros j q Hj Hq. cbn in Hj. destruct j as [|[|j]]; [| |lia]; cbn.
    + repeat split; intros; try lia; destruct a; cbn; try reflexivity.
    + repeat split; intros; try lia; try reflexivity; destruct a; try lia; cbn; reflexivity.
  - intros _ q Hq. split; [cbn; lra|]. intros r Hr. apply traction_finite; cbn; lra.
  - unfold interface_power. cbn [if_dim if_decohesion if_microtraction two_interface fa_nq two_face sumn fa_w].
    rewrite (dot_zero_l 2 (fun _ => 0)) by reflexivity. cbn. unfold microtraction, kron. cbn. lra.
Qed.

Lemma two_stable : forall A, symmetric 2 A -> 0 <= ddot 2 A (c4 2 (cubic 2 3 1 1) A).
Proof.
  intros A HA. unfold ddot, c4. cbn [sumn]. unfold cubic, kron. cbn.
  assert (E := HA 0%nat 1%nat ltac:(lia) ltac:(lia)).
  set (a := A 0%nat 0%nat) in *. set (b := A 1%nat 1%nat) in *. set (t := A 0%nat 1%nat) in *. rewrite <- E.
  match goal with |- 0 <= ?x => replace x with (2 * (a * a) + 2 * (b * b) + (a + b) * (a + b) + 4 * (t * t)) by ring end.
  assert (0 <= a * a) by (apply Rle_0_sqr). assert (0 <= b * b) by (apply Rle_0_sqr).
  assert (0 <= (a + b) * (a + b)) by (apply Rle_0_sqr). assert (0 <= t * t) by (apply Rle_0_sqr). lra.
Qed.
(** The range of the latent hardening ratio is needed: for every ratio above one - the default is 1.4 -
    there is a cell with two slip systems (one slip direction and plane normal, and the conjugate pair, which share
    their symmetrised Schmid tensor) all of whose other data are as in the theorem, and a state in which the matrix is
    indefinite.  The direction is "one system forwards, the other backwards". *)
Definition pair_element : element :=
  mk_element 1 2 (fun i => (2 + i)%nat) (fun _ => 1) (fun _ _ => vzero) (fun _ _ _ _ => 0)
    (fun a i _ => kron a i) (fun _ _ _ => vzero).
Definition pair_crystal (q : R) : crystal :=
  mk_crystal 2 2 (fun _ => 1) (cubic 2 3 1 1) (fun _ r s => if Nat.eqb r s then 0 else 1/2)
    (mk_scalar_law Tanh 1 1 q 1 false true)
    1 2 (fun _ r => kron r 0) (fun _ r => kron r 1) (fun _ _ => 0) (fun _ => vzero) 1.
Lemma pair_primitive : primitive 2 2 pair_element.
Proof.
  intros j q Hj Hq. cbn in *. split; [lia|]. split; [intros _; split; reflexivity|].
  intros a Ha Hn. cbn. destruct j as [|[|j]]; [| |lia]; destruct a as [|[|a]]; try lia; repeat split; intros; reflexivity.
Qed.
Lemma pair_jacobian q i j : (i < 2)%nat -> (j < 2)%nat ->
  val (jacobian_bulk (pair_crystal q) pair_element (fun _ => 1) (fun _ => 0) (fun _ _ => 1) i j) = 1 + (if Nat.eqb i j then 1 else q).
Proof.
  intros Hi Hj. rewrite jacobian_form; [|exact pair_primitive|cbn; lra|cbn; lra|exact Hi|exact Hj].
  cbn [val]. change (el_nq pair_element) with 1%nat. cbn [sumn]. change (el_w pair_element 0) with 1.
  unfold jac_form. rewrite (sumn_zero (cr_ns (pair_crystal q)) (fun a => dot _ _ _)) by (intros; apply dot_zero_l; reflexivity).
  change (cr_ns (pair_crystal q)) with 2%nat. change (balance_factor (pair_crystal q)) with (1 / 1).
  set (X := ddot _ _ _).
  assert (EX : X = 1).
  { unfold X, dof_strain, ddot, c4. cbn [sumn elastic_strain pair_crystal cr_ns cr_N cr_C cr_P el_eps el_psi cr_dim pair_element].
    unfold msub, mscal, cubic, kron. destruct i as [|[|i]]; [| |lia]; destruct j as [|[|j]]; try lia; cbn; lra. }
  rewrite EX. clear X EX.
  assert (S1 : sl_sgn 1 = 1) by (unfold sl_sgn; rewrite (proj2 (Rltb_true 0 1)), (proj2 (Rltb_false 1 0)) by lra; cbn; lra).
  assert (K : forall a, (a < 2)%nat -> (slip_at pair_element (fun _ => 1) 0 a - slip_at pair_element (fun _ => 0) 0 a) / 1 = 1).
  { intros a Ha. unfold slip_at. cbn. destruct a as [|[|a]]; [| |lia]; unfold kron; cbn; lra. }
  assert (L : forall a b, (a < 2)%nat -> (b < 2)%nat ->
    scalar_jacobian (cr_law (pair_crystal q)) (slip_at pair_element (fun _ => 1) 0) (slip_at pair_element (fun _ => 0) 0) (fun _ => 1)
      (cr_dt (pair_crystal q)) a b = if Nat.eqb a b then 1 else q).
  { intros a b Ha Hb. unfold scalar_jacobian. change (cr_dt (pair_crystal q)) with 1. rewrite !K, S1 by auto. cbn.
    rewrite Bool.andb_false_r. unfold sl_entry. cbn. destruct (Nat.eqb a b); lra. }
  cbn [sumn]. rewrite !L by lia. cbn [el_psi pair_element Nat.eqb]. unfold kron.
  change (cr_N (pair_crystal q) 2) with 1.
  destruct i as [|[|i]]; [| |lia]; destruct j as [|[|j]]; try lia; cbn; lra.
Qed.
Lemma pair_hypotheses q : let c := pair_crystal q in let e := pair_element in
  sl_q (cr_law c) = q /\
  primitive (cr_dim c) (cr_ns c) e /\ 2 <= cr_p c /\ 0 < cr_N c 0 /\ 0 <= cr_N c 2 /\ 0 <= cr_N c 3 /\
  (forall A, symmetric (cr_dim c) A -> 0 <= ddot (cr_dim c) A (c4 (cr_dim c) (cr_C c) A)) /\
  (forall j p, symmetric (cr_dim c) (el_eps e j p)) /\ (forall a, symmetric (cr_dim c) (cr_P c a)) /\
  (forall p, 0 <= el_w e p) /\ 0 <= cr_factor c /\
  0 < cr_dt c /\ 0 < sl_k (cr_law c) /\ 0 < sl_chi (cr_law c) /\ 0 < sl_H (cr_law c).
Proof.
  intros c e. split; [reflexivity|]. split; [exact pair_primitive|].
  split; [cbn; lra|]. split; [cbn; lra|]. split; [cbn; lra|]. split; [cbn; lra|].
  split; [exact two_stable|]. split; [intros j p r s _ _; reflexivity|].
  split. { intros a r s Hr Hs. cbn in Hr, Hs. destruct r as [|[|r]]; [| |lia]; destruct s as [|[|s]]; try lia; reflexivity. }
  split; [intros; cbn; lra|]. repeat split; cbn; lra.
Qed.
Definition opposite (i : nat) : R := if Nat.eqb i 0 then 1 else -1.
Theorem C69_latent_ratio_above_one_refuted : forall q, 1 < q -> let c := pair_crystal q in let e := pair_element in
  sl_q (cr_law c) = q /\
  primitive (cr_dim c) (cr_ns c) e /\ 2 <= cr_p c /\ 0 < cr_N c 0 /\ 0 <= cr_N c 2 /\ 0 <= cr_N c 3 /\
  (forall A, symmetric (cr_dim c) A -> 0 <= ddot (cr_dim c) A (c4 (cr_dim c) (cr_C c) A)) /\
  (forall j p, symmetric (cr_dim c) (el_eps e j p)) /\ (forall a, symmetric (cr_dim c) (cr_P c a)) /\
  (forall p, 0 <= el_w e p) /\ 0 <= cr_factor c /\
  0 < cr_dt c /\ 0 < sl_k (cr_law c) /\ 0 < sl_chi (cr_law c) /\ 0 < sl_H (cr_law c) /\
  sumn (el_nd e) (fun i => opposite i * sumn (el_nd e) (fun j =>
    val (jacobian_bulk c e (fun _ => 1) (fun _ => 0) (fun _ _ => 1) i j) * opposite j)) < 0.
Proof.
  intros q Hq c e. pose proof (pair_hypotheses q) as H. cbv zeta in H. fold c e in H.
  repeat (match goal with |- _ /\ _ => split; [apply H|] end).
  cbn [el_nd e pair_element sumn]. unfold c. rewrite !pair_jacobian by lia. unfold opposite. cbn [Nat.eqb]. lra.
Qed.
Print Assumptions C69_latent_ratio_above_one_refuted.
(** All hypotheses of [C69_newton_matrix_psd] hold for the same cell with ratio 1/2, where the form is 1. *)
Example C69_nonvacuous : let c := pair_crystal (1/2) in let e := pair_element in
  0 <= sl_q (cr_law c) <= 1 /\
  primitive (cr_dim c) (cr_ns c) e /\ 2 <= cr_p c /\ 0 < cr_N c 0 /\ 0 <= cr_N c 2 /\ 0 <= cr_N c 3 /\
  (forall A, symmetric (cr_dim c) A -> 0 <= ddot (cr_dim c) A (c4 (cr_dim c) (cr_C c) A)) /\
  (forall j p, symmetric (cr_dim c) (el_eps e j p)) /\ (forall a, symmetric (cr_dim c) (cr_P c a)) /\
  (forall p, 0 <= el_w e p) /\ 0 <= cr_factor c /\
  0 < cr_dt c /\ 0 < sl_k (cr_law c) /\ 0 < sl_chi (cr_law c) /\ 0 < sl_H (cr_law c) /\
  sumn (el_nd e) (fun i => opposite i * sumn (el_nd e) (fun j =>
    val (jacobian_bulk c e (fun _ => 1) (fun _ => 0) (fun _ _ => 1) i j) * opposite j)) = 1.
Proof.
  intros c e. pose proof (pair_hypotheses (1/2)) as H. cbv zeta in H. fold c e in H.
  split; [destruct H as [-> _]; lra|].
  repeat (match goal with |- _ /\ _ => split; [apply H|] end).
  cbn [el_nd e pair_element sumn]. unfold c. rewrite !pair_jacobian by lia. unfold opposite. cbn [Nat.eqb]. lra.
Qed.
