(** * C95: energy is dissipated, never created. *)
From Coq Require Import FunctionalExtensionality Permutation.
From Verif Require Import Num SumLemmas Tensors TensorLemmas ModelUtilities ProofUtilities ModelElastic SpecElastic ProofElastic ModelMicro SpecMicro ProofMicro
  PropMicro ModelCohesive SpecCohesive ProofCohesive ModelHistory SpecHistory ProofHistory SpecInterface ModelInterface ProofInterface
  ModelFEField ModelLineSearch ModelActiveSet SpecActiveSet PropActiveSet ModelLinear SpecLinear PropLinear ModelAssembly SpecAssembly ProofAssembly ProofFace
  ModelSolver ModelSweep SpecSweep PropSweep ModelStep SpecStep ProofStep PropStep ModelBody SpecBody PropBody ModelTangent SpecTangent ProofTangent
  SpecRun PropRun SpecEnergy ProofEnergy.
Open Scope R_scope.

(** ** Sums over the two sides of the interfaces *)
Lemma lsum_perm {A} (f : A -> R) l l' : Permutation l l' -> lsum f l = lsum f l'.
Proof. induction 1; cbn; lra. Qed.
Lemma lsum_filter {A} (p : A -> bool) (f : A -> R) l : lsum f (filter p l) = lsum (fun a => if p a then f a else 0) l.
Proof. induction l as [|a l IH]; cbn; [reflexivity|]. destruct (p a); cbn; rewrite IH; ring. Qed.
Lemma lsum_swap {A B} (f : A -> B -> R) l m : lsum (fun a => lsum (f a) m) l = lsum (fun b => lsum (fun a => f a b) l) m.
Proof.
  induction l as [|a l IH]; cbn [lsum].
  - symmetry. apply lsum_zero. reflexivity.
  - rewrite IH. rewrite <- lsum_plus. reflexivity.
Qed.
Lemma lsum_le {A} (f g : A -> R) l : (forall a, In a l -> f a <= g a) -> lsum f l <= lsum g l.
Proof. induction l as [|a l IH]; intros H; cbn; [lra|]. pose proof (H a (or_introl eq_refl)). specialize (IH (fun b Hb => H b (or_intror Hb))). lra. Qed.
Lemma lsum_minus {A} (f g : A -> R) l : lsum (fun x => f x - g x) l = lsum f l - lsum g l.
Proof. induction l as [|a l IH]; cbn; [ring|]. rewrite IH. ring. Qed.
Lemma lsum_nonneg {A} (f : A -> R) l : (forall a, In a l -> 0 <= f a) -> 0 <= lsum f l.
Proof. induction l as [|a l IH]; intros H; cbn; [lra|]. pose proof (H a (or_introl eq_refl)). specialize (IH (fun b Hb => H b (or_intror Hb))). lra. Qed.
Lemma lsum_inside (f : nat -> R) l L : NoDup l -> NoDup L -> incl l L -> lsum f l = lsum (fun a => if mem a l then f a else 0) L.
Proof.
  intros N NL I. rewrite <- lsum_filter. apply lsum_perm. apply NoDup_Permutation; [exact N|apply NoDup_filter; exact NL|].
  intros a. rewrite filter_In, mem_In. split; intros H; [split; [apply I|]|]; tauto.
Qed.
Lemma both_sides (nb : nat -> list nat) (f : nat -> nat -> R) L : NoDup L ->
  (forall c n, In c L -> In n (nb c) -> NoDup (nb c) /\ In n L /\ In c (nb n)) ->
  lsum (fun c => lsum (f c) (nb c)) L = lsum (fun c => lsum (fun n => f n c) (nb c)) L.
Proof.
  intros N H.
  assert (E : forall g, lsum (fun c => lsum (g c) (nb c)) L = lsum (fun c => lsum (fun n => if mem n (nb c) then g c n else 0) L) L).
  { intros g. apply lsum_ext. intros c Hc. destruct (nb c) as [|n l] eqn:Z.
    - cbn. symmetry. apply lsum_zero. reflexivity.
    - rewrite <- Z. assert (K : In n (nb c)) by (rewrite Z; left; reflexivity). apply lsum_inside; [apply (H c n Hc K)|exact N|].
      intros m Hm. apply (H c m Hc Hm). }
  rewrite !E. rewrite lsum_swap. apply lsum_ext. intros c Hc. apply lsum_ext. intros n Hn.
  assert (M : mem c (nb n) = mem n (nb c)).
  { apply Bool.eq_true_iff_eq. rewrite !mem_In. split; intros K; [apply (H n c Hn K)|apply (H c n Hc K)]. }
  rewrite M. reflexivity.
Qed.

Lemma sumn_zero_each n f : (forall i, (i < n)%nat -> 0 <= f i) -> sumn n f = 0 -> forall i, (i < n)%nat -> f i = 0.
Proof.
  induction n as [|n IH]; intros H Z i Hi; [lia|]. cbn [sumn] in Z.
  pose proof (sumn_nonneg n f (fun j Hj => H j ltac:(lia))). pose proof (H n ltac:(lia)).
  destruct (Nat.eq_dec i n) as [->|]; [lra|]. apply IH; [intros; apply H; lia|lra|lia].
Qed.
Lemma lsum_zero_each {A} (f : A -> R) l : (forall a, In a l -> 0 <= f a) -> lsum f l = 0 -> forall a, In a l -> f a = 0.
Proof.
  induction l as [|b l IH]; intros H Z a Ha; [destruct Ha|]. cbn [lsum] in Z.
  pose proof (lsum_nonneg f l (fun j Hj => H j (or_intror Hj))). pose proof (H b (or_introl eq_refl)).
  destruct Ha as [<-|Ha]; [lra|]. apply IH; [intros; apply H; right; assumption|lra|exact Ha].
Qed.

(** ** Grains *)
Lemma local_increment b x old c i : local_values b (increment x old) c i = local_values b x c i - local_values b old c i.
Proof. reflexivity. Qed.
Lemma strain_increment b x old e c q i j : strain_at e (local_values b (increment x old) c) q i j =
  strain_at e (local_values b x c) q i j - strain_at e (local_values b old c) q i j.
Proof. unfold strain_at. rewrite <- sumn_minus. apply sumn_ext. intros k _. rewrite local_increment. ring. Qed.
Lemma slip_increment b x old e c q a : slip_at e (local_values b (increment x old) c) q a =
  slip_at e (local_values b x c) q a - slip_at e (local_values b old c) q a.
Proof. unfold slip_at. rewrite <- sumn_minus. apply sumn_ext. intros k _. rewrite local_increment. ring. Qed.
Lemma gradient_increment b x old e c q a i : slip_gradient_at e (local_values b (increment x old) c) q a i =
  vsub (slip_gradient_at e (local_values b x c) q a) (slip_gradient_at e (local_values b old c) q a) i.
Proof. unfold slip_gradient_at, vsub. rewrite <- sumn_minus. apply sumn_ext. intros k _. rewrite local_increment. ring. Qed.
Lemma stress_of_energy b x c q i j : stress_at (b_crystal b c) (b_element b c) (local_values b x c) q i j =
  c4 (cr_dim (b_crystal b c)) (cr_C (b_crystal b c)) (elastic_strain_of b (fun c => cr_macro (b_crystal b c)) x c q) i j.
Proof.
  unfold stress_at. apply c4_ext; [reflexivity|]. intros k l _ _. unfold madd, elastic_strain_of. rewrite elastic_sum. reflexivity.
Qed.
Lemma elastic_symmetric b macro0 macro x c q : stable_material b macro0 -> In c (b_cells b) -> symmetric (cr_dim (b_crystal b c)) (macro c) ->
  symmetric (cr_dim (b_crystal b c)) (elastic_strain_of b macro x c q).
Proof.
  intros S Hc M i j Hi Hj. destruct (S c Hc) as (_ & _ & _ & _ & _ & _ & E & P & _). unfold elastic_strain_of. rewrite (M i j Hi Hj). f_equal. f_equal.
  - unfold strain_at. apply sumn_ext. intros k _. rewrite (E k q i j Hi Hj). reflexivity.
  - f_equal. apply sumn_ext. intros a _. rewrite (P a i j Hi Hj). reflexivity.
Qed.

(** The grain part of the virtual power of the motion from [old] to [x], per cell. *)
Definition grain_power (b : body) (old x : vec) (r : rank_data) (w : vec) (c : nat) : R :=
  let k := b_crystal b c in let e := b_element b c in let d := cr_dim k in
  let U := local_values b x c in let Uold := local_values b old c in let W := local_values b w c in
  sumn (el_nq e) (fun q => el_w e q *
        (cr_N k 3 / cr_N k 0 *
          (ddot d (elastic_strain (cr_N k 0) (cr_P k) (strain_at e W q) (slip_at e W q) (cr_ns k)) (stress_at k e U q)
           - dot d (fun r => sumn (el_nd e) (fun i => W i * el_phi e i q r)) (cr_supply k q))
         + cr_N k 2 * sumn (cr_ns k) (fun a => dot d (slip_gradient_at e W q a)
             (fun r => val (vectorial_microstress (cr_factor k) (cr_p k) d (cr_dir k a) (cr_ort k a) (slip_gradient_at e U q a) r)))
         + sumn (cr_ns k) (fun a => slip_at e W q a *
             scalar_microstress (cr_law k) (slip_at e U q a) (slip_at e Uold q a) (nth a (slip_res (r_bulk r c q)) 0) (cr_dt k)))).
Lemma grain_balance b macro0 old x r c : consistent b -> stable_material b macro0 -> In c (b_cells b) ->
  let k := b_crystal b c in let e := b_element b c in let d := cr_dim k in let w := increment x old in
  let energy := fun macro x => sumn (el_nq e) (fun q => let s := elastic_strain_of b macro x c q in
      el_w e q * (cr_N k 3 / cr_N k 0 * (1/2 * ddot d s (c4 d (cr_C k) s))
        + cr_N k 2 * sumn (cr_ns k) (fun a =>
            defect_energy (cr_factor k) (cr_p k) d (cr_dir k a) (cr_ort k a) (slip_gradient_at e (local_values b x c) q a)))) in
  energy (fun c => cr_macro (b_crystal b c)) x - energy macro0 old
  + sumn (el_nq e) (fun q => el_w e q * sumn (cr_ns k) (fun a =>
      let s := slip_at e (local_values b x c) q a in let so := slip_at e (local_values b old c) q a in
      (s - so) * scalar_microstress (cr_law k) s so (resistances_of r c q a) (cr_dt k)))
  - sumn (el_nq e) (fun q => el_w e q * (cr_N k 3 / cr_N k 0 *
      dot (cr_dim k) (fun r => sumn (el_nd e) (fun i => local_values b w c i * el_phi e i q r)) (cr_supply k q)))
  - sumn (el_nq e) (fun q => el_w e q * (cr_N k 3 / cr_N k 0 *
      ddot (cr_dim k) (msub (cr_macro k) (macro0 c)) (stress_at k e (local_values b x c) q)))
  <= grain_power b old x r w c.
Proof.
  intros C S Hc k e d w energy. unfold energy, grain_power. clear energy. fold k e d.
  destruct C as (_ & _ & C1 & _). destruct (C1 c Hc) as (_ & _ & _ & _ & Hp & _). fold k in Hp.
  pose proof S as S'. specialize (S' c Hc). cbv zeta in S'. fold k e d in S'.
  destruct S' as (Hw & H3 & H2 & Hf & MJ & PSD & _ & _ & SM & SM0 & _).
  rewrite <- !sumn_minus, <- sumn_plus, <- !sumn_minus. apply sumn_le. intros q Hq. cbv zeta.
  specialize (Hw q Hq).
  set (s := elastic_strain_of b (fun c => cr_macro (b_crystal b c)) x c q). set (s0 := elastic_strain_of b macro0 old c q).
  assert (A : 1/2 * ddot d s (c4 d (cr_C k) s) - 1/2 * ddot d s0 (c4 d (cr_C k) s0) <= ddot d (msub s s0) (c4 d (cr_C k) s)).
  { apply elastic_convex; [exact MJ|exact PSD| |].
    - exact (elastic_symmetric b macro0 (fun c => cr_macro (b_crystal b c)) x c q S Hc SM).
    - exact (elastic_symmetric b macro0 macro0 old c q S Hc SM0). }
  assert (ES : ddot d (elastic_strain (cr_N k 0) (cr_P k) (strain_at e (local_values b w c) q) (slip_at e (local_values b w c) q) (cr_ns k))
      (stress_at k e (local_values b x c) q) =
    ddot d (msub s s0) (c4 d (cr_C k) s) - ddot d (msub (cr_macro k) (macro0 c)) (stress_at k e (local_values b x c) q)).
  { rewrite (ddot_ext d (msub s s0) (c4 d (cr_C k) s) (msub s s0) (stress_at k e (local_values b x c) q)).
    2: reflexivity. 2:{ intros i j _ _. symmetry. exact (stress_of_energy b x c q i j). }
    unfold ddot. rewrite <- sumn_minus. apply sumn_ext. intros i _. rewrite <- sumn_minus. apply sumn_ext. intros j _.
    rewrite elastic_sum. unfold w. rewrite strain_increment.
    rewrite (sumn_ext (cr_ns k) _ (fun a => slip_at e (local_values b x c) q a * cr_P k a i j - slip_at e (local_values b old c) q a * cr_P k a i j)).
    2:{ intros a _. rewrite slip_increment. ring. }
    rewrite sumn_minus. unfold msub, s, s0, elastic_strain_of. fold k e. ring. }
  rewrite ES. clear ES. unfold w.
  assert (B : sumn (cr_ns k) (fun a => defect_energy (cr_factor k) (cr_p k) d (cr_dir k a) (cr_ort k a) (slip_gradient_at e (local_values b x c) q a))
    - sumn (cr_ns k) (fun a => defect_energy (cr_factor k) (cr_p k) d (cr_dir k a) (cr_ort k a) (slip_gradient_at e (local_values b old c) q a))
    <= sumn (cr_ns k) (fun a => dot d (slip_gradient_at e (local_values b (increment x old) c) q a)
             (fun r => val (vectorial_microstress (cr_factor k) (cr_p k) d (cr_dir k a) (cr_ort k a) (slip_gradient_at e (local_values b x c) q a) r)))).
  { rewrite <- sumn_minus. apply sumn_le. intros a _.
    rewrite (dot_ext d _ _ (vsub (slip_gradient_at e (local_values b x c) q a) (slip_gradient_at e (local_values b old c) q a))
       (vm (cr_factor k) (cr_p k) d (cr_dir k a) (cr_ort k a) (slip_gradient_at e (local_values b x c) q a))).
    - rewrite dot_comm. apply defect_convex; assumption.
    - intros i _. apply gradient_increment.
    - intros i _. rewrite microstress_fin by exact Hp. reflexivity. }
  assert (D : sumn (cr_ns k) (fun a => (slip_at e (local_values b x c) q a - slip_at e (local_values b old c) q a) *
       scalar_microstress (cr_law k) (slip_at e (local_values b x c) q a) (slip_at e (local_values b old c) q a) (resistances_of r c q a) (cr_dt k)) =
    sumn (cr_ns k) (fun a => slip_at e (local_values b (increment x old) c) q a *
             scalar_microstress (cr_law k) (slip_at e (local_values b x c) q a) (slip_at e (local_values b old c) q a) (nth a (slip_res (r_bulk r c q)) 0) (cr_dt k))).
  { apply sumn_ext. intros a _. rewrite slip_increment. reflexivity. }
  rewrite D. clear D.
  set (D := sumn (cr_ns k) (fun a => slip_at e (local_values b (increment x old) c) q a * _)).
  set (X := ddot d (msub s s0) _) in *. set (es := ddot d s _) in *. set (es0 := ddot d s0 _) in *.
  set (M := ddot d (msub (cr_macro k) (macro0 c)) _). set (L := dot d _ (cr_supply k q)).
  set (g1 := sumn (cr_ns k) (fun a => defect_energy _ _ _ _ _ (slip_gradient_at e (local_values b x c) q a))) in *.
  set (g0 := sumn (cr_ns k) (fun a => defect_energy _ _ _ _ _ (slip_gradient_at e (local_values b old c) q a))) in *.
  set (G := sumn (cr_ns k) (fun a => dot d (slip_gradient_at e (local_values b (increment x old) c) q a) _)) in *.
  clearbody D X es es0 M L g1 g0 G. set (N3 := cr_N k 3 / cr_N k 0) in *. set (N2 := cr_N k 2) in *. set (wq := el_w e q) in *. clearbody N3 N2 wq.
  assert (P1 : 0 <= N3 * (X - (1/2 * es - 1/2 * es0))) by (apply Rmult_le_pos; lra).
  assert (P2 : 0 <= N2 * (G - (g1 - g0))) by (apply Rmult_le_pos; lra).
  assert (P3 : 0 <= wq * (N3 * (X - (1/2 * es - 1/2 * es0)) + N2 * (G - (g1 - g0)))) by (apply Rmult_le_pos; lra).
  lra.
Qed.

(** ** Interfaces *)
Lemma opening_increment b x old f c n q s : opening_at f (local_values b (increment x old) c) (local_values b (increment x old) n) q s =
  vsub (opening_at f (local_values b x c) (local_values b x n) q) (opening_at f (local_values b old c) (local_values b old n) q) s.
Proof.
  unfold opening_at, vsub, face_displacement.
  rewrite (sumn_ext (fa_nd f) (fun i => local_values b (increment x old) n i * _) (fun i => local_values b x n i * fa_nphi f i q s - local_values b old n i * fa_nphi f i q s)) by (intros; rewrite local_increment; ring).
  rewrite (sumn_ext (fa_nd f) (fun i => local_values b (increment x old) c i * _) (fun i => local_values b x c i * fa_phi f i q s - local_values b old c i * fa_phi f i q s)) by (intros; rewrite local_increment; ring).
  rewrite !sumn_minus. ring.
Qed.
Lemma face_slip_increment b x old nd psi c q a : face_slip nd psi (local_values b (increment x old) c) q a =
  face_slip nd psi (local_values b x c) q a - face_slip nd psi (local_values b old c) q a.
Proof. unfold face_slip. rewrite <- sumn_minus. apply sumn_ext. intros k _. rewrite local_increment. ring. Qed.

(** The interface part of the virtual power, seen from one side. *)
Definition side_power (b : body) (x : vec) (r : rank_data) (w : vec) (c n : nat) : R :=
  let e := b_element b c in let f := b_face b c n in
  interface_power (b_interface b c n) f
    (mk_face_history (fun q => i_max (r_face r (make_key c n) q)) (fun q => i_old (r_face r (make_key c n) q))
       (fun q => val (i_damage (r_face r (make_key c n) q))))
    (local_values b x c) (local_values b x n)
    (fun q s => sumn (el_nd e) (fun i => local_values b w c i * fa_phi f i q s))
    (fun q a => sumn (el_nd e) (fun i => local_values b w c i * fa_psi f a i q)).

(** Histories that a step left behind compared with those it started from. *)
Definition grown (b : body) (x : vec) (h r : rank_data) : Prop := b_decohesion b = true ->
  forall c n q, In c (b_cells b) -> In n (gb_neighbours b c) -> (q < b_nfq b)%nat ->
  i_max (r_face h (make_key c n) q) <= i_max (r_face r (make_key c n) q) /\
  opening_of b x c n q <= i_max (r_face r (make_key c n) q) /\
  val (i_damage (r_face h (make_key c n) q)) <= val (i_damage (r_face r (make_key c n) q)) <= 1.

Lemma interface_balance b frames p0 old x h r c n : consistent b -> two_sided b -> stable_interfaces b frames p0 -> grown b x h r ->
  In c (b_cells b) -> In n (gb_neighbours b c) ->
  face_energy b frames x r c n - face_energy b frames old h c n <=
  - (side_power b x r (increment x old) c n + side_power b x r (increment x old) n c).
Proof.
  intros C T SI GR Hc Hn. set (w := increment x old).
  destruct C as (_ & _ & _ & C2). destruct (C2 c n Hc Hn) as (Hn' & ND & NQ & DC & EX & _).
  destruct SI as (ID & IC & SD & SM & SI). destruct (SI c n Hc Hn) as (_ & Hcn & EI & FQ & FP).
  destruct (C2 n c Hn' Hcn) as (_ & ND' & _ & DC' & _). destruct (SI n c Hn' Hcn) as (_ & _ & EI' & _ & _).
  destruct (T c n Hc Hn) as (_ & TD & TF).
  assert (K : make_key n c = make_key c n) by apply PropSweep.make_key_sym.
  unfold face_energy, side_power, interface_power. rewrite K, FQ.
  set (f := b_face b c n) in *. set (f' := b_face b n c) in *.
  assert (PD : if_decohesion p0 = b_decohesion b) by (rewrite EI in DC; cbn in DC; exact DC).
  assert (PE : 0 < if_exponent p0) by (rewrite EI in EX; exact EX).
  rewrite <- sumn_minus, <- sumn_plus, <- sumn_opp. apply sumn_le. intros q Hq. cbv zeta.
  destruct (FP q Hq) as (W0 & W1 & NU & PS). destruct (TF q) as (EN & EP).
  fold f f' in W0, W1, NU, EN, EP.
  rewrite W1. set (wq := fa_w f q) in *.
  (* the fields of both sides *)
  set (delta := opening_at f (local_values b x c) (local_values b x n) q).
  set (delta0 := opening_at f (local_values b old c) (local_values b old n) q).
  assert (D1 : (fun r0 => sumn (fa_nd f) (fun j => local_values b x n j * fa_nphi f j q r0) - sumn (fa_nd f) (fun j => local_values b x c j * fa_phi f j q r0)) = delta) by reflexivity.
  assert (D2 : (fun r0 => sumn (fa_nd f') (fun j => local_values b x c j * fa_nphi f' j q r0) - sumn (fa_nd f') (fun j => local_values b x n j * fa_phi f' j q r0)) = vneg delta).
  { apply functional_extensionality. intros s. unfold vneg, delta, opening_at, vsub, face_displacement. rewrite TD.
    rewrite (sumn_ext (fa_nd f) (fun j => local_values b x c j * fa_nphi f' j q s) (fun j => local_values b x c j * fa_phi f j q s)) by (intros; rewrite (proj2 (EP _)); reflexivity).
    rewrite (sumn_ext (fa_nd f) (fun j => local_values b x n j * fa_phi f' j q s) (fun j => local_values b x n j * fa_nphi f j q s)) by (intros; rewrite (proj1 (EP _)); reflexivity).
    ring. }
  rewrite D1, D2, EN. clear D1 D2.
  set (wc := fun s => sumn (el_nd (b_element b c)) (fun i => local_values b w c i * fa_phi f i q s)).
  set (wn := fun s => sumn (el_nd (b_element b n)) (fun i => local_values b w n i * fa_phi f' i q s)).
  assert (WD : forall s, wn s - wc s = vsub delta delta0 s).
  { intros s. transitivity (opening_at f (local_values b w c) (local_values b w n) q s); [|exact (opening_increment b x old f c n q s)].
    unfold opening_at, vsub, face_displacement, wn, wc. rewrite <- ND, <- ND', TD.
    f_equal. apply sumn_ext. intros i _. rewrite (proj1 (EP _)). reflexivity. }
  set (gc := fun z a => face_slip (fa_nd f) (fa_psi f) (local_values b z c) q a).
  set (gn := fun z a => face_slip (fa_nd f) (fa_npsi f) (local_values b z n) q a).
  set (hq := r_face h (make_key c n) q). set (rq := r_face r (make_key c n) q).
  set (dn := if b_decohesion b then val (i_damage rq) else 0).
  set (do := if b_decohesion b then val (i_damage hq) else 0).
  rewrite EI, EI'. cbn [if_decohesion if_microtraction if_N if_dim if_ns if_exponent if_couple_macro if_couple_micro if_cohesive if_contact if_lambda if_chi if_dt if_moduli].
  unfold recoverable, contact_energy, mismatch. cbn [if_decohesion if_microtraction if_N if_dim if_ns if_exponent if_couple_macro if_couple_micro if_cohesive if_contact if_lambda if_chi if_dt if_moduli].
  rewrite PD. fold f f'. rewrite ?EN. cbn [fh_damage fh_max fh_old]. fold hq rq. fold dn do.
  assert (GRQ : b_decohesion b = true -> i_max hq <= i_max rq /\ opening_of b x c n q <= i_max rq /\ val (i_damage hq) <= val (i_damage rq) <= 1).
  { intros D. apply (GR D c n q Hc Hn). unfold f in NQ. rewrite <- NQ. exact Hq. }
  assert (DD : do <= dn <= 1).
  { unfold do, dn. destruct (b_decohesion b) eqn:D; [|lra]. apply GRQ. reflexivity. }
  (* decohesion *)
  set (A := fun (dl : Tensors.vec) (mx dm : R) => degraded (if_exponent p0) dm (if_couple_macro p0) *
     (1/2 * (secant_stiffness (crit_traction (if_cohesive p0)) (crit_opening (if_cohesive p0)) (char_disp (if_cohesive p0)) mx / char_stress (if_cohesive p0))
      * mixed_opening (ratio (if_cohesive p0)) (if_dim p0) (fa_n f q) dl ^ 2)
     + 1/2 * (penalty (if_contact p0) * ct_disp (if_contact p0) / ct_stress (if_contact p0)) * Rmax (- dot (if_dim p0) dl (fa_n f q)) 0 ^ 2).
  assert (PA : b_decohesion b = true ->
     if_N p0 3 / if_N p0 0 * A delta (i_max rq) dn - if_N p0 3 / if_N p0 0 * A delta0 (i_max hq) do <=
     - (if_N p0 3 / if_N p0 0 * dot (if_dim p0) wc (fun s => degraded (if_exponent p0) dn (if_couple_macro p0) *
           val (cohesive_traction (if_dim p0) (if_cohesive p0) delta (fa_n f q) (i_max rq) (i_old rq) (if_dt p0) s)
           + contact_traction (if_dim p0) (if_contact p0) delta (fa_n f q) s) +
        if_N p0 3 / if_N p0 0 * dot (if_dim p0) wn (fun s => degraded (if_exponent p0) dn (if_couple_macro p0) *
           val (cohesive_traction (if_dim p0) (if_cohesive p0) (vneg delta) (vneg (fa_n f q)) (i_max rq) (i_old rq) (if_dt p0) s)
           + contact_traction (if_dim p0) (if_contact p0) (vneg delta) (vneg (fa_n f q)) s))).
  { intros D. destruct (SD D) as (G1 & G2 & G3 & G4 & Q1 & Q2 & Q3 & N3 & DT). rewrite <- IC in G1, G2, G3, G4.
    assert (G : good_cohesive (if_cohesive p0)) by (repeat split; assumption).
    destruct (GRQ D) as (M1 & M2 & _). unfold opening_of in M2. rewrite <- IC, <- ID in M2. fold f delta in M2.
    set (d := if_dim p0) in *. set (nq := fa_n f q) in *. set (co := if_cohesive p0) in *. set (ct := if_contact p0) in *.
    set (g := degraded (if_exponent p0) dn (if_couple_macro p0)). set (g0 := degraded (if_exponent p0) do (if_couple_macro p0)).
    assert (GG : 0 <= g <= g0) by (apply degraded_mono; [exact PE|apply DD|apply DD]).
    assert (U : unit_vec d nq) by (unfold unit_vec; rewrite ID; exact NU).
    set (tr := vadd (vscal (g * (secant co (i_max rq) / char_stress co)) (pull (ratio co) d nq delta)) (contact_traction d ct delta nq)).
    assert (V : forall s, (s < d)%nat -> g * val (cohesive_traction d co delta nq (i_max rq) (i_old rq) (if_dt p0) s) + contact_traction d ct delta nq s = tr s).
    { intros s Hs. rewrite traction_value by assumption. unfold tr, vadd, vscal. ring. }
    rewrite (dot_ext d wc _ wc tr) by (intros; auto).
    rewrite (dot_ext d wn _ wn (vneg tr)).
    2: reflexivity. 2:{ intros s Hs. rewrite traction_neg, contact_neg by (try assumption; lra). unfold vneg. rewrite <- (V s Hs).
      destruct (cohesive_traction d co delta nq (i_max rq) (i_old rq) (if_dt p0) s); cbn; ring. }
    assert (P : dot d (vsub delta delta0) tr = dot d wn tr - dot d wc tr).
    { rewrite <- dot_sub_l. apply dot_ext; [intros s _; symmetry; apply WD|reflexivity]. }
    rewrite dot_neg_r.
    assert (E : A delta (i_max rq) dn - A delta0 (i_max hq) do <= dot d (vsub delta delta0) tr).
    { unfold A. fold g g0. rewrite !secant_is. unfold tr. rewrite dot_add_r, dot_scal_r.
      pose proof (opening_convex (ratio co) d nq delta delta0 U) as X1. rewrite dot_comm in X1.
      pose proof (contact_convex d ct delta delta0 nq Q1 Q2 Q3) as X2. rewrite (dot_comm d (contact_traction _ _ _ _)) in X2.
      destruct (secant_decreasing co (i_max hq) (i_max rq) G M1) as [S1 S2].
      set (S := secant co (i_max rq)) in *. set (S0 := secant co (i_max hq)) in *.
      set (m := mixed_opening (ratio co) d nq delta) in *. set (m0 := mixed_opening (ratio co) d nq delta0) in *.
      pose proof (pow2_ge_0 m0) as Pm.
      assert (IC' : 0 < / char_stress co) by (apply Rinv_0_lt_compat; exact G3).
      set (kk := penalty ct * ct_disp ct / ct_stress ct) in *.
      replace (S / char_stress co) with (S * / char_stress co) by reflexivity. replace (S0 / char_stress co) with (S0 * / char_stress co) by reflexivity.
      set (ic := / char_stress co) in *.
      set (X := dot d (vsub delta delta0) (pull (ratio co) d nq delta)) in *.
      assert (Y1 : 0 <= g * (S * ic)) by (apply Rmult_le_pos; [lra|apply Rmult_le_pos; lra]).
      assert (Y2 : g * (S * ic) <= g0 * (S0 * ic)).
      { apply Rmult_le_compat; [lra|apply Rmult_le_pos; lra|lra|apply Rmult_le_compat_r; lra]. }
      assert (Y3 : 0 <= g * (S * ic) * (X - (1/2 * m ^ 2 - 1/2 * m0 ^ 2))) by (apply Rmult_le_pos; lra).
      assert (Y4 : 0 <= (g0 * (S0 * ic) - g * (S * ic)) * (1/2 * m0 ^ 2)) by (apply Rmult_le_pos; lra).
      lra. }
    rewrite P in E. set (Z := if_N p0 3 / if_N p0 0) in *.
    assert (0 <= Z * (dot d wn tr - dot d wc tr - (A delta (i_max rq) dn - A delta0 (i_max hq) do))) by (apply Rmult_le_pos; lra).
    lra. }
  (* slip mismatch *)
  set (E := fun z dm => degraded (if_exponent p0) dm (if_couple_micro p0) *
     (interface_energy (if_lambda p0) (if_dim p0) (if_ns p0) (frames n) (frames c) (fa_n f q) (gn z) (gc z) / if_chi p0)).
  assert (PM : if_microtraction p0 = true ->
     if_N p0 2 * E x dn - if_N p0 2 * E old do <=
     - (if_N p0 2 * degraded (if_exponent p0) dn (if_couple_micro p0) *
          sumn (if_ns p0) (fun a => sumn (el_nd (b_element b c)) (fun i => local_values b w c i * fa_psi f a i q) *
            microtraction (if_lambda p0) (if_chi p0) (if_ns p0)
              (intra (if_dim p0) (frames c) (fa_n f q), inter (if_dim p0) (frames c) (frames n) (fa_n f q))
              (fun b0 => sumn (fa_nd f) (fun j => local_values b x c j * fa_psi f b0 j q))
              (fun b0 => sumn (fa_nd f) (fun j => local_values b x n j * fa_npsi f b0 j q)) a) +
        if_N p0 2 * degraded (if_exponent p0) dn (if_couple_micro p0) *
          sumn (if_ns p0) (fun a => sumn (el_nd (b_element b n)) (fun i => local_values b w n i * fa_psi f' a i q) *
            microtraction (if_lambda p0) (if_chi p0) (if_ns p0)
              (intra (if_dim p0) (frames n) (vneg (fa_n f q)), inter (if_dim p0) (frames n) (frames c) (vneg (fa_n f q)))
              (fun b0 => sumn (fa_nd f') (fun j => local_values b x n j * fa_psi f' b0 j q))
              (fun b0 => sumn (fa_nd f') (fun j => local_values b x c j * fa_npsi f' b0 j q)) a))).
  { intros Mi. destruct (SM Mi) as (Hd & HL & HX & HN2).
    assert (F1 : (fun b0 => sumn (fa_nd f) (fun j => local_values b x c j * fa_psi f b0 j q)) = gc x) by reflexivity.
    assert (F2 : (fun b0 => sumn (fa_nd f) (fun j => local_values b x n j * fa_npsi f b0 j q)) = gn x) by reflexivity.
    assert (F3 : (fun b0 => sumn (fa_nd f') (fun j => local_values b x n j * fa_psi f' b0 j q)) = gn x).
    { apply functional_extensionality. intros a. unfold gn, face_slip. rewrite TD. apply sumn_ext. intros j _. rewrite (proj1 (PS a j)). reflexivity. }
    assert (F4 : (fun b0 => sumn (fa_nd f') (fun j => local_values b x c j * fa_npsi f' b0 j q)) = gc x).
    { apply functional_extensionality. intros a. unfold gc, face_slip. rewrite TD. apply sumn_ext. intros j _. rewrite (proj2 (PS a j)). reflexivity. }
    rewrite F1, F2, F3, F4.
    assert (F5 : forall a, sumn (el_nd (b_element b c)) (fun i => local_values b w c i * fa_psi f a i q) = gc x a - gc old a).
    { intros a. rewrite <- ND. exact (face_slip_increment b x old (fa_nd f) (fa_psi f) c q a). }
    assert (F6 : forall a, sumn (el_nd (b_element b n)) (fun i => local_values b w n i * fa_psi f' a i q) = gn x a - gn old a).
    { intros a. rewrite <- ND', TD. transitivity (face_slip (fa_nd f) (fa_npsi f) (local_values b w n) q a); [|exact (face_slip_increment b x old (fa_nd f) (fa_npsi f) n q a)].
      apply sumn_ext. intros j _. rewrite (proj1 (PS a j)). reflexivity. }
    rewrite (sumn_ext (if_ns p0) (fun a => sumn (el_nd (b_element b c)) _ * _) (fun a => (gc x a - gc old a) *
       microtraction (if_lambda p0) (if_chi p0) (if_ns p0)
              (intra (if_dim p0) (frames c) (fa_n f q), inter (if_dim p0) (frames c) (frames n) (fa_n f q)) (gc x) (gn x) a)) by (intros; rewrite F5; reflexivity).
    rewrite (sumn_ext (if_ns p0) (fun a => sumn (el_nd (b_element b n)) _ * _) (fun a => (gn x a - gn old a) *
       microtraction (if_lambda p0) (if_chi p0) (if_ns p0)
              (intra (if_dim p0) (frames n) (vneg (fa_n f q)), inter (if_dim p0) (frames n) (frames c) (vneg (fa_n f q))) (gn x) (gc x) a)) by (intros; rewrite F6; reflexivity).
    pose proof (micro_power (if_lambda p0) (if_chi p0) (if_dim p0) (if_ns p0) (frames n) (frames c) (fa_n f q) (gn x) (gc x)
      (fun a => gn x a - gn old a) (fun a => gc x a - gc old a) Hd ltac:(lra)) as MP. cbv beta in MP.
    pose proof (mismatch_convex (if_lambda p0) (if_dim p0) (if_ns p0) (frames n) (frames c) (fa_n f q) (gn x) (gc x) (gn old) (gc old) Hd HL) as MC.
    rewrite <- Rmult_plus_distr_l, MP. clear MP. set (J := ddotr _ _ _ _) in *.
    unfold E. set (e1 := interface_energy _ _ _ _ _ _ (gn x) (gc x)) in *.
    assert (E0 : 0 <= interface_energy (if_lambda p0) (if_dim p0) (if_ns p0) (frames n) (frames c) (fa_n f q) (gn old) (gc old)) by (apply energy_nonneg; assumption).
    set (e0 := interface_energy _ _ _ _ _ _ (gn old) (gc old)) in *.
    set (g := degraded (if_exponent p0) dn (if_couple_micro p0)). set (g0 := degraded (if_exponent p0) do (if_couple_micro p0)).
    assert (GG : 0 <= g <= g0) by (apply degraded_mono; [exact PE|apply DD|apply DD]).
    assert (IX : 0 < / if_chi p0) by (apply Rinv_0_lt_compat; exact HX). unfold Rdiv in *. set (ix := / if_chi p0) in *.
    set (N2 := if_N p0 2) in *. set (la := if_lambda p0) in *. clearbody J e1 e0 g g0 ix N2 la.
    assert (X1 : 0 <= N2 * (g * (ix * (la * J - (e1 - e0))))).
    { apply Rmult_le_pos; [exact HN2|]. apply Rmult_le_pos; [lra|]. apply Rmult_le_pos; lra. }
    assert (X2 : 0 <= N2 * ((g0 - g) * (ix * e0))).
    { apply Rmult_le_pos; [exact HN2|]. apply Rmult_le_pos; [lra|]. apply Rmult_le_pos; lra. }
    lra. }
  set (Sm := if_N p0 2 * _ * sumn (if_ns p0) (fun a => sumn (el_nd (b_element b c)) _ * _)) in *.
  set (Sn := if_N p0 2 * _ * sumn (if_ns p0) (fun a => sumn (el_nd (b_element b n)) _ * _)) in *.
  set (Dc := if_N p0 3 / if_N p0 0 * dot (if_dim p0) wc _) in *. set (Dn := if_N p0 3 / if_N p0 0 * dot (if_dim p0) wn _) in *.
  change (wq * ((if b_decohesion b then if_N p0 3 / if_N p0 0 * A delta (i_max rq) dn else 0) + (if if_microtraction p0 then if_N p0 2 * E x dn else 0))
    - wq * ((if b_decohesion b then if_N p0 3 / if_N p0 0 * A delta0 (i_max hq) do else 0) + (if if_microtraction p0 then if_N p0 2 * E old do else 0))
    <= - (wq * ((if b_decohesion b then Dc else 0) + (if if_microtraction p0 then Sm else 0)) + wq * ((if b_decohesion b then Dn else 0) + (if if_microtraction p0 then Sn else 0)))).
  set (a1 := if_N p0 3 / if_N p0 0 * A delta (i_max rq) dn) in *. set (a0 := if_N p0 3 / if_N p0 0 * A delta0 (i_max hq) do) in *.
  set (m1 := if_N p0 2 * E x dn) in *. set (m0 := if_N p0 2 * E old do) in *.
  clearbody a1 a0 m1 m0 Sm Sn Dc Dn.
  assert (Q1 : (if b_decohesion b then a1 else 0) - (if b_decohesion b then a0 else 0) <= - ((if b_decohesion b then Dc else 0) + (if b_decohesion b then Dn else 0))).
  { destruct (b_decohesion b); [exact (PA eq_refl)|lra]. }
  assert (Q2 : (if if_microtraction p0 then m1 else 0) - (if if_microtraction p0 then m0 else 0) <= - ((if if_microtraction p0 then Sm else 0) + (if if_microtraction p0 then Sn else 0))).
  { destruct (if_microtraction p0); [exact (PM eq_refl)|lra]. }
  clear PA PM. repeat match goal with H : context [if b_decohesion b then ?u else 0] |- _ => set (u1 := if b_decohesion b then u else 0) in *; clearbody u1 end.
  repeat match goal with H : context [if if_microtraction p0 then ?u else 0] |- _ => set (v1 := if if_microtraction p0 then u else 0) in *; clearbody v1 end.
  nra.
Qed.

(** ** The body *)
Lemma virtual_power_parts b old x r w : virtual_power b old x r w =
  lsum (fun c => - grain_power b old x r w c + lsum (side_power b x r w c) (gb_neighbours b c)
    + lsum (fun f => load_power (cr_dim (b_crystal b c)) f (fun q s => sumn (el_nd (b_element b c)) (fun i => local_values b w c i * nf_phi f i q s))) (b_loads b c)) (b_cells b).
Proof. rewrite other_grains_visited. reflexivity. Qed.

Lemma body_balance b frames p0 macro0 old x h r : consistent b -> two_sided b -> stable_material b macro0 -> stable_interfaces b frames p0 -> grown b x h r ->
  stored_energy b frames (fun c => cr_macro (b_crystal b c)) x r - stored_energy b frames macro0 old h + dissipated b old x r <=
  load_work b (increment x old) + macroscopic_work b macro0 x - virtual_power b old x r (increment x old).
Proof.
  intros C T SM SI GR. set (w := increment x old). rewrite virtual_power_parts.
  unfold stored_energy.
  assert (G : grain_energy b (fun c => cr_macro (b_crystal b c)) x - grain_energy b macro0 old + dissipated b old x r
     - lsum (fun c => sumn (el_nq (b_element b c)) (fun q => el_w (b_element b c) q * (cr_N (b_crystal b c) 3 / cr_N (b_crystal b c) 0 *
      dot (cr_dim (b_crystal b c)) (fun r => sumn (el_nd (b_element b c)) (fun i => local_values b w c i * el_phi (b_element b c) i q r)) (cr_supply (b_crystal b c) q)))) (b_cells b)
     - macroscopic_work b macro0 x <= lsum (grain_power b old x r w) (b_cells b)).
  { unfold grain_energy, dissipated, macroscopic_work. rewrite <- lsum_minus, <- lsum_plus, <- !lsum_minus. apply lsum_le. intros c Hc.
    exact (grain_balance b macro0 old x r c C SM Hc). }
  assert (F : interfaces_energy b frames x r - interfaces_energy b frames old h <= - lsum (fun c => lsum (side_power b x r w c) (gb_neighbours b c)) (b_cells b)).
  { unfold interfaces_energy. rewrite <- other_grains_visited.
    assert (B : lsum (fun c => lsum (side_power b x r w c) (gb_neighbours b c)) (b_cells b) = lsum (fun c => lsum (fun n => side_power b x r w n c) (gb_neighbours b c)) (b_cells b)).
    { apply both_sides; [apply C|]. intros c n Hc Hn. destruct SI as (_ & _ & _ & _ & SI). destruct (SI c n Hc Hn) as (A1 & A2 & _).
      destruct C as (_ & _ & _ & C2). destruct (C2 c n Hc Hn) as (A3 & _). auto. }
    assert (K : lsum (fun c => lsum (face_energy b frames x r c) (gb_neighbours b c)) (b_cells b) - lsum (fun c => lsum (face_energy b frames old h c) (gb_neighbours b c)) (b_cells b)
       + (lsum (fun c => lsum (side_power b x r w c) (gb_neighbours b c)) (b_cells b) + lsum (fun c => lsum (fun n => side_power b x r w n c) (gb_neighbours b c)) (b_cells b)) <= 0).
    { rewrite <- lsum_minus, <- !lsum_plus. rewrite <- (lsum_zero (fun _ => 0) (b_cells b)) by reflexivity. apply lsum_le. intros c Hc.
      rewrite <- lsum_minus, <- !lsum_plus. rewrite <- (lsum_zero (fun _ => 0) (gb_neighbours b c)) by reflexivity. apply lsum_le. intros n Hn.
      pose proof (interface_balance b frames p0 old x h r c n C T SI GR Hc Hn). fold w in H. lra. }
    rewrite <- B in K. lra. }
  unfold load_work. rewrite !lsum_plus.
  assert (E : lsum (fun c => - grain_power b old x r w c) (b_cells b) = - lsum (grain_power b old x r w) (b_cells b)).
  { clear. induction (b_cells b) as [|c l IH]; cbn; [ring|]. rewrite IH. ring. }
  rewrite E. cbv zeta. lra.
Qed.

(** ** The histories of a step *)
Lemma damage_after_range z mx dc : 0 <= mx -> 0 < dc -> 0 <= damage_after z mx dc < 1.
Proof. intros. unfold damage_after. destruct z; [lra|]. apply exponential_damage_range; assumption. Qed.
Lemma damage_after_mono z m1 m2 dc : 0 <= m1 <= m2 -> 0 < dc -> damage_after z m1 dc <= damage_after z m2 dc.
Proof. intros [A B] D. unfold damage_after. destruct z; [lra|]. apply exponential_damage_mono; assumption. Qed.

Lemma kept_by_finish b old x r c n q : NoDup (b_cells b) -> (q < b_nfq b)%nat ->
  let iv := body_update b old x (body_store b r) in
  i_max (r_face (next_histories b old x r) (make_key c n) q) = i_max (r_face iv (make_key c n) q) /\
  i_damage (r_face (next_histories b old x r) (make_key c n) q) = i_damage (r_face iv (make_key c n) q).
Proof.
  intros N Hq iv.
  assert (S3 := swept_face b (Finish (fields_of b x x)) iv c n q (finish_completes b _ _ N) Hq).
  change (sweep_all b (Finish (fields_of b x x)) iv) with (next_histories b old x r) in S3. cbn [face_call_of] in S3. revert S3.
  generalize (r_face iv (make_key c n) q) (r_face (next_histories b old x r) (make_key c n) q). clear.
  induction (visits (sweep_of b) (b_cells b) (make_key c n)) as [|v vs IH]; intros h h' S3; cbn [map frun face_step istep rbind] in S3.
  - injection S3 as <-. auto.
  - apply IH in S3. exact S3.
Qed.
Lemma bulk_kept_by_finish b old x r c q : NoDup (b_cells b) -> In c (b_cells b) -> (q < b_nq b)%nat ->
  r_bulk (next_histories b old x r) c q = r_bulk (body_update b old x (body_store b r)) c q.
Proof.
  intros N Hc Hq.
  assert (S3 := swept_bulk b (Finish (fields_of b x x)) (body_update b old x (body_store b r)) c q N (finish_completes b _ _ N) Hc Hq).
  cbn [bulk_call brun] in S3. injection S3 as S3. symmetry. exact S3.
Qed.
Lemma sound_next b old x h : consistent b -> exponential_damage_only b -> two_sided b -> initialised b h -> sound_histories b h ->
  sound_histories b (next_histories b old x h) /\ grown b x h (next_histories b old x h).
Proof.
  intros C M T I [SB SF]. pose proof C as (N & HP & _). split; [split|].
  - intros c q Hc Hq. destruct (SB c q Hc Hq) as (L & A1 & A2 & A3).
    destruct (next_bulk b old x h c q N M I Hc Hq L) as (E1 & E2 & E3 & E4). rewrite E1, E2.
    repeat (split; [assumption|]). intros a Ha. unfold resistances_of. rewrite (E4 a Ha). specialize (A3 a Ha). unfold resistances_of in A3.
    destruct (flag_perfect_plasticity _); [lra|]. apply Rplus_lt_le_0_compat; [exact A3|].
    unfold hardening_increment. apply sumn_nonneg. intros j _. apply Rmult_le_pos; [apply Rmult_le_pos; [exact A1|]|apply Rabs_pos]. unfold kron. destruct (Nat.eqb _ _); lra.
  - intros D c n q Hc Hn Hq. destruct (SF D c n q Hc Hn Hq) as (A1 & A2).
    destruct (next_face b old x h c n q N M I T D Hc Hn Hq) as (E1 & E2). cbv zeta in E1, E2. rewrite E2, E1. cbn [val].
    split; [eapply Rle_trans; [exact A1|apply Rmax_l]|lra].
  - intros D c n q Hc Hn Hq. destruct (SF D c n q Hc Hn Hq) as (A1 & A2).
    destruct (next_face b old x h c n q N M I T D Hc Hn Hq) as (E1 & E2). cbv zeta in E1, E2. rewrite E2, E1. cbn [val].
    split; [apply Rmax_l|]. split; [apply Rmax_r|].
    set (mx := Rmax _ _). assert (Z : i_max (r_face h (make_key c n) q) <= mx) by apply Rmax_l.
    pose proof (damage_after_range (i_zero_damage (b_iprm b)) mx (i_crit_opening (b_iprm b)) ltac:(lra) HP).
    pose proof (damage_after_mono (i_zero_damage (b_iprm b)) _ mx (i_crit_opening (b_iprm b)) (conj A1 Z) HP). lra.
Qed.
Lemma grown_update b old x h : consistent b -> exponential_damage_only b -> two_sided b -> initialised b h -> sound_histories b h ->
  grown b x h (body_update b old x (body_store b h)).
Proof.
  intros C M T I S D c n q Hc Hn Hq. pose proof C as (N & _).
  destruct (sound_next b old x h C M T I S) as [_ G]. destruct (kept_by_finish b old x h c n q N Hq) as [E1 E2].
  rewrite <- E1, <- E2. exact (G D c n q Hc Hn Hq).
Qed.

Lemma stored_same b frames macro x r r' : consistent b ->
  (forall c n q, In c (b_cells b) -> In n (gb_neighbours b c) -> (q < b_nfq b)%nat -> i_max (r_face r (make_key c n) q) = i_max (r_face r' (make_key c n) q) /\
     i_damage (r_face r (make_key c n) q) = i_damage (r_face r' (make_key c n) q)) ->
  stored_energy b frames macro x r = stored_energy b frames macro x r'.
Proof.
  intros C E. unfold stored_energy, interfaces_energy. rewrite <- other_grains_visited. f_equal. f_equal. apply lsum_ext. intros c Hc. apply lsum_ext. intros n Hn.
  destruct C as (_ & _ & _ & C2). destruct (C2 c n Hc Hn) as (_ & _ & NQ & _).
  unfold face_energy. apply sumn_ext. intros q Hq. rewrite NQ in Hq. destruct (E c n q Hc Hn Hq) as [E1 E2]. cbv zeta. rewrite E1, E2. reflexivity.
Qed.
Lemma dissipated_same b old x r r' : consistent b ->
  (forall c q, In c (b_cells b) -> (q < b_nq b)%nat -> r_bulk r c q = r_bulk r' c q) -> dissipated b old x r = dissipated b old x r'.
Proof.
  intros C E. unfold dissipated. apply lsum_ext. intros c Hc. destruct C as (_ & _ & C1 & _). destruct (C1 c Hc) as (_ & NQ & _).
  apply sumn_ext. intros q Hq. rewrite NQ in Hq. unfold resistances_of. rewrite (E c q Hc Hq). reflexivity.
Qed.

(** ** The dissipation inequality *)
Lemma residual_work_linear ls u v : residual_work ls (increment u v) = residual_work ls u - residual_work ls v.
Proof.
  unfold residual_work. rewrite <- lsum_minus. apply lsum_ext. intros l _. rewrite <- sumn_minus. apply sumn_ext. intros i _. unfold increment. ring.
Qed.
Lemma power_linear b e sp a fuel t oo s r u v :
  consistent b -> exponential_damage_only b -> works_on e b -> initialised b (st_hist s) ->
  rate_independent sp = false \/ a <> Monolithic ->
  solve_nonlinear_system e sp a fuel t oo s = Done r ->
  let iv := body_update b (st_old s) (st_trial r) (body_store b (st_hist s)) in
  virtual_power b (st_old s) (st_trial r) iv (increment u v) = virtual_power b (st_old s) (st_trial r) iv u - virtual_power b (st_old s) (st_trial r) iv v.
Proof.
  intros C M (W1 & W2 & W3) I Ha E iv. pose proof C as (N & HP & C1 & _).
  destruct (C88_accepted_solution_is_converged _ sp a fuel e t oo s r) as [X _]; [rewrite W2; apply body_forgets; assumption|exact Ha|exact E|].
  unfold residual_within_tolerance in X. rewrite W1, W2, W3 in X. fold iv in X. destruct X as (uu & g & EN & _).
  unfold body_norms in EN. destruct (all_finite b (st_old s) (st_trial r) iv) eqn:AF; [|discriminate EN].
  assert (DR : damage_in_range b iv).
  { intros c n q Hc Hn Hq. apply updated_damage; auto. apply initialised_store; assumption. }
  rewrite <- !(body_power b _ _ _ _ C DR AF). apply residual_work_linear.
Qed.

Theorem C95_dissipation_inequality : forall b frames p0 macro0 e sp a fuel t oo s r moved_supports,
  consistent b -> exponential_damage_only b -> two_sided b -> stable_material b macro0 -> stable_interfaces b frames p0 ->
  works_on e b -> e_finish e = body_finish b -> initialised b (st_hist s) -> sound_histories b (st_hist s) ->
  rate_independent sp = false \/ a <> Monolithic ->
  solve_nonlinear_system e sp a fuel t oo s = Done r ->
  closed_below (b_ndofs b) (st_internal r) ->
  let old := st_old s in let x := st_trial r in let motion := increment x old in
  SpecLinear.admissible (b_ndofs b) (st_internal r) (increment motion moved_supports) ->
  let iv := body_update b old x (body_store b (st_hist s)) in
  stored_energy b frames (macro_of b) x (st_hist r) - stored_energy b frames macro0 old (st_hist s) + dissipated b old x (st_hist r) <=
  load_work b motion + macroscopic_work b macro0 x + support_work b old x iv moved_supports + tolerated sp a b (increment motion moved_supports).
Proof.
  intros b frames p0 macro0 e sp a fuel t oo s r v C M T SM SI W FI I S Ha E CB old x motion A iv. pose proof C as (N & _).
  pose proof W as (W1 & W2 & W3).
  assert (HF : forgets_iterates (e_update e)) by (rewrite W2; apply body_forgets; assumption).
  destruct (accepted_step sp e HF _ _ _ _ _ _ Ha E) as (_ & A2 & _). rewrite W1, W2, FI in A2. fold old x in A2.
  fold (next_histories b old x (st_hist s)) in A2.
  rewrite A2. rewrite (stored_same b frames _ x (next_histories b old x (st_hist s)) iv C).
  2:{ intros c n q Hc Hn Hq. exact (kept_by_finish b old x (st_hist s) c n q N Hq). }
  rewrite (dissipated_same b old x (next_histories b old x (st_hist s)) iv C).
  2:{ intros c q Hc Hq. exact (bulk_kept_by_finish b old x (st_hist s) c q N Hc Hq). }
  pose proof (body_balance b frames p0 macro0 old x (st_hist s) iv C T SM SI (grown_update b old x (st_hist s) C M T I S)) as B.
  fold motion in B. change (fun c => cr_macro (b_crystal b c)) with (macro_of b) in B.
  pose proof (power_linear b e sp a fuel t oo s r motion v C M W I Ha E) as L. cbv zeta in L. fold old x iv in L.
  pose proof (C92_accepted_solution_in_equilibrium b e sp a fuel t oo s r _ C M W I Ha E CB A) as Q. cbv zeta in Q. fold old x iv in Q.
  assert (Q' : Rabs (virtual_power b old x iv (increment motion v)) <= tolerated sp a b (increment motion v)) by (destruct a; exact Q).
  unfold support_work. pose proof (Rle_abs (- virtual_power b old x iv (increment motion v))) as P. rewrite Rabs_Ropp in P. lra.
Qed.

(** Slip dissipates; and nothing else does. *)
Theorem C95_slip_dissipates : forall b macro0 old x r, consistent b -> stable_material b macro0 -> sound_histories b r ->
  0 <= dissipated b old x r /\
  ((forall c q, In c (b_cells b) -> (q < b_nq b)%nat -> 0 < el_w (b_element b c) q) ->
   (dissipated b old x r = 0 <-> forall c q a, In c (b_cells b) -> (q < b_nq b)%nat -> (a < b_ns b)%nat -> slip_of b x c q a = slip_of b old c q a)).
Proof.
  intros b macro0 old x r C SM [SB _].
  assert (T : forall c q a, In c (b_cells b) -> (q < b_nq b)%nat -> (a < b_ns b)%nat ->
     let s := slip_at (b_element b c) (local_values b x c) q a in let so := slip_at (b_element b c) (local_values b old c) q a in
     let k := b_crystal b c in
     0 <= (s - so) * scalar_microstress (cr_law k) s so (resistances_of r c q a) (cr_dt k) /\
     ((s - so) * scalar_microstress (cr_law k) s so (resistances_of r c q a) (cr_dt k) = 0 <-> s = so)).
  { intros c q a Hc Hq Ha s so k. destruct (SM c Hc) as (_ & _ & _ & _ & _ & _ & _ & _ & _ & _ & _ & K & DT). cbv zeta in K, DT. fold k in K, DT.
    destruct (SB c q Hc Hq) as (_ & _ & _ & G). destruct (C25_dissipative (cr_law k) s so (resistances_of r c q a) (cr_dt k) DT K (G a Ha)) as [D1 D2].
    set (m := scalar_microstress _ _ _ _ _) in *.
    assert (E : (s - so) * m = cr_dt k * (m * ((s - so) / cr_dt k))) by (field; lra).
    rewrite E. split; [apply Rmult_le_pos; lra|]. rewrite <- D2. split; [intros Z|intros ->; ring].
    apply Rmult_integral in Z. destruct Z; [lra|assumption]. }
  assert (Q : forall c q, In c (b_cells b) -> (q < b_nq b)%nat ->
     let k := b_crystal b c in let z := sumn (cr_ns k) (fun a => (slip_of b x c q a - slip_of b old c q a) * scalar_microstress (cr_law k) (slip_of b x c q a) (slip_of b old c q a) (resistances_of r c q a) (cr_dt k)) in
     0 <= z /\ (z = 0 <-> forall a, (a < b_ns b)%nat -> slip_of b x c q a = slip_of b old c q a)).
  { intros c q Hc Hq k z. destruct (SM c Hc) as (_ & _ & _ & _ & _ & _ & _ & _ & _ & _ & NS & _). cbv zeta in NS. fold k in NS. unfold z. rewrite NS.
    split; [apply sumn_nonneg; intros a Ha; apply (T c q a Hc Hq Ha)|]. split.
    - intros Z a Ha. apply (T c q a Hc Hq Ha). exact (sumn_zero_each _ _ (fun i Hi => proj1 (T c q i Hc Hq Hi)) Z a Ha).
    - intros Z. apply sumn_zero. intros a Ha. apply (T c q a Hc Hq Ha). exact (Z a Ha). }
  assert (NQ : forall c, In c (b_cells b) -> el_nq (b_element b c) = b_nq b) by (intros c Hc; destruct C as (_ & _ & C1 & _); apply (C1 c Hc)).
  assert (W : forall c q, In c (b_cells b) -> (q < b_nq b)%nat -> 0 <= el_w (b_element b c) q).
  { intros c q Hc Hq. apply (SM c Hc). rewrite (NQ c Hc). exact Hq. }
  unfold dissipated. cbv zeta. split.
  { apply lsum_nonneg. intros c Hc. apply sumn_nonneg. intros q Hq. rewrite (NQ c Hc) in Hq. apply Rmult_le_pos; [apply W; assumption|]. apply (Q c q Hc Hq). }
  intros WP. split.
  - intros Z c q a Hc Hq Ha.
    assert (Zc := lsum_zero_each _ _ (fun c Hc => sumn_nonneg _ _ (fun q Hq => Rmult_le_pos _ _ (W c q Hc ltac:(rewrite <- (NQ c Hc); exact Hq)) (proj1 (Q c q Hc ltac:(rewrite <- (NQ c Hc); exact Hq))))) Z c Hc).
    assert (Zq := sumn_zero_each _ _ (fun q Hq => Rmult_le_pos _ _ (W c q Hc ltac:(rewrite <- (NQ c Hc); exact Hq)) (proj1 (Q c q Hc ltac:(rewrite <- (NQ c Hc); exact Hq)))) Zc q ltac:(rewrite (NQ c Hc); exact Hq)).
    cbn beta in Zq. apply Rmult_integral in Zq. specialize (WP c q Hc Hq). destruct Zq as [Zq|Zq]; [lra|]. apply (proj1 (proj2 (Q c q Hc Hq))); assumption.
  - intros Z. apply lsum_zero. intros c Hc. apply sumn_zero. intros q Hq. rewrite (NQ c Hc) in Hq.
    pose proof (proj2 (proj2 (Q c q Hc Hq)) (fun a Ha => Z c q a Hc Hq Ha)) as Y. cbv zeta in Y. unfold slip_of in Y. rewrite Y. ring.
Qed.

(** The stored energy is never negative. *)
Lemma degraded_nonneg m d b : 0 <= degraded m d b.
Proof. unfold degraded. destruct b; [apply pow_abs_nonneg|lra]. Qed.
Lemma defect_nonneg factor p d dir ort g : 0 <= factor -> 2 <= p -> 0 <= defect_energy factor p d dir ort g.
Proof.
  intros F P. unfold defect_energy. apply Rmult_le_pos; [apply Rmult_le_pos; [exact F|apply Rlt_le, Rinv_0_lt_compat; lra]|].
  apply Rplus_le_le_0_compat; apply pow_abs_nonneg.
Qed.
Theorem C95_stored_energy_nonneg : forall b frames p0 macro x r, consistent b -> stable_material b macro -> stable_interfaces b frames p0 ->
  0 <= stored_energy b frames macro x r.
Proof.
  intros b frames p0 macro x r C SM SI. unfold stored_energy. apply Rplus_le_le_0_compat.
  - unfold grain_energy. apply lsum_nonneg. intros c Hc. cbv zeta. apply sumn_nonneg. intros q Hq. pose proof (SM c Hc) as S. cbv zeta in S.
    destruct S as (W & N3 & N2 & F & _ & PSD & _ & _ & _ & S0 & _). apply Rmult_le_pos; [apply W; exact Hq|]. apply Rplus_le_le_0_compat.
    + apply Rmult_le_pos; [exact N3|]. pose proof (PSD _ (elastic_symmetric b macro macro x c q SM Hc S0)). lra.
    + apply Rmult_le_pos; [exact N2|]. apply sumn_nonneg. intros a _. apply defect_nonneg; [exact F|].
      destruct C as (_ & _ & C1 & _). apply (C1 c Hc).
  - unfold interfaces_energy. rewrite <- other_grains_visited. apply Rmult_le_pos; [lra|]. apply lsum_nonneg. intros c Hc. apply lsum_nonneg. intros n Hn.
    destruct SI as (ID & IC & SD & SMi & SI). destruct (SI c n Hc Hn) as (_ & _ & EI & _ & FP).
    unfold face_energy. rewrite EI. cbn [if_decohesion if_microtraction if_N if_dim if_ns if_exponent if_couple_macro if_couple_micro if_cohesive if_contact if_lambda if_chi if_dt if_moduli].
    apply sumn_nonneg. intros q Hq. destruct (FP q Hq) as (W0 & _). cbv zeta. apply Rmult_le_pos; [exact W0|]. apply Rplus_le_le_0_compat.
    + destruct (b_decohesion b) eqn:D; [|lra]. destruct (SD eq_refl) as (G1 & G2 & G3 & G4 & Q1 & Q2 & Q3 & N3 & _). rewrite <- IC in G1, G2, G3, G4.
      apply Rmult_le_pos; [exact N3|]. apply Rplus_le_le_0_compat.
      * unfold recoverable. cbn [if_decohesion if_microtraction if_N if_dim if_ns if_exponent if_couple_macro if_couple_micro if_cohesive if_contact if_lambda if_chi if_dt if_moduli].
        apply Rmult_le_pos; [apply degraded_nonneg|]. apply Rmult_le_pos; [|apply pow2_ge_0]. apply Rmult_le_pos; [lra|].
        apply Rmult_le_pos; [|apply Rlt_le, Rinv_0_lt_compat; exact G3]. unfold secant_stiffness.
        apply Rmult_le_pos; [|apply Rlt_le, exp_pos]. apply Rmult_le_pos; [|apply Rlt_le, Rinv_0_lt_compat; exact G2]. apply Rmult_le_pos; lra.
      * unfold contact_energy. cbn [if_contact if_dim]. apply Rmult_le_pos; [|apply pow2_ge_0]. apply Rmult_le_pos; [lra|].
        apply Rmult_le_pos; [apply Rmult_le_pos; lra|apply Rlt_le, Rinv_0_lt_compat; exact Q2].
    + destruct (if_microtraction p0) eqn:D; [|lra]. destruct (SMi eq_refl) as (Hd & HL & HX & HN2). apply Rmult_le_pos; [exact HN2|].
      unfold mismatch. cbn [if_exponent if_couple_micro if_lambda if_dim if_ns if_chi]. apply Rmult_le_pos; [apply degraded_nonneg|].
      apply Rmult_le_pos; [apply energy_nonneg; assumption|apply Rlt_le, Rinv_0_lt_compat; exact HX].
Qed.

(** The histories of a run are sound from set-up on. *)
Theorem C95_setup_is_sound : forall b r, consistent b -> (forall k q, r_face r k q = i_construct) ->
  0 < initial_slip_resistance (b_hardening b) / b_char_resistance b -> 0 <= linear_hardening_modulus (b_hardening b) / b_char_resistance b ->
  0 <= hardening_parameter (b_hardening b) ->
  sound_histories b (sweep_all b Initialise r).
Proof.
  intros b r (N & HP & _) Z G M K. split.
  - intros c q Hc Hq. destruct (fresh_bulk b r c q N Hc Hq) as (F1 & F2 & F3). cbv zeta in *. rewrite F1, F2, F3. split; [apply repeat_length|].
    split; [exact M|]. split; [exact K|]. intros a Ha. unfold resistances_of. rewrite F3, nth_repeat_below by exact Ha. exact G.
  - intros D c n q Hc Hn Hq. rewrite (fresh_face b r c n q N Hq (Z _ _)). split; [lra|].
    assert (S := swept_face b Initialise r c n q (initialise_completes b r N) Hq). rewrite Z in S.
    assert (Y : forall vs h h', frun h (map (fun v => face_call_of (sweep_of b) Initialise (fst v) (snd v) q) vs) = Ok h' -> i_damage h' = i_damage h).
    { clear. induction vs as [|v vs IH]; intros h h' S; cbn [map frun face_call_of face_step istep] in S; [injection S as <-; reflexivity|].
      destruct (i_prm h); cbn [rbind] in S; apply IH in S; exact S. }
    rewrite (Y _ _ _ S). cbn [i_construct i_damage val]. apply damage_after_range; [lra|exact HP].
Qed.
Theorem C95_step_keeps_soundness : forall b e sp a fuel t oo s r,
  consistent b -> exponential_damage_only b -> two_sided b -> works_on e b -> e_finish e = body_finish b ->
  initialised b (st_hist s) -> sound_histories b (st_hist s) -> rate_independent sp = false \/ a <> Monolithic ->
  solve_nonlinear_system e sp a fuel t oo s = Done r -> sound_histories b (st_hist r) /\ initialised b (st_hist r).
Proof.
  intros b e sp a fuel t oo s r C M T W FI I S Ha E. pose proof C as (N & _). pose proof W as (W1 & W2 & W3).
  assert (HF : forgets_iterates (e_update e)) by (rewrite W2; apply body_forgets; assumption).
  destruct (accepted_step sp e HF _ _ _ _ _ _ Ha E) as (_ & A2 & _). rewrite W1, W2, FI in A2. rewrite A2. split.
  - apply (sound_next b (st_old s) (st_trial r) (st_hist s)); assumption.
  - apply initialised_sweep; [exact N|]. apply initialised_sweep; [exact N|]. apply initialised_sweep; assumption.
Qed.

(** A body left to itself: no loads, supports and macroscopic strain held. *)
Theorem C95_isolated_body_loses_energy : forall b frames p0 e sp a fuel t oo s r,
  consistent b -> exponential_damage_only b -> two_sided b -> stable_material b (macro_of b) -> stable_interfaces b frames p0 ->
  works_on e b -> e_finish e = body_finish b -> initialised b (st_hist s) -> sound_histories b (st_hist s) ->
  rate_independent sp = false \/ a <> Monolithic ->
  (forall c q i, In c (b_cells b) -> cr_supply (b_crystal b c) q i = 0) -> (forall c, In c (b_cells b) -> b_loads b c = []) ->
  solve_nonlinear_system e sp a fuel t oo s = Done r ->
  closed_below (b_ndofs b) (st_internal r) ->
  SpecLinear.admissible (b_ndofs b) (st_internal r) (increment (st_trial r) (st_old s)) ->
  let before := stored_energy b frames (macro_of b) (st_old s) (st_hist s) in
  let after := stored_energy b frames (macro_of b) (st_trial r) (st_hist r) in
  let slack := tolerated sp a b (increment (st_trial r) (st_old s)) in
  after <= before + slack /\ 0 <= dissipated b (st_old s) (st_trial r) (st_hist r) <= before + slack.
Proof.
  intros b frames p0 e sp a fuel t oo s r C M T SM SI W FI I S Ha HS HL E CB A before after slack.
  set (w := increment (st_trial r) (st_old s)) in *.
  assert (Z : increment w (fun _ => 0) = w) by (apply functional_extensionality; intros d; unfold increment; ring).
  pose proof (C95_dissipation_inequality b frames p0 (macro_of b) e sp a fuel t oo s r (fun _ => 0) C M T SM SI W FI I S Ha E CB) as D.
  cbv zeta in D. fold w in D. rewrite Z in D. specialize (D A). fold before after in D. fold slack in D.
  assert (L : load_work b w = 0).
  { unfold load_work. apply lsum_zero. intros c Hc. rewrite (HL c Hc). cbv zeta. cbn [lsum]. rewrite Rplus_0_r. apply sumn_zero. intros q _.
    unfold dot. rewrite sumn_zero; [ring|]. intros i _. rewrite (HS c q i Hc). ring. }
  assert (MW : macroscopic_work b (macro_of b) (st_trial r) = 0).
  { unfold macroscopic_work. apply lsum_zero. intros c Hc. cbv zeta. apply sumn_zero. intros q _. unfold ddot. rewrite sumn_zero; [ring|].
    intros i _. apply sumn_zero. intros j _. unfold msub, macro_of. ring. }
  assert (SW : support_work b (st_old s) (st_trial r) (body_update b (st_old s) (st_trial r) (body_store b (st_hist s))) (fun _ => 0) = 0).
  { pose proof (power_linear b e sp a fuel t oo s r (fun _ => 0) (fun _ => 0) C M W I Ha E) as P. cbv zeta in P.
    assert (Z0 : increment (fun _ => 0) (fun _ => 0) = (fun _ => 0)) by (apply functional_extensionality; intros d; unfold increment; ring).
    rewrite Z0 in P. unfold support_work. lra. }
  destruct (C95_step_keeps_soundness b e sp a fuel t oo s r C M T W FI I S Ha E) as [SR _].
  destruct (C95_slip_dissipates b (macro_of b) (st_old s) (st_trial r) (st_hist r) C SM SR) as [P _].
  pose proof (C95_stored_energy_nonneg b frames p0 (macro_of b) (st_trial r) (st_hist r) C SM SI) as Q. fold after in Q. lra.
Qed.

(** ** Whole runs *)
Lemma same_solid_energy b b' frames macro x r : same_solid b b' -> stored_energy b' frames macro x r = stored_energy b frames macro x r.
Proof.
  intros ((P1 & P2 & P3 & P4 & P5 & P6 & P7) & E1 & E2 & E3 & E4 & KC & KI). unfold stored_energy. f_equal.
  - unfold grain_energy. rewrite P2. apply lsum_ext. intros c _. unfold elastic_strain_of, local_values. rewrite (KC c), <- E1, <- E2.
    cbn [cr_dim cr_ns cr_N cr_C cr_P cr_law cr_factor cr_p cr_dir cr_ort]. reflexivity.
  - unfold interfaces_energy. rewrite <- other_grains_visited. f_equal. rewrite P2. apply lsum_ext. intros c _. unfold gb_neighbours. rewrite P1, P6, E4. apply lsum_ext. intros n _.
    unfold face_energy, recoverable, contact_energy, mismatch, local_values. rewrite (KI c n), <- E1, <- E3, <- P6.
    cbn [if_decohesion if_microtraction if_N if_dim if_ns if_exponent if_couple_macro if_couple_micro if_cohesive if_contact if_lambda if_chi if_dt if_moduli]. reflexivity.
Qed.
Lemma same_points_sym b b' : same_points b b' -> same_points b' b.
Proof. intros (P1 & P2 & P3 & P4 & P5 & P6 & P7). repeat split; congruence. Qed.
Lemma same_points_sound b b' h : same_points b b' -> b_microtraction b = b_microtraction b' -> sound_histories b h -> sound_histories b' h.
Proof.
  intros (P1 & P2 & P3 & P4 & P5 & P6 & P7) E [A B]. unfold sound_histories, gb_neighbours in *. rewrite <- P1, <- P2, <- P3, <- P4, <- P5, <- P6, <- P7, <- E. split; assumption.
Qed.

Lemma run_balance sp a fuel b0 frames : forall (steps : list (body * (env rank_data * timing))) oo s o acc vs macro0,
  (forall b e t, In (b, (e, t)) steps -> consistent b /\ exponential_damage_only b /\ works_on e b /\ e_finish e = body_finish b /\ two_sided b /\
     same_solid b0 b /\ (exists p0, stable_interfaces b frames p0) /\ stable_material b macro0 /\
     forall b' e' t', In (b', (e', t')) steps -> stable_material b (macro_of b')) ->
  initialised b0 (st_hist s) -> sound_histories b0 (st_hist s) -> rate_independent sp = false \/ a <> Monolithic ->
  run sp a fuel (map snd steps) oo s = (o, acc) ->
  supports_move (map fst steps) acc vs (st_old s) ->
  forall k r b, nth_error acc k = Some r -> nth_error (map fst steps) k = Some b ->
  stored_energy b0 frames (macro_of b) (st_trial r) (st_hist r) - stored_energy b0 frames macro0 (st_old s) (st_hist s)
    + energy_dissipated (firstn (S k) (map fst steps)) (firstn (S k) acc) (st_old s) <=
  energy_supplied sp a (firstn (S k) (map fst steps)) (firstn (S k) acc) (firstn (S k) vs) macro0 (st_old s) (st_hist s) /\
  0 <= energy_dissipated (firstn (S k) (map fst steps)) (firstn (S k) acc) (st_old s).
Proof.
  induction steps as [|[b [e t]] steps IH]; intros oo s o acc vs macro0 HS HI SH Ha E SV k r b1 Hr Hb; [destruct k; discriminate Hb|].
  cbn [map fst snd run] in E.
  destruct (HS b e t (or_introl eq_refl)) as (C & M & W & FI & T & SS & (p0 & SI) & SM & SMB).
  destruct (solve_nonlinear_system e sp a fuel t oo s) as [r1| | |] eqn:S; try (injection E as _ <-; destruct k; discriminate Hr).
  cbn [shift_solutions] in E.
  set (s1 := mk_sstate _ _ _ _ _ _ _ _ _ _ _ _) in E.
  destruct (run sp a fuel (map snd steps) (st_old r1) s1) as [o1 acc1] eqn:R1. injection E as <- <-.
  pose proof SS as (SP & _ & _ & _ & SMT & _).
  pose proof (same_points_initialised b0 b _ SP HI) as Ib. pose proof (same_points_sound b0 b _ SP SMT SH) as Sb.
  destruct vs as [|v vs]; [destruct SV|]. cbn [map fst supports_move] in SV. destruct SV as (CB & A & SV).
  pose proof (C95_dissipation_inequality b frames p0 macro0 e sp a fuel t oo s r1 v C M T SM SI W FI Ib Sb Ha S CB A) as D. cbv zeta in D.
  rewrite !(same_solid_energy b0 b frames) in D by exact SS.
  destruct (C95_step_keeps_soundness b e sp a fuel t oo s r1 C M T W FI Ib Sb Ha S) as [Sr Ir].
  destruct (C95_slip_dissipates b macro0 (st_old s) (st_trial r1) (st_hist r1) C SM Sr) as [DP _].
  destruct k as [|k].
  - cbn in Hr, Hb. injection Hr as <-. injection Hb as <-. cbn [map fst firstn energy_dissipated energy_supplied]. lra.
  - cbn [nth_error] in Hr. cbn [map fst nth_error] in Hb.
    assert (X := IH (st_old r1) s1 o1 acc1 vs (macro_of b)).
    assert (H1 : initialised b0 (st_hist s1)) by (apply (same_points_initialised b b0); [apply same_points_sym; exact SP|exact Ir]).
    assert (H2 : sound_histories b0 (st_hist s1)) by (apply (same_points_sound b b0); [apply same_points_sym; exact SP|symmetry; exact SMT|exact Sr]).
    specialize (X (fun b' e' t' Hin => ltac:(destruct (HS b' e' t' (or_intror Hin)) as (Y1 & Y2 & Y3 & Y4 & Y5 & Y6 & Y7 & Y8 & Y9); 
      repeat (split; [assumption|]); split; [exact (Y9 b e t (or_introl eq_refl))|intros b'' e'' t'' Hin'; exact (Y9 b'' e'' t'' (or_intror Hin'))])) H1 H2 Ha R1 SV k r b1 Hr Hb).
    cbn [st_old st_hist s1] in X. change (firstn (Datatypes.S (Datatypes.S k)) (map fst ((b, (e, t)) :: steps))) with (b :: firstn (Datatypes.S k) (map fst steps)).
    change (firstn (Datatypes.S (Datatypes.S k)) (r1 :: acc1)) with (r1 :: firstn (Datatypes.S k) acc1).
    change (firstn (Datatypes.S (Datatypes.S k)) (v :: vs)) with (v :: firstn (Datatypes.S k) vs).
    cbn [energy_dissipated energy_supplied]. cbv zeta. lra.
Qed.
Theorem C95_energy_is_never_created : forall sp a fuel b0 frames steps r0 oo s acc motions,
  run_from_setup sp a fuel b0 steps r0 oo s acc ->
  consistent b0 -> 0 < initial_slip_resistance (b_hardening b0) / b_char_resistance b0 ->
  0 <= linear_hardening_modulus (b_hardening b0) / b_char_resistance b0 -> 0 <= hardening_parameter (b_hardening b0) ->
  (forall b e t, In (b, (e, t)) steps -> same_solid b0 b /\ (exists p0, stable_interfaces b frames p0) /\ stable_material b (macro_of b0) /\
     forall b' e' t', In (b', (e', t')) steps -> stable_material b (macro_of b')) ->
  supports_move (map fst steps) acc motions (st_old s) ->
  forall k r b, nth_error acc k = Some r -> nth_error (map fst steps) k = Some b ->
  stored_energy b0 frames (macro_of b) (st_trial r) (st_hist r) - stored_energy b0 frames (macro_of b0) (st_old s) (st_hist s)
    + energy_dissipated (firstn (S k) (map fst steps)) (firstn (S k) acc) (st_old s) <=
  energy_supplied sp a (firstn (S k) (map fst steps)) (firstn (S k) acc) (firstn (S k) motions) (macro_of b0) (st_old s) (st_hist s) /\
  0 <= energy_dissipated (firstn (S k) (map fst steps)) (firstn (S k) acc) (st_old s).
Proof.
  intros sp a fuel b0 frames steps r0 oo s acc motions (HS & N & Z & HI & Ha & o & E) C0 G1 G2 G3 HB SV k r b Hr Hb.
  apply (run_balance sp a fuel b0 frames steps oo s o acc motions (macro_of b0)); try assumption.
  - intros b' e' t' Hin. destruct (HS b' e' t' Hin) as (X1 & X2 & X3 & X4 & X5 & X6). destruct (HB b' e' t' Hin) as (Y1 & Y2 & Y3 & Y4).
    repeat (split; [assumption|]). exact Y4.
  - rewrite HI. apply C92_initialised_after_setup; [exact N|]. intros; rewrite Z; reflexivity.
  - rewrite HI. apply C95_setup_is_sound; assumption.
Qed.
