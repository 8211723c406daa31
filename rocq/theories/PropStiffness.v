(** * C96: the assembled Newton matrix is symmetric and positive (semi-)definite. *)
From Coq Require Import FunctionalExtensionality.
From Verif Require Import Num SumLemmas Tensors TensorLemmas ModelUtilities ModelElastic SpecElastic ProofElastic ModelMicro SpecMicro ProofMicro PropMicro
  ModelCohesive SpecCohesive ProofCohesive PropCohesive ModelHistory ModelInterface SpecInterface
  ModelFEField ModelActiveSet ModelLinear SpecLinear PropLinear ModelAssembly SpecAssembly ProofAssembly ProofNewton ProofFace PropAssembly
  ModelSweep SpecSweep PropSweep ModelStep ModelBody SpecBody PropBody ModelTangent SpecTangent ProofTangent PropTangent SpecRun
  SpecEnergy ProofEnergy PropEnergy SpecStiffness ProofStiffness.
Open Scope R_scope.

(** ** The two sides of a face *)
Definition pair_form (b : body) (frames : nat -> frame) (x : vec) (h : rank_data) (c n : nat) (w y : vec) : R :=
  let p := b_interface b c n in let f := b_face b c n in let d := if_dim p in let g := face_history_of h c n in
  sumn (fa_nq f) (fun q => fa_w f q *
    ((if if_decohesion p then if_factor p * dot d (opening_at f (local_values b w c) (local_values b w n) q)
         (mv d (face_K p f g (local_values b x c) (local_values b x n) q) (opening_at f (local_values b y c) (local_values b y n) q)) else 0)
     + (if if_microtraction p then if_N p 2 * val (deg_micro p g q) * (if_lambda p / if_chi p *
          ddotr d (cols d) (jump d (if_ns p) (frames n) (frames c) (fa_n f q) (face_slip (fa_nd f) (fa_npsi f) (local_values b w n) q) (face_slip (fa_nd f) (fa_psi f) (local_values b w c) q))
                           (jump d (if_ns p) (frames n) (frames c) (fa_n f q) (face_slip (fa_nd f) (fa_npsi f) (local_values b y n) q) (face_slip (fa_nd f) (fa_psi f) (local_values b y c) q))) else 0))).
Definition side_of (b : body) (x : vec) (h : rank_data) (w y : vec) (c n : nat) : R :=
  side_form (b_interface b c n) (b_face b c n) (face_history_of h c n) (local_values b x c) (local_values b x n)
    (local_values b w c) (local_values b y c) (local_values b y n).

Section Pair.
Variables (b : body) (frames : nat -> frame) (p0 : interface) (x : vec) (h : rank_data) (c n : nat).
Hypothesis C : consistent b.
Hypothesis T : two_sided b.
Hypothesis SI : stable_interfaces b frames p0.
Hypothesis Hc : In c (b_cells b).
Hypothesis Hn : In n (gb_neighbours b c).
Let p := b_interface b c n.
Let p' := b_interface b n c.
Let f := b_face b c n.
Let f' := b_face b n c.

Lemma other_side : In n (b_cells b) /\ In c (gb_neighbours b n).
Proof. destruct C as (_ & _ & _ & C2). destruct (C2 c n Hc Hn) as (A & _). destruct SI as (_ & _ & _ & _ & S). destruct (S c n Hc Hn) as (_ & B & _). auto. Qed.
Lemma other_opening v q : opening_at f' (local_values b v n) (local_values b v c) q = vneg (opening_at f (local_values b v c) (local_values b v n) q).
Proof.
  destruct (T c n Hc Hn) as (_ & TD & TF). destruct (TF q) as (EN & EP). fold f f' in TD, EN, EP.
  apply functional_extensionality. intros s. unfold vneg, opening_at, vsub, face_displacement. rewrite TD.
  rewrite (sumn_ext (fa_nd f) (fun j => local_values b v c j * fa_nphi f' j q s) (fun j => local_values b v c j * fa_phi f j q s)) by (intros; rewrite (proj2 (EP _)); reflexivity).
  rewrite (sumn_ext (fa_nd f) (fun j => local_values b v n j * fa_phi f' j q s) (fun j => local_values b v n j * fa_nphi f j q s)) by (intros; rewrite (proj1 (EP _)); reflexivity).
  ring.
Qed.
Lemma other_displacement v q : face_displacement (fa_nd f') (fa_phi f') (local_values b v n) q = face_displacement (fa_nd f) (fa_nphi f) (local_values b v n) q.
Proof.
  destruct (T c n Hc Hn) as (_ & TD & TF). destruct (TF q) as (EN & EP). fold f f' in TD, EN, EP.
  apply functional_extensionality. intros s. unfold face_displacement. rewrite TD. apply sumn_ext. intros j _. rewrite (proj1 (EP _)). reflexivity.
Qed.
Lemma other_slips v q : (q < fa_nq f)%nat ->
  face_slip (fa_nd f') (fa_psi f') (local_values b v n) q = face_slip (fa_nd f) (fa_npsi f) (local_values b v n) q /\
  face_slip (fa_nd f') (fa_npsi f') (local_values b v c) q = face_slip (fa_nd f) (fa_psi f) (local_values b v c) q.
Proof.
  intros Hq. destruct (T c n Hc Hn) as (_ & TD & _). destruct SI as (_ & _ & _ & _ & S). destruct (S c n Hc Hn) as (_ & _ & _ & _ & FP).
  destruct (FP q Hq) as (_ & _ & _ & PS). fold f f' in TD, PS.
  split; apply functional_extensionality; intros a; unfold face_slip; rewrite TD; apply sumn_ext; intros j _; [rewrite (proj1 (PS _ _))|rewrite (proj2 (PS _ _))]; reflexivity.
Qed.
Lemma other_K q i j : (i < if_dim p)%nat -> (j < if_dim p)%nat ->
  face_K p' f' (face_history_of h n c) (local_values b x n) (local_values b x c) q i j = face_K p f (face_history_of h c n) (local_values b x c) (local_values b x n) q i j.
Proof.
  intros Hi Hj. destruct other_side as (Hn' & Hcn). destruct SI as (_ & _ & _ & _ & S).
  destruct (S c n Hc Hn) as (_ & _ & EI & _). destruct (S n c Hn' Hcn) as (_ & _ & EI' & _). destruct (T c n Hc Hn) as (_ & _ & TF). destruct (TF q) as (EN & _).
  assert (K : face_history_of h n c = face_history_of h c n) by (unfold face_history_of; rewrite (PropSweep.make_key_sym n c); reflexivity).
  unfold face_K, deg_macro, damage_at. rewrite K, other_opening. unfold f', f, p', p in *. rewrite EN, EI', EI in *. cbn [if_dim if_cohesive if_contact if_dt if_couple_macro if_exponent if_decohesion] in *.
  rewrite jacobian_neg, contact_jacobian_neg by assumption. reflexivity.
Qed.

Lemma pair_sides w y : side_of b x h w y c n + side_of b x h w y n c = pair_form b frames x h c n w y.
Proof.
  destruct other_side as (Hn' & Hcn). pose proof SI as (_ & _ & _ & SM & S).
  destruct (S c n Hc Hn) as (_ & _ & EI & FQ & FP). destruct (S n c Hn' Hcn) as (_ & _ & EI' & _).
  assert (K : face_history_of h n c = face_history_of h c n) by (unfold face_history_of; rewrite (PropSweep.make_key_sym n c); reflexivity).
  assert (OK := other_K). assert (OS := other_slips). assert (OD := other_displacement). assert (OO := other_opening).
  unfold side_of, side_form, pair_form. cbv zeta. fold p p' f f'. fold p in EI. fold p' in EI'.
  fold f f' in FQ, FP. rewrite FQ. rewrite <- !sumn_opp, <- sumn_plus. apply sumn_ext. intros q Hq.
  destruct (FP q Hq) as (_ & W1 & _ & _). rewrite W1. destruct (T c n Hc Hn) as (_ & _ & TF). destruct (TF q) as (EN & _). fold f f' in EN.
  assert (ED : if_dim p' = if_dim p) by (rewrite EI, EI'; reflexivity).
  assert (X : - (fa_w f q * ((if if_decohesion p then if_factor p * dot (if_dim p) (face_displacement (fa_nd f) (fa_phi f) (local_values b w c) q)
         (mv (if_dim p) (face_K p f (face_history_of h c n) (local_values b x c) (local_values b x n) q) (opening_at f (local_values b y c) (local_values b y n) q)) else 0)))
     + - (fa_w f q * ((if if_decohesion p' then if_factor p' * dot (if_dim p') (face_displacement (fa_nd f') (fa_phi f') (local_values b w n) q)
         (mv (if_dim p') (face_K p' f' (face_history_of h n c) (local_values b x n) (local_values b x c) q) (opening_at f' (local_values b y n) (local_values b y c) q)) else 0)))
     = fa_w f q * (if if_decohesion p then if_factor p * dot (if_dim p) (opening_at f (local_values b w c) (local_values b w n) q)
         (mv (if_dim p) (face_K p f (face_history_of h c n) (local_values b x c) (local_values b x n) q) (opening_at f (local_values b y c) (local_values b y n) q)) else 0)).
  { assert (E1 : if_decohesion p' = if_decohesion p) by (rewrite EI, EI'; reflexivity).
    assert (E2 : if_factor p' = if_factor p) by (unfold if_factor; rewrite EI, EI'; reflexivity).
    rewrite E1, E2, ED, OD, OO. destruct (if_decohesion p); [|ring].
    rewrite (dot_ext (if_dim p) (face_displacement (fa_nd f) (fa_nphi f) (local_values b w n) q) (mv (if_dim p) (face_K p' f' _ _ _ q) _)
        (face_displacement (fa_nd f) (fa_nphi f) (local_values b w n) q)
        (vneg (mv (if_dim p) (face_K p f (face_history_of h c n) (local_values b x c) (local_values b x n) q) (opening_at f (local_values b y c) (local_values b y n) q)))).
    - rewrite dot_neg_r. unfold opening_at at 3. rewrite dot_sub_l. ring.
    - reflexivity.
    - intros i Hi. unfold vneg at 2, mv. rewrite <- sumn_opp. apply sumn_ext. intros j Hj. rewrite OK by assumption. unfold vneg. ring. }
  assert (Y : - (fa_w f q * (if if_microtraction p then if_N p 2 * val (deg_micro p (face_history_of h c n) q) * sumn (if_ns p) (fun a => face_slip (fa_nd f) (fa_psi f) (local_values b w c) q a *
          microtraction (if_lambda p) (if_chi p) (if_ns p) (if_moduli p q) (face_slip (fa_nd f) (fa_psi f) (local_values b y c) q) (face_slip (fa_nd f) (fa_npsi f) (local_values b y n) q) a) else 0))
     + - (fa_w f q * (if if_microtraction p' then if_N p' 2 * val (deg_micro p' (face_history_of h n c) q) * sumn (if_ns p') (fun a => face_slip (fa_nd f') (fa_psi f') (local_values b w n) q a *
          microtraction (if_lambda p') (if_chi p') (if_ns p') (if_moduli p' q) (face_slip (fa_nd f') (fa_psi f') (local_values b y n) q) (face_slip (fa_nd f') (fa_npsi f') (local_values b y c) q) a) else 0))
     = fa_w f q * (if if_microtraction p then if_N p 2 * val (deg_micro p (face_history_of h c n) q) * (if_lambda p / if_chi p *
          ddotr (if_dim p) (cols (if_dim p)) (jump (if_dim p) (if_ns p) (frames n) (frames c) (fa_n f q) (face_slip (fa_nd f) (fa_npsi f) (local_values b w n) q) (face_slip (fa_nd f) (fa_psi f) (local_values b w c) q))
                           (jump (if_dim p) (if_ns p) (frames n) (frames c) (fa_n f q) (face_slip (fa_nd f) (fa_npsi f) (local_values b y n) q) (face_slip (fa_nd f) (fa_psi f) (local_values b y c) q))) else 0)).
  { rewrite (proj1 (OS w q Hq)), (proj1 (OS y q Hq)), (proj2 (OS y q Hq)).
    assert (DG : deg_micro p' (face_history_of h n c) q = deg_micro p (face_history_of h c n) q) by (unfold deg_micro, damage_at; rewrite K, EI, EI'; reflexivity).
    rewrite DG. generalize (val (deg_micro p (face_history_of h c n) q)); intros dg. rewrite EI, EI'. fold f f'.
    cbn [if_dim if_ns if_microtraction if_N if_lambda if_chi if_moduli]. rewrite EN. destruct (if_microtraction p0); [|ring].
    destruct (SM eq_refl) as (D23 & _ & CH & _).
    pose proof (micro_power (if_lambda p0) (if_chi p0) (if_dim p0) (if_ns p0) (frames n) (frames c) (fa_n f q)
      (face_slip (fa_nd f) (fa_npsi f) (local_values b y n) q) (face_slip (fa_nd f) (fa_psi f) (local_values b y c) q)
      (face_slip (fa_nd f) (fa_npsi f) (local_values b w n) q) (face_slip (fa_nd f) (fa_psi f) (local_values b w c) q) D23 ltac:(lra)) as MP.
    match type of MP with ?A + ?B = - ?D => set (mA := A) in *; set (mB := B) in *; set (mD := D) in * end.
    clearbody mA mB mD. replace mD with (- (mA + mB)) by lra. ring. }
  transitivity (- (fa_w f q * ((if if_decohesion p then if_factor p * dot (if_dim p) (face_displacement (fa_nd f) (fa_phi f) (local_values b w c) q)
         (mv (if_dim p) (face_K p f (face_history_of h c n) (local_values b x c) (local_values b x n) q) (opening_at f (local_values b y c) (local_values b y n) q)) else 0)))
     + - (fa_w f q * ((if if_decohesion p' then if_factor p' * dot (if_dim p') (face_displacement (fa_nd f') (fa_phi f') (local_values b w n) q)
         (mv (if_dim p') (face_K p' f' (face_history_of h n c) (local_values b x n) (local_values b x c) q) (opening_at f' (local_values b y n) (local_values b y c) q)) else 0)))
     + (- (fa_w f q * (if if_microtraction p then if_N p 2 * val (deg_micro p (face_history_of h c n) q) * sumn (if_ns p) (fun a => face_slip (fa_nd f) (fa_psi f) (local_values b w c) q a *
          microtraction (if_lambda p) (if_chi p) (if_ns p) (if_moduli p q) (face_slip (fa_nd f) (fa_psi f) (local_values b y c) q) (face_slip (fa_nd f) (fa_npsi f) (local_values b y n) q) a) else 0))
     + - (fa_w f q * (if if_microtraction p' then if_N p' 2 * val (deg_micro p' (face_history_of h n c) q) * sumn (if_ns p') (fun a => face_slip (fa_nd f') (fa_psi f') (local_values b w n) q a *
          microtraction (if_lambda p') (if_chi p') (if_ns p') (if_moduli p' q) (face_slip (fa_nd f') (fa_psi f') (local_values b y n) q) (face_slip (fa_nd f') (fa_npsi f') (local_values b y c) q) a) else 0)))).
  - ring.
  - rewrite X, Y. ring.
Qed.

Lemma pair_sym w y : pair_form b frames x h c n w y = pair_form b frames x h c n y w.
Proof.
  apply sumn_ext. intros q _. cbv zeta. f_equal. f_equal.
  - rewrite face_K_sym. reflexivity.
  - rewrite ddotr_comm. reflexivity.
Qed.
Lemma pair_nonneg w : sound_interfaces b h -> no_softening b x h -> 0 <= pair_form b frames x h c n w w.
Proof.
  intros SO NS. pose proof C as (_ & _ & _ & C2). destruct (C2 c n Hc Hn) as (_ & _ & NQ & DC & EX & _).
  pose proof SI as (ID & IC & SD & SM & S). destruct (S c n Hc Hn) as (_ & _ & EI & FQ & FP). fold p in DC, EX, EI. fold f in NQ, FQ, FP.
  unfold pair_form. cbv zeta. fold p f. apply sumn_nonneg. intros q Hq. destruct (FP q Hq) as (W0 & _ & NU & _).
  assert (DA : 0 <= damage_at p (face_history_of h c n) q <= 1).
  { unfold damage_at. rewrite DC. destruct (b_decohesion b) eqn:D; [|lra]. rewrite NQ in Hq. destruct (SO D c n q Hc Hn Hq) as (_ & A). exact A. }
  assert (ED : if_dim p = b_dim b) by (rewrite EI; exact ID). assert (EC : if_cohesive p = b_cohesive b) by (rewrite EI; exact IC).
  apply Rmult_le_pos; [exact W0|]. apply Rplus_le_le_0_compat.
  - rewrite DC. destruct (b_decohesion b) eqn:D; [|lra]. destruct (SD eq_refl) as (S1 & S2 & S3 & S4 & S5 & S6 & S7 & S8 & S9).
    apply Rmult_le_pos; [unfold if_factor; rewrite EI; exact S8|]. rewrite NQ in Hq. destruct (SO D c n q Hc Hn Hq) as (MX & _).
    apply face_K_psd; try assumption.
    + rewrite EC. repeat split; assumption.
    + unfold unit_vec. rewrite ED. exact NU.
    + destruct MX as [A|(B1 & B2)]; [left; exact A|right]. split; [exact B1|]. split; [exact B2|]. rewrite EI. exact S9.
    + rewrite EI. exact S5.
    + rewrite EI. exact S6.
    + cbv zeta. rewrite EC, ED. exact (NS D c n q Hc Hn Hq).
  - destruct (if_microtraction p) eqn:M; [|lra]. rewrite EI in M. cbn in M. destruct (SM M) as (_ & L & CH & N2).
    apply Rmult_le_pos; [apply Rmult_le_pos; [rewrite EI; exact N2|]|].
    + unfold deg_micro, degradation. destruct (if_couple_micro p); [|cbn; lra].
      destruct (degradation_range (if_exponent p) _ EX DA) as (z & E' & Z). unfold degradation in E'. rewrite E'. cbn. lra.
    + apply Rmult_le_pos; [apply Rmult_le_pos; [rewrite EI; exact L|left; apply Rinv_0_lt_compat; rewrite EI; exact CH]|].
      unfold ddotr. apply sumn_nonneg. intros. apply sumn_nonneg. intros. apply Rle_0_sqr.
Qed.
End Pair.

(** ** The work of the cells' matrices *)
Section Work.
Variables (b : body) (frames : nat -> frame) (p0 : interface) (old x : vec) (h : rank_data).
Hypothesis C : consistent b.
Hypothesis T : two_sided b.
Hypothesis SI : stable_interfaces b frames p0.
Hypothesis SO : sound_interfaces b h.

Definition grain_of (w y : vec) (c : nat) : R :=
  bulk_form (b_crystal b c) (b_element b c) (local_values b x c) (local_values b old c) (resistances_of h c) (local_values b w c) (local_values b y c).

Lemma side_entries c n W Y Yn : In c (b_cells b) -> In n (gb_neighbours b c) ->
  let p := b_interface b c n in let f := b_face b c n in let g := face_history_of h c n in
  let U := local_values b x c in let Un := local_values b x n in
  sumn (el_nd (b_element b c)) (fun i => W i * (sumn (el_nd (b_element b c)) (fun j => val (jacobian_face_local p f g U Un i j) * Y j)
     + sumn (el_nd (b_element b c)) (fun j => val (jacobian_face_coupling p f g U Un i j) * Yn j))) = side_form p f g U Un W Y Yn /\
  forall i j, (i < el_nd (b_element b c))%nat -> (j < el_nd (b_element b c))%nat -> jacobian_face_local p f g U Un i j = Fin (val (jacobian_face_local p f g U Un i j)).
Proof.
  intros Hc Hn p f g U Un. pose proof C as (_ & _ & _ & C2). destruct (C2 c n Hc Hn) as (_ & ND & NQ & DC & EX & PF).
  pose proof SI as (ID & IC & SD & _ & S). destruct (S c n Hc Hn) as (_ & _ & EI & _). rewrite <- ND.
  apply side_work; [exact PF|exact EX|]. fold p in DC. rewrite DC. intros D. destruct (SD D) as (_ & _ & S3 & _ & _ & _ & _ & _ & S9). split.
  - unfold p. rewrite EI. cbn [if_cohesive]. rewrite IC. lra.
  - intros q Hq. change (q < fa_nq (b_face b c n))%nat in Hq. rewrite NQ in Hq. destruct (SO D c n q Hc Hn Hq) as (A & B). split; [|exact B].
    destruct A as [A|(A1 & A2)]; [left; exact A|right]. split; [exact A1|]. split; [exact A2|]. unfold p. rewrite EI. exact S9.
Qed.

Lemma row_of c i v : In c (b_cells b) -> (i < length (b_dofs b c))%nat ->
  let l := newton_system b old x h c in
  let dofs := mc_dofs (ls_cell l) in
  sumn (length dofs) (fun j => ls_matrix l i j * v (nth j dofs 0%nat)) +
       (if coupled b then
          sumn (length (interfaces (ls_cell l))) (fun k =>
            let far := nb_dofs (nth k (interfaces (ls_cell l)) (mk_neighbour 0 0 [])) in
            sumn (length far) (fun j => ls_coupling l k i j * v (nth j far 0%nat)))
        else 0) =
  sumn (el_nd (b_element b c)) (fun j => val (jacobian_bulk (b_crystal b c) (b_element b c) (local_values b x c) (local_values b old c) (resistances_of h c) i j) * local_values b v c j)
  + lsum (fun n => sumn (el_nd (b_element b c)) (fun j =>
      val (jacobian_face_local (b_interface b c n) (b_face b c n) (face_history_of h c n) (local_values b x c) (local_values b x n) i j) * local_values b v c j)
      + sumn (el_nd (b_element b c)) (fun j =>
      val (jacobian_face_coupling (b_interface b c n) (b_face b c n) (face_history_of h c n) (local_values b x c) (local_values b x n) i j) * local_values b v n j))
     (gb_neighbours b c).
Proof.
  intros Hc Hi l dofs. pose proof C as (_ & _ & C1 & C2). destruct (C1 c Hc) as (L & _ & _ & P & Hp & HN).
  assert (CM : forall j, (j < el_nd (b_element b c))%nat -> value_of (cell_matrix_entry b old x h c i j) =
     val (jacobian_bulk (b_crystal b c) (b_element b c) (local_values b x c) (local_values b old c) (resistances_of h c) i j)
     + lsum (fun n => val (jacobian_face_local (b_interface b c n) (b_face b c n) (face_history_of h c n) (local_values b x c) (local_values b x n) i j)) (gb_neighbours b c)).
  { intros j Hj. rewrite L in Hi. unfold cell_matrix_entry. rewrite jacobian_form by assumption.
    rewrite (fold_fin (fun n => jacobian_face_local (b_interface b c n) (b_face b c n) (face_history_of h c n) (local_values b x c) (local_values b x n) i j)).
    - reflexivity.
    - intros n Hn. apply (proj2 (side_entries c n (fun _ => 0) (fun _ => 0) (fun _ => 0) Hc Hn)); assumption. }
  unfold dofs, l. cbn [newton_system ls_cell ls_matrix ls_coupling]. cbn [body_cell mc_dofs]. rewrite L.
  rewrite (sumn_ext (el_nd (b_element b c)) (fun j => value_of (cell_matrix_entry b old x h c i j) * v (nth j (b_dofs b c) 0%nat)) (fun j =>
     val (jacobian_bulk (b_crystal b c) (b_element b c) (local_values b x c) (local_values b old c) (resistances_of h c) i j) * local_values b v c j
     + lsum (fun n => val (jacobian_face_local (b_interface b c n) (b_face b c n) (face_history_of h c n) (local_values b x c) (local_values b x n) i j)
                      * local_values b v c j) (gb_neighbours b c)))
    by (intros j Hj; rewrite CM, lsum_scal_r by exact Hj; unfold local_values; ring).
  rewrite sumn_plus.
  assert (SW : forall ns (g : nat -> nat -> R) k, sumn k (fun j => lsum (fun n => g n j) ns) = lsum (fun n : nat => sumn k (g n)) ns).
  { induction ns as [|n ns IH]; intros g k; cbn [lsum]; [apply sumn_0|]. rewrite sumn_plus, IH. reflexivity. }
  rewrite SW, lsum_plus, !Rplus_assoc. f_equal. f_equal.
  fold (body_cell b c). change (mk_mesh_cell _ _ _ _) with (body_cell b c). rewrite interfaces_body.
  unfold cell_coupling_entry, gb_neighbours. fold (coupled b).
  destruct (Bool.bool_dec (coupled b) true) as [K|K]; [|apply Bool.not_true_is_false in K]; rewrite K.
  2:{ unfold visited. rewrite Bool.andb_false_r. reflexivity. }
  assert (GN : gb_neighbours b c = visited (b_mesh b) true c) by (unfold gb_neighbours; fold (coupled b); rewrite K; reflexivity).
  rewrite map_length. cbv zeta. rewrite <- (lsum_seq _ (length _)).
  assert (MN : forall (g : nat -> R) ns, lsum g ns = lsum (fun k => g (nth k ns 0%nat)) (seq 0 (length ns))).
  { intros g ns. transitivity (lsum g (map (fun k => nth k ns 0%nat) (seq 0 (length ns)))).
    - f_equal. apply nth_ext with (d := 0%nat) (d' := 0%nat); [rewrite map_length, seq_length; reflexivity|].
      intros k Hk. rewrite (nth_indep (map _ _) 0%nat (nth 0 ns 0%nat)) by (rewrite map_length, seq_length; exact Hk).
      rewrite (map_nth (fun k => nth k ns 0%nat)). rewrite seq_nth by exact Hk. reflexivity.
    - apply lsum_map. }
  rewrite (MN _ (visited (b_mesh b) true c)). apply lsum_ext. intros k Hk. apply in_seq in Hk.
  set (n := nth k (visited (b_mesh b) true c) 0%nat).
  assert (Hn : In n (gb_neighbours b c)) by (rewrite GN; apply nth_In; lia).
  rewrite (nth_indep (map _ (visited (b_mesh b) true c)) _ (mk_neighbour (sm_material (b_mesh b) 0%nat) (sm_material (b_mesh b) 0%nat) (b_dofs b 0%nat))) by (rewrite map_length; lia).
  rewrite (map_nth (fun n => mk_neighbour (sm_material (b_mesh b) n) (sm_material (b_mesh b) n) (b_dofs b n))). fold n. cbn [nb_dofs].
  destruct (T c n Hc Hn) as (LL & _). rewrite LL, L. apply sumn_ext. intros j Hj. rewrite value_of_val. reflexivity.
Qed.

Lemma work_of_cells w y : jacobian_work (coupled b) (map (newton_system b old x h) (b_cells b)) w y =
  lsum (grain_of w y) (b_cells b) + lsum (fun c => lsum (side_of b x h w y c) (gb_neighbours b c)) (b_cells b).
Proof.
  unfold jacobian_work. rewrite lsum_map, <- lsum_plus. apply lsum_ext. intros c Hc. cbv zeta.
  pose proof C as (_ & _ & C1 & C2). destruct (C1 c Hc) as (L & _ & _ & P & Hp & HN).
  change (mc_dofs (ls_cell (newton_system b old x h c))) with (b_dofs b c).
  rewrite (sumn_ext (length (b_dofs b c)) _ (fun i => local_values b w c i *
     (sumn (el_nd (b_element b c)) (fun j => val (jacobian_bulk (b_crystal b c) (b_element b c) (local_values b x c) (local_values b old c) (resistances_of h c) i j) * local_values b y c j))
    + lsum (fun n => local_values b w c i * (sumn (el_nd (b_element b c)) (fun j =>
      val (jacobian_face_local (b_interface b c n) (b_face b c n) (face_history_of h c n) (local_values b x c) (local_values b x n) i j) * local_values b y c j)
      + sumn (el_nd (b_element b c)) (fun j =>
      val (jacobian_face_coupling (b_interface b c n) (b_face b c n) (face_history_of h c n) (local_values b x c) (local_values b x n) i j) * local_values b y n j)))
     (gb_neighbours b c))).
  2:{ intros i Hi. pose proof (row_of c i y Hc Hi) as CR. cbv zeta in CR.
      change (mc_dofs (ls_cell (newton_system b old x h c))) with (b_dofs b c) in CR. rewrite CR.
      rewrite lsum_scal. change (w (nth i (b_dofs b c) 0%nat)) with (local_values b w c i). ring. }
  rewrite L, sumn_plus. f_equal.
  - unfold grain_of. apply bulk_work; assumption.
  - assert (SW : forall ns (g : nat -> nat -> R) k, sumn k (fun j => lsum (fun n => g n j) ns) = lsum (fun n : nat => sumn k (g n)) ns).
    { induction ns as [|n ns IH]; intros g k; cbn [lsum]; [apply sumn_0|]. rewrite sumn_plus, IH. reflexivity. }
    rewrite SW. apply lsum_ext. intros n Hn. apply (proj1 (side_entries c n (local_values b w c) (local_values b y c) (local_values b y n) Hc Hn)).
Qed.

Lemma work_of_body w y : jacobian_work (coupled b) (map (newton_system b old x h) (b_cells b)) w y =
  lsum (grain_of w y) (b_cells b) + / 2 * lsum (fun c => lsum (fun n => pair_form b frames x h c n w y) (gb_neighbours b c)) (b_cells b).
Proof.
  rewrite work_of_cells. f_equal.
  assert (B : lsum (fun c => lsum (side_of b x h w y c) (gb_neighbours b c)) (b_cells b) = lsum (fun c => lsum (fun n => side_of b x h w y n c) (gb_neighbours b c)) (b_cells b)).
  { apply (both_sides (gb_neighbours b) (side_of b x h w y)); [apply C|]. intros c n Hc Hn. destruct SI as (_ & _ & _ & _ & S). destruct (S c n Hc Hn) as (A1 & A2 & _).
    destruct C as (_ & _ & _ & C2). destruct (C2 c n Hc Hn) as (A3 & _). auto. }
  rewrite (lsum_ext (fun c => lsum (fun n => pair_form b frames x h c n w y) (gb_neighbours b c))
    (fun c => lsum (side_of b x h w y c) (gb_neighbours b c) + lsum (fun n => side_of b x h w y n c) (gb_neighbours b c))).
  - rewrite lsum_plus, <- B. field.
  - intros c Hc. rewrite <- lsum_plus. apply lsum_ext. intros n Hn. symmetry. apply (pair_sides b frames p0); assumption.
Qed.
End Work.

(** ** The assembled matrix *)
Section Matrix.
Variables (b : body) (frames : nat -> frame) (p0 : interface) (old x : vec) (h : rank_data) (pattern : list (nat * nat)) (k : constraints) (ws : list (nat * nat * R)).
Hypothesis C : consistent b.
Hypothesis T : two_sided b.
Hypothesis SM : stable_material b (macro_of b).
Hypothesis SI : stable_interfaces b frames p0.
Hypothesis SO : sound_interfaces b h.
Hypothesis CB : closed_below (b_ndofs b) k.
Hypothesis DC : dofs_of_cells b k.
Hypothesis J : body_jacobian b old x h pattern k = Ok ws.
Let ls := map (newton_system b old x h) (b_cells b).

Lemma form_of_matrix v y : quadratic (b_ndofs b) (matrix_of ws) v y =
  lsum (grain_of b old x h (expand k v) (expand k y)) (b_cells b)
  + / 2 * lsum (fun c => lsum (fun n => pair_form b frames x h c n (expand k v) (expand k y)) (gb_neighbours b c)) (b_cells b)
  + lsum (fun l => diagonal_form k l v y) ls.
Proof.
  pose proof (newton_numbered b old x k C CB h DC) as NU. unfold quadratic.
  rewrite (matrix_form (b_ndofs b) ws v y) by (eapply assemble_below; [exact NU|apply incl_refl|exact J]).
  rewrite (assemble_form _ _ _ _ _ _ _ J). f_equal. apply (work_of_body b frames p0); assumption.
Qed.
Lemma matrix_symmetric v y : quadratic (b_ndofs b) (matrix_of ws) v y = quadratic (b_ndofs b) (matrix_of ws) y v.
Proof.
  rewrite !form_of_matrix. f_equal; [f_equal|].
  - apply lsum_ext. intros c Hc. apply bulk_sym. apply (SM c Hc).
  - f_equal. apply lsum_ext. intros c Hc. apply lsum_ext. intros n Hn. apply pair_sym; assumption.
  - apply lsum_ext. intros l _. apply sumn_ext. intros i _. destruct (is_constrained k _); ring.
Qed.

Hypothesis HA : hardens b h.
Hypothesis NS : no_softening b x h.
Lemma grain_nonneg v c : In c (b_cells b) -> 0 <= grain_of b old x h v v c.
Proof.
  intros Hc. destruct (SM c Hc) as (S1 & S2 & S3 & S4 & S5 & S6 & S7 & S8 & S9 & S10 & S11 & S12 & S13).
  destruct (HA c Hc) as (H1 & H2 & H3 & H4). pose proof C as (_ & _ & C1 & _). destruct (C1 c Hc) as (_ & NQ & _ & _ & Hp & _).
  apply bulk_nonneg; try assumption. intros q a Hq Ha. rewrite NQ in Hq. cbv zeta in S11. rewrite S11 in Ha. apply H4; assumption.
Qed.
Lemma diagonal_nonneg l v : 0 <= diagonal_form k l v v.
Proof.
  apply sumn_nonneg. intros i _. destruct (is_constrained k _); [|lra]. apply Rmult_le_pos; [left; apply diagonal_positive|apply Rle_0_sqr].
Qed.
Lemma parts_nonneg v : 0 <= lsum (grain_of b old x h v v) (b_cells b) /\
  0 <= lsum (fun c => lsum (fun n => pair_form b frames x h c n v v) (gb_neighbours b c)) (b_cells b) /\
  0 <= lsum (fun l => diagonal_form k l v v) ls.
Proof.
  split; [|split].
  - apply lsum_nonneg. intros c Hc. apply grain_nonneg. exact Hc.
  - apply lsum_nonneg. intros c Hc. apply lsum_nonneg. intros n Hn. apply (pair_nonneg b frames p0); assumption.
  - apply lsum_nonneg. intros l _. apply diagonal_nonneg.
Qed.
Lemma matrix_nonneg v : 0 <= quadratic (b_ndofs b) (matrix_of ws) v v.
Proof.
  rewrite form_of_matrix. destruct (parts_nonneg (expand k v)) as (A1 & A2 & _). destruct (parts_nonneg v) as (_ & _ & A3). lra.
Qed.

Hypothesis DG : definite_grains b h.
Hypothesis HP : held_in_place b k.
Lemma grain_definite v c q : In c (b_cells b) -> (q < b_nq b)%nat -> grain_of b old x h v v c = 0 ->
  (forall i j, (i < cr_dim (b_crystal b c))%nat -> (j < cr_dim (b_crystal b c))%nat -> strain_at (b_element b c) (local_values b v c) q i j = 0) /\
  (forall a, (a < b_ns b)%nat -> slip_at (b_element b c) (local_values b v c) q a = 0).
Proof.
  intros Hc Hq Z. destruct (SM c Hc) as (S1 & S2 & S3 & S4 & S5 & S6 & S7 & S8 & S9 & S10 & S11 & S12 & S13).
  destruct (HA c Hc) as (H1 & H2 & H3 & H4). pose proof C as (_ & _ & C1 & _). destruct (C1 c Hc) as (_ & NQ & _ & _ & Hp & _).
  destruct (DG c Hc) as (D1 & D2 & D3 & D4 & D5). cbv zeta in S11.
  assert (G0 : forall q a, (q < el_nq (b_element b c))%nat -> (a < cr_ns (b_crystal b c))%nat -> 0 <= resistances_of h c q a).
  { intros q' a Hq' Ha. rewrite NQ in Hq'. rewrite S11 in Ha. apply H4; assumption. }
  assert (PN := point_nonneg (b_crystal b c) (b_element b c) (local_values b x c) (local_values b old c) (resistances_of h c) (local_values b v c)
     Hp S2 S3 S6 S7 S8 S1 S4 S13 S12 H1 H2 H3 G0).
  unfold grain_of, bulk_form in Z. cbv zeta in Z. rewrite NQ in Z, PN.
  assert (Zq := PropEnergy.sumn_zero_each (b_nq b) _ PN Z q Hq). cbv beta in Zq. apply Rmult_integral in Zq. specialize (D3 q Hq).
  destruct Zq as [Zq|Zq]; [lra|]. rewrite <- NQ in Hq.
  assert (P1 : 0 <= ddot (cr_dim (b_crystal b c)) (field_strain (b_crystal b c) (b_element b c) (local_values b v c) q) (c4 (cr_dim (b_crystal b c)) (cr_C (b_crystal b c)) (field_strain (b_crystal b c) (b_element b c) (local_values b v c) q))).
  { apply S6. apply strain_symmetric; assumption. }
  assert (P2 : 0 <= cr_N (b_crystal b c) 2 * sumn (cr_ns (b_crystal b c)) (fun a => dot (cr_dim (b_crystal b c)) (slip_gradient_at (b_element b c) (local_values b v c) q a)
     (mv (cr_dim (b_crystal b c)) (point_jac (b_crystal b c) (b_element b c) (local_values b x c) q a) (slip_gradient_at (b_element b c) (local_values b v c) q a)))).
  { apply Rmult_le_pos; [exact S3|]. apply sumn_nonneg. intros a _. apply gradient_nonneg; assumption. }
  assert (P3 := slip_nonneg (b_crystal b c) (b_element b c) (local_values b x c) (local_values b old c) (resistances_of h c) (local_values b v c) S13 S12 H1 H2 H3 G0 q Hq).
  assert (P4 : 0 <= balance_factor (b_crystal b c) * ddot (cr_dim (b_crystal b c)) (field_strain (b_crystal b c) (b_element b c) (local_values b v c) q) (c4 (cr_dim (b_crystal b c)) (cr_C (b_crystal b c)) (field_strain (b_crystal b c) (b_element b c) (local_values b v c) q))).
  { apply Rmult_le_pos; [exact S2|exact P1]. }
  assert (SL : forall a, (a < cr_ns (b_crystal b c))%nat -> slip_at (b_element b c) (local_values b v c) q a = 0).
  { apply (viscous_definite (b_crystal b c) (b_element b c) (local_values b x c) (local_values b old c) (resistances_of h c) (local_values b v c)); try assumption.
    - intros a Ha. rewrite S11 in Ha. rewrite NQ in Hq. apply D4; assumption.
    - lra. }
  split; [|intros a Ha; apply SL; rewrite S11; exact Ha].
  intros i j Hi Hj.
  assert (F : field_strain (b_crystal b c) (b_element b c) (local_values b v c) q i j = 0).
  { apply D5; try assumption; [apply strain_symmetric; assumption|].
    assert (Z4 : balance_factor (b_crystal b c) * ddot (cr_dim (b_crystal b c)) (field_strain (b_crystal b c) (b_element b c) (local_values b v c) q) (c4 (cr_dim (b_crystal b c)) (cr_C (b_crystal b c)) (field_strain (b_crystal b c) (b_element b c) (local_values b v c) q)) = 0) by lra.
    apply Rmult_integral in Z4. destruct Z4 as [Z4|Z4]; [exfalso; unfold balance_factor in Z4; cbv zeta in D2; lra|exact Z4]. }
  rewrite <- F. unfold field_strain. rewrite elastic_sum. rewrite (sumn_zero (cr_ns (b_crystal b c))); [ring|].
  intros a Ha. rewrite SL by exact Ha. ring.
Qed.
Lemma matrix_definite v : quadratic (b_ndofs b) (matrix_of ws) v v = 0 -> forall d, (d < b_ndofs b)%nat -> v d = 0.
Proof.
  intros Z d Hd. rewrite form_of_matrix in Z. destruct (parts_nonneg (expand k v)) as (A1 & A2 & _). destruct (parts_nonneg v) as (_ & _ & A3).
  assert (Z1 : lsum (grain_of b old x h (expand k v) (expand k v)) (b_cells b) = 0) by lra.
  assert (Z3 : lsum (fun l => diagonal_form k l v v) ls = 0) by lra.
  destruct (k d) as [ln|] eqn:K.
  - (* a constrained dof *)
    destruct (proj2 DC d Hd ltac:(rewrite K; discriminate)) as (c & Hc & Hdc).
    assert (E := PropEnergy.lsum_zero_each _ ls (fun l _ => diagonal_nonneg l v) Z3 (newton_system b old x h c) (in_map _ _ _ Hc)). cbv beta in E.
    unfold diagonal_form in E. cbv zeta in E. change (mc_dofs (ls_cell (newton_system b old x h c))) with (b_dofs b c) in E.
    destruct (In_nth _ _ 0%nat Hdc) as (i & Hi & Ei).
    assert (E' := PropEnergy.sumn_zero_each (length (b_dofs b c)) _
      (fun i _ => match is_constrained k (nth i (b_dofs b c) 0%nat) as z return 0 <= (if z then constrained_diagonal (length (b_dofs b c)) (ls_matrix (newton_system b old x h c)) i * (v (nth i (b_dofs b c) 0%nat) * v (nth i (b_dofs b c) 0%nat)) else 0) with
        | true => Rmult_le_pos _ _ (Rlt_le _ _ (diagonal_positive _ _ _)) (Rle_0_sqr _) | false => Rle_refl 0 end) E i Hi). cbv beta in E'.
    rewrite Ei in E'. unfold is_constrained in E'. rewrite K in E'. apply Rmult_integral in E'.
    pose proof (diagonal_positive (length (b_dofs b c)) (ls_matrix (newton_system b old x h c)) i). destruct E' as [E'|E']; [lra|].
    apply Rsqr_0_uniq. exact E'.
  - transitivity (expand k v d); [unfold expand, resolve; rewrite K; cbn; ring|].
    apply HP; [apply expand_admissible; apply CB| |exact Hd].
    intros c q Hc Hq. apply grain_definite; [exact Hc|exact Hq|].
    exact (PropEnergy.lsum_zero_each _ (b_cells b) (fun c Hc => grain_nonneg (expand k v) c Hc) Z1 c Hc).
Qed.
End Matrix.

(** The matrix is symmetric. *)
Theorem C96_matrix_symmetric : forall b frames p0 old x h pattern k ws,
  consistent b -> two_sided b -> stable_material b (macro_of b) -> stable_interfaces b frames p0 -> sound_interfaces b h ->
  closed_below (b_ndofs b) k -> dofs_of_cells b k -> body_jacobian b old x h pattern k = Ok ws ->
  forall d e, (d < b_ndofs b)%nat -> (e < b_ndofs b)%nat -> matrix_of ws d e = matrix_of ws e d.
Proof.
  intros b frames p0 old x h pattern k ws C T SM SI SO CB DC J d e Hd He.
  assert (E := matrix_symmetric b frames p0 old x h pattern k ws C T SM SI SO CB DC J (fun q => kron q d) (fun q => kron q e)).
  unfold quadratic in E.
  rewrite (sumn_kron (b_ndofs b) d (fun r => sumn (b_ndofs b) (fun s => matrix_of ws r s * kron s e)) Hd) in E.
  rewrite (sumn_kron (b_ndofs b) e (fun r => sumn (b_ndofs b) (fun s => matrix_of ws r s * kron s d)) He) in E.
  rewrite (sumn_ext (b_ndofs b) (fun s => matrix_of ws d s * kron s e) (fun s => kron s e * matrix_of ws d s)) in E by (intros; ring).
  rewrite (sumn_ext (b_ndofs b) (fun s => matrix_of ws e s * kron s d) (fun s => kron s d * matrix_of ws e s)) in E by (intros; ring).
  rewrite (sumn_kron (b_ndofs b) e (matrix_of ws d) He), (sumn_kron (b_ndofs b) d (matrix_of ws e) Hd) in E. exact E.
Qed.

(** It is positive semi-definite while no interface softens. *)
Theorem C96_matrix_positive_semidefinite : forall b frames p0 old x h pattern k ws,
  consistent b -> two_sided b -> stable_material b (macro_of b) -> stable_interfaces b frames p0 -> sound_interfaces b h ->
  hardens b h -> no_softening b x h ->
  closed_below (b_ndofs b) k -> dofs_of_cells b k -> body_jacobian b old x h pattern k = Ok ws ->
  forall v, 0 <= quadratic (b_ndofs b) (matrix_of ws) v v.
Proof. intros b frames p0 old x h pattern k ws C T SM SI SO HA NS CB DC J v. apply (matrix_nonneg b frames p0 old x h pattern k ws); assumption. Qed.

(** With viscous slip in a body held in place it is positive definite. *)
Theorem C96_matrix_positive_definite : forall b frames p0 old x h pattern k ws,
  consistent b -> two_sided b -> stable_material b (macro_of b) -> stable_interfaces b frames p0 -> sound_interfaces b h ->
  hardens b h -> no_softening b x h -> definite_grains b h -> held_in_place b k ->
  closed_below (b_ndofs b) k -> dofs_of_cells b k -> body_jacobian b old x h pattern k = Ok ws ->
  forall v d, (d < b_ndofs b)%nat -> v d <> 0 -> 0 < quadratic (b_ndofs b) (matrix_of ws) v v.
Proof.
  intros b frames p0 old x h pattern k ws C T SM SI SO HA NS DG HP CB DC J v d Hd Hv.
  pose proof (matrix_nonneg b frames p0 old x h pattern k ws C T SM SI SO CB DC J HA NS v) as P.
  destruct (Rle_lt_or_eq_dec _ _ P) as [L|E]; [exact L|]. exfalso. apply Hv.
  exact (matrix_definite b frames p0 old x h pattern k ws C T SM SI SO CB DC J HA NS DG HP v (eq_sym E) d Hd).
Qed.

(** ** Positive definite systems have exactly one solution *)
Lemma definite_solvable n : forall K, (forall v d, (d < n)%nat -> v d <> 0 -> 0 < quadratic n K v v) -> forall f, exists x, solves n K f x.
Proof.
  induction n as [|n IH]; intros K P f.
  { exists (fun _ => 0). intros r Hr. lia. }
  assert (KN : 0 < K n n).
  { specialize (P (fun q => kron q n) n ltac:(lia)). unfold quadratic in P.
    rewrite (sumn_kron (S n) n (fun r => sumn (S n) (fun s => K r s * kron s n))) in P by lia.
    rewrite (sumn_ext (S n) (fun s => K n s * kron s n) (fun s => kron s n * K n s)) in P by (intros; ring).
    rewrite (sumn_kron (S n) n (K n)) in P by lia. apply P. unfold kron. rewrite Nat.eqb_refl. lra. }
  set (S' := fun i j => K i j - K i n * K n j / K n n).
  assert (PS : forall v d, (d < n)%nat -> v d <> 0 -> 0 < quadratic n S' v v).
  { intros v d Hd Hv. set (vn := - sumn n (fun j => K n j * v j) / K n n).
    set (v' := fun i => if Nat.eqb i n then vn else v i).
    assert (V1 : forall i, (i < n)%nat -> v' i = v i) by (intros i Hi; unfold v'; destruct (Nat.eqb_spec i n); [lia|reflexivity]).
    assert (V2 : v' n = vn) by (unfold v'; rewrite Nat.eqb_refl; reflexivity).
    replace (quadratic n S' v v) with (quadratic (S n) K v' v').
    - apply (P v' d); [lia|]. rewrite V1 by exact Hd. exact Hv.
    - unfold quadratic. cbn [sumn]. rewrite V2.
      rewrite (sumn_ext n (fun j => K n j * v' j) (fun j => K n j * v j)) by (intros; rewrite V1 by assumption; reflexivity).
      assert (Z : sumn n (fun j => K n j * v j) + K n n * vn = 0) by (unfold vn; field; lra). rewrite Z, Rmult_0_r, Rplus_0_r.
      apply sumn_ext. intros i Hi. rewrite V1 by exact Hi. f_equal.
      rewrite (sumn_ext n (fun j => K i j * v' j) (fun j => K i j * v j)) by (intros; rewrite V1 by assumption; reflexivity).
      unfold S'. rewrite (sumn_ext n (fun s => (K i s - K i n * K n s / K n n) * v s) (fun s => K i s * v s - (K i n / K n n) * (K n s * v s))) by (intros; field; lra).
      rewrite sumn_minus, sumn_scal. unfold vn. field. lra. }
  destruct (IH S' PS (fun i => f i - K i n * f n / K n n)) as (y & Hy).
  set (xn := (f n - sumn n (fun j => K n j * y j)) / K n n).
  exists (fun i => if Nat.eqb i n then xn else y i). intros r Hr. cbn [sumn]. rewrite Nat.eqb_refl.
  rewrite (sumn_ext n (fun s => K r s * (if Nat.eqb s n then xn else y s)) (fun s => K r s * y s)) by (intros s Hs; destruct (Nat.eqb_spec s n); [lia|reflexivity]).
  destruct (Nat.eq_dec r n) as [->|N].
  - unfold xn. field. lra.
  - specialize (Hy r ltac:(lia)). cbv beta in Hy. unfold S' in Hy.
    rewrite (sumn_ext n (fun s => (K r s - K r n * K n s / K n n) * y s) (fun s => K r s * y s - (K r n / K n n) * (K n s * y s))) in Hy by (intros; field; lra).
    rewrite sumn_minus, sumn_scal in Hy. unfold xn.
    replace (f r) with (sumn n (fun s => K r s * y s) - K r n / K n n * sumn n (fun s => K n s * y s) + K r n * f n / K n n) by lra. field. lra.
Qed.
Lemma definite_unique n K f x y : (forall v d, (d < n)%nat -> v d <> 0 -> 0 < quadratic n K v v) -> solves n K f x -> solves n K f y ->
  forall d, (d < n)%nat -> x d = y d.
Proof.
  intros P SX SY d Hd. destruct (Req_dec (x d - y d) 0) as [Z|N]; [lra|]. exfalso.
  specialize (P (fun q => x q - y q) d Hd N). unfold quadratic in P.
  rewrite (sumn_zero n) in P; [lra|]. intros r Hr.
  rewrite (sumn_ext n (fun s => K r s * (x s - y s)) (fun s => K r s * x s - K r s * y s)) by (intros; ring).
  rewrite sumn_minus, (SX r Hr), (SY r Hr). ring.
Qed.
(** The linear system of a Newton iteration then has one solution, whatever the residual. *)
Theorem C96_newton_step_exists_and_is_unique : forall b frames p0 old x h pattern k ws f,
  consistent b -> two_sided b -> stable_material b (macro_of b) -> stable_interfaces b frames p0 -> sound_interfaces b h ->
  hardens b h -> no_softening b x h -> definite_grains b h -> held_in_place b k ->
  closed_below (b_ndofs b) k -> dofs_of_cells b k -> body_jacobian b old x h pattern k = Ok ws ->
  exists y, solves (b_ndofs b) (matrix_of ws) f y /\
    forall z, solves (b_ndofs b) (matrix_of ws) f z -> forall d, (d < b_ndofs b)%nat -> z d = y d.
Proof.
  intros b frames p0 old x h pattern k ws f C T SM SI SO HA NS DG HP CB DC J.
  assert (P := C96_matrix_positive_definite b frames p0 old x h pattern k ws C T SM SI SO HA NS DG HP CB DC J).
  destruct (definite_solvable (b_ndofs b) (matrix_of ws) P f) as (y & Hy). exists y. split; [exact Hy|].
  intros z Hz d Hd. exact (definite_unique _ _ f z y P Hz Hy d Hd).
Qed.

(** The histories of a trial solution are as assumed, if those of the last accepted solution are
    sound (C95) and no interface has been under pressure only (C30). *)
Theorem C96_trial_histories : forall b old x r, consistent b -> exponential_damage_only b -> two_sided b -> initialised b r -> sound_histories b r ->
  ever_opened b x r ->
  let h := body_update b old x (body_store b r) in
  sound_interfaces b h /\ forall c q a, In c (b_cells b) -> (q < b_nq b)%nat -> (a < b_ns b)%nat -> 0 < resistances_of h c q a.
Proof.
  intros b old x r C M T I S EO h. pose proof C as (N & HP & _). split.
  - intros D c n q Hc Hn Hq. destruct (proj2 S D c n q Hc Hn Hq) as (A1 & A2).
    destruct (PropRun.next_face b old x r c n q N M I T D Hc Hn Hq) as (E1 & E2). cbv zeta in E1, E2.
    destruct (kept_by_finish b old x r c n q N Hq) as (K1 & K2). fold h in K1, K2. rewrite K1 in E1. rewrite K2 in E2.
    set (mx := Rmax (i_max (r_face r (make_key c n) q)) _) in *.
    assert (M0 : i_max (r_face r (make_key c n) q) <= mx) by apply Rmax_l.
    split; [|rewrite E2; cbn [val]; pose proof (damage_after_range (i_zero_damage (b_iprm b)) mx (i_crit_opening (b_iprm b)) ltac:(lra) HP); lra].
    rewrite E1. destruct (Rle_lt_or_eq_dec 0 mx ltac:(lra)) as [P|Z]; [left; exact P|right]. split; [symmetry; exact Z|].
    assert (O : i_old (r_face h (make_key c n) q) = i_old (r_face (body_store b r) (make_key c n) q)).
    { unfold h. rewrite (updated_face b old x (body_store b r) c n q N M (initialised_store b r N I) T D Hc Hn Hq). reflexivity. }
    assert (O' : i_old (r_face (body_store b r) (make_key c n) q) = i_old (r_face r (make_key c n) q)).
    { assert (S1 := PropRun.swept_face b Prepare r c n q (PropRun.store_completes b r N I) Hq). fold (body_store b r) in S1. revert S1.
      cbn [face_call_of]. generalize (r_face (body_store b r) (make_key c n) q) (r_face r (make_key c n) q). clear.
      induction (visits (sweep_of b) (b_cells b) (make_key c n)) as [|v vs IH]; intros h' h S1; cbn [map frun face_step istep rbind] in S1.
      - injection S1 as <-. reflexivity.
      - apply IH in S1. exact S1. }
    rewrite O, O'. destruct (EO D c n q Hc Hn Hq) as [B|[B|B]]; [lra|exact B|].
    exfalso. assert (opened b x c n q <= mx) by apply Rmax_r. unfold opened in *. cbv zeta in B. lra.
  - intros c q a Hc Hq Ha. destruct (sound_next b old x r C M T I S) as [[SB _] _]. destruct (SB c q Hc Hq) as (_ & _ & _ & P).
    specialize (P a Ha). unfold resistances_of in *. unfold h. rewrite <- (bulk_kept_by_finish b old x r c q N Hc Hq). exact P.
Qed.
