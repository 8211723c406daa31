(** * C111 over whole histories. *)
From Coq Require Import FunctionalExtensionality.
From Verif Require Import Num ModelShear SpecShear ModelProgram SpecProgram PropProgram SumLemmas Tensors TensorLemmas ModelUtilities ModelElastic SpecElastic ProofElastic ModelMicro SpecMicro ProofMicro PropMicro
  ModelCohesive SpecCohesive ProofCohesive ModelHistory SpecHistory ModelInterface SpecInterface
  ModelFEField ModelActiveSet ModelLinear SpecLinear PropLinear ModelAssembly SpecAssembly ProofAssembly ProofFace
  ModelSolver ModelSweep SpecSweep PropSweep ModelStep SpecStep ProofStep PropStep ModelBody SpecBody PropBody SpecTangent SpecRun PropRun
  SpecEnergy ProofEnergy PropEnergy SpecStiffness SpecUnique PropUnique ProofMinimum ProofBound ProofPotential SpecExistence PropExistence ProofSaturation SpecLimit PropLimit.
Open Scope R_scope.


(** What decides whether loads can be carried, of the internal variables: which systems harden, and the resistances of those that do not. *)
Definition same_strengths (b : body) (h h' : rank_data) : Prop := forall c q, In c (b_cells b) -> (q < b_nq b)%nat ->
  prm (r_bulk h' c q) = prm (r_bulk h c q) /\ char_res (r_bulk h' c q) = char_res (r_bulk h c q) /\
  forall a, (a < b_ns b)%nat -> hardens b h c q \/ resistances_of h' c q a = resistances_of h c q a.
Lemma carried_same b h h' k : consistent b -> b_decohesion b = false -> stable_material b (macro_of b) -> same_strengths b h h' -> loads_carried b h k -> loads_carried b h' k.
Proof.
  intros C D SM SS (z & s & A & B). exists z, s. split.
  - intros c q a Hc Hq Ha. destruct (SS c q Hc Hq) as (E1 & E2 & E3).
    assert (HH : hardens b h c q -> hardens b h' c q) by (unfold hardens; rewrite E1, E2; auto).
    destruct (A c q a Hc Hq Ha) as [L|L]; [|right; exact (HH L)]. destruct (E3 a Ha) as [L'|L']; [right; exact (HH L')|left; rewrite L'; exact L].
  - intros w W. rewrite <- (B w W), (power_at_rest b z h w), (power_at_rest b z h' w).
    apply (same_power b z z C D SM (fun _ _ => eq_refl) z (no_resistance h) (no_resistance h') w). intros. rewrite !no_resistance_zero. reflexivity.
Qed.
Lemma same_strengths_sym b h h' : same_strengths b h h' -> same_strengths b h' h.
Proof.
  intros SS c q Hc Hq. destruct (SS c q Hc Hq) as (E1 & E2 & E3). split; [auto|]. split; [auto|]. intros a Ha.
  destruct (E3 a Ha) as [L|L]; [left; revert L; unfold hardens; rewrite E1, E2; auto|right; auto].
Qed.
Lemma same_strengths_trans b h h' h2 : same_strengths b h h' -> same_strengths b h' h2 -> same_strengths b h h2.
Proof.
  intros SS ST c q Hc Hq. destruct (SS c q Hc Hq) as (E1 & E2 & E3). destruct (ST c q Hc Hq) as (F1 & F2 & F3). split; [congruence|]. split; [congruence|]. intros a Ha.
  destruct (E3 a Ha) as [L|L]; [left; exact L|]. destruct (F3 a Ha) as [L'|L']; [left; revert L'; unfold hardens; rewrite E1, E2; auto|right; congruence].
Qed.
(** No step changes it. *)
Lemma strengths_kept b old x h : consistent b -> b_decohesion b = false -> ready b h -> same_strengths b h (body_finish b x (trial_histories b old x h)).
Proof.
  intros C D (I & SH & NL) c q Hc Hq. pose proof C as (N & _). pose proof SH as (SB & _). destruct (SB c q Hc Hq) as (L & _).
  change (body_finish b x (trial_histories b old x h)) with (next_histories b old x h).
  destruct (next_bulk b old x h c q N (or_intror D) I Hc Hq L) as (A1 & A2 & _). cbv zeta in *. split; [exact A1|]. split; [exact A2|]. intros a Ha.
  destruct (hardens_or_not b h c q) as [P|Z]; [left; exact P|right]. specialize (Z SH Hc Hq).
  unfold resistances_of at 1. rewrite (bulk_kept_by_finish b old x h c q N Hc Hq). change (resistances_of (trial_histories b old x h) c q a = resistances_of h c q a).
  rewrite (trial_resistance b old x h c q a C D I SH NL Hc Hq Ha). unfold own_hardening in Z. destruct (flag_perfect_plasticity _); [ring|]. rewrite Z. ring.
Qed.
Lemma strengths_points b b' h h' : same_points b b' -> same_strengths b h h' -> same_strengths b' h h'.
Proof. intros (P1 & P2 & P3 & P4 & P5 & P6 & P7). unfold same_strengths, hardens. rewrite <- P2, <- P3, <- P5. auto. Qed.

Section Run.
Variables (b0 : body) (frames : nat -> frame) (p0 : interface) (bodies : nat -> body) (c k : nat -> constraints) (x0 : vec) (h0 : rank_data).
Hypothesis ST : forall i, stable_step frames p0 (bodies i) (c i) (k i).
Hypothesis SP : forall i, same_points b0 (bodies i) /\ b_microtraction b0 = b_microtraction (bodies i) /\ b_ndofs (bodies i) = b_ndofs b0 /\ b_dofs (bodies i) = b_dofs b0.
Hypothesis R0 : ready b0 h0.
Lemma strengths_along n X H : H 0%nat = h0 -> exact_history n bodies c k X H -> forall i, (i <= n)%nat -> same_strengths b0 h0 (H i).
Proof.
  intros E0 EX. induction i as [|i IH]; intros Hi; [rewrite E0; intros e q _ _; auto|].
  apply (same_strengths_trans b0 h0 (H i)); [apply IH; lia|]. destruct (EX i ltac:(lia)) as (_ & _ & ->).
  destruct (ready_along b0 frames p0 bodies c k h0 ST SP R0 n X H E0 EX i ltac:(lia)) as (R & _).
  destruct (SP i) as (P & M & _). destruct (ST i) as (C & T & D & _).
  apply (strengths_points (bodies i) b0); [exact (same_points_sym _ _ P)|]. apply strengths_kept; [exact C|exact D|exact (ready_same _ _ _ P M R)].
Qed.
Lemma carried_along n X H i : H 0%nat = h0 -> exact_history n bodies c k X H -> (i <= n)%nat -> (loads_carried (bodies i) h0 (k i) <-> loads_carried (bodies i) (H i) (k i)).
Proof.
  intros E0 EX Hi. destruct (SP i) as (P & _). destruct (ST i) as (C & T & D & SM & _).
  pose proof (strengths_points _ _ _ _ P (strengths_along n X H E0 EX i Hi)) as SS.
  split; apply carried_same; auto. apply same_strengths_sym, SS.
Qed.
Lemma carried_histories n : (forall i, (i < n)%nat -> loads_carried (bodies i) h0 (k i)) -> exists X H, X 0%nat = x0 /\ H 0%nat = h0 /\ exact_history n bodies c k X H.
Proof.
  induction n as [|n IH]; intros LC; [exists (fun _ => x0), (fun _ => h0); split; [reflexivity|]; split; [reflexivity|]; intros i Hi; lia|].
  destruct IH as (X & H & EX & EH & E); [intros; apply LC; lia|].
  pose proof (proj1 (carried_along n X H n EH E (le_n n)) (LC n (Nat.lt_succ_diag_r n))) as LN.
  destruct (ready_along b0 frames p0 bodies c k h0 ST SP R0 n X H EH E n (le_n n)) as (R & _).
  destruct (SP n) as (P & M & _). destruct (ST n) as (C & T & D & SM & SI & SG & HV & CB & HP). destruct (ready_same _ _ _ P M R) as (I & SH & NL).
  destruct (proj2 (C111_solvable_iff_loads_carried (bodies n) frames p0 (X n) (H n) (c n) (k n) C T D SM SI I SH NL SG HV CB HP) LN) as (x & Ox & Sx).
  exists (fun i => if Nat.eqb i (S n) then x else X i), (fun i => if Nat.eqb i (S n) then body_finish (bodies n) x (trial_histories (bodies n) (X n) x (H n)) else H i).
  split; [exact EX|]. split; [exact EH|]. intros i Hi. change (Nat.eqb (S i) (S n)) with (Nat.eqb i n).
  destruct (Nat.eqb_spec i (S n)) as [A|A]; [lia|]. destruct (Nat.eqb_spec i n) as [->|B]; [auto|]. apply E. lia.
Qed.
End Run.
(** A loading history can be followed if and only if the loads of each of its steps can be
    carried at the resistances the body had at the start: no earlier step can make or break a later one. *)
Theorem C111_whole_histories : forall b0 frames p0 bodies c k x0 h0 n,
  (forall i, stable_step frames p0 (bodies i) (c i) (k i)) ->
  (forall i, same_points b0 (bodies i) /\ b_microtraction b0 = b_microtraction (bodies i) /\ b_ndofs (bodies i) = b_ndofs b0 /\ b_dofs (bodies i) = b_dofs b0) ->
  initialised b0 h0 -> sound_histories b0 h0 -> no_latent_hardening b0 h0 ->
  ((exists X H, X 0%nat = x0 /\ H 0%nat = h0 /\ exact_history n bodies c k X H) <->
   forall i, (i < n)%nat -> loads_carried (bodies i) h0 (k i)).
Proof.
  intros b0 frames p0 bodies c k x0 h0 n ST SP I SH NL. assert (R0 : ready b0 h0) by (split; [|split]; assumption). split.
  - intros (X & H & EX & EH & E) i Hi. apply (carried_along b0 frames p0 bodies c k h0 ST SP R0 n X H i EH E ltac:(lia)).
    destruct (ready_along b0 frames p0 bodies c k h0 ST SP R0 n X H EH E i ltac:(lia)) as (R & _).
    destruct (SP i) as (P & M & _). destruct (ST i) as (C & T & D & SM & SI & SG & HV & CB & HP). destruct (ready_same _ _ _ P M R) as (I' & SH' & NL').
    destruct (E i Hi) as (_ & S1 & _). exact (solved_is_carried _ _ _ _ _ C D SM I' SH' NL' SG S1).
  - intros LC. exact (carried_histories b0 frames p0 bodies c k x0 h0 ST SP R0 n LC).
Qed.
Print Assumptions C111_whole_histories.
