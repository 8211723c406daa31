(** * C05: the trial solutions of a line search obey the constraints. *)
From Coq Require Import Lra Lia.
From Verif Require Import Num ModelLineSearch.
Import ListNotations.
Open Scope R_scope.

(** The line of dof [i]: its value is [h] plus weighted values of other dofs ([l]), all of them
    free and in the same block (what AffineConstraints::close() leaves of hanging nodes, of
    periodic faces and of prescribed values). *)
Definition closed_line (m : mesh) (i : nat) (l : list (nat * R)) (h : R) : Prop :=
  constraint m i = Some (l, h) /\ forall j w, In (j, w) l -> block_of m j = block_of m i /\ constraint m j = None.
Definition obeys (t : nat -> R) (i : nat) (l : list (nat * R)) (h : R) : Prop :=
  t i = fold_left (fun s p => s + snd p * t (fst p)) l 0 + h.

Lemma combine_sum v l : combine v l = fold_left (fun s p => s + snd p * v (fst p)) l 0.
Proof.
  assert (G : forall a, fold_left (fun s p => s + snd p * v (fst p)) l a = a + combine v l).
  { induction l as [|[j w] l IH]; intros a; cbn [fold_left combine fold_right fst snd]; [unfold combine; cbn; ring|]. rewrite IH. unfold combine. ring. }
  rewrite G. ring.
Qed.
Lemma combine_same v v' l : (forall j w, In (j, w) l -> v' j = v j) -> combine v' l = combine v l.
Proof.
  induction l as [|[j w] l IH]; intros H; [reflexivity|]. unfold combine in *. cbn [fold_right fst snd]. rewrite (H j w) by (left; reflexivity). f_equal. apply IH. intros j' w' I. apply (H j' w'). right. exact I.
Qed.
Lemma block_refl b : block_eqb b b = true.
Proof. destruct b; reflexivity. Qed.
(** Writing a block of distributed values. *)
Lemma written_obeys m b t v i l h : block_of m i = b -> closed_line m i l h -> obeys (set_block m b t (distribute m v)) i l h.
Proof.
  intros B (C & L). unfold obeys. rewrite <- combine_sum. unfold set_block at 1, distribute at 1. rewrite B, block_refl, C. f_equal. symmetry. apply combine_same.
  intros j w I. destruct (L j w I) as (B' & C'). unfold set_block, distribute. rewrite B', B, block_refl, C'. reflexivity.
Qed.
Lemma other_block_stays m b t v i : block_of m i <> b -> set_block m b t v i = t i.
Proof. intros B. unfold set_block. destruct (block_of m i), b; try reflexivity; exfalso; apply B; reflexivity. Qed.

(** Whatever steps are tried, from whatever trial solution: afterwards the lines of the searched
    block hold, and so do those of the macro block, also when the other block is searched. *)
Theorem C05_trials_obey_constraints : forall m stored newton b t0 ls i l h,
  ls <> [] -> closed_line m i l h -> block_of m i = b \/ block_of m i = Macro ->
  obeys (search_trials m stored newton b t0 ls) i l h.
Proof.
  intros m stored newton b t0 ls i l h N C B. unfold search_trials. destruct (exists_last N) as (ls' & x & ->). rewrite fold_left_app. cbn [fold_left].
  generalize (fold_left (fun t l0 => search_trial_step m stored newton t b l0) ls' t0). intros t. unfold search_trial_step, update_trial.
  assert (D : block_of m i = b \/ block_of m i <> b /\ block_of m i = Macro) by (destruct B as [B|B]; [left; exact B|]; destruct b; [left; exact B|right; split; [congruence|exact B]]).
  destruct D as [D|(D & M)]; [apply written_obeys; assumption|].
  pose proof (written_obeys m Macro t stored i l h M C) as W. fold (reset_trial m t stored Macro) in W.
  unfold obeys in *. rewrite (other_block_stays m b _ _ i D). rewrite W. f_equal. rewrite <- !combine_sum. symmetry. apply combine_same.
  intros j w I. apply other_block_stays. rewrite (proj1 (proj2 C j w I)). exact D.
Qed.
(** The trial solution the search starts from. *)
Theorem C05_first_trial_obeys_constraints : forall m stored newton b i l h,
  closed_line m i l h -> block_of m i = b -> obeys (search_entry m stored newton b) i l h.
Proof. intros m stored newton b i l h C B. apply written_obeys; assumption. Qed.

(** A hanging dof between two free ones with a jump, two tried steps. *)
Example C05_trials_obey_constraints_example :
  let m := mk_mesh (fun i => if Nat.eqb i 3 then Micro else Macro) (fun i => if Nat.eqb i 2 then Some ([(0%nat, 1/2); (1%nat, 1/2)], 3) else None) in
  let t := search_trials m (fun i => INR i) (fun _ => 4) Macro (fun _ => 7) [1; 1/4] in
  closed_line m 2 [(0%nat, 1/2); (1%nat, 1/2)] 3 /\ t 0%nat = 1 /\ t 1%nat = 2 /\ t 2%nat = 9/2 /\ t 3%nat = 7.
Proof.
  cbv zeta. split.
  - split; [reflexivity|]. intros j w [E|[E|[]]]; injection E as <- <-; split; reflexivity.
  - unfold search_trials, search_trial_step, update_trial, reset_trial, set_block, distribute, combine. cbn. repeat split; lra.
Qed.
