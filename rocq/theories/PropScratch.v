(** * C116: work objects do not carry anything from one cell to the next. *)
From Coq Require Import Lia Lra List.
Import ListNotations.
From Verif Require Import Num Tensors ModelElastic ModelMicro ModelCohesive ModelAssembly ModelSweep ModelBody ModelScratch SpecScratch ProofScratch.
Open Scope R_scope.

(** Whatever a previous cell left in the arrays, local_rhs is what ModelAssembly says of the cell. *)
Theorem C116_cell (x : view) (m : memory) :
  well_formed x -> supplied x -> (v_supply x = true \/ constructed_supply m) ->
  same_entries (el_nd (v_element x)) (fun i => assemble_local_residual x m LocalRhs i 0%nat) (contribution x).
Proof.
  intros W SU H i L. apply cell_ok; [exact W| |exact L].
  destruct H as [H|H]; [left; exact H|]. destruct SU as [SU|SU]; [left; exact SU|right].
  intros q. rewrite (H q), (SU q). reflexivity.
Qed.
(** Without a supply term the zeros that the constructor put there stay. *)
Theorem C116_supply_values (x : view) (m : memory) : v_supply x = false -> constructed_supply m -> constructed_supply (assemble_local_residual x m).
Proof. intros N C q. rewrite (supply_kept x N m). apply C. Qed.
(** Any number of objects, handed out in any way to any number of cells in any order. *)
Theorem C116_work_stream (supply : bool) (schedule : list (nat * view)) (objects : nat -> memory) :
  (forall k x, In (k, x) schedule -> well_formed x /\ supplied x /\ v_supply x = supply) ->
  (supply = true \/ forall k, constructed_supply (objects k)) ->
  forall n k x, nth_error schedule n = Some (k, x) ->
  exists r, nth_error (work_stream schedule objects) n = Some r /\ same_entries (el_nd (v_element x)) r (contribution x).
Proof.
  revert objects. induction schedule as [|[k0 x0] s IH]; intros objects H C n k x E; [destruct n; discriminate|].
  destruct (H k0 x0 (or_introl eq_refl)) as (W & SU & B). cbn [work_stream].
  destruct n as [|n]; cbn [nth_error] in *.
  - injection E as -> ->. eexists. split; [reflexivity|]. apply C116_cell; [exact W|exact SU|].
    destruct C as [C|C]; [left; rewrite B; exact C|right; apply C].
  - apply (IH (fun l => if Nat.eqb l k0 then assemble_local_residual x0 (objects k0) else objects l) (fun k' x' I => H k' x' (or_intror I))) with (k := k); [|exact E].
    destruct C as [->|C]; [left; reflexivity|]. destruct supply eqn:SB; [left; reflexivity|right].
    intros l. destruct (Nat.eqb l k0); [|apply C]. apply C116_supply_values; [exact B|apply C].
Qed.
(** So two runs agree on every cell they have in common. *)
Theorem C116_schedules_agree (supply : bool) (s s' : list (nat * view)) (objects objects' : nat -> memory) :
  (forall k x, In (k, x) (s ++ s') -> well_formed x /\ supplied x /\ v_supply x = supply) ->
  (supply = true \/ forall k, constructed_supply (objects k) /\ constructed_supply (objects' k)) ->
  forall n n' k k' x, nth_error s n = Some (k, x) -> nth_error s' n' = Some (k', x) ->
  exists r r', nth_error (work_stream s objects) n = Some r /\ nth_error (work_stream s' objects') n' = Some r' /\
    same_entries (el_nd (v_element x)) r r'.
Proof.
  intros H C n n' k k' x E E'.
  destruct (C116_work_stream supply s objects) with (n := n) (k := k) (x := x) as (r & R1 & R2); [intros; apply (H k0 x0), in_or_app; left; assumption|destruct C as [C|C]; [left; exact C|right; apply C]|exact E|].
  destruct (C116_work_stream supply s' objects') with (n := n') (k := k') (x := x) as (r' & R3 & R4); [intros; apply (H k0 x0), in_or_app; right; assumption|destruct C as [C|C]; [left; exact C|right; apply C]|exact E'|].
  exists r, r'. split; [exact R1|]. split; [exact R3|]. intros i L. rewrite (R2 i L), (R4 i L). reflexivity.
Qed.
(** The cells of a body: what the copier finds in local_rhs is what the assembly of the other
    properties uses. *)
Theorem C116_body (b : body) (old x : vec) (r : rank_data) (supply : bool) (schedule : list (nat * nat)) (objects : nat -> memory) :
  (forall k c, In (k, c) schedule -> well_formed (view_of b old x r supply c) /\ supplied (view_of b old x r supply c) /\
     forallb (readable b r c) (gb_neighbours b c) = true) ->
  (supply = true \/ forall k, constructed_supply (objects k)) ->
  forall n k c, nth_error schedule n = Some (k, c) ->
  exists rhs, nth_error (work_stream (map (fun kc => (fst kc, view_of b old x r supply (snd kc))) schedule) objects) n = Some rhs /\
    same_entries (el_nd (b_element b c)) rhs (cell_entry b old x r c).
Proof.
  intros H C n k c E.
  destruct (C116_work_stream supply (map (fun kc => (fst kc, view_of b old x r supply (snd kc))) schedule) objects) with (n := n) (k := k) (x := view_of b old x r supply c) as (rhs & A & B).
  - intros k' y I. apply in_map_iff in I. destruct I as ([k0 c0] & Q & I). injection Q as <- <-. destruct (H k0 c0 I) as (W & SU & _). split; [exact W|]. split; [exact SU|reflexivity].
  - exact C.
  - exact (map_nth_error (fun kc => (fst kc, view_of b old x r supply (snd kc))) n schedule E).
  - exists rhs. split; [exact A|]. intros i L. rewrite (B i L). unfold contribution, cell_entry.
    destruct (H k c (nth_error_In _ _ E)) as (_ & _ & ->). reflexivity.
Qed.
