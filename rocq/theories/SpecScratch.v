(** * What C116 means: work objects do not carry anything from one cell to the next. *)
From Verif Require Import Num Tensors ModelElastic ModelMicro ModelCohesive ModelAssembly ModelSweep ModelBody ModelScratch.
Open Scope R_scope.

(** Dofs are displacements or slips of known slip systems; the faces belong to the cell. *)
Definition well_formed (x : view) : Prop :=
  let c := v_crystal x in let e := v_element x in
  (forall i, (i < el_nd e)%nat -> (el_comp e i < cr_dim c + cr_ns c)%nat) /\
  forall p f h Un, In (p, f, h, Un) (v_faces x) ->
    if_dim p = cr_dim c /\ if_ns p = cr_ns c /\ fa_nd f = el_nd e /\ forall i, (i < el_nd e)%nat -> fa_comp f i = el_comp e i.
(** Without a supply term there are no body forces. *)
Definition supplied (x : view) : Prop := v_supply x = true \/ forall q, cr_supply (v_crystal x) q = (fun _ => 0).
(** What the cell contributes (ModelAssembly): a function of the cell alone. *)
Definition contribution (x : view) (i : nat) : xr :=
  residual_cell (v_crystal x) (v_element x) (v_faces x) (v_loads x) (v_U x) (v_Uold x) (v_resistance x) i.
(** The first [n] entries are the same. *)
Definition same_entries (n : nat) (f g : nat -> xr) : Prop := forall i, (i < n)%nat -> f i = g i.
(** A cell of a body (ModelBody.cell_entry), seen by a program with or without a supply term. *)
Definition view_of (b : body) (old x : vec) (r : rank_data) (supply : bool) (c : nat) : view :=
  mk_view (b_crystal b c) (b_element b c) (local_values b x c) (local_values b old c) (resistances_of r c) supply
    (map (fun n => (b_interface b c n, b_face b c n, face_history_of r c n, local_values b x n)) (gb_neighbours b c)) (b_loads b c).
