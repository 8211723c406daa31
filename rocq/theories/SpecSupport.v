(** * What C103 means: the forces of the supports. *)
From Verif Require Import Num SumLemmas Tensors ModelElastic ModelMicro SpecMicro ModelCohesive ModelHistory ModelFEField ModelActiveSet ModelSolver
  ModelLoading ModelShear SpecShear ModelProgram SpecProgram SpecLinear ModelLinear ModelAssembly SpecAssembly
  ModelInterface ModelSweep ModelStep ModelBody SpecBody SpecRun SpecEnergy.
Open Scope R_scope.

(** A rigid virtual motion (translation or small rotation) of the whole body: [w] strains
    nothing, opens no grain boundary and moves no slip. *)
Definition rigid (b : body) (w : vec) : Prop :=
  (forall c q, In c (b_cells b) -> (q < el_nq (b_element b c))%nat ->
     let e := b_element b c in let W := local_values b w c in let d := cr_dim (b_crystal b c) in
     (forall i j, (i < d)%nat -> (j < d)%nat -> strain_at e W q i j = 0) /\
     forall a, (a < cr_ns (b_crystal b c))%nat -> slip_at e W q a = 0 /\ forall i, (i < d)%nat -> slip_gradient_at e W q a i = 0) /\
  (forall c n q, In c (b_cells b) -> In n (gb_neighbours b c) -> (q < fa_nq (b_face b c n))%nat ->
     let f := b_face b c n in let p := b_interface b c n in
     (forall s, (s < if_dim p)%nat -> opening_at f (local_values b w c) (local_values b w n) q s = 0) /\
     forall a, (a < if_ns p)%nat -> face_slip (fa_nd f) (fa_psi f) (local_values b w c) q a = 0).
(** A translation in direction [i]: the displacement it carries is the unit vector. *)
Definition translation (b : body) (i : nat) (w : vec) : Prop := rigid b w /\
  forall c, In c (b_cells b) -> let e := b_element b c in let W := local_values b w c in
    (forall q s, (q < el_nq e)%nat -> sumn (el_nd e) (fun j => W j * el_phi e j q s) = kron s i) /\
    forall f q s, In f (b_loads b c) -> (q < nf_nq f)%nat -> sumn (el_nd e) (fun j => W j * nf_phi f j q s) = kron s i.
(** Resultant in direction [i] of body forces and tractions. *)
Definition resultant (b : body) (i : nat) : R :=
  lsum (fun c => let k := b_crystal b c in let e := b_element b c in
    sumn (el_nq e) (fun q => el_w e q * (cr_N k 3 / cr_N k 0 * cr_supply k q i)) +
    lsum (fun f => sumn (nf_nq f) (fun q => nf_w f q * nf_traction f q i)) (b_loads b c)) (b_cells b).

(** The two cells at a grain boundary use the same interface parameters and weights. *)
Definition matching_interfaces (b : body) : Prop := forall c n, In c (b_cells b) -> In n (gb_neighbours b c) ->
  let p := b_interface b c n in let p' := b_interface b n c in
  NoDup (gb_neighbours b c) /\ In c (gb_neighbours b n) /\
  if_dim p' = if_dim p /\ if_N p' = if_N p /\ if_cohesive p' = if_cohesive p /\ if_contact p' = if_contact p /\ if_exponent p' = if_exponent p /\
  if_couple_macro p' = if_couple_macro p /\ if_dt p' = if_dt p /\ char_stress (if_cohesive p) <> 0 /\
  fa_nq (b_face b n c) = fa_nq (b_face b c n) /\ forall q, (q < fa_nq (b_face b c n))%nat -> fa_w (b_face b n c) q = fa_w (b_face b c n) q.

(** The part of the motion [w] the constraints [k] do not let pass. *)
Definition obstructed (k : constraints) (w : vec) : vec := fun d =>
  match k d with Some (es, _) => w d - lsum (fun f => snd f * w (fst f)) es | None => 0 end.
Definition passing (k : constraints) (w : vec) : vec := fun d => w d - obstructed k w d.

(** The shear test: dofs of the boundary [id]; force of that edge on the body in the direction of
    the translation [w] (the support work on the obstructed motion of that edge). *)
Definition on_edge {H} (p : program H) (id d : nat) : bool := existsb (fun b => Nat.eqb (b_dof b) d && Nat.eqb (b_id b) id)%bool (s_boundary (pr_strip p)).
Definition edge_motion {H} (p : program H) (id : nat) (w : vec) : vec := fun d => if on_edge p id d then obstructed (newton_of (pr_strip p)) w d else 0.
Definition edge_force {H} (p : program H) (id : nat) (w : vec) (b : body) (old x : vec) (iv : rank_data) : R := support_work b old x iv (edge_motion p id w).
(** Lower edge (id 2), upper edge (id 3) and external loads are in balance in all accepted steps. *)
Fixpoint edges_in_balance {H} (p : program H) (i : nat) (w : vec) (bs : list body) (xs : list vec) (old : vec) (h : rank_data) : Prop :=
  match bs, xs with
  | [], [] => True
  | b :: bs', x :: xs' =>
      let iv := body_update b old x (body_store b h) in
      Rabs (edge_force p 2 w b old x iv + edge_force p 3 w b old x iv + resultant b i) <=
        tolerated (pr_parameters p) (pr_algorithm p) b (passing (newton_of (pr_strip p)) w) /\
      edges_in_balance p i w bs' xs' x (body_finish b x iv)
  | _, _ => False
  end.
(** The motion [w] is obstructed at the two edges only, and no dof lies on both. *)
Definition obstructed_at_edges {H} (p : program H) (w : vec) : Prop :=
  (forall d, obstructed (newton_of (pr_strip p)) w d <> 0 -> on_edge p 2 d = true \/ on_edge p 3 d = true) /\
  (forall d, on_edge p 2 d = true -> on_edge p 3 d = true -> obstructed (newton_of (pr_strip p)) w d = 0).
