(** * What C108 means: linear response of an elastic body. *)
From Verif Require Import Num Tensors ModelMicro ModelElastic SpecElastic ModelFEField ModelActiveSet ModelLinear SpecLinear ModelAssembly SpecAssembly
  ModelInterface ModelSweep ModelStep ModelShear SpecShear ModelBody SpecBody SpecEnergy SpecElasticBody.
Open Scope R_scope.

(** Loads [l3] of a cell: on each face the traction is [al] times that of [l1] plus [be] times
    that of [l2]. *)
Inductive superposed_loads (al be : R) : list neumann_face -> list neumann_face -> list neumann_face -> Prop :=
| no_loads : superposed_loads al be [] [] []
| one_more_load : forall n w phi t1 t2 l1 l2 l3, superposed_loads al be l1 l2 l3 ->
    superposed_loads al be (mk_neumann_face n w phi t1 :: l1) (mk_neumann_face n w phi t2 :: l2)
      (mk_neumann_face n w phi (fun q i => al * t1 q i + be * t2 q i) :: l3).
(** The loading of the body [b3] is [al] times that of [b1] plus [be] times that of [b2]; they are
    otherwise the same solid (time steps may differ). *)
Definition superposed_loading (al be : R) (b1 b2 b3 : body) : Prop :=
  same_solid b1 b2 /\ same_solid b1 b3 /\ b_ndofs b2 = b_ndofs b1 /\ b_ndofs b3 = b_ndofs b1 /\
  forall c, In c (b_cells b1) ->
    (forall i j, cr_macro (b_crystal b3 c) i j = al * cr_macro (b_crystal b1 c) i j + be * cr_macro (b_crystal b2 c) i j) /\
    (forall q i, cr_supply (b_crystal b3 c) q i = al * cr_supply (b_crystal b1 c) q i + be * cr_supply (b_crystal b2 c) q i) /\
    superposed_loads al be (b_loads b1 c) (b_loads b2 c) (b_loads b3 c).
(** The supports: the same dofs are constrained in the same way; the prescribed values of [c3] are
    [al] times those of [c1] plus [be] times those of [c2]. *)
Definition superposed_supports (al be : R) (c1 c2 c3 : constraints) : Prop := forall d,
  match c1 d, c2 d, c3 d with
  | None, None, None => True
  | Some (e1, v1), Some (e2, v2), Some (e3, v3) => e2 = e1 /\ e3 = e1 /\ v3 = al * v1 + be * v2
  | _, _, _ => False
  end.
(** Deviation of the solution [x3] from the superposition of the solutions [x1] and [x2]. *)
Definition deviation (al be : R) (x1 x2 x3 : vec) : vec := fun d => x3 d - (al * x1 d + be * x2 d).
(** Power of the stresses caused by the displacements [z] on the strains of [w]; (twice) the elastic energy of [z] for [w = z]. *)
Definition elastic_work (b : body) (z w : vec) : R :=
  lsum (fun c => let k := b_crystal b c in let e := b_element b c in let d := cr_dim k in
    sumn (el_nq e) (fun q => el_w e q * (cr_N k 3 / cr_N k 0 *
      ddot d (strain_at e (local_values b w c) q) (c4 d (cr_C k) (strain_at e (local_values b z c) q))))) (b_cells b).
(** Positive weights, symmetric strains and positive definite elasticity. *)
Definition firm (b : body) : Prop := forall c, In c (b_cells b) ->
  let k := b_crystal b c in let e := b_element b c in let d := cr_dim k in
  0 < cr_N k 3 / cr_N k 0 /\ (forall q, (q < el_nq e)%nat -> 0 < el_w e q) /\
  (forall i q, symmetric d (el_eps e i q)) /\
  (forall A, symmetric d A -> 0 <= ddot d A (c4 d (cr_C k) A)) /\
  (forall A, symmetric d A -> ddot d A (c4 d (cr_C k) A) = 0 -> forall i j, (i < d)%nat -> (j < d)%nat -> A i j = 0).
(** No loads but those of the supports. *)
Definition unloaded (b : body) : Prop := forall c, In c (b_cells b) ->
  (forall i j, cr_macro (b_crystal b c) i j = 0) /\ (forall q i, cr_supply (b_crystal b c) q i = 0) /\ b_loads b c = [].
(** All steps of a run are made on an elastic solid without loads. *)
Definition elastic_run (bodies : nat -> R -> body) (b0 : body) : Prop := forall k dt,
  elastic_body (bodies k dt) /\ unloaded (bodies k dt) /\ same_solid b0 (bodies k dt) /\ b_ndofs (bodies k dt) = b_ndofs b0 /\ b_is_slip (bodies k dt) = b_is_slip b0.
