(** * What C115 means: a body is moved as a whole. *)
From Coq Require Import ZArith.
From Verif Require Import Num ModelElastic ModelMicro ModelCohesive ModelHistory ModelFEField ModelLineSearch ModelActiveSet ModelSolver ModelLoading ModelShear ModelProgram SpecProgram
  ModelLinear ModelAssembly ModelInterface ModelSweep ModelStep ModelBody SpecBody ModelTangent SpecMirror.
Open Scope R_scope.

(** [w] strains no cell, opens no interface and changes no slip. *)
Definition rigid (b : body) (w : vec) : Prop :=
  (forall c, In c (b_cells b) -> let e := b_element b c in let W := local_values b w c in
     (forall q i j, sumn (el_nd e) (fun k => W k * el_eps e k q i j) = 0) /\
     (forall q a, sumn (el_nd e) (fun k => W k * el_psi e a k q) = 0) /\
     (forall q a i, sumn (el_nd e) (fun k => W k * el_dpsi e a k q i) = 0)) /\
  (forall c n, In c (b_cells b) -> In n (gb_neighbours b c) ->
     let f := b_face b c n in let g := b_face b n c in let W := local_values b w c in let Wn := local_values b w n in
     (forall q i, sumn (fa_nd f) (fun k => Wn k * fa_nphi f k q i) = sumn (fa_nd f) (fun k => W k * fa_phi f k q i)) /\
     (forall q i, sumn (fa_nd g) (fun k => Wn k * fa_phi g k q i) = sumn (fa_nd f) (fun k => W k * fa_phi f k q i)) /\
     (forall q a, sumn (fa_nd f) (fun k => W k * fa_psi f a k q) = 0) /\ (forall q a, sumn (fa_nd f) (fun k => Wn k * fa_npsi f a k q) = 0)) /\
  forall x, b_energy b (fun d => x d + w d) = b_energy b x.

(** Solutions and prescribed values of the moved body. *)
Definition moved (w x : vec) : vec := fun d => x d + w d.
Definition moved_lines (w : vec) (k : constraints) : constraints := fun d =>
  match k d with Some (es, z) => Some (es, z + (w d - fold_right (fun e s => snd e * w (fst e) + s) 0 es)) | None => None end.
(** [w] obeys the lines [k] (which prescribe no value). *)
Definition obeys (k : constraints) (w : vec) : Prop := forall d es z, k d = Some (es, z) -> w d = fold_right (fun e s => snd e * w (fst e) + s) 0 es.

(** The state of the solver.  Only displacements move; the part of the Newton update that belongs
    to the displacements is computed anew before it is used. *)
Definition moved_state {H} (blocks : nat -> block_index) (w : vec) (s s' : sstate H) : Prop :=
  st_active s' = st_active s /\ st_inactive s' = st_inactive s /\ st_internal s' = st_internal s /\
  st_trial s' = moved w (st_trial s) /\ st_tmp s' = moved w (st_tmp s) /\ st_initial s' = moved w (st_initial s) /\ st_old s' = moved w (st_old s) /\
  (forall d, blocks d = Micro -> st_newton s' d = st_newton s d) /\
  st_hist s' = st_hist s /\ st_res s' = st_res s /\ st_res_tmp s' = st_res_tmp s /\ st_norms s' = st_norms s.
(** The same problem, with the supports moved along. *)
Definition moved_supports {H} (w : vec) (e e' : env H) : Prop :=
  let q := e_problem e in let q' := e_problem e' in
  same_dofs e e' /\ p_affine q' = moved_lines w (p_affine q) /\ p_newton q' = p_newton q /\ p_hanging q' = p_hanging q /\
  obeys (p_hanging q) w /\ (forall d, e_blocks e d = Micro -> w d = 0) /\
  forall d es z m, e_blocks e d = Micro -> p_newton q d = Some (es, z) -> In m es -> e_blocks e (fst m) = Micro.
(** Linear solvers do not depend on their first guess, nothing depends on the place. *)
Definition no_preferred_place {H} (w : vec) (e e' : env H) : Prop :=
  (forall act old x r, e_harden e' act (moved w old) (moved w x) r = e_harden e act old x r) /\
  forall s s', moved_state (e_blocks e) w s s' -> e_microstress e' s' = e_microstress e s /\
    e_solve_mono e' s' = e_solve_mono e s /\ e_solve_macro e' s' = e_solve_macro e s /\ e_solve_micro e' s' = e_solve_micro e s /\ e_solve_reduced e' s' = e_solve_reduced e s /\
    ((forall d, st_newton s' d = st_newton s d) ->
     e_lambdas_mono e' s' = e_lambdas_mono e s /\ e_lambdas_macro e' s' = e_lambdas_macro e s /\ e_lambdas_micro e' s' = e_lambdas_micro e s).
Definition moved_outcome {H} (blocks : nat -> block_index) (w : vec) (a b : outcome (sstate H)) : Prop :=
  match a, b with Done s, Done s' => moved_state blocks w s s' | Thrown, Thrown => True | Undefined, Undefined => True | Running, Running => True | _, _ => False end.
(** The step of the body and of the moved body. *)
Definition moved_problem (b : body) (w : vec) (e e' : env rank_data) : Prop :=
  works_on e b /\ e_finish e = body_finish b /\ works_on e' b /\ e_finish e' = body_finish b /\ moved_supports w e e' /\ no_preferred_place w e e'.
Definition moved_run (blocks : nat -> block_index) (w : vec) (a b : outcome (vec * sstate rank_data) * list (sstate rank_data)) : Prop :=
  match fst a, fst b with
  | Done (oo, s), Done (oo', s') => oo' = moved w oo /\ moved_state blocks w s s'
  | Thrown, Thrown => True | Undefined, Undefined => True | Running, Running => True | _, _ => False end /\
  Forall2 (moved_state blocks w) (snd a) (snd b).
(** A solver of linear systems that does not depend on its first guess. *)
Definition ignores_first_guess (LS : result (list (nat * nat * R)) -> vec -> vec -> result vec) : Prop := forall A f g g', LS A f g = LS A f g'.

(** Translations: displacement dofs have the value of their component, slip dofs the value 0. *)
Definition translation (b : body) (a : nat -> R) (w : vec) : Prop :=
  forall c, In c (b_cells b) -> forall k, (k < el_nd (b_element b c))%nat ->
    local_values b w c k = if Nat.ltb (el_comp (b_element b c) k) (cr_dim (b_crystal b c)) then a (el_comp (b_element b c) k) else 0.
(** Sum over the shape functions of component [m]. *)
Definition total (nd : nat) (comp : nat -> nat) (m : nat) (f : nat -> R) : R := sumn nd (fun k => if Nat.eqb (comp k) m then f k else 0).
(** Finite elements: the displacement functions of a component sum up to 1 in that component, so
    their sum has no strain; displacement functions have no slip. *)
Definition ordinary_elements (b : body) : Prop :=
  (forall c, In c (b_cells b) -> let e := b_element b c in let d := cr_dim (b_crystal b c) in
     (forall q i j m, (m < d)%nat -> total (el_nd e) (el_comp e) m (fun k => el_eps e k q i j) = 0) /\
     forall k q a, (k < el_nd e)%nat -> (el_comp e k < d)%nat -> el_psi e a k q = 0 /\ forall i, el_dpsi e a k q i = 0) /\
  forall c n, In c (b_cells b) -> In n (gb_neighbours b c) ->
    let f := b_face b c n in let g := b_face b n c in let e := b_element b c in let en := b_element b n in let d := cr_dim (b_crystal b c) in
    In n (b_cells b) /\ cr_dim (b_crystal b n) = d /\ el_nd e = fa_nd f /\ el_nd en = fa_nd f /\ fa_nd g = fa_nd f /\
    (forall q i m, (m < d)%nat -> total (fa_nd f) (el_comp e) m (fun k => fa_phi f k q i) = kron i m /\
       total (fa_nd f) (el_comp en) m (fun k => fa_nphi f k q i) = kron i m /\ total (fa_nd f) (el_comp en) m (fun k => fa_phi g k q i) = kron i m) /\
    forall k q a, (k < fa_nd f)%nat -> ((el_comp e k < d)%nat -> fa_psi f a k q = 0) /\ ((el_comp en k < d)%nat -> fa_npsi f a k q = 0).
