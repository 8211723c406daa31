(** * What C92 means. *)
From Verif Require Import Num Tensors ModelHistory ModelInterface ModelMicro SpecMicro ModelElastic ModelCohesive ModelFEField ModelActiveSet
  ModelLinear SpecLinear ModelAssembly SpecAssembly ModelSweep SpecSweep ModelStep ModelBody.
Open Scope R_scope.

(** The step works on the body: it stores, updates and evaluates the histories of the body
    and tests the norms of its assembled residual.  Everything else (linear solves, line
    searches, active sets, hardening of the dof resistances) is arbitrary. *)
Definition works_on (e : env rank_data) (b : body) : Prop :=
  e_store e = body_store b /\ e_update e = body_update b /\ e_norms e = body_norms b.

(** The cells of other grains behind the faces of [c]; interfaces carry forces if the simulation
    allows for decohesion or for microtractions. *)
Definition other_grains (b : body) (c : nat) : list nat :=
  let grain := sm_material (b_mesh b) in
  if orb (b_microtraction b) (b_decohesion b)
  then flat_map (fun f => match f with Some n => if Nat.eqb (grain n) (grain c) then [] else [n] | None => [] end) (sm_faces (b_mesh b) c)
  else [].
(** Virtual power of the body for the solution [x], the last solution [old] and the internal
    variables [r], on the virtual displacements and slips with nodal values [w]: minus the
    internal power of the cells, plus the powers of interface tractions and loads. *)
Definition virtual_power (b : body) (old x : vec) (r : rank_data) (w : vec) : R :=
  lsum (fun c =>
    let k := b_crystal b c in let e := b_element b c in
    let d := cr_dim k in
    let U := fun i => x (nth i (b_dofs b c) 0%nat) in
    let Uold := fun i => old (nth i (b_dofs b c) 0%nat) in
    let W := fun i => w (nth i (b_dofs b c) 0%nat) in
    - sumn (el_nq e) (fun q => el_w e q *
        (cr_N k 3 / cr_N k 0 *
          (ddot d (elastic_strain (cr_N k 0) (cr_P k) (strain_at e W q) (slip_at e W q) (cr_ns k)) (stress_at k e U q)
           - dot d (fun r => sumn (el_nd e) (fun i => W i * el_phi e i q r)) (cr_supply k q))
         + cr_N k 2 * sumn (cr_ns k) (fun a => dot d (slip_gradient_at e W q a)
             (fun r => val (vectorial_microstress (cr_factor k) (cr_p k) d (cr_dir k a) (cr_ort k a) (slip_gradient_at e U q a) r)))
         + sumn (cr_ns k) (fun a => slip_at e W q a *
             scalar_microstress (cr_law k) (slip_at e U q a) (slip_at e Uold q a) (nth a (slip_res (r_bulk r c q)) 0) (cr_dt k))))
    + lsum (fun n =>
        let f := b_face b c n in
        interface_power (b_interface b c n) f
          (mk_face_history (fun q => i_max (r_face r (make_key c n) q)) (fun q => i_old (r_face r (make_key c n) q))
             (fun q => val (i_damage (r_face r (make_key c n) q))))
          U (fun i => x (nth i (b_dofs b n) 0%nat))
          (fun q s => sumn (el_nd e) (fun i => W i * fa_phi f i q s))
          (fun q a => sumn (el_nd e) (fun i => W i * fa_psi f a i q))) (other_grains b c)
    + lsum (fun f => load_power d f (fun q s => sumn (el_nd e) (fun i => W i * nf_phi f i q s))) (b_loads b c))
    (b_cells b).

(** Euclidean norm of a test vector, of its displacement part and of its slip part. *)
Definition size (b : body) (w : vec) : R := sqrt (sumn (b_ndofs b) (fun d => w d * w d)).
Definition displacement_size (b : body) (w : vec) : R :=
  sqrt (sumn (b_ndofs b) (fun d => if b_is_slip b d then 0 else w d * w d)).
Definition slip_size (b : body) (w : vec) : R :=
  sqrt (sumn (b_ndofs b) (fun d => if b_is_slip b d then w d * w d else 0)).

(** The data are those of one discretisation: sizes agree, shape functions are primitive,
    exponents and constants are in the range the parameters admit. *)
Definition consistent (b : body) : Prop :=
  NoDup (b_cells b) /\ 0 < i_crit_opening (b_iprm b) /\
  (forall c, In c (b_cells b) ->
     length (b_dofs b c) = el_nd (b_element b c) /\ el_nq (b_element b c) = b_nq b /\
     (forall i, (i < length (b_dofs b c))%nat -> (nth i (b_dofs b c) 0 < b_ndofs b)%nat) /\
     primitive (cr_dim (b_crystal b c)) (cr_ns (b_crystal b c)) (b_element b c) /\
     2 <= cr_p (b_crystal b c) /\ cr_N (b_crystal b c) 0 <> 0) /\
  (forall c n, In c (b_cells b) -> In n (gb_neighbours b c) ->
     In n (b_cells b) /\ fa_nd (b_face b c n) = el_nd (b_element b c) /\ fa_nq (b_face b c n) = b_nfq b /\
     if_decohesion (b_interface b c n) = b_decohesion b /\
     0 < if_exponent (b_interface b c n) /\
     primitive_face (if_dim (b_interface b c n)) (if_ns (b_interface b c n)) (b_face b c n)).

(** The damage of the grain boundaries follows the exponential law, or there is none. *)
Definition exponential_damage_only (b : body) : Prop := b_model b = OrtizEtAl \/ b_decohesion b = false.

(** Constraints after close(): no entry of a line is itself constrained, all are dofs. *)
Definition closed_below (n : nat) (k : constraints) : Prop :=
  lines_are_closed k /\ forall d es z e w, k d = Some (es, z) -> In (e, w) es -> (e < n)%nat.

(** The histories have been initialised. *)
Definition initialised (b : body) (r : rank_data) : Prop :=
  (forall c q, In c (b_cells b) -> (q < b_nq b)%nat ->
     flag_init (r_bulk r c q) = true /\ ModelHistory.n_slips (r_bulk r c q) = b_ns b) /\
  (forall a n q, In a (b_cells b) -> In n (visited (b_mesh b) (b_decohesion b) a) -> (q < b_nfq b)%nat ->
     i_prm (r_face r (make_key a n) q) = Some (b_iprm b)).

(** Equilibrium up to the tolerances: with the internal variables [iv], the virtual power of
    the solution [x] on any virtual motion that respects the constraints [k] is at most
    tolerance times size. *)
Definition in_equilibrium (sp : ModelSolver.solver_parameters) (a : ModelSolver.algorithm) (b : body) (old x : vec) (iv : rank_data) (k : constraints) : Prop :=
  closed_below (b_ndofs b) k -> forall w, SpecLinear.admissible (b_ndofs b) k w ->
  Rabs (virtual_power b old x iv w) <=
  match a with
  | ModelSolver.Monolithic => ModelSolver.mono_tol sp * size b w
  | _ => ModelSolver.macro_tol sp * displacement_size b w + ModelSolver.micro_tol sp * slip_size b w
  end.

(** Two steps work on the same material points (loads, boundary values and time steps may
    differ). *)
Definition same_points (b b' : body) : Prop :=
  b_mesh b = b_mesh b' /\ b_cells b = b_cells b' /\ b_nq b = b_nq b' /\ b_nfq b = b_nfq b' /\ b_ns b = b_ns b' /\
  b_decohesion b = b_decohesion b' /\ b_iprm b = b_iprm b'.

(** The accepted states [acc] of the steps on the bodies [bs], one after the other: each is in
    equilibrium, with the internal variables that follow from the accepted solutions alone. *)
Fixpoint equilibrium_at_all_steps (sp : ModelSolver.solver_parameters) (a : ModelSolver.algorithm) (bs : list body)
  (acc : list (sstate rank_data)) (old : vec) (h : rank_data) : Prop :=
  match bs, acc with
  | b :: bs', r :: acc' =>
      let iv := body_update b old (st_trial r) (body_store b h) in
      in_equilibrium sp a b old (st_trial r) iv (st_internal r) /\
      equilibrium_at_all_steps sp a bs' acc' (st_trial r) (body_finish b (st_trial r) iv)
  | _, _ => True
  end.
