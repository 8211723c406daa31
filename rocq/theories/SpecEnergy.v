(** * What C95 means: energies and works of a body. *)
From Verif Require Import Num Tensors ModelElastic SpecElastic ModelMicro SpecMicro ModelCohesive SpecCohesive ModelHistory ModelInterface
  ModelFEField ModelActiveSet ModelLinear SpecLinear ModelAssembly SpecAssembly ModelSolver ModelSweep ModelStep ModelBody SpecBody SpecTangent SpecRun.
Open Scope R_scope.

(** Elastic strain at a point: macroscopic strain [macro] of the cell plus total minus plastic strain. *)
Definition elastic_strain_of (b : body) (macro : nat -> mat) (x : vec) (c q : nat) : mat :=
  let k := b_crystal b c in let e := b_element b c in
  fun i j => macro c i j + (strain_at e (local_values b x c) q i j
    - cr_N k 0 * sumn (cr_ns k) (fun a => slip_at e (local_values b x c) q a * cr_P k a i j)).
(** Energy stored in the grains: elastic energy 1/2 e:C:e and defect energy of the slip gradients. *)
Definition grain_energy (b : body) (macro : nat -> mat) (x : vec) : R :=
  lsum (fun c => let k := b_crystal b c in let e := b_element b c in let d := cr_dim k in
    sumn (el_nq e) (fun q => let s := elastic_strain_of b macro x c q in
      el_w e q * (cr_N k 3 / cr_N k 0 * (1/2 * ddot d s (c4 d (cr_C k) s))
        + cr_N k 2 * sumn (cr_ns k) (fun a =>
            defect_energy (cr_factor k) (cr_p k) d (cr_dir k a) (cr_ort k a) (slip_gradient_at e (local_values b x c) q a)))))
    (b_cells b).

(** Secant stiffness of the envelope at opening [mx]: envelope(mx) / mx, and its limit at 0. *)
Definition secant_stiffness (Tc dc scale mx : R) : R := Tc * scale / dc * exp (1 - scale * mx / dc).
(** Energy an interface of largest opening [mx] and damage [dmg] gives back when it closes
    (unloading is linear), energy of the contact, energy of the slip mismatch (get_free_energy_density
    of the microtraction law, C29). *)
Definition recoverable (p : interface) (mx dmg : R) (n delta : vec) : R :=
  degraded (if_exponent p) dmg (if_couple_macro p) *
  (1/2 * (secant_stiffness (crit_traction (if_cohesive p)) (crit_opening (if_cohesive p)) (char_disp (if_cohesive p)) mx / char_stress (if_cohesive p))
       * mixed_opening (ratio (if_cohesive p)) (if_dim p) n delta ^ 2).
Definition contact_energy (p : interface) (n delta : vec) : R :=
  1/2 * (penalty (if_contact p) * ct_disp (if_contact p) / ct_stress (if_contact p)) * Rmax (- dot (if_dim p) delta n) 0 ^ 2.
Definition mismatch (p : interface) (dmg : R) (nb cur : frame) (n : vec) (g_nb g_cur : nat -> R) : R :=
  degraded (if_exponent p) dmg (if_couple_micro p) * (interface_energy (if_lambda p) (if_dim p) (if_ns p) nb cur n g_nb g_cur / if_chi p).
(** Energy stored in the interfaces; each is visited from both sides, hence the factor 1/2. *)
Definition face_energy (b : body) (frames : nat -> frame) (x : vec) (r : rank_data) (c n : nat) : R :=
  let p := b_interface b c n in let f := b_face b c n in
  let U := local_values b x c in let Un := local_values b x n in
  sumn (fa_nq f) (fun q => fa_w f q *
    let h := r_face r (make_key c n) q in
    let dmg := if b_decohesion b then val (i_damage h) else 0 in
    let delta := opening_at f U Un q in
    ((if b_decohesion b then if_N p 3 / if_N p 0 * (recoverable p (i_max h) dmg (fa_n f q) delta + contact_energy p (fa_n f q) delta) else 0)
     + (if if_microtraction p then if_N p 2 * mismatch p dmg (frames n) (frames c) (fa_n f q)
          (fun a => face_slip (fa_nd f) (fa_npsi f) Un q a) (fun a => face_slip (fa_nd f) (fa_psi f) U q a) else 0))).
Definition interfaces_energy (b : body) (frames : nat -> frame) (x : vec) (r : rank_data) : R :=
  1/2 * lsum (fun c => lsum (face_energy b frames x r c) (other_grains b c)) (b_cells b).
Definition stored_energy (b : body) (frames : nat -> frame) (macro : nat -> mat) (x : vec) (r : rank_data) : R :=
  grain_energy b macro x + interfaces_energy b frames x r.

(** Work the slip increments from [old] to [x] do against the dissipative microstresses. *)
Definition dissipated (b : body) (old x : vec) (r : rank_data) : R :=
  lsum (fun c => let k := b_crystal b c in let e := b_element b c in
    sumn (el_nq e) (fun q => el_w e q * sumn (cr_ns k) (fun a =>
      let s := slip_at e (local_values b x c) q a in let so := slip_at e (local_values b old c) q a in
      (s - so) * scalar_microstress (cr_law k) s so (resistances_of r c q a) (cr_dt k)))) (b_cells b).

(** Work of body forces and tractions on the displacement increment [w]. *)
Definition load_work (b : body) (w : vec) : R :=
  lsum (fun c => let k := b_crystal b c in let e := b_element b c in
    sumn (el_nq e) (fun q => el_w e q * (cr_N k 3 / cr_N k 0 *
      dot (cr_dim k) (fun r => sumn (el_nd e) (fun i => local_values b w c i * el_phi e i q r)) (cr_supply k q)))
    + lsum (fun f => load_power (cr_dim k) f (fun q s => sumn (el_nd e) (fun i => local_values b w c i * nf_phi f i q s))) (b_loads b c))
    (b_cells b).
(** Work of the stresses of [x] on the change of the macroscopic strain. *)
Definition macroscopic_work (b : body) (macro0 : nat -> mat) (x : vec) : R :=
  lsum (fun c => let k := b_crystal b c in let e := b_element b c in
    sumn (el_nq e) (fun q => el_w e q * (cr_N k 3 / cr_N k 0 *
      ddot (cr_dim k) (msub (cr_macro k) (macro0 c)) (stress_at k e (local_values b x c) q)))) (b_cells b).
(** Work the supports do when they move by [v]: what the internal forces and the loads leave
    unbalanced on [v]. *)
Definition support_work (b : body) (old x : vec) (r : rank_data) (v : vec) : R := - virtual_power b old x r v.

(** Non-negative weights, stable elasticity, constants of the right sign. *)
Definition stable_material (b : body) (macro0 : nat -> mat) : Prop := forall c, In c (b_cells b) ->
  let k := b_crystal b c in let e := b_element b c in let d := cr_dim k in
  (forall q, (q < el_nq e)%nat -> 0 <= el_w e q) /\
  0 <= cr_N k 3 / cr_N k 0 /\ 0 <= cr_N k 2 /\ 0 <= cr_factor k /\
  major_symmetric d (cr_C k) /\ (forall A, symmetric d A -> 0 <= ddot d A (c4 d (cr_C k) A)) /\
  (forall i q, symmetric d (el_eps e i q)) /\ (forall a, symmetric d (cr_P k a)) /\
  symmetric d (cr_macro k) /\ symmetric d (macro0 c) /\
  cr_ns k = b_ns b /\ 0 < sl_k (cr_law k) /\ 0 < cr_dt k.
(** The interfaces have one set of parameters [p0], apart from the grain interaction moduli,
    which are those of the slip systems [frames] of the cells; both sides see the same face. *)
Definition stable_interfaces (b : body) (frames : nat -> frame) (p0 : interface) : Prop :=
  if_dim p0 = b_dim b /\ if_cohesive p0 = b_cohesive b /\
  (b_decohesion b = true ->
     0 < crit_traction (b_cohesive b) /\ 0 < crit_opening (b_cohesive b) /\ 0 < char_stress (b_cohesive b) /\ 0 < char_disp (b_cohesive b) /\
     0 <= penalty (if_contact p0) /\ 0 < ct_stress (if_contact p0) /\ 0 < ct_disp (if_contact p0) /\ 0 <= if_N p0 3 / if_N p0 0 /\ 0 < if_dt p0) /\
  (if_microtraction p0 = true -> (if_dim p0 = 2 \/ if_dim p0 = 3)%nat /\ 0 <= if_lambda p0 /\ 0 < if_chi p0 /\ 0 <= if_N p0 2) /\
  forall c n, In c (b_cells b) -> In n (gb_neighbours b c) ->
  NoDup (gb_neighbours b c) /\ In c (gb_neighbours b n) /\
  b_interface b c n = mk_interface (if_dim p0) (if_ns p0) (if_N p0) (if_decohesion p0) (if_microtraction p0) (if_cohesive p0) (if_contact p0)
    (if_exponent p0) (if_couple_macro p0) (if_couple_micro p0) (if_lambda p0) (if_chi p0)
    (fun q => (intra (if_dim p0) (frames c) (fa_n (b_face b c n) q), inter (if_dim p0) (frames c) (frames n) (fa_n (b_face b c n) q))) (if_dt p0) /\
  fa_nq (b_face b n c) = fa_nq (b_face b c n) /\
  forall q, (q < fa_nq (b_face b c n))%nat ->
    0 <= fa_w (b_face b c n) q /\ fa_w (b_face b n c) q = fa_w (b_face b c n) q /\ dot (b_dim b) (fa_n (b_face b c n) q) (fa_n (b_face b c n) q) = 1 /\
    forall a j, fa_psi (b_face b n c) a j q = fa_npsi (b_face b c n) a j q /\ fa_npsi (b_face b n c) a j q = fa_psi (b_face b c n) a j q.

(** Histories as set-up and accepted steps leave them: positive slip resistances, hardening not
    softening, no more damage than the largest opening explains. *)
Definition sound_histories (b : body) (h : rank_data) : Prop :=
  (forall c q, In c (b_cells b) -> (q < b_nq b)%nat ->
     length (slip_res (r_bulk h c q)) = b_ns b /\
     0 <= linear_hardening_modulus (prm (r_bulk h c q)) / char_res (r_bulk h c q) /\ 0 <= hardening_parameter (prm (r_bulk h c q)) /\
     forall a, (a < b_ns b)%nat -> 0 < resistances_of h c q a) /\
  (b_decohesion b = true -> forall c n q, In c (b_cells b) -> In n (gb_neighbours b c) -> (q < b_nfq b)%nat ->
     0 <= i_max (r_face h (make_key c n) q) /\
     val (i_damage (r_face h (make_key c n) q)) <= damage_after (i_zero_damage (b_iprm b)) (i_max (r_face h (make_key c n) q)) (i_crit_opening (b_iprm b))).

(** The tolerance of the accepted equilibrium on a motion. *)
Definition tolerated (sp : solver_parameters) (a : algorithm) (b : body) (w : vec) : R :=
  match a with
  | Monolithic => mono_tol sp * size b w
  | _ => macro_tol sp * displacement_size b w + micro_tol sp * slip_size b w
  end.
Definition increment (x y : vec) : vec := fun d => x d - y d.

Definition macro_of (b : body) (c : nat) : mat := cr_macro (b_crystal b c).
(** Two bodies are the same solid, on the same mesh: they may differ in macroscopic strain,
    loads, boundary values and time step. *)
Definition same_solid (b b' : body) : Prop :=
  same_points b b' /\ b_dofs b = b_dofs b' /\ b_element b = b_element b' /\ b_face b = b_face b' /\ b_microtraction b = b_microtraction b' /\
  (forall c, let k := b_crystal b c in let k' := b_crystal b' c in
     k' = mk_crystal (cr_dim k) (cr_ns k) (cr_N k) (cr_C k) (cr_P k) (cr_law k) (cr_factor k) (cr_p k) (cr_dir k) (cr_ort k) (cr_macro k') (cr_supply k') (cr_dt k')) /\
  (forall c n, let p := b_interface b c n in let p' := b_interface b' c n in
     p' = mk_interface (if_dim p) (if_ns p) (if_N p) (if_decohesion p) (if_microtraction p) (if_cohesive p) (if_contact p)
       (if_exponent p) (if_couple_macro p) (if_couple_micro p) (if_lambda p) (if_chi p) (if_moduli p) (if_dt p')).

(** Energy dissipated in the accepted steps [acc] on the bodies [bs]. *)
Fixpoint energy_dissipated (bs : list body) (acc : list (sstate rank_data)) (old : vec) : R :=
  match bs, acc with
  | b :: bs', r :: acc' => dissipated b old (st_trial r) (st_hist r) + energy_dissipated bs' acc' (st_trial r)
  | _, _ => 0
  end.
(** Work supplied in these steps: by the loads, by the change of the macroscopic strain and by
    the supports, which move by [vs]; and the tolerances. *)
Fixpoint energy_supplied (sp : solver_parameters) (a : algorithm) (bs : list body) (acc : list (sstate rank_data)) (vs : list vec)
  (macro0 : nat -> mat) (old : vec) (h : rank_data) : R :=
  match bs, acc, vs with
  | b :: bs', r :: acc', v :: vs' =>
      let x := st_trial r in let w := increment x old in
      load_work b w + macroscopic_work b macro0 x + support_work b old x (body_update b old x (body_store b h)) v
      + tolerated sp a b (increment w v) + energy_supplied sp a bs' acc' vs' (macro_of b) x (st_hist r)
  | _, _, _ => 0
  end.
(** The motion of each step is that of the supports, [vs], up to one that respects the
    (homogeneous) constraints. *)
Fixpoint supports_move (bs : list body) (acc : list (sstate rank_data)) (vs : list vec) (old : vec) : Prop :=
  match bs, acc, vs with
  | b :: bs', r :: acc', v :: vs' =>
      closed_below (b_ndofs b) (st_internal r) /\
      SpecLinear.admissible (b_ndofs b) (st_internal r) (increment (increment (st_trial r) old) v) /\
      supports_move bs' acc' vs' (st_trial r)
  | _, [], [] => True
  | _, _, _ => False
  end.
