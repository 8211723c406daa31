(** * What C93 means. *)
From Coquelicot Require Import Coquelicot.
From Verif Require Import Num Tensors ModelHistory ModelInterface ModelMicro ModelCohesive SpecCohesive ProofCohesive
  SpecInterface ModelFEField ModelActiveSet ModelLinear SpecLinear ModelAssembly SpecAssembly ModelSweep ModelBody SpecBody.
Open Scope R_scope.

(** Laws and histories read the same parameters. *)
Definition one_set_of_parameters (b : body) (r : rank_data) : Prop :=
  (forall c, In c (b_cells b) -> cr_ns (b_crystal b c) = b_ns b /\ 0 < cr_dt (b_crystal b c)) /\
  (forall c q, In c (b_cells b) -> (q < b_nq b)%nat ->
     let h := r_bulk r c q in let l := cr_law (b_crystal b c) in
     flag_perfect_plasticity (prm h) = sl_perfect l /\ linear_hardening_modulus (prm h) = sl_H l /\
     hardening_parameter (prm h) = sl_q l /\ char_res h = sl_chi l /\ length (tmp_res h) = b_ns b) /\
  (forall c n, In c (b_cells b) -> In n (gb_neighbours b c) ->
     let p := b_interface b c n in
     if_dim p = b_dim b /\ if_cohesive p = b_cohesive b /\
     (b_decohesion b = true ->
        good_cohesive (b_cohesive b) /\ char_disp (b_cohesive b) = 1 /\ ct_disp (if_contact p) = 1 /\ 0 < if_dt p)).

(** The two cells at a grain boundary see the same face. *)
Definition two_sided (b : body) : Prop := forall c n, In c (b_cells b) -> In n (gb_neighbours b c) ->
  length (b_dofs b n) = length (b_dofs b c) /\ fa_nd (b_face b n c) = fa_nd (b_face b c n) /\
  forall q, fa_n (b_face b n c) q = vneg (fa_n (b_face b c n) q) /\
    forall j, fa_phi (b_face b n c) j q = fa_nphi (b_face b c n) j q /\ fa_nphi (b_face b n c) j q = fa_phi (b_face b c n) j q.

(** The residual is differentiable at the trial solution [x]: every slip system of a rate
    independent law slips; the others are perfectly plastic (with hardening the matrix is not
    the derivative, C36).  Opening grain boundaries neither are at the onset of contact nor
    reach just now their largest opening; where the opening grows beyond it, the tractions do
    not depend on the damage (their derivatives with respect to it are not in the matrix). *)
Definition differentiable_bulk (b : body) (old x : vec) : Prop := forall c, In c (b_cells b) ->
  let l := cr_law (b_crystal b c) in
  (sl_rate_independent l = false /\ sl_perfect l = true /\ 0 < sl_k l) \/
  (sl_rate_independent l = true /\ forall q a, (q < b_nq b)%nat -> (a < b_ns b)%nat ->
     slip_at (b_element b c) (local_values b x c) q a <> slip_at (b_element b c) (local_values b old c) q a).
Definition differentiable_faces (b : body) (x : vec) (r : rank_data) : Prop := b_decohesion b = true ->
  forall c n q, In c (b_cells b) -> In n (gb_neighbours b c) -> (q < b_nfq b)%nat ->
  let p := b_interface b c n in let f := b_face b c n in let h := r_face r (make_key c n) q in
  let delta := opening_at f (local_values b x c) (local_values b x n) q in
  let opening := mixed_opening (ratio (b_cohesive b)) (b_dim b) (fa_n f q) delta in
  unit_vec (b_dim b) (fa_n f q) /\ dot (b_dim b) (fa_n f q) delta <> 0 /\ 0 < opening /\
  (opening < i_tmp1 h \/
   (i_tmp1 h < opening /\ i_old h <= opening /\
    (i_zero_damage (b_iprm b) = true \/ (if_couple_macro p = false /\ if_couple_micro p = false)))).

(** All dofs of neighbours are numbered and every constrained dof belongs to a cell. *)
Definition dofs_of_cells (b : body) (k : constraints) : Prop :=
  (forall c n d, In c (b_cells b) -> In (Some n) (sm_faces (b_mesh b) c) -> In d (b_dofs b n) -> (d < b_ndofs b)%nat) /\
  (forall d, (d < b_ndofs b)%nat -> k d <> None -> exists c, In c (b_cells b) /\ In d (b_dofs b c)).
