(** * What C105 means: the same test at another speed. *)
From Coq Require Import ZArith.
From Verif Require Import Num ModelElastic ModelMicro ModelCohesive ModelHistory ModelFEField ModelActiveSet ModelSolver ModelLoading ModelShear ModelProgram SpecProgram
  ModelLinear ModelAssembly ModelInterface ModelSweep ModelStep ModelBody SpecBody ModelTangent.
Open Scope R_scope.

(** All time intervals multiplied by [l]; reference slip rates [k c] (regularisation parameters). *)
Definition retime_law (k : R) (a : scalar_law) : scalar_law :=
  mk_scalar_law (sl_reg a) k (sl_H a) (sl_q a) (sl_chi a) (sl_perfect a) (sl_rate_independent a).
Definition retime_crystal (l k : R) (c : crystal) : crystal :=
  mk_crystal (cr_dim c) (cr_ns c) (cr_N c) (cr_C c) (cr_P c) (retime_law k (cr_law c)) (cr_factor c) (cr_p c) (cr_dir c) (cr_ort c)
    (cr_macro c) (cr_supply c) (l * cr_dt c).
Definition retime_interface (l : R) (p : interface) : interface :=
  mk_interface (if_dim p) (if_ns p) (if_N p) (if_decohesion p) (if_microtraction p) (if_cohesive p) (if_contact p) (if_exponent p)
    (if_couple_macro p) (if_couple_micro p) (if_lambda p) (if_chi p) (if_moduli p) (l * if_dt p).
Definition retime_body (l : R) (k : nat -> R) (b : body) : body :=
  mk_body (b_mesh b) (b_cells b) (b_ndofs b) (b_dofs b) (b_is_slip b) (b_element b) (fun c => retime_crystal l (k c) (b_crystal b c)) (b_face b)
    (fun c n => retime_interface l (b_interface b c n))
    (b_loads b) (b_nq b) (b_nfq b) (b_dim b) (b_ns b) (b_decohesion b) (b_microtraction b) (b_hardening b)
    (b_char_resistance b) (b_iprm b) (b_cohesive b) (b_char_displacement b) (b_model b) (b_energy b).
(** The reference slip rates are those of the slower test, [1/l] times the original ones; of
    rate-independent crystals they are arbitrary. *)
Definition rates_follow (l : R) (k : nat -> R) (b : body) : Prop := 0 < l /\
  forall c, sl_rate_independent (cr_law (b_crystal b c)) = true \/ (k c = sl_k (cr_law (b_crystal b c)) / l /\ 0 < sl_k (cr_law (b_crystal b c))).
(** The same numerical methods. *)
Definition same_methods {H} (e e' : env H) : Prop :=
  e_problem e' = e_problem e /\ e_blocks e' = e_blocks e /\ e_harden e' = e_harden e /\ e_microstress e' = e_microstress e /\
  e_solve_mono e' = e_solve_mono e /\ e_solve_macro e' = e_solve_macro e /\ e_solve_micro e' = e_solve_micro e /\ e_solve_reduced e' = e_solve_reduced e /\
  e_lambdas_mono e' = e_lambdas_mono e /\ e_lambdas_macro e' = e_lambdas_macro e /\ e_lambdas_micro e' = e_lambdas_micro e.
Definition retime_step (l : R) (t : timing) : timing := mk_timing (t_step t) (t_factor t) (l * t_next_dt t) (l * t_previous_dt t) (t_skip t).

(** The shear test with all durations multiplied by [l] and the same final load. *)
Definition retime_loading (l : R) (a : loading) : loading :=
  mk_loading (l_type a) (l_max a / l) (l_min a / l) (l * l_duration_mono a) (l_n_mono a) (l * l_duration a) (l_n_load a) (l_n_cycles a)
    (l * l_period a) (l_n_quarter a) (l_skip_unloading a).
Definition retime_program {H} (l : R) (p : program H) (env' : nat -> R -> env H) : program H :=
  mk_program (retime_loading l (pr_loading p)) (pr_frequency p) (pr_strip p) (pr_height p) (pr_char p) (pr_component p) (pr_factor p)
    (pr_parameters p) (pr_algorithm p) env'.
Definition retime_accepted {H} (l : R) (x : accepted H) : accepted H :=
  mk_accepted (mk_step (st_number (ac_record x)) (l * ModelLoading.st_time (ac_record x)) (st_written (ac_record x))) (ac_state x).
