(** * What C118 means: the same problem with the cells visited in another order. *)
From Coq Require Import Permutation.
From Verif Require Import Num Tensors ModelElastic ModelMicro ModelCohesive ModelHistory ModelFEField ModelActiveSet ModelSolver ModelLoading ModelShear ModelProgram SpecProgram
  ModelLinear ModelAssembly ModelInterface ModelSweep SpecSweep ModelStep ModelBody SpecBody ModelTangent.
Open Scope R_scope.

(** The body whose loops over the cells visit them in the order [cells]; nothing else changes. *)
Definition visited_as (cells : list nat) (b : body) : body :=
  mk_body (b_mesh b) cells (b_ndofs b) (b_dofs b) (b_is_slip b) (b_element b) (b_crystal b) (b_face b) (b_interface b)
    (b_loads b) (b_nq b) (b_nfq b) (b_dim b) (b_ns b) (b_decohesion b) (b_microtraction b) (b_hardening b)
    (b_char_resistance b) (b_iprm b) (b_cohesive b) (b_char_displacement b) (b_model b) (b_energy b).
(** The same cells, each visited once. *)
Definition same_cells (b : body) (cells : list nat) : Prop := NoDup (b_cells b) /\ Permutation (b_cells b) cells.
(** The two sides of an interface have opposite normals and, in the rate model, compute the same
    free energy. *)
Definition sides_agree (b : body) : Prop :=
  (forall a c q, grain_neighbours (b_mesh b) a c -> fa_n (b_face b c a) q = vneg (fa_n (b_face b a c) q)) /\
  (b_model b = OrtizEtAl \/ forall x a c q, b_energy b x a c q = b_energy b x c a q).

(** The same matrix, or none in both cases (the program ends). *)
Definition same_entries (A B : result (list (nat * nat * R))) : Prop :=
  match A, B with
  | Ok ws, Ok ws' => forall i j, matrix_of ws i j = matrix_of ws' i j
  | Ok _, _ => False | _, Ok _ => False | _, _ => True end.
(** A linear solver called with the assembled matrix: it reads its entries. *)
Definition reads_entries (LS : result (list (nat * nat * R)) -> vec -> vec -> result vec) : Prop :=
  forall A B f g, same_entries A B -> LS A f g = LS B f g.
(** The same sparsity pattern, or none. *)
Definition same_positions (A B : result (list (nat * nat))) : Prop :=
  match A, B with
  | Ok l, Ok l' => forall p, In p l <-> In p l'
  | Ok _, _ => False | _, Ok _ => False | _, _ => True end.

(** Two time steps which differ in the body they work on only. *)
Definition same_otherwise (b b' : body) (e e' : env rank_data) : Prop :=
  works_on e b /\ e_finish e = body_finish b /\ works_on e' b' /\ e_finish e' = body_finish b' /\
  e_problem e' = e_problem e /\ e_blocks e' = e_blocks e /\ e_harden e' = e_harden e /\ e_microstress e' = e_microstress e /\
  e_lambdas_mono e' = e_lambdas_mono e /\ e_lambdas_macro e' = e_lambdas_macro e /\ e_lambdas_micro e' = e_lambdas_micro e.
(** All linear systems of the two steps are solved by the same function of the state. *)
Definition same_solves (e e' : env rank_data) : Prop :=
  (forall s, e_solve_mono e' s = e_solve_mono e s) /\ (forall s, e_solve_macro e' s = e_solve_macro e s) /\
  (forall s, e_solve_micro e' s = e_solve_micro e s) /\ forall s, e_solve_reduced e' s = e_solve_reduced e s.
