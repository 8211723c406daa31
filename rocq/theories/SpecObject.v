(** * What C106 and C107 mean. *)
From Coq Require Import List.
From Verif Require Import Num Tensors ModelHistory ModelInterface ModelFEField ModelActiveSet ModelAssembly ModelSolver ModelSweep ModelStep ModelBody SpecBody ModelObject.
Import ListNotations.
Open Scope R_scope.

(** The latest of the calls that [pick] selects. *)
Definition latest {A} (pick : use -> option A) (us : list use) : option A :=
  fold_left (fun acc u => match pick u with Some a => Some a | None => acc end) us None.
(** What the calls have put in force, wherever among them the object was initialised or used. *)
Definition strain_in_force (us : list use) : nat -> nat -> R :=
  match latest (fun u => match u with SetStrain e => Some e | _ => None end) us with Some e => e | None => fun _ _ => 0 end.
Definition body_force_in_force (us : list use) : option nat :=
  match latest (fun u => match u with SetSupply f => Some f | _ => None end) us with Some f => f | None => None end.
Definition traction_in_force (us : list use) (id : nat) : option nat :=
  latest (fun u => match u with SetNeumann i f => if Nat.eqb i id then Some f else None | _ => None end) us.
(** The time the user's function object was last set to by the user. *)
Definition time_set (clock : nat -> R) (us : list use) (f : nat) : R :=
  match latest (fun u => match u with SetTime g t => if Nat.eqb g f then Some t else None | _ => None end) us with Some t => t | None => clock f end.
(** The function is given as a traction somewhere. *)
Definition used_as_traction (us : list use) (f : nat) : Prop := exists id, In (SetNeumann id f) us.

(** The body under the loads in force, evaluated at time [t]; the body force at time [tb]. *)
Definition body_in_force (g : given) (us : list use) (t tb : R) : body :=
  with_loads (g_body g) (strain_in_force us)
    (fun c q => match body_force_in_force us with Some f => g_value g f tb (g_points g c q) | None => fun _ => 0 end)
    (fun c => flat_map (fun face => match traction_in_force us (bf_id face) with
                | Some f => [mk_neumann_face (bf_nq face) (bf_w face) (bf_phi face) (fun q => g_value g f t (bf_point face q))]
                | None => []
                end) (g_faces g c)).
(** The object has been initialised by one of the calls: after the field and the crystals were
    set up. *)
Definition was_initialised (us : list use) : Prop :=
  exists before after, us = before ++ Initialize :: after /\ In SetUpField before /\ In SetUpCrystals before.

(** A body as it is before it was ever loaded. *)
Definition untouched (b : body) (s : sstate rank_data) : Prop :=
  (forall d, st_trial s d = 0 /\ st_tmp s d = 0 /\ st_initial s d = 0 /\ st_newton s d = 0) /\
  (forall c q a, In c (b_cells b) -> (q < b_nq b)%nat -> (a < b_ns b)%nat ->
     resistances_of (st_hist s) c q a = initial_slip_resistance (b_hardening b) / b_char_resistance b) /\
  (forall d, (0 < b_ns b)%nat -> st_res s d = initial_slip_resistance (b_hardening b) / b_char_resistance b).
Definition undamaged (b : body) (s : sstate rank_data) : Prop :=
  forall c n q, In c (b_cells b) -> In n (visited (b_mesh b) (b_decohesion b) c) -> (q < b_nfq b)%nat ->
  i_damage (r_face (st_hist s) (make_key c n) q) = Fin 0 /\ i_max (r_face (st_hist s) (make_key c n) q) = 0.

(** The object is used with a sound set-up: a consistent body, subroutines that work on whatever
    body they are given. *)
Definition sound_set_up (g : given) : Prop :=
  consistent (g_body g) /\ exponential_damage_only (g_body g) /\
  (forall b, works_on (g_env g b) b /\ e_finish (g_env g b) = body_finish b) /\
  (rate_independent (g_parameters g) = false \/ g_algorithm g <> Monolithic).
(** Before init the interface points do not exist; they are made as constructed. *)
Definition no_histories (r0 : rank_data) : Prop := forall k q, r_face r0 k q = i_construct.
