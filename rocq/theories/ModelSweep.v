(** * Distributed runs: the sweeps over the cells of a rank that touch the histories
      (source/gradient_crystal_plasticity/setup.cc:60-72 and 405-499, assembly.cc:1168-1289,
      1360-1536 and 1596-1720), the assembly over all ranks (assembly.cc:9-96, 583-617, 620-700,
      1147-1162) and the active sets of the ranks (active_set.cc:42-127).

    Every rank executes the loops below over its locally owned cells and holds its own history
    objects: those of its cells and those of the interfaces at least one of whose sides it owns
    (quadrature_point_history.h:548-596).  Here the workers of one rank run one after the other
    (their interleavings are the subject of ModelRace.v).  A sweep is the list of calls it makes
    on history objects, in order; face quadrature points with the same number on the two sides
    of a face coincide (deal.II). *)
From Verif Require Import Num Tensors ModelUtilities ModelCohesive ModelHistory ModelInterface
  ModelFEField ModelActiveSet ModelLinear.
Open Scope R_scope.

(** Cells are their CellIds; a face is [None] at the boundary, otherwise it names the
    neighbour (cell->neighbor(face_index)). *)
(** deal.II's triangulation as read in setup.cc:60-72. *)
Record sweep_mesh := mk_sweep_mesh {
  sm_material : nat -> nat;
  sm_faces : nat -> list (option nat)
}.
(** setup.cc:65-67, assembly.cc:1193-1195, 1249-1251, 1412-1414 and 1615-1617: the condition on a face. *)
Definition to_other_grain (m : sweep_mesh) (c : nat) (f : option nat) : bool :=
  match f with None => false | Some n => negb (Nat.eqb (sm_material m c) (sm_material m n)) end.
(** setup.cc:60-72, cell_is_at_grain_boundary. *)
Definition at_grain_boundary (m : sweep_mesh) (c : nat) : bool := existsb (to_other_grain m c) (sm_faces m c).
(** assembly.cc:1190-1205, 1246-1265, 1408-1420 and 1612-1621: the neighbours behind the faces
    visited from cell [c], in face order. *)
Definition visited (m : sweep_mesh) (decohesion : bool) (c : nat) : list nat :=
  if andb (at_grain_boundary m c) decohesion
  then flat_map (fun f => match f with
                          | Some n => if to_other_grain m c f then [n] else []
                          | None => [] end) (sm_faces m c)
  else [].

(** run_time_parameters.h, DamageEvolutionModel; M1 with the degradation exponent. *)
Inductive damage_model := OrtizEtAl | RateM1 (m : R).
(** What the sweeps read and what does not change during a run. *)
(** Members and parameters read by setup.cc:405-499 and assembly.cc:1168-1720. *)
Record sweep_env := mk_sweep_env {
  w_mesh : sweep_mesh;
  w_decohesion : bool;                  (* fe_field->is_decohesion_allowed() *)
  w_nq : nat; w_nfq : nat;              (* quadrature points per cell and per face *)
  w_dim : nat;
  w_hardening : hardening; w_n_slips : nat; w_char_resistance : R;
  w_interface : iprm; w_cohesive : cohesive; w_char_displacement : R;
  w_model : damage_model;
  w_normal : nat -> nat -> nat -> vec   (* cell, neighbour, point: normal vector seen from cell *)
}.
(** What the sweeps read of the trial solution and the old solution. *)
(** FEValues evaluations of assembly.cc:1372-1395 and 1440-1470. *)
Record fields := mk_fields {
  f_slips : nat -> list (list R);             (* cell: slips_values *)
  f_old_slips : nat -> list (list R);         (* cell: old_slips_values *)
  f_displacement : nat -> nat -> nat -> vec;  (* cell, neighbour, point: displacement on the cell's side *)
  f_energy : nat -> nat -> nat -> R           (* cell, neighbour, point: sum of the free energies, 1504-1519 *)
}.

(** A call on a history object: of a cell's quadrature point, or of a face's. *)
(** The member function calls of assembly.cc:1187, 1211, 1240, 1276, 1399, 1490, 1523 and 1697. *)
Inductive face_call := FCall (o : iop) | FRate (m energy eff char : R).
Inductive call := CBulk (c q : nat) (o : ModelHistory.op) | CFace (c n q : nat) (o : face_call).
(** quadrature_point_history.cc:66-275 and assembly.cc:1496-1527 on one interface point. *)
Definition face_step (s : ihist) (o : face_call) : result ihist :=
  match o with FCall o => istep s o | FRate m e eff char => update_point_M1 m e eff char s end.

(** The history objects of one rank; those of an interface are found with the sorted pair of
    its cells (quadrature_point_history.cc:378-400, InterfaceDataStorage::get_data). *)
(** gradient_crystal_plasticity.h, members quadrature_point_history and interface_quadrature_point_history. *)
Record rank_data := mk_rank_data { r_bulk : nat -> nat -> qph; r_face : ModelInterface.key -> nat -> ihist }.
(** Writing to the object found. *)
(** quadrature_point_history.cc:378-400 (shared pointers). *)
Definition set_bulk (r : rank_data) (c q : nat) (h : qph) : rank_data :=
  mk_rank_data (fun c' q' => if andb (Nat.eqb c' c) (Nat.eqb q' q) then h else r_bulk r c' q') (r_face r).
Definition set_face (r : rank_data) (k : ModelInterface.key) (q : nat) (h : ihist) : rank_data :=
  mk_rank_data (r_bulk r) (fun k' q' => if andb (ModelInterface.key_eqb k' k) (Nat.eqb q' q) then h else r_face r k' q').
(** One call. *)
(** assembly.cc:1187, 1211, 1240, 1276, 1399, 1490, 1523 and 1697. *)
Definition exec (r : rank_data) (x : call) : result rank_data :=
  match x with
  | CBulk c q o => rbind (ModelHistory.step (r_bulk r c q) o) (fun h => Ok (set_bulk r c q h))
  | CFace c n q o => rbind (face_step (r_face r (make_key c n) q) o)
                           (fun h => Ok (set_face r (make_key c n) q h))
  end.
(** Calls in order. *)
(** The loops over cells, points and faces of assembly.cc:1168-1720. *)
Fixpoint exec_all (xs : list call) (r : rank_data) : result rank_data :=
  match xs with [] => Ok r | x :: xs' => rbind (exec r x) (exec_all xs') end.

(** The sweeps. *)
(** setup.cc:405-499; assembly.cc:1168-1221, 1225-1289, 1294-1536 and 1540-1720. *)
Inductive sweep :=
| Initialise
| Prepare
| Restore
| Refresh (x : fields)
| Finish (x : fields).
(** assembly.cc:1481-1486: the effective opening passed from the side of cell [c]. *)
Definition opening_from (e : sweep_env) (x : fields) (c n q : nat) : R :=
  effective_opening (w_dim e) (ratio (w_cohesive e))
    (vsub (f_displacement x n c q) (f_displacement x c n q)) (w_normal e c n q).
(** The call on the history of a cell's point. *)
(** setup.cc:452-460; assembly.cc:1187, 1240 and 1399-1402. *)
Definition bulk_call (e : sweep_env) (w : sweep) (c q : nat) : list ModelHistory.op :=
  match w with
  | Initialise => [ModelHistory.Init (w_hardening e) (w_n_slips e) (w_char_resistance e)]
  | Prepare => [Store]
  | Restore => [Reset]
  | Refresh x => [Update q (f_slips x c) (f_old_slips x c)]
  | Finish _ => []
  end.
(** The call on the history of an interface point, from the side of [c]. *)
(** setup.cc:486-491; assembly.cc:1211, 1276, 1487-1527 and 1697-1705 (which passes the
    neighbour's displacement in the place of the current cell's). *)
Definition face_call_of (e : sweep_env) (w : sweep) (c n q : nat) : face_call :=
  match w with
  | Initialise => FCall (IInit (w_interface e))
  | Prepare => FCall IStore
  | Restore => FCall IReset
  | Refresh x =>
      match w_model e with
      | OrtizEtAl => FCall (IUpdateExp (opening_from e x c n q))
      | RateM1 m => FRate m (f_energy x c n q) (opening_from e x c n q) (w_char_displacement e)
      end
  | Finish x => FCall (IStoreOpening (w_dim e) (f_displacement x n c q) (f_displacement x c n q) (w_normal e c n q))
  end.
(** The body of the loop over the cells. *)
(** setup.cc:442-497; assembly.cc:1176-1220, 1233-1287, 1360-1535 and 1602-1719. *)
Definition cell_calls (e : sweep_env) (w : sweep) (c : nat) : list call :=
  flat_map (fun q => map (CBulk c q) (bulk_call e w c q)) (seq 0 (w_nq e)) ++
  flat_map (fun n => map (fun q => CFace c n q (face_call_of e w c n q)) (seq 0 (w_nfq e)))
    (visited (w_mesh e) (w_decohesion e) c).
(** One sweep and a sequence of sweeps of a rank over its locally owned cells [cells]. *)
(** assembly.cc:1176-1220, 1233-1287, 1322-1350 and 1568-1596. *)
Definition sweep_calls (e : sweep_env) (cells : list nat) (w : sweep) : list call :=
  flat_map (cell_calls e w) cells.
Definition run_sweeps (e : sweep_env) (cells : list nat) (ws : list sweep) (r : rank_data) : result rank_data :=
  exec_all (flat_map (sweep_calls e cells) ws) r.

(** ** Assembly over the ranks
    Every rank adds the contributions of its cells, with its own constraints object;
    compress(VectorOperation::add) sums over the ranks. *)
(** assembly.cc:620-700 (residual.compress) with 1147-1162. *)
Definition parallel_residual (ranks : list (constraints * list local_system)) : list (nat * R) :=
  flat_map (fun r => assemble_residual (fst r) (snd r)) ranks.
(** assembly.cc:9-96 (jacobian.compress) with 583-617. *)
Fixpoint parallel_jacobian (pattern : list (nat * nat)) (couple : bool)
  (ranks : list (constraints * list local_system)) : result (list (nat * nat * R)) :=
  match ranks with
  | [] => Ok []
  | (c, ls) :: ranks' =>
      rbind (assemble_jacobian pattern c couple ls) (fun ws =>
      rbind (parallel_jacobian pattern couple ranks') (fun rest => Ok (ws ++ rest)))
  end.

(** ** Active sets over the ranks: what a rank reads *)
(** active_set.cc:42-127 on a rank with the given locally owned (slip) dofs; everything else is global. *)
Definition on_rank (p : problem) (owned owned_slip : list nat) : problem :=
  mk_problem (p_n_slips p) (p_rate_independent p) (p_hardening p) (p_char_resistance p) owned owned_slip
    (p_affine p) (p_newton p) (p_hanging p) (p_old_solution p) (p_slip_resistance p).
