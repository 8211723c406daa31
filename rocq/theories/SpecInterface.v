(** * Specifications for C12-C17. *)
From Verif Require Import Num Tensors ModelUtilities ModelCohesive ModelInterface.
Open Scope R_scope.

(** A history of the exponential (OrtizEtAl) model after construction and init. *)
Definition exp_call (o : iop) : Prop :=
  match o with IStore | IReset | IUpdateExp _ | IStoreOpening _ _ _ _ => True | _ => False end.
(** ... and of the rate-type model (M1). *)
Definition rate_call (o : iop) : Prop :=
  match o with IStore | IReset | IUpdateRate _ _ _ | IStoreOpening _ _ _ _ => True | _ => False end.

(** The openings a call history has committed, and the pending one, read off the calls. *)
Fixpoint openings (os : list iop) (committed : list R) (pending : option R) : list R * option R :=
  match os with
  | [] => (committed, pending)
  | IUpdateExp e :: os' | IUpdateRate e _ _ :: os' => openings os' committed (Some e)
  | IReset :: os' => openings os' committed None
  | IStore :: os' =>
      openings os' (match pending with Some e => e :: committed | None => committed end) None
  | _ :: os' => openings os' committed pending
  end.
Definition list_max (l : list R) : R := fold_right Rmax 0 l.
Definition expected_max (os : list iop) : R :=
  let (c, p) := openings os [] None in
  list_max (match p with Some e => e :: c | None => c end).

(** Unit vector. *)
Definition unit_vec (d : nat) (n : vec) : Prop := dot d n n = 1.

(** C72: the jumps |a - b| that count, read off the calls: an update counts if no other update
    was made since the last prepare_for_update_call. *)
Fixpoint counted (os : list idop) (pending : bool) : list R :=
  match os with
  | [] => []
  | DUpdate d a b :: os' =>
      if pending then sqrt (sumn d (fun i => (a i - b i) * (a i - b i))) :: counted os' false
      else counted os' false
  | DPrepare :: os' => counted os' true
  | DInit _ :: os' => counted os' pending
  end.
Definition id_call (o : idop) : Prop := match o with DInit _ => False | _ => True end.

(** C14: the rate law for the damage, textbook form (for bases 1 - d + decay > 0). *)
Definition M1_law (A decay expo endurance char d0 old eff force : R) : R :=
  Rmin 1 (d0 + A * char * Rmax (eff - old) 0 * Rpower (1 - d0 + decay) expo * (force - endurance)).
