(** * The interface history is updated from both cells of a face, concurrently
      (source/gradient_crystal_plasticity/assembly.cc:1294-1360 and 1408-1536,
      quadrature_point_history.cc:131-158, applications/simple_shear.cc:929-930).

    [WorkStream::run] executes the workers of different cells in parallel (MPI_InitFinalize is
    called with an unlimited number of threads) and the worker itself, not the copier, calls
    [update_values] on the history object both cells of the face share.  The statements of
    [update_values] (OrtizEtAl) are modelled as atomic reads and writes of the two members,
    executed by two visits in any interleaving (sequential consistency; formally the concurrent
    accesses are undefined behaviour). *)
From Verif Require Import Num Tensors ModelUtilities ModelCohesive ModelInterface.
Open Scope R_scope.

(** A visit in progress: next statement, local value, argument of the call. *)
(** An activation of quadrature_point_history.cc:135-152 by a WorkStream worker (assembly.cc:1294-1360). *)
Record visit := mk_visit { v_pc : nat; v_reg : R; v_eff : R }.
(** The call assembly.cc:1294-1360. *)
Definition enter (eff : R) : visit := mk_visit 0 0 eff.
(** The return from quadrature_point_history.cc:135-152. *)
Definition finished (v : visit) : Prop := v_pc v = 7%nat.

(** Assignment to damage_variable, quadrature_point_history.cc:135-152. *)
Definition with_damage (s : ihist) (x : xr) : ihist :=
  mk_ihist (i_prm s) x (i_max s) (i_old s) (i_tmp0 s) (i_tmp1 s).
(** Assignment to max_effective_opening_displacement, quadrature_point_history.cc:135-152. *)
Definition with_max (s : ihist) (x : R) : ihist :=
  mk_ihist (i_prm s) (i_damage s) x (i_old s) (i_tmp0 s) (i_tmp1 s).

(** quadrature_point_history.cc:135-152, statement by statement. *)
Definition visit_step (p : iprm) (s : ihist) (v : visit) : ihist * visit :=
  let next r := mk_visit (S (v_pc v)) r (v_eff v) in
  match v_pc v with
  | 0%nat => (with_damage s (i_tmp0 s), next (v_reg v))
  | 1%nat => (with_max s (i_tmp1 s), next (v_reg v))
  | 2%nat => (s, next (i_max s))                             (* read for std::max *)
  | 3%nat => (with_max s (if Rltb (v_reg v) (v_eff v) then v_eff v else v_reg v), next 0)
  | 4%nat => (s, next (i_max s))                             (* displacement_ratio *)
  | 5%nat => (with_damage s (Fin (exponential_damage (v_reg v) (i_crit_opening p))), next 0)
  | 6%nat => (if i_zero_damage p then with_damage s (Fin 0) else s, next 0)
  | _ => (s, v)
  end.

(** A schedule names the visit executing the next statement ([true]: the first). *)
(** Two WorkStream workers of assembly.cc:1294-1360 inside quadrature_point_history.cc:135-152. *)
Fixpoint interleave (p : iprm) (s : ihist) (a b : visit) (schedule : list bool) : ihist * visit * visit :=
  match schedule with
  | [] => (s, a, b)
  | true :: rest => let '(s', a') := visit_step p s a in interleave p s' a' b rest
  | false :: rest => let '(s', b') := visit_step p s b in interleave p s' a b' rest
  end.

(** assembly.cc:1480-1486: what the two sides pass, for the jump [delta] and the normal [n] of
    the first side. *)
Definition opening_of_side (d : nat) (c : cohesive) (delta n : vec) (first : bool) : R :=
  if first then effective_opening d (ratio c) delta n else effective_opening d (ratio c) (vneg delta) (vneg n).
