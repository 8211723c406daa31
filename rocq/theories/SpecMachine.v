(** * What C101 means: the work of the testing machine. *)
From Verif Require Import Num ModelFEField ModelActiveSet ModelSolver ModelLoading ModelShear SpecShear ModelProgram SpecProgram SpecLinear
  ModelInterface ModelSweep ModelStep ModelAssembly ModelBody SpecBody SpecRun SpecEnergy.
Open Scope R_scope.

(** The dof [d] belongs to the loaded displacement component of the upper boundary (the dofs of
    hanging nodes follow their neighbours). *)
Definition driven {H} (p : program H) (d : nat) : bool :=
  let m := pr_strip p in
  match s_hanging m d with
  | Some _ => false
  | None => existsb (fun b => Nat.eqb (b_dof b) d && Nat.eqb (b_id b) 3 && Nat.ltb (b_comp b) (s_dim m * (if s_decohesion m then s_nc m else 1))
      && Nat.eqb (b_comp b mod s_dim m) (pr_component p))%bool (s_boundary m)
  end.
(** Motion of the machine in one unit of time: height times maximal load, in units of the
    characteristic displacement, on the driven dofs; nothing else is moved. *)
Definition crosshead {H} (p : program H) : vec := fun d => if driven p d then pr_height p * l_max (pr_loading p) / pr_char p else 0.
(** Power of the machine: the power of the reactions on this motion. *)
Definition machine_power {H} (p : program H) (b : body) (old x : vec) (r : rank_data) : R := - virtual_power b old x r (crosshead p).

(** Work of the machine in the accepted steps with the times [times]; [t0], [old], [h] belong to
    the beginning of the first of them. *)
Fixpoint machine_work {H} (p : program H) (bs : list body) (xs : list vec) (times : list R) (t0 : R) (old : vec) (h : rank_data) : R :=
  match bs, xs, times with
  | b :: bs', x :: xs', t :: ts =>
      let iv := body_update b old x (body_store b h) in
      (t - t0) * machine_power p b old x iv + machine_work p bs' xs' ts t x (body_finish b x iv)
  | _, _, _ => 0
  end.
(** The motion beyond that of the machine, over which the accepted equilibrium is within the
    tolerance; sum of the tolerances of the steps. *)
Fixpoint tolerance_work {H} (p : program H) (bs : list body) (xs : list vec) (times : list R) (t0 : R) (old : vec) : R :=
  match bs, xs, times with
  | b :: bs', x :: xs', t :: ts =>
      tolerated (pr_parameters p) (pr_algorithm p) b (fun d => x d - old d - (t - t0) * crosshead p d) + tolerance_work p bs' xs' ts t x
  | _, _, _ => 0
  end.
(** Energy dissipated by the slips in these steps. *)
Fixpoint slip_work (bs : list body) (xs : list vec) (old : vec) (h : rank_data) : R :=
  match bs, xs with
  | b :: bs', x :: xs' =>
      let h' := body_finish b x (body_update b old x (body_store b h)) in dissipated b old x h' + slip_work bs' xs' x h'
  | _, _ => 0
  end.
(** Nothing but the machine acts on the body. *)
Definition only_sheared (b : body) : Prop := forall c, In c (b_cells b) ->
  (forall q i, cr_supply (b_crystal b c) q i = 0) /\ b_loads b c = [] /\ (forall i j, cr_macro (b_crystal b c) i j = 0).
Definition no_strain : nat -> nat -> nat -> R := fun _ _ _ => 0.
