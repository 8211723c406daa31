(** * What C100 means. *)
From Verif Require Import Num Tensors ModelLineSearch SpecLineSearch ModelHistory ModelFEField ModelActiveSet ModelLinear SpecLinear ModelAssembly
  ModelSweep ModelBody SpecBody ModelTangent.
Open Scope R_scope.

(** The line search samples the function [phi] of the step length. *)
Definition samples (phi : R -> R) (obj : nat -> xr -> xr) : Prop := forall j t, obj j (Fin t) = Fin (phi t).
(** A line search from the value [f0] that may reduce the step [n_max s] times ends with a step
    length for which [phi] is sufficiently below [f0], or with NaN (two trials of the same
    curvature, C01). *)
Definition search_succeeds (phi : R -> R) (f0 : R) (s : ls) : Prop := forall obj, samples phi obj ->
  exists s' l f, line_search obj (S (n_max s)) (reinit s (Fin f0)) = Some (s', l, f) /\
  (l = NaN \/ exists t, l = Fin t /\ f = Fin (phi t) /\ 0 < t <= 1 /\ phi t < (1 - 2 * alpha s * t) * f0).
(** With enough reductions allowed. *)
Definition search_succeeds_eventually (phi : R -> R) (f0 a : R) : Prop := exists N, forall s, alpha s = a -> (N <= n_max s)%nat -> search_succeeds phi f0 s.
