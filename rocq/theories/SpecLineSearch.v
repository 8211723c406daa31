(** * Specification vocabulary for the line search (independent of the formulas). *)
From Verif Require Import Num ModelLineSearch.
Open Scope R_scope.

(** The unconditional sequence of trials: state, step and objective of trial [k]. *)
Fixpoint trial (obj : nat -> xr -> xr) (s0 : ls) (k : nat) : ls * xr * xr :=
  match k with
  | O => (s0, Fin 1, obj O (Fin 1))
  | S k' =>
      let '(s, l, f) := trial obj s0 k' in
      let (s', l') := get_lambda s f l in
      (s', l', obj (S k') l')
  end.

Definition accepted (t : ls * xr * xr) : bool :=
  let '(s, l, f) := t in sufficient_descent s f l.

Definition step_of (t : ls * xr * xr) : xr := snd (fst t).
Definition value_of (t : ls * xr * xr) : xr := snd t.

(** Armijo acceptance with slope -2 f0 on real numbers. *)
Definition armijo (alpha f0 lambda f : R) : Prop := f < f0 + alpha * lambda * (-2 * f0).

(** Curvature of the parabola through f(0)=f0 with slope -2 f0 and f(lambda)=f. *)
Definition curvature (f0 lambda f : R) : R := (f - f0 - lambda * (-2 * f0)) / (lambda * lambda).
