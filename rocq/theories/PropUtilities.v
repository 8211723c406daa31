(** * C06-C08: scalar helper functions. *)
From Coquelicot Require Import Coquelicot.
From Verif Require Import Num ModelUtilities ProofErf ProofUtilities.
Open Scope R_scope.

(** C06. *)
Theorem C06_macaulay_is_positive_part : forall x,
  macaulay_brackets x = Rmax x 0 /\ x = macaulay_brackets x - macaulay_brackets (- x).
Proof. intro x. exact (conj (macaulay_max x) (macaulay_split x)). Qed.
Print Assumptions C06_macaulay_is_positive_part.

Theorem C06_signum_is_sign : forall x,
  (0 < x -> signum_function x = 1) /\ (x = 0 -> signum_function x = 0) /\
  (x < 0 -> signum_function x = -1) /\ x = signum_function x * Rabs x.
Proof.
  intro x. destruct (signum_cases x) as (A & B & C).
  exact (conj A (conj B (conj C (signum_abs x)))).
Qed.
Print Assumptions C06_signum_is_sign.

Example C06_values : macaulay_brackets (-3) = 0 /\ macaulay_brackets 2 = 2.
Proof.
  rewrite !macaulay_max. unfold Rmax. split; destruct Rle_dec; lra.
Qed.

(** C07. *)
Theorem C07_sigmoid_is_odd : forall k p x,
  sigmoid_function (- x) p k = - sigmoid_function x p k.
Proof. exact sigmoid_odd. Qed.
Print Assumptions C07_sigmoid_is_odd.

Theorem C07_sigmoid_strictly_increasing : forall k p x y, 0 < p -> x < y ->
  sigmoid_function x p k < sigmoid_function y p k.
Proof. exact sigmoid_increasing. Qed.
Print Assumptions C07_sigmoid_strictly_increasing.

Theorem C07_sigmoid_bounded_by_one : forall k p x, 0 < p ->
  -1 < sigmoid_function x p k < 1.
Proof. exact sigmoid_bound. Qed.
Print Assumptions C07_sigmoid_bounded_by_one.

Theorem C07_sigmoid_has_sign_of_argument : forall k p x, 0 < p ->
  (0 < x <-> 0 < sigmoid_function x p k) /\ (x < 0 <-> sigmoid_function x p k < 0) /\
  (x = 0 <-> sigmoid_function x p k = 0).
Proof. exact sigmoid_sign_iff. Qed.
Print Assumptions C07_sigmoid_has_sign_of_argument.

(** C07 needs the parameter to be positive: a negative one turns the function around. *)
Example C07_positive_parameter_needed : sigmoid_function 1 (-1) Atan < 0.
Proof. exact sigmoid_negative_parameter. Qed.

(** C08. *)
Theorem C08_derivative_is_exact : forall k x p, 0 < p ->
  is_derive (fun v => sigmoid_function v p k) x (sigmoid_function_derivative x p k).
Proof. exact sigmoid_derive. Qed.
Print Assumptions C08_derivative_is_exact.

Theorem C08_derivative_is_positive_with_common_slope : forall k x p, 0 < p ->
  0 < sigmoid_function_derivative x p k /\ sigmoid_function_derivative 0 p k = 1 / p.
Proof.
  intros k x p H. exact (conj (sigmoid_derivative_pos k x p H) (sigmoid_slope_zero k p H)).
Qed.
Print Assumptions C08_derivative_is_positive_with_common_slope.

Example C08_value : sigmoid_function_derivative 0 2 Sqrt = 1 / 2.
Proof. apply sigmoid_slope_zero; lra. Qed.
