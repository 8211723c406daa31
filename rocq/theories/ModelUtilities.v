(** * Model of the scalar helper functions (source/utilities.cc:57-192).

    [AssertIsFinite] is a debug-only check and finite inputs are the only ones the
    real-number model has.  [M_PI] is the exact [PI] (no rounding). *)
From Coquelicot Require Import Coquelicot.
From Verif Require Import Num.
Open Scope R_scope.

(** utilities.cc:57-62, macaulay_brackets. *)
Definition macaulay_brackets (value : R) : R := if Rltb 0 value then value else 0.

(** utilities.cc:66-71, signum_function: difference of two C++ booleans. *)
Definition b2R (b : bool) : R := if b then 1 else 0.
Definition signum_function (value : R) : R := b2R (Rltb 0 value) - b2R (Rltb value 0).

(** include/gCP/run_time_parameters.h, enum class RegularizationFunction. The
    [default] branch of the two switches (AssertThrow) is unreachable for these five
    enumerators. *)
(** include/gCP/run_time_parameters.h:123-188. *)
Inductive regularization := Atan | Sqrt | Gd | Tanh | Erf.

(** C99 [erf], the mathematical function libm approximates. *)
(** std::erf in source/utilities.cc:114 and source/constitutive_laws.cc:486. *)
Definition erf (x : R) : R := 2 / sqrt PI * RInt (fun t => exp (- (t * t))) 0 x.

(** utilities.cc:75-130, sigmoid_function. *)
Definition sigmoid_function (value parameter : R) (k : regularization) : R :=
  match k with
  | Atan => 2 / PI * atan (PI / 2 * value / parameter)
  | Sqrt => value / sqrt (value * value + parameter * parameter)
  | Gd   => 2 / PI * atan (sinh (PI / 2 * value / parameter))
  | Tanh => tanh (value / parameter)
  | Erf  => erf (sqrt PI / 2 * value / parameter)
  end.

(** utilities.cc:134-192, sigmoid_function_derivative.  [std::pow(x, 1.5)] is
    [Rpower x (3/2)] (x > 0 here), [std::pow(x, 2)] is [x ^ 2]. *)
Definition sigmoid_function_derivative (value parameter : R) (k : regularization) : R :=
  match k with
  | Atan => parameter / (parameter * parameter + PI * PI * value * value / 4)
  | Sqrt => parameter * parameter
            / Rpower (value * value + parameter * parameter) (15/10)
  | Gd   => 1 / cosh (PI / 2 * value / parameter) / parameter
  | Tanh => (1 / cosh (value / parameter)) ^ 2 / parameter
  | Erf  => 1 / parameter * exp (- PI * value * value / parameter / parameter / 4)
  end.
