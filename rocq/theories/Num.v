(** * Numerical and control-flow vocabulary shared by all model files.

    - [sumn n f] is the C++ loop  [acc = 0; for (i = 0; i < n; ++i) acc += f(i);]
    - [result A] is the outcome of a C++ call that may hit an [AssertThrow].
    - [xr] are doubles without rounding/overflow but *with* IEEE-754 exceptional
      values: used wherever a property is about divisions by zero, 0/0 or square
      roots of negative numbers.
    Nothing here models a particular function of the repository. *)
From Coq Require Export Reals Lra Lia List Bool Arith.
Export ListNotations.
Open Scope R_scope.

(** Loop sum. *)
Fixpoint sumn (n : nat) (f : nat -> R) : R :=
  match n with
  | O => 0
  | S k => sumn k f + f k
  end.

(** Kronecker delta. *)
Definition kron (i j : nat) : R := if Nat.eqb i j then 1 else 0.

(** Outcome of a call: normal return, exception raised by [AssertThrow] (or by the
    standard library), or undefined behaviour (out-of-range access, uninitialised
    read, ...). *)
Inductive result (A : Type) : Type :=
| Ok (a : A)
| Throw
| UB.
Arguments Ok {A} a.
Arguments Throw {A}.
Arguments UB {A}.

Definition rbind {A B} (x : result A) (f : A -> result B) : result B :=
  match x with Ok a => f a | Throw => Throw | UB => UB end.

(** Boolean comparisons on reals (C++ [<], [>], [<=], [>=] on finite doubles). *)
Definition Rltb (x y : R) : bool := if Rlt_dec x y then true else false.
Definition Rleb (x y : R) : bool := if Rle_dec x y then true else false.
Definition Reqb (x y : R) : bool := if Req_EM_T x y then true else false.

Lemma Rltb_true x y : Rltb x y = true <-> x < y.
Proof. unfold Rltb; destruct (Rlt_dec x y); split; intros; try lra; try discriminate; auto. Qed.
Lemma Rltb_false x y : Rltb x y = false <-> y <= x.
Proof. unfold Rltb; destruct (Rlt_dec x y); split; intros; try lra; try discriminate; auto. Qed.
Lemma Rleb_true x y : Rleb x y = true <-> x <= y.
Proof. unfold Rleb; destruct (Rle_dec x y); split; intros; try lra; try discriminate; auto. Qed.
Lemma Rleb_false x y : Rleb x y = false <-> y < x.
Proof. unfold Rleb; destruct (Rle_dec x y); split; intros; try lra; try discriminate; auto. Qed.
Lemma Reqb_true x y : Reqb x y = true <-> x = y.
Proof. unfold Reqb; destruct (Req_EM_T x y); split; intros; try lra; try discriminate; auto. Qed.
Lemma Reqb_false x y : Reqb x y = false <-> x <> y.
Proof. unfold Reqb; destruct (Req_EM_T x y); split; intros; try lra; try discriminate; auto; contradiction. Qed.

(** ** Extended values: exact reals plus IEEE-754 exceptional values.
    Signed zeros are not distinguished: [x / 0] for finite [x <> 0] yields the
    infinity with the sign of [x] (C++: the sign of [x] xor the sign of the zero). *)
Inductive xr : Type :=
| Fin (r : R)
| PInf
| NInf
| NaN.

Definition xsign (r : R) : xr := if Rltb 0 r then PInf else if Rltb r 0 then NInf else NaN.

Definition xneg (a : xr) : xr :=
  match a with Fin r => Fin (- r) | PInf => NInf | NInf => PInf | NaN => NaN end.

Definition xadd (a b : xr) : xr :=
  match a, b with
  | NaN, _ | _, NaN => NaN
  | Fin x, Fin y => Fin (x + y)
  | PInf, NInf | NInf, PInf => NaN
  | PInf, _ | _, PInf => PInf
  | NInf, _ | _, NInf => NInf
  end.

Definition xsub (a b : xr) : xr := xadd a (xneg b).

Definition xmul (a b : xr) : xr :=
  match a, b with
  | NaN, _ | _, NaN => NaN
  | Fin x, Fin y => Fin (x * y)
  | Fin x, PInf | PInf, Fin x => xsign x
  | Fin x, NInf | NInf, Fin x => xneg (xsign x)
  | PInf, PInf | NInf, NInf => PInf
  | PInf, NInf | NInf, PInf => NInf
  end.

Definition xdiv (a b : xr) : xr :=
  match a, b with
  | NaN, _ | _, NaN => NaN
  | Fin x, Fin y => if Reqb y 0 then xsign x else Fin (x / y)
  | Fin _, _ => Fin 0
  | PInf, Fin y => if Rltb y 0 then NInf else PInf
  | NInf, Fin y => if Rltb y 0 then PInf else NInf
  | _, _ => NaN
  end.

Definition xsqrt (a : xr) : xr :=
  match a with
  | Fin r => if Rltb r 0 then NaN else Fin (sqrt r)
  | PInf => PInf
  | _ => NaN
  end.

(** IEEE [<] : every comparison with NaN is false. *)
Definition xltb (a b : xr) : bool :=
  match a, b with
  | NaN, _ | _, NaN => false
  | Fin x, Fin y => Rltb x y
  | NInf, NInf => false
  | NInf, _ => true
  | _, NInf => false
  | PInf, _ => false
  | _, PInf => true
  end.
Definition xgtb (a b : xr) : bool := xltb b a.

(** C++ [std::max(a,b)] is [(a < b) ? b : a]. *)
Definition xmax (a b : xr) : xr := if xltb a b then b else a.

(** [std::pow(x, y)]: for x > 0 the real power; 0^y is 0, 1 or +inf; a negative base gives
    a value only for integral exponents. *)
Definition cpow (x y : R) : xr :=
  if Rltb 0 x then Fin (Rpower x y)
  else if Reqb x 0 then (if Rltb 0 y then Fin 0 else if Reqb y 0 then Fin 1 else PInf)
  else if Reqb (IZR (Int_part y)) y then Fin (powerRZ x (Int_part y)) else NaN.
