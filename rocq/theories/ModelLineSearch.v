(** * Model of the line search (source/line_search.cc, include/gCP/line_search.h)
    and of the loops that drive it (solve.cc).

    Doubles are [xr] values: exact reals plus infinities and NaN, because the two
    interpolation formulas divide by data-dependent quantities and take a square
    root of a possibly negative discriminant.  The literals 0.1, 0.5, ... denote
    the exact decimals (simplification: no rounding). *)
From Verif Require Import Num.
Open Scope R_scope.

(** include/gCP/line_search.h:46-72, the data members (table_handler, step_id and
    iteration_id only feed the log file and are omitted; beta is never read by any
    executed statement, line_search.h:92-100 being commented out). *)
Record ls := mk_ls {
  n_iterations : nat;      (* unsigned int n_iterations *)
  n_max        : nat;      (* unsigned int n_max_iterations *)
  alpha        : R;        (* double alpha, a checked finite input parameter *)
  f_init       : xr;       (* initial_scalar_function_value *)
  descent      : xr;       (* descent_direction *)
  lambda_old   : xr;       (* old_lambda *)
  lambda_oold  : xr;       (* old_old_lambda *)
  f_old        : xr;       (* old_scalar_function_value *)
  f_oold       : xr        (* old_old_scalar_function_value *)
}.

(** line_search.cc:42-56, LineSearch::reinit.  The four "old" members keep whatever
    value they had (they are indeterminate after construction). *)
Definition reinit (s : ls) (f0 : xr) : ls :=
  mk_ls 0 (n_max s) (alpha s) f0 (xmul (Fin (-2)) f0)
        (lambda_old s) (lambda_oold s) (f_old s) (f_oold s).

(** line_search.cc:104-119, LineSearch::quadratic_backtracking. *)
Definition quadratic_backtracking (s : ls) (f : xr) : xr :=
  let lambda := xdiv (xdiv (xneg (descent s)) (Fin 2))
                     (xsub (xsub f (f_init s)) (descent s)) in
  if xltb lambda (Fin (1/10)) then Fin (1/10)
  else if xgtb lambda (Fin (5/10)) then Fin (5/10)
  else lambda.

(** line_search.cc:123-164, LineSearch::cubic_backtracking.  [FullMatrix::vmult]
    accumulates [sum += A(i,j) * v(j)] from 0. *)
Definition cubic_coefficients (s : ls) : xr * xr :=
  let l := lambda_old s in
  let m := lambda_oold s in
  let factor := xdiv (Fin 1) (xsub l m) in
  let m00 := xdiv (Fin 1) (xmul l l) in
  let m01 := xneg (xdiv (Fin 1) (xmul m m)) in
  let m10 := xdiv (xneg m) (xmul l l) in
  let m11 := xdiv l (xmul m m) in
  let v0 := xsub (xsub (f_old s) (f_init s)) (xmul l (descent s)) in
  let v1 := xsub (xsub (f_oold s) (f_init s)) (xmul m (descent s)) in
  let c0 := xadd (xadd (Fin 0) (xmul m00 v0)) (xmul m01 v1) in
  let c1 := xadd (xadd (Fin 0) (xmul m10 v0)) (xmul m11 v1) in
  (xmul factor c0, xmul factor c1).

Definition cubic_backtracking (s : ls) : xr :=
  let (c0, c1) := cubic_coefficients s in
  let lambda :=
    xdiv (xadd (xneg c1)
               (xsqrt (xsub (xmul c1 c1) (xmul (xmul (Fin 3) c0) (descent s)))))
         (xmul (Fin 3) c0) in
  if xltb lambda (xmul (Fin (1/10)) (lambda_old s)) then xmul (Fin (1/10)) (lambda_old s)
  else if xgtb lambda (xmul (Fin (5/10)) (lambda_old s)) then xmul (Fin (5/10)) (lambda_old s)
  else lambda.

(** line_search.cc:60-91, LineSearch::get_lambda: new state and returned step. *)
Definition get_lambda (s : ls) (f l : xr) : ls * xr :=
  match n_iterations s with
  | O =>
      let s1 := mk_ls (n_iterations s) (n_max s) (alpha s) (f_init s) (descent s)
                      l (lambda_oold s) f (f_old s) in
      (mk_ls (S (n_iterations s)) (n_max s) (alpha s) (f_init s) (descent s)
             l (lambda_oold s) f (f_old s),
       quadratic_backtracking s1 f)
  | S _ =>
      let s1 := mk_ls (n_iterations s) (n_max s) (alpha s) (f_init s) (descent s)
                      l (lambda_old s) f (f_old s) in
      (mk_ls (S (n_iterations s)) (n_max s) (alpha s) (f_init s) (descent s)
             l (lambda_old s) f (f_old s),
       cubic_backtracking s1)
  end.

(** line_search.h:81-109, LineSearch::suficient_descent_condition. *)
Definition sufficient_descent (s : ls) (f l : xr) : bool :=
  if Nat.ltb (n_max s) (n_iterations s) then true
  else xltb f (xadd (f_init s) (xmul (xmul (Fin (alpha s)) l) (descent s))).

(** line_search.h:113-117, LineSearch::get_objective_function_value. *)
Definition objective (residuum : xr) : xr := xmul (xmul (Fin (5/10)) residuum) residuum.

(** solve.cc:1564-1599 and 1602-1639, line_search_algorithm: the loop around
    get_lambda.  [obj k l] is the objective of the residual assembled for the
    [k]-th trial with step [l]: an arbitrary oracle.  [fuel] bounds the recursion
    only; [None] is "still looping". *)
Fixpoint search_loop (obj : nat -> xr -> xr) (fuel : nat) (k : nat)
         (s : ls) (l f : xr) : option (ls * xr * xr) :=
  if sufficient_descent s f l then Some (s, l, f)
  else match fuel with
       | O => None
       | S fuel' =>
           let (s', l') := get_lambda s f l in
           search_loop obj fuel' (S k) s' l' (obj (S k) l')
       end.

(** solve.cc:1570-1575: the first trial is the full Newton step, lambda = 1. *)
Definition line_search (obj : nat -> xr -> xr) (fuel : nat) (s : ls)
  : option (ls * xr * xr) :=
  search_loop obj fuel 0 s (Fin 1) (obj 0%nat (Fin 1)).

(** ** Trial-solution bookkeeping inside the loop. *)

(** include/gCP/gradient_crystal_plasticity.h:45-49. *)
Inductive block_index := Macro | Micro.
Definition block_eqb (a b : block_index) : bool :=
  match a, b with Macro, Macro | Micro, Micro => true | _, _ => false end.

(** A block vector: dof -> value, each dof lying in one block.  Closed affine
    constraints give each constrained dof a combination of unconstrained dofs plus
    an inhomogeneity (dealii::AffineConstraints after close()). *)
(** The block layout and affine constraints solve.cc:1469-1560 work on. *)
Record mesh := mk_mesh {
  block_of   : nat -> block_index;
  constraint : nat -> option (list (nat * R) * R)
}.

(** dealii::AffineConstraints::distribute. *)
(** solve.cc:1487, 1514 and 1556: AffineConstraints::distribute. *)
Definition combine (v : nat -> R) (l : list (nat * R)) : R :=
  fold_right (fun jc acc => snd jc * v (fst jc) + acc) 0 l.
(** solve.cc:1487, 1514 and 1556: AffineConstraints::distribute. *)
Definition distribute (m : mesh) (v : nat -> R) : nat -> R :=
  fun i => match constraint m i with
           | None => v i
           | Some (l, b) => combine v l + b
           end.

(** [trial.block(b) = src.block(b)]. *)
(** solve.cc:1496-1560: block assignments. *)
Definition set_block (m : mesh) (b : block_index) (dst src : nat -> R) : nat -> R :=
  fun i => if block_eqb (block_of m i) b then src i else dst i.

(** solve.cc:1469-1492, update_trial_solution(relaxation_parameter, block_index). *)
Definition update_trial (m : mesh) (trial newton : nat -> R) (lambda : R) (b : block_index)
  : nat -> R :=
  let d := fun i => if block_eqb (block_of m i) b then trial i + lambda * newton i
                    else trial i in
  set_block m b trial (distribute m d).

(** solve.cc:1664-1691, reset_trial_solution(false, block_index); the default
    argument of block_index is Macro (gradient_crystal_plasticity.h:333-335). *)
Definition reset_trial (m : mesh) (trial stored : nat -> R) (b : block_index) : nat -> R :=
  set_block m b trial (distribute m stored).

(** One pass through the body of line_search_algorithm(line_search, block_index),
    solve.cc:1621-1628: reset_trial_solution() is called *without* the block. *)
Definition search_trial_step (m : mesh) (stored newton trial : nat -> R)
           (b : block_index) (lambda : R) : nat -> R :=
  update_trial m (reset_trial m trial stored Macro) newton lambda b.

(** The trial solution after testing the steps [lambdas] in order (oldest first),
    starting from the trial solution on loop entry. *)
(** The loops of solve.cc:1577-1600 and 1602-1640. *)
Definition search_trials (m : mesh) (stored newton : nat -> R) (b : block_index)
           (trial : nat -> R) (lambdas : list R) : nat -> R :=
  fold_left (fun t l => search_trial_step m stored newton t b l) lambdas trial.

(** State on loop entry, solve.cc:200-235 (monolithic), 490-520 (bouncing, micro),
    620-655 (bouncing, macro), 766-837 and 913-948 (embracing): the trial solution was
    stored, then updated with the full step. *)
Definition search_entry (m : mesh) (stored newton : nat -> R) (b : block_index) : nat -> R :=
  update_trial m stored newton 1 b.
