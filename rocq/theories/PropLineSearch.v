(** * C01-C05: the line search. *)
From Verif Require Import Num ModelLineSearch SpecLineSearch ProofLineSearch.
Open Scope R_scope.

Ltac req := match goal with |- context [Reqb ?x 0] => rewrite (Reqb_neq x 0) by lra end.

(** C01. One call: whatever the inputs (including infinities and NaN), the returned
    step is NaN or inside the safeguard interval. *)
Theorem C01_step_in_safeguard_interval : forall s f,
  (forall l, n_iterations s = 0%nat ->
     snd (get_lambda s f l) = NaN \/
     exists y, snd (get_lambda s f l) = Fin y /\ 1/10 <= y <= 5/10) /\
  (forall l, n_iterations s <> 0%nat -> 0 < l ->
     snd (get_lambda s f (Fin l)) = NaN \/
     exists y, snd (get_lambda s f (Fin l)) = Fin y /\ 1/10 * l <= y <= 5/10 * l).
Proof.
  intros s f. split.
  - intros l H. exact (get_lambda_first s f l H).
  - intros l H Hl. destruct (n_iterations s) as [|n] eqn:E; [contradiction|].
    exact (get_lambda_later s f l n E Hl).
Qed.
Print Assumptions C01_step_in_safeguard_interval.

(** C01. Whole search: the k-th step is NaN or lies between 10^-k and 2^-k. *)
Theorem C01_step_sequence_shape : forall obj s f0 k,
  step_of (trial obj (reinit s f0) k) = NaN \/
  exists y, step_of (trial obj (reinit s f0) k) = Fin y /\ (1/10)^k <= y <= (1/2)^k.
Proof. exact trial_step_shape. Qed.
Print Assumptions C01_step_sequence_shape.

(** C01. Exactly when NaN appears: never on the first reduction (f0 > 0, f >= 0); on
    a later one, with alpha <= 1/4, iff the two last trials predict exactly the same
    curvature (the code divides 0 by 0 there instead of using the parabola). *)
Theorem C01_first_reduction_is_finite : forall obj s f0 f,
  0 < f0 -> 0 <= f -> obj 0%nat (Fin 1) = Fin f ->
  exists y, step_of (trial obj (reinit s (Fin f0)) 1) = Fin y /\ 1/10 <= y <= 5/10.
Proof. exact first_step_finite. Qed.
Print Assumptions C01_first_reduction_is_finite.

Theorem C01_nan_iff_equal_curvature : forall obj s f0 k l m f1 f2,
  0 < f0 -> 0 < alpha s <= 1/4 -> 0 < m ->
  step_of (trial obj (reinit s (Fin f0)) k) = Fin m ->
  value_of (trial obj (reinit s (Fin f0)) k) = Fin f2 ->
  accepted (trial obj (reinit s (Fin f0)) k) = false ->
  step_of (trial obj (reinit s (Fin f0)) (S k)) = Fin l ->
  value_of (trial obj (reinit s (Fin f0)) (S k)) = Fin f1 ->
  (step_of (trial obj (reinit s (Fin f0)) (S (S k))) = NaN <->
   curvature f0 l f1 = curvature f0 m f2).
Proof. exact later_step_nan_iff. Qed.
Print Assumptions C01_nan_iff_equal_curvature.

(** The NaN is reachable with finite data: objective 1, 29 at step 1, 11/10 at 1/10. *)
Definition ls_default : ls := mk_ls 0 15 (1/10000) (Fin 0) (Fin 0) (Fin 0) (Fin 0) (Fin 0) (Fin 0).
Definition nan_obj (k : nat) (l : xr) : xr :=
  match k with O => Fin 29 | _ => Fin (11/10) end.

Theorem C01_finite_step_refuted : exists obj s f0,
  (forall k l, exists y, obj k l = Fin y /\ 0 <= y) /\ 0 < f0 /\ 0 < alpha s < 1/4 /\
  accepted (trial obj (reinit s (Fin f0)) 0) = false /\
  accepted (trial obj (reinit s (Fin f0)) 1) = false /\
  step_of (trial obj (reinit s (Fin f0)) 2) = NaN.
Proof.
  exists nan_obj, ls_default, 1.
  assert (H1 : step_of (trial nan_obj (reinit ls_default (Fin 1)) 1) = Fin (1/10)).
  { unfold step_of. rewrite trial_S. cbn [trial fst snd nan_obj].
    unfold get_lambda, quadratic_backtracking. cbn [n_iterations reinit snd descent f_init].
    cbn [xmul xneg xdiv xsub xadd].
    rewrite (Reqb_neq 2 0) by lra. cbn [xdiv].
    req.
    cbn [xltb].
    match goal with |- context [Rltb ?x (1/10)] => replace x with (1/30) by field end.
    rewrite (proj2 (Rltb_true _ _)) by lra. reflexivity. }
  assert (V1 : value_of (trial nan_obj (reinit ls_default (Fin 1)) 1) = Fin (11/10)) by reflexivity.
  assert (A0 : accepted (trial nan_obj (reinit ls_default (Fin 1)) 0) = false).
  { unfold accepted, trial, sufficient_descent. simpl. apply Rltb_false. lra. }
  repeat split; try (simpl; lra).
  - intros [|k] l; [exists 29|exists (11/10)]; simpl; split; try reflexivity; lra.
  - exact A0.
  - destruct (accepted (trial nan_obj (reinit ls_default (Fin 1)) 1)) eqn:E; [|reflexivity].
    apply (accepted_armijo nan_obj ls_default 1 1 (1/10) (11/10) H1 V1) in E; [|simpl; lia].
    unfold armijo in E. simpl in E. lra.
  - apply (later_step_nan_iff nan_obj ls_default 1 0 (1/10) 1 (11/10) 29);
      try lra; auto; [simpl; lra|]. unfold curvature. field.
Qed.
Print Assumptions C01_finite_step_refuted.

(** C02. Termination and first-acceptance, for every behaviour of the residual. *)
Theorem C02_line_search_terminates : forall obj s f0,
  let s0 := reinit s f0 in
  exists j, (j <= S (n_max s))%nat /\
    line_search obj (S (n_max s)) s0 = Some (trial obj s0 j) /\
    accepted (trial obj s0 j) = true /\
    (forall i, (i < j)%nat -> accepted (trial obj s0 i) = false).
Proof. intros obj s f0. exact (line_search_terminates obj (reinit s f0) eq_refl). Qed.
Print Assumptions C02_line_search_terminates.

(** A search that uses the whole budget: constant objective. *)
Example C02_budget_is_attained : exists s', 
  line_search (fun _ _ => Fin 1) 3 (reinit (mk_ls 0 0 (1/10000) (Fin 0) (Fin 0) (Fin 0) (Fin 0) (Fin 0) (Fin 0)) (Fin 1))
   = Some s' /\ n_iterations (fst (fst s')) = 1%nat.
Proof.
  unfold line_search. cbn [search_loop].
  assert (E : sufficient_descent
     (reinit (mk_ls 0 0 (1/10000) (Fin 0) (Fin 0) (Fin 0) (Fin 0) (Fin 0) (Fin 0)) (Fin 1))
     (Fin 1) (Fin 1) = false).
  { unfold sufficient_descent. simpl. apply Rltb_false. lra. }
  rewrite E. unfold get_lambda. cbn [n_iterations reinit].
  cbn [search_loop]. unfold sufficient_descent at 1. cbn [n_iterations n_max].
  simpl. eexists. split; reflexivity.
Qed.

(** C03. Acceptance before the budget is exhausted is Armijo's condition... *)
Theorem C03_accepted_step_satisfies_armijo : forall obj fuel s f0 s' l f,
  line_search obj fuel (reinit s (Fin f0)) = Some (s', Fin l, Fin f) ->
  (n_iterations s' <= n_max s)%nat ->
  f < (1 - 2 * alpha s * l) * f0 /\ 0 < l <= 1.
Proof.
  intros obj fuel s f0 s' l f H Hn.
  exact (conj (line_search_armijo obj fuel s f0 s' l f H Hn)
              (line_search_step_range obj fuel s (Fin f0) s' l (Fin f) H)).
Qed.
Print Assumptions C03_accepted_step_satisfies_armijo.

(** ... and it makes the residual norm strictly smaller. *)
Theorem C03_residual_norm_decreases : forall obj fuel s r0 s' l r,
  line_search obj fuel (reinit s (objective (Fin r0))) = Some (s', Fin l, objective (Fin r)) ->
  (n_iterations s' <= n_max s)%nat -> 0 <= r0 -> 0 <= r -> 0 < alpha s ->
  r < r0.
Proof.
  intros obj fuel s r0 s' l r H Hn Hr0 Hr Ha.
  pose proof (line_search_step_range obj fuel s _ s' l _ H) as [Hl _].
  exact (line_search_residual_decreases obj fuel s r0 s' l r H Hn Hr0 Hr Hl Ha).
Qed.
Print Assumptions C03_residual_norm_decreases.

Example C03_nonvacuous :
  line_search (fun _ _ => objective (Fin 1)) 0 (reinit ls_default (objective (Fin 2)))
  = Some (reinit ls_default (objective (Fin 2)), Fin 1, objective (Fin 1)).
Proof.
  unfold line_search. cbn [search_loop].
  assert (E : sufficient_descent (reinit ls_default (objective (Fin 2)))
                (objective (Fin 1)) (Fin 1) = true).
  { unfold sufficient_descent, objective. simpl. apply Rltb_true. lra. }
  rewrite E. reflexivity.
Qed.

(** C04. Quadratic model. *)
Theorem C04_first_reduction_minimises_parabola : forall s f0 f x,
  n_iterations s = 0%nat -> f_init s = Fin f0 -> descent s = Fin (-2*f0) ->
  snd (get_lambda s (Fin f) (Fin 1)) = Fin x -> 1/10 < x < 5/10 -> 0 < f0 ->
  let q t := f0 + (-2*f0) * t + (f - f0 - (-2*f0)) * (t*t) in
  q 1 = f /\ forall t, q x <= q t.
Proof. exact quadratic_is_minimiser. Qed.
Print Assumptions C04_first_reduction_minimises_parabola.

(** C04. Cubic model: the step is a stationary point of non-negative curvature of a
    cubic with value f0 and slope d at 0 through the last two trials. *)
Theorem C04_later_reduction_is_cubic_minimum : forall s f0 d l m f1 f2 n x,
  n_iterations s = S n -> f_init s = Fin f0 -> descent s = Fin d ->
  lambda_old s = Fin m -> f_old s = Fin f2 ->
  l <> 0 -> m <> 0 -> l <> m ->
  snd (get_lambda s (Fin f1) (Fin l)) = Fin x -> 1/10*l < x < 5/10*l ->
  exists A B,
    let p t := f0 + d * t + B * (t*t) + A * (t*t*t) in
    p l = f1 /\ p m = f2 /\
    d + 2 * B * x + 3 * A * (x*x) = 0 /\ 0 <= 2 * B + 6 * A * x.
Proof. exact cubic_is_stationary. Qed.
Print Assumptions C04_later_reduction_is_cubic_minimum.

(** The hypotheses are met: f0 = 1, f(1) = 2 gives the interior step 1/3. *)
Example C04_quadratic_interior :
  snd (get_lambda (reinit ls_default (Fin 1)) (Fin 2) (Fin 1)) = Fin (1/3).
Proof.
  unfold get_lambda, quadratic_backtracking. cbn [n_iterations reinit snd descent f_init].
  cbn [xmul xneg xdiv xsub xadd].
  rewrite (Reqb_neq 2 0) by lra. cbn [xdiv].
  req.
  unfold xgtb. cbn [xltb].
  match goal with |- context [Rltb ?x (1/10)] => replace x with (1/3) by field end.
  rewrite (proj2 (Rltb_false (1/3) _)) by lra. rewrite (proj2 (Rltb_false _ (1/3))) by lra.
  reflexivity.
Qed.

(** C05. Macro block: after testing any list of steps the searched block is
    stored + (last step) * update on every unconstrained dof, the other block is
    untouched. *)
Theorem C05_macro_trial_is_stored_plus_step_partial : forall m stored newton t0 ls i,
  ls <> [] ->
  (block_of m i = Macro -> constraint m i = None ->
     search_trials m stored newton Macro t0 ls i = stored i + last ls 0 * newton i) /\
  (block_of m i = Micro -> search_trials m stored newton Macro t0 ls i = t0 i).
Proof.
  intros m stored newton t0 ls i H. split.
  - exact (macro_trials m stored newton t0 ls i H).
  - exact (search_other_block m stored newton t0 ls i).
Qed.
Print Assumptions C05_macro_trial_is_stored_plus_step_partial.

(** C05. Micro block: the increments accumulate, because the loop resets the macro
    block only: the trial is stored + (1 + sum of all tested steps) * update. *)
Theorem C05_micro_trial_accumulates : forall m stored newton ls i,
  block_of m i = Micro -> constraint m i = None ->
  search_trials m stored newton Micro (search_entry m stored newton Micro) ls i
  = stored i + (1 + fold_right Rplus 0 ls) * newton i.
Proof. exact micro_trials_accumulate. Qed.
Print Assumptions C05_micro_trial_accumulates.

Theorem C05_micro_trial_is_stored_plus_step_refuted : exists m stored newton l i,
  block_of m i = Micro /\ constraint m i = None /\ 0 < l < 1 /\
  search_trials m stored newton Micro (search_entry m stored newton Micro) [l] i
  <> stored i + l * newton i.
Proof.
  exists (mk_mesh (fun _ => Micro) (fun _ => None)), (fun _ => 0), (fun _ => 1), (1/2), 0%nat.
  repeat split; try lra.
  rewrite micro_trials_accumulate by reflexivity. simpl. lra.
Qed.
Print Assumptions C05_micro_trial_is_stored_plus_step_refuted.

Example C05_nonvacuous :
  block_of (mk_mesh (fun i => if Nat.even i then Macro else Micro) (fun _ => None)) 4 = Macro /\
  [1/2; 1/4] <> ([] : list R).
Proof. split; [reflexivity|discriminate]. Qed.
