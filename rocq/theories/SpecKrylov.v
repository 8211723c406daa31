(** * What C78 and C79 mean. *)
From Verif Require Import Num Tensors ModelFEField ModelActiveSet ModelKrylov.
Open Scope R_scope.

(** Contract of a linear solver for the system with matrix [K] and right-hand side [f]: what it
    returns meets the tolerance. *)
Definition meets_tolerance (n : nat) (K : nat -> nat -> R) (f : vec) (solver : linear_solver) : Prop :=
  forall tol x0 x, solver tol x0 = Some x ->
    sqrt (sumn n (fun i => (f i - sumn n (fun j => K i j * x j)) * (f i - sumn n (fun j => K i j * x j)))) <= tol.
(** An iterative solver returns a starting vector that already meets the tolerance. *)
Definition stops_at_once (n : nat) (K : nat -> nat -> R) (f : vec) (solver : linear_solver) : Prop :=
  forall tol x0,
    sqrt (sumn n (fun i => (f i - sumn n (fun j => K i j * x0 j)) * (f i - sumn n (fun j => K i j * x0 j)))) <= tol ->
    solver tol x0 = Some x0.

Definition length_of (n : nat) (v : vec) : R := sqrt (sumn n (fun i => v i * v i)).

(** The full Newton system of displacements [x] and slips [y]. *)
Definition newton_system (b : blocks) (r_macro r_micro x y : vec) : Prop :=
  (forall i, (i < bl_m b)%nat ->
     sumn (bl_m b) (fun j => bl_D b i j * x j) + sumn (bl_s b) (fun j => bl_E b i j * y j) = r_macro i) /\
  (forall i, (i < bl_s b)%nat ->
     sumn (bl_m b) (fun j => bl_F b i j * x j) + sumn (bl_s b) (fun j => bl_G b i j * y j) = r_micro i).

(** [inv_G] inverts the slip block: only the components of the slips matter. *)
Definition inverts (b : blocks) (inv_G : vec -> vec) : Prop :=
  (forall v i, (i < bl_s b)%nat -> sumn (bl_s b) (fun j => bl_G b i j * inv_G v j) = v i) /\
  (forall v w, (forall i, (i < bl_s b)%nat -> sumn (bl_s b) (fun j => bl_G b i j * w j) = v i) ->
     forall j, (j < bl_s b)%nat -> w j = inv_G v j).
