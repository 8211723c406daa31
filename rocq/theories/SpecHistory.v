(** * What C09-C11 mean, without reference to how the class computes. *)
From Verif Require Import Num ModelHistory.
Open Scope R_scope.

(** Calls that do not commit: anything but [init] and [store_current_values]. *)
Definition uncommitted (o : op) : Prop :=
  match o with Reset | Update _ _ _ => True | _ => False end.
Definition not_init (o : op) : Prop := match o with Init _ _ _ => False | _ => True end.

(** The slip values handed to an update are readable for [n] slip systems at [q]. *)
Definition readable (n : nat) (v : list (list R)) (q : nat) : Prop :=
  forall b, (b < n)%nat -> exists x, at2 v b q = Some x.

(** Increment of the slip on system [b] at point [q]. *)
Definition dgamma (slips old : list (list R)) (q b : nat) : R :=
  match at2 slips b q, at2 old b q with Some g, Some g0 => g - g0 | _, _ => 0 end.

(** Textbook law: g_a = g_a^old + sum_b H (qh + (1-qh) delta_ab) |d gamma_b|. *)
Definition hardening_increment (H qh : R) (n : nat) (a : nat) (dg : nat -> R) : R :=
  sumn n (fun b => H * (qh + (1 - qh) * kron a b) * Rabs (dg b)).
