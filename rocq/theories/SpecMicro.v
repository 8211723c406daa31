(** * Specifications for C25-C29. *)
From Verif Require Import Num Tensors ModelHistory SpecHistory.
Open Scope R_scope.

(** |x|^q for q >= 0, with 0^0 = 1. *)
Definition pow_abs (x q : R) : R :=
  if Req_EM_T x 0 then (if Req_EM_T q 0 then 1 else 0) else Rpower (Rabs x) q.

(** Defect energy of one slip system (edge and screw dislocation densities d.g and o.g). *)
Definition defect_energy (factor p : R) (d : nat) (dir ort grad : vec) : R :=
  factor / p * (pow_abs (dot d dir grad) p + pow_abs (dot d ort grad) p).

(** The finite value of a computed number. *)
Definition val (x : xr) : R := match x with Fin r => r | _ => 0 end.
Definition finite (x : xr) : Prop := x = Fin (val x).

(** Slip resistances after hardening from [g0] (C10): g_a = g0_a + sum_b h_ab |gamma_b - old_b|. *)
Definition hardened (n : nat) (h : nat -> nat -> R) (g0 old gamma : nat -> R) (a : nat) : R :=
  g0 a + sumn n (fun b => h a b * Rabs (gamma b - old b)).
(** Slips with system [b] changed by [t]. *)
Definition perturb (gamma : nat -> R) (b : nat) (t : R) : nat -> R :=
  fun c => gamma c + t * kron c b.

(** Slip resistances that follow the hardening law of C10 (H: modulus, qh: latent ratio) from the
    committed values [g0], or stay put under perfect plasticity. *)
Definition resistance (perfect : bool) (H qh : R) (n : nat) (g0 old gamma : nat -> R) (a : nat) : R :=
  if perfect then g0 a else g0 a + hardening_increment H qh n a (fun b => gamma b - old b).
