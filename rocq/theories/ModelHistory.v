(** * Model of [QuadraturePointHistory] (quadrature_point_history.cc:279-374,
    include/gCP/quadrature_point_history.h:251-446): the slip resistances stored at one
    quadrature point. *)
From Verif Require Import Num.
Open Scope R_scope.

(** RunTimeParameters::HardeningLaw as consumed by quadrature_point_history.cc:297-303. *)
Record hardening := mk_hardening {
  initial_slip_resistance  : R;
  linear_hardening_modulus : R;
  hardening_parameter      : R;
  flag_perfect_plasticity  : bool
}.

(** quadrature_point_history.h:361-379, data members.  Before [init] the numbers are
    indeterminate; every reader checks [flag_init] first (AssertThrow), so their value
    in the initial state below is irrelevant. *)
Record qph := mk_qph {
  flag_init : bool;
  n_slips   : nat;
  prm       : hardening;
  char_res  : R;            (* characteristic_slip_resistance *)
  slip_res  : list R;       (* slip_resistances *)
  tmp_res   : list R        (* tmp_slip_resistances *)
}.

(** quadrature_point_history.cc:279-284, default constructor ([prm0], [c0] stand for the
    indeterminate members). *)
Definition construct (prm0 : hardening) (c0 : R) : qph := mk_qph false 0 prm0 c0 [] [].

(** quadrature_point_history.h:434-446, get_hardening_matrix_entry. *)
Definition hardening_entry (s : qph) (self_hardening : bool) : R :=
  linear_hardening_modulus (prm s) / char_res s *
  (hardening_parameter (prm s) +
   (if self_hardening then 1 - hardening_parameter (prm s) else 0)).

(** [slips[beta][q]]; reading outside the vectors is undefined behaviour. *)
(** quadrature_point_history.cc:360-372, slips[slip_id][q_point]. *)
Definition at2 (v : list (list R)) (beta q : nat) : option R :=
  match nth_error v beta with Some row => nth_error row q | None => None end.

(** The inner loop of quadrature_point_history.cc:360-372 for one alpha, [bs] being the
    remaining values of beta. *)
Fixpoint harden_row (s : qph) (slips old : list (list R)) (q alpha : nat)
         (bs : list nat) (acc : R) : result R :=
  match bs with
  | [] => Ok acc
  | b :: bs' =>
      match at2 slips b q, at2 old b q with
      | Some g, Some g0 =>
          harden_row s slips old q alpha bs'
            (acc + hardening_entry s (Nat.eqb alpha b) * Rabs (g - g0))
      | _, _ => UB
      end
  end.

(** The outer loop (each alpha writes only its own entry). *)
(** quadrature_point_history.cc:350-375, loop over slip_id_alpha. *)
Fixpoint harden_all (s : qph) (slips old : list (list R)) (q : nat)
         (alpha : nat) (res : list R) : result (list R) :=
  match res with
  | [] => Ok []
  | r :: rs =>
      rbind (harden_row s slips old q alpha (seq 0 (n_slips s)) r) (fun r' =>
      rbind (harden_all s slips old q (S alpha) rs) (fun rs' => Ok (r' :: rs')))
  end.

(** Public interface of QuadraturePointHistory, quadrature_point_history.h:252-446. *)
Inductive op :=
| Init (p : hardening) (n : nat) (c : R)
| Store
| Reset
| Update (q : nat) (slips old : list (list R)).

(** One call; [Throw] leaves the object unchanged (the check is the first statement). *)
(** quadrature_point_history.cc:289-376. *)
Definition step (s : qph) (o : op) : result qph :=
  match o with
  | Init p n c =>                                   (* cc:288-315 *)
      let v := repeat (initial_slip_resistance p / c) n in
      Ok (mk_qph true n p c v v)
  | Store =>                                        (* cc:319-328 *)
      if flag_init s then Ok (mk_qph true (n_slips s) (prm s) (char_res s) (slip_res s) (slip_res s))
      else Throw
  | Reset =>                                        (* cc:332-341 *)
      if flag_init s then Ok (mk_qph true (n_slips s) (prm s) (char_res s) (tmp_res s) (tmp_res s))
      else Throw
  | Update q slips old =>                           (* cc:345-374 *)
      if flag_init s then
        if flag_perfect_plasticity (prm s)
        then Ok (mk_qph true (n_slips s) (prm s) (char_res s) (tmp_res s) (tmp_res s))
        else rbind (harden_all s slips old q 0 (tmp_res s)) (fun v =>
             Ok (mk_qph true (n_slips s) (prm s) (char_res s) v (tmp_res s)))
      else Throw
  end.

(** A call history.  A thrown exception may be caught: the history goes on with the
    unchanged object.  Undefined behaviour ends it. *)
(** A caller of quadrature_point_history.cc:289-376. *)
Fixpoint run (s : qph) (os : list op) : result qph :=
  match os with
  | [] => Ok s
  | o :: os' =>
      match step s o with
      | Ok s' => run s' os'
      | Throw => run s os'
      | UB => UB
      end
  end.

(** quadrature_point_history.h:385-430, the getters. *)
Definition get_slip_resistances (s : qph) : result (list R) :=
  if flag_init s then Ok (slip_res s) else Throw.
Definition get_old_slip_resistances (s : qph) : result (list R) :=
  if flag_init s then Ok (tmp_res s) else Throw.
Definition get_slip_resistance (s : qph) (i : nat) : result R :=
  if flag_init s then match nth_error (slip_res s) i with Some r => Ok r | None => UB end
  else Throw.
Definition get_old_slip_resistance (s : qph) (i : nat) : result R :=
  if flag_init s then match nth_error (tmp_res s) i with Some r => Ok r | None => UB end
  else Throw.
