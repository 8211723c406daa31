(** * Specifications for C36-C38, C65. *)
From Verif Require Import Num Tensors ModelMicro SpecMicro ModelCohesive ModelAssembly.
Open Scope R_scope.

(** What deal.II guarantees for the primitive elements gCP builds (FESystem of FE_Q): each local
    degree of freedom belongs to one component; only that component's shape function is nonzero. *)
Definition primitive (d ns : nat) (e : element) : Prop := forall j q,
  (j < el_nd e)%nat -> (q < el_nq e)%nat ->
  (el_comp e j < d + ns)%nat /\
  ((d <= el_comp e j)%nat -> forall r s, el_phi e j q r = 0 /\ el_eps e j q r s = 0) /\
  (forall a, (a < ns)%nat -> el_comp e j <> (d + a)%nat -> forall r, el_psi e a j q = 0 /\ el_dpsi e a j q r = 0).
Definition primitive_face (d ns : nat) (f : gb_face) : Prop := forall j q,
  (j < fa_nd f)%nat -> (q < fa_nq f)%nat ->
  (fa_comp f j < d + ns)%nat /\ fa_ncomp f j = fa_comp f j /\
  ((d <= fa_comp f j)%nat -> forall r, fa_phi f j q r = 0 /\ fa_nphi f j q r = 0) /\
  (forall a, (a < ns)%nat -> fa_comp f j <> (d + a)%nat -> fa_psi f a j q = 0 /\ fa_npsi f a j q = 0).

(** The same face seen from the neighbour: roles swapped, normal reversed. *)
Definition other_side (f : gb_face) : gb_face :=
  mk_gb_face (fa_nq f) (fa_nd f) (fa_ncomp f) (fa_comp f) (fa_w f) (fun q => vneg (fa_n f q))
             (fa_nphi f) (fa_phi f) (fa_npsi f) (fa_psi f).

(** Coefficients moved along a direction. *)
Definition along (U V : nat -> R) (t : R) : nat -> R := fun j => U j + t * V j.

(** Remaining fraction of the traction at damage [dmg] with exponent [m]: (1 - dmg)^m if the
    traction is coupled to damage, 1 if not. *)
Definition degraded (m dmg : R) (coupled : bool) : R := if coupled then pow_abs (1 - dmg) m else 1.

(** C70: virtual power the grain boundary's tractions expend on the virtual displacement [w q] and the
    virtual slips [s q a] of one side; [dmg] is the damage, counted only if decohesion is allowed. *)
Definition interface_power (p : interface) (f : gb_face) (h : face_history) (U Un : nat -> R)
           (w : nat -> vec) (s : nat -> nat -> R) : R :=
  let d := if_dim p in
  sumn (fa_nq f) (fun q => fa_w f q *
    let dmg := if if_decohesion p then fh_damage h q else 0 in
    let delta := fun r => sumn (fa_nd f) (fun j => Un j * fa_nphi f j q r) - sumn (fa_nd f) (fun j => U j * fa_phi f j q r) in
    ((if if_decohesion p then
        if_N p 3 / if_N p 0 * dot d (w q) (fun r =>
          degraded (if_exponent p) dmg (if_couple_macro p) *
            val (cohesive_traction d (if_cohesive p) delta (fa_n f q) (fh_max h q) (fh_old h q) (if_dt p) r)
          + contact_traction d (if_contact p) delta (fa_n f q) r)
      else 0)
     + (if if_microtraction p then
          if_N p 2 * degraded (if_exponent p) dmg (if_couple_micro p) *
          sumn (if_ns p) (fun a => s q a *
            microtraction (if_lambda p) (if_chi p) (if_ns p) (if_moduli p q)
              (fun b => sumn (fa_nd f) (fun j => U j * fa_psi f b j q))
              (fun b => sumn (fa_nd f) (fun j => Un j * fa_npsi f b j q)) a)
        else 0))).
Definition load_power (d : nat) (f : neumann_face) (w : nat -> vec) : R :=
  sumn (nf_nq f) (fun q => nf_w f q * dot d (w q) (nf_traction f q)).
Definition sum_over {A : Type} (f : A -> R) (l : list A) : R := fold_right (fun x acc => f x + acc) 0 l.
