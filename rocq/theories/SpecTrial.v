(** * What C75 means. *)
From Verif Require Import Num Tensors ModelElastic ModelMicro SpecMicro ModelAssembly SpecAssembly ModelTrial.
Open Scope R_scope.

(** The shape functions of every slip system add up to one at every quadrature point. *)
Definition slips_add_up (t : trial_cell) : Prop := forall a q,
  (a < cr_ns (tc_crystal t))%nat -> (q < el_nq (tc_element t))%nat ->
  sumn (el_nd (tc_element t)) (fun j => el_psi (tc_element t) a j q) = 1.
(** Non-negative weights; non-negative slip shape functions (linear elements). *)
Definition nonnegative_elements (t : trial_cell) : Prop := forall i q a,
  (i < el_nd (tc_element t))%nat -> (q < el_nq (tc_element t))%nat ->
  0 <= el_w (tc_element t) q /\ 0 <= el_psi (tc_element t) a i q.
(** The committed slips do not vary in space. *)
Definition no_slip_gradient (t : trial_cell) : Prop :=
  (forall a q r, slip_gradient_at (tc_element t) (tc_Uold t) q a r = 0) /\
  (forall f a q r, In f (tc_faces t) ->
     sumn (el_nd (tc_element t)) (fun j => tc_Uold t j * bf_dpsi f a j q r) = 0).
(** Admissible cells. *)
Definition trial_cell_ok (t : trial_cell) : Prop :=
  primitive (cr_dim (tc_crystal t)) (cr_ns (tc_crystal t)) (tc_element t) /\ 2 <= cr_p (tc_crystal t) /\
  slips_add_up t.

(** Resolved shear stress (made dimensionless like the slip resistance) of slip system [a] at
    point [q] when the slips are kept at their committed values. *)
Definition elastic_shear (t : trial_cell) (q a : nat) : R :=
  let c := tc_crystal t in let e := tc_element t in let d := cr_dim c in
  cr_N c 3 *
  ddot d (fun r s =>
      sumn d (fun k => sumn d (fun l => cr_C c r s k l *
        (cr_macro c k l + (sumn (el_nd e) (fun j => tc_U t j * el_eps e j q k l)
          - cr_N c 0 * sumn (cr_ns c) (fun b => sumn (el_nd e) (fun j => tc_Uold t j * el_psi e b j q) * cr_P c b k l))))))
    (cr_P c a).

(** Degree of freedom [k] belongs, in cell [t], to slip system [a] only. *)
Definition belongs_to (t : trial_cell) (k a : nat) : Prop := forall i,
  (i < el_nd (tc_element t))%nat -> tc_dof t i = k ->
  el_comp (tc_element t) i = (cr_dim (tc_crystal t) + a)%nat /\ (a < cr_ns (tc_crystal t))%nat.
(** Cell [t] is one of those sharing degree of freedom [k]. *)
Definition touches (t : trial_cell) (k : nat) : Prop :=
  exists i, (i < el_nd (tc_element t))%nat /\ tc_dof t i = k.

(** Vectorial microstress of slip system [a] where the slip gradient is [g]. *)
Definition microstress_of (c : crystal) (a : nat) (g : vec) : vec := fun r =>
  val (vectorial_microstress (cr_factor c) (cr_p c) (cr_dim c) (cr_dir c a) (cr_ort c a) g r).
(** The committed slips carry one and the same vectorial microstress [xi] at all points of the
    cell and of its boundary faces. *)
Definition uniform_microstress (t : trial_cell) (a : nat) (xi : vec) : Prop := forall r,
  (r < cr_dim (tc_crystal t))%nat ->
  (forall q, (q < el_nq (tc_element t))%nat ->
     microstress_of (tc_crystal t) a (slip_gradient_at (tc_element t) (tc_Uold t) q a) r = xi r) /\
  (forall f q, In f (tc_faces t) -> (q < bf_nq f)%nat ->
     microstress_of (tc_crystal t) a
       (fun s => sumn (el_nd (tc_element t)) (fun j => tc_Uold t j * bf_dpsi f a j q s)) r = xi r).
(** What the quadratures of all cells make of the integral of the gradient of the shape function
    of degree of freedom [k], and of the boundary integral of the shape function times the outward
    normal. *)
Definition sum_of {A} (l : list A) (f : A -> R) : R := fold_right (fun x acc => f x + acc) 0 l.
Definition gradient_integral (cells : list trial_cell) (k a r : nat) : R :=
  sum_of cells (fun t => sumn (el_nd (tc_element t)) (fun i =>
    if Nat.eqb (tc_dof t i) k
    then sumn (el_nq (tc_element t)) (fun q => el_w (tc_element t) q * el_dpsi (tc_element t) a i q r) else 0)).
Definition boundary_integral (cells : list trial_cell) (k a r : nat) : R :=
  sum_of cells (fun t => sumn (el_nd (tc_element t)) (fun i =>
    if Nat.eqb (tc_dof t i) k
    then sum_of (tc_faces t) (fun f => sumn (bf_nq f) (fun q => bf_w f q * bf_psi f a i q * bf_n f q r)) else 0)).
