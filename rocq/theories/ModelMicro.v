(** * Model of [ScalarMicrostressLaw], [VectorialMicrostressLaw] and [MicrotractionLaw]
    (source/constitutive_laws.cc:312-1171, include/gCP/constitutive_laws.h:246-420).

    All functions are evaluated at one quadrature point, so [gamma a] stands for
    [slip_values[a][q_point]].  [AssertIsFinite] is a debug-only check. *)
From Coquelicot Require Import Coquelicot.
From Verif Require Import Num Tensors ModelUtilities.
Open Scope R_scope.

(** ** Scalar microstress *)
(** include/gCP/constitutive_laws.h:245-316 and run_time_parameters.h:259-300, 461-509. *)
Record scalar_law := mk_scalar_law {
  sl_reg : regularization;      (* regularization_function *)
  sl_k : R;                     (* regularization_parameter *)
  sl_H : R;                     (* linear_hardening_modulus *)
  sl_q : R;                     (* hardening_parameter *)
  sl_chi : R;                   (* characteristic_slip_resistance *)
  sl_perfect : bool;            (* flag_perfect_plasticity *)
  sl_rate_independent : bool    (* flag_rate_independent *)
}.

(** include/gCP/constitutive_laws.h:312-318, sgn. *)
Definition sl_sgn (value : R) : R := b2R (Rltb 0 value) - b2R (Rltb value 0).

(** include/gCP/constitutive_laws.h:298-308, get_hardening_matrix_entry. *)
Definition sl_entry (l : scalar_law) (self_hardening : bool) : R :=
  sl_H l / sl_chi l * (sl_q l + (if self_hardening then 1 - sl_q l else 0)).

(** source/constitutive_laws.cc:445-503, get_regularization_function_value. *)
Definition reg_value (l : scalar_law) (r : R) : R :=
  match sl_reg l with
  | Atan => 2 / PI * atan (PI / 2 * r / sl_k l)
  | Sqrt => r / sqrt (r * r + sl_k l * sl_k l)
  | Gd   => 2 / PI * atan (sinh (PI / 2 * r / sl_k l))
  | Tanh => tanh (r / sl_k l)
  | Erf  => erf (sqrt PI / 2 * r / sl_k l)
  end.

(** source/constitutive_laws.cc:506-572, get_regularization_function_derivative_value. *)
Definition reg_derivative (l : scalar_law) (r : R) : R :=
  match sl_reg l with
  | Atan => sl_k l / (sl_k l * sl_k l + PI * PI * r * r / 4)
  | Sqrt => sl_k l * sl_k l / Rpower (r * r + sl_k l * sl_k l) (15/10)
  | Gd   => 1 / cosh (PI / 2 * r / sl_k l) / sl_k l
  | Tanh => (1 / cosh (r / sl_k l)) ^ 2 / sl_k l
  | Erf  => 1 / sl_k l * exp (- PI * r * r / sl_k l / sl_k l / 4)
  end.

(** source/constitutive_laws.cc:327-361, get_scalar_microstress.  The time step is a divisor:
    meaningful for [dt <> 0] only, which every theorem assumes. *)
Definition scalar_microstress (l : scalar_law) (slip old resistance dt : R) : R :=
  let slip_rate := (slip - old) / dt in
  if sl_rate_independent l then resistance * sl_sgn slip_rate
  else resistance * reg_value l slip_rate.

(** source/constitutive_laws.cc:365-441, one entry of get_jacobian. *)
Definition scalar_jacobian (l : scalar_law) (gamma old g : nat -> R) (dt : R) (a b : nat) : R :=
  let rate c := (gamma c - old c) / dt in
  let hardening :=
    if sl_perfect l then 0
    else sl_entry l (Nat.eqb a b) *
         (if sl_rate_independent l then sl_sgn (rate a) * sl_sgn (rate b)
          else reg_value l (rate a) * reg_value l (rate b)) in
  if (Nat.eqb a b && negb (sl_rate_independent l))%bool
  then hardening + g a / dt * reg_derivative l (rate a)
  else hardening.

(** ** Vectorial microstress *)
(** include/gCP/constitutive_laws.h:319-363 and run_time_parameters.h:302-350. *)
Record vector_law := mk_vector_law {
  vl_length : R;     (* energetic_length_scale *)
  vl_g0 : R;         (* initial_slip_resistance *)
  vl_p : R           (* defect_energy_index *)
}.
(** source/constitutive_laws.cc:600-603, the factor set by init. *)
Definition vl_factor (l : vector_law) (dimensionless : bool) : xr :=
  if dimensionless then Fin 1 else xmul (Fin (vl_g0 l)) (cpow (vl_length l) (vl_p l)).

(** source/constitutive_laws.cc:629-635, the dyads. *)
Definition dyad (v : vec) : mat := symmetrize (outer v v).

(** Loop sum with IEEE exceptional values. *)
(** The accumulation loops of source/constitutive_laws.cc:669-732. *)
Fixpoint xsumn (n : nat) (f : nat -> xr) : xr :=
  match n with O => Fin 0 | S k => xadd (xsumn k f) (f k) end.

(** The symmetric tensor common to source/constitutive_laws.cc:684-699 and 716-731:
    pow(|-d.g|, p-2) d(x)d + pow(|o.g|, p-2) o(x)o. *)
Definition vl_tensor (p : R) (d : nat) (dir ort grad : vec) (i j : nat) : xr :=
  xadd (xmul (cpow (Rabs (dot d (vneg dir) grad)) (p - 2)) (Fin (dyad dir i j)))
       (xmul (cpow (Rabs (dot d ort grad)) (p - 2)) (Fin (dyad ort i j))).

(** source/constitutive_laws.cc:669-699, get_vectorial_microstress. *)
Definition vectorial_microstress (factor p : R) (d : nat) (dir ort grad : vec) (i : nat) : xr :=
  xsumn d (fun j => xmul (xmul (Fin factor) (vl_tensor p d dir ort grad i j)) (Fin (grad j))).

(** source/constitutive_laws.cc:703-732, get_jacobian. *)
Definition vectorial_jacobian (factor p : R) (d : nat) (dir ort grad : vec) (i j : nat) : xr :=
  xmul (Fin (factor * (p - 1))) (vl_tensor p d dir ort grad i j).

(** ** Microtraction *)
(** source/constitutive_laws.cc:801-809: the scalar "cross product" in the plane. *)
Definition cross2 (a b : vec) : R := a 0%nat * b 1%nat - a 1%nat * b 0%nat.

(** The interaction modulus of two slip systems at an interface with normal [n]:
    source/constitutive_laws.cc:799-823 (2D) and 911-929 (3D). *)
Definition modulus (d : nat) (dir_a nrm_a dir_b nrm_b n : vec) : R :=
  match d with
  | 2%nat => dot 2 dir_a dir_b * cross2 nrm_a n * cross2 nrm_b n
  | _ => dot 3 dir_a dir_b * dot 3 (cross nrm_a n) (cross nrm_b n)
  end.
(** The tolerance of the range checks: 1 + 1e-14 in 2D (826-844), 1.0 in 3D (931-944). *)
Definition modulus_limit (d : nat) : R := match d with 2%nat => 1 + / 10 ^ 14 | _ => 1 end.
Definition modulus_ok (d : nat) (x : R) : bool := Rleb (Rabs x) (modulus_limit d).

(** The slip systems of a crystal. *)
(** What source/constitutive_laws.cc:751-976 reads of crystals_data. *)
Record frame := mk_frame { f_dir : nat -> vec; f_nrm : nat -> vec }.
(** source/constitutive_laws.cc:799-809. *)
Definition intra (d : nat) (cur : frame) (n : vec) (a b : nat) : R :=
  modulus d (f_dir cur a) (f_nrm cur a) (f_dir cur b) (f_nrm cur b) n.
(** source/constitutive_laws.cc:811-823. *)
Definition inter (d : nat) (cur nb : frame) (n : vec) (a b : nat) : R :=
  modulus d (f_dir cur a) (f_nrm cur a) (f_dir nb b) (f_nrm nb b) n.

(** source/constitutive_laws.cc:751-976, get_grain_interaction_moduli at one quadrature point:
    throws for equal crystal ids or a modulus out of range. *)
Definition interaction_moduli (d n_slips : nat) (frames : nat -> frame) (cur nb : nat) (n : vec)
  : result ((nat -> nat -> R) * (nat -> nat -> R)) :=
  if Nat.eqb cur nb then Throw
  else if forallb (fun a => forallb (fun b =>
            (modulus_ok d (intra d (frames cur) n a b) &&
             modulus_ok d (inter d (frames cur) (frames nb) n a b))%bool) (seq 0 n_slips)) (seq 0 n_slips)
  then Ok (intra d (frames cur) n, inter d (frames cur) (frames nb) n)
  else Throw.

(** source/constitutive_laws.cc:980-1005, get_microtraction. *)
Definition microtraction (lambda chi : R) (n_slips : nat) (M : (nat -> nat -> R) * (nat -> nat -> R))
           (gamma_cur gamma_nb : nat -> R) (a : nat) : R :=
  sumn n_slips (fun b => fst M a b * gamma_cur b - snd M a b * gamma_nb b) * (- lambda / chi).

(** source/constitutive_laws.cc:1009-1030 and 1034-1055. *)
Definition intra_gateaux (lambda chi : R) (M : (nat -> nat -> R) * (nat -> nat -> R)) (a b : nat) : R :=
  fst M a b * (- lambda / chi).
Definition inter_gateaux (lambda chi : R) (M : (nat -> nat -> R) * (nat -> nat -> R)) (a b : nat) : R :=
  snd M a b * (lambda / chi).

(** source/constitutive_laws.cc:1059-1112 (2D) and 1116-1171 (3D), get_free_energy_density. *)
Definition burgers_2d (n_slips : nat) (nb cur : frame) (n : vec) (g_nb g_cur : nat -> R) : vec := fun i =>
  sumn n_slips (fun a => g_nb a * f_dir nb a i * cross2 (f_nrm nb a) n
                         - g_cur a * f_dir cur a i * cross2 (f_nrm cur a) n).
Definition burgers_3d (n_slips : nat) (nb cur : frame) (n : vec) (g_nb g_cur : nat -> R) : mat := fun i j =>
  sumn n_slips (fun a => g_nb a * outer (f_dir nb a) (cross (f_nrm nb a) n) i j
                         - g_cur a * outer (f_dir cur a) (cross (f_nrm cur a) n) i j).
Definition interface_energy (lambda : R) (d n_slips : nat) (nb cur : frame) (n : vec)
           (g_nb g_cur : nat -> R) : R :=
  match d with
  | 2%nat => let b := burgers_2d n_slips nb cur n g_nb g_cur in 1/2 * lambda * dot 2 b b
  | _ => let b := burgers_3d n_slips nb cur n g_nb g_cur in 1/2 * lambda * ddot 3 b b
  end.
