(** * Model of [Kinematics::ElasticStrain], [ConstitutiveLaws::HookeLaw] and
    [ResolvedShearStressLaw] (source/constitutive_laws.cc:13-310,
    include/gCP/constitutive_laws.h:222-241).

    [P a] is [crystals_data->get_symmetrized_schmid_tensor(crystal_id, a)] and [gamma a] is
    [slip_values[a][q_point]]; both are read at one crystal and one quadrature point. *)
From Verif Require Import Num Tensors.
Open Scope R_scope.

(** source/constitutive_laws.cc:28-55, get_elastic_strain_tensor: the accumulator starts as the
    strain and loses one term per slip system. *)
Fixpoint elastic_strain (N : R) (P : nat -> mat) (eps : mat) (gamma : nat -> R) (n_slips : nat) : mat :=
  match n_slips with
  | O => eps
  | S a => msub (elastic_strain N P eps gamma a) (mscal (N * gamma a) (P a))
  end.

(** source/constitutive_laws.cc:59-82, get_plastic_strain_tensor. *)
Fixpoint plastic_strain (P : nat -> mat) (gamma : nat -> R) (n_slips : nat) : mat :=
  match n_slips with
  | O => fun _ _ => 0
  | S a => madd (plastic_strain P gamma a) (mscal (gamma a) (P a))
  end.

(** RunTimeParameters::HookeLawParameters plus the constructor's characteristic stiffness. *)
(** include/gCP/run_time_parameters.h:216-257 and source/constitutive_laws.cc:92-125. *)
Record hooke := mk_hooke { C1111 : R; C1122 : R; C1212 : R; char_stiffness : R }.

(** source/run_time_parameters.cc:66-86, the checks of HookeLawParameters::parse_parameters. *)
Definition hooke_parse_accepts (p : hooke) : Prop := 0 < C1111 p /\ 0 < C1122 p /\ 0 < C1212 p.

(** Which constant the if/else-if chain of source/constitutive_laws.cc:135-143 (and 151-159)
    writes for one index tuple; [None]: nothing is written. *)
Inductive entry := E1111 | E1212 | E1122.
Definition written (i j k l : nat) : option entry :=
  if (Nat.eqb i j && Nat.eqb j k && Nat.eqb k l)%bool then Some E1111
  else if (Nat.eqb i k && Nat.eqb j l)%bool then Some E1212
  else if (Nat.eqb i j && Nat.eqb k l)%bool then Some E1122
  else None.

(** [SymmetricTensor<4,d>] stores one cell per pair of unordered index pairs, so that
    [i][j][k][l], [j][i][k][l] and [i][j][l][k] are the same memory location. *)
(** dealii::SymmetricTensor<4,dim> storage used by source/constitutive_laws.cc:129-203. *)
Definition same_cell (i j k l i' j' k' l' : nat) : bool :=
  (Nat.eqb (Nat.min i j) (Nat.min i' j') && Nat.eqb (Nat.max i j) (Nat.max i' j') &&
   Nat.eqb (Nat.min k l) (Nat.min k' l') && Nat.eqb (Nat.max k l) (Nat.max k' l'))%bool.

(** The four nested loops of source/constitutive_laws.cc:131-134 and 190-193. *)
Definition loop4 (d : nat) : list (nat * nat * nat * nat) :=
  flat_map (fun i => flat_map (fun j => flat_map (fun k => map (fun l => (i, j, k, l))
    (seq 0 d)) (seq 0 d)) (seq 0 d)) (seq 0 d).

(** source/constitutive_laws.cc:131-143: the four nested loops; the content of the cell of
    [i][j][k][l] is what the last write to that cell left there (zero-initialised). *)
Definition reference_entry (d i j k l : nat) : option entry :=
  fold_left (fun acc w =>
    match w with (i', j', k', l') =>
      if same_cell i' j' k' l' i j k l
      then match written i' j' k' l' with Some c => Some c | None => acc end
      else acc
    end) (loop4 d) None.

Definition reference_stiffness (p : hooke) (d : nat) : ten4 := fun i j k l =>
  match reference_entry d i j k l with
  | Some E1111 => C1111 p / char_stiffness p
  | Some E1212 => C1212 p / char_stiffness p
  | Some E1122 => C1122 p / char_stiffness p
  | None => 0
  end.

(** source/constitutive_laws.cc:190-203 (and 212-224 with the 3x3 rotation): the loops run over
    i <= j, k <= l only; reading [i][j][k][l] returns the ordered cell. *)
Definition rotated_stiffness (d : nat) (Q : mat) (C0 : ten4) : ten4 := fun i j k l =>
  let i' := Nat.min i j in let j' := Nat.max i j in
  let k' := Nat.min k l in let l' := Nat.max k l in
  sumn d (fun o => sumn d (fun p => sumn d (fun q => sumn d (fun r =>
    Q i' o * Q j' p * Q k' q * Q l' r * C0 o p q r)))).

(** source/constitutive_laws.cc:129-246, init for a polycrystal: per crystal the dim- and the
    three-dimensional stiffness.  [rots] are the pairs (rotation_tensor, 3d rotation_tensor). *)
Definition stiffness (p : hooke) (d : nat) (Q : mat) : ten4 :=
  rotated_stiffness d Q (reference_stiffness p d).
Definition stiffness_3d (p : hooke) (d : nat) (Q Q3 : mat) : ten4 :=
  match d with
  | 2%nat => rotated_stiffness 3 Q3 (reference_stiffness p 3)
  | _ => stiffness p d Q
  end.

(** The law object: which constructor was used, whether init ran, and the stored tetrads. *)
(** include/gCP/constitutive_laws.h:60-203, data members. *)
Record hooke_law := mk_hooke_law {
  polycrystalline : bool;
  hl_prm : hooke;
  hl_init : bool;
  tetrads : list ten4;
  tetrads_3d : list ten4
}.
(** source/constitutive_laws.cc:92-125, the two constructors. *)
Definition hooke_construct (poly : bool) (p : hooke) : hooke_law := mk_hooke_law poly p false [] [].
(** source/constitutive_laws.cc:129-246, init (appends: push_back). *)
Definition hooke_init (d : nat) (crystals_initialized : bool) (rots : list (mat * mat))
           (h : hooke_law) : result hooke_law :=
  if polycrystalline h then
    if crystals_initialized then
      Ok (mk_hooke_law true (hl_prm h) true
            (tetrads h ++ map (fun q => stiffness (hl_prm h) d (fst q)) rots)
            (tetrads_3d h ++ map (fun q => stiffness_3d (hl_prm h) d (fst q) (snd q)) rots))
    else Throw
  else Ok (mk_hooke_law false (hl_prm h) true (tetrads h) (tetrads_3d h)).

(** source/constitutive_laws.cc:250-265 and 269-297, the two get_stress_tensor overloads.  An
    out-of-range crystal id is only caught by the debug AssertIndexRange. *)
Definition get_stress_mono (d : nat) (h : hooke_law) (eps : mat) : result mat :=
  if polycrystalline h then Throw
  else if hl_init h then Ok (c4 d (reference_stiffness (hl_prm h) d) eps) else Throw.
Definition get_stress (d : nat) (h : hooke_law) (crystal_id : nat) (eps : mat) : result mat :=
  if polycrystalline h then
    if hl_init h then
      match nth_error (tetrads h) crystal_id with
      | Some C => Ok (c4 d C eps)
      | None => UB
      end
    else Throw
  else Throw.

(** include/gCP/constitutive_laws.h:222-241, get_resolved_shear_stress. *)
Definition resolved_shear_stress (d : nat) (P : mat) (sigma : mat) : R := ddot d sigma P.
