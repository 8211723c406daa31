(** * Model of [InterfaceQuadraturePointHistory] (quadrature_point_history.cc:44-275),
    of the code that drives it (assembly.cc:1480-1536) and of [InterfaceDataStorage]
    (quadrature_point_history.h:548-595, quadrature_point_history.cc:378-400). *)
From Verif Require Import Num Tensors ModelUtilities ModelCohesive.
Open Scope R_scope.

(** The parameters copied by [init] (quadrature_point_history.cc:70-98). *)
Record iprm := mk_iprm {
  i_crit_opening : R;
  i_ratio        : R;
  i_accumulation : R;
  i_decay        : R;
  i_decay_exp    : R;
  i_endurance    : R;
  i_zero_damage  : bool
}.

(** Data members; the damage is an [xr] because [std::pow] may leave the reals.  Members
    that only feed the output (normal/tangential opening, cohesive traction) are omitted. *)
(** quadrature_point_history.h:63-250, data members. *)
Record ihist := mk_ihist {
  i_prm     : option iprm;  (* None until init: flag_init_was_called = false *)
  i_damage  : xr;           (* damage_variable *)
  i_max     : R;            (* max_effective_opening_displacement *)
  i_old     : R;            (* old_effective_opening_displacement *)
  i_tmp0    : xr;           (* tmp_scalar_values[0] *)
  i_tmp1    : R             (* tmp_scalar_values[1] *)
}.

(** quadrature_point_history.cc:44-62, default constructor. *)
Definition i_construct : ihist := mk_ihist None (Fin 0) 0 0 (Fin 0) 0.

Inductive iop :=
| IInit (p : iprm)
| ISet (v : R)
| IStore
| IReset
| IUpdateExp (eff : R)                   (* OrtizEtAl *)
| IUpdateRate (eff char force : R)       (* M1 *)
| IStoreOpening (d : nat) (u_current u_neighbor n : vec).

(** quadrature_point_history.cc:193-229 and 233-275 (the part both overloads share): the
    normal part enters through the *norm* of its projection. *)
Definition stored_opening (r : R) (d : nat) (u_current u_neighbor n : vec) : R :=
  let delta := vsub u_neighbor u_current in
  let dn := norm d (mv d (normal_projector n) delta) in
  let dt := norm d (mv d (tangential_projector n) delta) in
  sqrt (macaulay_brackets dn * macaulay_brackets dn + r * r * dt * dt).

(** quadrature_point_history.cc:131-158. *)
Definition exponential_damage (mx dc : R) : R :=
  1 - (1 + mx / dc) * exp (- (mx / dc)).

(** quadrature_point_history.cc:162-189. *)
Definition rate_damage (p : iprm) (d0 : xr) (old eff char force : R) : xr :=
  let inc :=
    xmul (xmul (Fin (i_accumulation p * char * macaulay_brackets (eff - old)))
               (match d0 with
                | Fin x => cpow (1 - x + i_decay p) (i_decay_exp p)
                | _ => NaN
                end))
         (Fin (force - i_endurance p)) in
  let d1 := xadd d0 inc in
  if xgtb d1 (Fin 1) then Fin 1 else d1.

(** One call.  [update_values] on an object that was never initialised reads
    indeterminate members (there is no AssertThrow here): [UB]. *)
(** quadrature_point_history.cc:66-275. *)
Definition istep (s : ihist) (o : iop) : result ihist :=
  match o with
  | IInit p =>                                               (* cc:66-99 *)
      match i_prm s with
      | Some _ => Ok s
      | None => Ok (mk_ihist (Some p) (i_damage s) (i_max s) (i_old s) (i_tmp0 s) (i_tmp1 s))
      end
  | ISet v =>                                                (* cc:103-108 *)
      Ok (mk_ihist (i_prm s) (Fin v) (i_max s) (i_old s) (i_tmp0 s) (i_tmp1 s))
  | IStore =>                                                (* cc:112-119 *)
      Ok (mk_ihist (i_prm s) (i_damage s) (i_max s) (i_old s) (i_damage s) (i_max s))
  | IReset =>                                                (* cc:123-129 *)
      Ok (mk_ihist (i_prm s) (i_tmp0 s) (i_tmp1 s) (i_old s) (i_tmp0 s) (i_tmp1 s))
  | IUpdateExp eff =>                                        (* cc:131-158 *)
      match i_prm s with
      | None => UB
      | Some p =>
          let mx := if Rltb (i_tmp1 s) eff then eff else i_tmp1 s in
          let dmg := if i_zero_damage p then 0 else exponential_damage mx (i_crit_opening p) in
          Ok (mk_ihist (i_prm s) (Fin dmg) mx (i_old s) (i_tmp0 s) (i_tmp1 s))
      end
  | IUpdateRate eff char force =>                            (* cc:162-189 *)
      match i_prm s with
      | None => UB
      | Some p =>
          let mx := if Rltb (i_tmp1 s) eff then eff else i_tmp1 s in
          let dmg := if i_zero_damage p then Fin 0
                     else rate_damage p (i_tmp0 s) (i_old s) eff char force in
          Ok (mk_ihist (i_prm s) dmg mx (i_old s) (i_tmp0 s) (i_tmp1 s))
      end
  | IStoreOpening d uc un n =>                               (* cc:193-275 *)
      (* before init the ratio is its constructor value 1.0 *)
      let r := match i_prm s with Some p => i_ratio p | None => 1 end in
      Ok (mk_ihist (i_prm s) (i_damage s) (i_max s) (stored_opening r d uc un n)
                   (i_tmp0 s) (i_tmp1 s))
  end.

(** A caller of quadrature_point_history.cc:66-275. *)
Fixpoint irun (s : ihist) (os : list iop) : result ihist :=
  match os with
  | [] => Ok s
  | o :: os' => rbind (istep s o) (fun s' => irun s' os')
  end.

(** assembly.cc:1496-1527, M1 branch at one interface quadrature point: [energy] is
    cohesive_law->get_free_energy_density(...) + microtraction_law->get_free_energy_density(...)
    for the trial solution, [m] the degradation exponent.  The thermodynamic force is computed
    with the damage variable the point has *before* update_values rolls it back. *)
Definition update_point_M1 (m energy eff char : R) (s : ihist) : result ihist :=
  match i_damage s with
  | Fin dmg =>
      match xmul (xneg (degradation_derivative m dmg true)) (Fin energy) with
      | Fin force => istep s (IUpdateRate eff char force)
      | _ => UB (* non-finite force: outside the real-number model *)
      end
  | _ => UB
  end.

(** assembly.cc:1487-1494, OrtizEtAl branch. *)
Definition update_point_exp (eff : R) (s : ihist) : result ihist := istep s (IUpdateExp eff).

(** ** InterfaceDataStorage.  Cells are their [CellId]s, totally ordered (deal.II);
    a [shared_ptr] is the address (a fresh natural number) of the object it owns. *)
(** quadrature_point_history.h:532-582, the key of the map. *)
Definition key := (nat * nat)%type.
(** quadrature_point_history.h:458-602, data members. *)
Record storage := mk_storage {
  s_map  : list (key * list nat);
  s_next : nat                        (* next free address *)
}.
(** quadrature_point_history.h:458-540, the constructed object. *)
Definition empty_storage : storage := mk_storage [] 0.

(** quadrature_point_history.h:575-578 and .cc:384-390. *)
Definition make_key (a b : nat) : key := if Nat.ltb a b then (a, b) else (b, a).

Definition key_eqb (k l : key) : bool := Nat.eqb (fst k) (fst l) && Nat.eqb (snd k) (snd l).

Fixpoint find (k : key) (m : list (key * list nat)) : option (list nat) :=
  match m with
  | [] => None
  | (l, v) :: m' => if key_eqb k l then Some v else find k m'
  end.

(** The body of quadrature_point_history.h:559-594 for one interface face seen from cell
    [a] with neighbor [b] and [nq] quadrature points per face. *)
Definition init_face (nq : nat) (st : storage) (ab : nat * nat) : storage :=
  let k := make_key (fst ab) (snd ab) in
  match find k (s_map st) with
  | Some _ => st
  | None => mk_storage ((k, seq (s_next st) nq) :: s_map st) (s_next st + nq)
  end.

(** quadrature_point_history.h:548-596, initialize: [faces] lists the interior faces
    between different materials met by the cell loop (each one once per owned side). *)
Definition initialize (nq : nat) (faces : list (nat * nat)) (st : storage) : storage :=
  fold_left (init_face nq) faces st.

(** quadrature_point_history.cc:378-400, get_data.  A missing key makes [map[key]] insert
    an empty vector (release build; the Assert is debug-only). *)
Definition get_data (st : storage) (a b : nat) : storage * list nat :=
  let k := make_key a b in
  match find k (s_map st) with
  | Some v => (st, v)
  | None => (mk_storage ((k, []) :: s_map st) (s_next st), [])
  end.

Inductive sop :=
| SInit (nq : nat) (faces : list (nat * nat))
| SGet (a b : nat).
Definition sstep (st : storage) (o : sop) : storage :=
  match o with
  | SInit nq faces => initialize nq faces st
  | SGet a b => fst (get_data st a b)
  end.
Definition srun (os : list sop) : storage := fold_left sstep os empty_storage.

(** quadrature_point_history.cc:11-40, InterfaceData: keep a running maximum, at most one
    update between two [prepare_for_update_call]s. *)
Record idata := mk_idata { id_value : R; id_updated : bool }.
Definition id_init (v : R) (s : idata) : idata := mk_idata v (id_updated s).
Definition id_prepare (s : idata) : idata := mk_idata (id_value s) false.
Definition id_update (d : nat) (a b : vec) (s : idata) : idata :=
  if id_updated s then s
  else let x := norm d (vsub a b) in
       mk_idata (if Rltb (id_value s) x then x else id_value s) true.

(** A call history on one InterfaceData object (init, prepare_for_update_call, update). *)
(** quadrature_point_history.h:22-60, public interface. *)
Inductive idop := DInit (v : R) | DPrepare | DUpdate (d : nat) (a b : vec).
(** quadrature_point_history.cc:12-42. *)
Definition id_step (s : idata) (o : idop) : idata :=
  match o with
  | DInit v => id_init v s
  | DPrepare => id_prepare s
  | DUpdate d a b => id_update d a b s
  end.
(** A caller of quadrature_point_history.cc:12-42. *)
Definition id_run (s : idata) (os : list idop) : idata := fold_left id_step os s.
