From Coq Require Import FunctionalExtensionality.
From Coquelicot Require Import Coquelicot.
From Verif Require Import Num SumLemmas Tensors TensorLemmas ModelUtilities ModelElastic ModelMicro SpecMicro ProofMicro PropMicro
  ModelCohesive SpecCohesive ProofCohesive PropCohesive ModelHistory SpecHistory ProofHistory SpecInterface ModelInterface ProofInterface
  ModelFEField ModelActiveSet SpecActiveSet PropActiveSet
  ModelLinear SpecLinear PropLinear ModelAssembly SpecAssembly ProofAssembly ProofNewton ProofFace PropAssembly ModelSweep SpecSweep
  PropSweep ModelStep SpecStep ModelBody SpecBody PropBody ModelTangent SpecTangent.
Open Scope R_scope.

Lemma value_of_val v : value_of v = val v. Proof. destruct v; reflexivity. Qed.

(** Entries that are numbers close to 0, with a derivative there. *)
Definition dfin (f : R -> xr) (d : R) : Prop :=
  locally 0 (fun t => f t = Fin (val (f t))) /\ is_derive (fun t => val (f t)) 0 d.
Lemma dfin_add f g a c : dfin f a -> dfin g c -> dfin (fun t => xadd (f t) (g t)) (a + c).
Proof.
  intros [F1 D1] [F2 D2].
  assert (L : locally 0 (fun t => f t = Fin (val (f t)) /\ g t = Fin (val (g t)))) by (apply filter_and; assumption).
  split.
  - revert L. apply filter_imp. intros t [E1 E2]. rewrite E1, E2. reflexivity.
  - apply (is_derive_ext_loc (fun t => val (f t) + val (g t))).
    + revert L. apply filter_imp. intros t [E1 E2]. rewrite E1, E2. reflexivity.
    + apply (is_derive_plus (fun t => val (f t)) (fun t => val (g t))); assumption.
Qed.
Lemma dfin_const v : dfin (fun _ => Fin v) 0.
Proof. split; [apply filter_forall; reflexivity|]. apply (is_derive_ext (fun _ => v)); [reflexivity|]. apply @is_derive_const. Qed.
Lemma dfin_ext_loc f g d : locally 0 (fun t => f t = g t) -> dfin f d -> dfin g d.
Proof.
  intros E [F D]. split.
  - assert (L : locally 0 (fun t => f t = g t /\ f t = Fin (val (f t)))) by (apply filter_and; assumption).
    revert L. apply filter_imp. intros t [E1 E2]. rewrite <- E1. exact E2.
  - eapply is_derive_ext_loc; [|exact D]. revert E. apply filter_imp. intros t ->. reflexivity.
Qed.
Lemma dfin_ext f g d : (forall t, f t = g t) -> dfin f d -> dfin g d.
Proof. intros E. apply dfin_ext_loc. apply filter_forall. exact E. Qed.
Lemma dfin_fold {A} (F : A -> R -> xr) (D : A -> R) l : (forall a, In a l -> dfin (F a) (D a)) -> forall B d, dfin B d ->
  dfin (fun t => fold_left (fun acc a => xadd acc (F a t)) l (B t)) (d + lsum D l).
Proof.
  induction l as [|a l IH]; intros H B d HB; cbn [fold_left lsum].
  - rewrite Rplus_0_r. exact HB.
  - rewrite <- Rplus_assoc. apply (IH (fun x Hx => H x (or_intror Hx)) (fun t => xadd (B t) (F a t)) (d + D a)).
    apply dfin_add; [exact HB|]. apply H. left; reflexivity.
Qed.
Lemma fold_fin {A} (F : A -> xr) l : (forall a, In a l -> F a = Fin (val (F a))) -> forall x,
  fold_left (fun acc a => xadd acc (F a)) l (Fin x) = Fin (x + lsum (fun a => val (F a)) l).
Proof.
  induction l as [|a l IH]; intros H x; cbn [fold_left lsum]; [rewrite Rplus_0_r; reflexivity|].
  rewrite (H a (or_introl eq_refl)). cbn [xadd val]. rewrite IH by (intros; apply H; right; assumption). f_equal. ring.
Qed.
Lemma locally_list {A} (l : list A) (P : A -> R -> Prop) x : (forall a, In a l -> locally x (P a)) ->
  locally x (fun t => forall a, In a l -> P a t).
Proof.
  induction l as [|a l IH]; intros H.
  - apply filter_forall. intros t a [].
  - assert (L : locally x (fun t => P a t /\ forall y, In y l -> P y t)).
    { apply filter_and; [apply H; left; reflexivity|apply IH; intros; apply H; right; assumption]. }
    revert L. apply filter_imp. intros t [Q R] y [<-|Hy]; auto.
Qed.
Lemma derive_lsum {A} (l : list A) (f : A -> R -> R) (d : A -> R) x : (forall a, In a l -> is_derive (f a) x (d a)) ->
  is_derive (fun t => lsum (fun a => f a t) l) x (lsum d l).
Proof.
  induction l as [|a l IH]; intros H; cbn [lsum].
  - apply @is_derive_const.
  - apply (is_derive_plus (f a)); [apply H; left; reflexivity|]. apply IH. intros; apply H; right; assumption.
Qed.

(** ** The cell's entries depend on the histories at its points only *)
Lemma xsumn_ext n f g : (forall q, (q < n)%nat -> f q = g q) -> xsumn n f = xsumn n g.
Proof. induction n as [|n IH]; intros H; cbn [xsumn]; [reflexivity|]. rewrite IH, (H n) by auto. reflexivity. Qed.
Lemma residual_bulk_ext c e U Uold g g' i : primitive (cr_dim c) (cr_ns c) e -> (i < el_nd e)%nat ->
  (forall q a, (q < el_nq e)%nat -> (a < cr_ns c)%nat -> g q a = g' q a) ->
  residual_bulk c e U Uold g i = residual_bulk c e U Uold g' i.
Proof.
  intros P Hi H. apply xsumn_ext. intros q Hq. f_equal. destruct (Nat.ltb_spec (el_comp e i) (cr_dim c)); [reflexivity|].
  cbv zeta. rewrite (H q (el_comp e i - cr_dim c)%nat Hq); [reflexivity|]. destruct (P i q Hi Hq) as (A & _). lia.
Qed.
Lemma jacobian_bulk_ext c e U Uold g g' i j : primitive (cr_dim c) (cr_ns c) e -> (i < el_nd e)%nat ->
  (forall q a, (q < el_nq e)%nat -> (a < cr_ns c)%nat -> g q a = g' q a) ->
  jacobian_bulk c e U Uold g i j = jacobian_bulk c e U Uold g' i j.
Proof.
  intros P Hi H. apply xsumn_ext. intros q Hq. cbv zeta.
  destruct (Nat.ltb_spec (el_comp e i) (cr_dim c)); [reflexivity|]. destruct (Nat.ltb (el_comp e j) (cr_dim c)); [reflexivity|].
  rewrite (jac_g_ext (cr_law c) _ _ (g q) (g' q)); [reflexivity|]. apply H; [exact Hq|]. destruct (P i q Hi Hq) as (A & _). lia.
Qed.
Definition same_tractions (p : interface) (h h' : face_history) (q : nat) : Prop :=
  fh_max h q = fh_max h' q /\ fh_old h q = fh_old h' q /\ deg_macro p h q = deg_macro p h' q /\ deg_micro p h q = deg_micro p h' q.
Lemma residual_face_ext p f h h' U Un i : (forall q, (q < fa_nq f)%nat -> same_tractions p h h' q) ->
  residual_face p f h U Un i = residual_face p f h' U Un i.
Proof.
  intros H. apply xsumn_ext. intros q Hq. destruct (H q Hq) as (A & B & C & D). cbv zeta. rewrite A, B, C, D. reflexivity.
Qed.
Lemma jacobian_face_ext p f h h' U Un i j : (forall q, (q < fa_nq f)%nat -> same_tractions p h h' q) ->
  jacobian_face_local p f h U Un i j = jacobian_face_local p f h' U Un i j /\
  jacobian_face_coupling p f h U Un i j = jacobian_face_coupling p f h' U Un i j.
Proof.
  intros H. split; apply xsumn_ext; intros q Hq; destruct (H q Hq) as (A & B & C & D); cbv zeta; unfold traction_form; rewrite A, B, C, D; reflexivity.
Qed.

(** ** The histories after an update *)
Lemma updated_bulk b old z r c q : NoDup (b_cells b) -> exponential_damage_only b -> initialised b r ->
  one_set_of_parameters b r -> In c (b_cells b) -> (q < b_nq b)%nat ->
  forall a, (a < b_ns b)%nat -> resistances_of (body_update b old z r) c q a =
  resistances (b_crystal b c) (b_element b c) (fun q a => nth a (tmp_res (r_bulk r c q)) 0) (local_values b old c) (local_values b z c) q a.
Proof.
  intros N M I (O1 & O2 & _) Hc Hq a Ha. unfold body_update, sweep_all.
  destruct (update_completes b old z r N M I) as (s & E). rewrite E. rewrite run_one in E.
  pose proof (exec_all_bulk c q _ _ _ E) as B. rewrite refresh_bulk_ops in B by exact N.
  rewrite (proj2 (mem_In _ _) Hc) in B. pose proof (proj2 (Nat.ltb_lt _ _) Hq) as Hq'. rewrite Hq' in B. cbn [andb brun ModelHistory.step] in B.
  destruct I as [I _]. destruct (I c q Hc Hq) as [I1 I2]. rewrite I1 in B.
  destruct (O1 c Hc) as [ON _]. destruct (O2 c q Hc Hq) as (P1 & P2 & P3 & P4 & P5). cbv zeta in *.
  unfold resistances_of, resistances, resistance. rewrite <- P1, ON.
  destruct (flag_perfect_plasticity (prm (r_bulk r c q))); [cbn in B; injection B as <-; reflexivity|].
  assert (RD : forall z, SpecHistory.readable (ModelHistory.n_slips (r_bulk r c q))
       (map (fun a => map (fun q => slip_at (b_element b c) (local_values b z c) q a) (seq 0 (b_nq b))) (seq 0 (b_ns b))) q).
  { intros y a' Ha'. rewrite at2_mat, Hq', (proj2 (Nat.ltb_lt a' (b_ns b))) by (rewrite <- I2; exact Ha'). cbn. eauto. }
  destruct (harden_all_value (r_bulk r c q) _ _ q (RD z) (RD old) (tmp_res (r_bulk r c q)) 0) as (w & F & _ & V).
  cbn [fields_of f_slips f_old_slips] in B. rewrite F in B. cbn in B. injection B as <-. cbn [slip_res].
  assert (NE : nth_error (tmp_res (r_bulk r c q)) a = Some (nth a (tmp_res (r_bulk r c q)) 0)) by (apply nth_error_nth'; lia).
  rewrite (nth_error_nth w a 0 (V a _ NE)). f_equal. cbn [Nat.add].
  unfold incr, hardening_increment. rewrite P2, P3, P4, I2. apply sumn_ext. intros b' Hb'.
  do 2 f_equal. unfold dgamma. rewrite !at2_mat, Hq', (proj2 (Nat.ltb_lt b' (b_ns b))) by assumption. reflexivity.
Qed.

Definition opened (b : body) (z : vec) (c n q : nat) : R :=
  mixed_opening (ratio (b_cohesive b)) (b_dim b) (fa_n (b_face b c n) q) (opening_at (b_face b c n) (local_values b z c) (local_values b z n) q).
Lemma opened_here b old z c n q : In c (b_cells b) -> In n (gb_neighbours b c) -> two_sided b ->
  opening_from (sweep_of b) (fields_of b old z) c n q = opened b z c n q /\
  opening_from (sweep_of b) (fields_of b old z) n c q = opened b z c n q.
Proof.
  intros Hc Hn T. destruct (T c n Hc Hn) as (_ & E & F). destruct (F q) as [EN EP].
  assert (D : vsub (f_displacement (fields_of b old z) n c q) (f_displacement (fields_of b old z) c n q) =
    opening_at (b_face b c n) (local_values b z c) (local_values b z n) q).
  { apply functional_extensionality. intros s. unfold vsub, opening_at. cbn [fields_of f_displacement].
    unfold face_displacement, vsub. rewrite E. f_equal. apply sumn_ext. intros j _. rewrite (proj1 (EP j)). reflexivity. }
  unfold opening_from. rewrite !eff_eq, D. split; [reflexivity|]. cbn [sweep_of w_normal w_dim w_cohesive]. unfold opened. rewrite EN.
  rewrite (vsub_neg (f_displacement (fields_of b old z) c n q)), D. apply opening_neg.
Qed.
Lemma same_updates vs : forall (f : nat * nat -> R) (v0 : R) s p, i_prm s = Some p -> vs <> [] ->
  (forall v, In v vs -> f v = v0) -> frun s (map (fun v => FCall (IUpdateExp (f v))) vs) = istep s (IUpdateExp v0).
Proof.
  intros f v0. induction vs as [|v vs IH]; intros s p P NE H; [congruence|].
  cbn [map frun face_step]. rewrite (H v (or_introl eq_refl)). destruct (istep s (IUpdateExp v0)) as [t| |] eqn:E; cbn [rbind]; try reflexivity.
  destruct vs as [|v' vs']; [reflexivity|].
  rewrite (IH t p); [|cbn [istep] in E; rewrite P in E; injection E as <-; reflexivity|discriminate|intros; apply H; right; assumption].
  rewrite (exp_twice s t v0 v0 E). exact E.
Qed.
(** What the face quadrature points hold. *)
Lemma updated_face b old z r c n q : NoDup (b_cells b) -> exponential_damage_only b -> initialised b r -> two_sided b ->
  b_decohesion b = true -> In c (b_cells b) -> In n (gb_neighbours b c) -> (q < b_nfq b)%nat ->
  let h := r_face r (make_key c n) q in
  let mx := Rmax (i_tmp1 h) (opened b z c n q) in
  r_face (body_update b old z r) (make_key c n) q =
  mk_ihist (i_prm h) (Fin (if i_zero_damage (b_iprm b) then 0 else exponential_damage mx (i_crit_opening (b_iprm b)))) mx
    (i_old h) (i_tmp0 h) (i_tmp1 h).
Proof.
  intros N M I T D Hc Hn Hq h mx. unfold body_update, sweep_all.
  destruct (update_completes b old z r N M I) as (s & E). rewrite E. rewrite run_one in E.
  pose proof (exec_all_face (make_key c n) q _ _ _ E) as B. rewrite refresh_face_ops in B by exact M.
  rewrite (proj2 (Nat.ltb_lt _ _) Hq) in B. destruct I as [_ J].
  assert (Hn' : In n (visited (b_mesh b) (b_decohesion b) c)) by (unfold gb_neighbours in Hn; rewrite D in Hn |- *; exact Hn).
  assert (V : In (c, n) (visits (sweep_of b) (b_cells b) (make_key c n))).
  { unfold visits. rewrite filter_In, in_flat_map, key_eqb_true. split; [|reflexivity]. exists c. split; [exact Hc|]. apply in_map. exact Hn'. }
  specialize (J c n q Hc Hn' Hq). fold h in J, B.
  rewrite (same_updates _ _ (opened b z c n q) h _ J) in B.
  - cbn [istep] in B. rewrite J in B. injection B as <-.
    assert (X : (if Rltb (i_tmp1 h) (opened b z c n q) then opened b z c n q else i_tmp1 h) = mx).
    { unfold mx. destruct (Rltb (i_tmp1 h) (opened b z c n q)) eqn:L.
      - apply Rltb_true in L. rewrite Rmax_right by lra. reflexivity.
      - apply Rltb_false in L. rewrite Rmax_left by lra. reflexivity. }
    rewrite X, J. reflexivity.
  - intros Z. rewrite Z in V. destruct V.
  - intros [a a'] Hv. destruct (visits_nonempty _ _ _ _ Hv) as (_ & _ & K & _). cbn [fst snd] in *.
    destruct (opened_here b old z c n q Hc Hn T) as [O1 O2].
    apply make_key_inj in K. destruct K as [[-> ->]|[-> ->]]; assumption.
Qed.

(** ** Derivatives of the entries of a cell *)
Lemma local_along b x v t c : local_values b (moved x v t) c = SpecAssembly.along (local_values b x c) (local_values b v c) t.
Proof. reflexivity. Qed.

Lemma slip_dfin p f (h : face_history) (H : R -> face_history) U Un V Vn i :
  primitive_face (if_dim p) (if_ns p) f -> 0 < if_exponent p ->
  (forall q, (q < fa_nq f)%nat -> if_decohesion p = true -> 0 <= fh_damage h q <= 1) ->
  (forall t, fh_damage (H t) = fh_damage h) ->
  (i < fa_nd f)%nat -> (if_dim p <= fa_comp f i)%nat ->
  dfin (fun t => residual_face p f (H t) (SpecAssembly.along U V t) (SpecAssembly.along Un Vn t) i)
    (- (sumn (fa_nd f) (fun j => val (jacobian_face_local p f h U Un i j) * V j)
        + sumn (fa_nd f) (fun j => val (jacobian_face_coupling p f h U Un i j) * Vn j))) /\
  forall j, (j < fa_nd f)%nat ->
    jacobian_face_local p f h U Un i j = Fin (val (jacobian_face_local p f h U Un i j)) /\
    jacobian_face_coupling p f h U Un i j = Fin (val (jacobian_face_coupling p f h U Un i j)).
Proof.
  intros P He Hd HH Hi Ci.
  assert (Ci' : Nat.ltb (fa_comp f i) (if_dim p) = false) by (apply Nat.ltb_ge; exact Ci).
  destruct (if_microtraction p) eqn:Hm.
  - split.
    + split; [|apply derive_face_slip; auto; lia]. apply filter_forall. intros t. unfold residual_face. rewrite Ci', Hm.
      erewrite xsumn_fin'; [reflexivity|]. intros q Hq. cbv zeta. unfold deg_micro, damage_at. rewrite HH. fold (damage_at p h q).
      rewrite deg_fin by (auto; apply damage_range; auto). cbn [xmul]. reflexivity.
    + intros j Hj. destruct (local_slip p f h U Un i j P He Hm Hd Hi Hj ltac:(lia)) as [A B]. cbv zeta in A, B. rewrite A, B. split; reflexivity.
  - assert (Z : forall k g, (forall q, g q = Fin 0) -> xsumn k g = Fin 0).
    { intros k g G. rewrite (xsumn_fin' _ _ (fun _ => 0)); [rewrite sumn_0; reflexivity|]. intros; apply G. }
    assert (J : forall j, jacobian_face_local p f h U Un i j = Fin 0 /\ jacobian_face_coupling p f h U Un i j = Fin 0).
    { intros j. split; apply Z; intros q; cbv zeta; rewrite Ci', Hm; destruct (Nat.ltb (fa_comp f j) (if_dim p)); reflexivity. }
    split; [|intros j _; destruct (J j) as [-> ->]; split; reflexivity].
    rewrite (sumn_zero (fa_nd f)), (sumn_zero (fa_nd f)) by (intros j _; destruct (J j) as [J1 J2]; rewrite ?J1, ?J2; cbn [val]; ring).
    replace (- (0 + 0)) with 0 by ring. apply (dfin_ext (fun _ => Fin 0)); [|apply dfin_const].
    intros t. unfold residual_face. rewrite Ci', Hm. symmetry. apply Z. reflexivity.
Qed.
Lemma tracked_dfin p f m0 o dmg U Un V Vn i :
  primitive_face (if_dim p) (if_ns p) f -> face_params_ok p -> if_decohesion p = true -> char_disp (if_cohesive p) = 1 ->
  (forall q, (q < fa_nq f)%nat -> regular_point p f m0 o U Un q /\ 0 <= dmg q <= 1) ->
  (i < fa_nd f)%nat ->
  let h := tracked p f m0 o dmg U Un in
  dfin (fun t => let U' := SpecAssembly.along U V t in let Un' := SpecAssembly.along Un Vn t in
               residual_face p f (tracked p f m0 o dmg U' Un') U' Un' i)
    (- (sumn (fa_nd f) (fun j => val (jacobian_face_local p f h U Un i j) * V j)
        + sumn (fa_nd f) (fun j => val (jacobian_face_coupling p f h U Un i j) * Vn j))) /\
  forall j, (j < fa_nd f)%nat ->
    jacobian_face_local p f h U Un i j = Fin (val (jacobian_face_local p f h U Un i j)) /\
    jacobian_face_coupling p f h U Un i j = Fin (val (jacobian_face_coupling p f h U Un i j)).
Proof.
  intros P OK Hde H1 Hq Hi h. pose proof OK as (G & Hdt & He & _).
  destruct (le_lt_dec (if_dim p) (fa_comp f i)) as [Ci|Ci].
  - apply (slip_dfin p f h (fun t => tracked p f m0 o dmg (SpecAssembly.along U V t) (SpecAssembly.along Un Vn t))); auto.
    intros q Hqq _. apply Hq; assumption.
  - split.
    + split.
      * set (d := if_dim p) in *. set (c := if_cohesive p) in *.
        assert (L := locally_forall (fa_nq f) _ 0 (fun q Hqq => tracked_finite d c (opening_at f U Un q) (fa_n f q) (m0 q) (o q) (if_dt p) (opening_at f V Vn q) G Hdt
          (proj1 (proj1 (Hq q Hqq))) (proj1 (proj2 (proj1 (Hq q Hqq)))) (proj1 (proj2 (proj2 (proj1 (Hq q Hqq))))))).
        revert L. apply filter_imp. intros t L. cbv beta zeta in L |- *.
        unfold residual_face. fold d. rewrite (proj2 (Nat.ltb_lt _ _) Ci), Hde.
        erewrite xsumn_fin'; [reflexivity|]. intros q Hqq. cbv zeta. fold c. rewrite opening_at_along. cbn [tracked fh_max fh_old]. fold c d.
        rewrite opening_at_along.
        rewrite (xdot_fin d _ _ (fun r => val (deg_macro p h q) * val (cohesive_traction d c (vadd (opening_at f U Un q) (vscal t (opening_at f V Vn q))) (fa_n f q)
            (Rmax (m0 q) (mixed_opening (ratio c) d (fa_n f q) (vadd (opening_at f U Un q) (vscal t (opening_at f V Vn q))))) (o q) (if_dt p) r)
            + contact_traction d (if_contact p) (vadd (opening_at f U Un q) (vscal t (opening_at f V Vn q))) (fa_n f q) r)).
        { cbn [xmul]. reflexivity. }
        intros r Hr. rewrite (L q Hqq r Hr). unfold deg_macro.
        rewrite (deg_fin (if_exponent p) (damage_at p (tracked p f m0 o dmg (SpecAssembly.along U V t) (SpecAssembly.along Un Vn t)) q)); auto.
        apply damage_range. intros _. apply Hq; auto.
      * assert (D := derive_face_displacement p f m0 o dmg U Un V Vn i P OK Hde Hq Hi Ci).
        cbv zeta in D. rewrite H1, Rmult_1_l in D. exact D.
    + intros j Hj. destruct (local_displacement p f h U Un i j P OK Hde
        (fun q Hqq => conj (tracked_max_pos p f m0 o dmg U Un q (proj1 (Hq q Hqq))) (proj2 (Hq q Hqq))) Hi Hj Ci) as [A B].
      rewrite A, B. split; reflexivity.
Qed.

Section Cell.
Variables (b : body) (old x v : vec) (r : rank_data).
Hypothesis C : consistent b.
Hypothesis M : exponential_damage_only b.
Hypothesis I : initialised b r.
Hypothesis O : one_set_of_parameters b r.
Hypothesis T : two_sided b.
Hypothesis DB : differentiable_bulk b old x.
Hypothesis DF : differentiable_faces b x r.
Let R0 := body_update b old x r.
Let N : NoDup (b_cells b) := proj1 C.

Lemma bulk_dfin c i : In c (b_cells b) -> (i < el_nd (b_element b c))%nat ->
  dfin (fun t => residual_bulk (b_crystal b c) (b_element b c) (local_values b (moved x v t) c) (local_values b old c)
                   (resistances_of (body_update b old (moved x v t) r) c) i)
    (- sumn (el_nd (b_element b c)) (fun j => val (jacobian_bulk (b_crystal b c) (b_element b c) (local_values b x c) (local_values b old c)
         (resistances_of R0 c) i j) * local_values b v c j)).
Proof.
  intros Hc Hi. pose proof C as (_ & _ & C1 & _). destruct (C1 c Hc) as (_ & NQ & _ & P & Hp & HN).
  pose proof O as (O1 & _). destruct (O1 c Hc) as [ON Hdt].
  set (g0 := fun q a => nth a (tmp_res (r_bulk r c q)) 0).
  assert (G : forall z q a, (q < el_nq (b_element b c))%nat -> (a < cr_ns (b_crystal b c))%nat ->
     resistances_of (body_update b old z r) c q a =
     resistances (b_crystal b c) (b_element b c) g0 (local_values b old c) (local_values b z c) q a).
  { intros z q a Hq Ha. apply updated_bulk; auto; [rewrite <- NQ; exact Hq|rewrite <- ON; exact Ha]. }
  rewrite (sumn_ext _ _ (fun j => val (jacobian_bulk (b_crystal b c) (b_element b c) (local_values b x c) (local_values b old c)
         (resistances (b_crystal b c) (b_element b c) g0 (local_values b old c) (local_values b x c)) i j) * local_values b v c j))
    by (intros j Hj; f_equal; f_equal; apply jacobian_bulk_ext; [exact P|exact Hi|intros q a Hq Ha; apply G; assumption]).
  apply (dfin_ext (fun t => residual_bulk (b_crystal b c) (b_element b c) (SpecAssembly.along (local_values b x c) (local_values b v c) t) (local_values b old c)
       (resistances (b_crystal b c) (b_element b c) g0 (local_values b old c) (SpecAssembly.along (local_values b x c) (local_values b v c) t)) i)).
  { intros t. rewrite <- local_along. apply residual_bulk_ext; auto. intros q a Hq Ha. symmetry. apply G; assumption. }
  split.
  - apply filter_forall. intros t. rewrite residual_form by assumption. reflexivity.
  - destruct (DB c Hc) as [(L1 & L2 & L3)|(L1 & L2)].
    + apply C36_newton_exact_perfect_plasticity; assumption.
    + apply C36_newton_exact_rate_independent; try assumption. intros q a Hq Ha. apply L2; [rewrite <- NQ; exact Hq|rewrite <- ON; exact Ha].
Qed.

(** A face: the traction laws see the histories of the trial solution. *)
Lemma face_history_at z c n : b_decohesion b = true -> In c (b_cells b) -> In n (gb_neighbours b c) ->
  forall q, (q < b_nfq b)%nat ->
  let h := r_face r (make_key c n) q in
  let H := face_history_of (body_update b old z r) c n in
  fh_max H q = Rmax (i_tmp1 h) (opened b z c n q) /\ fh_old H q = i_old h /\
  fh_damage H q = (if i_zero_damage (b_iprm b) then 0 else exponential_damage (Rmax (i_tmp1 h) (opened b z c n q)) (i_crit_opening (b_iprm b))) /\
  0 <= fh_damage H q <= 1.
Proof.
  intros D Hc Hn q Hq h H. pose proof (updated_face b old z r c n q N M I T D Hc Hn Hq) as E. cbv zeta in E. fold h in E.
  unfold H, face_history_of. cbn [fh_max fh_old fh_damage]. rewrite E. cbn [i_max i_old i_damage].
  repeat (split; [reflexivity|]). pose proof C as (_ & HP & _).
  destruct (i_zero_damage (b_iprm b)); [lra|].
  assert (0 <= Rmax (i_tmp1 h) (opened b z c n q)).
  { eapply Rle_trans; [|apply Rmax_r]. apply sqrt_pos. }
  pose proof (exponential_damage_range _ _ H0 HP). lra.
Qed.

Lemma opened_along c n q t : In c (b_cells b) -> In n (gb_neighbours b c) ->
  opened b (moved x v t) c n q =
  mixed_opening (ratio (b_cohesive b)) (b_dim b) (fa_n (b_face b c n) q)
    (vadd (opening_at (b_face b c n) (local_values b x c) (local_values b x n) q)
       (vscal t (opening_at (b_face b c n) (local_values b v c) (local_values b v n) q))).
Proof. intros Hc Hn. unfold opened. rewrite !local_along, opening_at_along. reflexivity. Qed.
Lemma opened_0 c n q : opened b (moved x v 0) c n q = opened b x c n q.
Proof. unfold opened, moved, local_values. f_equal. unfold opening_at, face_displacement. f_equal; apply functional_extensionality; intros s; apply sumn_ext; intros; f_equal; ring. Qed.

(** Close to the trial solution the tractions depend on the histories only through the largest
    opening. *)
Lemma history_locally c n : b_decohesion b = true -> In c (b_cells b) -> In n (gb_neighbours b c) ->
  let p := b_interface b c n in let f := b_face b c n in
  let m0 := fun q => i_tmp1 (r_face r (make_key c n) q) in let o := fun q => i_old (r_face r (make_key c n) q) in
  let dmg := fh_damage (face_history_of R0 c n) in
  locally 0 (fun t => forall q, (q < fa_nq f)%nat ->
    same_tractions p (face_history_of (body_update b old (moved x v t) r) c n)
      (tracked p f m0 o dmg (SpecAssembly.along (local_values b x c) (local_values b v c) t) (SpecAssembly.along (local_values b x n) (local_values b v n) t)) q).
Proof.
  intros D Hc Hn p f m0 o dmg. apply locally_forall. intros q Hq.
  pose proof C as (_ & _ & _ & C2). destruct (C2 c n Hc Hn) as (_ & _ & FQ & _). fold f in FQ. rewrite FQ in Hq.
  pose proof O as (_ & _ & O3). destruct (O3 c n Hc Hn) as (E1 & E2 & _). fold p in E1, E2.
  pose proof (DF D c n q Hc Hn Hq) as (Uv & Nz & Pos & Q). cbv zeta in Uv, Nz, Pos, Q. fold p f in Uv, Nz, Pos, Q.
  pose proof (face_history_at x c n D Hc Hn q Hq) as (_ & _ & H0 & _). cbv zeta in H0. fold R0 in H0. fold dmg in H0.
  assert (K : forall t, fh_max (face_history_of (body_update b old (moved x v t) r) c n) q =
     fh_max (tracked p f m0 o dmg (SpecAssembly.along (local_values b x c) (local_values b v c) t) (SpecAssembly.along (local_values b x n) (local_values b v n) t)) q /\
     fh_old (face_history_of (body_update b old (moved x v t) r) c n) q = o q).
  { intros t. destruct (face_history_at (moved x v t) c n D Hc Hn q Hq) as (A1 & A2 & _). cbv zeta in A1, A2. split; [|exact A2].
    rewrite A1. cbn [tracked fh_max]. rewrite E1, E2. reflexivity. }
  assert (DM : (locally 0 (fun t => fh_damage (face_history_of (body_update b old (moved x v t) r) c n) q = dmg q)) \/
     (if_couple_macro p = false /\ if_couple_micro p = false)).
  { destruct Q as [Q|(Q1 & Q2 & [Z|Z])]; [left|left|right; exact Z].
    - pose proof (mixed_locally (b_dim b) (ratio (b_cohesive b)) (fa_n f q) _ (opening_at f (local_values b v c) (local_values b v n) q) Uv Nz Pos _ (open_lt _ _ Q)) as L.
      revert L. apply filter_imp. intros t Ht. destruct (face_history_at (moved x v t) c n D Hc Hn q Hq) as (_ & _ & A3 & _). cbv zeta in A3.
      rewrite A3, H0. rewrite opened_along by assumption. fold f. rewrite Rmax_left by (apply Rlt_le; exact Ht).
      rewrite (Rmax_left _ (opened b x c n q)) by (apply Rlt_le; exact Q). reflexivity.
    - apply filter_forall. intros t. destruct (face_history_at (moved x v t) c n D Hc Hn q Hq) as (_ & _ & A3 & _). cbv zeta in A3.
      rewrite A3, H0, Z. reflexivity. }
  destruct DM as [L|[Z1 Z2]].
  - revert L. apply filter_imp. intros t Ht. destruct (K t) as [A1 A2]. unfold same_tractions. split; [exact A1|]. split; [exact A2|].
    unfold deg_macro, deg_micro, damage_at. cbn [tracked fh_damage]. rewrite Ht. split; reflexivity.
  - apply filter_forall. intros t. destruct (K t) as [A1 A2]. unfold same_tractions. split; [exact A1|]. split; [exact A2|].
    unfold deg_macro, deg_micro. rewrite Z1, Z2. split; reflexivity.
Qed.

Lemma along_zero (U V : nat -> R) : SpecAssembly.along U V 0 = U.
Proof. apply functional_extensionality; intros; apply along_0. Qed.

Lemma face_dfin c n i : In c (b_cells b) -> In n (gb_neighbours b c) -> (i < el_nd (b_element b c))%nat ->
  let p := b_interface b c n in let f := b_face b c n in let h := face_history_of R0 c n in
  dfin (fun t => residual_face p f (face_history_of (body_update b old (moved x v t) r) c n) (local_values b (moved x v t) c) (local_values b (moved x v t) n) i)
    (- (sumn (fa_nd f) (fun j => val (jacobian_face_local p f h (local_values b x c) (local_values b x n) i j) * local_values b v c j)
        + sumn (fa_nd f) (fun j => val (jacobian_face_coupling p f h (local_values b x c) (local_values b x n) i j) * local_values b v n j))) /\
  forall j, (j < fa_nd f)%nat ->
    jacobian_face_local p f h (local_values b x c) (local_values b x n) i j = Fin (val (jacobian_face_local p f h (local_values b x c) (local_values b x n) i j)) /\
    jacobian_face_coupling p f h (local_values b x c) (local_values b x n) i j = Fin (val (jacobian_face_coupling p f h (local_values b x c) (local_values b x n) i j)).
Proof.
  intros Hc Hn Hi p f h.
  pose proof C as (_ & _ & _ & C2). destruct (C2 c n Hc Hn) as (_ & ND & FQ & FD & FE & FP). fold p f in ND, FQ, FD, FE, FP. rewrite <- ND in Hi.
  pose proof O as (_ & _ & O3). destruct (O3 c n Hc Hn) as (E1 & E2 & E3). fold p in E1, E2, E3.
  destruct (Bool.bool_dec (b_decohesion b) true) as [D|D]; [|apply Bool.not_true_is_false in D]; rewrite D in FD.
  - destruct (E3 D) as (G & CD & CT & DT).
    set (m0 := fun q => i_tmp1 (r_face r (make_key c n) q)). set (o := fun q => i_old (r_face r (make_key c n) q)).
    set (dmg := fh_damage (face_history_of R0 c n)).
    assert (PO : face_params_ok p).
    { unfold face_params_ok. rewrite E2, CD. repeat split; try assumption; apply G. }
    assert (Hq : forall q, (q < fa_nq f)%nat -> regular_point p f m0 o (local_values b x c) (local_values b x n) q /\ 0 <= dmg q <= 1).
    { intros q Hq. rewrite FQ in Hq. destruct (DF D c n q Hc Hn Hq) as (A1 & A2 & A3 & A4). cbv zeta in A1, A2, A3, A4. fold p f in A1, A2, A3, A4.
      destruct (face_history_at x c n D Hc Hn q Hq) as (_ & _ & _ & A5). split; [|exact A5].
      unfold regular_point. cbv zeta. rewrite E1, E2. repeat (split; [assumption|]). destruct A4 as [A4|(A4 & A6 & _)]; [left|right]; auto. }
    destruct (tracked_dfin p f m0 o dmg (local_values b x c) (local_values b x n) (local_values b v c) (local_values b v n) i FP PO FD
       ltac:(rewrite E2; exact CD) Hq Hi) as [D1 D2]. cbv zeta in D1.
    pose proof (history_locally c n D Hc Hn) as L. cbv zeta in L. fold p f m0 o dmg in L.
    assert (S0 : forall q, (q < fa_nq f)%nat -> same_tractions p h (tracked p f m0 o dmg (local_values b x c) (local_values b x n)) q).
    { pose proof (locally_singleton _ _ L) as L0. cbv beta in L0. rewrite !along_zero in L0.
      exact L0. }
    assert (JE := fun j => jacobian_face_ext p f _ _ (local_values b x c) (local_values b x n) i j S0).
    split.
    + set (h' := tracked p f m0 o dmg (local_values b x c) (local_values b x n)) in *.
      replace (sumn (fa_nd f) (fun j => val (jacobian_face_local p f h (local_values b x c) (local_values b x n) i j) * local_values b v c j))
        with (sumn (fa_nd f) (fun j => val (jacobian_face_local p f h' (local_values b x c) (local_values b x n) i j) * local_values b v c j))
        by (apply sumn_ext; intros j _; rewrite (proj1 (JE j)); reflexivity).
      replace (sumn (fa_nd f) (fun j => val (jacobian_face_coupling p f h (local_values b x c) (local_values b x n) i j) * local_values b v n j))
        with (sumn (fa_nd f) (fun j => val (jacobian_face_coupling p f h' (local_values b x c) (local_values b x n) i j) * local_values b v n j))
        by (apply sumn_ext; intros j _; rewrite (proj2 (JE j)); reflexivity).
      eapply dfin_ext_loc; [|exact D1]. revert L. apply filter_imp. intros t L. cbv beta. rewrite !local_along. symmetry. apply residual_face_ext. exact L.
    + intros j Hj. destruct (JE j) as [-> ->]. apply D2. exact Hj.
  - destruct (Nat.ltb_spec (fa_comp f i) (if_dim p)) as [Ci|Ci].
    + assert (Ci' : Nat.ltb (fa_comp f i) (if_dim p) = true) by (apply Nat.ltb_lt; exact Ci).
      assert (Z : forall k g, (forall q, g q = Fin 0) -> xsumn k g = Fin 0).
      { intros k g G. rewrite (xsumn_fin' _ _ (fun _ => 0)); [rewrite sumn_0; reflexivity|]. intros; apply G. }
      assert (J : forall j, jacobian_face_local p f h (local_values b x c) (local_values b x n) i j = Fin 0 /\
                           jacobian_face_coupling p f h (local_values b x c) (local_values b x n) i j = Fin 0).
      { intros j. split; apply Z; intros q; cbv zeta; rewrite Ci', FD; destruct (Nat.ltb (fa_comp f j) (if_dim p)); reflexivity. }
      split; [|intros j _; destruct (J j) as [-> ->]; split; reflexivity].
      rewrite (sumn_zero (fa_nd f)), (sumn_zero (fa_nd f)) by (intros j _; destruct (J j) as [J1 J2]; rewrite ?J1, ?J2; cbn [val]; ring).
      replace (- (0 + 0)) with 0 by ring. apply (dfin_ext (fun _ => Fin 0)); [|apply dfin_const].
      intros t. unfold residual_face. rewrite Ci', FD. symmetry. apply Z. reflexivity.
    + destruct (slip_dfin p f h (fun _ => h) (local_values b x c) (local_values b x n) (local_values b v c) (local_values b v n) i FP FE
        ltac:(intros q _ F; rewrite FD in F; discriminate F) ltac:(reflexivity) Hi Ci) as [D1 D2].
      split; [|exact D2]. eapply dfin_ext; [|exact D1]. intros t. cbv beta. rewrite !local_along.
      unfold residual_face. apply xsumn_ext. intros q Hq. cbv zeta. rewrite (proj2 (Nat.ltb_ge _ _) Ci).
      unfold deg_micro, damage_at. rewrite FD. reflexivity.
Qed.

Lemma readable_updated z c : In c (b_cells b) -> forallb (readable b (body_update b old z r) c) (gb_neighbours b c) = true.
Proof.
  intros Hc. apply forallb_forall. intros n Hn. unfold readable.
  destruct (Bool.bool_dec (b_decohesion b) true) as [D|D]; [|apply Bool.not_true_is_false in D]; rewrite D; [|reflexivity].
  cbn [negb orb]. apply forallb_forall. intros q Hq. apply in_seq in Hq.
  pose proof C as (_ & HP & _ & C2). destruct (C2 c n Hc Hn) as (_ & _ & FQ & _). rewrite FQ in Hq.
  assert (Hn' : In n (visited (b_mesh b) (b_decohesion b) c)) by (unfold gb_neighbours in Hn; rewrite D in Hn |- *; exact Hn).
  destruct (updated_damage b old z r c n q N HP M I Hc Hn' ltac:(lia)) as (d & E & _). rewrite E. reflexivity.
Qed.

(** Row [i] of the cell's matrices times [v]. *)
Definition row_times (c i : nat) : R :=
  sumn (el_nd (b_element b c)) (fun j => value_of (cell_matrix_entry b old x R0 c i j) * local_values b v c j)
  + lsum (fun n => sumn (el_nd (b_element b c)) (fun j =>
      val (jacobian_face_coupling (b_interface b c n) (b_face b c n) (face_history_of R0 c n) (local_values b x c) (local_values b x n) i j)
      * local_values b v n j)) (gb_neighbours b c).

Lemma entry_dfin c i : In c (b_cells b) -> (i < el_nd (b_element b c))%nat ->
  dfin (fun t => cell_entry b old (moved x v t) (body_update b old (moved x v t) r) c i) (- row_times c i).
Proof.
  intros Hc Hi.
  set (Rt := fun t => body_update b old (moved x v t) r).
  apply (dfin_ext (fun t => fold_left (fun acc f => xadd acc (Fin (residual_neumann (cr_dim (b_crystal b c)) f i))) (b_loads b c)
    (fold_left (fun acc n => xadd acc (residual_face (b_interface b c n) (b_face b c n) (face_history_of (Rt t) c n) (local_values b (moved x v t) c) (local_values b (moved x v t) n) i))
       (gb_neighbours b c)
       (residual_bulk (b_crystal b c) (b_element b c) (local_values b (moved x v t) c) (local_values b old c) (resistances_of (Rt t) c) i)))).
  { intros t. unfold cell_entry. rewrite readable_updated by exact Hc. unfold residual_cell. cbv zeta. f_equal. fold (Rt t).
    generalize (residual_bulk (b_crystal b c) (b_element b c) (local_values b (moved x v t) c) (local_values b old c) (resistances_of (Rt t) c) i).
    induction (gb_neighbours b c) as [|n ns IH]; intros acc; [reflexivity|]. cbn [map fold_left]. apply IH. }
  assert (DN := fun n Hn => proj1 (face_dfin c n i Hc Hn Hi)). cbv zeta in DN.
  assert (D1 := dfin_fold _ _ (gb_neighbours b c) DN _ _ (bulk_dfin c i Hc Hi)).
  assert (D2 := dfin_fold (fun f (_ : R) => Fin (residual_neumann (cr_dim (b_crystal b c)) f i)) (fun _ => 0) (b_loads b c)
     (fun f _ => dfin_const _) _ _ D1).
  match type of D2 with dfin _ ?u => match goal with |- dfin _ ?w => replace w with u end end; [exact D2|].
  rewrite (lsum_zero (fun _ : neumann_face => 0)) by reflexivity. rewrite Rplus_0_r.
  pose proof C as (_ & _ & C1 & C2). destruct (C1 c Hc) as (_ & _ & _ & P & Hp & HN).
  assert (CM : forall j, (j < el_nd (b_element b c))%nat -> value_of (cell_matrix_entry b old x R0 c i j) =
     val (jacobian_bulk (b_crystal b c) (b_element b c) (local_values b x c) (local_values b old c) (resistances_of R0 c) i j)
     + lsum (fun n => val (jacobian_face_local (b_interface b c n) (b_face b c n) (face_history_of R0 c n) (local_values b x c) (local_values b x n) i j)) (gb_neighbours b c)).
  { intros j Hj. unfold cell_matrix_entry. rewrite jacobian_form by assumption.
    rewrite (fold_fin (fun n => jacobian_face_local (b_interface b c n) (b_face b c n) (face_history_of R0 c n) (local_values b x c) (local_values b x n) i j)).
    - reflexivity.
    - intros n Hn. apply (proj2 (face_dfin c n i Hc Hn Hi)). destruct (C2 c n Hc Hn) as (_ & -> & _). exact Hj. }
  unfold row_times. rewrite (sumn_ext _ _ _ (fun j Hj => f_equal2 Rmult (CM j Hj) eq_refl)).
  rewrite (sumn_ext (el_nd (b_element b c)) (fun j => (_ + _) * _) (fun j =>
     val (jacobian_bulk (b_crystal b c) (b_element b c) (local_values b x c) (local_values b old c) (resistances_of R0 c) i j) * local_values b v c j
     + lsum (fun n => val (jacobian_face_local (b_interface b c n) (b_face b c n) (face_history_of R0 c n) (local_values b x c) (local_values b x n) i j)
                      * local_values b v c j) (gb_neighbours b c)))
    by (intros j _; rewrite lsum_scal_r; ring).
  rewrite sumn_plus.
  assert (SW : forall ns (g : nat -> nat -> R) k, sumn k (fun j => lsum (fun n => g n j) ns) = lsum (fun n : nat => sumn k (g n)) ns).
  { induction ns as [|n ns IH]; intros g k; cbn [lsum]; [apply sumn_0|]. rewrite sumn_plus, IH. reflexivity. }
  rewrite SW.
  rewrite (lsum_ext (fun n => - (_ + _)) (fun n => (-1) * (
     sumn (el_nd (b_element b c)) (fun j => val (jacobian_face_local (b_interface b c n) (b_face b c n) (face_history_of R0 c n) (local_values b x c) (local_values b x n) i j) * local_values b v c j)
     + sumn (el_nd (b_element b c)) (fun j => val (jacobian_face_coupling (b_interface b c n) (b_face b c n) (face_history_of R0 c n) (local_values b x c) (local_values b x n) i j) * local_values b v n j)))).
  - rewrite lsum_scal, lsum_plus. ring.
  - intros n Hn. destruct (C2 c n Hc Hn) as (_ & -> & _). ring.
Qed.

(** ** All cells *)
Lemma interfaces_body c : interfaces (body_cell b c) =
  map (fun n => mk_neighbour (sm_material (b_mesh b) n) (sm_material (b_mesh b) n) (b_dofs b n)) (visited (b_mesh b) true c).
Proof.
  unfold visited, at_grain_boundary. rewrite Bool.andb_true_r. unfold interfaces, body_cell. cbn [mc_faces mc_material].
  induction (sm_faces (b_mesh b) c) as [|f fs IH]; [reflexivity|]. cbn [map flat_map existsb].
  rewrite IH. clear IH. destruct f as [n|]; cbn [option_map to_other_grain nb_material]; [|cbn [orb app]; reflexivity].
  destruct (negb (Nat.eqb (sm_material (b_mesh b) c) (sm_material (b_mesh b) n))); cbn [orb app map].
  - f_equal. destruct (existsb _ fs) eqn:E; [reflexivity|].
    assert (Z : flat_map (fun f => match f with Some n => if to_other_grain (b_mesh b) c f then [n] else [] | None => [] end) fs = []).
    { clear - E. induction fs as [|f fs IH]; [reflexivity|]. cbn [existsb flat_map] in *. apply Bool.orb_false_iff in E. destruct E as [E1 E2].
      rewrite IH by exact E2. destruct f; [rewrite E1|]; reflexivity. }
    cbn [to_other_grain] in Z. rewrite Z. reflexivity.
  - reflexivity.
Qed.
Lemma cell_row c i : In c (b_cells b) -> (i < length (b_dofs b c))%nat ->
  let l := newton_system b old x R0 c in
  let dofs := mc_dofs (ls_cell l) in
  sumn (length dofs) (fun j => ls_matrix l i j * v (nth j dofs 0%nat)) +
       (if coupled b then
          sumn (length (interfaces (ls_cell l))) (fun k =>
            let far := nb_dofs (nth k (interfaces (ls_cell l)) (mk_neighbour 0 0 [])) in
            sumn (length far) (fun j => ls_coupling l k i j * v (nth j far 0%nat)))
        else 0) = row_times c i.
Proof.
  intros Hc Hi l dofs. pose proof C as (_ & _ & C1 & C2). destruct (C1 c Hc) as (L & _ & _).
  unfold dofs, l. cbn [newton_system ls_cell ls_matrix ls_coupling]. cbn [body_cell mc_dofs]. unfold row_times. rewrite L. f_equal.
  fold (body_cell b c). change (mk_mesh_cell _ _ _ _) with (body_cell b c). rewrite interfaces_body.
  unfold cell_coupling_entry, gb_neighbours. fold (coupled b).
  destruct (Bool.bool_dec (coupled b) true) as [K|K]; [|apply Bool.not_true_is_false in K]; rewrite K.
  2:{ unfold visited. rewrite Bool.andb_false_r. reflexivity. }
  assert (GN : gb_neighbours b c = visited (b_mesh b) true c) by (unfold gb_neighbours; fold (coupled b); rewrite K; reflexivity).
  rewrite map_length. cbv zeta. rewrite <- (lsum_seq _ (length _)).
  assert (MN : forall (g : nat -> R) ns, lsum g ns = lsum (fun k => g (nth k ns 0%nat)) (seq 0 (length ns))).
  { intros g ns. transitivity (lsum g (map (fun k => nth k ns 0%nat) (seq 0 (length ns)))).
    - f_equal. apply nth_ext with (d := 0%nat) (d' := 0%nat); [rewrite map_length, seq_length; reflexivity|].
      intros k Hk. rewrite (nth_indep (map _ _) 0%nat (nth 0 ns 0%nat)) by (rewrite map_length, seq_length; exact Hk).
      rewrite (map_nth (fun k => nth k ns 0%nat)). rewrite seq_nth by exact Hk. reflexivity.
    - apply lsum_map. }
  rewrite (MN _ (visited (b_mesh b) true c)). apply lsum_ext. intros k Hk. apply in_seq in Hk.
  set (n := nth k (visited (b_mesh b) true c) 0%nat).
  assert (Hn : In n (gb_neighbours b c)) by (rewrite GN; apply nth_In; lia).
  rewrite (nth_indep (map _ (visited (b_mesh b) true c)) _ (mk_neighbour (sm_material (b_mesh b) 0%nat) (sm_material (b_mesh b) 0%nat) (b_dofs b 0%nat))) by (rewrite map_length; lia).
  rewrite (map_nth (fun n => mk_neighbour (sm_material (b_mesh b) n) (sm_material (b_mesh b) n) (b_dofs b n))). fold n. cbn [nb_dofs].
  destruct (T c n Hc Hn) as (LL & _). rewrite LL, L. apply sumn_ext. intros j Hj. rewrite value_of_val. reflexivity.
Qed.

Lemma work_derivative w :
  is_derive (fun t => residual_work (map (body_system b old (moved x v t) (body_update b old (moved x v t) r)) (b_cells b)) w) 0
    (- jacobian_work (coupled b) (map (newton_system b old x R0) (b_cells b)) w v).
Proof.
  unfold residual_work, jacobian_work. rewrite !lsum_map.
  apply (is_derive_ext (fun t => lsum (fun c => sumn (length (b_dofs b c)) (fun i => w (nth i (b_dofs b c) 0%nat) *
     value_of (cell_entry b old (moved x v t) (body_update b old (moved x v t) r) c i))) (b_cells b))).
  { intros t. rewrite lsum_map. reflexivity. }
  rewrite (lsum_ext _ (fun c => (-1) * sumn (length (b_dofs b c)) (fun i => - w (nth i (b_dofs b c) 0%nat) * row_times c i))).
  2:{ intros c Hc. rewrite <- sumn_scal. cbv zeta. apply (sumn_ext (length (b_dofs b c))).
      intros i Hi. pose proof (cell_row c i Hc Hi) as CR. cbv zeta in CR. rewrite CR.
      change (mc_dofs (ls_cell (newton_system b old x R0 c))) with (b_dofs b c). ring. }
  rewrite lsum_scal. replace (- (-1 * _)) with (lsum (fun c => sumn (length (b_dofs b c)) (fun i => - w (nth i (b_dofs b c) 0%nat) * row_times c i)) (b_cells b)) by ring.
  apply (derive_lsum (b_cells b) (fun c t => sumn (length (b_dofs b c)) (fun i => w (nth i (b_dofs b c) 0%nat) *
     value_of (cell_entry b old (moved x v t) (body_update b old (moved x v t) r) c i)))).
  intros c Hc. pose proof C as (_ & _ & C1 & _). destruct (C1 c Hc) as (L & _).
  apply (derive_sumn (length (b_dofs b c)) (fun i t => w (nth i (b_dofs b c) 0%nat) *
     value_of (cell_entry b old (moved x v t) (body_update b old (moved x v t) r) c i))).
  intros i Hi. rewrite L in Hi. destruct (entry_dfin c i Hc Hi) as [_ D].
  replace (- w (nth i (b_dofs b c) 0%nat) * row_times c i) with (w (nth i (b_dofs b c) 0%nat) * - row_times c i) by ring.
  apply is_derive_scal. eapply is_derive_ext; [|exact D]. intros t. cbv beta. symmetry. apply value_of_val.
Qed.
End Cell.
