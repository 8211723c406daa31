(** * C62, C63: the graphical output. *)
From Coq Require Import String Ascii DecimalString DecimalNat DecimalFacts Permutation Lra.
From Verif Require Import Num SumLemmas Tensors TensorLemmas ModelElastic ModelAssembly ModelPost SpecPost PropPost.
From Verif Require ModelFEField.
Open Scope R_scope.

(** ** Sequences of assignments *)
Fixpoint addsum (k : nat) (ws : list write) : R :=
  match ws with
  | [] => 0
  | WAdd j v :: ws' => (if Nat.eqb k j then v else 0) + addsum k ws'
  | WSet _ _ :: ws' => addsum k ws'
  end.
Definition is_add (w : write) : Prop := match w with WAdd _ _ => True | WSet _ _ => False end.
Lemma fold_adds ws : Forall is_add ws -> forall f k, fold_left do_write ws f k = f k + addsum k ws.
Proof.
  induction 1 as [|w ws Hw _ IH]; intros f k; simpl; [lra|].
  rewrite IH. destruct w; [destruct Hw|]. simpl. destruct (Nat.eqb k k0); lra.
Qed.
Lemma fold_untouched ws : forall f k, Forall (fun w => target w <> k) ws -> fold_left do_write ws f k = f k.
Proof.
  induction ws as [|w ws IH]; intros f k H; simpl; [reflexivity|].
  inversion H as [|? ? H1 H2]; subst. rewrite IH by assumption.
  destruct w; simpl in *; destruct (Nat.eqb_spec k k0); congruence.
Qed.
Lemma addsum_app k l l' : addsum k (l ++ l') = addsum k l + addsum k l'.
Proof. induction l as [|[j v|j v] l IH]; simpl; rewrite ?IH; lra. Qed.
Lemma addsum_flat k (g : nat -> list write) n : addsum k (flat_map g (seq 0 n)) = sumn n (fun i => addsum k (g i)).
Proof.
  induction n; [reflexivity|]. rewrite seq_S, flat_map_app, addsum_app, IHn. simpl. rewrite app_nil_r. reflexivity.
Qed.
Lemma addsum_map k j (v : nat -> R) n :
  addsum k (map (fun c => WAdd j (v c)) (seq 0 n)) = if Nat.eqb k j then sumn n v else 0.
Proof.
  induction n; [simpl; destruct (Nat.eqb k j); reflexivity|].
  rewrite seq_S, map_app, addsum_app, IHn. simpl. destruct (Nat.eqb k j); lra.
Qed.
Fixpoint lookup (c : nat) (l : list (nat * R)) (default : R) : R :=
  match l with
  | [] => default
  | (j, v) :: l' => lookup c l' (if Nat.eqb c j then v else default)
  end.
Lemma eqb_off o a b : Nat.eqb (o + a) (o + b) = Nat.eqb a b.
Proof. induction o; simpl; auto. Qed.
Lemma fold_sets o l : forall f c,
  fold_left do_write (map (fun x => WSet (o + fst x) (snd x)) l) f (o + c)%nat = lookup c l (f (o + c)%nat).
Proof.
  induction l as [|[j v] l IH]; intros f c; simpl; [reflexivity|].
  rewrite IH. simpl. rewrite eqb_off. reflexivity.
Qed.
Lemma sum_pick n k (X : nat -> R) : (k < n)%nat -> sumn n (fun i => if Nat.eqb k i then X i else 0) = X k.
Proof.
  intros H. rewrite (sumn_ext _ _ (fun i => kron k i * X i)).
  - apply sumn_kron'; assumption.
  - intros i _. unfold kron. destruct (Nat.eqb k i); lra.
Qed.

(** ** Names *)
Lemma two_digits_value n : exists d, NilZero.uint_of_string (two_digits n) = Some d /\ Nat.of_uint d = n.
Proof.
  assert (Hnn : Nat.to_uint n <> Decimal.Nil) 
    by (rewrite <- (Unsigned.of_to n), Unsigned.to_of; apply DecimalFacts.unorm_nonnil).
  unfold two_digits.
  destruct (Nat.ltb _ 2) eqn:E.
  - exists (Decimal.D0 (Nat.to_uint n)). split.
    + assert (H := NilZero.usu _ Hnn). unfold NilZero.uint_of_string in H.
      destruct (NilZero.string_of_uint (Nat.to_uint n)) eqn:S; [discriminate|].
      unfold NilZero.uint_of_string. cbn [NilEmpty.uint_of_string]. cbn [NilEmpty.uint_of_string] in H.
      rewrite H. reflexivity.
    + replace (Nat.of_uint (Decimal.D0 (Nat.to_uint n))) with (Nat.of_uint (Nat.to_uint n)) by reflexivity.
      apply Unsigned.of_to.
  - exists (Nat.to_uint n). split; [apply NilZero.usu; assumption|apply Unsigned.of_to].
Qed.
Lemma slip_name_inj a b : slip_name a = slip_name b -> a = b.
Proof.
  unfold slip_name. intros H. injection H as H.
  destruct (two_digits_value (a + 1)) as (d & H1 & H2). destruct (two_digits_value (b + 1)) as (d' & H3 & H4).
  rewrite H in H1. rewrite H1 in H3. injection H3 as <-. lia.
Qed.

(** ** The output *)
Section Output.
  Variable p : post.
  Variable material : nat.
  Variable u : nat -> R.
  Variable du : nat -> vec.
  Hypothesis Hwf : well_formed p.

  Let o := (pp_dim p + pp_ns p)%nat.

  Lemma slip_component_spec a c : slip_component p a c = component_of_slip p c a.
  Proof. unfold slip_component, component_of_slip, index_offset. destruct (pp_decohesion p); lia. Qed.
  Lemma gradient_spec i j : displacement_gradient p du i j = the_gradient p du i j.
  Proof.
    unfold displacement_gradient, the_gradient, crystals_sum. destruct (pp_decohesion p) eqn:E; [|reflexivity].
    apply sumn_ext; intros c _. unfold displacement_component. rewrite E. f_equal. lia.
  Qed.
  Lemma plastic_spec i j : out_plastic_strain p u i j = the_plastic_strain p u i j.
  Proof.
    unfold out_plastic_strain, the_plastic_strain, crystals_sum. rewrite sumn_swap.
    apply sumn_ext; intros c _; apply sumn_ext; intros a _. rewrite slip_component_spec. reflexivity.
  Qed.
  Lemma local_spec i j : fluct_strain p du i j = local_strain p du i j.
  Proof. unfold fluct_strain, symmetrize, local_strain. rewrite !gradient_spec. reflexivity. Qed.
  Lemma strain_spec i j : out_strain p du i j = total_strain p du i j.
  Proof. unfold out_strain, madd, total_strain. rewrite <- local_spec. reflexivity. Qed.
  Lemma elastic_spec i j : out_elastic_strain p u du i j = the_elastic_strain p u du i j.
  Proof. unfold out_elastic_strain, msub, mscal, the_elastic_strain. rewrite strain_spec, plastic_spec. reflexivity. Qed.
  Lemma local_sym i j : local_strain p du i j = local_strain p du j i.
  Proof. unfold local_strain. lra. Qed.
  Lemma plastic_sym i j : the_plastic_strain p u i j = the_plastic_strain p u j i.
  Proof.
    destruct Hwf as (_ & _ & HP & _). unfold the_plastic_strain, crystals_sum.
    apply sumn_ext; intros c _; apply sumn_ext; intros a _. rewrite HP. reflexivity.
  Qed.
  Lemma total_sym i j : total_strain p du i j = total_strain p du j i.
  Proof. destruct Hwf as (_ & HE & _). unfold total_strain. rewrite local_sym, HE. reflexivity. Qed.
  Lemma elastic_sym i j : the_elastic_strain p u du i j = the_elastic_strain p u du j i.
  Proof. unfold the_elastic_strain. rewrite total_sym, plastic_sym. reflexivity. Qed.
  Lemma convert_spec (A : mat) (B : nat -> nat -> R) : (forall i j, A i j = B i j) -> (forall i j, B i j = B j i) ->
    forall i j, (i < 3)%nat -> (j < 3)%nat -> convert_2d_to_3d (pp_dim p) A i j = in_space p B i j.
  Proof.
    intros HA HB i j Hi Hj. destruct Hwf as ([E|E] & _); unfold convert_2d_to_3d, in_space; rewrite E.
    - destruct i as [|[|[|]]]; destruct j as [|[|[|]]]; try lia; cbn; rewrite ?HA; auto.
    - destruct i as [|[|[|]]]; destruct j as [|[|[|]]]; try lia; cbn; rewrite ?HA; auto.
  Qed.
  Lemma stress_spec i j : out_stress p material u du i j = the_stress p material u du i j.
  Proof.
    unfold out_stress, the_stress, hooke_stress, c4. apply sumn_ext; intros k Hk; apply sumn_ext; intros l Hl.
    rewrite (convert_spec _ (the_elastic_strain p u du)); auto. apply elastic_spec. apply elastic_sym.
  Qed.
  Lemma fluct_stress_spec i j :
    fluct_stress p material u du i j = sc_stress (pp_scales p) * the_fluctuating_stress p material u du i j.
  Proof.
    unfold fluct_stress, the_fluctuating_stress, hooke_stress, c4.
    rewrite <- sumn_scal. apply sumn_ext; intros k Hk. rewrite <- sumn_scal. apply sumn_ext; intros l Hl.
    rewrite (convert_spec _ (fun i j => local_strain p du i j - pp_N0 p * the_plastic_strain p u i j)); auto.
    - ring.
    - intros. unfold msub, mscal. rewrite local_spec, plastic_spec. reflexivity.
    - intros i0 j0. rewrite local_sym, plastic_sym. reflexivity.
  Qed.
  Lemma hooke_sym A : sym3 (hooke_stress p material A).
  Proof.
    destruct Hwf as (_ & _ & _ & HC). intros i j _ _. unfold hooke_stress.
    apply sumn_ext; intros k Hk; apply sumn_ext; intros l Hl. rewrite HC. reflexivity.
  Qed.
  Lemma von_mises_spec : von_mises_stress (out_stress p material u du) = von_mises_formula (the_stress p material u du).
  Proof.
    rewrite (von_mises_ext _ (the_stress p material u du)) by (intros i j _ _; apply stress_spec).
    apply von_mises_is_formula. apply hooke_sym.
  Qed.
  Lemma von_mises_fluct_spec : 0 <= sc_stress (pp_scales p) ->
    von_mises_stress (fluct_stress p material u du)
    = sc_stress (pp_scales p) * von_mises_formula (the_fluctuating_stress p material u du).
  Proof.
    intros Hs.
    rewrite (von_mises_ext _ (mscal (sc_stress (pp_scales p)) (the_fluctuating_stress p material u du)))
      by (intros i j _ _; apply fluct_stress_spec).
    rewrite von_mises_scal, Rabs_pos_eq by assumption. f_equal. apply von_mises_is_formula. apply hooke_sym.
  Qed.
  Lemma equivalent_plastic_spec :
    von_mises_plastic_strain (pp_dim p) (out_plastic_strain p u)
    = the_equivalent_plastic p (the_plastic_strain p u).
  Proof.
    unfold von_mises_plastic_strain, the_equivalent_plastic. f_equal. f_equal. unfold ddot.
    apply sumn_ext; intros i Hi; apply sumn_ext; intros j Hj.
    set (x := c4 _ _ _ i j).
    replace x with (the_plastic_strain p u i j -
      (if Nat.eqb i j then sumn (pp_dim p) (fun k => the_plastic_strain p u k k) / 3 else 0)); [ring|].
    unfold x, c4. symmetry.
    rewrite (sumn_ext _ _ (fun k => sumn (pp_dim p) (fun l =>
       (kron k i * (kron l j * the_plastic_strain p u k l) + kron l i * (kron k j * the_plastic_strain p u k l)) / 2
        - kron i j * (1 / 3) * (kron l k * the_plastic_strain p u k l)))).
    2: { intros k _. apply sumn_ext; intros l _. rewrite plastic_spec. unfold deviatoric_projector, identity_tensor.
         rewrite (kron_sym k i), (kron_sym l j), (kron_sym l i), (kron_sym k j), (kron_sym l k). field. }
    rewrite (sumn_ext _ _ (fun k => (kron k i * the_plastic_strain p u k j + kron k j * the_plastic_strain p u k i) / 2
       - kron i j * (1 / 3) * the_plastic_strain p u k k)).
    2: { intros k Hk. rewrite sumn_minus, sumn_div_r, sumn_plus, sumn_scal, !sumn_scal.
         rewrite (sumn_kron (pp_dim p) j (fun l => the_plastic_strain p u k l)) by assumption.
         rewrite (sumn_kron (pp_dim p) k (fun l => the_plastic_strain p u k l)) by assumption.
         rewrite (sumn_kron (pp_dim p) i (fun l => kron k j * the_plastic_strain p u k l)) by assumption.
         reflexivity. }
    rewrite sumn_minus, sumn_div_r, sumn_plus, sumn_scal.
    rewrite (sumn_kron (pp_dim p) i (fun k => the_plastic_strain p u k j)) by assumption.
    rewrite (sumn_kron (pp_dim p) j (fun k => the_plastic_strain p u k i)) by assumption.
    rewrite (plastic_sym j i). unfold kron. destruct (Nat.eqb i j); field.
  Qed.

  (** *** Which slot gets what *)
  Lemma dim_cases : pp_dim p = 2%nat \/ pp_dim p = 3%nat.
  Proof. exact (proj1 Hwf). Qed.

  Lemma slip_adds : Forall is_add (slip_writes p u).
  Proof.
    apply Forall_forall. intros w Hw. unfold slip_writes in Hw.
    apply in_flat_map in Hw. destruct Hw as (a & _ & Hw). apply in_flat_map in Hw. destruct Hw as (c & _ & Hw).
    destruct Hw as [<-|Hw]; [exact I|]. destruct (pp_light p); [destruct Hw|].
    destruct Hw as [<-|[<-|[]]]; exact I.
  Qed.
  Lemma slip_targets w : In w (slip_writes p u) ->
    (pp_dim p <= target w)%nat /\ (target w < o \/ (pp_light p = false /\ target w <= o + 1))%nat.
  Proof.
    intros Hw. unfold slip_writes in Hw.
    apply in_flat_map in Hw. destruct Hw as (a & Ha & Hw). apply in_flat_map in Hw. destruct Hw as (c & _ & Hw).
    apply in_seq in Ha. destruct Hw as [<-|Hw]; [simpl; unfold o; lia|].
    destruct (pp_light p); [destruct Hw|].
    destruct Hw as [<-|[<-|[]]]; simpl; unfold o; split; try lia; right; split; auto; lia.
  Qed.
  Lemma slip_value a : (a < pp_ns p)%nat -> addsum (pp_dim p + a) (slip_writes p u) = the_slip p u a.
  Proof.
    intros Ha. unfold slip_writes. rewrite addsum_flat.
    rewrite (sumn_ext _ _ (fun a' => if Nat.eqb a a' then the_slip p u a' else 0)).
    - apply (sum_pick (pp_ns p) a (the_slip p u)). assumption.
    - intros a' Ha'. rewrite addsum_flat. unfold the_slip, crystals_sum.
      destruct (Nat.eqb_spec a a').
      + subst a'. apply sumn_ext; intros c _. simpl. rewrite Nat.eqb_refl, <- slip_component_spec.
        destruct (pp_light p); simpl; [lra|].
        destruct (Nat.eqb_spec (pp_dim p + a) (pp_dim p + pp_ns p)); [lia|].
        destruct (Nat.eqb_spec (pp_dim p + a) (pp_dim p + pp_ns p + 1)); [lia|]. lra.
      + apply sumn_zero; intros c _. simpl. rewrite eqb_off.
        destruct (Nat.eqb_spec a a'); [contradiction|].
        destruct (pp_light p); simpl; [lra|].
        destruct (Nat.eqb_spec (pp_dim p + a) (pp_dim p + pp_ns p)); [lia|].
        destruct (Nat.eqb_spec (pp_dim p + a) (pp_dim p + pp_ns p + 1)); [lia|]. lra.
  Qed.
  Lemma equivalent_value : pp_light p = false ->
    addsum (o + 0) (slip_writes p u) = sumn (pp_ns p) (the_slip p u).
  Proof.
    intros Hl. unfold slip_writes. rewrite addsum_flat. apply sumn_ext; intros a Ha. rewrite addsum_flat.
    unfold the_slip, crystals_sum. apply sumn_ext; intros c _. rewrite Hl. simpl. unfold o.
    destruct (Nat.eqb_spec (pp_dim p + pp_ns p + 0) (pp_dim p + a)); [lia|].
    destruct (Nat.eqb_spec (pp_dim p + pp_ns p + 0) (pp_dim p + pp_ns p)); [|lia].
    destruct (Nat.eqb_spec (pp_dim p + pp_ns p + 0) (pp_dim p + pp_ns p + 1)); [lia|].
    rewrite slip_component_spec. lra.
  Qed.
  Lemma absolute_value : pp_light p = false ->
    addsum (o + 1) (slip_writes p u) =
    crystals_sum p (fun c => sumn (pp_ns p) (fun a => Rabs (u (component_of_slip p c a)))).
  Proof.
    intros Hl. unfold slip_writes. rewrite addsum_flat. unfold crystals_sum. rewrite sumn_swap.
    apply sumn_ext; intros a Ha. rewrite addsum_flat.
    apply sumn_ext; intros c _. rewrite Hl. simpl. unfold o.
    destruct (Nat.eqb_spec (pp_dim p + pp_ns p + 1) (pp_dim p + a)); [lia|].
    destruct (Nat.eqb_spec (pp_dim p + pp_ns p + 1) (pp_dim p + pp_ns p)); [lia|].
    rewrite Nat.eqb_refl, slip_component_spec. lra.
  Qed.
  Lemma displacement_targets w : In w (displacement_writes p u) -> (target w < pp_dim p)%nat.
  Proof.
    unfold displacement_writes. intros Hw. apply in_flat_map in Hw. destruct Hw as (i & Hi & Hw). apply in_seq in Hi.
    destruct (pp_decohesion p).
    - apply in_map_iff in Hw. destruct Hw as (c & <- & _). simpl. lia.
    - destruct Hw as [<-|[]]. simpl. lia.
  Qed.
  Lemma displacement_value i : (i < pp_dim p)%nat ->
    fold_left do_write (displacement_writes p u) (fun _ => 0) i = sc_displacement (pp_scales p) * the_displacement p u i.
  Proof.
    intros Hi. unfold displacement_writes, the_displacement.
    destruct (pp_decohesion p) eqn:E.
    - rewrite fold_adds.
      + rewrite addsum_flat, Rplus_0_l.
        rewrite (sumn_ext _ _ (fun j => if Nat.eqb i j then
           sumn (pp_nc p) (fun c => sc_displacement (pp_scales p) * u (j + pp_dim p * c)%nat) else 0)).
        * rewrite sum_pick by assumption. rewrite sumn_scal. f_equal. apply sumn_ext; intros c _.
          unfold displacement_component. rewrite E. f_equal. lia.
        * intros j _. apply addsum_map.
      + apply Forall_forall. intros w Hw. apply in_flat_map in Hw. destruct Hw as (j & _ & Hw).
        apply in_map_iff in Hw. destruct Hw as (c & <- & _). exact I.
    - destruct dim_cases as [D|D]; rewrite D in *; cbn.
      + destruct i as [|[|]]; try lia; reflexivity.
      + destruct i as [|[|[|]]]; try lia; reflexivity.
  Qed.

  Definition tensor_list : list (nat * R) :=
    let s := pp_scales p in
    let A := out_stress p material u du in
    let E := convert_2d_to_3d (pp_dim p) (out_strain p du) in
    let Ee := convert_2d_to_3d (pp_dim p) (out_elastic_strain p u du) in
    let Ep := convert_2d_to_3d (pp_dim p) (out_plastic_strain p u) in
    [(2%nat, sc_dislocation s * sqrt (edge_sum p du)); (3%nat, sc_dislocation s * sqrt (screw_sum p du));
     (4%nat, sc_stress s * von_mises_stress A);
     (5%nat, von_mises_plastic_strain (pp_dim p) (out_plastic_strain p u))] ++
    flat_map (fun i => [((6 + i)%nat, sc_stress s * entry_of A i);
      ((12 + i)%nat, shear_factor i * sc_strain s * entry_of E i);
      ((18 + i)%nat, shear_factor i * sc_strain s * entry_of Ee i);
      ((24 + i)%nat, shear_factor i * entry_of Ep i)]) (seq 0 6).
  Definition fluctuation_list : list (nat * R) :=
    let s := pp_scales p in
    let A := fluct_stress p material u du in
    let E := convert_2d_to_3d (pp_dim p) (fluct_strain p du) in
    (30%nat, sc_stress s * von_mises_stress A) ::
    flat_map (fun i => [((31 + i)%nat, sc_stress s * entry_of A i);
      ((37 + i)%nat, shear_factor i * sc_strain s * entry_of E i)]) (seq 0 6).
  Lemma tensor_writes_list : tensor_writes p material u du = map (fun x => WSet (o + fst x) (snd x)) tensor_list.
  Proof.
    unfold tensor_writes, tensor_list, o. cbn [voigt_indices List.length seq flat_map app map fst snd Nat.add].
    rewrite <- !Nat.add_assoc. cbn [Nat.add]. reflexivity.
  Qed.
  Lemma fluctuation_writes_list : fluctuation_writes p material u du = map (fun x => WSet (o + fst x) (snd x)) fluctuation_list.
  Proof.
    unfold fluctuation_writes, fluctuation_list, o. cbn [voigt_indices List.length seq flat_map app map fst snd Nat.add].
    rewrite <- !Nat.add_assoc. cbn [Nat.add]. reflexivity.
  Qed.
  Definition late_list : list (nat * R) :=
    if pp_light p then [] else tensor_list ++ (if pp_fluctuations p then fluctuation_list else []).
  Lemma all_writes_split : all_writes p material u du =
    displacement_writes p u ++ slip_writes p u ++ map (fun x => WSet (o + fst x) (snd x)) late_list.
  Proof.
    unfold all_writes, late_list. destruct (pp_light p); [reflexivity|].
    rewrite map_app, tensor_writes_list. destruct (pp_fluctuations p); [|reflexivity].
    rewrite fluctuation_writes_list. reflexivity.
  Qed.
  Lemma late_ge x : In x late_list -> (2 <= fst x)%nat.
  Proof.
    unfold late_list. destruct (pp_light p); [intros []|]. intros H. apply in_app_or in H. destruct H as [H|H].
    - cbn [tensor_list flat_map seq app List.In] in H. repeat (destruct H as [<-|H]; [cbn; lia|]). destruct H.
    - destruct (pp_fluctuations p); [|destruct H].
      cbn [fluctuation_list flat_map seq app List.In] in H. repeat (destruct H as [<-|H]; [cbn; lia|]). destruct H.
  Qed.
  Definition final := fold_left do_write (all_writes p material u du) (fun _ => 0).
  Lemma final_displacement i : (i < pp_dim p)%nat -> final i = sc_displacement (pp_scales p) * the_displacement p u i.
  Proof.
    intros Hi. unfold final. rewrite all_writes_split, !fold_left_app.
    rewrite fold_untouched.
    - rewrite fold_untouched; [apply displacement_value; assumption|].
      apply Forall_forall. intros w Hw. destruct (slip_targets w Hw). lia.
    - apply Forall_forall. intros w Hw. apply in_map_iff in Hw. destruct Hw as (x & <- & Hx). simpl. unfold o. lia.
  Qed.
  Lemma before_late k : (pp_dim p <= k)%nat ->
    fold_left do_write (slip_writes p u) (fold_left do_write (displacement_writes p u) (fun _ => 0)) k
    = addsum k (slip_writes p u).
  Proof.
    intros Hk. rewrite fold_adds by apply slip_adds. rewrite fold_untouched; [lra|].
    apply Forall_forall. intros w Hw. apply displacement_targets in Hw. lia.
  Qed.
  Lemma final_slip a : (a < pp_ns p)%nat -> final (pp_dim p + a) = the_slip p u a.
  Proof.
    intros Ha. unfold final. rewrite all_writes_split, !fold_left_app, fold_untouched.
    - rewrite before_late by lia. apply slip_value; assumption.
    - apply Forall_forall. intros w Hw. apply in_map_iff in Hw. destruct Hw as (x & <- & Hx). simpl. unfold o. lia.
  Qed.
  Lemma final_late c : final (o + c) = lookup c late_list (addsum (o + c) (slip_writes p u)).
  Proof.
    unfold final. rewrite all_writes_split, !fold_left_app, fold_sets, before_late by (unfold o; lia). reflexivity.
  Qed.

  (** What the slots after displacements and slips should hold. *)
  Definition table (k : R) : list (string * R) :=
    if pp_light p then [] else
    full_table p material u du ++ (if pp_fluctuations p then fluctuation_table p material u du k else []).
  Definition table_names : list string :=
    (if pp_light p then [] else
     ["EquivalentPlasticStrain"; "EquivalentAbsolutePlasticStrain";
     "EquivalentEdgeDislocationDensity"; "EquivalentScrewDislocationDensity";
     "VonMisesStress"; "VonMisesPlasticStrain";
     "Stress_11"; "Stress_22"; "Stress_33"; "Stress_23"; "Stress_13"; "Stress_12";
     "Strain_11"; "Strain_22"; "Strain_33"; "Strain_23x2"; "Strain_13x2"; "Strain_12x2";
     "ElasticStrain_11"; "ElasticStrain_22"; "ElasticStrain_33";
     "ElasticStrain_23x2"; "ElasticStrain_13x2"; "ElasticStrain_12x2";
     "PlasticStrain_11"; "PlasticStrain_22"; "PlasticStrain_33";
     "PlasticStrain_23x2"; "PlasticStrain_13x2"; "PlasticStrain_12x2"]%string%list ++
     (if pp_fluctuations p then
     ["VonMisesStressFluctuations";
     "StressFluctuations_11"; "StressFluctuations_22"; "StressFluctuations_33";
     "StressFluctuations_23"; "StressFluctuations_13"; "StressFluctuations_12";
     "StrainFluctuations_11"; "StrainFluctuations_22"; "StrainFluctuations_33";
     "StrainFluctuations_23x2"; "StrainFluctuations_13x2"; "StrainFluctuations_12x2"]%string%list else [])).
  Lemma table_fst k : map fst (table k) = table_names.
  Proof. unfold table, table_names. destruct (pp_light p); [reflexivity|]. destruct (pp_fluctuations p); reflexivity. Qed.
  Lemma names_split : get_names p = repeat "Displacement"%string (pp_dim p) ++ map slip_name (seq 0 (pp_ns p)) ++ table_names.
  Proof. reflexivity. Qed.
  Lemma interpretation_split : get_interpretation p =
    repeat part_of_vector (pp_dim p) ++ map (fun _ => scalar) (seq 0 (pp_ns p)) ++ map (fun _ => scalar) table_names.
  Proof.
    unfold get_interpretation, table_names. destruct (pp_light p); [reflexivity|].
    destruct (pp_fluctuations p); reflexivity.
  Qed.
  Lemma names_length k : List.length (get_names p) = (o + List.length (table k))%nat.
  Proof.
    rewrite names_split, !app_length, repeat_length, map_length, seq_length, <- (table_fst k), map_length. unfold o. lia.
  Qed.

  Lemma entry_convert A (B : nat -> nat -> R) i : (forall i j, A i j = B i j) -> (forall i j, B i j = B j i) ->
    entry_of (convert_2d_to_3d (pp_dim p) A) i = entry_of (in_space p B) i.
  Proof.
    intros HA HB. unfold entry_of. apply convert_spec; auto;
      unfold voigt, voigt_indices; do 7 (destruct i as [|i]; [cbn; lia|]); destruct i; cbn; lia.
  Qed.
  Lemma edge_spec dir : sumn (pp_ns p) (fun a => sumn (pp_nc p) (fun c =>
      (dot (pp_dim p) (du (slip_component p a c)) (dir c a)) ^ 2)) = gradient_projection p du dir.
  Proof.
    unfold gradient_projection, crystals_sum. rewrite sumn_swap.
    apply sumn_ext; intros c _; apply sumn_ext; intros a _. rewrite slip_component_spec. reflexivity.
  Qed.

  Lemma late_value c nm v : 0 <= sc_stress (pp_scales p) ->
    nth_error (table (sc_stress (pp_scales p) * sc_stress (pp_scales p))) c = Some (nm, v) ->
    final (o + c) = v.
  Proof.
    intros Hs. rewrite final_late. unfold table, late_list.
    destruct (pp_light p) eqn:El; [destruct c; discriminate|].
    assert (T : forall i, entry_of (out_stress p material u du) i = entry_of (the_stress p material u du) i)
      by (intros; apply stress_spec).
    assert (T1 : forall i, entry_of (convert_2d_to_3d (pp_dim p) (out_strain p du)) i = entry_of (in_space p (total_strain p du)) i)
      by (intros; apply entry_convert; [apply strain_spec|apply total_sym]).
    assert (T2 : forall i, entry_of (convert_2d_to_3d (pp_dim p) (out_elastic_strain p u du)) i = entry_of (in_space p (the_elastic_strain p u du)) i)
      by (intros; apply entry_convert; [apply elastic_spec|apply elastic_sym]).
    assert (T3 : forall i, entry_of (convert_2d_to_3d (pp_dim p) (out_plastic_strain p u)) i = entry_of (in_space p (the_plastic_strain p u)) i)
      by (intros; apply entry_convert; [apply plastic_spec|apply plastic_sym]).
    assert (T4 : forall i, entry_of (convert_2d_to_3d (pp_dim p) (fluct_strain p du)) i = entry_of (in_space p (local_strain p du)) i)
      by (intros; apply entry_convert; [apply local_spec|apply local_sym]).
    assert (T5 : forall i, entry_of (fluct_stress p material u du) i
                 = sc_stress (pp_scales p) * entry_of (the_fluctuating_stress p material u du) i)
      by (intros; apply fluct_stress_spec).
    assert (E0 := equivalent_value El). assert (E1 := absolute_value El).
    assert (E2 : edge_sum p du = gradient_projection p du (pp_dir p)) by apply edge_spec.
    assert (E3 : screw_sum p du = gradient_projection p du (pp_ort p)) by apply edge_spec.
    assert (E4 := von_mises_spec). assert (E5 := equivalent_plastic_spec). assert (E6 := von_mises_fluct_spec Hs).
    unfold tensor_list, fluctuation_list. rewrite E2, E3, E4, E5, E6.
    cbn [flat_map seq app Nat.add]. rewrite !T, !T1, !T2, !T3, !T4, !T5. clear T T1 T2 T3 T4 T5 E2 E3 E4 E5 E6.
    unfold full_table, fluctuation_table, rows. cbn [app].
    unfold entry_of, voigt, voigt_indices, shear_factor. cbn [nth fst snd Nat.ltb Nat.leb].
    destruct (pp_fluctuations p);
      do 43 (destruct c as [|c];
        [ cbn [nth_error app lookup Nat.eqb]; intros H; try discriminate H; injection H as _ <-;
          first [exact E0 | exact E1 | ring] | ]);
      destruct c; discriminate.
  Qed.
End Output.

Lemma nth_repeat_lt {A} (x : A) n i : (i < n)%nat -> nth_error (repeat x n) i = Some x.
Proof. revert i; induction n; intros [|i] H; simpl; try lia; auto. apply IHn. lia. Qed.
Lemma nth_seq n i : (i < n)%nat -> nth_error (seq 0 n) i = Some i.
Proof. intros H. rewrite (nth_error_nth' _ 0%nat) by (rewrite seq_length; assumption). rewrite seq_nth by assumption. reflexivity. Qed.

(** Every number of slip systems and crystals, both dimensions, with and without decohesion, light,
    full and fluctuation output, every state: the evaluation stays inside the vector, which has one
    entry per name and per interpretation; the first entries are the displacement vector, then come
    the slips, then the table of named quantities in order; no two scalar quantities share a name. *)
Theorem C62_output : forall p material u du,
  well_formed p -> 0 <= sc_stress (pp_scales p) ->
  exists out, evaluate_vector_field p material u du = Ok out /\
    List.length out = List.length (get_names p) /\
    List.length (get_interpretation p) = List.length (get_names p) /\
    (forall i, (i < pp_dim p)%nat ->
       slot p out i "Displacement" part_of_vector (sc_displacement (pp_scales p) * the_displacement p u i)) /\
    (forall a, (a < pp_ns p)%nat -> slot p out (pp_dim p + a) (slip_name a) scalar (the_slip p u a)) /\
    (let tab := if pp_light p then [] else
        full_table p material u du ++
        (if pp_fluctuations p
         then fluctuation_table p material u du (sc_stress (pp_scales p) * sc_stress (pp_scales p)) else []) in
     List.length out = (pp_dim p + pp_ns p + List.length tab)%nat /\
     (forall c nm v, nth_error tab c = Some (nm, v) -> slot p out (pp_dim p + pp_ns p + c) nm scalar v)) /\
    NoDup (skipn (pp_dim p) (get_names p)).
Proof.
  intros p m u du Hwf Hs.
  set (k := sc_stress (pp_scales p) * sc_stress (pp_scales p)).
  assert (HL := names_length p m u du k).
  assert (Hlen : (List.length (table p m u du k) = if pp_light p then 0 else if pp_fluctuations p then 43 else 30)%nat).
  { unfold table. destruct (pp_light p); [reflexivity|]. destruct (pp_fluctuations p); reflexivity. }
  assert (Hbound : forallb (fun w => Nat.ltb (target w) (List.length (get_names p))) (all_writes p m u du) = true).
  { apply forallb_forall. intros w Hw. apply Nat.ltb_lt. rewrite HL, Hlen.
    rewrite all_writes_split in Hw. apply in_app_or in Hw. destruct Hw as [Hw|Hw].
    - apply displacement_targets in Hw. lia.
    - apply in_app_or in Hw. destruct Hw as [Hw|Hw].
      + destruct (slip_targets p u w Hw) as (_ & [H|(El & H)]); [lia|]. rewrite El. destruct (pp_fluctuations p); lia.
      + apply in_map_iff in Hw. destruct Hw as (x & <- & Hx). cbn [target]. unfold late_list in Hx.
        destruct (pp_light p); [destruct Hx|]. apply in_app_or in Hx. destruct Hx as [Hx|Hx].
        * cbn [tensor_list flat_map seq app List.In] in Hx.
          repeat (destruct Hx as [<-|Hx]; [cbn [fst Nat.add]; destruct (pp_fluctuations p); lia|]). destruct Hx.
        * destruct (pp_fluctuations p); [|destruct Hx].
          cbn [fluctuation_list flat_map seq app List.In] in Hx.
          repeat (destruct Hx as [<-|Hx]; [cbn [fst Nat.add]; lia|]). destruct Hx. }
  exists (map (final p m u du) (seq 0 (List.length (get_names p)))).
  assert (Hnth : forall j, (j < List.length (get_names p))%nat ->
    nth_error (map (final p m u du) (seq 0 (List.length (get_names p)))) j = Some (final p m u du j)).
  { intros j Hj. rewrite nth_error_map, nth_seq by assumption. reflexivity. }
  split; [unfold evaluate_vector_field; rewrite Hbound; reflexivity|].
  split; [rewrite map_length, seq_length; reflexivity|].
  split.
  { rewrite interpretation_split, names_split, !app_length, !repeat_length, !map_length. reflexivity. }
  split.
  { intros i Hi. unfold slot. split; [|split].
    - rewrite names_split, nth_error_app1 by (rewrite repeat_length; assumption). apply nth_repeat_lt; assumption.
    - rewrite interpretation_split, nth_error_app1 by (rewrite repeat_length; assumption). apply nth_repeat_lt; assumption.
    - rewrite Hnth by (rewrite HL; lia). f_equal. apply final_displacement; assumption. }
  split.
  { intros a Ha. unfold slot. split; [|split].
    - rewrite names_split, nth_error_app2 by (rewrite repeat_length; lia). rewrite repeat_length.
      replace (pp_dim p + a - pp_dim p)%nat with a by lia.
      rewrite nth_error_app1 by (rewrite map_length, seq_length; assumption).
      rewrite nth_error_map, nth_seq by assumption. reflexivity.
    - rewrite interpretation_split, nth_error_app2 by (rewrite repeat_length; lia). rewrite repeat_length.
      replace (pp_dim p + a - pp_dim p)%nat with a by lia.
      rewrite nth_error_app1 by (rewrite map_length, seq_length; assumption).
      rewrite nth_error_map, nth_seq by assumption. reflexivity.
    - rewrite Hnth by (rewrite HL; lia). f_equal. apply final_slip; assumption. }
  split.
  { intros tab. change tab with (table p m u du k). split.
    - rewrite map_length, seq_length. exact HL.
    - intros c nm v Hc. assert (Hcl : (c < List.length (table p m u du k))%nat)
        by (apply nth_error_Some; rewrite Hc; discriminate).
      assert (Hnm : nth_error (table_names p) c = Some nm).
      { rewrite <- (table_fst p m u du k), nth_error_map, Hc. reflexivity. }
      unfold slot. split; [|split].
      + rewrite names_split, nth_error_app2 by (rewrite repeat_length; lia). rewrite repeat_length.
        rewrite nth_error_app2 by (rewrite map_length, seq_length; lia). rewrite map_length, seq_length.
        replace (pp_dim p + pp_ns p + c - pp_dim p - pp_ns p)%nat with c by lia. exact Hnm.
      + rewrite interpretation_split, nth_error_app2 by (rewrite repeat_length; lia). rewrite repeat_length.
        rewrite nth_error_app2 by (rewrite map_length, seq_length; lia). rewrite map_length, seq_length.
        replace (pp_dim p + pp_ns p + c - pp_dim p - pp_ns p)%nat with c by lia.
        rewrite nth_error_map, Hnm. reflexivity.
      + rewrite Hnth by (rewrite HL; lia). f_equal. apply (late_value p m u du Hwf c nm v Hs Hc). }
  rewrite names_split, skipn_app, skipn_all2 by (rewrite repeat_length; lia).
  rewrite repeat_length, Nat.sub_diag. cbn [skipn app].
  assert (HS : forall n s, NoDup (map slip_name (seq s n))).
  { induction n as [|n IH]; intros s; cbn [seq map]; constructor; auto.
    intros H. apply in_map_iff in H. destruct H as (x & Hx & Hin). apply slip_name_inj in Hx. apply in_seq in Hin. lia. }
  assert (HT : NoDup (table_names p)).
  { unfold table_names. destruct (pp_light p); [constructor|]. cbn [app].
    destruct (pp_fluctuations p);
      repeat (constructor; [cbn [List.In]; intros H; repeat (destruct H as [H|H]; [discriminate H|]); exact H|]);
      constructor. }
  assert (HD : forall s, In s (table_names p) -> forall a, s <> slip_name a).
  { intros s Hin a ->. unfold table_names in Hin. destruct (pp_light p); [destruct Hin|]. cbn [app] in Hin.
    destruct (pp_fluctuations p); cbn [app List.In] in Hin;
      repeat (destruct Hin as [Hin|Hin]; [unfold slip_name in Hin; discriminate Hin|]); exact Hin. }
  clear - HS HT HD. generalize 0%nat. induction (pp_ns p) as [|n IH]; intros s; cbn [seq map app]; [exact HT|].
  constructor; [|apply IH].
  intros H. apply in_app_or in H. destruct H as [H|H].
  - apply in_map_iff in H. destruct H as (x & Hx & Hin). apply slip_name_inj in Hx. apply in_seq in Hin. lia.
  - exact (HD _ H s eq_refl).
Qed.

(** ** Dimensionless output *)
(** The post-processor with other characteristic quantities. *)
Definition with_scales (p : post) (s : scales) : post :=
  mk_post (pp_dim p) (pp_ns p) (pp_nc p) (pp_decohesion p) (pp_light p) (pp_fluctuations p) s (pp_N0 p)
    (pp_macro p) (pp_dir p) (pp_ort p) (pp_P p) (pp_C3 p).
(** The characteristic quantity by which the named quantity is measured. *)
Definition units (s : scales) : list R :=
  [1; 1; sc_dislocation s; sc_dislocation s; sc_stress s; 1] ++ repeat (sc_stress s) 6 ++ repeat (sc_strain s) 12 ++ repeat 1 6.
Lemma unit_once k x : k * x = k * (1 * x).
Proof. ring. Qed.
Lemma unit_twice k x : 2 * k * x = k * (2 * 1 * x).
Proof. ring. Qed.
(** With dimensionless output requested every slot holds the bare number; without, the same
    number times the characteristic quantity of its kind. *)
Theorem C62_dimensionless_output : forall p s material u du,
  well_formed p -> 0 <= sc_stress s -> pp_light p = false ->
  exists bare scaled,
    evaluate_vector_field (with_scales p (output_scales true s)) material u du = Ok bare /\
    evaluate_vector_field (with_scales p (output_scales false s)) material u du = Ok scaled /\
    (forall i, (i < pp_dim p)%nat ->
       nth_error bare i = Some (the_displacement p u i) /\
       nth_error scaled i = Some (sc_displacement s * the_displacement p u i)) /\
    (forall a, (a < pp_ns p)%nat ->
       nth_error bare (pp_dim p + a) = Some (the_slip p u a) /\ nth_error scaled (pp_dim p + a) = Some (the_slip p u a)) /\
    (forall c unit, nth_error (units s) c = Some unit ->
       exists v, nth_error bare (pp_dim p + pp_ns p + c) = Some v /\
                 nth_error scaled (pp_dim p + pp_ns p + c) = Some (unit * v)).
Proof.
  intros p s m u du Hwf Hs HL.
  destruct (C62_output (with_scales p (output_scales true s)) m u du Hwf ltac:(cbn; lra)) as (b & Hb & _ & _ & Db & Sb & (_ & Tb) & _).
  destruct (C62_output (with_scales p (output_scales false s)) m u du Hwf Hs) as (o & Ho & _ & _ & Do & So & (_ & To) & _).
  exists b, o. split; [exact Hb|]. split; [exact Ho|].
  split; [|split].
  - intros i Hi. destruct (Db i Hi) as (_ & _ & X). destruct (Do i Hi) as (_ & _ & Y). split.
    + rewrite X. cbn. f_equal. rewrite Rmult_1_l. reflexivity.
    + exact Y.
  - intros a Ha. destruct (Sb a Ha) as (_ & _ & X). destruct (So a Ha) as (_ & _ & Y). split; [exact X|exact Y].
  - clear Db Do Sb So Hb Ho. set (pb := with_scales p (output_scales true s)) in *. set (po := with_scales p (output_scales false s)) in *.
    change (pp_light pb) with (pp_light p) in Tb. change (pp_light po) with (pp_light p) in To.
    change (pp_dim pb) with (pp_dim p) in Tb. change (pp_dim po) with (pp_dim p) in To.
    change (pp_ns pb) with (pp_ns p) in Tb. change (pp_ns po) with (pp_ns p) in To.
    rewrite HL in Tb, To. intros c unit Hc. unfold units in Hc. cbn [repeat app] in Hc.
    assert (G : forall nm x y, nth_error (full_table pb m u du) c = Some (nm, x) ->
      nth_error (full_table po m u du) c = Some (nm, y) -> y = unit * x ->
      exists v, nth_error b (pp_dim p + pp_ns p + c) = Some v /\ nth_error o (pp_dim p + pp_ns p + c) = Some (unit * v)).
    { intros nm x y X Y E. exists x.
      assert (X' := X). assert (Y' := Y).
      assert (X1 : (c < List.length (full_table pb m u du))%nat) by (apply nth_error_Some; rewrite X; discriminate).
      assert (Y1 : (c < List.length (full_table po m u du))%nat) by (apply nth_error_Some; rewrite Y; discriminate).
      specialize (Tb c nm x). rewrite nth_error_app1 in Tb by exact X1. destruct (Tb X) as (_ & _ & P).
      specialize (To c nm y). rewrite nth_error_app1 in To by exact Y1. destruct (To Y) as (_ & _ & Q).
      split; [exact P|]. rewrite <- E. exact Q. }
    unfold pb, po in G. clear Tb To pb po.
    do 30 (destruct c as [|c]; [clear - Hc G; cbn [nth_error] in Hc; injection Hc as <-;
      eapply G; [reflexivity|reflexivity|]; clear G;
        first [exact (eq_sym (Rmult_1_l _)) | exact (unit_once _ _) | exact (unit_twice _ _)]|]).
    destruct c; discriminate.
Qed.

(** The component read for a slip is the one the field's extractors give to it. *)
Theorem C62_components : forall p c a, (c < pp_nc p)%nat -> (a < pp_ns p)%nat ->
  exists l, nth_error (ModelFEField.new_slips_extractors (pp_dim p) (pp_decohesion p) (pp_nc p) (pp_ns p)) c = Some l /\
    nth_error l a = Some (component_of_slip p c a).
Proof.
  intros p c a Hc Ha. eexists. unfold ModelFEField.new_slips_extractors. rewrite nth_error_map, nth_seq by assumption.
  split; [reflexivity|]. rewrite nth_error_map, nth_seq by assumption. reflexivity.
Qed.

(** Slip-based output: one slot per name, the sum over crystals of the absolute slips. *)
Theorem C62_slip_based : forall name d ns nc decohesion vals,
  exists out, sb_evaluate d ns nc decohesion vals = Ok out /\
    List.length out = List.length (sb_names name ns) /\
    forall a, (a < ns)%nat -> nth_error out a =
      Some (sumn nc (fun c => Rabs (vals ((if decohesion then d * nc else d) + a + ns * c)%nat))).
Proof.
  intros name d ns nc decohesion vals. unfold sb_evaluate.
  set (ws := sb_writes d ns nc decohesion vals).
  assert (HB : forallb (fun w => Nat.ltb (target w) ns) ws = true).
  { apply forallb_forall. intros w Hw. apply Nat.ltb_lt. apply in_flat_map in Hw. destruct Hw as (a & Ha & Hw).
    apply in_map_iff in Hw. destruct Hw as (c & <- & _). apply in_seq in Ha. simpl. lia. }
  rewrite HB. eexists. split; [reflexivity|]. unfold sb_names. rewrite !map_length. split; [reflexivity|].
  intros a Ha. rewrite nth_error_map, nth_seq by assumption. simpl. f_equal.
  rewrite fold_adds.
  - unfold ws, sb_writes. rewrite addsum_flat, Rplus_0_l.
    rewrite (sumn_ext _ _ (fun b => if Nat.eqb a b then sumn nc (fun c => Rabs (vals ((if decohesion then d * nc else d) + b + ns * c)%nat)) else 0))
      by (intros b _; apply addsum_map).
    apply (sum_pick ns a (fun b => sumn nc (fun c => Rabs (vals ((if decohesion then d * nc else d) + b + ns * c)%nat)))).
    assumption.
  - apply Forall_forall. intros w Hw. apply in_flat_map in Hw. destruct Hw as (b & _ & Hw).
    apply in_map_iff in Hw. destruct Hw as (c & <- & _). exact I.
Qed.

Definition ex_post (light fl : bool) (s : R) : post :=
  mk_post 2 1 1 false light fl (mk_scales 1 1 s 1) 1 (fun _ _ => 0) (fun _ _ => vzero) (fun _ _ => vzero)
    (fun _ _ => fun _ _ => 0) (fun _ => fun i j k l => identity_tensor i j k l).
Lemma ex_post_wf light fl s : well_formed (ex_post light fl s).
Proof.
  split; [left; reflexivity|]. split; [reflexivity|]. split; [reflexivity|].
  intros m i j k l. simpl. unfold identity_tensor. lra.
Qed.
Example C62_example : well_formed (ex_post false true 2) /\ 0 <= sc_stress (pp_scales (ex_post false true 2)) /\
  List.length (get_names (ex_post false true 2)) = 46%nat.
Proof. split; [apply ex_post_wf|]. split; [simpl; lra|reflexivity]. Qed.

(** ** C63 *)
(** The stress fluctuations of the output carry the square of the characteristic stress ... *)
Theorem C63_fluctuations_partial : forall p material u du,
  well_formed p -> pp_light p = false -> pp_fluctuations p = true ->
  sc_stress (pp_scales p) = 1 ->
  exists out, evaluate_vector_field p material u du = Ok out /\
    forall c nm v, nth_error (fluctuation_table p material u du (sc_stress (pp_scales p))) c = Some (nm, v) ->
      slot p out (pp_dim p + pp_ns p + 30 + c) nm scalar v.
Proof.
  intros p m u du Hwf Hl Hf Hs.
  destruct (C62_output p m u du Hwf ltac:(rewrite Hs; lra)) as (out & He & _ & _ & _ & _ & (_ & Ht) & _).
  exists out. split; [exact He|]. intros c nm v Hc. rewrite <- Nat.add_assoc. apply Ht.
  rewrite Hl, Hf, nth_error_app2 by (cbn; lia).
  replace (30 + c - List.length (full_table p m u du))%nat with c by (cbn [List.length full_table rows app]; lia).
  rewrite Hs in *. rewrite Rmult_1_l. exact Hc.
Qed.
(** ... so that in physical units they are wrong by that factor: with a characteristic stress of 2
    and a unit dimensionless fluctuation the output says 4 where the total stress says 2. *)
Theorem C63_refuted : exists p material u du out,
  well_formed p /\ pp_light p = false /\ pp_fluctuations p = true /\ 0 < sc_stress (pp_scales p) /\
  evaluate_vector_field p material u du = Ok out /\
  the_fluctuating_stress p material u du 0%nat 0%nat = 1 /\ the_stress p material u du 0%nat 0%nat = 1 /\
  slot p out (pp_dim p + pp_ns p + 6) "Stress_11" scalar (sc_stress (pp_scales p) * 1) /\
  slot p out (pp_dim p + pp_ns p + 31) "StressFluctuations_11" scalar 4 /\
  sc_stress (pp_scales p) * 1 = 2.
Proof.
  set (p := ex_post false true 2). set (u := fun _ : nat => 0).
  set (du := fun i : nat => fun j : nat => if (Nat.eqb i 0 && Nat.eqb j 0)%bool then 1 else 0).
  destruct (C62_output p 0 u du (ex_post_wf _ _ _) ltac:(simpl; lra)) as (out & He & _ & _ & _ & _ & (_ & Ht) & _).
  assert (H1 : the_fluctuating_stress p 0 u du 0%nat 0%nat = 1).
  { unfold the_fluctuating_stress, hooke_stress, in_space, local_strain, the_gradient, the_plastic_strain, crystals_sum,
      identity_tensor, kron; cbn. unfold identity_tensor, kron; cbn. field. }
  assert (H2 : the_stress p 0 u du 0%nat 0%nat = 1).
  { unfold the_stress, the_elastic_strain, total_strain, hooke_stress, in_space, local_strain, the_gradient, the_plastic_strain, crystals_sum,
      identity_tensor, kron; cbn. unfold identity_tensor, kron; cbn. field. }
  exists p, 0%nat, u, du, out.
  split; [apply ex_post_wf|]. split; [reflexivity|]. split; [reflexivity|]. split; [simpl; lra|].
  split; [exact He|]. split; [exact H1|]. split; [exact H2|].
  assert (S6 := Ht 6%nat "Stress_11"%string _ eq_refl).
  assert (S31 := Ht 31%nat "StressFluctuations_11"%string _ eq_refl).
  rewrite H2 in S6. rewrite H1 in S31.
  split; [exact S6|]. split; [|simpl; lra].
  replace 4 with (sc_stress (pp_scales p) * sc_stress (pp_scales p) * 1) by (simpl; lra). exact S31.
Qed.
