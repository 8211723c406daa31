(** * Evaluation of the parameter-file functions of ModelParams. *)
From Coq Require Import ZArith QArith String List Bool Lia Reals Qreals Lra.
From Verif Require Import Num ModelUtilities ModelLoading ModelSolver ModelParams SpecParams.
Import ListNotations.
Open Scope string_scope.

(** ** Keys *)
Lemma path_eqb_eq : forall a b, path_eqb a b = true <-> a = b.
Proof.
  induction a as [|x a IH]; intros [|y b]; simpl; try (split; congruence).
  rewrite andb_true_iff, String.eqb_eq, IH. split; [intros [-> ->]; reflexivity | intros H; inversion H; auto].
Qed.
Lemma key_eqb_eq : forall a b : key, key_eqb a b = true <-> a = b.
Proof.
  intros [p n] [q m]. unfold key_eqb; simpl. rewrite andb_true_iff, path_eqb_eq, String.eqb_eq.
  split; [intros [-> ->]; reflexivity | intros H; inversion H; auto].
Qed.
Lemma key_eqb_refl : forall k, key_eqb k k = true.
Proof. intros; apply key_eqb_eq; reflexivity. Qed.
Lemma key_eqb_neq : forall a b, a <> b -> key_eqb a b = false.
Proof. intros a b H. destruct (key_eqb a b) eqn:Q; auto. apply key_eqb_eq in Q; contradiction. Qed.

Lemma lookup_key : forall es k d, lookup k es = Some d -> d_key d = k /\ In d es.
Proof.
  intros es k d H. unfold lookup in H. apply find_some in H as [A B]. apply key_eqb_eq in B. auto.
Qed.
Lemma lookup_replace : forall es k t k', lookup k' (replace k t es) =
  if key_eqb k' k then option_map (fun d => mk_declared (d_key d) (d_pattern d) t) (lookup k' es)
  else lookup k' es.
Proof.
  induction es as [|e es IH]; intros k t k'; simpl.
  - destruct (key_eqb k' k); reflexivity.
  - destruct (key_eqb k (d_key e)) eqn:Q; simpl.
    + apply key_eqb_eq in Q. subst k. destruct (key_eqb k' (d_key e)) eqn:Q'; simpl; auto.
    + destruct (key_eqb k' (d_key e)) eqn:Q'; simpl; [|apply IH].
      apply key_eqb_eq in Q'. subst k'. destruct (key_eqb (d_key e) k) eqn:Q''; auto.
      apply key_eqb_eq in Q''. subst k. rewrite key_eqb_refl in Q; discriminate.
Qed.

(** ** Reading a file *)
Lemma parse_input_cases : forall f es,
  (exists E, parse_input es f = Ok E /\
     (forall k t, In (k, t) f -> exists d, lookup k es = Some d /\ matches (d_pattern d) t = true) /\
     (forall k, lookup k E = option_map (fun d => mk_declared (d_key d) (d_pattern d) (value f k (d_text d))) (lookup k es))) \/
  (parse_input es f = Throw /\
     exists k t, In (k, t) f /\ forall d, lookup k es = Some d -> matches (d_pattern d) t = false).
Proof.
  induction f as [|[k t] f IH]; intros es; simpl.
  - left. exists es. split; [reflexivity|split; [tauto|]]. intros k. destruct (lookup k es) as [[]|]; reflexivity.
  - unfold set_entry; simpl. destruct (lookup k es) as [d|] eqn:L; simpl.
    2: { right. split; auto. exists k, t. split; auto. intros d Hd; rewrite L in Hd; discriminate. }
    destruct (matches (d_pattern d) t) eqn:M; simpl.
    2: { right. split; auto. exists k, t. split; auto. intros d' Hd'; congruence. }
    destruct (IH (replace k t es)) as [[E [HE [HM HL]]]|[HE [k' [t' [Hin Hno]]]]].
    + left. exists E. split; [exact HE|split].
      * intros k' t' [Heq|Hin].
        { inversion Heq; subst k' t'. exists d; auto. }
        destruct (HM k' t' Hin) as [d' [Hd' Hm']]. rewrite lookup_replace in Hd'.
        destruct (key_eqb k' k); [|exists d'; auto].
        destruct (lookup k' es) as [d0|]; simpl in Hd'; [|discriminate].
        inversion Hd'; subst d'; simpl in Hm'. exists d0; auto.
      * intros k'. rewrite HL, lookup_replace. unfold value; simpl.
        destruct (key_eqb k' k) eqn:Q.
        { destruct (lookup k' es) as [d0|]; simpl; [|reflexivity].
          destruct (last_assignment f k'); reflexivity. }
        destruct (lookup k' es) as [d0|]; simpl; [|reflexivity].
        destruct (last_assignment f k'); reflexivity.
    + right. split; auto. exists k', t'. split; [auto|]. intros d' Hd'.
      destruct (key_eqb k' k) eqn:Q.
      * specialize (Hno (mk_declared (d_key d') (d_pattern d') t)). simpl in Hno. apply Hno.
        rewrite lookup_replace, Q, Hd'. reflexivity.
      * apply Hno. rewrite lookup_replace, Q. exact Hd'.
Qed.

(** The entries after declaration. *)
Definition table : list declared :=
  Eval vm_compute in
    match declare_strip (mk_handler [] []) with Ok (_, h) => h_entries h | _ => [] end.
Lemma declared_table : declare_strip (mk_handler [] []) = Ok (tt, mk_handler [] table).
Proof. vm_compute. reflexivity. Qed.

Lemma map_eq_forall : forall A C (g h : A -> C) l, map g l = map h l -> Forall (fun x => g x = h x) l.
Proof. induction l as [|x l IH]; simpl; intros H; constructor; inversion H; auto. Qed.
Lemma manual_in_table : Forall (fun e => lookup (doc_key e) table =
  Some (mk_declared (doc_key e) (doc_pattern e) (doc_default e))) manual.
Proof. apply map_eq_forall. vm_compute. reflexivity. Qed.
Lemma table_in_manual : Forall (fun d => In (d_key d) (map doc_key manual)) table.
Proof.
  assert (H : forallb (fun d => existsb (key_eqb (d_key d)) (map doc_key manual)) table = true)
    by (vm_compute; reflexivity).
  apply Forall_forall. intros d Hd. rewrite forallb_forall in H. specialize (H d Hd).
  apply existsb_exists in H as [k [Hk Q]]. apply key_eqb_eq in Q. congruence.
Qed.
Lemma find_manual : forall k, match find (fun e => key_eqb k (doc_key e)) manual with
  | Some e => doc_key e = k /\ In e manual /\ lookup k table = Some (mk_declared k (doc_pattern e) (doc_default e))
  | None => lookup k table = None
  end.
Proof.
  intros k. destruct (find (fun e => key_eqb k (doc_key e)) manual) as [e|] eqn:F.
  - apply find_some in F as [A B]. apply key_eqb_eq in B. subst k.
    split; [reflexivity|split; [exact A|]].
    exact (proj1 (Forall_forall _ _) manual_in_table e A).
  - destruct (lookup k table) as [d|] eqn:L; auto.
    apply lookup_key in L as [L1 L2].
    pose proof (proj1 (Forall_forall _ _) table_in_manual d L2) as H.
    apply in_map_iff in H as [e [H1 H2]].
    pose proof (find_none _ _ F e H2) as H3. simpl in H3. rewrite H1, L1, key_eqb_refl in H3. discriminate.
Qed.
Lemma lookup_manual : forall e, In e manual ->
  lookup (doc_key e) table = Some (mk_declared (doc_key e) (doc_pattern e) (doc_default e)).
Proof. exact (proj1 (Forall_forall _ _) manual_in_table). Qed.
Lemma in_force_lookup : forall f k d, lookup k table = Some d -> in_force f k = value f k (d_text d).
Proof.
  intros f k d L. unfold in_force. pose proof (find_manual k) as H.
  destruct (find _ manual) as [e|]; [|congruence]. destruct H as [_ [_ H]]. rewrite H in L. inversion L. reflexivity.
Qed.

Lemma table_defaults_match : Forall (fun d => matches (d_pattern d) (d_text d) = true) table.
Proof. apply map_eq_forall. vm_compute. reflexivity. Qed.

Lemma last_assignment_in : forall f k t, last_assignment f k = Some t -> In (k, t) f.
Proof.
  induction f as [|[k' t'] f IH]; intros k t; simpl; [discriminate|].
  destruct (last_assignment f k) eqn:L; intros H.
  - right. apply IH. congruence.
  - destruct (key_eqb k k') eqn:Q; [|discriminate]. apply key_eqb_eq in Q. left. congruence.
Qed.

(** ** Evaluation of the parsing functions *)
Section Reading.
  Variable E : list declared.
  Variable v : key -> text.
  Hypothesis HE : forall k d, lookup k table = Some d -> lookup k E = Some (mk_declared k (d_pattern d) (v k)).
  Hypothesis Hv : forall k d, lookup k table = Some d -> matches (d_pattern d) (v k) = true.

  Definition N (k : key) : Q := match as_double (v k) with Some q => q | None => 0%Q end.
  Definition I (k : key) : Z := match v k with TInt z => z | _ => 0%Z end.
  Definition B (k : key) : bool := match v k with TBool b => b | _ => false end.
  Definition S (k : key) : string := match v k with TStr s => s | _ => "" end.

  (** [p], run in subsection [P], succeeds with result [a] iff [C]. *)
  Definition reads {A} (P : list string) (p : prog A) (C : Prop) (a : A) : Prop :=
    (C /\ p (mk_handler P E) = Ok (a, mk_handler P E)) \/ (~ C /\ p (mk_handler P E) = Throw).

  Lemma reads_iff : forall A P (p : prog A) C C' a a', reads P p C a -> (C <-> C') -> (C -> a = a') -> reads P p C' a'.
  Proof.
    intros A P p C C' a a' [[H1 H2]|[H1 H2]] HC Ha; [left|right]; split; try tauto.
    rewrite <- (Ha H1). exact H2.
  Qed.
  Lemma reads_ret : forall A P (a : A), reads P (ret a) True a.
  Proof. intros; left; split; [exact Logic.I|reflexivity]. Qed.
  Lemma reads_bind : forall A A' P (p : prog A) (f : A -> prog A') C D a b,
    reads P p C a -> reads P (f a) D b -> reads P (bind p f) (C /\ D) b.
  Proof.
    intros A A' P p f C D a b [[H1 H2]|[H1 H2]] HD.
    - destruct HD as [[H3 H4]|[H3 H4]]; [left|right]; unfold bind; rewrite H2; tauto.
    - right. unfold bind; rewrite H2. tauto.
  Qed.
  Lemma reads_inside : forall A P s (p : prog A) C a,
    reads (P ++ [s])%list p C a -> reads P (inside s p) C a.
  Proof.
    intros A P s p C a H. unfold reads, inside, enter_subsection, bind in *; simpl.
    destruct H as [[H1 H2]|[H1 H2]]; rewrite H2; [left|right]; split; try tauto.
    unfold leave_subsection; simpl.
    rewrite removelast_last. destruct (P ++ [s])%list eqn:Q; [destruct P; discriminate|]. reflexivity.
  Qed.
  Lemma reads_assert : forall P b, reads P (assert_throw b) (b = true) tt.
  Proof. intros P [|]; [left|right]; split; try reflexivity; congruence. Qed.
  Lemma reads_debug : forall P debug b, reads P (assert_debug debug b) (debug = true -> b = true) tt.
  Proof.
    intros P debug b. unfold assert_debug. eapply reads_iff; [apply reads_assert| |reflexivity].
    destruct debug, b; simpl; intuition congruence.
  Qed.
  Lemma reads_text : forall P n d, lookup (P, n) table = Some d -> reads P (get_text n) True (v (P, n)).
  Proof.
    intros P n d L. left. split; [exact Logic.I|]. unfold get_text; simpl. rewrite (HE _ _ L). reflexivity.
  Qed.
  Lemma reads_double : forall P n lo up t, lookup (P, n) table = Some (mk_declared (P, n) (PDouble lo up) t) ->
    reads P (get_double n) True (N (P, n)).
  Proof.
    intros P n lo up t L. left. split; [exact Logic.I|]. unfold get_double, bind.
    destruct (reads_text _ _ _ L) as [[_ H]|[[] _]]; auto. rewrite H.
    pose proof (Hv _ _ L) as M. simpl in M. unfold N. destruct (as_double (v (P, n))); [reflexivity|discriminate].
  Qed.
  Lemma reads_double_of_integer : forall P n lo t, lookup (P, n) table = Some (mk_declared (P, n) (PInteger lo) t) ->
    reads P (get_double n) True (inject_Z (I (P, n))).
  Proof.
    intros P n lo t L. left. split; [exact Logic.I|]. unfold get_double, bind.
    destruct (reads_text _ _ _ L) as [[_ H]|[[] _]]; auto. rewrite H.
    pose proof (Hv _ _ L) as M. simpl in M. unfold I. destruct (v (P, n)); try discriminate. reflexivity.
  Qed.
  Lemma reads_integer : forall P n lo t, lookup (P, n) table = Some (mk_declared (P, n) (PInteger lo) t) ->
    reads P (get_integer n) True (I (P, n)).
  Proof.
    intros P n lo t L. left. split; [exact Logic.I|]. unfold get_integer, bind.
    destruct (reads_text _ _ _ L) as [[_ H]|[[] _]]; auto. rewrite H.
    pose proof (Hv _ _ L) as M. simpl in M. unfold I. destruct (v (P, n)); try discriminate. reflexivity.
  Qed.
  Lemma reads_bool : forall P n t, lookup (P, n) table = Some (mk_declared (P, n) PBool t) ->
    reads P (get_bool n) True (B (P, n)).
  Proof.
    intros P n t L. left. split; [exact Logic.I|]. unfold get_bool, bind.
    destruct (reads_text _ _ _ L) as [[_ H]|[[] _]]; auto. rewrite H.
    pose proof (Hv _ _ L) as M. simpl in M. unfold B. destruct (v (P, n)); try discriminate. reflexivity.
  Qed.
  Lemma reads_selection : forall P n os t, lookup (P, n) table = Some (mk_declared (P, n) (PSelection os) t) ->
    reads P (get n) True (S (P, n)).
  Proof.
    intros P n os t L. left. split; [exact Logic.I|]. unfold get, bind.
    destruct (reads_text _ _ _ L) as [[_ H]|[[] _]]; auto. rewrite H.
    pose proof (Hv _ _ L) as M. simpl in M. unfold S. destruct (v (P, n)); try discriminate. reflexivity.
  Qed.
  Lemma reads_string : forall P n t, lookup (P, n) table = Some (mk_declared (P, n) PAnything t) ->
    reads P (get n) True (S (P, n)).
  Proof.
    intros P n t L. left. split; [exact Logic.I|]. unfold get, bind.
    destruct (reads_text _ _ _ L) as [[_ H]|[[] _]]; auto. rewrite H.
    pose proof (Hv _ _ L) as M. simpl in M. unfold S. destruct (v (P, n)); try discriminate. reflexivity.
  Qed.
  Lemma S_options : forall P n os t, lookup (P, n) table = Some (mk_declared (P, n) (PSelection os) t) ->
    In (S (P, n)) os /\ v (P, n) = TStr (S (P, n)).
  Proof.
    intros P n os t L. pose proof (Hv _ _ L) as M. simpl in M. unfold S. destruct (v (P, n)); try discriminate.
    apply existsb_exists in M as [x [Hx Q]]. apply String.eqb_eq in Q. subst x. auto.
  Qed.

  Lemma Qltb_lt : forall a b, Qltb a b = true <-> (a < b)%Q.
  Proof.
    intros a b. unfold Qltb. destruct (Qle_bool b a) eqn:H; simpl.
    - apply Qle_bool_iff in H. split; [discriminate|]. intros L. exfalso. exact (Qlt_not_le _ _ L H).
    - split; auto. intros _. apply Qnot_le_lt. intros L. apply Qle_bool_iff in L. congruence.
  Qed.

  Ltac rd :=
    lazymatch goal with
    | |- reads _ (bind _ _) _ _ => eapply reads_bind; [rd | cbv beta; rd]
    | |- reads _ (inside _ _) _ _ => eapply reads_inside; cbn [app]; rd
    | |- reads _ (ret _) _ _ => apply reads_ret
    | |- reads _ (assert_throw _) _ _ => apply reads_assert
    | |- reads _ (assert_debug _ _) _ _ => apply reads_debug
    | |- reads _ (get_double _) _ _ =>
        first [ eapply reads_double; vm_compute; reflexivity
              | eapply reads_double_of_integer; vm_compute; reflexivity ]
    | |- reads _ (get_integer _) _ _ => eapply reads_integer; vm_compute; reflexivity
    | |- reads _ (get_bool _) _ _ => eapply reads_bool; vm_compute; reflexivity
    | |- reads _ (get _) _ _ =>
        first [ eapply reads_selection; vm_compute; reflexivity
              | eapply reads_string; vm_compute; reflexivity ]
    | |- _ => idtac
    end.

  Definition regularization_v (s : string) : regularization :=
    if String.eqb s "atan" then Atan else if String.eqb s "sqrt" then Sqrt
    else if String.eqb s "gd" then Gd else if String.eqb s "tanh" then Tanh else Erf.
  Lemma reads_regularization : forall P s, In s ["atan"; "sqrt"; "gd"; "tanh"; "erf"] ->
    reads P (regularization_of s) True (regularization_v s) /\ regularization_name (regularization_v s) = s.
  Proof. intros P s H; simpl in H; repeat (destruct H as [<-|H]; [split; [apply reads_ret|reflexivity]|]); destruct H. Qed.
  Definition damage_v (s : string) : damage_model := if String.eqb s "OrtizEtAl" then DamageOrtizEtAl else DamageM1.
  Lemma reads_damage_model : forall P s, In s ["OrtizEtAl"; "M1"] ->
    reads P (damage_model_of s) True (damage_v s) /\ damage_name (damage_v s) = s.
  Proof. intros P s H; simpl in H; repeat (destruct H as [<-|H]; [split; [apply reads_ret|reflexivity]|]); destruct H. Qed.
  Definition solver_v (s : string) : solver_type :=
    if String.eqb s "directsolver" then DirectSolver else if String.eqb s "cg" then CG else GMRES.
  Lemma reads_solver_type : forall P s, In s ["directsolver"; "cg"; "gmres"] ->
    reads P (solver_type_of s) True (solver_v s) /\ solver_name (solver_v s) = s.
  Proof. intros P s H; simpl in H; repeat (destruct H as [<-|H]; [split; [apply reads_ret|reflexivity]|]); destruct H. Qed.
  Definition gb_v (s : string) : gb_condition :=
    if String.eqb s "microhard" then Microhard else if String.eqb s "microfree" then Microfree else Microtraction.
  Lemma reads_gb : forall P s, In s ["microhard"; "microfree"; "microtraction"] ->
    reads P (gb_condition_of s) True (gb_v s) /\ gb_name (gb_v s) = s.
  Proof. intros P s H; simpl in H; repeat (destruct H as [<-|H]; [split; [apply reads_ret|reflexivity]|]); destruct H. Qed.
  Definition loading_v (s : string) : loading_type := if String.eqb s "monotonic" then Monotonic else Cyclic.
  Lemma reads_loading_type : forall P s, In s ["monotonic"; "cyclic"] ->
    reads P (loading_type_of s) True (loading_v s) /\ loading_name (loading_v s) = s.
  Proof. intros P s H; simpl in H; repeat (destruct H as [<-|H]; [split; [apply reads_ret|reflexivity]|]); destruct H. Qed.
  Definition control_v (s : string) : control :=
    if String.eqb s "load_control" then LoadControlled else DisplacementControlled.
  Lemma reads_control : forall P s, In s ["load_control"; "displacement_control"] ->
    reads P (control_of s) True (control_v s) /\ control_name (control_v s) = s.
  Proof. intros P s H; simpl in H; repeat (destruct H as [<-|H]; [split; [apply reads_ret|reflexivity]|]); destruct H. Qed.

  Ltac options := eapply proj1; eapply S_options; vm_compute; reflexivity.
  Ltac conds := repeat rewrite Qltb_lt; tauto.

  Let Hk := [Sol; Law; "Hooke-Law's parameters"].
  Definition hooke_v := mk_hooke_prm (N (Hk, "C1111")) (N (Hk, "C1122")) (N (Hk, "C1212")).
  Lemma reads_hooke : reads [Sol; Law] parse_hooke
    (0 < N (Hk, "C1111") /\ 0 < N (Hk, "C1122") /\ 0 < N (Hk, "C1212"))%Q hooke_v.
  Proof. eapply reads_iff; [unfold parse_hooke; rd | conds | reflexivity]. Qed.

  Let Sc := [Sol; Law; "Scalar microstress law's parameters"].
  Definition scalar_v := mk_scalar_prm (regularization_v (S (Sc, "Regularization function")))
    (N (Sc, "Regularization parameter")) (B (Sc, "Rate-independent behavior")).
  Lemma reads_scalar : reads [Sol; Law] parse_scalar (0 < N (Sc, "Regularization parameter"))%Q scalar_v.
  Proof.
    eapply reads_iff; [unfold parse_scalar; rd | | ].
    - apply reads_regularization; options.
    - conds.
    - reflexivity.
  Qed.

  Let Ve := [Sol; Law; "Vectorial microstress law's parameters"].
  Definition vectorial_v := mk_vectorial_prm (N (Ve, "Energetic length scale")) (N (Ve, "Initial slip resistance"))
    (N (Ve, "Defect energy index")) (N (Ve, "Regularization parameter")).
  Lemma reads_vectorial : reads [Sol; Law] parse_vectorial (0 < N (Ve, "Regularization parameter"))%Q vectorial_v.
  Proof. eapply reads_iff; [unfold parse_vectorial; rd | conds | reflexivity]. Qed.

  Let Co := [Sol; Law; "Cohesive law's parameters"].
  Definition cohesive_v := mk_cohesive_prm (N (Co, "Critical cohesive traction"))
    (N (Co, "Critical opening displacement")) (N (Co, "Tangential to normal stiffness ratio")).
  Lemma reads_cohesive : reads [Sol; Law] parse_cohesive True cohesive_v.
  Proof.
    eapply reads_iff; [unfold parse_cohesive; rd | | reflexivity].
    assert (H : In (S (Co, "Cohesive law model")) ["OrtizEtAl"]) by options.
    destruct H as [H|[]]. unfold Co in H. rewrite <- H.
    simpl. tauto.
  Qed.

  Let Ha := [Sol; Law; "Hardening law's parameters"].
  Definition hardening_v := mk_hardening_prm (N (Ha, "Initial slip resistance")) (N (Ha, "Linear hardening modulus"))
    (N (Ha, "Hardening parameter")) (B (Ha, "Perfect plasticity")).
  Lemma reads_hardening : forall debug, reads [Sol; Law] (parse_hardening debug)
    (debug = true -> N (Ha, "Initial slip resistance") == N (Ve, "Initial slip resistance"))%Q hardening_v.
  Proof.
    intros debug. eapply reads_iff; [unfold parse_hardening; rd | | reflexivity].
    simpl. rewrite Qeq_bool_iff. tauto.
  Qed.

  Let Da := [Sol; Law; "Damage evolution parameters"].
  Definition damage_prm_v := mk_damage_prm (damage_v (S (Da, "Damage evolution model")))
    (N (Da, "Damage accumulation constant")) (N (Da, "Damage decay constant")) (N (Da, "Damage decay exponent"))
    (N (Da, "Endurance limit")) (B (Da, "Set damage to zero")) (B (Da, "Couple microtraction to damage"))
    (B (Da, "Couple macrotraction to damage")).
  Lemma reads_damage : reads [Sol; Law] parse_damage True damage_prm_v.
  Proof.
    eapply reads_iff; [unfold parse_damage; rd | | ].
    - apply reads_damage_model; options.
    - tauto.
    - reflexivity.
  Qed.

  Definition laws_v := mk_laws_prm hooke_v scalar_v vectorial_v
    (N ([Sol; Law; "Microtraction law's parameters"], "Grain boundary modulus")) cohesive_v
    (N ([Sol; Law; "Contact law's parameters"], "Penalty coefficient")) hardening_v
    (N ([Sol; Law; "Degradation function parameters"], "Degradation exponent")) damage_prm_v.
  Lemma reads_laws : forall debug, reads [Sol] (parse_laws debug)
    ((0 < N (Hk, "C1111") /\ 0 < N (Hk, "C1122") /\ 0 < N (Hk, "C1212")) /\
     0 < N (Sc, "Regularization parameter") /\ 0 < N (Ve, "Regularization parameter") /\
     (debug = true -> N (Ha, "Initial slip resistance") == N (Ve, "Initial slip resistance")))%Q laws_v.
  Proof.
    intros debug. eapply reads_iff; [unfold parse_laws; eapply reads_inside | | ].
    - cbn [app].
      eapply reads_bind; [apply reads_hooke|]. eapply reads_bind; [apply reads_scalar|].
      eapply reads_bind; [apply reads_vectorial|].
      eapply reads_bind; [unfold parse_microtraction; rd|]. eapply reads_bind; [apply reads_cohesive|].
      eapply reads_bind; [unfold parse_contact; rd|]. eapply reads_bind; [apply reads_hardening|].
      eapply reads_bind; [unfold parse_degradation; rd|]. eapply reads_bind; [apply reads_damage|]. apply reads_ret.
    - tauto.
    - reflexivity.
  Qed.

  Let Di := [Sol; "Dimensionless formulation parameters"].
  Let Re := [Sol; "Dimensionless formulation parameters"; "Reference parameters"].
  Definition dimensionless_v :=
    if B (Di, "Solve the dimensionless problem") then
      mk_dimensionless_prm true (N (Re, "Reference length value")) (N (Re, "Reference time value"))
        (N (Re, "Reference displacement value")) (N (Re, "Reference stiffness value"))
        (N (Re, "Reference slip resistance value"))
    else mk_dimensionless_prm false 1 1 1 1 1.
  Lemma reads_dimensionless : reads [Sol] parse_dimensionless True dimensionless_v.
  Proof.
    unfold parse_dimensionless, dimensionless_v.
    eapply reads_iff; [eapply reads_inside; cbn [app]; eapply (reads_bind _ _ _ _ _ True True); [rd|cbv beta] | | intros _; reflexivity].
    - fold Di. destruct (B (Di, "Solve the dimensionless problem")).
      + eapply reads_iff; [rd | tauto | reflexivity].
      + apply reads_ret.
    - tauto.
  Qed.

  (** ** The nonlinear solvers *)
  Definition krylov_v (P : list string) :=
    let K := (P ++ ["Krylov parameters"])%list in
    mk_krylov_prm (solver_v (S (K, "Solver type"))) (N (K, "Relative tolerance")) (N (K, "Absolute tolerance"))
      (I (K, "Maximum number of iterations")).
  Definition newton_v (P : list string) :=
    let K := (P ++ ["Newton-Raphson parameters"])%list in
    mk_newton_prm (N (K, "Relative tolerance of the residual")) (N (K, "Absolute tolerance of the residual"))
      (N (K, "Absolute tolerance of the step")) (I (K, "Maximum number of iterations")) (B (K, "Line search algorithm")).
  Definition line_search_v (P : list string) :=
    let K := (P ++ ["Line search parameters"])%list in
    mk_line_search_prm (N (K, "Alpha condition constant")) (N (K, "Beta condition constant"))
      (I (K, "Maximum number of iterations")).
  Definition nonlinear_v P := mk_nonlinear_prm (krylov_v P) (newton_v P) (line_search_v P).
  Definition nonlinear_c (P : list string) : Prop :=
    let Ne := (P ++ ["Newton-Raphson parameters"])%list in
    let Li := (P ++ ["Line search parameters"])%list in
    let Kr := (P ++ ["Krylov parameters"])%list in
    (0 < N (Ne, "Absolute tolerance of the residual") < N (Ne, "Relative tolerance of the residual") /\
    0 < N (Kr, "Absolute tolerance") < N (Kr, "Relative tolerance") /\
    0 < N (Li, "Alpha condition constant") < N (Li, "Beta condition constant") /\
    N (Li, "Beta condition constant") < 1)%Q.
  Lemma reads_nonlinear : forall P, P = Mono \/ P = StagU \/ P = StagS ->
    reads P parse_nonlinear (nonlinear_c P) (nonlinear_v P).
  Proof.
    intros P HP.
    assert (Hkr : reads P parse_krylov
        (0 < N ((P ++ ["Krylov parameters"])%list, "Absolute tolerance") <
         N ((P ++ ["Krylov parameters"])%list, "Relative tolerance"))%Q (krylov_v P)).
    { destruct HP as [->|[->| ->]]; unfold Mono, StagU, StagS;
        (eapply reads_iff; [unfold parse_krylov; rd; [apply reads_solver_type; options] | | reflexivity]);
        cbn [app]; repeat rewrite Qltb_lt;
        (split; [tauto | intros [H1 H2]; repeat split; auto; exact (Qlt_trans _ _ _ H1 H2)]). }
    assert (Hne : reads P parse_newton
        (0 < N ((P ++ ["Newton-Raphson parameters"])%list, "Absolute tolerance of the residual") <
         N ((P ++ ["Newton-Raphson parameters"])%list, "Relative tolerance of the residual"))%Q (newton_v P)).
    { destruct HP as [->|[->| ->]]; unfold Mono, StagU, StagS;
        (eapply reads_iff; [unfold parse_newton; rd | | reflexivity]);
        cbn [app]; repeat rewrite Qltb_lt;
        (split; [tauto | intros [H1 H2]; repeat split; auto; exact (Qlt_trans _ _ _ H1 H2)]). }
    assert (Hli : reads P parse_line_search
        (0 < N ((P ++ ["Line search parameters"])%list, "Alpha condition constant") <
         N ((P ++ ["Line search parameters"])%list, "Beta condition constant") /\
         N ((P ++ ["Line search parameters"])%list, "Beta condition constant") < 1)%Q (line_search_v P)).
    { destruct HP as [->|[->| ->]]; unfold Mono, StagU, StagS;
        (eapply reads_iff; [unfold parse_line_search; rd | | reflexivity]);
        cbn [app]; repeat rewrite Qltb_lt; tauto. }
    eapply reads_iff; [unfold parse_nonlinear; eapply reads_bind; [exact Hkr|]; eapply reads_bind; [exact Hne|];
      eapply reads_bind; [exact Hli|]; apply reads_ret | | reflexivity].
    unfold nonlinear_c. tauto.
  Qed.

  Definition preconditioner_v (s : string) : preconditioner := if String.eqb s "built-in" then BuiltIn else Block.
  Definition monolithic_v := mk_monolithic_prm (nonlinear_v Mono) (preconditioner_v (S (Mono, "Monolithic preconditioner"))).
  Lemma reads_monolithic : forall debug, reads [Sol] (parse_monolithic debug)
    (nonlinear_c Mono /\ (debug = true -> S (Mono, "Monolithic preconditioner") = "built-in")) monolithic_v.
  Proof.
    intros debug. unfold parse_monolithic. eapply reads_inside; cbn [app].
    eapply reads_bind; [apply reads_nonlinear; auto|]. cbv beta.
    eapply reads_iff; [eapply (reads_bind _ _ _ _ _ True (debug = true -> S (Mono, "Monolithic preconditioner") = "built-in")); [rd|cbv beta] | | intros _; reflexivity].
    - change ([Sol; "Monolithic algorithm"]) with Mono. unfold monolithic_v.
      assert (H : In (S (Mono, "Monolithic preconditioner")) ["built-in"; "block"]) by options.
      destruct H as [H|[H|[]]]; rewrite <- H; cbn.
      + eapply reads_iff; [apply reads_ret | tauto | reflexivity].
      + eapply reads_iff; [rd | intuition congruence | reflexivity].
    - tauto.
  Qed.

  Definition staggered_v := mk_staggered_prm (nonlinear_v StagU) (nonlinear_v StagS)
    (I (Stag, "Maximum number of solution loops")) (B (Stag, "Reset trial solution at each micro loop")).
  Lemma reads_staggered : reads [Sol] parse_staggered (nonlinear_c StagU /\ nonlinear_c StagS) staggered_v.
  Proof.
    unfold parse_staggered. eapply reads_iff; [eapply reads_inside; cbn [app] | | ].
    - eapply reads_bind; [eapply reads_inside; cbn [app]; apply reads_nonlinear; auto|]. cbv beta.
      eapply reads_bind; [eapply reads_inside; cbn [app]; apply reads_nonlinear; auto|]. cbv beta. rd.
    - tauto.
    - reflexivity.
  Qed.

  Definition algorithm_v (s : string) : algorithm :=
    if String.eqb s "monolithic" then Monolithic else if String.eqb s "bouncing" then Bouncing else Embracing.
  Let s_alg := S ([Sol], "Solution algorithm").
  Definition algorithm_prm_v : algorithm * monolithic_prm * staggered_prm :=
    if String.eqb s_alg "monolithic" then (Monolithic, monolithic_v, default_staggered)
    else (algorithm_v s_alg, default_monolithic, staggered_v).
  Definition algorithm_c (debug : bool) : Prop :=
    (s_alg = "monolithic" -> nonlinear_c Mono /\ (debug = true -> S (Mono, "Monolithic preconditioner") = "built-in")) /\
    (s_alg <> "monolithic" -> nonlinear_c StagU /\ nonlinear_c StagS).
  Lemma s_alg_in : In s_alg ["monolithic"; "bouncing"; "embracing"].
  Proof. unfold s_alg. options. Qed.
  Lemma reads_algorithm : forall debug, reads [Sol] (parse_algorithm debug s_alg) (algorithm_c debug) algorithm_prm_v.
  Proof.
    intros debug. unfold algorithm_c, algorithm_prm_v. pose proof s_alg_in as H.
    destruct H as [H|[H|[H|[]]]]; rewrite <- H; cbn.
    - eapply reads_iff; [unfold parse_algorithm; cbn; eapply reads_bind; [apply reads_monolithic|]; apply reads_ret | | reflexivity].
      intuition congruence.
    - eapply reads_iff; [unfold parse_algorithm; cbn; eapply reads_bind; [apply reads_staggered|]; apply reads_ret | | reflexivity].
      intuition congruence.
    - eapply reads_iff; [unfold parse_algorithm; cbn; eapply reads_bind; [apply reads_staggered|]; apply reads_ret | | reflexivity].
      intuition congruence.
  Qed.

  Definition solver_prm_v := mk_solver_prm laws_v (fst (fst algorithm_prm_v)) (snd (fst algorithm_prm_v))
    (snd algorithm_prm_v) dimensionless_v (B ([Sol], "Allow decohesion at grain boundaries"))
    (gb_v (S ([Sol], "Boundary conditions at grain boundaries"))) (B ([Sol], "Skip extrapolation of start value"))
    (B ([Sol], "Skip extrapolation of start value at extrema")) (N ([Sol], "Extrapolation factor"))
    (B ([Sol], "Zero damage evolution during un- and loading")) (B ([Sol], "Print sparsity pattern"))
    (B ([Sol], "Output debug fields")) (B ([Sol], "Verbose")) (S ([Out], "Graphical output directory")).
  Definition laws_c (debug : bool) : Prop :=
    ((0 < N (Hk, "C1111") /\ 0 < N (Hk, "C1122") /\ 0 < N (Hk, "C1212")) /\
     0 < N (Sc, "Regularization parameter") /\ 0 < N (Ve, "Regularization parameter") /\
     (debug = true -> N (Ha, "Initial slip resistance") == N (Ve, "Initial slip resistance")))%Q.
  Lemma reads_solver : forall debug, reads [] (parse_solver debug) (laws_c debug /\ algorithm_c debug) solver_prm_v.
  Proof.
    intros debug. unfold parse_solver. eapply reads_iff; [eapply reads_bind; [eapply reads_inside; cbn [app]|cbv beta; rd] | | ].
    - eapply reads_bind; [apply reads_laws|]. cbv beta. eapply reads_bind; [rd|cbv beta].
      eapply reads_bind; [apply reads_algorithm|]. cbv beta. eapply reads_bind; [apply reads_dimensionless|]. cbv beta.
      eapply reads_bind; [rd|cbv beta]. eapply reads_bind; [rd|cbv beta].
      eapply reads_bind; [apply reads_gb; options|]. cbv beta. rd.
    - unfold laws_c. tauto.
    - reflexivity.
  Qed.

  (** ** The problem *)
  Definition temporal_v := mk_temporal_prm (N ([Tem], "Start time")) (N ([Tem], "End time")) (N ([Tem], "Time step size")).
  Definition temporal_c (debug : bool) : Prop := (debug = true ->
    N ([Tem], "Start time") < N ([Tem], "End time") /\ 0 < N ([Tem], "Time step size") /\
    N ([Tem], "Start time") + N ([Tem], "Time step size") <= N ([Tem], "End time"))%Q.
  Lemma N_at_least : forall P n q t, lookup (P, n) table = Some (mk_declared (P, n) (at_least q) t) -> (q <= N (P, n))%Q.
  Proof.
    intros P n q t L. pose proof (Hv _ _ L) as M. unfold at_least in M. cbn [matches d_pattern] in M. unfold N.
    destruct (as_double (v (P, n))); [|discriminate].
    unfold within in M. rewrite andb_true_r in M. apply Qle_bool_iff in M. exact M.
  Qed.
  Lemma reads_temporal : forall debug, reads [] (parse_temporal debug) (temporal_c debug) temporal_v.
  Proof.
    intros debug. unfold parse_temporal, temporal_c. eapply reads_iff; [rd | | reflexivity]. cbn [app].
    assert (H : (0 <= N ([Tem], "Start time"))%Q) by (eapply N_at_least; vm_compute; reflexivity).
    repeat rewrite Qltb_lt. repeat rewrite Qle_bool_iff. intuition auto.
  Qed.

  Let Lo := [Tem; "Simple loading"].
  Let Mo := [Tem; "Simple loading"; "Monotonic load parameters"].
  Let Cy := [Tem; "Simple loading"; "Cyclic load parameters"].
  Definition loading_prm_v := mk_loading_prm (loading_v (S (Lo, "Loading type"))) (N (Lo, "Maximum load"))
    (N (Lo, "Minimum load")) (N (Mo, "Duration of monotonic load")) (I (Mo, "Number of steps during monotonic load"))
    (N (Cy, "Duration of un- and loading phase")) (I (Cy, "Number of steps during un- and loading phase"))
    (I (Cy, "Number of cycles")) (N (Cy, "Period")) (I (Cy, "Number of steps during a quarter cycle"))
    (B (Cy, "Skip unloading phase")).
  Definition loading_c (debug : bool) : Prop := (debug = true ->
    0 < N (Mo, "Duration of monotonic load") /\ 0 < N (Cy, "Period") /\ N (Lo, "Minimum load") < N (Lo, "Maximum load"))%Q.
  Lemma reads_loading : forall debug, reads [] (parse_loading debug) (loading_c debug) loading_prm_v.
  Proof.
    intros debug. unfold parse_loading, loading_c. eapply reads_iff; [rd | | ].
    - apply reads_loading_type; options.
    - cbn [app]. repeat rewrite Qltb_lt. unfold Mo, Cy, Lo. cbn. intuition auto.
    - reflexivity.
  Qed.

  Definition spatial_v := mk_spatial_prm (I ([Spa], "Spatial dimension")) (I ([Spa], "FE's polynomial degree - Displacements"))
    (I ([Spa], "FE's polynomial degree - Slips")) (I ([Spa], "Number of global refinements"))
    (I ([Spa], "Mapping - Polynomial degree")) (B ([Spa], "Mapping - Apply to interior cells")).
  Definition spatial_c : Prop := I ([Spa], "Spatial dimension") = 2%Z \/ I ([Spa], "Spatial dimension") = 3%Z.
  Lemma reads_spatial : reads [] parse_spatial spatial_c spatial_v.
  Proof.
    unfold parse_spatial, spatial_c. eapply reads_iff; [rd | | reflexivity].
    cbn [app]. rewrite orb_true_iff, !Z.eqb_eq. tauto.
  Qed.

  Definition input_v := mk_input_prm (S ([Inp], "Slip normals path name")) (S ([Inp], "Slip directions path name"))
    (S ([Inp], "Euler angles path name")).
  Lemma reads_input : reads [] parse_input_prm True input_v.
  Proof. unfold parse_input_prm. eapply reads_iff; [rd | tauto | reflexivity]. Qed.

  Definition output_v := mk_output_prm (S ([Out], "Graphical output directory")) (I ([Out], "Graphical output frequency"))
    (I ([Out], "Terminal output frequency")) (B ([Out], "Output damage variable field"))
    (B ([Out], "Output fluctuations fields")) (B ([Out], "Output dimensionless quantities")).
  Definition output_c (w : world) : Prop :=
    w_exists w (S ([Out], "Graphical output directory") ++ "paraview/") = true \/
    w_mkdir w (S ([Out], "Graphical output directory") ++ "paraview/") = true.
  Lemma reads_output : forall w, reads [] (parse_output w) (output_c w) output_v.
  Proof.
    intros w. unfold parse_output, output_c. eapply reads_iff; [rd | | reflexivity].
    cbn [app]. rewrite orb_true_iff. tauto.
  Qed.

  Let Ho := ["5. Postprocessing parameters"; "Homogenization"].
  Definition homogenization_v := mk_homogenization_prm (I (Ho, "Homogenization frequency"))
    (B (Ho, "Compute homogenized quantities")).
  Definition basic_v (w : world) := mk_basic_prm spatial_v temporal_v (input_3d w (I ([Spa], "Spatial dimension")) input_v)
    output_v solver_prm_v homogenization_v (B ([], "Verbose")).
  Definition basic_c (debug : bool) (w : world) : Prop :=
    spatial_c /\ temporal_c debug /\ output_c w /\ laws_c debug /\ algorithm_c debug.
  Lemma reads_basic : forall debug w, reads [] (parse_basic debug w) (basic_c debug w) (basic_v w).
  Proof.
    intros debug w. unfold parse_basic, basic_c. eapply reads_iff.
    - eapply reads_bind; [apply reads_spatial|]. cbv beta. eapply reads_bind; [apply reads_temporal|]. cbv beta.
      eapply reads_bind; [apply reads_input|]. cbv beta. eapply reads_bind; [apply reads_output|]. cbv beta.
      eapply reads_bind; [apply reads_solver|]. cbv beta.
      eapply reads_bind; [unfold parse_homogenization; rd|cbv beta]. rd.
    - tauto.
    - reflexivity.
  Qed.

  Let Sp := [Spa; "Problem specific parameters"].
  Definition strip_v (w : world) := mk_strip_prm (basic_v w) loading_prm_v (N (Sp, "Height of the strip"))
    (I (Sp, "Number of elements in y-direction")) (I (Sp, "Number of equally sized crystals in y-direction"))
    (control_v (S (["0. Infinite strip parameters (Extended in 1. and 2.)"; "Loading parameters"], "Control type"))).
  Definition strip_c (debug : bool) (w : world) : Prop :=
    basic_c debug w /\ loading_c debug /\ (0 < N (Sp, "Height of the strip"))%Q.
  Lemma reads_strip : forall debug w, reads [] (parse_strip debug w) (strip_c debug w) (strip_v w).
  Proof.
    intros debug w. unfold parse_strip, strip_c. eapply reads_iff.
    - eapply reads_bind; [apply reads_basic|]. cbv beta. eapply reads_bind; [apply reads_loading|]. cbv beta. rd.
      apply reads_control; options.
    - cbn [app]. rewrite Qltb_lt. tauto.
    - intros _. unfold strip_v, to_unsigned. cbn. rewrite !Z.div_1_r. reflexivity.
  Qed.
End Reading.

(** ** From the file to the entries *)
Lemma in_force_typed : forall f, (forall k t, In (k, t) f -> exists d, lookup k table = Some d /\ matches (d_pattern d) t = true) ->
  forall k d, lookup k table = Some d -> matches (d_pattern d) (in_force f k) = true.
Proof.
  intros f H k d L. rewrite (in_force_lookup _ _ _ L). unfold value.
  destruct (last_assignment f k) as [t|] eqn:Q.
  - apply last_assignment_in in Q. destruct (H _ _ Q) as [d' [L' M]]. congruence.
  - apply lookup_key in L as [_ L]. exact (proj1 (Forall_forall _ _) table_defaults_match d L).
Qed.
Lemma well_formed_iff : forall f, well_formed f <->
  forall k t, In (k, t) f -> exists d, lookup k table = Some d /\ matches (d_pattern d) t = true.
Proof.
  intros f. split; intros H k t Hin; destruct (H k t Hin) as [x Hx].
  - destruct Hx as [H1 [<- H3]]. exists (mk_declared (doc_key x) (doc_pattern x) (doc_default x)).
    split; [apply lookup_manual; exact H1|exact H3].
  - destruct Hx as [L M]. pose proof (find_manual k) as F.
    destruct (find (fun e => key_eqb k (doc_key e)) manual) as [e|]; [|congruence].
    destruct F as [F1 [F2 F3]]. exists e. rewrite F3 in L. inversion L; subst x. auto.
Qed.

Definition copied (f : file) (E : list declared) : written :=
  Copy (S (in_force f) ([Out], "Graphical output directory") ++ "parameter_file.prm") (listing E).
Lemma construct_cases : forall debug w f,
  (well_formed f /\ exists E, parse_input table f = Ok E /\
     (forall k d, lookup k table = Some d -> lookup k E = Some (mk_declared k (d_pattern d) (in_force f k))) /\
     (forall k d, lookup k table = Some d -> matches (d_pattern d) (in_force f k) = true) /\
     ((strip_c (in_force f) debug w /\
       construct_strip debug w (Some f) = (Ok (strip_v (in_force f) w), Some (copied f E))) \/
      (~ strip_c (in_force f) debug w /\ construct_strip debug w (Some f) = (Throw, None)))) \/
  (~ well_formed f /\ construct_strip debug w (Some f) = (Throw, None)).
Proof.
  intros debug w f. unfold construct_strip. rewrite declared_table. cbn [h_entries].
  destruct (parse_input_cases f table) as [[E [HP [HM HL]]]|[HP [k [t [Hin Hno]]]]]; rewrite HP.
  - left. split; [apply well_formed_iff; exact HM|]. exists E. split; [reflexivity|].
    assert (HE : forall k d, lookup k table = Some d -> lookup k E = Some (mk_declared k (d_pattern d) (in_force f k))).
    { intros k d L. rewrite HL, L. cbn. rewrite (in_force_lookup _ _ _ L). apply lookup_key in L as [-> _]. reflexivity. }
    pose proof (in_force_typed f HM) as HT.
    split; [exact HE|split; [exact HT|]].
    destruct (reads_strip E (in_force f) HE HT debug w) as [[HC R]|[HC R]]; rewrite R; [left|right]; split; auto.
    assert (R' : reads E [] (inside "4. Output parameters" (get "Graphical output directory")) True
               (S (in_force f) ([Out], "Graphical output directory"))).
    { apply reads_inside. eapply reads_string; eauto. vm_compute; reflexivity. }
    destruct R' as [[_ R']|[[] _]]; auto. rewrite R'. reflexivity.
  - right. split; auto. intros W. apply well_formed_iff with (k := k) (t := t) in W; auto.
    destruct W as [d [L M]]. rewrite (Hno d L) in M. discriminate.
Qed.

(** ** C84: every parameter is the value of its entry *)
Section Fields.
  Variable v : key -> text.
  Variable w : world.
  Hypothesis Hv : forall k d, lookup k table = Some d -> matches (d_pattern d) (v k) = true.
  Lemma field_num : forall P n lo up t, lookup (P, n) table = Some (mk_declared (P, n) (PDouble lo up) t) ->
    denotes (v (P, n)) (TNum (N v (P, n))).
  Proof.
    intros P n lo up t L. pose proof (Hv _ _ L) as M. simpl in M. unfold denotes, N.
    destruct (as_double (v (P, n))); [reflexivity|discriminate].
  Qed.
  Lemma field_int : forall P n lo t, lookup (P, n) table = Some (mk_declared (P, n) (PInteger lo) t) ->
    denotes (v (P, n)) (TInt (I v (P, n))).
  Proof. intros P n lo t L. pose proof (Hv _ _ L) as M. simpl in M. unfold denotes, I. destruct (v (P, n)); try discriminate. reflexivity. Qed.
  Lemma field_bool : forall P n t, lookup (P, n) table = Some (mk_declared (P, n) PBool t) ->
    denotes (v (P, n)) (TBool (B v (P, n))).
  Proof. intros P n t L. pose proof (Hv _ _ L) as M. simpl in M. unfold denotes, B. destruct (v (P, n)); try discriminate. reflexivity. Qed.
  Lemma field_str : forall P n t, lookup (P, n) table = Some (mk_declared (P, n) PAnything t) ->
    denotes (v (P, n)) (TStr (S v (P, n))).
  Proof. intros P n t L. pose proof (Hv _ _ L) as M. simpl in M. unfold denotes, S. destruct (v (P, n)); try discriminate. reflexivity. Qed.
  Lemma field_name : forall (A : Type) (name : A -> string) (dec : string -> A) P n os t,
    lookup (P, n) table = Some (mk_declared (P, n) (PSelection os) t) ->
    (forall s, In s os -> name (dec s) = s) -> denotes (v (P, n)) (TStr (name (dec (S v (P, n))))).
  Proof.
    intros A name dec P n os t L H. destruct (S_options _ Hv _ _ _ _ L) as [H1 H2].
    unfold denotes. rewrite (H _ H1). exact H2.
  Qed.
  Ltac names := let x := fresh "x" in let H := fresh "H" in
    intros x H; simpl in H; repeat (destruct H as [<-|H]; [reflexivity|]); destruct H.
  Ltac field_tac :=
    first [ eapply field_num; vm_compute; reflexivity
          | eapply field_int; vm_compute; reflexivity
          | eapply field_bool; vm_compute; reflexivity
          | eapply field_str; vm_compute; reflexivity
          | eapply (field_name _ regularization_name regularization_v); [vm_compute; reflexivity|names]
          | eapply (field_name _ damage_name damage_v); [vm_compute; reflexivity|names]
          | eapply (field_name _ solver_name solver_v); [vm_compute; reflexivity|names]
          | eapply (field_name _ preconditioner_name preconditioner_v); [vm_compute; reflexivity|names]
          | eapply (field_name _ algorithm_name algorithm_v); [vm_compute; reflexivity|names]
          | eapply (field_name _ gb_name gb_v); [vm_compute; reflexivity|names]
          | eapply (field_name _ loading_name loading_v); [vm_compute; reflexivity|names]
          | eapply (field_name _ control_name control_v); [vm_compute; reflexivity|names] ].

  Definition field_ok (e : doc) : Prop := doc_used e (strip_v v w) = true ->
    match doc_field e with Some g => denotes (v (doc_key e)) (g (strip_v v w)) | None => True end.

  Lemma algorithm_of_v : sp_algorithm (solver_of (strip_v v w)) = algorithm_v (S v ([Sol], "Solution algorithm")) /\
    (is_monolithic (strip_v v w) = true -> sp_monolithic (solver_of (strip_v v w)) = monolithic_v v) /\
    (is_staggered (strip_v v w) = true -> sp_staggered (solver_of (strip_v v w)) = staggered_v v) /\
    (is_monolithic (strip_v v w) = false -> sp_monolithic (solver_of (strip_v v w)) = default_monolithic) /\
    (is_staggered (strip_v v w) = false -> sp_staggered (solver_of (strip_v v w)) = default_staggered).
  Proof.
    unfold is_staggered, is_monolithic, solver_of. cbn. unfold algorithm_prm_v, algorithm_v.
    destruct (String.eqb (S v ([Sol], "Solution algorithm")) "monolithic") eqn:Q.
    - cbn. repeat split; intros; congruence.
    - cbn. destruct (String.eqb (S v ([Sol], "Solution algorithm")) "bouncing") eqn:Q'; cbn; repeat split; intros; congruence.
  Qed.

  Lemma laws_ok : Forall field_ok law_docs.
  Proof.
    unfold law_docs. repeat (apply Forall_cons; [intros _; cbn|]); try apply Forall_nil; try field_tac.
    destruct (S_options v Hv [Sol; Law; "Cohesive law's parameters"] "Cohesive law model" ["OrtizEtAl"] (TStr "OrtizEtAl")) as [H1 H2];
      [vm_compute; reflexivity|]. destruct H1 as [H1|[]]. rewrite H2, <- H1. reflexivity.
  Qed.
  Lemma problem_ok : Forall field_ok problem_docs.
  Proof.
    unfold problem_docs. repeat (apply Forall_cons; [intros _; cbn|]); try apply Forall_nil; try exact Logic.I; field_tac.
  Qed.
  Lemma nonlinear_ok : forall P used s, P = Mono \/ P = StagU \/ P = StagS ->
    (used (strip_v v w) = true -> s (strip_v v w) = nonlinear_v v P) ->
    Forall field_ok (nonlinear_docs P used s).
  Proof.
    intros P used s HP Hs. unfold nonlinear_docs.
    destruct HP as [->|[->| ->]]; unfold Mono, StagU, StagS in *;
      repeat (apply Forall_cons;
        [intros U; cbn [doc_used doc_field doc_key num_field int_field bool_field str_field app] in *; rewrite (Hs U); cbn; field_tac|]);
      apply Forall_nil.
  Qed.
  Lemma solver_ok : Forall field_ok solver_docs.
  Proof.
    destruct algorithm_of_v as [A1 [A2 [A3 _]]].
    unfold solver_docs. repeat (apply Forall_app; split).
    - apply nonlinear_ok; auto. intros U. rewrite (A2 U). reflexivity.
    - apply Forall_cons; [|apply Forall_nil]. intros U. cbn [doc_field doc_key str_field]. rewrite (A2 U).
      cbn. field_tac.
    - apply nonlinear_ok; auto. intros U. rewrite (A3 U). reflexivity.
    - apply nonlinear_ok; auto. intros U. rewrite (A3 U). reflexivity.
    - apply Forall_cons. { intros U. cbn [doc_field doc_key int_field]. rewrite (A3 U). cbn. field_tac. }
      apply Forall_cons. { intros U. cbn [doc_field doc_key bool_field]. rewrite (A3 U). cbn. field_tac. }
      apply Forall_cons.
      { intros _. cbn [doc_field doc_key bool_field].
        replace (dl_on (sp_dimensionless (solver_of (strip_v v w)))) with
          (B v ([Sol; "Dimensionless formulation parameters"], "Solve the dimensionless problem")).
        - field_tac.
        - cbn. unfold dimensionless_v. destruct (B v _); reflexivity. }
      assert (D : is_dimensionless (strip_v v w) = true ->
        B v ([Sol; "Dimensionless formulation parameters"], "Solve the dimensionless problem") = true).
      { unfold is_dimensionless. cbn. unfold dimensionless_v. destruct (B v _); cbn; auto. }
      do 5 (apply Forall_cons; [intros U; cbn; unfold dimensionless_v; rewrite (D U); cbn; field_tac|]).
      apply Forall_cons. { intros _. cbn [doc_field doc_key str_field]. rewrite A1. field_tac. }
      repeat (apply Forall_cons; [intros _; cbn; field_tac|]). apply Forall_nil.
  Qed.
  Lemma manual_ok : Forall field_ok manual.
  Proof. unfold manual. apply Forall_app; split; [apply laws_ok|]. apply Forall_app; split; [apply solver_ok|apply problem_ok]. Qed.
End Fields.

