(** * The parameter file: what is read, what is accepted, what can be reproduced. *)
From Coq Require Import ZArith QArith String List Bool Lia Reals Qreals Lra.
From Verif Require Import Num ModelUtilities ModelLoading ModelSolver ModelParams SpecParams ProofParams ModelLineSearch SpecLineSearch PropLineSearch.
Import ListNotations.
Open Scope string_scope.

Lemma construct_ok : forall debug w f p out, construct_strip debug w (Some f) = (Ok p, out) ->
  well_formed f /\ (forall k d, lookup k table = Some d -> matches (d_pattern d) (in_force f k) = true) /\
  strip_c (in_force f) debug w /\ p = strip_v (in_force f) w /\
  exists E, parse_input table f = Ok E /\ out = Some (copied f E).
Proof.
  intros debug w f p out H. destruct (construct_cases debug w f) as [[W [E [HP [_ [HT [[HC R]|[HC R]]]]]]]|[W R]];
    rewrite R in H; inversion H. split; [exact W|]. split; [exact HT|]. split; [exact HC|]. split; [reflexivity|].
  exists E; auto.
Qed.

Theorem C84_parameters_are_the_file_values : forall debug w f p out,
  construct_strip debug w (Some f) = (Ok p, out) ->
  forall e g, In e manual -> doc_used e p = true -> doc_field e = Some g ->
  denotes (value f (doc_key e) (doc_default e)) (g p).
Proof.
  intros debug w f p out H e g He Hu Hg.
  destruct (construct_ok _ _ _ _ _ H) as [_ [HT [_ [-> _]]]].
  pose proof (proj1 (Forall_forall _ _) (manual_ok (in_force f) w HT) e He Hu) as F. rewrite Hg in F.
  rewrite (in_force_lookup f _ _ (lookup_manual e He)) in F. exact F.
Qed.

Theorem C84_unselected_algorithm_keeps_defaults : forall debug w f p out,
  construct_strip debug w (Some f) = (Ok p, out) ->
  (sp_algorithm (solver_of p) = Monolithic -> sp_staggered (solver_of p) = default_staggered) /\
  (sp_algorithm (solver_of p) <> Monolithic -> sp_monolithic (solver_of p) = default_monolithic).
Proof.
  intros debug w f p out H. destruct (construct_ok _ _ _ _ _ H) as [_ [_ [_ [-> _]]]].
  destruct (algorithm_of_v (in_force f) w) as [_ [_ [_ [A4 A5]]]].
  unfold is_staggered, is_monolithic in *. destruct (sp_algorithm _); split; intros Q; try congruence; auto.
Qed.

Lemma input_3d_cases : forall w z n d a,
  let use_3d := z = 3%Z /\ w_exists w (n ++ "_3d.txt") = true /\ w_exists w (d ++ "_3d.txt") = true /\
                w_exists w (a ++ "_3d.txt") = true in
  (use_3d -> input_3d w z (mk_input_prm n d a) = mk_input_prm (n ++ "_3d") (d ++ "_3d") (a ++ "_3d")) /\
  (~ use_3d -> input_3d w z (mk_input_prm n d a) = mk_input_prm n d a).
Proof.
  intros w z n d a. unfold input_3d. cbn [in_normals in_directions in_angles].
  destruct (Z.eqb_spec z 3) as [Q|Q];
    destruct (w_exists w (n ++ "_3d.txt")), (w_exists w (d ++ "_3d.txt")), (w_exists w (a ++ "_3d.txt"));
    cbn; split; intros U; try reflexivity; intuition congruence.
Qed.
Theorem C84_input_files : forall debug w f p out,
  construct_strip debug w (Some f) = (Ok p, out) ->
  exists n d a, says f ([Inp], "Slip normals path name") n /\ says f ([Inp], "Slip directions path name") d /\
    says f ([Inp], "Euler angles path name") a /\
    let use_3d := sd_dim (bp_spatial (ip_basic p)) = 3%Z /\ w_exists w (n ++ "_3d.txt") = true /\
                  w_exists w (d ++ "_3d.txt") = true /\ w_exists w (a ++ "_3d.txt") = true in
    (use_3d -> bp_input (ip_basic p) = mk_input_prm (n ++ "_3d") (d ++ "_3d") (a ++ "_3d")) /\
    (~ use_3d -> bp_input (ip_basic p) = mk_input_prm n d a).
Proof.
  intros debug w f p out H. destruct (construct_ok _ _ _ _ _ H) as [_ [HT [_ [-> _]]]].
  exists (S (in_force f) ([Inp], "Slip normals path name")), (S (in_force f) ([Inp], "Slip directions path name")),
    (S (in_force f) ([Inp], "Euler angles path name")).
  split; [|split; [|split]].
  1-3: (eapply (field_str (in_force f)); [exact HT|vm_compute; reflexivity]).
  change (bp_input (ip_basic (strip_v (in_force f) w))) with
    (input_3d w (I (in_force f) ([Spa], "Spatial dimension")) (input_v (in_force f))).
  change (sd_dim (bp_spatial (ip_basic (strip_v (in_force f) w)))) with (I (in_force f) ([Spa], "Spatial dimension")).
  unfold input_v. apply input_3d_cases.
Qed.

Theorem C84_unknown_or_out_of_range_rejected : forall debug w f k t, In (k, t) f ->
  (forall e, In e manual -> doc_key e = k -> matches (doc_pattern e) t = false) ->
  construct_strip debug w (Some f) = (Throw, None).
Proof.
  intros debug w f k t Hin Hno. destruct (construct_cases debug w f) as [[W _]|[_ R]]; [|exact R].
  destruct (W k t Hin) as [e [H1 [H2 H3]]]. rewrite (Hno e H1 H2) in H3. discriminate.
Qed.

(** Parameters depend on nothing but the values in force: not on the order of the entries, on
    overwritten assignments or on defaults spelled out. *)
Lemma strip_v_ext : forall v v' w, (forall k, v k = v' k) -> strip_v v w = strip_v v' w.
Proof.
  intros v v' w H. assert (N v = N v') as HN by (apply FunctionalExtensionality.functional_extensionality; intros k; unfold N; rewrite H; reflexivity).
  assert (v = v') by (apply FunctionalExtensionality.functional_extensionality; exact H). congruence.
Qed.
Theorem C84_only_values_in_force_matter : forall debug w f g, well_formed f -> well_formed g ->
  (forall e, In e manual -> value f (doc_key e) (doc_default e) = value g (doc_key e) (doc_default e)) ->
  fst (construct_strip debug w (Some f)) = fst (construct_strip debug w (Some g)).
Proof.
  intros debug w f g Wf Wg H.
  assert (Hfg : in_force f = in_force g).
  { apply FunctionalExtensionality.functional_extensionality. intros k. unfold in_force.
    pose proof (find_manual k) as F. destruct (find _ manual) as [e|]; auto.
    destruct F as [F1 [F2 _]]. subst k. apply H; exact F2. }
  destruct (construct_cases debug w f) as [[_ [E [_ [_ [_ Hf]]]]]|[Q _]]; [|contradiction].
  destruct (construct_cases debug w g) as [[_ [E' [_ [_ [_ Hg]]]]]|[Q _]]; [|contradiction].
  rewrite Hfg in Hf. destruct Hf as [[Cf ->]|[Cf ->]], Hg as [[Cg ->]|[Cg ->]]; try contradiction; reflexivity.
Qed.

(** ** C85: exactly which files are accepted *)
Lemma not_says : forall f s s', says f ([Sol], "Solution algorithm") s -> (says f ([Sol], "Solution algorithm") s' <-> s = s').
Proof. intros f s s' H. unfold says in *. rewrite H. split; congruence. Qed.
Lemma strip_c_iff : forall debug w f,
  (forall k d, lookup k table = Some d -> matches (d_pattern d) (in_force f k) = true) ->
  (strip_c (in_force f) debug w <-> demands w f /\ (debug = true -> debug_demands f)).
Proof.
  intros debug w f HT.
  assert (Halg : says f ([Sol], "Solution algorithm") (S (in_force f) ([Sol], "Solution algorithm"))).
  { unfold says. eapply proj2; eapply (S_options (in_force f) HT); vm_compute; reflexivity. }
  assert (Hpre : says f (Mono, "Monolithic preconditioner") (S (in_force f) (Mono, "Monolithic preconditioner"))).
  { unfold says. eapply proj2; eapply (S_options (in_force f) HT); vm_compute; reflexivity. }
  assert (Hpre' : says f (Mono, "Monolithic preconditioner") "built-in" <-> S (in_force f) (Mono, "Monolithic preconditioner") = "built-in").
  { unfold says in *. rewrite Hpre. split; congruence. }
  assert (Hdir : says f ([Out], "Graphical output directory") (S (in_force f) ([Out], "Graphical output directory"))).
  { eapply (field_str (in_force f)); [exact HT|vm_compute; reflexivity]. }
  assert (Hdim : in_force f ([Spa], "Spatial dimension") = TInt (I (in_force f) ([Spa], "Spatial dimension"))).
  { eapply (field_int (in_force f)); [exact HT|vm_compute; reflexivity]. }
  assert (Hdirs : output_c (in_force f) w <-> (forall d, says f ([Out], "Graphical output directory") d ->
     w_exists w (d ++ "paraview/") = true \/ w_mkdir w (d ++ "paraview/") = true)).
  { unfold output_c. split.
    - intros H d Hd. unfold says in *. rewrite Hdir in Hd. inversion Hd. exact H.
    - intros H. apply H. exact Hdir. }
  assert (Hdims : spatial_c (in_force f) <-> (in_force f ([Spa], "Spatial dimension") = TInt 2 \/ in_force f ([Spa], "Spatial dimension") = TInt 3)).
  { unfold spatial_c. rewrite Hdim. split; intros [H|H]; [left|right|left|right]; congruence. }
  unfold strip_c, basic_c, laws_c, temporal_c, loading_c, algorithm_c, demands, debug_demands.
  rewrite Hdims, Hdirs, Hpre'. rewrite !(not_says f _ "monolithic" Halg).
  change (nonlinear_c (in_force f)) with (nonlinear_demands f). change (N (in_force f)) with (number f).
  generalize (nonlinear_demands f Mono), (nonlinear_demands f StagU), (nonlinear_demands f StagS).
  generalize (number f). intros n P1 P2 P3.
  assert (HM : S (in_force f) ([Sol], "Solution algorithm") = "monolithic" \/ ~ S (in_force f) ([Sol], "Solution algorithm") = "monolithic")
    by (destruct (string_dec (S (in_force f) ([Sol], "Solution algorithm")) "monolithic"); auto).
  assert (HD : debug = true \/ ~ debug = true) by (destruct debug; [left; reflexivity|right; discriminate]).
  revert HM HD.
  generalize (S (in_force f) ([Sol], "Solution algorithm") = "monolithic"), (debug = true),
    (S (in_force f) (Mono, "Monolithic preconditioner") = "built-in"),
    (in_force f ([Spa], "Spatial dimension") = TInt 2 \/ in_force f ([Spa], "Spatial dimension") = TInt 3),
    (forall d, says f ([Out], "Graphical output directory") d -> w_exists w (d ++ "paraview/") = true \/ w_mkdir w (d ++ "paraview/") = true).
  clear. intros M D PB SD OD HM HD.
  repeat match goal with
  | |- context [(?a < ?b)%Q] => generalize (a < b)%Q; intro
  | |- context [(?a <= ?b)%Q] => generalize (a <= b)%Q; intro
  | |- context [(?a == ?b)%Q] => generalize (a == b)%Q; intro
  end.
  destruct HM, HD; tauto.
Qed.

Theorem C85_accepted_iff : forall debug w f,
  ((exists p out, construct_strip debug w (Some f) = (Ok p, out)) <->
   well_formed f /\ demands w f /\ (debug = true -> debug_demands f)) /\
  ((exists p out, construct_strip debug w (Some f) = (Ok p, out)) \/ construct_strip debug w (Some f) = (Throw, None)).
Proof.
  intros debug w f. destruct (construct_cases debug w f) as [[W [E [_ [_ [HT H]]]]]|[W R]].
  - pose proof (strip_c_iff debug w f HT) as HC. destruct H as [[C R]|[C R]]; rewrite R.
    + split; [|left; eauto]. split; [|eauto]. intros _. split; [exact W|]. apply HC; exact C.
    + split; [|right; reflexivity]. split; [intros [p [out H]]; discriminate|]. intros [_ H]. exfalso. apply C, HC, H.
  - rewrite R. split; [|right; reflexivity]. split; [intros [p [out H]]; discriminate|]. intros [H _]. contradiction.
Qed.

(** The empty file is accepted as soon as the output directory can be created, in both kinds of
    build. *)
Theorem C85_defaults_accepted : forall debug w,
  (w_exists w "results/default/paraview/" = true \/ w_mkdir w "results/default/paraview/" = true) ->
  exists p out, construct_strip debug w (Some []) = (Ok p, out).
Proof.
  intros debug w Hw. apply C85_accepted_iff. split; [intros k t []|]. split.
  - unfold demands, nonlinear_demands, says.
    repeat match goal with |- context [in_force [] ?k] =>
      let t := eval vm_compute in (in_force [] k) in change (in_force [] k) with t end.
    repeat match goal with |- context [number [] ?k] =>
      let t := eval vm_compute in (number [] k) in change (number [] k) with t end.
    repeat split; try reflexivity; auto; try (intros; exfalso; congruence).
    + intros d Hd. inversion Hd. subst d. exact Hw.
  - intros _. unfold debug_demands, says.
    repeat match goal with |- context [in_force [] ?k] =>
      let t := eval vm_compute in (in_force [] k) in change (in_force [] k) with t end.
    repeat match goal with |- context [number [] ?k] =>
      let t := eval vm_compute in (number [] k) in change (number [] k) with t end.
    repeat split; try reflexivity; unfold Qle; simpl; lia.
Qed.

Section Bounds.
  Variable v : key -> text.
  Hypothesis Hv : forall k d, lookup k table = Some d -> matches (d_pattern d) (v k) = true.
  Lemma I_at_least : forall P n z t, lookup (P, n) table = Some (mk_declared (P, n) (PInteger z) t) -> (z <= I v (P, n))%Z.
  Proof.
    intros P n z t L. pose proof (Hv _ _ L) as M. cbn [matches d_pattern] in M. unfold I.
    destruct (v (P, n)); try discriminate. apply andb_true_iff in M as [M _]. apply Z.leb_le in M. exact M.
  Qed.
  Lemma nonlinear_admissible : forall P, P = Mono \/ P = StagU \/ P = StagS -> nonlinear_c v P ->
    admissible_solver (nonlinear_v v P).
  Proof.
    intros P HP [H1 [H2 [H3 H4]]]. unfold admissible_solver. cbn [nl_newton nl_krylov nl_line_search nonlinear_v].
    split; [exact H1|]. split; [|split; [exact H2|split; [|split; [exact H3|split; [exact H4|]]]]].
    - destruct HP as [->|[->| ->]]; eapply I_at_least; vm_compute; reflexivity.
    - destruct HP as [->|[->| ->]]; eapply I_at_least; vm_compute; reflexivity.
    - destruct HP as [->|[->| ->]]; eapply I_at_least; vm_compute; reflexivity.
  Qed.
  Lemma default_admissible : admissible_solver default_nonlinear.
  Proof. unfold admissible_solver. cbn. repeat split; unfold Qlt; simpl; lia. Qed.
  Lemma strip_admissible : forall debug w, strip_c v debug w -> admissible (strip_v v w).
  Proof.
    intros debug w [[Hs [_ [_ [[Hh [Hsc [Hve _]]] Ha]]]] [_ Hhe]].
    destruct (algorithm_of_v v w) as [A1 [A2 [A3 [A4 A5]]]].
    assert (HM : is_monolithic (strip_v v w) = true <-> S v ([Sol], "Solution algorithm") = "monolithic").
    { unfold is_monolithic. rewrite A1. unfold algorithm_v.
      destruct (String.eqb_spec (S v ([Sol], "Solution algorithm")) "monolithic") as [Q|Q]; [tauto|].
      destruct (String.eqb _ "bouncing"); split; intros; congruence. }
    destruct Ha as [Ha1 Ha2].
    unfold admissible. split; [exact Hh|]. split; [exact Hsc|].
    split.
    { split; [eapply N_at_least; [exact Hv|vm_compute; reflexivity]|].
      split; [eapply N_at_least; [exact Hv|vm_compute; reflexivity]|].
      split; [eapply N_at_least; [exact Hv|vm_compute; reflexivity]|exact Hve]. }
    split; [eapply N_at_least; [exact Hv|vm_compute; reflexivity]|].
    split.
    { split; [eapply N_at_least; [exact Hv|vm_compute; reflexivity]|].
      split; (eapply N_at_least; [exact Hv|vm_compute; reflexivity]). }
    split; [eapply N_at_least; [exact Hv|vm_compute; reflexivity]|].
    split; [eapply N_at_least; [exact Hv|vm_compute; reflexivity]|].
    split.
    { split; [eapply N_at_least; [exact Hv|vm_compute; reflexivity]|].
      split; (eapply N_at_least; [exact Hv|vm_compute; reflexivity]). }
    split.
    { split; [eapply N_at_least; [exact Hv|vm_compute; reflexivity]|].
      split; [eapply N_at_least; [exact Hv|vm_compute; reflexivity]|].
      split; (eapply N_at_least; [exact Hv|vm_compute; reflexivity]). }
    split.
    { destruct (is_monolithic (strip_v v w)) eqn:Q.
      - rewrite (A2 eq_refl). apply nonlinear_admissible; auto. apply Ha1. tauto.
      - rewrite (A4 eq_refl). exact default_admissible. }
    split.
    { destruct (is_monolithic (strip_v v w)) eqn:Q; unfold is_staggered in *; rewrite Q in *.
      - rewrite (A5 eq_refl). exact default_admissible.
      - rewrite (A3 eq_refl). apply (nonlinear_admissible StagU); auto. apply Ha2. intros H. apply HM in H. discriminate. }
    split.
    { destruct (is_monolithic (strip_v v w)) eqn:Q; unfold is_staggered in *; rewrite Q in *.
      - rewrite (A5 eq_refl). exact default_admissible.
      - rewrite (A3 eq_refl). apply (nonlinear_admissible StagS); auto. apply Ha2. intros H. apply HM in H. discriminate. }
    split.
    { destruct (is_monolithic (strip_v v w)) eqn:Q; unfold is_staggered in *; rewrite Q in *.
      - rewrite (A5 eq_refl). cbn. lia.
      - rewrite (A3 eq_refl). eapply I_at_least; vm_compute; reflexivity. }
    split; [exact Hs|].
    split; [split; (eapply I_at_least; vm_compute; reflexivity)|].
    split; [exact Hhe|].
    split; [eapply I_at_least; vm_compute; reflexivity|].
    split; [eapply I_at_least; vm_compute; reflexivity|].
    split; [eapply I_at_least; vm_compute; reflexivity|].
    split; [eapply I_at_least; vm_compute; reflexivity|].
    split; (eapply I_at_least; vm_compute; reflexivity).
  Qed.
End Bounds.
Theorem C85_accepted_parameters_are_admissible : forall debug w f p out,
  construct_strip debug w (Some f) = (Ok p, out) -> admissible p.
Proof.
  intros debug w f p out H. destruct (construct_ok _ _ _ _ _ H) as [_ [HT [HC [-> _]]]].
  exact (strip_admissible (in_force f) HT debug w HC).
Qed.

(** ** C86: the copy in the output directory reproduces the parameters *)
Lemma map_replace : forall A (g : declared -> A) k t es,
  (forall d t, g (mk_declared (d_key d) (d_pattern d) t) = g d) -> map g (replace k t es) = map g es.
Proof.
  induction es as [|e es IH]; intros H; simpl; auto. destruct (key_eqb k (d_key e)); simpl; [rewrite H|rewrite IH]; auto.
Qed.
Lemma parse_input_keys : forall f es E, parse_input es f = Ok E -> map d_key E = map d_key es.
Proof.
  induction f as [|[k t] f IH]; intros es E H; simpl in H; [inversion H; reflexivity|].
  unfold set_entry in H. destruct (lookup _ es) as [d|]; simpl in H; [|discriminate].
  destruct (matches _ _); simpl in H; [|discriminate]. apply IH in H. rewrite H. apply map_replace; reflexivity.
Qed.
Lemma lookup_nodup : forall es d, NoDup (map d_key es) -> In d es -> lookup (d_key d) es = Some d.
Proof.
  induction es as [|e es IH]; intros d ND Hd; [destruct Hd|]. destruct Hd as [->|Hin]; unfold lookup; simpl.
  - rewrite key_eqb_refl. reflexivity.
  - inversion ND; subst. rewrite key_eqb_neq.
    + apply IH; auto.
    + intros Q. apply H1. rewrite <- Q. apply in_map. exact Hin.
Qed.
Lemma entries_ext : forall E E', map d_key E = map d_key E' -> NoDup (map d_key E) ->
  (forall d, In d E -> lookup (d_key d) E' = Some d) -> E' = E.
Proof.
  induction E as [|e E IH]; intros [|e' E'] K ND H; try discriminate; auto.
  simpl in K. inversion K as [[K1 K2]]. pose proof (H e (or_introl eq_refl)) as He.
  unfold lookup in He; simpl in He. rewrite K1, key_eqb_refl in He. inversion He; subst e'. f_equal.
  inversion ND; subst. apply IH; auto. intros d Hd. specialize (H d (or_intror Hd)).
  unfold lookup in H; simpl in H. rewrite key_eqb_neq in H; auto.
  intros Q. apply H2. rewrite <- Q. apply in_map. exact Hd.
Qed.
Lemma last_assignment_listing : forall E d, NoDup (map d_key E) -> In d E -> last_assignment (listing E) (d_key d) = Some (d_text d).
Proof.
  induction E as [|e E IH]; intros d ND Hd; [destruct Hd|]. destruct Hd as [->|Hin]; simpl; inversion ND; subst.
  - destruct (last_assignment (listing E) (d_key d)) eqn:Q; [|rewrite key_eqb_refl; reflexivity].
    apply last_assignment_in in Q. exfalso. apply H1. unfold listing in Q. apply in_map_iff in Q as [x [Qx Hx]].
    injection Qx as Q1 Q2. rewrite <- Q1. apply in_map. exact Hx.
  - rewrite (IH d H2 Hin). reflexivity.
Qed.
Lemma table_nodup : NoDup (map d_key table).
Proof.
  assert (H : forall l : list key, (fix nd (l : list key) : bool :=
      match l with [] => true | k :: l => negb (existsb (key_eqb k) l) && nd l end) l = true -> NoDup l).
  { induction l as [|k l IH]; intros H; constructor; apply andb_true_iff in H as [H1 H2]; auto.
    intros Hin. apply negb_true_iff in H1. assert (existsb (key_eqb k) l = true) by
      (apply existsb_exists; exists k; split; [exact Hin|apply key_eqb_refl]). congruence. }
  apply H. vm_compute. reflexivity.
Qed.
Lemma reparse : forall f E, parse_input table f = Ok E -> parse_input table (listing E) = Ok E.
Proof.
  intros f E HP. pose proof (parse_input_keys _ _ _ HP) as HK.
  assert (ND : NoDup (map d_key E)) by (rewrite HK; exact table_nodup).
  destruct (parse_input_cases f table) as [[E0 [HP0 [HM HL]]]|[HP0 _]]; [|congruence].
  assert (E0 = E) by congruence; subst E0.
  assert (HD : forall d, In d E -> exists d0, lookup (d_key d) table = Some d0 /\ d_key d0 = d_key d /\
             d_pattern d0 = d_pattern d /\ matches (d_pattern d0) (d_text d) = true).
  { intros d Hd. pose proof (lookup_nodup E d ND Hd) as L. rewrite HL in L.
    destruct (lookup (d_key d) table) as [d0|] eqn:L0; [|discriminate]. exists d0. split; [reflexivity|].
    cbn in L. assert (Q : d_key d0 = d_key d) by (apply lookup_key in L0; tauto).
    pose proof (in_force_typed f HM _ _ L0) as T. rewrite (in_force_lookup f _ _ L0) in T.
    injection L as L1.
    assert (P1 : d_pattern d0 = d_pattern d) by (rewrite <- L1; reflexivity).
    assert (T1 : d_text d = value f (d_key d) (d_text d0)) by (rewrite <- L1 at 1; reflexivity).
    rewrite T1. auto. }
  destruct (parse_input_cases (listing E) table) as [[E' [HP' [_ HL']]]|[HP' [k [t [Hin Hno]]]]].
  - rewrite HP'. f_equal. apply entries_ext; [|exact ND|].
    + rewrite HK. symmetry. exact (parse_input_keys _ _ _ HP').
    + intros d Hd. destruct (HD d Hd) as [d0 [L0 [K0 [P0 _]]]]. rewrite HL', L0. cbn.
      unfold value. rewrite (last_assignment_listing E d ND Hd). rewrite K0, P0. destruct d; reflexivity.
  - exfalso. unfold listing in Hin. apply in_map_iff in Hin as [d [Q Hd]]. inversion Q; subst.
    destruct (HD d Hd) as [d0 [L0 [_ [_ M0]]]]. rewrite (Hno d0 L0) in M0. discriminate.
Qed.

Definition after_input (debug : bool) (w : world) (es : list declared) : result strip_prm * option written :=
  match parse_strip debug w (mk_handler [] es) with
  | Ok (p, h) =>
      match inside "4. Output parameters" (get "Graphical output directory") h with
      | Ok (d, h) => (Ok p, Some (Copy (d ++ "parameter_file.prm") (listing (h_entries h))))
      | Throw => (Throw, None)
      | UB => (UB, None)
      end
  | Throw => (Throw, None)
  | UB => (UB, None)
  end.
Lemma construct_some : forall debug w f E, parse_input table f = Ok E ->
  construct_strip debug w (Some f) = after_input debug w E.
Proof.
  intros debug w f E H. unfold construct_strip. rewrite declared_table. cbn [h_entries]. rewrite H. reflexivity.
Qed.
Lemma ou_directory_v : forall v w, ou_directory (bp_output (ip_basic (strip_v v w))) = S v ([Out], "Graphical output directory").
Proof. reflexivity. Qed.

Theorem C86_copy_reproduces_the_run : forall debug w f p name g,
  construct_strip debug w (Some f) = (Ok p, Some (Copy name g)) ->
  construct_strip debug w (Some g) = (Ok p, Some (Copy name g)) /\
  name = ou_directory (bp_output (ip_basic p)) ++ "parameter_file.prm".
Proof.
  intros debug w f p name g H.
  destruct (construct_ok _ _ _ _ _ H) as [_ [_ [_ [HPp [E [HP HO]]]]]]. unfold copied in HO.
  injection HO as Hn Hg. split.
  - rewrite (construct_some _ _ _ _ HP) in H. rewrite Hg in *.
    rewrite (construct_some debug w (listing E) E (reparse f E HP)). exact H.
  - rewrite HPp, ou_directory_v. exact Hn.
Qed.
Lemma construct_none : forall debug w, construct_strip debug w None = (Throw, Some (Template (listing table))).
Proof. intros. unfold construct_strip. rewrite declared_table. reflexivity. Qed.
Theorem C86_template_has_the_defaults : forall debug w,
  exists t, construct_strip debug w None = (Throw, Some (Template t)) /\
    (forall e, In e manual -> last_assignment t (doc_key e) = Some (doc_default e)) /\
    construct_strip debug w (Some t) = construct_strip debug w (Some []).
Proof.
  intros debug w. exists (listing table). rewrite construct_none.
  split; [reflexivity|]. split.
  - intros e He. pose proof (lookup_manual e He) as L. apply lookup_key in L as [_ L].
    exact (last_assignment_listing table _ table_nodup L).
  - assert (H0 : parse_input table [] = Ok table) by reflexivity.
    transitivity (after_input debug w table);
      [exact (construct_some _ _ _ _ (reparse [] table H0))|symmetry; exact (construct_some _ _ _ _ H0)].
Qed.

(** ** What a release build lets through *)
Definition gaps : file :=
  [ (([Sol; Law; "Hooke-Law's parameters"], "C1111"), TNum 1);
    (([Sol; Law; "Hooke-Law's parameters"], "C1122"), TNum 2);
    (([Sol; Law; "Cohesive law's parameters"], "Critical opening displacement"), TNum 0);
    (([Sol; Law; "Hardening law's parameters"], "Initial slip resistance"), TNum 10);
    (([Sol; "Monolithic algorithm"; "Line search parameters"], "Alpha condition constant"), TNum (3 # 5));
    (([Sol; "Monolithic algorithm"], "Monolithic preconditioner"), TStr "block");
    (([Sol; "Dimensionless formulation parameters"], "Solve the dimensionless problem"), TBool true);
    (([Sol; "Dimensionless formulation parameters"; "Reference parameters"], "Reference length value"), TNum 0);
    (([Out], "Graphical output frequency"), TInt 0);
    (([Tem; "Simple loading"], "Loading type"), TStr "cyclic");
    (([Tem; "Simple loading"], "Maximum load"), TNum 0);
    (([Tem; "Simple loading"], "Minimum load"), TNum 1);
    (([Tem; "Simple loading"; "Cyclic load parameters"], "Duration of un- and loading phase"), TNum 0);
    (([Tem; "Simple loading"; "Cyclic load parameters"], "Period"), TNum 0) ].
Lemma gaps_well_formed : well_formed gaps.
Proof.
  apply well_formed_iff. intros k t H.
  assert (G : forallb (fun a => match lookup (fst a) table with Some d => matches (d_pattern d) (snd a) | None => false end) gaps = true)
    by (vm_compute; reflexivity).
  rewrite forallb_forall in G. specialize (G _ H). cbn [fst snd] in G.
  destruct (lookup k table) as [d|]; [exists d; auto|discriminate].
Qed.
Ltac compute_values f :=
  repeat match goal with |- context [in_force f ?k] =>
    let t := eval vm_compute in (in_force f k) in change (in_force f k) with t end;
  repeat match goal with |- context [number f ?k] =>
    let t := eval vm_compute in (number f k) in change (number f k) with t end.
Theorem C85_release_gaps_refuted : forall w,
  (w_exists w "results/default/paraview/" = true \/ w_mkdir w "results/default/paraview/" = true) ->
  exists f p out, construct_strip false w (Some f) = (Ok p, out) /\
    (* unstable elasticity (C23), division by zero in the cohesive law (C30), disagreeing resistances *)
    (hk_1111 (lw_hooke (laws_of p)) < hk_1122 (lw_hooke (laws_of p)))%Q /\
    (co_opening (lw_cohesive (laws_of p)) == 0)%Q /\
    ~ (hd_resistance (lw_hardening (laws_of p)) == vm_resistance (lw_vectorial (laws_of p)))%Q /\
    (* a sufficient decrease no full step can achieve, an unimplemented preconditioner *)
    (1 # 2 < lp_alpha (nl_line_search (mo_solver (sp_monolithic (solver_of p)))))%Q /\
    mo_preconditioner (sp_monolithic (solver_of p)) = Block /\
    (* division by zero in the dimensionless form and in the output loop (C55) *)
    dl_on (sp_dimensionless (solver_of p)) = true /\ (dl_length (sp_dimensionless (solver_of p)) == 0)%Q /\
    ou_graphical (bp_output (ip_basic p)) = 0%Z /\
    (* a loading programme that takes no time, with the extrema exchanged *)
    lo_type (ip_loading p) = Cyclic /\ (lo_duration (ip_loading p) == 0)%Q /\ (lo_period (ip_loading p) == 0)%Q /\
    (lo_max (ip_loading p) < lo_min (ip_loading p))%Q /\
    (* a debug build stops *)
    construct_strip true w (Some f) = (Throw, None).
Proof.
  intros w Hw.
  assert (HD : demands w gaps).
  { unfold demands, nonlinear_demands, says. compute_values gaps.
    repeat split; try reflexivity; auto; try (intros; exfalso; congruence).
    intros d Hd. inversion Hd. subst d. exact Hw. }
  assert (HC : exists p out, construct_strip false w (Some gaps) = (Ok p, out)).
  { apply C85_accepted_iff. split; [exact gaps_well_formed|]. split; [exact HD|discriminate]. }
  destruct HC as [p [out HC]]. exists gaps, p, out. split; [exact HC|].
  destruct (construct_ok _ _ _ _ _ HC) as [_ [_ [_ [HP _]]]].
  assert (HT : construct_strip true w (Some gaps) = (Throw, None)).
  { destruct (C85_accepted_iff true w gaps) as [[H1 _] [H2|H2]]; [|exact H2].
    exfalso. destruct (H1 H2) as [_ [_ H3]]. specialize (H3 eq_refl). unfold debug_demands in H3.
    destruct H3 as [_ [_ [_ [_ [H3 _]]]]]. vm_compute in H3. discriminate. }
  rewrite HP. repeat (split; [vm_compute; reflexivity|]).
  split; [vm_compute; discriminate|].
  repeat (split; [vm_compute; reflexivity|]). exact HT.
Qed.

(** With such a constant the line search accepts no full Newton step, not even onto the exact
    solution. *)
Local Open Scope R_scope.
Theorem C85_large_alpha_excludes_full_steps : forall obj fuel s f0 s' l f,
  1 / 2 <= alpha s -> 0 <= f0 -> 0 <= f ->
  line_search obj fuel (reinit s (Fin f0)) = Some (s', Fin l, Fin f) ->
  (n_iterations s' <= n_max s)%nat -> 0 < l < 1.
Proof.
  intros obj fuel s f0 s' l f Ha Hf0 Hf H Hn.
  destruct (C03_accepted_step_satisfies_armijo obj fuel s f0 s' l f H Hn) as [A [L1 L2]].
  split; [exact L1|]. destruct (Rle_lt_dec 1 l) as [Q|Q]; [|exact Q]. exfalso.
  assert (l = 1) by lra. subst l. assert ((1 - 2 * alpha s * 1) * f0 <= 0).
  { assert (0 <= (2 * alpha s - 1) * f0) by (apply Rmult_le_pos; lra). lra. }
  lra.
Qed.

(** The hypotheses are met: a file that selects the staggered algorithm, refines the mesh and
    assigns one entry twice. *)
Definition sample_file : file :=
  [ (([Sol], "Solution algorithm"), TStr "embracing");
    (([Sol; Law; "Hooke-Law's parameters"], "C1111"), TNum 100000);
    (([Spa; "Problem specific parameters"], "Number of elements in y-direction"), TInt 64);
    (([Sol; "Staggered algorithm"; "Pseudo-balance"; "Krylov parameters"], "Solver type"), TStr "gmres");
    (([Sol; Law; "Hooke-Law's parameters"], "C1111"), TNum 134615) ].
Example C84_example : exists p out,
  construct_strip true (mk_world (fun _ => true) (fun _ => true)) (Some sample_file) = (Ok p, out) /\
  sp_algorithm (solver_of p) = Embracing /\ hk_1111 (lw_hooke (laws_of p)) = 134615%Q /\ ip_elements p = 64%Z /\
  kp_type (nl_krylov (st_micro (sp_staggered (solver_of p)))) = GMRES /\
  kp_type (nl_krylov (st_macro (sp_staggered (solver_of p)))) = CG.
Proof. eexists _, _. split; [vm_compute; reflexivity|]. repeat split. Qed.
Example C84_rejection_example :
  construct_strip false (mk_world (fun _ => true) (fun _ => true))
    (Some [(([Sol], "Solution algorithm"), TStr "staggered")]) = (Throw, None) /\
  construct_strip false (mk_world (fun _ => true) (fun _ => true))
    (Some [(([Tem], "Solution algorithm"), TStr "bouncing")]) = (Throw, None).
Proof. split; vm_compute; reflexivity. Qed.

Print Assumptions C84_parameters_are_the_file_values.
Print Assumptions C84_unselected_algorithm_keeps_defaults.
Print Assumptions C84_input_files.
Print Assumptions C84_unknown_or_out_of_range_rejected.
Print Assumptions C84_only_values_in_force_matter.
Print Assumptions C85_accepted_iff.
Print Assumptions C85_defaults_accepted.
Print Assumptions C85_accepted_parameters_are_admissible.
Print Assumptions C85_release_gaps_refuted.
Print Assumptions C85_large_alpha_excludes_full_steps.
Print Assumptions C86_copy_reproduces_the_run.
Print Assumptions C86_template_has_the_defaults.
