(** * C57, C58, C67: file comparison, logger, crystal-data reader. *)
From Coq Require Import ZArith String Ascii.
From Flocq Require Import Core.
From Verif Require Import Num ModelIO SpecIO.
Open Scope R_scope.

(** ** C57 *)
Lemma std_equal_spec : forall a b, String.length a = String.length b ->
  exists r, std_equal a b = Ok r /\ (r = true <-> a = b).
Proof.
  induction a as [|x a IH]; intros [|y b] H; simpl in *; try discriminate.
  - exists true. split; [reflexivity|]. split; reflexivity.
  - destruct (Ascii.eqb_spec x y) as [->|Ne].
    + destruct (IH b) as (r & E & I); [congruence|]. exists r. split; [exact E|].
      rewrite I. split; [intros ->; reflexivity|intros X; injection X as X; exact X].
    + exists false. split; [reflexivity|]. split; [discriminate|]. intros X. injection X as X _. contradiction.
Qed.
(** The answer is always defined, and it is true iff both files are readable and have the
    same bytes. *)
Theorem C57_true_iff_same_bytes : forall fs a b,
  exists r, files_are_identical fs a b = Ok r /\
    (r = true <-> exists content, fs a = Some content /\ fs b = Some content).
Proof.
  intros fs a b. unfold files_are_identical.
  destruct (fs a) as [x|] eqn:Ea; destruct (fs b) as [y|] eqn:Eb.
  - destruct (Nat.eqb_spec (String.length x) (String.length y)) as [L|L].
    + destruct (std_equal_spec x y L) as (r & E & I). exists r. split; [exact E|]. rewrite I. split.
      * intros ->. exists y. auto.
      * intros (c & A & B). congruence.
    + exists false. split; [reflexivity|]. split; [discriminate|]. intros (c & A & B).
      exfalso. apply L. congruence.
  - exists false. split; [reflexivity|]. split; [discriminate|]. intros (c & A & B). discriminate.
  - exists false. split; [reflexivity|]. split; [discriminate|]. intros (c & A & B). discriminate.
  - exists false. split; [reflexivity|]. split; [discriminate|]. intros (c & A & B). discriminate.
Qed.
Example C57_example :
  let fs := fun n => if String.eqb n "a" then Some "xy"%string
                     else if String.eqb n "b" then Some "xyz"%string else None in
  files_are_identical fs "a" "a" = Ok true /\ files_are_identical fs "a" "b" = Ok false /\
  files_are_identical fs "a" "missing" = Ok false.
Proof. repeat split. Qed.

(** ** C58 *)
Lemma run_log_spec : forall os l used,
  (forall k, data_map l k <> None <-> In k used) ->
  (exists l', run_log l os = Ok l') <-> fresh_declarations os used.
Proof.
  induction os as [|[k f|k v] os IH]; intros l used Hu; simpl.
  - split; eauto.
  - unfold declare_column. destruct (data_map l k) as [e|] eqn:E; simpl.
    + split; [intros (l' & H); discriminate|]. intros [N _]. exfalso. apply N, Hu. congruence.
    + rewrite (IH _ (k :: used)).
      * split; [|tauto]. intros H. split; [|exact H]. intros I. apply Hu in I. congruence.
      * intros k'. simpl. unfold set_entry. destruct (String.eqb_spec k' k) as [->|Ne].
        -- split; [auto|congruence].
        -- rewrite Hu. split; [auto|]. intros [H|H]; congruence.
  - rewrite (IH _ (k :: used)); [reflexivity|].
    intros k'. simpl. unfold set_entry. destruct (String.eqb_spec k' k) as [->|Ne].
    + split; [auto|congruence].
    + rewrite Hu. split; [auto|]. intros [H|H]; congruence.
Qed.

(** A sequence of calls is accepted iff no column is declared after its name has been used:
    in particular duplicates are rejected. *)
Theorem C58_accepted_iff_names_are_fresh : forall os,
  (exists l, run_log new_logger os = Ok l) <-> fresh_declarations os [].
Proof. intros os. apply run_log_spec. intros k; simpl; tauto. Qed.
Theorem C58_otherwise_an_exception : forall os l,
  (forall l', run_log l os <> Ok l') -> run_log l os = Throw.
Proof.
  induction os as [|[k f|k v] os IH]; intros l H; simpl in *.
  - exfalso. apply (H l). reflexivity.
  - unfold declare_column in *. destruct (data_map l k); simpl in *; [reflexivity|]. apply IH, H.
  - apply IH, H.
Qed.

(** State after an accepted sequence. *)
Lemma run_log_state : forall os l l',
  run_log l os = Ok l' ->
  keys_order l' = keys_order l ++ declared os /\
  (forall k, data_map l k = None -> In k (declared os) ->
     exists f, declared_format os k = Some f /\ data_map l' k = Some (last_value os k 0, f)) /\
  (forall k v f, data_map l k = Some (v, f) ->
     data_map l' k = Some (last_value os k v, f) /\ ~ In k (declared os)) /\
  NoDup (declared os).
Proof.
  induction os as [|[k f|k v] os IH]; intros l l' H; simpl in H.
  - injection H as <-. split; [rewrite app_nil_r; reflexivity|]. split; [intros k _ []|].
    split; [intros k v f E; split; [exact E|intros []]|constructor].
  - unfold declare_column in H. destruct (data_map l k) as [e|] eqn:E; simpl in H; [discriminate|].
    destruct (IH _ _ H) as (A & B & C & D). simpl in A, B, C.
    split; [rewrite A, <- app_assoc; reflexivity|].
    assert (Hk : set_entry (data_map l) k (0, f) k = Some (0, f))
      by (unfold set_entry; rewrite String.eqb_refl; reflexivity).
    destruct (C k 0 f Hk) as [Ck Nk].
    split; [|split; [|constructor; assumption]].
    + intros k' Hn Hin. simpl. destruct (String.eqb_spec k k') as [<-|Ne].
      * exists f. split; [reflexivity|exact Ck].
      * destruct Hin as [|Hin]; [contradiction|]. apply B; [|exact Hin].
        unfold set_entry. destruct (String.eqb_spec k' k); congruence.
    + intros k' v' f' E'. simpl. assert (Ne : k' <> k) by congruence.
      assert (Hs : set_entry (data_map l) k (0, f) k' = Some (v', f')).
      { unfold set_entry. destruct (String.eqb_spec k' k); [contradiction|exact E']. }
      destruct (C k' v' f' Hs) as [C1 C2]. split; [exact C1|].
      intros [X|X]; [congruence|contradiction].
  - destruct (IH _ _ H) as (A & B & C & D). simpl in A, B, C.
    split; [exact A|]. split; [|split; [|exact D]].
    + intros k' Hn Hin. simpl. destruct (String.eqb_spec k k') as [<-|Ne].
      * exfalso. destruct (C k v Integer) as [_ X]; [|contradiction].
        unfold set_entry. rewrite String.eqb_refl, Hn. reflexivity.
      * apply B; [|exact Hin]. unfold set_entry. destruct (String.eqb_spec k' k); congruence.
    + intros k' v' f' E'. simpl. destruct (String.eqb_spec k k') as [<-|Ne].
      * apply C. unfold set_entry. rewrite String.eqb_refl, E'. reflexivity.
      * apply C. unfold set_entry. destruct (String.eqb_spec k' k); [congruence|exact E'].
Qed.

Lemma Ztrunc_spec v : -1 < v ->
  (0 <= v -> IZR (Ztrunc v) <= v < IZR (Ztrunc v) + 1) /\ (v <= 0 -> Ztrunc v = 0%Z).
Proof.
  intros H. split; intros Hv.
  - rewrite Ztrunc_floor by exact Hv. split; [apply Zfloor_lb|apply Zfloor_ub].
  - rewrite Ztrunc_ceil by exact Hv. apply Zceil_imp. simpl. lra.
Qed.

(** After any accepted sequence of calls, headers and rows list every declared column
    exactly once, in order of declaration, with the last value set (0 if none) in the
    declared format - provided the values of Integer columns fit an unsigned int. *)
Theorem C58_rows_show_the_declared_columns : forall os l,
  run_log new_logger os = Ok l ->
  log_headers l = declared os /\ NoDup (declared os) /\
  ((forall k, In k (declared os) -> declared_format os k = Some Integer ->
      -1 < last_value os k 0 < 2 ^ 32) ->
   exists cells, log_row l = Ok cells /\
     Forall2 (fun k c => exists f, declared_format os k = Some f /\
                           cell_of k f (last_value os k 0) c) (declared os) cells).
Proof.
  intros os l H. destruct (run_log_state os new_logger l H) as (A & B & _ & D). simpl in A, B.
  split; [exact A|]. split; [exact D|]. intros HI.
  unfold log_row. rewrite A.
  assert (G : forall ks, (forall k, In k ks -> In k (declared os)) ->
    exists cells, print_row l ks = Ok cells /\
      Forall2 (fun k c => exists f, declared_format os k = Some f /\
                           cell_of k f (last_value os k 0) c) ks cells).
  { induction ks as [|k ks IH]; intros Hin; [exists []; split; [reflexivity|constructor]|].
    destruct IH as (cs & E & F); [intros; apply Hin; right; assumption|].
    assert (Hk : In k (declared os)) by (apply Hin; left; reflexivity).
    destruct (B k eq_refl Hk) as (f & Ef & Em).
    cbn [print_row]. unfold print_cell. rewrite Em. destruct f; cbn [rbind].
    - destruct (HI k Hk Ef) as [H1 H2]. apply Rltb_true in H1 as H1'. apply Rltb_true in H2 as H2'.
      rewrite H1', H2'. cbn [andb rbind]. rewrite E. cbn [rbind]. eexists. split; [reflexivity|].
      constructor; [|exact F]. exists Integer. split; [exact Ef|]. simpl. eexists. split; [reflexivity|].
      apply Ztrunc_spec, H1.
    - rewrite E. cbn [rbind]. eexists. split; [reflexivity|]. constructor; [|exact F].
      exists Decimal. split; [exact Ef|reflexivity].
    - rewrite E. cbn [rbind]. eexists. split; [reflexivity|]. constructor; [|exact F].
      exists Scientific. split; [exact Ef|reflexivity]. }
  apply G. auto.
Qed.

(** A negative value in an Integer column is undefined behaviour. *)
Theorem C58_negative_integers_refuted :
  exists os l, run_log new_logger os = Ok l /\ log_row l = UB.
Proof.
  exists [Declare "Iteration" Integer; Update "Iteration" (-2)]%string.
  eexists. split; [reflexivity|]. unfold log_row; cbn -[Rltb].
  assert (X : Rltb (-1) (-2) = false) by (apply Rltb_false; lra).
  unfold print_cell; cbn -[Rltb]. rewrite X. reflexivity.
Qed.
Example C58_example :
  let os := [Declare "Step" Integer; Declare "Residual" Scientific; Update "Residual" (1/2);
             Update "Step" 3; Update "Residual" (1/4)]%string in
  fresh_declarations os [] /\ declared os = ["Step"; "Residual"]%string /\
  last_value os "Residual" 0 = 1 / 4 /\
  ~ fresh_declarations (os ++ [Declare "Step"%string Decimal])%list [].
Proof.
  cbn [fresh_declarations declared last_value app In String.eqb Ascii.eqb Bool.eqb].
  repeat split; try (intros [H|H]; try discriminate; tauto); try tauto.
Qed.

(** ** C67 *)
Lemma append_assoc a b c : ((a ++ b) ++ c = a ++ (b ++ c))%string.
Proof. induction a as [|x a IH]; simpl; [reflexivity|rewrite IH; reflexivity]. Qed.
Lemma append_nil a : (a ++ "" = a)%string.
Proof. induction a as [|x a IH]; simpl; [reflexivity|rewrite IH; reflexivity]. Qed.
Lemma free_append d a b : free_of d a -> free_of d b -> free_of d (a ++ b).
Proof. induction a as [|c a IH]; simpl; [auto|]. intros [H1 H2] H. split; auto. Qed.
Lemma last_cons_ne {A} (a x : A) l : l <> [] -> last (a :: l) x = last l x.
Proof. destruct l; [congruence|reflexivity]. Qed.

Lemma getlines_aux_sound d : forall s cur, free_of d cur ->
  splits d (cur ++ s) (getlines_aux d s cur).
Proof.
  induction s as [|c s IH]; intros cur Hc; simpl.
  - rewrite append_nil. destruct cur as [|x cur].
    + split; [intros p []|]. left. split; [reflexivity|discriminate].
    + split; [intros p [<-|[]]; exact Hc|]. left. split; [reflexivity|discriminate].
  - destruct (Ascii.eqb_spec c d) as [->|Ne].
    + destruct (IH EmptyString I) as [F S]. simpl in S.
      split; [intros p [<-|H]; auto|].
      destruct (getlines_aux d s EmptyString) as [|q qs] eqn:G.
      * right. split; [discriminate|]. simpl. destruct S as [[-> _]|[N _]]; [reflexivity|congruence].
      * destruct S as [[-> L]|[_ ->]].
        -- left. split; [reflexivity|]. rewrite last_cons_ne by discriminate. exact L.
        -- right. split; [discriminate|]. change (join d (cur :: q :: qs)) with (cur ++ String d (join d (q :: qs)))%string.
           rewrite append_assoc. reflexivity.
    + specialize (IH (cur ++ String c EmptyString)%string).
      rewrite append_assoc in IH. apply IH. apply free_append; [exact Hc|]. simpl; auto.
Qed.
Lemma getlines_piece d : forall p s cur, free_of d p ->
  getlines_aux d (p ++ String d s) cur = (cur ++ p)%string :: getlines_aux d s EmptyString.
Proof.
  induction p as [|c p IH]; intros s cur H; simpl.
  - rewrite Ascii.eqb_refl, append_nil. reflexivity.
  - destruct H as [H1 H2]. destruct (Ascii.eqb_spec c d); [contradiction|].
    rewrite IH by exact H2. rewrite append_assoc. reflexivity.
Qed.
Lemma getlines_last d : forall p cur, free_of d p ->
  getlines_aux d p cur = match (cur ++ p)%string with EmptyString => [] | x => [x] end.
Proof.
  induction p as [|c p IH]; intros cur H; simpl.
  - rewrite append_nil. destruct cur; reflexivity.
  - destruct H as [H1 H2]. destruct (Ascii.eqb_spec c d); [contradiction|].
    rewrite IH by exact H2. rewrite append_assoc. reflexivity.
Qed.
Lemma getlines_complete d : forall ps, (forall p, In p ps -> free_of d p) ->
  (last ps "x"%string <> EmptyString -> getlines d (join d ps) = ps) /\
  (ps <> [] -> getlines d (join d ps ++ String d EmptyString) = ps).
Proof.
  induction ps as [|p ps IH]; intros F.
  - split; [reflexivity|congruence].
  - assert (Fp : free_of d p) by (apply F; left; reflexivity).
    destruct IH as [I1 I2]; [intros; apply F; right; assumption|].
    destruct ps as [|q ps].
    + split; intros H; simpl.
      * unfold getlines. rewrite getlines_last by exact Fp. simpl. simpl in H. destruct p; congruence.
      * unfold getlines. rewrite getlines_piece by exact Fp. reflexivity.
    + change (join d (p :: q :: ps)) with (p ++ String d (join d (q :: ps)))%string. split; intros H.
      * unfold getlines. rewrite getlines_piece by exact Fp. simpl. f_equal. apply I1.
        rewrite last_cons_ne in H by discriminate. exact H.
      * rewrite append_assoc. unfold getlines. simpl (String d _ ++ _)%string.
        rewrite getlines_piece by exact Fp. simpl. f_equal. apply I2. discriminate.
Qed.
(** The getline loop splits the text at the delimiter. *)
Lemma getlines_splits d s ps : getlines d s = ps <-> splits d s ps.
Proof.
  split.
  - intros <-. apply (getlines_aux_sound d s EmptyString I).
  - intros [F [[-> L]|[N ->]]]; apply getlines_complete; assumption.
Qed.

Lemma read_components_spec stod dim : forall ps acc v,
  (length acc + length ps <= dim)%nat ->
  (read_components stod dim ps acc = Ok v <->
   exists rs, v = acc ++ rs /\ map stod ps = map (@Some R) rs) /\
  (read_components stod dim ps acc <> UB).
Proof.
  induction ps as [|p ps IH]; intros acc v Hl; simpl in *.
  - split; [|discriminate]. split.
    + intros H. injection H as <-. exists []. rewrite app_nil_r. auto.
    + intros (rs & -> & H). destruct rs; [|discriminate]. rewrite app_nil_r. reflexivity.
  - destruct (stod p) as [r|] eqn:E.
    + destruct (Nat.ltb_spec (length acc) dim); [|lia].
      destruct (IH (acc ++ [r]) v) as [I1 I2]; [rewrite app_length; simpl; lia|].
      split; [|exact I2]. rewrite I1. split.
      * intros (rs & -> & H0). exists (r :: rs). rewrite <- app_assoc. simpl. rewrite H0. auto.
      * intros (rs & -> & H0). destruct rs as [|r' rs]; simpl in H0; [discriminate|].
        injection H0 as -> H0. exists rs. rewrite <- app_assoc. auto.
    + split; [|discriminate]. split; [discriminate|]. intros (rs & _ & H). destruct rs; discriminate.
Qed.
Lemma read_components_long stod dim : forall ps acc v,
  read_components stod dim ps acc = Ok v -> (length acc + length ps <= dim)%nat \/ ps = [].
Proof.
  induction ps as [|p ps IH]; intros acc v H; [right; reflexivity|left]. simpl in *.
  destruct (stod p) as [r|]; [|discriminate]. destruct (Nat.ltb_spec (length acc) dim); [|discriminate].
  apply IH in H. destruct H as [H| ->]; [rewrite app_length in H; simpl in H; lia|simpl; lia].
Qed.
Lemma read_line_spec stod dim euler line v :
  read_line stod dim euler line = Ok v <-> line_holds stod (required_components dim euler) line v.
Proof.
  unfold read_line, line_holds. split.
  - intros H. destruct (read_components stod dim (getlines comma line) []) as [w| |] eqn:E; simpl in H; try discriminate.
    destruct (Nat.eqb_spec (length w) (required_components dim euler)) as [L|]; [|discriminate].
    injection H as ->. split; [exact L|]. exists (getlines comma line).
    split; [apply getlines_splits; reflexivity|].
    destruct (read_components_long _ _ _ _ _ E) as [Hl|Hl].
    + destruct (read_components_spec stod dim (getlines comma line) [] v) as [S _]; [exact Hl|].
      apply S in E. destruct E as (rs & -> & E). exact E.
    + rewrite Hl in *. simpl in E. injection E as <-. reflexivity.
  - intros (L & ps & S & M). apply getlines_splits in S. rewrite S.
    assert (Hl : length ps = length v) by (rewrite <- (map_length stod), M, map_length; reflexivity).
    assert (RD : (required_components dim euler <= dim)%nat).
    { unfold required_components. destruct euler; simpl; [|lia]. destruct (Nat.eqb_spec dim 2); lia. }
    destruct (read_components_spec stod dim ps [] v) as [I1 _]; [simpl; lia|].
    rewrite (proj2 I1) by (exists v; auto). simpl. rewrite L, Nat.eqb_refl. reflexivity.
Qed.
Lemma read_lines_spec stod dim euler : forall ls acc vs,
  read_lines stod dim euler ls acc = Ok vs <->
  exists ws, vs = acc ++ ws /\
    Forall2 (line_holds stod (required_components dim euler)) (leading ls) ws.
Proof.
  induction ls as [|l ls IH]; intros acc vs; simpl.
  - split.
    + intros H. injection H as <-. exists []. rewrite app_nil_r. auto.
    + intros (ws & -> & F). inversion F. rewrite app_nil_r. reflexivity.
  - destruct (blank l).
    + split.
      * intros H. injection H as <-. exists []. rewrite app_nil_r. auto.
      * intros (ws & -> & F). inversion F. rewrite app_nil_r. reflexivity.
    + destruct (read_line stod dim euler l) as [v| |] eqn:E; simpl.
      * rewrite IH. apply read_line_spec in E. split.
        -- intros (ws & -> & F). exists (v :: ws). rewrite <- app_assoc. split; [reflexivity|]. constructor; assumption.
        -- intros (ws & -> & F). inversion F as [|a b c w Hv Hw]; subst.
           apply read_line_spec in E, Hv. assert (b = v) by congruence. subst b.
           exists w. rewrite <- app_assoc. auto.
      * split; [discriminate|]. intros (ws & -> & F). inversion F as [|a b c w Hv Hw]; subst.
        apply read_line_spec in Hv. congruence.
      * split; [discriminate|]. intros (ws & -> & F). inversion F as [|a b c w Hv Hw]; subst.
        apply read_line_spec in Hv. congruence.
Qed.

(** Reading a file returns [vs] iff the file is well-formed and [vs] are the numbers of its
    lines before the first blank one: one entry per line, with exactly the required number
    of components (appended to what was there). *)
Theorem C67_reads_exactly_the_file : forall stod dim euler content acc out,
  read_and_store stod dim euler content acc = Ok out <->
  exists vs, out = acc ++ vs /\ file_holds stod (required_components dim euler) content vs.
Proof.
  intros stod dim euler content acc out. unfold read_and_store, file_holds. rewrite read_lines_spec.
  split.
  - intros (ws & -> & F). exists ws. split; [reflexivity|]. exists (getlines newline content).
    split; [apply getlines_splits; reflexivity|exact F].
  - intros (vs & -> & ls & S & F). apply getlines_splits in S. rewrite S. exists vs. auto.
Qed.

(** Initialisation succeeds iff all three files exist and are well-formed, there is one
    orientation per crystal and as many normals as directions. *)
Theorem C67_initialisation : forall stod fs dim n_crystals o d n e' d' n',
  read_and_store_data stod fs dim n_crystals o d n [] [] [] = Ok (e', d', n') <->
  (exists c, fs (o ++ ".txt")%string = Some c /\ file_holds stod (required_components dim true) c e') /\
  (exists c, fs (d ++ ".txt")%string = Some c /\ file_holds stod dim c d') /\
  (exists c, fs (n ++ ".txt")%string = Some c /\ file_holds stod dim c n') /\
  length e' = n_crystals /\ length n' = length d'.
Proof.
  intros stod fs dim nc o d n e' d' n'. unfold read_and_store_data, open_and_read.
  assert (R : forall euler c out, read_and_store stod dim euler c [] = Ok out <->
                file_holds stod (required_components dim euler) c out).
  { intros. rewrite C67_reads_exactly_the_file.
    split; [intros (vs & -> & H); exact H|intros H; exists out; auto]. }
  split.
  - intros H. destruct (fs (o ++ ".txt")%string) as [c1|]; simpl in H; [|discriminate].
    destruct (read_and_store stod dim true c1 []) as [e| |] eqn:E1; simpl in H; try discriminate.
    destruct (Nat.eqb_spec (length e) nc) as [L1|]; [|discriminate].
    destruct (fs (d ++ ".txt")%string) as [c2|]; simpl in H; [|discriminate].
    destruct (read_and_store stod dim false c2 []) as [dd| |] eqn:E2; simpl in H; try discriminate.
    destruct (fs (n ++ ".txt")%string) as [c3|]; simpl in H; [|discriminate].
    destruct (read_and_store stod dim false c3 []) as [nn| |] eqn:E3; simpl in H; try discriminate.
    destruct (Nat.eqb_spec (length nn) (length dd)) as [L2|]; [|discriminate].
    injection H as <- <- <-. apply R in E1, E2, E3. repeat split; eauto.
  - intros ((c1 & F1 & H1) & (c2 & F2 & H2) & (c3 & F3 & H3) & L1 & L2).
    apply R in H1. rewrite F1, F2, F3, H1. cbn [rbind]. rewrite L1, Nat.eqb_refl.
    rewrite (proj2 (R false c2 d')) by exact H2. cbn [rbind].
    rewrite (proj2 (R false c3 n')) by exact H3. cbn [rbind].
    rewrite L2, Nat.eqb_refl. reflexivity.
Qed.

(** A malformed file is reported by an exception if no line has more than [dim] fields. *)
Lemma read_lines_no_UB stod dim euler : forall ls acc,
  (forall l, In l (leading ls) -> (length (getlines comma l) <= dim)%nat) ->
  read_lines stod dim euler ls acc <> UB.
Proof.
  induction ls as [|l ls IH]; intros acc H; simpl; [discriminate|].
  simpl in H. destruct (blank l); [discriminate|].
  unfold read_line. destruct (read_components_spec stod dim (getlines comma l) [] []) as [_ N];
    [simpl; apply H; left; reflexivity|].
  destruct (read_components stod dim (getlines comma l) []) as [w| |]; simpl; [|discriminate|congruence].
  destruct (Nat.eqb _ _); simpl; [|discriminate]. apply IH. intros; apply H; right; assumption.
Qed.
Theorem C67_malformed_files_throw_partial : forall stod dim euler content acc,
  (forall l, In l (leading (getlines newline content)) -> (length (getlines comma l) <= dim)%nat) ->
  (forall vs, ~ file_holds stod (required_components dim euler) content vs) ->
  read_and_store stod dim euler content acc = Throw.
Proof.
  intros stod dim euler content acc HL HN.
  pose proof (read_lines_no_UB stod dim euler (getlines newline content) acc HL) as U.
  fold (read_and_store stod dim euler content acc) in U.
  destruct (read_and_store stod dim euler content acc) as [out| |] eqn:E; [|reflexivity|congruence].
  apply C67_reads_exactly_the_file in E. destruct E as (vs & _ & H). exfalso. apply (HN vs H).
Qed.
(** With too many fields a release build writes beyond the tensor before it notices. *)
Definition digit (s : string) : option R :=
  if String.eqb s "1" then Some 1 else if String.eqb s "0" then Some 0 else None.
Theorem C67_too_many_fields_refuted :
  exists content, (forall vs, ~ file_holds digit 2 content vs) /\
    read_and_store digit 2 false content [] = UB.
Proof.
  exists "1,0,1"%string. split; [|reflexivity]. intros vs H.
  assert (E : read_and_store digit 2 false "1,0,1" [] = Ok ([] ++ vs)).
  { apply C67_reads_exactly_the_file. exists vs. auto. }
  discriminate.
Qed.
(** Initialising twice appends: the orientations no longer match the crystals. *)
Theorem C67_second_initialisation_throws : forall stod fs dim nc o d n e' d' n',
  (0 < nc)%nat ->
  read_and_store_data stod fs dim nc o d n [] [] [] = Ok (e', d', n') ->
  read_and_store_data stod fs dim nc o d n e' d' n' = Throw.
Proof.
  intros stod fs dim nc o d n e' d' n' Hn H. apply C67_initialisation in H.
  destruct H as ((c1 & F1 & H1) & _ & _ & L1 & _).
  unfold read_and_store_data, open_and_read. rewrite F1.
  assert (E : read_and_store stod dim true c1 e' = Ok (e' ++ e')).
  { apply C67_reads_exactly_the_file. exists e'. auto. }
  rewrite E. cbn [rbind]. destruct (Nat.eqb_spec (length (e' ++ e')) nc) as [X|]; [|reflexivity].
  rewrite app_length in X. lia.
Qed.
Example C67_example :
  read_and_store digit 2 false ("1,0" ++ String newline ("0,1" ++ String newline (String newline "0,0")))%string []
  = Ok [[1; 0]; [0; 1]].
Proof. reflexivity. Qed.
