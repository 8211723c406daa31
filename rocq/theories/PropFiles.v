(** * C98: the tables and text files of a run. *)
From Coq Require Import ZArith String Lia Lra.
From Verif Require Import Num Tensors ModelPost ModelLoading SpecLoading PropLoading ModelTable ModelShear SpecShear ModelSolver ModelStep ModelProgram SpecProgram PropProgram ModelFiles SpecFiles.
Open Scope R_scope.
Open Scope string_scope.
Open Scope list_scope.

(** ** Tables *)
Definition names (t : table) : list string := map fst t.
Definition uniform (n : nat) (t : table) : Prop := forall c, In c t -> length (snd c) = n.
Fixpoint assoc (name : string) (vs : list (string * R)) : option R :=
  match vs with [] => None | (n, v) :: vs' => if String.eqb n name then Some v else assoc name vs' end.
Definition cell_of (vs : list (string * R)) (name : string) : cell := match assoc name vs with Some v => Value v | None => Blank end.

Lemma declared t name : In name (names t) -> declare_column t name = t.
Proof.
  intros I. unfold declare_column. replace (existsb _ t) with true; [reflexivity|]. symmetry. apply existsb_exists.
  apply in_map_iff in I. destruct I as (c & <- & I). exists c. split; [exact I|apply String.eqb_refl].
Qed.
Lemma assoc_absent name vs : ~ In name (map fst vs) -> assoc name vs = None.
Proof.
  induction vs as [|[n v] vs IH]; [reflexivity|]. cbn [map fst assoc]. intros N. destruct (String.eqb_spec n name) as [->|]; [exfalso; apply N; left; reflexivity|].
  apply IH. intros X. apply N. right. exact X.
Qed.
Lemma add_all vs : forall t, NoDup (map fst vs) -> (forall n, In n (map fst vs) -> In n (names t)) ->
  fold_left (fun t v => add_value t (fst v) (snd v)) vs t =
  map (fun c => match assoc (fst c) vs with Some v => (fst c, snd c ++ [Value v]) | None => c end) t.
Proof.
  induction vs as [|[n v] vs IH]; intros t ND D.
  - cbn. rewrite map_id. reflexivity.
  - cbn [fold_left fst snd map] in *. apply NoDup_cons_iff in ND. destruct ND as (NI & ND).
    unfold add_value at 2. rewrite declared by (apply D; left; reflexivity). set (t1 := map _ t).
    assert (N1 : names t1 = names t).
    { unfold names, t1. rewrite map_map. apply map_ext. intros c. destruct (String.eqb _ _); reflexivity. }
    rewrite IH; [|exact ND|intros m M; rewrite N1; apply D; right; exact M].
    unfold t1. rewrite map_map. apply map_ext. intros c. cbn [assoc].
    destruct (String.eqb_spec (fst c) n) as [E|E].
    + cbn [fst snd]. rewrite E, String.eqb_refl. rewrite (assoc_absent n vs NI). reflexivity.
    + destruct (String.eqb_spec n (fst c)) as [X|_]; [congruence|]. reflexivity.
Qed.
Lemma longest_le n t : (forall c, In c t -> (length (snd c) <= n)%nat) -> (longest t <= n)%nat.
Proof. induction t as [|c t IH]; intros X; cbn; [lia|]. assert (A := X c (or_introl eq_refl)). assert (B := IH (fun c' I => X c' (or_intror I))). unfold longest in B. lia. Qed.
Lemma longest_ge c t : In c t -> (length (snd c) <= longest t)%nat.
Proof.
  induction t as [|d t IH]; intros I; [destruct I|]. destruct I as [->|I]; cbn; [lia|]. specialize (IH I). unfold longest in IH. lia.
Qed.
Lemma longest_uniform n t : uniform n t -> t <> [] -> longest t = n.
Proof.
  intros U N. apply Nat.le_antisymm; [apply longest_le; intros c I; rewrite (U c I); lia|].
  destruct t as [|c t]; [congruence|]. rewrite <- (U c (or_introl eq_refl)) at 1. apply longest_ge. left; reflexivity.
Qed.
Lemma write_uniform n t : uniform n t -> write_text t = Ok t.
Proof.
  intros U. unfold write_text. replace (forallb _ t) with true; [reflexivity|]. symmetry. apply forallb_forall. intros c I. apply Nat.eqb_eq.
  rewrite (longest_uniform n t U) by (intros ->; destruct I). apply U, I.
Qed.
Lemma new_row vs t n : uniform n t -> NoDup (map fst vs) -> (forall m, In m (map fst vs) -> In m (names t)) -> vs <> [] ->
  start_new_row (fold_left (fun t v => add_value t (fst v) (snd v)) vs t) = map (fun c => (fst c, snd c ++ [cell_of vs (fst c)])) t.
Proof.
  intros U ND D NE. rewrite add_all by assumption. set (t1 := map _ t).
  assert (L : longest t1 = S n).
  { apply Nat.le_antisymm.
    - apply longest_le. intros c I. apply in_map_iff in I. destruct I as (c0 & <- & I). specialize (U c0 I). destruct (assoc _ _); cbn [snd]; rewrite ?app_length; cbn; lia.
    - destruct vs as [|[m v] vs]; [congruence|]. assert (I := D m (or_introl eq_refl)). apply in_map_iff in I. destruct I as (c0 & E & I).
      assert (I1 : In (fst c0, snd c0 ++ [Value v]) t1).
      { apply in_map_iff. exists c0. split; [|exact I]. cbn [assoc]. rewrite E, String.eqb_refl. reflexivity. }
      apply longest_ge in I1. cbn [snd] in I1. rewrite app_length, (U c0 I) in I1. cbn in I1. lia. }
  unfold start_new_row. rewrite L. unfold t1. rewrite map_map. apply map_ext_in. intros c I. specialize (U c I). unfold cell_of.
  destruct (assoc (fst c) vs); cbn [fst snd].
  - rewrite app_length, U. cbn [length]. replace (S n - (n + 1))%nat with 0%nat by lia. cbn [repeat]. rewrite app_nil_r. reflexivity.
  - rewrite U. replace (S n - n)%nat with 1%nat by lia. reflexivity.
Qed.
Lemma uniform_more n t (f : string -> cell) : uniform n t -> uniform (S n) (map (fun c => (fst c, snd c ++ [f (fst c)])) t).
Proof. intros U c I. apply in_map_iff in I. destruct I as (c0 & <- & I). cbn [snd]. rewrite app_length, (U c0 I). cbn. lia. Qed.

(** ** The rows of the homogenisation table *)
Definition rows_of (d : nat) : R -> quantities -> list (string * R) := if Nat.eqb d 2 then row_2d else row_3d.
Definition built {A} (cols : list string) (f : A -> string -> cell) (xs : list A) : table := map (fun n => (n, map (fun x => f x n) xs)) cols.
Lemma built_uniform {A} cols (f : A -> string -> cell) xs : uniform (length xs) (built cols f xs).
Proof. intros c I. apply in_map_iff in I. destruct I as (n & <- & _). cbn [snd]. apply map_length. Qed.
Lemma built_names {A} cols (f : A -> string -> cell) xs : names (built cols f xs) = cols.
Proof. unfold names, built. rewrite map_map. cbn. apply map_id. Qed.
Lemma built_more {A} cols (f : A -> string -> cell) xs x : map (fun c => (fst c, snd c ++ [f x (fst c)])) (built cols f xs) = built cols f (xs ++ [x]).
Proof. unfold built. rewrite map_map. apply map_ext. intros n. cbn [fst snd]. rewrite map_app. reflexivity. Qed.
Lemma start_table {A} (f : A -> string -> cell) : homogenization_table = built homogenization_columns f [].
Proof. reflexivity. Qed.
Ltac nodup := repeat (apply NoDup_cons; [cbn [In]; let X := fresh in intros X; repeat (destruct X as [X|X]; [discriminate X|]); exact X|]); apply NoDup_nil.
Lemma row_names d t q : NoDup (map fst (rows_of d t q)) /\ (forall m, In m (map fst (rows_of d t q)) -> In m homogenization_columns) /\ rows_of d t q <> [].
Proof.
  unfold rows_of. destruct (Nat.eqb d 2).
  - split; [cbn [map fst row_2d]; nodup|]. split; [|discriminate]. intros m M. cbn [map fst row_2d In] in M. unfold homogenization_columns. cbn [In]. tauto.
  - split; [cbn [map fst row_3d]; nodup|]. split; [|discriminate]. intros m M. cbn [map fst row_3d In] in M. unfold homogenization_columns. cbn [In]. tauto.
Qed.

Section Run.
Context {H : Type}.
Variables (o : output_settings) (measure : sstate H -> quantities) (l : loading) (initial : R) (stress_12 : sstate H -> R) (end_ : R).
Let homog_cell (x : accepted H) : string -> cell := cell_of (rows_of (o_dim o) (ModelLoading.st_time (ac_record x)) (measure (ac_state x))).
Let boundary_cell (x : accepted H) : string -> cell :=
  cell_of [("shear_at_upper_boundary", table_shear l initial (ModelLoading.st_time (ac_record x))); ("stress_12_at_upper_boundary", stress_12 (ac_state x))].
Let boundary_columns := ["shear_at_upper_boundary"; "stress_12_at_upper_boundary"].
Lemma update_built xs x : update_table (o_dim o) (built homogenization_columns homog_cell xs) (ModelLoading.st_time (ac_record x)) (measure (ac_state x)) =
  built homogenization_columns homog_cell (xs ++ [x]).
Proof.
  unfold update_table.
  replace (if Nat.eqb (o_dim o) 2 then row_2d _ _ else row_3d _ _) with (rows_of (o_dim o) (ModelLoading.st_time (ac_record x)) (measure (ac_state x)))
    by (unfold rows_of; destruct (Nat.eqb _ _); reflexivity).
  destruct (row_names (o_dim o) (ModelLoading.st_time (ac_record x)) (measure (ac_state x))) as (A & B & C).
  rewrite (new_row _ _ (length xs)); [apply (built_more homogenization_columns homog_cell xs x)|apply built_uniform|exact A|rewrite built_names; exact B|exact C].
Qed.
Lemma boundary_built xs x :
  add_value (add_value (built boundary_columns boundary_cell xs) "shear_at_upper_boundary" (table_shear l initial (ModelLoading.st_time (ac_record x))))
    "stress_12_at_upper_boundary" (stress_12 (ac_state x)) = built boundary_columns boundary_cell (xs ++ [x]).
Proof. unfold built, boundary_columns. cbn. rewrite !map_app. reflexivity. Qed.
Lemma postprocessing_built xs ys x hf bf : (o_flag o = true -> o_frequency o <> 0%Z) ->
  postprocessing o measure l initial stress_12 end_ x (mk_files (built homogenization_columns homog_cell xs) (built boundary_columns boundary_cell ys) hf bf) =
  Ok (mk_files (built homogenization_columns homog_cell (if andb (o_flag o) (is_due (o_frequency o) end_ x) then xs ++ [x] else xs))
        (built boundary_columns boundary_cell (ys ++ [x])) hf (Some (built boundary_columns boundary_cell (ys ++ [x])))).
Proof.
  intros F. unfold postprocessing. cbn [f_homogenization f_boundary f_homogenization_file].
  rewrite update_built, boundary_built. rewrite (write_uniform _ _ (built_uniform _ _ _)).
  destruct (o_flag o); [|reflexivity]. destruct (Z.eqb_spec (o_frequency o) 0) as [E|_]; [exfalso; apply F; [reflexivity|exact E]|].
  cbn [rbind andb]. unfold is_due. destruct (orb _ _); reflexivity.
Qed.
Lemma all_built : (o_flag o = true -> o_frequency o <> 0%Z) -> forall tr xs ys hf bf,
  postprocess_all o measure l initial stress_12 end_ tr (mk_files (built homogenization_columns homog_cell xs) (built boundary_columns boundary_cell ys) hf bf) =
  Ok (mk_files (built homogenization_columns homog_cell (xs ++ if o_flag o then due (o_frequency o) end_ tr else []))
        (built boundary_columns boundary_cell (ys ++ tr)) hf (match tr with [] => bf | _ => Some (built boundary_columns boundary_cell (ys ++ tr)) end)).
Proof.
  intros F. induction tr as [|x tr IH]; intros xs ys hf bf.
  - cbn [postprocess_all due filter]. replace (if o_flag o then [] else []) with (@nil (accepted H)) by (destruct (o_flag o); reflexivity). rewrite !app_nil_r. reflexivity.
  - cbn [postprocess_all]. rewrite postprocessing_built by exact F. cbn [rbind]. rewrite IH. rewrite <- app_assoc. cbn [app].
    f_equal. f_equal.
    + f_equal. unfold due. cbn [filter]. destruct (o_flag o); cbn [andb]; [|rewrite !app_nil_r; reflexivity].
      destruct (is_due _ _ x); [rewrite <- app_assoc; reflexivity|reflexivity].
    + destruct tr; rewrite ?app_nil_r; reflexivity.
Qed.
Lemma lists_homog xs : o_dim o = 2%nat \/ o_dim o = 3%nat -> lists_the_quantities (o_dim o) measure xs (built homogenization_columns homog_cell xs).
Proof.
  intros D. unfold lists_the_quantities, homog_cell. destruct D as [-> | ->].
  - repeat (split; [reflexivity|]). intros name ij I. cbn [components In] in I.
    repeat (destruct I as [I|I]; [injection I as <- <-; repeat split; reflexivity|]). destruct I.
  - repeat (split; [reflexivity|]). intros name ij I. cbn [components In] in I.
    repeat (destruct I as [I|I]; [injection I as <- <-; repeat split; reflexivity|]). destruct I.
Qed.
Lemma lists_bound xs : lists_the_boundary l initial stress_12 xs (built boundary_columns boundary_cell xs).
Proof. split; reflexivity. Qed.

(** A completed run leaves one table in the homogenisation file: a row for every due step, with
    all columns filled. *)
Theorem C98_completed_run_files_homog : forall tr, o_dim o = 2%nat \/ o_dim o = 3%nat -> (o_flag o = true -> o_frequency o <> 0%Z) ->
  exists f t, files_of_run o measure l initial stress_12 end_ tr Completed = Ok f /\ f_homogenization_file f = [t] /\
    lists_the_quantities (o_dim o) measure (if o_flag o then due (o_frequency o) end_ tr else []) t /\
    (forall c, In c t -> length (snd c) = length (if o_flag o then due (o_frequency o) end_ tr else [])).
Proof.
  intros tr D F. unfold files_of_run, files_at_start. rewrite (start_table homog_cell).
  change (declare_column (declare_column [] "shear_at_upper_boundary") "stress_12_at_upper_boundary") with (built boundary_columns boundary_cell []).
  rewrite all_built by exact F. cbn [rbind f_homogenization app]. rewrite (write_uniform _ _ (built_uniform _ _ _)). cbn [rbind f_homogenization_file app].
  eexists. eexists. split; [reflexivity|]. cbn [f_homogenization_file]. split; [reflexivity|]. split; [apply lists_homog, D|apply built_uniform].
Qed.
(** Whatever ends the run: the boundary file lists all accepted steps. *)
Theorem C98_boundary_file : forall tr e, tr <> [] -> (o_flag o = true -> o_frequency o <> 0%Z) ->
  exists f t, files_of_run o measure l initial stress_12 end_ tr e = Ok f /\ f_boundary_file f = Some t /\ lists_the_boundary l initial stress_12 tr t.
Proof.
  intros tr e N F. unfold files_of_run, files_at_start. rewrite (start_table homog_cell).
  change (declare_column (declare_column [] "shear_at_upper_boundary") "stress_12_at_upper_boundary") with (built boundary_columns boundary_cell []).
  rewrite all_built by exact F. cbn [rbind app]. destruct tr as [|x tr]; [congruence|].
  destruct e; cbn [f_homogenization]; rewrite ?(write_uniform _ _ (built_uniform _ _ _)); cbn [rbind]; eexists; eexists; (split; [reflexivity|]); cbn [f_boundary_file]; (split; [reflexivity|]); apply lists_bound.
Qed.
(** An interrupted run leaves the homogenisation file empty, whatever was due before. *)
Theorem C98_interrupted_run_keeps_the_table_refuted : forall tr e, e <> Completed -> (o_flag o = true -> o_frequency o <> 0%Z) ->
  exists f, files_of_run o measure l initial stress_12 end_ tr e = Ok f /\ f_homogenization_file f = [].
Proof.
  intros tr e N F. unfold files_of_run, files_at_start. rewrite (start_table homog_cell).
  change (declare_column (declare_column [] "shear_at_upper_boundary") "stress_12_at_upper_boundary") with (built boundary_columns boundary_cell []).
  rewrite all_built by exact F. cbn [rbind]. destruct e; [congruence|..]; eexists; (split; [reflexivity|reflexivity]).
Qed.
(** The admitted frequency 0 divides by zero in the first step. *)
Theorem C98_frequency_zero_refuted : forall x tr e, o_flag o = true -> o_frequency o = 0%Z ->
  files_of_run o measure l initial stress_12 end_ (x :: tr) e = UB.
Proof.
  intros x tr e F Z. unfold files_of_run. cbn [postprocess_all]. unfold postprocessing. rewrite F, Z. reflexivity.
Qed.
End Run.

(** ** The files of the shear problem *)
Lemma last_due {H} frequency end_ (tr : list (accepted H)) x : nth_error tr (length tr - 1) = Some x -> ModelLoading.st_time (ac_record x) = end_ ->
  exists xs, due frequency end_ tr = xs ++ [x].
Proof.
  intros N T. destruct tr as [|y tr] using rev_ind; [discriminate|]. clear IHtr.
  rewrite app_length in N. cbn [length] in N. rewrite nth_error_app2 in N by lia. replace (length tr + 1 - 1 - length tr)%nat with 0%nat in N by lia. cbn in N. injection N as ->.
  exists (due frequency end_ tr). unfold due. rewrite filter_app. f_equal. cbn [filter]. replace (is_due frequency end_ x) with true; [reflexivity|].
  symmetry. unfold is_due. apply Bool.orb_true_iff. right. apply Reqb_true. exact T.
Qed.
(** A completed run of the monotonic shear problem: the homogenisation file ends with the row of
    the end time; the boundary file has one row per accepted step whose shear is the one the
    loaded dofs of the upper boundary have in the accepted solution. *)
Theorem C98_files_of_the_shear_problem : forall H (p : program H) a inner fuel oo s tr o measure initial stress_12,
  a = exact \/ a = double -> valid_loading (pr_loading p) -> pr_frequency p <> 0%Z -> start_time < end_time a (pr_loading p) ->
  well_formed_program p -> SpecShear.consistent (pr_strip p) -> (0 < s_nc (pr_strip p))%nat -> (pr_component p < s_dim (pr_strip p))%nat ->
  l_type (pr_loading p) = Monotonic -> o_dim o = 2%nat \/ o_dim o = 3%nat -> o_flag o = true -> o_frequency o <> 0%Z ->
  program_run p a inner fuel oo s = (tr, Completed) ->
  exists f th tb, files_of_run o measure (pr_loading p) initial stress_12 (end_time a (pr_loading p)) tr Completed = Ok f /\
    f_homogenization_file f = [th] /\ f_boundary_file f = Some tb /\
    (exists es, column th "Time" = Some (es ++ [Value (end_time a (pr_loading p))])) /\
    exists shears, column tb "shear_at_upper_boundary" = Some shears /\ length shears = length tr /\
      forall k x, nth_error tr k = Some x -> exists u, nth_error shears k = Some (Value u) /\
        forall b, In b (s_boundary (pr_strip p)) -> s_hanging (pr_strip p) (b_dof b) = None -> is_displacement_component (pr_strip p) (b_comp b) ->
          b_id b = 3%nat -> (b_comp b mod s_dim (pr_strip p))%nat = pr_component p ->
          st_trial (ac_state x) (b_dof b) = u * pr_height p / pr_char p.
Proof.
  intros H p a inner fuel oo s tr o measure initial stress_12 Ha V F ST WF C N K T D OF OQ E.
  destruct (C97_completed_run H p a inner fuel oo s tr Ha V F ST WF C N K T E) as (_ & _ & x & X & _ & XT & _).
  assert (NE : tr <> []) by (intros ->; discriminate X).
  destruct (C98_completed_run_files_homog o measure (pr_loading p) initial stress_12 (end_time a (pr_loading p)) tr D (fun _ => OQ)) as (f & th & F1 & F2 & F3 & _).
  destruct (C98_boundary_file o measure (pr_loading p) initial stress_12 (end_time a (pr_loading p)) tr Completed NE (fun _ => OQ)) as (f' & tb & F4 & F5 & F6 & _).
  rewrite F1 in F4. injection F4 as <-. exists f, th, tb. split; [exact F1|]. split; [exact F2|]. split; [exact F5|]. split.
  - destruct F3 as (F3 & _). rewrite OF in F3. destruct (last_due (o_frequency o) _ tr x X XT) as (xs & Q). rewrite Q, map_app in F3. cbn [map] in F3. rewrite XT in F3.
    eexists. exact F3.
  - eexists. split; [exact F6|]. split; [apply map_length|]. intros k y Y. rewrite nth_error_map, Y. cbn [option_map]. eexists. split; [reflexivity|].
    intros b B1 B2 B3 B4 B5.
    destruct (C97_accepted_solutions_are_sheared H p a inner fuel oo s tr Completed y WF C N K T E (nth_error_In _ _ Y) b B1 B2) as (S1 & _).
    rewrite (S1 B3 B4), B5, Nat.eqb_refl. unfold table_shear. rewrite T. lra.
Qed.
