(** * C94: the internal variables of a body are determined by the accepted solutions. *)
From Coq Require Import FunctionalExtensionality.
From Verif Require Import Num SumLemmas Tensors TensorLemmas ModelUtilities ModelElastic ModelMicro SpecMicro
  ModelCohesive SpecCohesive ProofCohesive ModelHistory SpecHistory ProofHistory SpecInterface ModelInterface
  ModelFEField ModelLineSearch ModelActiveSet SpecActiveSet PropActiveSet
  ModelLinear SpecLinear PropLinear ModelAssembly SpecAssembly ModelSolver ModelSweep SpecSweep
  ProofInterface PropSweep ModelStep SpecStep ProofStep PropStep ModelBody SpecBody PropBody ModelTangent SpecTangent ProofTangent SpecRun.
Open Scope R_scope.

(** ** One sweep at one point *)
Lemma swept_bulk b w r c q : NoDup (b_cells b) -> (exists s, run_sweeps (sweep_of b) (b_cells b) [w] r = Ok s) ->
  In c (b_cells b) -> (q < b_nq b)%nat ->
  brun (r_bulk r c q) (bulk_call (sweep_of b) w c q) = Ok (r_bulk (sweep_all b w r) c q).
Proof.
  intros N (s & E) Hc Hq. unfold sweep_all. rewrite E. rewrite run_one in E. pose proof (exec_all_bulk c q _ _ _ E) as B.
  rewrite bulk_once_run in B by exact N. rewrite (proj2 (mem_In _ _) Hc) in B. cbn [sweep_of w_nq andb] in B.
  rewrite (proj2 (Nat.ltb_lt _ _) Hq) in B. cbn [flat_map] in B. rewrite app_nil_r in B. exact B.
Qed.
Lemma swept_face b w r c n q : (exists s, run_sweeps (sweep_of b) (b_cells b) [w] r = Ok s) -> (q < b_nfq b)%nat ->
  frun (r_face r (make_key c n) q) (map (fun v => face_call_of (sweep_of b) w (fst v) (snd v) q) (visits (sweep_of b) (b_cells b) (make_key c n)))
  = Ok (r_face (sweep_all b w r) (make_key c n) q).
Proof.
  intros (s & E) Hq. unfold sweep_all. rewrite E. rewrite run_one in E. pose proof (exec_all_face (make_key c n) q _ _ _ E) as B.
  cbn [flat_map] in B. rewrite app_nil_r, face_sweep in B. cbn [sweep_of w_nfq] in B. rewrite (proj2 (Nat.ltb_lt _ _) Hq) in B. exact B.
Qed.
Lemma store_completes b r : NoDup (b_cells b) -> initialised b r -> exists s, run_sweeps (sweep_of b) (b_cells b) [Prepare] r = Ok s.
Proof.
  intros N [I _]. rewrite run_one. apply exec_all_ok.
  - intros c q. rewrite bulk_once_run by exact N. destruct (mem c (b_cells b)) eqn:Hc; [|cbn; eauto]. cbn [sweep_of w_nq].
    destruct (Nat.ltb q (b_nq b)) eqn:Hq; [|cbn; eauto]. apply mem_In in Hc. apply Nat.ltb_lt in Hq.
    cbn. rewrite (proj1 (I c q Hc Hq)). cbn. eauto.
  - intros k q. cbn [flat_map]. rewrite app_nil_r, face_sweep. destruct (Nat.ltb _ _); [|cbn; eauto].
    generalize (r_face r k q). induction (visits (sweep_of b) (b_cells b) k) as [|v vs IH]; intros h; [cbn; eauto|].
    cbn [map frun face_call_of face_step istep rbind]. apply IH.
Qed.
Lemma finish_completes b x r : NoDup (b_cells b) -> exists s, run_sweeps (sweep_of b) (b_cells b) [Finish x] r = Ok s.
Proof.
  intros N. rewrite run_one. apply exec_all_ok.
  - intros c q. rewrite bulk_once_run by exact N. destruct (andb _ _); cbn; eauto.
  - intros k q. cbn [flat_map]. rewrite app_nil_r, face_sweep. destruct (Nat.ltb _ _); [|cbn; eauto].
    generalize (r_face r k q). induction (visits (sweep_of b) (b_cells b) k) as [|v vs IH]; intros h; [cbn; eauto|].
    cbn [map frun face_call_of face_step istep rbind]. apply IH.
Qed.
Lemma initialise_completes b r : NoDup (b_cells b) -> exists s, run_sweeps (sweep_of b) (b_cells b) [Initialise] r = Ok s.
Proof.
  intros N. rewrite run_one. apply exec_all_ok.
  - intros c q. rewrite bulk_once_run by exact N. destruct (andb _ _); cbn; eauto.
  - intros k q. cbn [flat_map]. rewrite app_nil_r, face_sweep. destruct (Nat.ltb _ _); [|cbn; eauto].
    generalize (r_face r k q). induction (visits (sweep_of b) (b_cells b) k) as [|v vs IH]; intros h; [cbn; eauto|].
    cbn [map frun face_call_of face_step istep]. destruct (i_prm h); cbn [rbind]; apply IH.
Qed.
Lemma visited_once b c n : In c (b_cells b) -> In n (visited (b_mesh b) (b_decohesion b) c) ->
  visits (sweep_of b) (b_cells b) (make_key c n) <> [].
Proof.
  intros Hc Hn Z. assert (V : In (c, n) (visits (sweep_of b) (b_cells b) (make_key c n))).
  { unfold visits. rewrite filter_In, in_flat_map, key_eqb_true. split; [|reflexivity]. exists c. split; [exact Hc|]. apply in_map. exact Hn. }
  rewrite Z in V. destruct V.
Qed.

(** ** One step: prepare, update for the accepted solution, store the opening *)
Definition next_histories (b : body) (old x : vec) (r : rank_data) : rank_data :=
  body_finish b x (body_update b old x (body_store b r)).
Lemma next_bulk b old x r c q : NoDup (b_cells b) -> exponential_damage_only b -> initialised b r ->
  In c (b_cells b) -> (q < b_nq b)%nat -> length (slip_res (r_bulk r c q)) = b_ns b ->
  let h := r_bulk r c q in let h' := r_bulk (next_histories b old x r) c q in
  prm h' = prm h /\ char_res h' = char_res h /\ length (slip_res h') = b_ns b /\
  forall a, (a < b_ns b)%nat -> nth a (slip_res h') 0 = nth a (slip_res h) 0 +
    if flag_perfect_plasticity (prm h) then 0 else
    hardening_increment (linear_hardening_modulus (prm h) / char_res h) (hardening_parameter (prm h)) (b_ns b) a
      (fun i => slip_of b x c q i - slip_of b old c q i).
Proof.
  intros N M I Hc Hq L h h'.
  pose proof (initialised_store b r N I) as I1.
  assert (S1 := swept_bulk b Prepare r c q N (store_completes b r N I) Hc Hq).
  assert (S2 := swept_bulk b (Refresh (fields_of b old x)) (body_store b r) c q N (update_completes b old x _ N M I1) Hc Hq).
  assert (S3 := swept_bulk b (Finish (fields_of b x x)) (body_update b old x (body_store b r)) c q N (finish_completes b _ _ N) Hc Hq).
  cbn [bulk_call brun] in S3. injection S3 as S3. unfold h', next_histories. unfold body_finish. rewrite <- S3. clear S3.
  fold (body_update b old x (body_store b r)) in S2. fold (body_store b r) in S1.
  destruct I as [I _]. destruct (I c q Hc Hq) as [Ia Ib]. fold h in Ia, Ib, S1, L.
  cbn [bulk_call brun ModelHistory.step] in S1. rewrite Ia in S1. cbn [rbind] in S1. injection S1 as S1.
  cbn [bulk_call brun] in S2. rewrite <- S1 in S2. cbn [ModelHistory.step flag_init prm ModelHistory.n_slips char_res tmp_res] in S2.
  destruct (flag_perfect_plasticity (prm h)).
  - cbn [rbind] in S2. injection S2 as <-. cbn [prm char_res slip_res]. repeat split; [exact L|]. intros; ring.
  - set (hs := mk_qph true (ModelHistory.n_slips h) (prm h) (char_res h) (slip_res h) (slip_res h)) in *.
    pose proof (proj2 (Nat.ltb_lt _ _) Hq) as Hq'.
    assert (RD : forall z, SpecHistory.readable (ModelHistory.n_slips hs)
       (map (fun a => map (fun q => slip_at (b_element b c) (local_values b z c) q a) (seq 0 (b_nq b))) (seq 0 (b_ns b))) q).
    { intros y a' Ha'. rewrite at2_mat, Hq', (proj2 (Nat.ltb_lt a' (b_ns b))) by (rewrite <- Ib; exact Ha'). cbn. eauto. }
    destruct (harden_all_value hs _ _ q (RD x) (RD old) (slip_res h) 0) as (w & F & LW & V).
    cbn [fields_of f_slips f_old_slips] in S2. rewrite F in S2. cbn [rbind] in S2. injection S2 as <-. cbn [prm char_res slip_res].
    split; [reflexivity|]. split; [reflexivity|]. split; [congruence|]. intros a Ha.
    assert (NE : nth_error (slip_res h) a = Some (nth a (slip_res h) 0)) by (apply nth_error_nth'; lia).
    rewrite (nth_error_nth w a 0 (V a _ NE)). f_equal. cbn [Nat.add].
    unfold incr, hardening_increment. change (ModelHistory.n_slips hs) with (ModelHistory.n_slips h). rewrite Ib. apply sumn_ext. intros b' Hb'.
    f_equal. f_equal. unfold dgamma. rewrite !at2_mat, Hq', (proj2 (Nat.ltb_lt b' (b_ns b))) by assumption. reflexivity.
Qed.
Lemma next_face b old x r c n q : NoDup (b_cells b) -> exponential_damage_only b -> initialised b r -> two_sided b ->
  b_decohesion b = true -> In c (b_cells b) -> In n (gb_neighbours b c) -> (q < b_nfq b)%nat ->
  let h := r_face r (make_key c n) q in let h' := r_face (next_histories b old x r) (make_key c n) q in
  let mx := Rmax (i_max h) (opening_of b x c n q) in
  i_max h' = mx /\ i_damage h' = Fin (damage_after (i_zero_damage (b_iprm b)) mx (i_crit_opening (b_iprm b))).
Proof.
  intros N M I T D Hc Hn Hq h h' mx.
  assert (Hn' : In n (visited (b_mesh b) (b_decohesion b) c)) by (unfold gb_neighbours in Hn; rewrite D in Hn |- *; exact Hn).
  assert (S1 := swept_face b Prepare r c n q (store_completes b r N I) Hq). fold (body_store b r) in S1. fold h in S1.
  assert (S1' : i_tmp1 (r_face (body_store b r) (make_key c n) q) = i_max h).
  { pose proof (visited_once b c n Hc Hn') as V. cbn [face_call_of] in S1. clear h' mx. clearbody h. revert h S1.
    destruct (visits (sweep_of b) (b_cells b) (make_key c n)) as [|v vs]; [congruence|]. clear V.
    intros h S1. cbn [map frun face_step istep rbind] in S1.
    assert (G : forall vs h, i_tmp1 h = i_max h -> frun h (map (fun _ : nat * nat => FCall IStore) vs) = Ok (r_face (body_store b r) (make_key c n) q) ->
      i_tmp1 (r_face (body_store b r) (make_key c n) q) = i_max h).
    { clear. induction vs as [|v vs IH]; intros h E S1; cbn [map frun face_step istep rbind] in S1; [injection S1 as <-; exact E|].
      apply IH in S1; [exact S1|reflexivity]. }
    apply G in S1; [exact S1|reflexivity]. }
  assert (S2 := updated_face b old x (body_store b r) c n q N M (initialised_store b r N I) T D Hc Hn Hq). cbv zeta in S2.
  rewrite S1' in S2. change (opened b x c n q) with (opening_of b x c n q) in S2. fold mx in S2.
  assert (S3 := swept_face b (Finish (fields_of b x x)) (body_update b old x (body_store b r)) c n q (finish_completes b _ _ N) Hq).
  fold (body_finish b x (body_update b old x (body_store b r))) in S3. fold (next_histories b old x r) in S3. fold h' in S3.
  cbn [face_call_of] in S3.
  assert (K : i_max h' = i_max (r_face (body_update b old x (body_store b r)) (make_key c n) q) /\
              i_damage h' = i_damage (r_face (body_update b old x (body_store b r)) (make_key c n) q)).
  { revert S3. generalize (r_face (body_update b old x (body_store b r)) (make_key c n) q) h'. clear.
    induction (visits (sweep_of b) (b_cells b) (make_key c n)) as [|v vs IH]; intros h h' S3; cbn [map frun face_step istep rbind] in S3.
    - injection S3 as <-. auto.
    - apply IH in S3. exact S3. }
  destruct K as [K1 K2]. rewrite K1, K2, S2. cbn [i_max i_damage]. split; reflexivity.
Qed.

(** ** Any number of steps *)
(** The histories after the steps of [bs] with accepted solutions [xs]. *)
Fixpoint histories_after (bs : list body) (xs : list vec) (old : vec) (h : rank_data) : rank_data :=
  match bs, xs with b :: bs', x :: xs' => histories_after bs' xs' x (next_histories b old x h) | _, _ => h end.
Lemma bulk_after b0 c q : forall bs xs old h,
  (forall b, In b bs -> consistent b /\ exponential_damage_only b /\ same_points b0 b) -> initialised b0 h ->
  In c (b_cells b0) -> (q < b_nq b0)%nat -> length (slip_res (r_bulk h c q)) = b_ns b0 ->
  forall a, (a < b_ns b0)%nat ->
  nth a (slip_res (r_bulk (histories_after bs xs old h) c q)) 0 = nth a (slip_res (r_bulk h c q)) 0 +
    let p := prm (r_bulk h c q) in
    if flag_perfect_plasticity p then 0
    else accumulated_hardening (linear_hardening_modulus p / char_res (r_bulk h c q)) (hardening_parameter p) (b_ns b0) bs xs old c q a.
Proof.
  induction bs as [|b bs IH]; intros [|x xs] old h HB I Hc Hq L a Ha; cbn [histories_after accumulated_hardening]; cbv zeta;
    try (destruct (flag_perfect_plasticity _); ring).
  destruct (HB b (or_introl eq_refl)) as ((N & _) & M & SP).
  pose proof (same_points_initialised b0 b h SP I) as Ib. pose proof SP as (P1 & P2 & P3 & P4 & P5 & P6 & P7).
  rewrite P2 in Hc. rewrite P3 in Hq. rewrite P5 in L, Ha.
  destruct (next_bulk b old x h c q N M Ib Hc Hq L) as (E1 & E2 & E3 & E4).
  rewrite IH; [|intros; apply HB; right; assumption| |rewrite P2; exact Hc|rewrite P3; exact Hq|rewrite P5; exact E3|rewrite P5; exact Ha].
  - cbv zeta. rewrite E1, E2, (E4 a Ha), P5. destruct (flag_perfect_plasticity (prm (r_bulk h c q))); ring.
  - apply (same_points_initialised b b0); [unfold same_points; repeat split; congruence|].
    unfold next_histories. apply initialised_sweep; [exact N|]. apply initialised_sweep; [exact N|]. apply initialised_sweep; assumption.
Qed.
Lemma face_after b0 c n q : forall bs xs old h,
  (forall b, In b bs -> consistent b /\ exponential_damage_only b /\ same_points b0 b /\ two_sided b) -> initialised b0 h ->
  b_decohesion b0 = true -> In c (b_cells b0) -> In n (visited (b_mesh b0) true c) -> (q < b_nfq b0)%nat ->
  let h' := r_face (histories_after bs xs old h) (make_key c n) q in
  let mx := Rmax (i_max (r_face h (make_key c n) q)) (largest_opening bs xs c n q) in
  0 <= i_max (r_face h (make_key c n) q) ->
  i_max h' = mx /\ (bs <> [] -> xs <> [] -> i_damage h' = Fin (damage_after (i_zero_damage (b_iprm b0)) mx (i_crit_opening (b_iprm b0)))).
Proof.
  induction bs as [|b bs IH]; intros [|x xs] old h HB I D Hc Hn Hq h' mx Z;
    try (split; [unfold h', mx; cbn [histories_after largest_opening]; rewrite Rmax_left by exact Z; reflexivity|intros X Y; congruence]).
  destruct (HB b (or_introl eq_refl)) as ((N & _) & M & SP & T).
  pose proof (same_points_initialised b0 b h SP I) as Ib. pose proof SP as (P1 & P2 & P3 & P4 & P5 & P6 & P7).
  pose proof Hc as Hc'. rewrite P2 in Hc'. pose proof Hq as Hq'. rewrite P4 in Hq'.
  assert (Hn' : In n (gb_neighbours b c)) by (unfold gb_neighbours; rewrite <- P6, <- P1, D; exact Hn).
  destruct (next_face b old x h c n q N M Ib T ltac:(congruence) Hc' Hn' Hq') as (E1 & E2). cbv zeta in E1, E2.
  set (h1 := next_histories b old x h) in *.
  assert (I1 : initialised b0 h1).
  { apply (same_points_initialised b b0); [unfold same_points; repeat split; congruence|].
    unfold h1, next_histories. apply initialised_sweep; [exact N|]. apply initialised_sweep; [exact N|]. apply initialised_sweep; assumption. }
  assert (Z1 : 0 <= i_max (r_face h1 (make_key c n) q)) by (rewrite E1; eapply Rle_trans; [exact Z|apply Rmax_l]).
  destruct (IH xs x h1 (fun b' Hb => HB b' (or_intror Hb)) I1 D Hc Hn Hq Z1) as [F1 F2].
  assert (MX : Rmax (i_max (r_face h1 (make_key c n) q)) (largest_opening bs xs c n q) = mx).
  { unfold mx. cbn [largest_opening]. rewrite E1. symmetry. apply Rmax_assoc. }
  unfold h'. cbn [histories_after]. fold h1. rewrite MX in F1, F2. split; [exact F1|]. intros _ _.
  destruct bs as [|b' bs]; [|destruct xs as [|x' xs]; [|apply F2; discriminate]];
    cbn [histories_after] in *; rewrite E2, <- E1, F1, P7; reflexivity.
Qed.

Lemma nth_repeat_below (v : R) n i : (i < n)%nat -> nth i (repeat v n) 0 = v.
Proof. revert i. induction n as [|n IH]; intros [|i] H; cbn; try lia; [reflexivity|]. apply IH. lia. Qed.
Lemma in_firstn A k (l : list A) x : In x (firstn k l) -> In x l.
Proof. intros H. rewrite <- (firstn_skipn k l). apply in_or_app. left. exact H. Qed.
Lemma histories_of_run sp a fuel b0 : forall (steps : list (body * (env rank_data * timing))) oo s o acc,
  (forall b e t, In (b, (e, t)) steps -> consistent b /\ exponential_damage_only b /\ works_on e b /\
     e_finish e = body_finish b /\ same_points b0 b) ->
  initialised b0 (st_hist s) -> rate_independent sp = false \/ a <> Monolithic ->
  run sp a fuel (map snd steps) oo s = (o, acc) ->
  (length acc <= length steps)%nat /\
  forall k r, nth_error acc k = Some r ->
  st_hist r = histories_after (firstn (S k) (map fst steps)) (firstn (S k) (map st_trial acc)) (st_old s) (st_hist s).
Proof.
  induction steps as [|[b [e t]] steps IH]; intros oo s o acc HS HI Ha E; cbn [map fst snd run] in E.
  { injection E as _ <-. split; [cbn; lia|]. intros [|k] r; discriminate. }
  destruct (HS b e t (or_introl eq_refl)) as (C & M & W & FI & SP).
  destruct (solve_nonlinear_system e sp a fuel t oo s) as [r| | |] eqn:S;
    try (injection E as _ <-; split; [cbn; lia|intros [|k] r; discriminate]).
  cbn [shift_solutions] in E.
  set (s1 := mk_sstate _ _ _ _ _ _ _ _ _ _ _ _) in E.
  destruct (run sp a fuel (map snd steps) (st_old r) s1) as [o1 acc1] eqn:R1. injection E as <- <-.
  pose proof W as (W1 & W2 & W3). pose proof C as (N & _).
  assert (HF : forgets_iterates (e_update e)) by (rewrite W2; apply body_forgets; assumption).
  destruct (accepted_step sp e HF _ _ _ _ _ _ Ha S) as (_ & A2 & _).
  rewrite W1, W2, FI in A2. fold (next_histories b (st_old s) (st_trial r) (st_hist s)) in A2.
  assert (I1 : initialised b (st_hist s)) by (eapply same_points_initialised; eauto).
  destruct (IH (st_old r) s1 o1 acc1 (fun b' e' t' Hin => HS b' e' t' (or_intror Hin))) as [L K]; [|exact Ha|exact R1|].
  { cbn [st_hist s1]. rewrite A2. destruct SP as (P1 & P2 & P3 & P4 & P5 & P6 & P7).
    apply (same_points_initialised b b0); [unfold same_points; repeat split; congruence|].
    unfold next_histories. apply initialised_sweep; [exact N|]. apply initialised_sweep; [exact N|]. apply initialised_sweep; assumption. }
  split; [cbn [length]; lia|]. intros [|k] r' Hr.
  - cbn in Hr. injection Hr as <-. cbn [map fst firstn histories_after]. exact A2.
  - cbn [nth_error] in Hr. rewrite (K k r' Hr). cbn [st_old st_hist s1]. cbn [map fst]. rewrite A2. reflexivity.
Qed.

(** After setup: what the points hold. *)
Lemma fresh_bulk b r c q : NoDup (b_cells b) -> In c (b_cells b) -> (q < b_nq b)%nat ->
  let p := b_hardening b in let h := r_bulk (sweep_all b Initialise r) c q in
  prm h = p /\ char_res h = b_char_resistance b /\ slip_res h = repeat (initial_slip_resistance p / b_char_resistance b) (b_ns b).
Proof.
  intros N Hc Hq p h. assert (S := swept_bulk b Initialise r c q N (initialise_completes b r N) Hc Hq). fold h in S.
  cbn [bulk_call brun ModelHistory.step rbind] in S. injection S as <-. auto.
Qed.
Lemma fresh_face b r c n q : NoDup (b_cells b) -> (q < b_nfq b)%nat -> r_face r (make_key c n) q = i_construct ->
  i_max (r_face (sweep_all b Initialise r) (make_key c n) q) = 0.
Proof.
  intros N Hq Z. assert (S := swept_face b Initialise r c n q (initialise_completes b r N) Hq). rewrite Z in S.
  assert (G : forall vs h h', frun h (map (fun v => face_call_of (sweep_of b) Initialise (fst v) (snd v) q) vs) = Ok h' -> i_max h' = i_max h).
  { clear. induction vs as [|v vs IH]; intros h h' S; cbn [map frun face_call_of face_step istep] in S; [injection S as <-; reflexivity|].
    destruct (i_prm h); cbn [rbind] in S; apply IH in S; exact S. }
  exact (G _ _ _ S).
Qed.

(** The slip resistances after every accepted step: initial value plus the hardening by the
    accepted solutions so far. *)
Theorem C94_resistances_accumulate_accepted_slips : forall sp a fuel b0 steps r0 oo s acc,
  run_from_setup sp a fuel b0 steps r0 oo s acc ->
  forall k r c q i, nth_error acc k = Some r -> In c (b_cells b0) -> (q < b_nq b0)%nat -> (i < b_ns b0)%nat ->
  let p := b_hardening b0 in let chi := b_char_resistance b0 in
  resistances_of (st_hist r) c q i = initial_slip_resistance p / chi +
    if flag_perfect_plasticity p then 0
    else accumulated_hardening (linear_hardening_modulus p / chi) (hardening_parameter p) (b_ns b0)
           (firstn (S k) (map fst steps)) (firstn (S k) (map st_trial acc)) (st_old s) c q i.
Proof.
  intros sp a fuel b0 steps r0 oo s acc (HS & N & Z & HI & Ha & o & E) k r c q i Hr Hc Hq Hi p chi.
  assert (I0 : initialised b0 (st_hist s)) by (rewrite HI; apply C92_initialised_after_setup; [exact N|intros; rewrite Z; reflexivity]).
  destruct (histories_of_run sp a fuel b0 steps oo s o acc) as [_ K]; [intros b e t Hin; destruct (HS b e t Hin) as (X1 & X2 & X3 & X4 & X5 & _); auto 6|exact I0|exact Ha|exact E|].
  rewrite (K k r Hr). unfold resistances_of. destruct (fresh_bulk b0 r0 c q N Hc Hq) as (F1 & F2 & F3). rewrite <- HI in F1, F2, F3.
  rewrite (bulk_after b0 c q); [|intros b Hb|exact I0|exact Hc|exact Hq|rewrite F3; apply repeat_length|exact Hi].
  - cbv zeta. rewrite F1, F2, F3. rewrite nth_repeat_below by exact Hi. reflexivity.
  - apply in_firstn in Hb. apply in_map_iff in Hb. destruct Hb as ([b' [e t]] & <- & Hin). destruct (HS b' e t Hin) as (X1 & X2 & X3 & X4 & X5 & _). auto.
Qed.
(** The interfaces after every accepted step: the largest opening of the accepted solutions so
    far, and the damage it causes. *)
Theorem C94_damage_follows_the_largest_opening : forall sp a fuel b0 steps r0 oo s acc,
  run_from_setup sp a fuel b0 steps r0 oo s acc ->
  forall k r c n q, nth_error acc k = Some r -> b_decohesion b0 = true -> In c (b_cells b0) -> In n (gb_neighbours b0 c) -> (q < b_nfq b0)%nat ->
  let h := r_face (st_hist r) (make_key c n) q in
  let mx := largest_opening (firstn (S k) (map fst steps)) (firstn (S k) (map st_trial acc)) c n q in
  i_max h = mx /\ i_damage h = Fin (damage_after (i_zero_damage (b_iprm b0)) mx (i_crit_opening (b_iprm b0))).
Proof.
  intros sp a fuel b0 steps r0 oo s acc (HS & N & Z & HI & Ha & o & E) k r c n q Hr D Hc Hn Hq h mx.
  assert (I0 : initialised b0 (st_hist s)) by (rewrite HI; apply C92_initialised_after_setup; [exact N|intros; rewrite Z; reflexivity]).
  destruct (histories_of_run sp a fuel b0 steps oo s o acc) as [LE K]; [intros b e t Hin; destruct (HS b e t Hin) as (X1 & X2 & X3 & X4 & X5 & _); auto 6|exact I0|exact Ha|exact E|].
  assert (F : i_max (r_face (st_hist s) (make_key c n) q) = 0) by (rewrite HI; apply fresh_face; auto).
  assert (Hn' : In n (visited (b_mesh b0) true c)) by (unfold gb_neighbours in Hn; rewrite D in Hn; exact Hn).
  unfold h. rewrite (K k r Hr).
  assert (LK : (k < length acc)%nat) by (apply nth_error_Some; congruence).
  destruct (face_after b0 c n q (firstn (S k) (map fst steps)) (firstn (S k) (map st_trial acc)) (st_old s) (st_hist s)) as [X1 X2];
    [intros b Hb|exact I0|exact D|exact Hc|exact Hn'|exact Hq|rewrite F; lra|].
  - apply in_firstn in Hb. apply in_map_iff in Hb. destruct Hb as ([b' [e t]] & <- & Hin). destruct (HS b' e t Hin) as (X1 & X2 & X3 & X4 & X5 & X6). auto.
  - assert (MX : Rmax (i_max (r_face (st_hist s) (make_key c n) q)) (largest_opening (firstn (S k) (map fst steps)) (firstn (S k) (map st_trial acc)) c n q) = mx).
    { rewrite F. apply Rmax_right. unfold mx. destruct (firstn (S k) (map fst steps)) as [|b bs]; [cbn; lra|]. destruct (firstn (S k) (map st_trial acc)) as [|x xs]; [cbn; lra|].
      cbn [largest_opening]. eapply Rle_trans; [|apply Rmax_l]. apply sqrt_pos. }
    rewrite MX in X1, X2. split; [exact X1|]. apply X2.
    + destruct steps; [cbn in LE; lia|discriminate].
    + destruct acc; [cbn in LK; lia|discriminate].
Qed.

(** Damage does not heal and strength (g) is not lost: later accepted states have at least the
    damage, the largest opening and the slip resistance of earlier ones. *)
Lemma largest_nonneg bs : forall xs c n q, 0 <= largest_opening bs xs c n q.
Proof. induction bs as [|b bs IH]; intros [|x xs] c n q; cbn; try lra. eapply Rle_trans; [|apply Rmax_l]. apply sqrt_pos. Qed.
Lemma largest_mono j : forall k bs xs c n q, (j <= k)%nat ->
  largest_opening (firstn j bs) (firstn j xs) c n q <= largest_opening (firstn k bs) (firstn k xs) c n q.
Proof.
  induction j as [|j IH]; intros k bs xs c n q H; [apply largest_nonneg|].
  destruct k as [|k]; [lia|]. destruct bs as [|b bs]; [cbn; lra|]. destruct xs as [|x xs]; [cbn; lra|]. cbn [firstn largest_opening].
  apply Rle_max_compat_l. apply IH. lia.
Qed.
Lemma hardening_nonneg m k ns bs : 0 <= m -> 0 <= k -> forall xs old c q i, 0 <= accumulated_hardening m k ns bs xs old c q i.
Proof.
  intros Hm Hk. induction bs as [|b bs IH]; intros [|x xs] old c q i; cbn; try lra.
  apply Rplus_le_le_0_compat; [|apply IH]. unfold hardening_increment. apply sumn_nonneg. intros.
  apply Rmult_le_pos; [apply Rmult_le_pos; [exact Hm|]|apply Rabs_pos]. unfold kron. destruct (Nat.eqb _ _); lra.
Qed.
Lemma hardening_mono m c0 ns j : 0 <= m -> 0 <= c0 -> forall k bs xs old c q i, (j <= k)%nat ->
  accumulated_hardening m c0 ns (firstn j bs) (firstn j xs) old c q i <= accumulated_hardening m c0 ns (firstn k bs) (firstn k xs) old c q i.
Proof.
  intros Hm Hc. induction j as [|j IH]; intros k bs xs old c q i H; [apply hardening_nonneg; assumption|].
  destruct k as [|k]; [lia|]. destruct bs as [|b bs]; [cbn; lra|]. destruct xs as [|x xs]; [cbn; lra|]. cbn [firstn accumulated_hardening].
  apply Rplus_le_compat_l. apply IH. lia.
Qed.
Theorem C94_nothing_heals : forall sp a fuel b0 steps r0 oo s acc,
  run_from_setup sp a fuel b0 steps r0 oo s acc -> 0 < i_crit_opening (b_iprm b0) ->
  0 <= linear_hardening_modulus (b_hardening b0) -> 0 <= hardening_parameter (b_hardening b0) -> 0 < b_char_resistance b0 ->
  forall j k r r', (j <= k)%nat -> nth_error acc j = Some r -> nth_error acc k = Some r' ->
  (forall c q i, In c (b_cells b0) -> (q < b_nq b0)%nat -> (i < b_ns b0)%nat ->
     resistances_of (st_hist r) c q i <= resistances_of (st_hist r') c q i) /\
  (forall c n q, b_decohesion b0 = true -> In c (b_cells b0) -> In n (gb_neighbours b0 c) -> (q < b_nfq b0)%nat ->
     i_max (r_face (st_hist r) (make_key c n) q) <= i_max (r_face (st_hist r') (make_key c n) q) /\
     exists d d', i_damage (r_face (st_hist r) (make_key c n) q) = Fin d /\
       i_damage (r_face (st_hist r') (make_key c n) q) = Fin d' /\ 0 <= d <= d' /\ d' < 1).
Proof.
  intros sp a fuel b0 steps r0 oo s acc X Hd Hm Hq Hchi j k r r' L Hr Hr'. split.
  - intros c q i Hc Hp Hi. rewrite (C94_resistances_accumulate_accepted_slips _ _ _ _ _ _ _ _ _ X j r c q i Hr Hc Hp Hi).
    rewrite (C94_resistances_accumulate_accepted_slips _ _ _ _ _ _ _ _ _ X k r' c q i Hr' Hc Hp Hi). apply Rplus_le_compat_l.
    destruct (flag_perfect_plasticity _); [lra|]. apply hardening_mono; [|exact Hq|lia].
    apply Rmult_le_pos; [exact Hm|]. apply Rlt_le, Rinv_0_lt_compat, Hchi.
  - intros c n q D Hc Hn Hp.
    destruct (C94_damage_follows_the_largest_opening _ _ _ _ _ _ _ _ _ X j r c n q Hr D Hc Hn Hp) as [A1 A2].
    destruct (C94_damage_follows_the_largest_opening _ _ _ _ _ _ _ _ _ X k r' c n q Hr' D Hc Hn Hp) as [B1 B2].
    assert (M := largest_mono (S j) (S k) (map fst steps) (map st_trial acc) c n q ltac:(lia)). cbv zeta in *.
    rewrite A1, A2, B1, B2. split; [exact M|]. eexists. eexists. split; [reflexivity|]. split; [reflexivity|].
    set (m1 := largest_opening _ _ _ _ _) in *. pose proof (largest_nonneg (firstn (S j) (map fst steps)) (firstn (S j) (map st_trial acc)) c n q) as Z. fold m1 in Z.
    set (m2 := largest_opening (firstn (S k) _) _ _ _ _) in *.
    unfold damage_after. destruct (i_zero_damage (b_iprm b0)); [lra|]. fold (exponential_damage m1 (i_crit_opening (b_iprm b0))).
    fold (exponential_damage m2 (i_crit_opening (b_iprm b0))).
    pose proof (exponential_damage_range m1 (i_crit_opening (b_iprm b0)) Z Hd). pose proof (exponential_damage_range m2 (i_crit_opening (b_iprm b0)) ltac:(lra) Hd).
    pose proof (exponential_damage_mono m1 m2 (i_crit_opening (b_iprm b0)) Z M Hd). lra.
Qed.
