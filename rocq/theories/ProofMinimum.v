(** * Minima of convex functions of finitely many variables (used for C109). *)
From Coq Require Import List Reals Lra Lia ConstructiveEpsilon Rtopology Rseries.
From Verif Require Import Num SumLemmas Tensors.
Import ListNotations.
Open Scope R_scope.

(** ** Bounded sequences of vectors have convergent subsequences *)
Definition grows (s : nat -> nat) : Prop := forall k, (s k < s (S k))%nat.
Lemma grows_le s : grows s -> forall i j, (i <= j)%nat -> (s i <= s j)%nat.
Proof. intros G i j H. induction H as [|j H IH]; [lia|]. specialize (G j). lia. Qed.
Lemma grows_id s : grows s -> forall k, (k <= s k)%nat.
Proof. intros G k. induction k as [|k IH]; [lia|]. specialize (G k). lia. Qed.
Lemma grows_comp s t : grows s -> grows t -> grows (fun k => s (t k)).
Proof. intros Gs Gt k. pose proof (Gt k) as H. pose proof (grows_le s Gs (S (t k)) (t (S k)) ltac:(lia)). pose proof (Gs (t k)). lia. Qed.
Lemma cv_sub u l s : grows s -> Un_cv u l -> Un_cv (fun k => u (s k)) l.
Proof. intros G H e He. destruct (H e He) as (N & HN). exists N. intros k Hk. apply HN. pose proof (grows_id s G k). lia. Qed.
Section Extract.
Variables (u : nat -> R) (l : R).
Hypothesis adherent : ValAdh u l.
Lemma close_later k N : exists p, (N <= p)%nat /\ Rabs (u p - l) < / INR (k + 1).
Proof.
  assert (P : 0 < / INR (k + 1)) by (apply Rinv_0_lt_compat, lt_0_INR; lia).
  destruct (adherent (disc l (mkposreal _ P)) N) as (p & A & B); [exists (mkposreal _ P); intros z Z; exact Z|]. exists p. split; [exact A|exact B].
Qed.
Lemma close_dec k N p : {(N <= p)%nat /\ Rabs (u p - l) < / INR (k + 1)} + {~ ((N <= p)%nat /\ Rabs (u p - l) < / INR (k + 1))}.
Proof.
  destruct (Compare_dec.le_dec N p) as [A|A]; [|right; tauto]. destruct (Rlt_dec (Rabs (u p - l)) (/ INR (k + 1))) as [B|B]; [left; tauto|right; tauto].
Qed.
Definition pick (k N : nat) : nat := proj1_sig (constructive_indefinite_ground_description_nat _ (close_dec k N) (close_later k N)).
Lemma pick_spec k N : (N <= pick k N)%nat /\ Rabs (u (pick k N) - l) < / INR (k + 1).
Proof. unfold pick. exact (proj2_sig (constructive_indefinite_ground_description_nat _ (close_dec k N) (close_later k N))). Qed.
Fixpoint subsequence (k : nat) : nat := match k with O => pick 0 0 | S k' => pick k (S (subsequence k')) end.
Lemma subsequence_cv : grows subsequence /\ Un_cv (fun k => u (subsequence k)) l.
Proof.
  split; [intros k; cbn [subsequence]; pose proof (proj1 (pick_spec (S k) (S (subsequence k)))); lia|].
  intros e He. destruct (archimed_cor1 e He) as (N & A & B). exists N. intros k Hk. unfold R_dist.
  assert (C : Rabs (u (subsequence k) - l) < / INR (k + 1)) by (destruct k; [apply (pick_spec 0 0)|apply (pick_spec (S k) (S (subsequence k)))]).
  assert (D : / INR (k + 1) <= / INR N) by (apply Rinv_le_contravar; [apply lt_0_INR; lia|apply le_INR; lia]). lra.
Qed.
End Extract.
Lemma convergent_subsequence B (u : nat -> nat -> R) : forall n, (forall k d, (d < n)%nat -> - B <= u k d <= B) ->
  exists s x, grows s /\ forall d, (d < n)%nat -> Un_cv (fun k => u (s k) d) (x d).
Proof.
  induction n as [|n IH]; intros H; [exists (fun k => k), (fun _ => 0); split; [intros k; lia|intros; lia]|].
  destruct IH as (s & x & G & CV); [intros; apply H; lia|].
  destruct (Bolzano_Weierstrass (fun k => u (s k) n) (fun z => - B <= z <= B) (compact_P3 _ _) (fun k => H (s k) n ltac:(lia))) as (l & A).
  destruct (subsequence_cv _ _ A) as (G2 & CV2). set (t := subsequence _ l A) in *.
  exists (fun k => s (t k)), (fun d => if Nat.eqb d n then l else x d). split; [apply grows_comp; assumption|].
  intros d Hd. destruct (Nat.eqb_spec d n) as [->|Ne]; [exact CV2|]. apply (cv_sub (fun k => u (s k) d) (x d) t G2). apply CV. lia.
Qed.

(** ** The least value on a grid *)
Definition put (v : vec) (d : nat) (z : R) : vec := fun i => if Nat.eqb i d then z else v i.
Definition mark (B : R) (m i : nat) : R := - B + 2 * B * INR i / INR m.
Fixpoint grid (B : R) (m n : nat) : list vec :=
  match n with O => [fun _ => 0] | S n' => flat_map (fun v => map (fun i => put v n' (mark B m i)) (seq 0 (S m))) (grid B m n') end.
Lemma mark_range B m i : 0 < B -> (0 < m)%nat -> (i <= m)%nat -> - B <= mark B m i <= B.
Proof.
  intros HB Hm Hi. unfold mark. assert (P : 0 < INR m) by (apply lt_0_INR; exact Hm). pose proof (le_INR _ _ Hi). pose proof (pos_INR i).
  assert (Q : 0 <= INR i / INR m <= 1).
  { split; [apply Rmult_le_pos; [assumption|left; apply Rinv_0_lt_compat, P]|]. apply (Rmult_le_reg_r (INR m)); [exact P|]. unfold Rdiv. rewrite Rmult_assoc, Rinv_l by lra. lra. }
  replace (2 * B * INR i / INR m) with (2 * B * (INR i / INR m)) by (unfold Rdiv; ring). nra.
Qed.
Lemma grid_range B m n : 0 < B -> (0 < m)%nat -> forall v, In v (grid B m n) -> forall d, - B <= v d <= B.
Proof.
  intros HB Hm. induction n as [|n IH]; cbn [grid]; intros v V d.
  - destruct V as [<-|[]]. lra.
  - apply in_flat_map in V. destruct V as (w & W & V). apply in_map_iff in V. destruct V as (i & <- & I). apply in_seq in I. unfold put.
    destruct (Nat.eqb d n); [apply mark_range; [exact HB|exact Hm|lia]|apply IH, W].
Qed.
Lemma near_mark B m z : 0 < B -> (0 < m)%nat -> - B <= z <= B -> exists i, (i <= m)%nat /\ Rabs (mark B m i - z) <= 2 * B / INR m.
Proof.
  intros HB Hm Hz. assert (P : 0 < INR m) by (apply lt_0_INR; exact Hm).
  set (h := 2 * B / INR m). assert (Hh : 0 < h) by (unfold h; apply Rdiv_lt_0_compat; lra).
  assert (E : forall i, mark B m i = - B + h * INR i) by (intros i; unfold mark, h; field; lra).
  assert (G : forall j, (j <= m)%nat -> z <= - B + h * INR j -> exists i, (i <= m)%nat /\ Rabs (mark B m i - z) <= h).
  { induction j as [|j IH]; intros Hj Z.
    - exists 0%nat. split; [lia|]. rewrite E. cbn [INR] in *. rewrite Rmult_0_r, Rplus_0_r in *. assert (z = - B) as -> by lra. replace (- B - - B) with 0 by ring. rewrite Rabs_R0. lra.
    - destruct (Rle_dec z (- B + h * INR j)) as [L|L]; [apply IH; [lia|exact L]|]. exists (S j). split; [exact Hj|]. rewrite E. rewrite S_INR in *.
      rewrite Rabs_pos_eq by lra. lra. }
  apply (G m (le_n m)). unfold h. replace (2 * B / INR m * INR m) with (2 * B) by (field; lra). lra.
Qed.
Lemma near_grid B m n y : 0 < B -> (0 < m)%nat -> (forall d, (d < n)%nat -> - B <= y d <= B) ->
  exists v, In v (grid B m n) /\ forall d, (d < n)%nat -> Rabs (v d - y d) <= 2 * B / INR m.
Proof.
  intros HB Hm. induction n as [|n IH]; intros Hy; cbn [grid].
  - exists (fun _ => 0). split; [left; reflexivity|intros; lia].
  - destruct IH as (v & V & N); [intros; apply Hy; lia|]. destruct (near_mark B m (y n) HB Hm (Hy n ltac:(lia))) as (i & I & Ni).
    exists (put v n (mark B m i)). split.
    + apply in_flat_map. exists v. split; [exact V|]. apply in_map_iff. exists i. split; [reflexivity|apply in_seq; lia].
    + intros d Hd. unfold put. destruct (Nat.eqb_spec d n) as [->|Ne]; [exact Ni|apply N; lia].
Qed.
Fixpoint least (f : vec -> R) (l : list vec) (best : vec) : vec :=
  match l with [] => best | v :: l' => least f l' (if Rle_dec (f best) (f v) then best else v) end.
Lemma least_spec f l : forall best, f (least f l best) <= f best /\ (forall v, In v l -> f (least f l best) <= f v) /\ (least f l best = best \/ In (least f l best) l).
Proof.
  induction l as [|w l IH]; intros best; cbn [least]; [split; [lra|]; split; [intros v []|left; reflexivity]|].
  destruct (Rle_dec (f best) (f w)) as [L|L].
  - destruct (IH best) as (A & B & C). split; [exact A|]. split; [intros v [<-|V]; [lra|apply B, V]|]. destruct C as [C|C]; [left; exact C|right; right; exact C].
  - destruct (IH w) as (A & B & C). split; [lra|]. split; [intros v [<-|V]; [exact A|apply B, V]|]. right. destruct C as [C|C]; [left; symmetry; exact C|right; exact C].
Qed.

Lemma abs_between a t : Rabs a <= t <-> - t <= a <= t.
Proof. split; [intros H; pose proof (Rle_abs a); pose proof (Rle_abs (- a)) as K; rewrite Rabs_Ropp in K; lra|intros H; apply Rabs_le, H]. Qed.
(** ** A convex function with bounded level sets has a critical point *)
Lemma small_sum n g a t : 0 <= t -> (forall d, (d < n)%nat -> Rabs (a d) <= t) -> Rabs (sumn n (fun d => g d * a d)) <= sumn n (fun d => Rabs (g d)) * t.
Proof.
  intros Ht H. eapply Rle_trans; [apply sumn_abs_le|]. rewrite <- sumn_scal_r. apply sumn_le. intros d Hd. rewrite Rabs_mult.
  apply Rmult_le_compat_l; [apply Rabs_pos|apply H, Hd].
Qed.
Lemma all_close n (u : nat -> nat -> R) x : (forall d, (d < n)%nat -> Un_cv (fun k => u k d) (x d)) ->
  forall e, 0 < e -> exists N, forall k, (N <= k)%nat -> forall d, (d < n)%nat -> Rabs (u k d - x d) <= e.
Proof.
  intros H e He. induction n as [|n IH]; [exists 0%nat; intros; lia|].
  destruct IH as (N & HN); [intros; apply H; lia|]. destruct (H n (le_n _) e He) as (M & HM). exists (max N M). intros k Hk d Hd.
  destruct (PeanoNat.Nat.eq_dec d n) as [->|Ne]; [left; apply HM; lia|apply HN; lia].
Qed.
Lemma all_continuous n (F : vec -> nat -> R) x : (forall d e, (d < n)%nat -> 0 < e -> exists t, 0 < t /\ forall y, (forall i, (i < n)%nat -> Rabs (y i - x i) <= t) -> Rabs (F y d - F x d) <= e) ->
  forall e m, (m <= n)%nat -> 0 < e -> exists t, 0 < t /\ forall y, (forall i, (i < n)%nat -> Rabs (y i - x i) <= t) -> forall d, (d < m)%nat -> Rabs (F y d - F x d) <= e.
Proof.
  intros H e m Hm He. induction m as [|m IH]; [exists 1; split; [lra|intros; lia]|].
  destruct IH as (t & Ht & A); [lia|]. destruct (H m e ltac:(lia) He) as (s & Hs & B). exists (Rmin t s). split; [apply Rmin_pos; assumption|].
  intros y Y d Hd. destruct (PeanoNat.Nat.eq_dec d m) as [->|Ne].
  - apply B. intros i Hi. eapply Rle_trans; [apply Y, Hi|apply Rmin_r].
  - apply A; [|lia]. intros i Hi. eapply Rle_trans; [apply Y, Hi|apply Rmin_l].
Qed.
Section Critical.
Variables (n : nat) (f : vec -> R) (F : vec -> nat -> R) (B : R).
Hypothesis convex : forall x y, f x + sumn n (fun d => F x d * (y d - x d)) <= f y.
Hypothesis continuous : forall x d e, (d < n)%nat -> 0 < e -> exists t, 0 < t /\ forall y, (forall i, (i < n)%nat -> Rabs (y i - x i) <= t) -> Rabs (F y d - F x d) <= e.
Hypothesis HB : 0 < B.
Hypothesis bounded : forall x, f x <= f (fun _ => 0) -> forall d, (d < n)%nat -> Rabs (x d) <= B.
Definition best (k : nat) : vec := least f (grid B (S k) n) (fun _ => 0).
Lemma best_range k d : (d < n)%nat -> - B <= best k d <= B.
Proof.
  intros Hd. pose proof (least_spec f (grid B (S k) n) (fun _ => 0)) as (A & _). pose proof (bounded _ A d Hd) as C. unfold best.
  revert C. generalize (least f (grid B (S k) n) (fun _ => 0) d). intros z C. apply abs_between in C. exact C.
Qed.
Lemma best_least k y : (forall d, (d < n)%nat -> - B <= y d <= B) -> exists v, (forall d, (d < n)%nat -> Rabs (v d - y d) <= 2 * B / INR (S k)) /\ f (best k) <= f v.
Proof.
  intros Y. destruct (near_grid B (S k) n y HB ltac:(lia) Y) as (v & V & N). exists v. split; [exact N|].
  apply (proj1 (proj2 (least_spec f (grid B (S k) n) (fun _ => 0)))), V.
Qed.
Lemma minimum : exists x, forall y, f x <= f y.
Proof.
  destruct (convergent_subsequence B best n (fun k d Hd => best_range k d Hd)) as (s & x & G & CV). exists x.
  assert (M : forall y, (forall d, (d < n)%nat -> - B <= y d <= B) -> f x <= f y).
  { intros y Y. destruct (Rle_dec (f x) (f y)) as [L|L]; [exact L|]. exfalso. apply Rnot_le_lt in L.
    destruct (all_continuous n F y (continuous y) 1 n (le_n n) Rlt_0_1) as (t & Ht & C).
    set (P := sumn n (fun d => Rabs (F x d))). set (Q := sumn n (fun d => Rabs (F y d)) + INR n).
    assert (HP : 0 <= P) by (apply sumn_nonneg; intros; apply Rabs_pos).
    assert (HQ : 0 <= Q) by (apply Rplus_le_le_0_compat; [apply sumn_nonneg; intros; apply Rabs_pos|apply pos_INR]).
    set (r := Rmin t ((f x - f y) / (2 * (P + Q + 1)))).
    assert (Hr : 0 < r) by (apply Rmin_pos; [exact Ht|apply Rdiv_lt_0_compat; lra]).
    assert (Er : (P + Q) * r < f x - f y).
    { apply Rle_lt_trans with ((P + Q + 1) * ((f x - f y) / (2 * (P + Q + 1)))); [apply Rmult_le_compat; [lra|lra|lra|apply Rmin_r]|].
      replace ((P + Q + 1) * ((f x - f y) / (2 * (P + Q + 1)))) with ((f x - f y) / 2) by (field; lra). lra. }
    destruct (all_close n (fun k => best (s k)) x CV r Hr) as (N1 & A1).
    destruct (archimed_cor1 (r / (2 * B)) ltac:(apply Rdiv_lt_0_compat; lra)) as (N2 & A2 & A3).
    set (k := max N1 N2). specialize (A1 k ltac:(lia)).
    assert (Sm : 2 * B / INR (S (s k)) <= r).
    { pose proof (grows_id s G k) as Gk. assert (D : / INR (S (s k)) <= / INR N2) by (apply Rinv_le_contravar; [apply lt_0_INR; exact A3|apply le_INR; lia]).
      apply Rle_trans with (2 * B * (r / (2 * B))); [unfold Rdiv at 1; apply Rmult_le_compat_l; lra|]. replace (2 * B * (r / (2 * B))) with r by (field; lra). lra. }
    destruct (best_least (s k) y Y) as (v & V & L2).
    pose proof (convex x (best (s k))) as C1. pose proof (small_sum n (F x) (fun d => best (s k) d - x d) r ltac:(lra) A1) as S1. fold P in S1.
    apply abs_between in S1.
    assert (V' : forall d, (d < n)%nat -> Rabs (v d - y d) <= r) by (intros d Hd; eapply Rle_trans; [apply V, Hd|exact Sm]).
    pose proof (convex v y) as C2.
    assert (V2 : forall d, (d < n)%nat -> Rabs (y d - v d) <= r) by (intros d Hd; rewrite Rabs_minus_sym; apply V', Hd).
    pose proof (small_sum n (F v) (fun d => y d - v d) r ltac:(lra) V2) as S2. apply abs_between in S2.
    assert (Bd : sumn n (fun d => Rabs (F v d)) <= Q).
    { unfold Q. rewrite <- (Rmult_1_r (INR n)), <- (sumn_const n 1), <- sumn_plus. apply sumn_le. intros d Hd.
      assert (W : Rabs (F v d - F y d) <= 1) by (apply C; [|exact Hd]; intros i Hi; eapply Rle_trans; [apply V', Hi|apply Rmin_l]).
      replace (F v d) with (F y d + (F v d - F y d)) by ring. eapply Rle_trans; [apply Rabs_triang|]. lra. }
    assert (Bd' : sumn n (fun d => Rabs (F v d)) * r <= Q * r) by (apply Rmult_le_compat_r; lra). lra. }
  assert (O : f x <= f (fun _ => 0)) by (apply M; intros; lra).
  intros y. destruct (Rle_dec (f y) (f (fun _ => 0))) as [L|L]; [|lra].
  apply M. intros d Hd. apply abs_between. apply bounded; assumption.
Qed.
Lemma move x d t : (d < n)%nat -> sumn n (fun i => F (put x d (x d + t)) i * (x i - put x d (x d + t) i)) = - t * F (put x d (x d + t)) d.
Proof.
  intros Hd. rewrite (sumn_ext n _ (fun i => kron i d * (- t * F (put x d (x d + t)) i))).
  - apply (sumn_kron n d (fun i => - t * F (put x d (x d + t)) i) Hd).
  - intros i _. unfold put at 2. unfold kron. destruct (Nat.eqb_spec i d) as [->|Ne]; ring.
Qed.
Lemma near_move x d t : 0 <= t -> forall z, Rabs z <= t -> forall i, (i < n)%nat -> Rabs (put x d (x d + z) i - x i) <= t.
Proof.
  intros Ht z Hz i _. unfold put. destruct (Nat.eqb_spec i d) as [->|Ne].
  - replace (x d + z - x d) with z by ring. exact Hz.
  - replace (x i - x i) with 0 by ring. rewrite Rabs_R0. exact Ht.
Qed.
Theorem critical_point : exists x, forall d, (d < n)%nat -> F x d = 0.
Proof.
  destruct minimum as (x & M). exists x. intros d Hd. destruct (Req_dec (F x d) 0) as [E|Ne]; [exact E|]. exfalso.
  assert (Pos : 0 < Rabs (F x d)) by (apply Rabs_pos_lt, Ne).
  destruct (continuous x d (Rabs (F x d) / 2) Hd ltac:(lra)) as (t & Ht & C).
  assert (K : forall z, Rabs z <= t -> - z * F (put x d (x d + z)) d <= 0 /\ Rabs (F (put x d (x d + z)) d - F x d) <= Rabs (F x d) / 2).
  { intros z Hz. split; [|apply C; apply near_move; [lra|exact Hz]]. rewrite <- (move x d z Hd). pose proof (convex (put x d (x d + z)) x) as Q. specialize (M (put x d (x d + z))). lra. }
  destruct (K t ltac:(rewrite Rabs_pos_eq; lra)) as (K1 & K2). destruct (K (- t) ltac:(rewrite Rabs_Ropp, Rabs_pos_eq; lra)) as (K3 & K4).
  apply abs_between in K2. apply abs_between in K4. destruct (Rcase_abs (F x d)) as [Ng|Ps].
  - rewrite (Rabs_left _ Ng) in *. nra.
  - rewrite (Rabs_right _ Ps) in *. nra.
Qed.
End Critical.
