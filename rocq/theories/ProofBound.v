(** * Linear functionals of finitely many variables, growth and continuity (used for C109). *)
From Coq Require Import List Reals Lra Lia Rtopology.
From Verif Require Import Num SumLemmas Tensors ModelActiveSet ModelLinear SpecLinear PropLinear SpecStiffness PropEnergy PropStiffness.
Import ListNotations.
Open Scope R_scope.

Definition unit_at (d : nat) : vec := fun i => kron i d.
Definition linear_on (n : nat) (l : vec -> R) : Prop :=
  (forall a x y, l (fun i => a * x i + y i) = a * l x + l y) /\ (forall x y, (forall d, (d < n)%nat -> x d = y d) -> l x = l y).
Lemma linear_zero n l : linear_on n l -> l (fun _ => 0) = 0.
Proof. intros (A & B). pose proof (A (-1) (fun _ => 0) (fun _ => 0)) as E. cbv beta in E. rewrite (B (fun i => -1 * 0 + 0) (fun _ => 0)) in E by (intros; ring). lra. Qed.
Lemma linear_scal n l a x : linear_on n l -> l (fun i => a * x i) = a * l x.
Proof.
  intros H. pose proof H as (A & B). pose proof (linear_zero n l H) as Z. rewrite (B (fun i => a * x i) (fun i => a * x i + (fun _ => 0) i)) by (intros; cbv beta; ring).
  rewrite A, Z. ring.
Qed.
Lemma linear_expansion n l x : linear_on n l -> l x = sumn n (fun d => x d * l (unit_at d)).
Proof.
  intros H. pose proof H as (A & B).
  assert (G : forall m, (m <= n)%nat -> l (fun i => if Nat.ltb i m then x i else 0) = sumn m (fun d => x d * l (unit_at d))).
  { induction m as [|m IH]; intros Hm; cbn [sumn].
    - transitivity (l (fun _ => 0)); [apply B; intros d _; reflexivity|exact (linear_zero n l H)].
    - rewrite <- IH by lia. rewrite Rplus_comm, <- A. apply B. intros d Hd. unfold unit_at, kron. destruct (Nat.ltb_spec d (S m)) as [L1|L1], (Nat.eqb_spec d m) as [L2|L2], (Nat.ltb_spec d m) as [L3|L3]; try lia; try ring.
      subst d. ring. }
  rewrite <- G by lia. apply B. intros d Hd. destruct (Nat.ltb_spec d n); [reflexivity|lia].
Qed.

(** ** Functionals that only vanish together at zero bound the coordinates *)
Section Injective.
Variables (n : nat) (L : list (vec -> R)).
Hypothesis lin : forall l, In l L -> linear_on n l.
Hypothesis inj : forall x, (forall l, In l L -> l x = 0) -> forall d, (d < n)%nat -> x d = 0.
Definition gram (r s : nat) : R := lsum (fun l => l (unit_at r) * l (unit_at s)) L.
Lemma gram_row x r : sumn n (fun s => gram r s * x s) = lsum (fun l => l (unit_at r) * l x) L.
Proof.
  unfold gram. rewrite (sumn_ext n _ (fun s => lsum (fun l => l (unit_at r) * (x s * l (unit_at s))) L)).
  2:{ intros s _. rewrite <- lsum_scal_r. apply lsum_ext. intros; ring. }
  rewrite (lsum_ext (fun l => l (unit_at r) * l x) (fun l => sumn n (fun s => l (unit_at r) * (x s * l (unit_at s))))).
  2:{ intros l Hl. rewrite sumn_scal. f_equal. apply linear_expansion, lin, Hl. }
  clear. induction L as [|l M IH]; cbn [lsum]; [apply sumn_zero; reflexivity|]. rewrite sumn_plus, IH. reflexivity.
Qed.
Lemma gram_form v : quadratic n gram v v = lsum (fun l => l v * l v) L.
Proof.
  unfold quadratic. rewrite (sumn_ext n _ (fun r => lsum (fun l => v r * l (unit_at r) * l v) L)).
  2:{ intros r _. rewrite gram_row, <- lsum_scal. apply lsum_ext. intros; ring. }
  rewrite (lsum_ext (fun l => l v * l v) (fun l => sumn n (fun r => v r * l (unit_at r) * l v))).
  2:{ intros l Hl. rewrite sumn_scal_r. f_equal. apply linear_expansion, lin, Hl. }
  clear. induction L as [|l M IH]; cbn [lsum]; [apply sumn_zero; reflexivity|]. rewrite sumn_plus, IH. reflexivity.
Qed.
Lemma gram_definite v d : (d < n)%nat -> v d <> 0 -> 0 < quadratic n gram v v.
Proof.
  intros Hd Nz. rewrite gram_form. assert (P : 0 <= lsum (fun l => l v * l v) L) by (apply lsum_nonneg; intros; nra).
  destruct P as [P|P]; [exact P|]. exfalso. apply Nz. apply inj; [|exact Hd]. intros l Hl.
  pose proof (lsum_zero_each (fun l => l v * l v) L ltac:(intros; nra) (eq_sym P) l Hl) as Z. cbv beta in Z. nra.
Qed.
Lemma coordinate_bound d : (d < n)%nat -> exists K, 0 <= K /\ forall x, Rabs (x d) <= K * lsum (fun l => Rabs (l x)) L.
Proof.
  intros Hd. destruct (definite_solvable n gram gram_definite (unit_at d)) as (y & Y).
  assert (E : forall x, x d = lsum (fun l => l x * l y) L).
  { intros x. rewrite <- (sumn_kron_r n d x Hd). rewrite (sumn_ext n _ (fun r => lsum (fun l => x r * l (unit_at r) * l y) L)).
    2:{ intros r Hr. pose proof (Y r Hr) as Q. rewrite gram_row in Q. unfold unit_at in Q at 2. rewrite <- Q, <- lsum_scal. apply lsum_ext. intros; ring. }
    rewrite (lsum_ext (fun l => l x * l y) (fun l => sumn n (fun r => x r * l (unit_at r) * l y))).
    2:{ intros l Hl. rewrite sumn_scal_r. f_equal. apply linear_expansion, lin, Hl. }
    clear. induction L as [|l M IH]; cbn [lsum]; [apply sumn_zero; reflexivity|]. rewrite sumn_plus, IH. reflexivity. }
  exists (lsum (fun l => Rabs (l y)) L). split; [apply lsum_nonneg; intros; apply Rabs_pos|]. intros x. rewrite E. clear.
  assert (P : forall M : list (vec -> R), 0 <= lsum (fun l => Rabs (l y)) M /\ 0 <= lsum (fun l => Rabs (l x)) M /\ Rabs (lsum (fun l => l x * l y) M) <= lsum (fun l => Rabs (l y)) M * lsum (fun l => Rabs (l x)) M); [|apply P].
  induction M as [|l M (IH1 & IH2 & IH3)]; cbn [lsum]; [rewrite Rabs_R0; lra|]. pose proof (Rabs_pos (l y)). pose proof (Rabs_pos (l x)).
  split; [lra|]. split; [lra|]. eapply Rle_trans; [apply Rabs_triang|]. rewrite Rabs_mult. nra.
Qed.
Lemma coordinates_bound : exists K, 0 <= K /\ forall d x, (d < n)%nat -> Rabs (x d) <= K * lsum (fun l => Rabs (l x)) L.
Proof.
  assert (G : forall m, (m <= n)%nat -> exists K, 0 <= K /\ forall d x, (d < m)%nat -> Rabs (x d) <= K * lsum (fun l => Rabs (l x)) L); [|apply (G n (le_n n))].
  induction m as [|m IH]; intros Hm; [exists 0; split; [lra|intros; lia]|]. destruct IH as (K & K0 & HK); [lia|]. destruct (coordinate_bound m ltac:(lia)) as (K' & K0' & HK').
  exists (K + K'). split; [lra|]. intros d x Hd. assert (P : 0 <= lsum (fun l => Rabs (l x)) L) by (apply lsum_nonneg; intros; apply Rabs_pos).
  destruct (PeanoNat.Nat.eq_dec d m) as [->|Ne]; [specialize (HK' x)|specialize (HK d x ltac:(lia))]; nra.
Qed.

(** ** Functions that grow with all functionals have bounded level sets *)
Variables (f load : vec -> R).
Hypothesis load_linear : linear_on n load.
Lemma grows_together M a : (forall l, In l M -> exists z, forall x, a * Rabs (l x) - z <= f x) ->
  exists z, forall x, a * lsum (fun l => Rabs (l x)) M - z <= INR (length M) * f x.
Proof.
  induction M as [|l M IH]; intros H; [exists 0; intros x; cbn; lra|]. destruct IH as (z & Z); [intros; apply H; right; assumption|].
  destruct (H l (or_introl eq_refl)) as (z1 & Z1). exists (z + z1). intros x. specialize (Z x). specialize (Z1 x). cbn [lsum length]. rewrite S_INR. lra.
Qed.
Lemma slowest M : (forall l, In l M -> exists a z, 0 < a /\ forall x, a * Rabs (l x) - z <= f x) ->
  exists a, 0 < a /\ forall l, In l M -> exists z, forall x, a * Rabs (l x) - z <= f x.
Proof.
  induction M as [|l M IH]; intros H; [exists 1; split; [lra|intros l []]|]. destruct IH as (a & A & Z); [intros; apply H; right; assumption|].
  destruct (H l (or_introl eq_refl)) as (a1 & z1 & A1 & Z1). exists (Rmin a a1). split; [apply Rmin_pos; assumption|].
  intros l' [<-|I].
  - exists z1. intros x. specialize (Z1 x). pose proof (Rmin_r a a1). pose proof (Rabs_pos (l x)). nra.
  - destruct (Z l' I) as (z & Zz). exists z. intros x. specialize (Zz x). pose proof (Rmin_l a a1). pose proof (Rabs_pos (l' x)). nra.
Qed.
Lemma level_bounded : 
  ((forall x, load x = 0) /\ forall l, In l L -> exists a z, 0 < a /\ forall x, a * Rabs (l x) - z <= f x) \/
  (forall l a, In l L -> exists z, forall x, a * Rabs (l x) - z <= f x) ->
  forall c, exists B, 0 < B /\ forall x, f x - load x <= c -> forall d, (d < n)%nat -> Rabs (x d) <= B.
Proof.
  intros H c. destruct coordinates_bound as (K & K0 & HK). set (N := INR (length L)). assert (N0 : 0 <= N) by apply pos_INR.
  set (Lm := sumn n (fun d => Rabs (load (unit_at d)) * K)). assert (L0 : 0 <= Lm) by (apply sumn_nonneg; intros; apply Rmult_le_pos; [apply Rabs_pos|exact K0]).
  assert (LB : forall x, load x <= Lm * lsum (fun l => Rabs (l x)) L).
  { intros x. rewrite (linear_expansion n load x load_linear). unfold Lm. rewrite <- sumn_scal_r. apply sumn_le. intros d Hd. specialize (HK d x Hd).
    eapply Rle_trans; [apply Rle_abs|]. rewrite Rabs_mult. rewrite (Rmult_comm (Rabs (x d))), Rmult_assoc. apply Rmult_le_compat_l; [apply Rabs_pos|exact HK]. }
  assert (G : exists a z, 0 < a /\ forall x, f x - load x <= c -> a * lsum (fun l => Rabs (l x)) L <= N * c + z).
  { destruct H as [(Z & H)|H].
    - destruct (slowest L H) as (a & A & H'). destruct (grows_together L a H') as (z & Zz). exists a, z. split; [exact A|].
      intros x Hx. specialize (Zz x). rewrite Z in Hx. fold N in Zz. nra.
    - destruct (grows_together L (N * Lm + 1) (fun l Hl => H l _ Hl)) as (z & Zz). exists 1, z. split; [lra|].
      intros x Hx. specialize (Zz x). specialize (LB x). fold N in Zz. assert (N * f x <= N * (c + Lm * lsum (fun l => Rabs (l x)) L)) by (apply Rmult_le_compat_l; lra). lra. }
  destruct G as (a & z & A & G). exists (Rabs (K * ((N * c + z) / a)) + 1). split; [pose proof (Rabs_pos (K * ((N * c + z) / a))); lra|].
  intros x Hx d Hd. specialize (G x Hx). eapply Rle_trans; [apply HK, Hd|]. 
  assert (Q : lsum (fun l => Rabs (l x)) L <= (N * c + z) / a). { apply (Rmult_le_reg_l a); [exact A|]. replace (a * ((N * c + z) / a)) with (N * c + z) by (field; lra). exact G. }
  eapply Rle_trans; [apply Rmult_le_compat_l; [exact K0|exact Q]|]. pose proof (Rle_abs (K * ((N * c + z) / a))). lra.
Qed.
End Injective.

(** ** Continuity in finitely many variables *)
Definition continuous_on (n : nat) (f : vec -> R) : Prop := forall x e, 0 < e -> exists t, 0 < t /\ forall y, (forall i, (i < n)%nat -> Rabs (y i - x i) <= t) -> Rabs (f y - f x) <= e.
Lemma cont_const n a : continuous_on n (fun _ => a).
Proof. intros x e He. exists 1. split; [lra|]. intros y _. replace (a - a) with 0 by ring. rewrite Rabs_R0. lra. Qed.
Lemma cont_ext n f g : (forall x, f x = g x) -> continuous_on n f -> continuous_on n g.
Proof. intros E H x e He. destruct (H x e He) as (t & Ht & T). exists t. split; [exact Ht|]. intros y Y. rewrite <- !E. apply T, Y. Qed.
Lemma cont_plus n f g : continuous_on n f -> continuous_on n g -> continuous_on n (fun x => f x + g x).
Proof.
  intros F G x e He. destruct (F x (e / 2) ltac:(lra)) as (t & Ht & T). destruct (G x (e / 2) ltac:(lra)) as (s & Hs & T').
  exists (Rmin t s). split; [apply Rmin_pos; assumption|]. intros y Y.
  pose proof (T y (fun i Hi => Rle_trans _ _ _ (Y i Hi) (Rmin_l t s))) as A. pose proof (T' y (fun i Hi => Rle_trans _ _ _ (Y i Hi) (Rmin_r t s))) as B.
  replace (f y + g y - (f x + g x)) with ((f y - f x) + (g y - g x)) by ring. eapply Rle_trans; [apply Rabs_triang|lra].
Qed.
Lemma cont_comp n f (g : R -> R) : continuity g -> continuous_on n f -> continuous_on n (fun x => g (f x)).
Proof.
  intros G F x e He. destruct (G (f x) e He) as (a & Ha & A). destruct (F x (a / 2) ltac:(lra)) as (t & Ht & T).
  exists t. split; [exact Ht|]. intros y Y. destruct (Req_dec (f y) (f x)) as [->|Ne]; [replace (g (f x) - g (f x)) with 0 by ring; rewrite Rabs_R0; lra|].
  left. apply A. split; [split; [exact I|auto]|]. cbn. unfold R_dist. specialize (T y Y). lra.
Qed.
Lemma cont_scal n a f : continuous_on n f -> continuous_on n (fun x => a * f x).
Proof. intros F. apply (cont_comp n f (fun z => a * z)); [|exact F]. apply continuity_mult; [apply continuity_const; intros u v; reflexivity|apply derivable_continuous, derivable_id]. Qed.
Lemma cont_opp n f : continuous_on n f -> continuous_on n (fun x => - f x).
Proof. intros F. apply (cont_ext n (fun x => -1 * f x)); [intros; ring|apply cont_scal, F]. Qed.
Lemma cont_sumn n m (f : nat -> vec -> R) : (forall i, (i < m)%nat -> continuous_on n (f i)) -> continuous_on n (fun x => sumn m (fun i => f i x)).
Proof. intros H. induction m as [|m IH]; cbn [sumn]; [apply cont_const|]. apply cont_plus; [apply IH; intros; apply H; lia|apply H; lia]. Qed.
Lemma cont_lsum {A} n (l : list A) (f : A -> vec -> R) : (forall i, In i l -> continuous_on n (f i)) -> continuous_on n (fun x => lsum (fun i => f i x) l).
Proof. intros H. induction l as [|i l IH]; cbn [lsum]; [apply cont_const|]. apply cont_plus; [apply H; left; reflexivity|apply IH; intros; apply H; right; assumption]. Qed.
Lemma cont_coordinate n d : (d < n)%nat -> continuous_on n (fun x => x d).
Proof. intros Hd x e He. exists e. split; [exact He|]. intros y Y. apply Y, Hd. Qed.
Lemma cont_linear n l : linear_on n l -> continuous_on n l.
Proof.
  intros H. apply (cont_ext n (fun x => sumn n (fun d => l (unit_at d) * x d))).
  - intros x. rewrite (linear_expansion n l x H). apply sumn_ext. intros; ring.
  - apply (cont_sumn n n (fun d x => l (unit_at d) * x d)). intros d Hd. apply cont_scal, cont_coordinate, Hd.
Qed.
