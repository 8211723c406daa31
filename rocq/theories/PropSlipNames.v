(** * C62: what the slips are called in the output. *)
From Coq Require Import String Ascii Decimal DecimalNat DecimalString Lia.
From Verif Require Import Num Tensors ModelPost PropOutput.
Open Scope string_scope.

Lemma string_of_uint_long d : (1 <= String.length (NilZero.string_of_uint d))%nat.
Proof. destruct d; cbn; lia. Qed.
(** Slip [a], counted from 0 in the program, is called "Slip_" followed by the decimal digits of
    [a + 1], with a zero in front when there is one digit only. *)
Theorem C62_slip_names : forall a, exists digits d,
  slip_name a = "Slip_" ++ digits /\ NilZero.uint_of_string digits = Some d /\ Nat.of_uint d = S a /\
  (2 <= String.length digits)%nat /\ ((a < 9)%nat -> exists c, digits = String "0"%char (String c EmptyString)) /\
  ((9 <= a)%nat -> digits = NilZero.string_of_uint (Nat.to_uint (S a))).
Proof.
  intros a. exists (two_digits (a + 1)). destruct (two_digits_value (a + 1)) as (d & D1 & D2). exists d.
  split; [reflexivity|]. split; [exact D1|]. split; [lia|].
  split; [|split].
  - unfold two_digits. pose proof (string_of_uint_long (Nat.to_uint (a + 1))) as L.
    destruct (Nat.ltb _ 2) eqn:E; [cbn [String.length]; lia|]. apply Nat.ltb_ge in E. exact E.
  - intros A. do 9 (destruct a as [|a]; [eexists; reflexivity|]). lia.
  - intros A. replace (a + 1)%nat with (S a) in * by lia. unfold two_digits. destruct (Nat.ltb _ 2) eqn:E; [|reflexivity]. exfalso. clear D1 D2.
    apply Nat.ltb_lt in E. pose proof (DecimalNat.Unsigned.of_to (S a)) as V. set (u := Nat.to_uint (S a)) in *. clearbody u.
    assert (Nat.of_uint u <= 9)%nat; [|lia]. clear V A.
    destruct u as [|u|u|u|u|u|u|u|u|u|u]; cbn in E; try (destruct u; cbn in E; try lia); cbn; lia.
Qed.
Example C62_slip_names_example : slip_name 0 = "Slip_01" /\ slip_name 8 = "Slip_09" /\ slip_name 9 = "Slip_10" /\ slip_name 11 = "Slip_12".
Proof. repeat split. Qed.
