(** Properties C11-C14: integers as text. *)
From Coq Require Import Ascii String NArith ZArith Bool PeanoNat Lia List.
Import ListNotations.
From Verif Require Import Util Base StringConv StringConvSpec StringConvProofs.

(** * C11  Integers survive a print/parse round trip *)

Theorem C11_round_trip : forall p t v,
  in_range p t v -> fromString p t (toString t v) = Some v.
Proof. exact round_trip. Qed.

(** What is printed: the canonical decimal text. *)
Theorem C11_print_canonical : forall p t v,
  in_range p t v -> canonical v (toString t v).
Proof. exact toString_canonical. Qed.

(** Every canonical text of a value in range is accepted, whoever wrote it. *)
Theorem C11_canonical_accepted : forall p t s v,
  canonical v s -> in_range p t v -> fromString p t s = Some v.
Proof. exact canonical_parses. Qed.

Example C11_ex_min :
  in_range (Platform true Long32) CLLong (-9223372036854775808) /\
  toString CLLong (-9223372036854775808) = lit "-9223372036854775808" /\
  fromString (Platform true Long32) CLLong (lit "-9223372036854775808")
    = Some (-9223372036854775808)%Z.
Proof. split; [unfold in_range; cbn; lia|]. split; vm_compute; reflexivity. Qed.

Example C11_ex_uchar :
  in_range (Platform false Long64) CUChar 255 /\ toString CUChar 255 = lit "255".
Proof. split; [unfold in_range; cbn; lia|]. vm_compute; reflexivity. Qed.

(** * C12  Integer text is accepted exactly when it denotes a value of the type *)

Theorem C12_signed_accept_iff : forall p t s z,
  is_unsigned t = false ->
  (fromString p t s = Some z <-> denotes s z /\ in_range p t z).
Proof. exact from_signed. Qed.

Theorem C12_signed_reject_iff : forall p t s,
  is_unsigned t = false ->
  (fromString p t s = None <-> ~ exists z, denotes s z /\ in_range p t z).
Proof.
  intros p t s H. destruct (fromString p t s) as [z|] eqn:E.
  - split; [easy|]. intros N. exfalso. apply N. exists z. now apply C12_signed_accept_iff.
  - split; [|easy]. intros _ (z & Hz). apply C12_signed_accept_iff in Hz; [|easy]. congruence.
Qed.

(** The denoted number is unique. *)
Theorem C12_denotes_functional : forall s z z', denotes s z -> denotes s z' -> z = z'.
Proof. exact denotes_det. Qed.

Example C12_ex_accept :
  denotes (lit "  +0042") 42 /\
  fromString (Platform true Long64) CShort (lit "  +0042") = Some 42%Z.
Proof.
  split.
  - apply (denotes_intro (lit "  ") (lit "+") (fun z => z) (lit "0042") 42).
    + intros c H. cbn in H. unfold blank. destruct H as [<-|[<-|[]]]; vm_compute; auto.
    + constructor.
    + change (lit "0042") with ((([ascii_of_nat 48] ++ [ascii_of_nat 48]) ++ [ascii_of_nat 52]) ++ [ascii_of_nat 50]).
      change 42%Z with (10 * (10 * (10 * 0 + 0) + 4) + 2)%Z.
      repeat (apply digits_snoc || apply digits_one);
        [apply (digit_intro 0)|apply (digit_intro 0)|apply (digit_intro 4)|apply (digit_intro 2)]; lia.
  - vm_compute. reflexivity.
Qed.

Example C12_ex_reject :
  fromString (Platform true Long64) CShort (lit "32768") = None /\
  fromString (Platform true Long64) CShort (lit "1 ") = None /\
  fromString (Platform true Long64) CInt (lit "1" ++ [ascii_of_nat 0]) = None /\
  fromString (Platform true Long64) CInt (lit "") = None /\
  fromString (Platform true Long64) CInt (lit "- 1") = None /\
  fromString (Platform true Long64) CLLong (lit "9223372036854775808") = None.
Proof. repeat split; vm_compute; reflexivity. Qed.

(** * C13  Out-of-range integers never wrap *)

(** Full statement (false). *)
Definition C13_full_statement : Prop :=
  forall p t s z, fromString p t s = Some z -> denotes s z.

(** " -18446744073709551615" is accepted as the unsigned value 1. *)
Theorem C13_never_wraps_refuted :
  exists p t s z z0, fromString p t s = Some z /\ denotes s z0 /\ z <> z0.
Proof.
  exists (Platform true Long64), CUInt, (lit " -18446744073709551615"), 1%Z, (-18446744073709551615)%Z.
  split; [vm_compute; reflexivity|]. split; [|lia].
  apply denotes_subject. exists 18446744073709551615%Z, true.
  split; [vm_compute; reflexivity|]. split; [easy|]. split; [lia|reflexivity].
Qed.

Theorem C13_full_statement_fails : ~ C13_full_statement.
Proof.
  intros H. destruct C13_never_wraps_refuted as (p & t & s & z & z0 & E & D & N).
  apply N. eapply denotes_det; [eapply H; exact E|exact D].
Qed.

(** Missing for the full statement: unsigned types and texts that start with white
    space followed by a minus sign; C14_negative_exact says what happens there. *)
Theorem C13_never_wraps_partial : forall p t s z,
  is_unsigned t = false \/ ~ blank_minus s ->
  fromString p t s = Some z -> denotes s z /\ in_range p t z.
Proof.
  intros p t s z H E. destruct (is_unsigned t) eqn:Hu.
  - destruct H as [H|H]; [easy|]. apply unsigned_exact in E; tauto.
  - now apply from_signed in E.
Qed.

(** The value handed over always lies in the range of the type. *)
Theorem C13_result_in_range : forall p t s z,
  fromString p t s = Some z -> in_range p t z.
Proof.
  intros p t s z E. destruct (is_unsigned t) eqn:Hu.
  - apply from_unsigned in E; tauto.
  - apply from_signed in E; tauto.
Qed.

(** A literal outside the range is rejected. *)
Theorem C13_out_of_range_rejected_partial : forall p t s z,
  is_unsigned t = false \/ ~ blank_minus s ->
  denotes s z -> ~ in_range p t z -> fromString p t s = None.
Proof.
  intros p t s z H D R. destruct (fromString p t s) as [z'|] eqn:E; [|easy].
  exfalso. apply R. apply C13_never_wraps_partial in E; [|easy].
  destruct E as [D' R']. now rewrite (denotes_det _ _ _ D D').
Qed.

Example C13_ex :
  fromString (Platform true Long64) CUChar (lit "256") = None /\
  fromString (Platform true Long64) CULLong (lit "18446744073709551616") = None /\
  fromString (Platform true Long32) CUInt (lit "4294967295") = Some 4294967295%Z /\
  ~ blank_minus (lit "256").
Proof.
  repeat split; try (vm_compute; reflexivity).
  intros (ws & r & E & Hn & Hb). destruct ws as [|c ws]; [easy|].
  injection E as E1 E2. specialize (Hb c (or_introl eq_refl)). subst c.
  unfold blank in Hb. vm_compute in Hb.
  repeat match goal with H : _ \/ _ |- _ => destruct H end; easy.
Qed.

(** * C14  Unsigned types never accept a negative number *)

(** Full statement (false). *)
Definition C14_full_statement : Prop :=
  forall p t s z, is_unsigned t = true -> denotes s z -> (z < 0)%Z -> fromString p t s = None.

(** " -1" is accepted as 2^64-1. *)
Theorem C14_unsigned_negative_refuted :
  exists p t s z, is_unsigned t = true /\ denotes s z /\ (z < 0)%Z /\
    fromString p t s = Some 18446744073709551615%Z.
Proof.
  exists (Platform true Long64), CULong, (lit " -1"), (-1)%Z.
  split; [easy|]. split; [|split; [lia|vm_compute; reflexivity]].
  apply denotes_subject. exists 1%Z, true.
  split; [vm_compute; reflexivity|]. split; [easy|]. split; [lia|reflexivity].
Qed.

Theorem C14_full_statement_fails : ~ C14_full_statement.
Proof.
  intros H. destruct C14_unsigned_negative_refuted as (p & t & s & z & Hu & D & N & E).
  rewrite (H p t s z Hu D N) in E. easy.
Qed.

(** Missing for the full statement: texts starting with white space and a minus. *)
Theorem C14_unsigned_negative_partial : forall p t s z,
  is_unsigned t = true -> ~ blank_minus s ->
  denotes s z -> (z < 0)%Z -> fromString p t s = None.
Proof.
  intros p t s z Hu Hb D N. eapply C13_out_of_range_rejected_partial; eauto.
  unfold in_range. destruct t; try discriminate Hu; cbn; lia.
Qed.

(** For the texts not excluded, acceptance is exact. *)
Theorem C14_unsigned_accept_iff : forall p t s z,
  is_unsigned t = true -> ~ blank_minus s ->
  (fromString p t s = Some z <->
   denotes s z /\ in_range p t z /\ ~ exists r, s = ascii_of_nat 45 :: r).
Proof. exact unsigned_exact. Qed.

(** The excluded texts: exactly which negative numbers get in and as what. [route_bits]
    is 64 for the long long types and the width of long otherwise. *)
Theorem C14_negative_exact : forall p t s z0,
  is_unsigned t = true -> denotes s z0 -> (z0 < 0)%Z ->
  fromString p t s =
    (if match s with c :: _ => Ascii.eqb c (ascii_of_nat 45) | [] => true end then None
     else if (z0 <=? - 2 ^ route_bits p t)%Z then None
     else if (z0 + 2 ^ route_bits p t <=? type_max p t)%Z
          then Some (z0 + 2 ^ route_bits p t)%Z else None).
Proof. exact unsigned_negative. Qed.

Example C14_ex :
  fromString (Platform true Long64) CUInt (lit "-1") = None /\
  fromString (Platform true Long64) CUInt (lit " -1") = None /\
  fromString (Platform true Long32) CUInt (lit " -1") = Some 4294967295%Z.
Proof. repeat split; vm_compute; reflexivity. Qed.

(** * Assumptions *)
Print Assumptions C11_round_trip.
Print Assumptions C11_print_canonical.
Print Assumptions C11_canonical_accepted.
Print Assumptions C12_signed_accept_iff.
Print Assumptions C12_signed_reject_iff.
Print Assumptions C12_denotes_functional.
Print Assumptions C13_never_wraps_refuted.
Print Assumptions C13_full_statement_fails.
Print Assumptions C13_never_wraps_partial.
Print Assumptions C13_result_in_range.
Print Assumptions C13_out_of_range_rejected_partial.
Print Assumptions C14_unsigned_negative_refuted.
Print Assumptions C14_full_statement_fails.
Print Assumptions C14_unsigned_negative_partial.
Print Assumptions C14_unsigned_accept_iff.
Print Assumptions C14_negative_exact.
