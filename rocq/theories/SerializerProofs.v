(** Correctness of the serializers. *)
From Coq Require Import Ascii String NArith ZArith Bool PeanoNat Lia List.
Import ListNotations.
From Verif Require Import Util Base Lexer StringConv StringConvSpec StringConvProofs
  Serializer SerializerSpec.

(** * Joining *)

Lemma joined_det sep l r r' : joined sep l r -> joined sep l r' -> r = r'.
Proof.
  intros H. revert r'. induction H as [|s|s l r Hl H IH]; intros r' H'; inversion H'; subst; try easy.
  f_equal. f_equal. now apply IH.
Qed.

Lemma str_loop_spec v acc :
  v <> [] -> exists r, joined (lit " ") v r /\ str_loop acc (lit " ") v = acc ++ lit " " ++ r.
Proof.
  revert acc. induction v as [|s v IH]; intros acc H; [easy|].
  destruct v as [|s' v].
  - exists s. split; [constructor|]. cbn [str_loop]. now rewrite app_assoc.
  - destruct (IH ((acc ++ lit " ") ++ s)) as (r & Hr & E); [easy|].
    exists (s ++ lit " " ++ r). split; [now constructor|].
    change (str_loop acc (lit " ") (s :: s' :: v))
      with (str_loop ((acc ++ lit " ") ++ s) (lit " ") (s' :: v)).
    rewrite E. now rewrite !app_assoc.
Qed.

Lemma value_str_joined v : joined (lit " ") v (value_str v).
Proof.
  unfold value_str. destruct v as [|s v]; [constructor|].
  destruct v as [|s' v].
  - cbn. constructor.
  - change (str_loop [] (lit "") (s :: s' :: v)) with (str_loop s (lit " ") (s' :: v)).
    destruct (str_loop_spec (s' :: v) s) as (r & Hr & ->); [easy|]. now constructor.
Qed.

(** * NUL bytes *)

Lemma no_nul_nonul s : no_nul s <-> nonul s.
Proof.
  unfold no_nul, nonul. split.
  - intros H c Hc E. apply H. apply (uchar_inj_nat c 0) in E; [|lia]. now subst c.
  - intros H Hc. apply H in Hc. now vm_compute in Hc.
Qed.

Lemma c_str_no_nul s : no_nul s -> c_str s = s.
Proof. intros H. now apply c_str_nonul, no_nul_nonul. Qed.

Lemma no_nul_app a b : no_nul a -> no_nul b -> no_nul (a ++ b).
Proof. unfold no_nul. rewrite in_app_iff. tauto. Qed.

Lemma no_nul_lit s : forallb (fun c => negb (N.eqb (uchar c) 0)) s = true -> no_nul s.
Proof.
  rewrite forallb_forall. intros H Hc. specialize (H _ Hc). now vm_compute in H.
Qed.

Lemma joined_no_nul sep l r :
  no_nul sep -> value_no_nul l -> joined sep l r -> no_nul r.
Proof.
  intros Hs Hl H. induction H as [|s|s l r Hne H IH].
  - easy.
  - apply Hl. now left.
  - apply no_nul_app; [apply Hl; now left|].
    apply no_nul_app; [easy|]. apply IH. intros x Hx. apply Hl. now right.
Qed.

Lemma value_str_no_nul v : value_no_nul v -> no_nul (value_str v).
Proof.
  intros H. eapply joined_no_nul; [|exact H|apply value_str_joined]. now apply no_nul_lit.
Qed.

Lemma digits_no_nul s z : digits s z -> no_nul s.
Proof.
  intros H. apply digits_dval in H. destruct H as (_ & H & _).
  apply no_nul_nonul. intros c Hc. rewrite forallb_forall in H. now apply isdigit_nonul, H.
Qed.

Lemma printf_zu_no_nul n : no_nul (printf_zu n).
Proof. apply (digits_no_nul _ (Z.of_nat n)). apply dec_spec. lia. Qed.

Lemma before_nul_c_str s : before_nul s (c_str s).
Proof.
  induction s as [|c s IH]; cbn [c_str].
  - constructor. easy.
  - destruct (N.eqb_spec (uchar c) 0) as [E|E].
    + apply (uchar_inj_nat c 0) in E; [|lia]. subst c.
      apply (before_nul_some [] s). easy.
    + assert (K : forall a b, before_nul a b -> before_nul (c :: a) (c :: b)).
      { intros a b [s' H|s' r H].
        - constructor. intros [->|Hc]; [now vm_compute in E|easy].
        - apply (before_nul_some (c :: s') r). intros [->|Hc]; [now vm_compute in E|easy]. }
      now apply K.
Qed.

(** * Error texts *)

Lemma generic_error_plain name v :
  no_nul name -> value_no_nul v ->
  conversion_error name v None (createGenericError name v []).
Proof.
  intros Hn Hv. unfold createGenericError.
  rewrite (c_str_no_nul (value_str v)) by now apply value_str_no_nul.
  rewrite (c_str_no_nul name) by easy.
  constructor. apply value_str_joined.
Qed.

Lemma generic_error_detail name v d :
  no_nul name -> value_no_nul v -> d <> [] -> no_nul d ->
  conversion_error name v (Some d) (createGenericError name v d).
Proof.
  intros Hn Hv Hd Hd'. unfold createGenericError.
  rewrite (c_str_no_nul (value_str v)) by now apply value_str_no_nul.
  rewrite (c_str_no_nul name) by easy. rewrite (c_str_no_nul d) by easy.
  destruct d as [|c d]; [easy|].
  replace ((lit "Unable to convert '" ++ value_str v ++ lit "' to type '" ++ name ++ lit "'") ++ lit ": " ++ c :: d)
    with (lit "Unable to convert '" ++ value_str v ++ lit "' to type '" ++ name ++ lit "': " ++ c :: d).
  - constructor. apply value_str_joined.
  - rewrite <- !app_assoc. reflexivity.
Qed.

Lemma mismatch_text n m :
  mismatch_detail n m (lit "Expected " ++ printf_zu n ++ lit " subvalues, got " ++ printf_zu m).
Proof. constructor; apply dec_canonical; lia. Qed.

Lemma mismatched_error name v n :
  no_nul name -> value_no_nul v ->
  exists d, mismatch_detail n (length v) d /\
    conversion_error name v (Some d) (createMismatchedSubvaluesError name v n).
Proof.
  intros Hn Hv.
  exists (lit "Expected " ++ printf_zu n ++ lit " subvalues, got " ++ printf_zu (length v)).
  split; [apply mismatch_text|].
  apply generic_error_detail; try easy.
  repeat apply no_nul_app; try apply printf_zu_no_nul; now apply no_nul_lit.
Qed.

Lemma conversion_error_no_nul name v d e :
  no_nul name -> value_no_nul v -> (forall d', d = Some d' -> no_nul d') ->
  conversion_error name v d e -> no_nul e /\ e <> [].
Proof.
  intros Hn Hv Hd H. destruct H as [rep Hr|rep d Hr];
    apply joined_no_nul in Hr; try easy; try now apply no_nul_lit.
  - split; [|easy]. repeat apply no_nul_app; try easy; now apply no_nul_lit.
  - split; [|easy]. repeat apply no_nul_app; try easy; try now apply no_nul_lit. now apply Hd.
Qed.

(** * bytes_eqb *)

Lemma bytes_eqb_eq a b : bytes_eqb a b = true <-> a = b.
Proof.
  unfold bytes_eqb. revert b. induction a as [|x a IH]; intros [|y b]; cbn; try easy.
  specialize (IH b). rewrite andb_true_iff in IH. rewrite !andb_true_iff.
  rewrite Ascii.eqb_eq. split.
  - intros (H1 & -> & H2). f_equal. now apply IH.
  - intros [= -> H]. apply IH in H. tauto.
Qed.

Lemma bytes_eqb_spec a b : reflect (a = b) (bytes_eqb a b).
Proof.
  destruct (bytes_eqb a b) eqn:E; constructor.
  - now apply bytes_eqb_eq.
  - intros H. apply bytes_eqb_eq in H. congruence.
Qed.

Lemma bytes_eqb_refl a : bytes_eqb a a = true.
Proof. now apply bytes_eqb_eq. Qed.

(** * Booleans *)

Definition lower_word (w : bytes) : Prop :=
  Forall (fun l => 97 <= nat_of_ascii l <= 122) w.

Lemma char_val_nat sg c :
  char_val sg c = if sg && (128 <=? nat_of_ascii c)%nat
                  then (Z.of_nat (nat_of_ascii c) - 256)%Z else Z.of_nat (nat_of_ascii c).
Proof.
  unfold char_val. rewrite uchar_nat.
  replace (Z.of_N (N.of_nat (nat_of_ascii c))) with (Z.of_nat (nat_of_ascii c)) by lia.
  destruct sg; cbn [andb]; [|easy].
  destruct (Nat.leb_spec 128 (nat_of_ascii c)), (Z.leb_spec 128 (Z.of_nat (nat_of_ascii c))); lia.
Qed.

Lemma tolower_letter sg c l :
  97 <= nat_of_ascii l <= 122 ->
  ((tolower (char_val sg c) =? tolower (char_val sg l))%Z = true <->
   c = l \/ nat_of_ascii c + 32 = nat_of_ascii l).
Proof.
  intros Hl. rewrite Z.eqb_eq, !char_val_nat.
  pose proof (nat_ascii_bounded c) as Hc.
  assert (Hinj : c = l <-> nat_of_ascii c = nat_of_ascii l).
  { split; [now intros ->|]. intros E.
    rewrite <- (ascii_nat_embedding c), <- (ascii_nat_embedding l). now rewrite E. }
  rewrite Hinj. unfold tolower.
  destruct (Nat.leb_spec 128 (nat_of_ascii l)); [lia|].
  rewrite andb_false_r.
  destruct (Z.leb_spec 65 (Z.of_nat (nat_of_ascii l)));
    destruct (Z.leb_spec (Z.of_nat (nat_of_ascii l)) 90); try lia. cbn [andb].
  destruct (Nat.leb_spec 128 (nat_of_ascii c)); destruct sg; cbn [andb];
  repeat match goal with |- context [Z.leb ?a ?b] => destruct (Z.leb_spec a b) end; cbn [andb]; lia.
Qed.

Lemma equalCaseInsensitive_spells sg s w :
  lower_word w -> (equalCaseInsensitive sg s w = true <-> spells s w).
Proof.
  unfold equalCaseInsensitive, spells. revert w.
  induction s as [|c s IH]; intros [|l w] Hw; cbn [length Nat.eqb combine forallb andb fst snd].
  - split; [constructor|easy].
  - split; [easy|]. intros H; inversion H.
  - split; [easy|]. intros H; inversion H.
  - inversion Hw as [|? ? Hl Hw' E1]; subst. specialize (IH w Hw').
    rewrite !andb_true_iff in *. rewrite tolower_letter by easy. split.
    + intros (H1 & H2 & H3). constructor; [easy|]. now apply IH.
    + intros H. inversion H as [|? ? ? ? H1 H2]; subst. apply IH in H2. tauto.
Qed.

Lemma lower_true : lower_word (lit "true").
Proof. repeat apply Forall_cons; try (vm_compute; lia). apply Forall_nil. Qed.
Lemma lower_false : lower_word (lit "false").
Proof. repeat apply Forall_cons; try (vm_compute; lia). apply Forall_nil. Qed.

Lemma spells_length s w : spells s w -> length s = length w.
Proof. unfold spells. induction 1; cbn; congruence. Qed.

Lemma bool_from_true sg v :
  boolFromString sg v = Value true <->
  exists s, v = [s] /\ (s = lit "1" \/ spells s (lit "true")).
Proof.
  unfold boolFromString. destruct v as [|s [|s' v]].
  - split; [easy|]. intros (s & E & _). easy.
  - destruct (bytes_eqb_spec s (lit "1")) as [->|N1].
    { split; [|easy]. intros _. eexists; split; [reflexivity|]. now left. }
    destruct (bytes_eqb_spec s (lit "0")) as [->|N0].
    { split; [easy|]. intros (s & [= <-] & [E|E]); [easy|]. apply spells_length in E. easy. }
    destruct (equalCaseInsensitive sg s (lit "true")) eqn:Et.
    { apply equalCaseInsensitive_spells in Et; [|apply lower_true].
      split; [|easy]. intros _. exists s. auto. }
    split.
    + destruct (equalCaseInsensitive sg s (lit "false")); easy.
    + intros (s0 & [= <-] & [E|E]); [easy|].
      apply (equalCaseInsensitive_spells sg) in E; [congruence|apply lower_true].
  - split; [easy|]. intros (s0 & E & _). easy.
Qed.

Lemma bool_from_false sg v :
  boolFromString sg v = Value false <->
  exists s, v = [s] /\ (s = lit "0" \/ spells s (lit "false")).
Proof.
  unfold boolFromString. destruct v as [|s [|s' v]].
  - split; [easy|]. intros (s & E & _). easy.
  - destruct (bytes_eqb_spec s (lit "1")) as [->|N1].
    { split; [easy|]. intros (s & [= <-] & [E|E]); [easy|]. apply spells_length in E. easy. }
    destruct (bytes_eqb_spec s (lit "0")) as [->|N0].
    { split; [|easy]. intros _. eexists; split; [reflexivity|]. now left. }
    destruct (equalCaseInsensitive sg s (lit "true")) eqn:Et.
    { apply equalCaseInsensitive_spells in Et; [|apply lower_true].
      split; [easy|]. intros (s0 & [= <-] & [E|E]); [easy|].
      apply spells_length in E. apply spells_length in Et. cbn in *. lia. }
    destruct (equalCaseInsensitive sg s (lit "false")) eqn:Ef.
    { apply equalCaseInsensitive_spells in Ef; [|apply lower_false].
      split; [|easy]. intros _. exists s. auto. }
    split; [easy|]. intros (s0 & [= <-] & [E|E]); [easy|].
    apply (equalCaseInsensitive_spells sg) in E; [congruence|apply lower_false].
  - split; [easy|]. intros (s0 & E & _). easy.
Qed.

(** * Vectors *)

Lemma vector_loop_value T name input rest acc xs :
  vector_loop T name input rest acc = Value xs <->
  exists ys, xs = acc ++ ys /\ Forall2 (fun s x => from_value T [s] = Value x) rest ys.
Proof.
  revert acc. induction rest as [|s rest IH]; intros acc; cbn [vector_loop].
  - split.
    + intros [= <-]. exists []. rewrite app_nil_r. split; [easy|constructor].
    + intros (ys & -> & H). inversion H. now rewrite app_nil_r.
  - destruct (from_value T [s]) as [x|e] eqn:E.
    + rewrite IH. split.
      * intros (ys & -> & H). exists (x :: ys). rewrite <- app_assoc. split; [easy|]. now constructor.
      * intros (ys & -> & H). inversion H as [|? y ? ys' H1 H2]; subst.
        assert (x = y) by congruence. subst y.
        exists ys'. rewrite <- app_assoc. easy.
    + split; [easy|]. intros (ys & _ & H). inversion H; congruence.
Qed.

Lemma vector_loop_error T name input rest acc e :
  vector_loop T name input rest acc = Error e <->
  exists pre s post e0, rest = pre ++ s :: post /\
    Forall (fun s => exists x, from_value T [s] = Value x) pre /\
    from_value T [s] = Error e0 /\ e = createGenericError name input e0.
Proof.
  revert acc. induction rest as [|s rest IH]; intros acc; cbn [vector_loop].
  - split; [easy|]. intros ([|? ?] & s & post & e0 & E & _); easy.
  - destruct (from_value T [s]) as [x|e0] eqn:E.
    + rewrite IH. split.
      * intros (pre & s' & post & e0 & -> & H1 & H2 & ->).
        exists (s :: pre), s', post, e0. repeat split; try easy. constructor; [eauto|easy].
      * intros (pre & s' & post & e0 & Hs & H1 & H2 & ->).
        destruct pre as [|s1 pre]; cbn in Hs; injection Hs as -> ->; [congruence|].
        exists pre, s', post, e0. inversion H1; subst. easy.
    + split.
      * intros [= <-]. exists [], s, rest, e0. repeat split; try easy. 
      * intros (pre & s' & post & e1 & Hs & H1 & H2 & ->).
        destruct pre as [|s1 pre]; cbn in Hs; injection Hs as -> ->.
        -- rewrite E in H2. injection H2 as ->. easy.
        -- inversion H1 as [|? ? (x & Hx)]; congruence.
Qed.

Lemma vector_text_spec T xs acc :
  xs <> [] -> exists r, joined (lit ", ") (map (to_text T) xs) r /\
    vector_text T acc (lit ", ") xs = acc ++ lit ", " ++ r ++ lit "]".
Proof.
  revert acc. induction xs as [|x xs IH]; intros acc H; [easy|].
  destruct xs as [|x' xs].
  - exists (to_text T x). split; [constructor|]. cbn [vector_text]. now rewrite <- !app_assoc.
  - destruct (IH ((acc ++ lit ", ") ++ to_text T x)) as (r & Hr & E); [easy|].
    exists (to_text T x ++ lit ", " ++ r). split.
    + cbn [map]. constructor; [easy|]. exact Hr.
    + change (vector_text T acc (lit ", ") (x :: x' :: xs))
        with (vector_text T ((acc ++ lit ", ") ++ to_text T x) (lit ", ") (x' :: xs)).
      rewrite E. now rewrite <- !app_assoc.
Qed.

Lemma vector_to_text T xs :
  exists r, joined (lit ", ") (map (to_text T) xs) r /\
    to_text (vector_serializer T) xs = lit "[" ++ r ++ lit "]".
Proof.
  cbn [to_text vector_serializer]. destruct xs as [|x [|x' xs]].
  - exists []. split; [constructor|easy].
  - exists (to_text T x). split; [constructor|]. easy.
  - destruct (vector_text_spec T (x' :: xs) (lit "[" ++ to_text T x)) as (r & Hr & E); [easy|].
    exists (to_text T x ++ lit ", " ++ r). split.
    + cbn [map]. constructor; [easy|]. exact Hr.
    + change (vector_text T (lit "[") (lit "") (x :: x' :: xs))
        with (vector_text T (lit "[" ++ to_text T x) (lit ", ") (x' :: xs)).
      rewrite E. now rewrite <- !app_assoc.
Qed.

(** * Built-in types *)

(** The built-in scalar types; the floating-point ones with any conversion functions. *)
Inductive scalar (p : platform) (nm : naming) (sg : bool) : serializer -> Prop :=
| scalar_int : forall t, scalar p nm sg (int_serializer p nm t)
| scalar_float : forall T name (conv : bytes -> option T) show,
    In name [lit "float"; lit "double"; lit "long double"] ->
    scalar p nm sg (arith_serializer name conv show)
| scalar_bool : scalar p nm sg (bool_serializer sg)
| scalar_string : scalar p nm sg string_serializer.

(** The built-in types: scalars, coil::Value, vectors and optionals. *)
Inductive builtin (p : platform) (nm : naming) (sg : bool) : serializer -> Prop :=
| builtin_scalar : forall T, scalar p nm sg T -> builtin p nm sg T
| builtin_value : builtin p nm sg value_serializer
| builtin_vector : forall T, builtin p nm sg T -> builtin p nm sg (vector_serializer T)
| builtin_optional : forall T, builtin p nm sg T -> builtin p nm sg (optional_serializer T).

Lemma builtin_name p nm sg T : builtin p nm sg T -> no_nul (tname T).
Proof.
  induction 1 as [T H| |T H IH|T H IH].
  - destruct H as [t|T name conv show H| |]; cbn [tname int_serializer arith_serializer bool_serializer string_serializer].
    + destruct nm as [[] []], t; now apply no_nul_lit.
    + cbn in H. destruct H as [<-|[<-|[<-|[]]]]; now apply no_nul_lit.
    + now apply no_nul_lit.
    + now apply no_nul_lit.
  - now apply no_nul_lit.
  - cbn [tname vector_serializer]. apply no_nul_app; [now apply no_nul_lit|].
    apply no_nul_app; [easy|now apply no_nul_lit].
  - cbn [tname optional_serializer]. apply no_nul_app; [now apply no_nul_lit|].
    apply no_nul_app; [easy|now apply no_nul_lit].
Qed.

Lemma arith_error T name (conv : bytes -> option T) v e :
  no_nul name -> value_no_nul v ->
  arithmeticFromString name conv v = Error e ->
  (length v = 1 /\ conversion_error name v None e) \/
  (length v <> 1 /\ exists d, mismatch_detail 1 (length v) d /\ conversion_error name v (Some d) e).
Proof.
  intros Hn Hv. unfold arithmeticFromString. destruct v as [|s [|s' v]].
  - intros [= <-]. right. split; [easy|]. now apply mismatched_error.
  - destruct (conv s); [easy|]. intros [= <-]. left. split; [easy|]. now apply generic_error_plain.
  - intros [= <-]. right. split; [easy|]. now apply mismatched_error.
Qed.

Lemma scalar_error p nm sg T v e :
  scalar p nm sg T -> value_no_nul v -> from_value T v = Error e ->
  (length v = 1 /\ conversion_error (tname T) v None e) \/
  (length v <> 1 /\ exists d, mismatch_detail 1 (length v) d /\ conversion_error (tname T) v (Some d) e).
Proof.
  intros HT Hv. pose proof (builtin_name _ _ _ _ (builtin_scalar _ _ _ _ HT)) as Hn.
  destruct HT as [t|T name conv show H| |].
  - now apply arith_error.
  - now apply arith_error.
  - cbn [from_value bool_serializer]. unfold boolFromString. destruct v as [|s [|s' v]].
    + intros [= <-]. right. split; [easy|]. now apply mismatched_error.
    + destruct (bytes_eqb _ _); [easy|]. destruct (bytes_eqb _ _); [easy|].
      destruct (equalCaseInsensitive _ _ _); [easy|].
      destruct (equalCaseInsensitive _ _ _); [easy|].
      intros [= <-]. left. split; [easy|]. now apply generic_error_plain.
    + intros [= <-]. right. split; [easy|]. now apply mismatched_error.
  - cbn [from_value string_serializer]. unfold stringFromString. destruct v as [|s [|s' v]].
    + intros [= <-]. right. split; [easy|]. now apply mismatched_error.
    + easy.
    + intros [= <-]. right. split; [easy|]. now apply mismatched_error.
Qed.

Lemma mismatch_detail_no_nul n m d : mismatch_detail n m d -> no_nul d.
Proof.
  assert (C : forall z s, canonical z s -> (0 <= z)%Z -> no_nul s).
  { intros z s H. inversion H as [|c ds z0 H0 Hd Hc|z0 s0 H0 H1]; subst; intros Hz.
    - now apply no_nul_lit.
    - now apply (digits_no_nul _ z).
    - lia. }
  intros [a b Ha Hb]. apply no_nul_app; [now apply no_nul_lit|].
  apply no_nul_app; [apply (C _ _ Ha); lia|].
  apply no_nul_app; [now apply no_nul_lit|]. apply (C _ _ Hb); lia.
Qed.

Lemma single_no_nul v s : value_no_nul v -> In s v -> value_no_nul [s].
Proof. intros H Hs x [<-|[]]. now apply H. Qed.

Lemma optional_error_inv T v e :
  from_value (optional_serializer T) v = Error e <->
  exists s r e0, v = s :: r /\ s <> [] /\ from_value T [s] = Error e0 /\
    e = createGenericError (tname (optional_serializer T)) v e0.
Proof.
  cbn [from_value optional_serializer tname]. destruct v as [|[|c s] r].
  - split; [easy|]. intros (s & r & e0 & E & _). easy.
  - split; [easy|]. intros (s & r0 & e0 & [= <- <-] & H & _). easy.
  - match goal with |- context [match ?y with Value _ => _ | Error _ => _ end] =>
      destruct y as [x|e0] eqn:E end.
    + split; [easy|]. intros (s0 & r0 & e0 & [= <- <-] & _ & H & _).
      discriminate (eq_trans (eq_sym E) H).
    + split.
      * intros [= <-]. exists (c :: s), r, e0. repeat split; try easy. 
      * intros (s0 & r0 & e1 & [= <- <-] & _ & H & ->).
        pose proof (eq_trans (eq_sym E) H) as X. now injection X as ->.
Qed.

Lemma builtin_error p nm sg T :
  builtin p nm sg T -> forall v e, value_no_nul v -> from_value T v = Error e ->
  no_nul e /\ e <> [] /\ exists d, conversion_error (tname T) v d e.
Proof.
  induction 1 as [T H| |T H IH|T H IH]; intros v e Hv E.
  - assert (Hn : no_nul (tname T)) by (apply (builtin_name p nm sg); now constructor).
    destruct (scalar_error _ _ _ _ _ _ H Hv E) as [[_ Hc]|(_ & d & Hm & Hc)].
    + assert (Hd : forall d', @None bytes = Some d' -> no_nul d') by easy.
      destruct (conversion_error_no_nul _ _ _ _ Hn Hv Hd Hc). eauto.
    + apply mismatch_detail_no_nul in Hm.
      assert (Hd : forall d', Some d = Some d' -> no_nul d') by now intros ? [= <-].
      destruct (conversion_error_no_nul _ _ _ _ Hn Hv Hd Hc). eauto.
  - easy.
  - assert (Hn : no_nul (tname (vector_serializer T)))
      by (apply (builtin_name p nm sg); now constructor).
    cbn [from_value vector_serializer] in E. apply vector_loop_error in E.
    destruct E as (pre & s & post & e0 & Hs & _ & E0 & ->).
    destruct (IH [s] e0) as (N0 & Ne & _); [|easy|].
    { apply (single_no_nul v); [easy|]. rewrite Hs. apply in_elt. }
    pose proof (generic_error_detail (tname (vector_serializer T)) v e0 Hn Hv Ne N0) as Hc.
    assert (Hd : forall d', Some e0 = Some d' -> no_nul d') by now intros ? [= <-].
    destruct (conversion_error_no_nul _ _ _ _ Hn Hv Hd Hc).
    split; [easy|]. split; [easy|]. eexists. exact Hc.
  - assert (Hn : no_nul (tname (optional_serializer T)))
      by (apply (builtin_name p nm sg); now constructor).
    apply optional_error_inv in E. destruct E as (s & r & e0 & Hs & _ & E0 & ->).
    destruct (IH [s] e0) as (N0 & Ne & _); [|easy|].
    { apply (single_no_nul v); [easy|]. rewrite Hs. now left. }
    pose proof (generic_error_detail (tname (optional_serializer T)) v e0 Hn Hv Ne N0) as Hc.
    assert (Hd : forall d', Some e0 = Some d' -> no_nul d') by now intros ? [= <-].
    destruct (conversion_error_no_nul _ _ _ _ Hn Hv Hd Hc).
    split; [easy|]. split; [easy|]. eexists. exact Hc.
Qed.

(** Any value, with NUL bytes as well: the text stops at the first NUL. *)
Lemma generic_error_nul name v d :
  exists rep rep' name' d',
    joined (lit " ") v rep /\ before_nul rep rep' /\ before_nul name name' /\ before_nul d d' /\
    createGenericError name v d =
      lit "Unable to convert '" ++ rep' ++ lit "' to type '" ++ name' ++ lit "'" ++
      match d with [] => [] | _ => lit ": " ++ d' end.
Proof.
  exists (value_str v), (c_str (value_str v)), (c_str name), (c_str d).
  split; [apply value_str_joined|]. split; [apply before_nul_c_str|].
  split; [apply before_nul_c_str|]. split; [apply before_nul_c_str|].
  unfold createGenericError. destruct d; rewrite ?app_nil_r, <- ?app_assoc; reflexivity.
Qed.
