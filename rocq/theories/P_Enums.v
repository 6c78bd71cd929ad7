(** Property C75: enumerations and flags of the examples. *)
From Coq Require Import Ascii String NArith ZArith Bool PeanoNat Lia List Sorting.Sorted.
Import ListNotations.
From Verif Require Import Base Lexer LexerSpec LexerProofs LexerMeta LexerMore StringConv StringConvSpec
  StringConvProofs Serializer SerializerSpec SerializerProofs Enums EnumsSpec EnumsProofs EnumsRead
  EnumsFlags P_Lexer.

Local Notation length := List.length.

(** * C75  Enumerations are read and shown by name *)

(** magic_enum's static_asserts reject an enumeration exactly if it has no enumerator between
    -128 and 128, or one with the value -129 or 130. *)
Theorem C75_compiles_iff : forall p e, declarable p e ->
  (values_compile p e false = true <->
   (exists v m, visible e v m) /\ forall m, ~ In (m, (-129)%Z) (e_decl e) /\ ~ In (m, 130%Z) (e_decl e)).
Proof.
  intros p e De.
  assert (Va : forall v, is_valid e v = true <-> exists m, In (m, v) (e_decl e)).
  { intros v. split.
    - intros H. exists (n e v). apply first_name_In, valid_first_name, H.
    - intros (m & I). destruct (is_valid e v) eqn:V; [reflexivity|]. exfalso.
      destruct (find (fun d => (snd d =? v)%Z) (e_decl e)) as [(m', v')|] eqn:F.
      + apply find_first in F. destruct F as (b & a & E & Ew & Hb). simpl in Ew. subst v'.
        assert (FN : first_name e v m') by now exists b, a.
        rewrite (first_name_valid p e De v m' FN) in V. discriminate.
      + apply (find_none _ _ F) in I. simpl in I. rewrite Z.eqb_refl in I. discriminate. }
  assert (Rg : forall m v, In (m, v) (e_decl e) -> (fst (limits p (e_under e)) <= v <= snd (limits p (e_under e)))%Z).
  { intros m v I. apply (proj1 (limits_range p e De (e_under e) v)). apply (proj1 (proj2 De) m v I). }
  assert (Ls : (0 <? length (values p e false)) = true <-> exists v m, visible e v m).
  { rewrite Nat.ltb_lt. split.
    - intros H. destruct (values p e false) as [|v l] eqn:E; [simpl in H; lia|].
      exists v. apply (In_values p e De). rewrite E. now left.
    - intros (v & V). apply (In_values p e De) in V. destruct (values p e false); [destruct V|simpl; lia]. }
  unfold values_compile. cbv zeta.
  assert (K : ((fst (limits p (e_under e)) <? reflected_min p e false)%Z = true ->
                reflected_min p e false = (-128)%Z) /\
    ((fst (limits p (e_under e)) <= -129)%Z ->
       (fst (limits p (e_under e)) <? reflected_min p e false)%Z = true /\
       reflected_min p e false = (-128)%Z) /\
    ((reflected_max p e false - reflected_min p e false + 1 <? snd (limits p (e_under e)))%Z = true ->
       reflected_max p e false = 128%Z) /\
    ((130 <= snd (limits p (e_under e)))%Z ->
      (reflected_max p e false - reflected_min p e false + 1 <? snd (limits p (e_under e)))%Z = true /\
      reflected_max p e false = 128%Z)).
  { unfold reflected_min, reflected_max. destruct (e_under e) as [|t].
    2: destruct p as [cs lw]; destruct t, cs, lw.
    all: vm_compute; repeat split; try congruence; try (intros H; elim H; reflexivity). }
  destruct K as (K1 & K2 & K3 & K4).
  rewrite !andb_true_iff, Ls, !negb_true_iff, !andb_false_iff. cbn [negb].
  unfold value_at. pose proof (reflected_bounds p e De) as (R1 & R2).
  split.
  - intros ((A & B) & L). split; [exact L|]. intros m. split; intros I.
    + destruct (K2 ltac:(specialize (Rg _ _ I); lia)) as (Q & M).
      destruct A as [[A|A]|A]; [congruence|discriminate|]. rewrite M in A. simpl in A.
      assert (is_valid e (-129) = true) by (apply Va; now exists m). congruence.
    + destruct (K4 ltac:(specialize (Rg _ _ I); lia)) as (Q & M).
      destruct B as [[B|B]|B]; [congruence|discriminate|].
      rewrite Z2Nat.id in B by lia.
      replace (reflected_max p e false - reflected_min p e false + 1 + 1 + reflected_min p e false)%Z
        with 130%Z in B by lia.
      assert (is_valid e 130 = true) by (apply Va; now exists m). congruence.
  - intros (L & N). split; [split|exact L].
    + destruct (fst (limits p (e_under e)) <? reflected_min p e false)%Z eqn:Q; [|now left; left].
      right. rewrite (K1 eq_refl). simpl. destruct (is_valid e (-129)) eqn:V; [|reflexivity].
      apply Va in V. destruct V as (m & V). now elim (proj1 (N m)).
    + destruct (reflected_max p e false - reflected_min p e false + 1 <? snd (limits p (e_under e)))%Z eqn:Q;
        [|now left; left].
      right. specialize (K3 eq_refl). rewrite Z2Nat.id by lia.
      replace (reflected_max p e false - reflected_min p e false + 1 + 1 + reflected_min p e false)%Z
        with 130%Z by lia.
      destruct (is_valid e 130) eqn:V; [|reflexivity].
      apply Va in V. destruct V as (m & V). now elim (proj2 (N m)).
Qed.

Lemma compiles_values : forall p e, values_compile p e false = true -> values p e false <> [].
Proof.
  intros p e H E. unfold values_compile in H. rewrite E in H. cbn [length] in H.
  change (0 <? 0) with false in H. rewrite andb_false_r in H. discriminate.
Qed.

(** Deciding [declarable] for the examples. *)
Definition letter_b (c : byte) : bool :=
  let x := nat_of_ascii c in
  (65 <=? x) && (x <=? 90) || (97 <=? x) && (x <=? 122) || Ascii.eqb c "_"%char.
Definition letter_or_digit_b (c : byte) : bool :=
  let x := nat_of_ascii c in letter_b c || (48 <=? x) && (x <=? 57).
Definition identifier_b (s : bytes) : bool :=
  match s with [] => false | c :: r => letter_b c && forallb letter_or_digit_b r end.
Fixpoint distinct_b (l : list bytes) : bool :=
  match l with [] => true | a :: l => negb (existsb (bytes_eqb a) l) && distinct_b l end.
Definition declarable_b (p : platform) (e : enumeration) : bool :=
  negb (existsb (Ascii.eqb (ascii_of_nat 0)) (e_type e)) &&
  forallb (fun d => identifier_b (fst d) && (fst (limits p (e_under e)) <=? snd d)%Z &&
                    (snd d <=? snd (limits p (e_under e)))%Z) (e_decl e) &&
  distinct_b (map fst (e_decl e)).

Lemma letter_b_ok : forall c, letter_b c = true -> letter c.
Proof.
  intros c H. unfold letter_b in H. rewrite !orb_true_iff, !andb_true_iff, !Nat.leb_le in H.
  unfold letter. destruct H as [[H|H]|H]; [lia|lia|]. right. right. now apply Ascii.eqb_eq.
Qed.

Lemma identifier_b_ok : forall s, identifier_b s = true -> identifier s.
Proof.
  intros [|c r] H; [discriminate|]. apply andb_true_iff in H. destruct H as (A & B).
  exists c, r. split; [reflexivity|]. split; [now apply letter_b_ok|].
  apply Forall_forall. intros d I. rewrite forallb_forall in B. specialize (B d I).
  unfold letter_or_digit_b in B. rewrite orb_true_iff, andb_true_iff, !Nat.leb_le in B.
  destruct B as [B|B]; [left; now apply letter_b_ok|now right].
Qed.

Lemma under_limits : forall p u z, under_range p u z <-> (fst (limits p u) <= z <= snd (limits p u))%Z.
Proof.
  intros p u z. destruct u as [|t]; [reflexivity|]. destruct p as [cs lw]; destruct t, cs, lw; reflexivity.
Qed.

Lemma declarable_b_ok : forall p e, declarable_b p e = true -> declarable p e.
Proof.
  intros p e H. unfold declarable_b in H. rewrite !andb_true_iff, negb_true_iff in H.
  destruct H as ((A & B) & C). split; [|split].
  - intros I. assert (X : existsb (Ascii.eqb (ascii_of_nat 0)) (e_type e) = true).
    { apply existsb_exists. exists (ascii_of_nat 0). split; [exact I|apply Ascii.eqb_refl]. }
    congruence.
  - intros m v I. rewrite forallb_forall in B. specialize (B _ I). cbn [fst snd] in B.
    rewrite !andb_true_iff, !Z.leb_le in B. split; [now apply identifier_b_ok|]. apply under_limits. lia.
  - revert C. generalize (map fst (e_decl e)). induction l as [|a l IH]; intros C; [constructor|].
    cbn [distinct_b] in C. apply andb_true_iff in C. destruct C as (N & C). constructor; [|now apply IH].
    intros I. apply negb_true_iff in N.
    assert (X : existsb (bytes_eqb a) l = true).
    { apply existsb_exists. exists a. split; [exact I|apply bytes_eqb_refl]. }
    congruence.
Qed.

(** Enumerations that show the limits. *)
Definition Temperature : enumeration :=
  Enumeration (lit "Temperature") (UInt CInt) true [(lit "Cold", (-1)%Z); (lit "Hot", 1%Z)].
Definition Color : enumeration :=
  Enumeration (lit "Color") (UInt CInt) true [(lit "Red", 0%Z); (lit "RED", 1%Z)].
Definition Sizes : enumeration :=
  Enumeration (lit "Sizes") (UInt CInt) true [(lit "Small", 1%Z); (lit "Large", 129%Z)].
Definition BigFlags : enumeration :=
  Enumeration (lit "BigFlags") (UInt CInt) true [(lit "Low", 1%Z); (lit "High", 256%Z)].

Lemma Temperature_ok : forall p, declarable p Temperature.
Proof. intros p. apply declarable_b_ok. destruct p as [[|] [|]]; vm_compute; reflexivity. Qed.
Lemma Color_ok : forall p, declarable p Color.
Proof. intros p. apply declarable_b_ok. destruct p as [[|] [|]]; vm_compute; reflexivity. Qed.
Lemma Sizes_ok : forall p, declarable p Sizes.
Proof. intros p. apply declarable_b_ok. destruct p as [[|] [|]]; vm_compute; reflexivity. Qed.
Lemma BigFlags_ok : forall p, declarable p BigFlags.
Proof. intros p. apply declarable_b_ok. destruct p as [[|] [|]]; vm_compute; reflexivity. Qed.
Lemma Ability_ok : forall p, declarable p Ability.
Proof. intros p. apply declarable_b_ok. destruct p as [[|] [|]]; vm_compute; reflexivity. Qed.
Lemma VariableType_ok : forall p, declarable p VariableType.
Proof. intros p. apply declarable_b_ok. destruct p as [[|] [|]]; vm_compute; reflexivity. Qed.
Lemma EntityDebugDrawFlags_ok : forall p, declarable p EntityDebugDrawFlags.
Proof. intros p. apply declarable_b_ok. destruct p as [[|] [|]]; vm_compute; reflexivity. Qed.

(** ** Printing *)

Lemma overflows_dec : forall p e v, declarable p e -> values p e false <> [] ->
  overflows p e v \/ ~ overflows p e v.
Proof.
  intros p e v De Co. destruct (wide_signed p (e_under e)) as [bits|] eqn:W.
  - assert (Q : (- 2 ^ (bits - 1) <= v - min_v p e false < 2 ^ (bits - 1))%Z \/
      ~ (- 2 ^ (bits - 1) <= v - min_v p e false < 2 ^ (bits - 1))%Z) by lia.
    destruct Q as [Q|Q]; [right|left].
    + intros O. apply (overflows_iff p e De Co) in O. destruct O as (b & W' & O).
      rewrite W in W'. injection W' as <-. now elim O.
    + apply (overflows_iff p e De Co). exists bits. now split.
  - right. intros (b & x & y & W' & _). congruence.
Qed.

Theorem C75_print_fault_iff : forall p e v, declarable p e -> values_compile p e false = true ->
  under_range p (e_under e) v ->
  ((exists f, toString p e v = Fault f) <-> overflows p e v).
Proof.
  intros p e v De Co U. apply compiles_values in Co. split.
  - intros (f & F). destruct (overflows_dec p e v De Co) as [O|O]; [exact O|].
    destruct (print_ok p e De Co v U O) as (t & T & _). congruence.
  - intros O. exists Overflow. now apply print_overflow.
Qed.

(** A value is shown as its first enumerator if magic_enum knows one, as nothing otherwise. *)
Theorem C75_print_iff : forall p e v t, declarable p e -> values_compile p e false = true ->
  under_range p (e_under e) v ->
  (toString p e v = Done t <->
   ~ overflows p e v /\ (visible e v t \/ (~ exists m, visible e v m) /\ t = [])).
Proof.
  intros p e v t De Co U. pose proof (C75_print_fault_iff p e v De Co U) as F.
  apply compiles_values in Co. split.
  - intros T. assert (O : ~ overflows p e v) by (intros O; apply F in O; destruct O; congruence).
    split; [exact O|]. destruct (print_ok p e De Co v U O) as (t' & T' & H). congruence.
  - intros (O & H). destruct (print_ok p e De Co v U O) as (t' & T' & H'). rewrite T'. f_equal.
    destruct H as [V|(N & ->)]; destruct H' as [V'|(N' & ->)].
    + exact (first_name_det e v t' t (proj1 V') (proj1 V)).
    + elim N'. now exists t.
    + elim N. now exists t'.
    + reflexivity.
Qed.

(** Nothing overflows if the least enumerator is 0. *)
Theorem C75_print_from_zero : forall p e v m, declarable p e -> values_compile p e false = true ->
  visible e 0 m -> (forall w m', visible e w m' -> (0 <= w)%Z) -> under_range p (e_under e) v ->
  exists t, toString p e v = Done t.
Proof.
  intros p e v m De Co V L U. destruct (toString p e v) as [t|f] eqn:T; [now exists t|]. exfalso.
  assert (O : overflows p e v) by (apply C75_print_fault_iff; [exact De|exact Co|exact U|now exists f]).
  destruct O as (bits & least & m' & W & V' & L' & O). apply O.
  assert (least = 0%Z) by (specialize (L' _ _ V); specialize (L _ _ V'); lia). subst least.
  rewrite Z.sub_0_r. apply (limits_range p e De) in U.
  destruct (wide_limits p e De bits W) as ((L1 & L2) & _). rewrite L1, L2 in U. unfold smin, smax in U. lia.
Qed.

(** "Showing a value never faults" is false. *)
Theorem C75_print_safe_refuted : forall p,
  declarable p Temperature /\ values_compile p Temperature false = true /\
  under_range p (UInt CInt) 2147483647 /\ toString p Temperature 2147483647 = Fault Overflow.
Proof.
  intros p. split; [apply Temperature_ok|].
  destruct p as [[|] [|]]; vm_compute; repeat split; congruence.
Qed.

(** ** Reading *)

Theorem C75_read_iff : forall p nm e s x, declarable p e ->
  (fromString p nm e [s] = Done (Value x) <-> read_as p e s x /\ castable e x).
Proof.
  intros p nm e s x De. split.
  - intros H. destruct (read_cases p nm e De s) as [(y & R & C & E)|[(y & _ & _ & E)|(_ & E)]];
      rewrite E in H; try discriminate. injection H as <-. now split.
  - intros (R & C). now apply (read_as_spec p nm e De s x R).
Qed.

Theorem C75_read_fault_iff : forall p nm e s, declarable p e ->
  ((exists f, fromString p nm e [s] = Fault f) <-> exists x, read_as p e s x /\ ~ castable e x).
Proof.
  intros p nm e s De. split.
  - intros (f & H). destruct (read_cases p nm e De s) as [(y & R & C & E)|[(y & R & C & E)|(_ & E)]];
      rewrite E in H; try discriminate. exists y. now split.
  - intros (x & R & C). exists Overflow. now apply (read_as_spec p nm e De s x R).
Qed.

Lemma conversion_error_det : forall T v d m m',
  conversion_error T v d m -> conversion_error T v d m' -> m = m'.
Proof.
  intros T v d m m' H H'. destruct H as [r J|r d J]; inversion H' as [r' J'|r' d' J']; subst;
    now rewrite (joined_det _ _ _ _ J J').
Qed.

Lemma conversion_error_text : forall T v d m, no_nul T -> value_no_nul v -> no_nul d ->
  conversion_error T v (Some d) m -> m <> [] /\ no_nul m.
Proof.
  intros T v d m NT Nv Nd H. inversion H as [|r d' J]; subst. split; [discriminate|].
  assert (no_nul r) by (eapply joined_no_nul; [|exact Nv|exact J]; now apply no_nul_lit).
  repeat (apply no_nul_app; [first [assumption|now apply no_nul_lit]|]). assumption.
Qed.

Definition quoted (m : bytes) : bytes := lit "'" ++ m ++ lit "'".

(** Any other text is rejected; the message lists the visible enumerators. *)
Theorem C75_read_error_iff : forall p nm e s m, declarable p e -> no_nul s ->
  (fromString p nm e [s] = Done (Error m) <->
   (forall x, ~ read_as p e s x) /\
   exists l names, listing e l /\ joined (lit ", ") (map (fun f => quoted (snd f)) l) names /\
     conversion_error (e_type e) [s] (Some (lit "Possible values are [" ++ names ++ lit "]")) m).
Proof.
  intros p nm e s m De Ns.
  assert (D : conversion_error (e_type e) [s]
    (Some (lit "Possible values are [" ++ flatten (names p e false) (lit "'") ++ lit "]"))
    (createGenericError (e_type e) [s]
       (lit "Possible values are [" ++ flatten (names p e false) (lit "'") ++ lit "]"))).
  { apply generic_error_detail.
    - apply De.
    - intros s' [<-|[]]. exact Ns.
    - discriminate.
    - apply no_nul_app; [now apply no_nul_lit|].
      apply no_nul_app; [now apply names_no_nul|now apply no_nul_lit]. }
  assert (J : joined (lit ", ") (map (fun f => quoted (snd f)) (the_listing p e))
                (flatten (names p e false) (lit "'"))).
  { unfold the_listing. rewrite map_map. cbn [snd]. unfold quoted.
    rewrite <- (map_map (n e) (fun m => lit "'" ++ m ++ lit "'")). apply flatten_spec. }
  split.
  - intros H. destruct (read_cases p nm e De s) as [(y & _ & _ & E)|[(y & _ & _ & E)|(U & E)]];
      rewrite E in H; try discriminate. injection H as <-. split; [exact U|].
    exists (the_listing p e), (flatten (names p e false) (lit "'")).
    split; [now apply the_listing_ok|]. now split.
  - intros (U & l & ns & L & J' & C).
    destruct (read_cases p nm e De s) as [(y & R & _ & _)|[(y & R & _ & _)|(_ & E)]];
      [elim (U y R)|elim (U y R)|]. rewrite E. f_equal. f_equal.
    assert (l = the_listing p e).
    { destruct L as (S1 & I1). destruct (the_listing_ok p e De) as (S2 & I2).
      assert (E1 : map fst l = map fst (the_listing p e)).
      { apply sorted_ext; [exact S1|exact S2|]. intros x. rewrite !in_map_iff. split.
        - intros ((k & m') & <- & I). exists (k, m'). split; [reflexivity|]. now apply I2, I1.
        - intros ((k & m') & <- & I). exists (k, m'). split; [reflexivity|]. now apply I1, I2. }
      assert (G : forall k a b, In (k, a) l -> In (k, b) (the_listing p e) -> a = b).
      { intros k a b I I'. apply I1 in I. apply I2 in I'.
        exact (first_name_det e k a b (proj1 I) (proj1 I')). }
      clear - E1 G. revert E1 G. generalize (the_listing p e).
      induction l as [|(k, a) l IH]; intros [|(k', a') l'] E1 G; try discriminate; [reflexivity|].
      injection E1 as -> E1. rewrite (G k' a a') by now left. f_equal. apply IH; [exact E1|].
      intros x y z I I'. apply (G x); now right. }
    subst l. rewrite (joined_det _ _ _ _ J J') in *.
    exact (conversion_error_det _ _ _ _ _ D C).
Qed.

(** A compound value that has not exactly one item is rejected. *)
Theorem C75_read_count : forall p nm e v, declarable p e -> value_no_nul v -> length v <> 1 ->
  exists m d, fromString p nm e v = Done (Error m) /\ mismatch_detail 1 (length v) d /\
    conversion_error (e_type e) v (Some d) m.
Proof.
  intros p nm e v De Nv L. assert (E : fromString p nm e v =
    Done (Error (createMismatchedSubvaluesError (e_type e) v 1))).
  { destruct v as [|s [|? ?]]; [reflexivity|now elim L|reflexivity]. }
  rewrite E. destruct (mismatched_error (e_type e) v 1 (proj1 De) Nv) as (d & M & C).
  eexists. exists d. split; [reflexivity|]. now split.
Qed.

(** ** Names read back *)

(** The name of an enumerator is read as its value exactly if no smaller enumerator has the
    same name in other capitalisation. *)
Theorem C75_round_trip_iff : forall p nm e t v m, declarable p e -> e_under e = UInt t ->
  visible e v m ->
  (fromString p nm e [m] = Done (Value v) <->
   forall w m', visible e w m' -> same_word m m' -> (v <= w)%Z).
Proof.
  intros p nm e t v m De Ut V. rewrite (C75_read_iff p nm e m v De).
  assert (N : ~ exists z, number p (e_under e) m z).
  { intros (z & N). rewrite Ut in N. revert N. apply identifier_no_integer.
    apply (declared_ok p e De v m (proj1 V)). }
  split.
  - intros ([R|(_ & _ & L)] & _); [elim N; now exists v|exact L].
  - intros L. split.
    + right. split; [exact N|]. split; [|exact L]. exists m. split; [exact V|apply same_word_refl].
    + apply first_name_In in V || (destruct V as (V & _); apply first_name_In in V).
      exact (declared_castable e m v V).
Qed.

Theorem C75_round_trip_distinct : forall p nm e t v m, declarable p e -> values_compile p e false = true ->
  e_under e = UInt t ->
  (forall v1 m1 v2 m2, visible e v1 m1 -> visible e v2 m2 -> same_word m1 m2 -> v1 = v2) ->
  toString p e v = Done m -> under_range p (e_under e) v -> m <> [] ->
  fromString p nm e [m] = Done (Value v).
Proof.
  intros p nm e t v m De Co Ut Di T U N.
  apply (C75_print_iff p e v m De Co U) in T. destruct T as (_ & [V|(_ & ->)]); [|now elim N].
  apply (C75_round_trip_iff p nm e t v m De Ut V). intros w m' V' W.
  rewrite (Di v m w m' V V' W). lia.
Qed.

(** "What is shown for an enumerator reads back" is false. *)
Theorem C75_round_trip_refuted : forall p nm,
  declarable p Color /\ values_compile p Color false = true /\ toString p Color 1 = Done (lit "RED") /\
  fromString p nm Color [lit "RED"] = Done (Value 0%Z).
Proof.
  intros p nm. split; [apply Color_ok|]. destruct p as [[|] [|]], nm as [[|] [|]]; vm_compute; auto.
Qed.

(** "Every enumerator of an enumeration that compiles can be shown and read" is false. *)
Theorem C75_all_visible_refuted : forall p nm,
  declarable p Sizes /\ values_compile p Sizes false = true /\ first_name Sizes 129 (lit "Large") /\
  toString p Sizes 129 = Done [] /\
  exists m, fromString p nm Sizes [lit "Large"] = Done (Error m).
Proof.
  intros p nm. split; [apply Sizes_ok|].
  split; [destruct p as [[|] [|]]; reflexivity|].
  split; [exists [(lit "Small", 1%Z)], []; split; [reflexivity|intros m [H|[]]; discriminate H]|].
  split; [destruct p as [[|] [|]]; reflexivity|].
  destruct p as [[|] [|]], nm as [[|] [|]]; eexists; vm_compute; reflexivity.
Qed.

(** "Only enumerators are accepted" is false. *)
Theorem C75_only_enumerators_refuted : forall p nm,
  fromString p nm Ability [lit "7"] = Done (Value 7%Z) /\ (forall m, ~ In (m, 7%Z) (e_decl Ability)) /\
  toString p Ability 7 = Done [].
Proof.
  intros p nm. split; [destruct p as [[|] [|]], nm as [[|] [|]]; reflexivity|].
  split; [|destruct p as [[|] [|]]; reflexivity].
  intros m [H|[H|[H|[]]]]; discriminate H.
Qed.

(** ** The enumerations of the examples *)

Theorem C75_examples_safe : forall p nm e, e = Ability \/ e = VariableType ->
  (forall s, exists r, fromString p nm e s = Done r) /\
  (forall v, under_range p (e_under e) v -> exists t, toString p e v = Done t) /\
  (forall v m, In (m, v) (e_decl e) ->
     toString p e v = Done m /\ fromString p nm e [m] = Done (Value v)).
Proof.
  intros p nm e He.
  assert (De : declarable p e) by (destruct He as [->| ->]; [apply Ability_ok|apply VariableType_ok]).
  assert (Fx : e_fixed e = true) by (destruct He as [->| ->]; reflexivity).
  split; [|split].
  - intros v. destruct v as [|s [|? ?]]; [now eexists| |now eexists].
    destruct (fromString p nm e [s]) as [r|f] eqn:E; [now exists r|]. exfalso.
    assert (F : exists f, fromString p nm e [s] = Fault f) by now exists f.
    apply (C75_read_fault_iff p nm e s De) in F. destruct F as (x & _ & C). apply C. now left.
  - intros v U.
    assert (V0 : exists m, visible e 0 m).
    { destruct He as [->| ->]; [exists (lit "None")|exists (lit "Integer")];
        (split; [|lia]; eexists []; eexists; split; [reflexivity|intros m []]). }
    destruct V0 as (m & V0). apply (C75_print_from_zero p e v m De); [|exact V0| |exact U].
    + destruct He as [->| ->]; destruct p as [[|] [|]]; reflexivity.
    + intros w m' (V & _). apply first_name_In in V.
      destruct He as [->| ->]; destruct V as [H|[H|[H|[]]]]; injection H as _ <-; lia.
  - intros v m I.
    destruct He as [->| ->]; destruct I as [H|[H|[H|[]]]]; injection H as <- <-;
      (destruct p as [[|] [|]], nm as [[|] [|]]; vm_compute; auto).
Qed.

(** ResetMode has no fixed underlying type: whatever type the compiler chooses, the text "4" is
    converted to a value outside of the enumeration, which is undefined. *)
Theorem C75_reset_mode_refuted : forall p nm t,
  fromString p nm (ResetMode (UInt t)) [lit "4"] = Fault Overflow.
Proof. intros p nm t. destruct p as [[|] [|]], nm as [[|] [|]], t; vm_compute; reflexivity. Qed.

(** ** Flags *)

Theorem C75_flags_print_iff : forall p e v t, declarable p e ->
  (flags_enum_name p e v = Done t <-> flags_print e v t).
Proof. intros p e v t De. now apply flags_print_iff. Qed.

Definition read_ok (p : platform) (e : enumeration) (s : bytes) (x : Z) : Prop :=
  read_as p e s x /\ castable e x.

Lemma Forall2_det : forall p (nm : naming) e, declarable p e -> forall l xs ys,
  Forall2 (read_ok p e) l xs -> Forall2 (read_ok p e) l ys -> xs = ys.
Proof.
  intros p nm e De l xs ys H. revert ys. induction H as [|s x l xs (R & _) H IH]; intros ys H'.
  - now inversion H'.
  - inversion H' as [|? y ? ys' (R' & _) H'']; subst.
    rewrite (read_as_det p nm e s x y R R'), (IH _ H''). reflexivity.
Qed.

Lemma stuck_item : forall p e pre s post xs, Forall2 (read_ok p e) (pre ++ s :: post) xs ->
  exists x, read_ok p e s x.
Proof.
  intros p e pre s post xs H. revert xs H. induction pre as [|a pre IH]; intros xs H;
    inversion H; subst; [eexists; eassumption|]. eapply IH. eassumption.
Qed.

(** Setting: all items can be read, and the new value has exactly their bits. *)
Theorem C75_flags_set_iff : forall p nm e v input r t, declarable p e ->
  (flags_call p nm e v [input] = Done (r, Returned t) <->
   exists xs, Forall2 (read_ok p e) input xs /\ union xs r /\ castable e r /\ flags_print e r t).
Proof.
  intros p nm e v input r t De. unfold flags_call.
  destruct (vector_loop_cases p nm e De input input []) as [(xs & F & ->)|(pre & s & post & E & _ & O)].
  - cbn [bind app]. change (Forall2 (read_ok p e) input xs) in F.
    destruct (castable_dec e (combined xs)) as [C|C].
    + rewrite (static_cast_ok e _ C). cbn [bind].
      destruct (flags_print_ok p e De (combined xs)) as (t' & T & P). rewrite T. cbn [bind]. split.
      * intros [= <- <-]. exists xs. split; [exact F|]. split; [apply combined_union|]. now split.
      * intros (ys & F' & Un & C' & P'). pose proof (Forall2_det p nm e De _ _ _ F F'). subst ys.
        pose proof (union_det _ _ _ Un (combined_union xs)). subst r.
        now rewrite (flags_print_det e _ _ _ P' P).
    + rewrite (static_cast_fault e _ C). cbn [bind]. split; [discriminate|].
      intros (ys & F' & Un & C' & P'). pose proof (Forall2_det p nm e De _ _ _ F F'). subst ys.
      pose proof (union_det _ _ _ Un (combined_union xs)). now subst r.
  - split.
    + intros H. destruct O as [(_ & O)|(_ & m & _ & O)]; rewrite O in H; discriminate.
    + intros (xs & F & _). rewrite E in F. apply stuck_item in F. destruct F as (x & R & C).
      destruct O as [((y & R' & C') & _)|(U & _)]; [|elim (U x R)].
      elim C'. now rewrite (read_as_det p nm e s y x R' R).
Qed.

(** Setting is rejected, and the variable keeps its value, exactly if some item cannot be read
    (and no conversion before it is undefined). *)
Theorem C75_flags_reject_iff : forall p nm e v v' input m, declarable p e -> value_no_nul input ->
  (flags_call p nm e v [input] = Done (v', Failed m) <->
   v' = v /\ exists pre s post inner, input = pre ++ s :: post /\
     Forall (fun s => exists x, read_ok p e s x) pre /\ (forall x, ~ read_as p e s x) /\
     fromString p nm e [s] = Done (Error inner) /\
     conversion_error (lit "vector<" ++ e_type e ++ lit ">") input (Some inner) m).
Proof.
  intros p nm e v v' input m De Nv. unfold flags_call.
  assert (CE : forall s inner, In s input -> fromString p nm e [s] = Done (Error inner) ->
    conversion_error (lit "vector<" ++ e_type e ++ lit ">") input (Some inner)
      (createGenericError (lit "vector<" ++ e_type e ++ lit ">") input inner)).
  { intros s inner I H. apply (C75_read_error_iff p nm e s inner De (Nv s I)) in H.
    destruct H as (_ & l & ns & L & J & C).
    assert (Nn : no_nul ns).
    { eapply joined_no_nul; [| |exact J]; [now apply no_nul_lit|]. intros x Hx.
      apply in_map_iff in Hx. destruct Hx as ((k & x') & <- & Hx). apply L in Hx. unfold quoted.
      apply no_nul_app; [now apply no_nul_lit|]. apply no_nul_app; [|now apply no_nul_lit].
      apply identifier_no_nul, (declared_ok p e De k x' (proj1 Hx)). }
    assert (Ns : value_no_nul [s]) by (intros s' [<-|[]]; exact (Nv s I)).
    assert (Nd : no_nul (lit "Possible values are [" ++ ns ++ lit "]")).
    { apply no_nul_app; [now apply no_nul_lit|]. apply no_nul_app; [exact Nn|now apply no_nul_lit]. }
    destruct (conversion_error_text _ _ _ _ (proj1 De) Ns Nd C) as (Ne & Nm).
    apply generic_error_detail; [|exact Nv|exact Ne|exact Nm].
    apply no_nul_app; [now apply no_nul_lit|]. apply no_nul_app; [apply De|now apply no_nul_lit]. }
  destruct (vector_loop_cases p nm e De input input []) as [(xs & F & ->)|(pre & s & post & E & Fp & O)].
  - cbn [bind app]. change (Forall2 (read_ok p e) input xs) in F. split.
    + intros H. exfalso. destruct (static_cast e (combined xs)) as [w|]; cbn [bind] in H; [|discriminate].
      destruct (flags_print_ok p e De w) as (t' & T & P). rewrite T in H. discriminate.
    + intros (_ & pre & s & post & inner & E & _ & U & _). rewrite E in F. apply stuck_item in F.
      destruct F as (x & R & _). elim (U x R).
  - destruct O as [((x & R & C) & O)|(U & inner & Ei & O)]; rewrite O; cbn [bind].
    + split; [discriminate|]. intros (_ & pre' & s' & post' & inner & E' & F' & U' & _). exfalso.
      rewrite E in E'. clear - E' Fp F' R C U' De nm. revert pre' E' F'.
      induction Fp as [|a pre Ha Fp IH]; intros [|b pre'] E' F'; injection E' as E1 E2; subst.
      * elim (U' x R).
      * inversion F' as [|? ? (y & Ry & Cy) _]; subst. elim C.
        now rewrite (read_as_det p nm e _ x y R Ry).
      * destruct Ha as (y & Ry & _). elim (U' y Ry).
      * inversion F'; subst. now apply (IH pre').
    + split.
      * intros [= <- <-]. split; [reflexivity|]. exists pre, s, post, inner.
        split; [exact E|]. split; [exact Fp|]. split; [exact U|]. split; [exact Ei|].
        apply (CE s); [rewrite E; apply in_elt|exact Ei].
      * intros (-> & pre' & s' & post' & inner' & E' & F' & U' & Ei' & C').
        assert (s' = s).
        { rewrite E in E'. clear - E' Fp F' U U'. revert pre' E' F'.
          induction Fp as [|a pre Ha Fp IH]; intros [|b pre'] E' F'; injection E' as E1 E2; subst.
          - reflexivity.
          - inversion F' as [|? ? (y & Ry & _) _]; subst. elim (U y Ry).
          - destruct Ha as (y & Ry & _). elim (U' y Ry).
          - inversion F'; subst. now apply (IH pre'). }
        subst s'. assert (inner' = inner) by congruence. subst inner'.
        pose proof (CE s inner ltac:(rewrite E; apply in_elt) Ei) as C.
        now rewrite (conversion_error_det _ _ _ _ _ C C').
Qed.

(** The text shown for a value sets the variable to this value again, if the names shown are
    visible and none of them is shadowed. *)
Theorem C75_flags_text_back : forall p nm e name v v0 t, declarable p e -> plain_word name ->
  flags_print e v t -> t <> [] -> castable e v ->
  (forall k m, flag e k m -> Z.testbit v k = true -> read_as p e m (2 ^ k)) ->
  flags_text p nm e name v0 (name ++ lit " " ++ t) = Done (Some (v, Returned t)).
Proof.
  intros p nm e name v v0 t De Pn P Nt C H. pose proof P as P0.
  destruct P0 as [l t F Nl E J|l F O]; [|now elim Nt].
  assert (R : Forall2 (read_ok p e) (map snd l) (map (fun f => 2 ^ fst f)%Z l)).
  { assert (G : forall k m, In (k, m) l -> read_ok p e m (2 ^ k)).
    { intros k m I. apply F in I. destruct I as (Fl & B). split; [now apply H|].
      destruct Fl as (_ & Fn). apply first_name_In in Fn. exact (declared_castable e m _ Fn). }
    clear - G. induction l as [|(k, m) l IH]; [constructor|]. cbn [map fst snd].
    constructor; [apply G; now left|]. apply IH. intros k' m' I. apply G. now right. }
  assert (U : union (map (fun f => 2 ^ fst f)%Z l) v).
  { pose proof (flags_of_det e v l (the_flags p e v) F (the_flags_ok p e De v)) as Fl.
    replace v with (combined (map (fun f => 2 ^ fst f)%Z l)); [apply combined_union|].
    assert (M : map (fun f => 2 ^ fst f)%Z l = sel v (values p e true)).
    { rewrite Fl. unfold the_flags. rewrite map_map. cbn [fst].
      rewrite <- (map_id (sel v (values p e true))) at 2. apply map_ext_in. intros w I.
      apply filter_In in I. destruct I as (I & _). apply (In_flag_values p e De) in I.
      destruct I as (k & m & -> & Hk & _). now rewrite Z.log2_pow2. }
    unfold combined. rewrite M, (the_flags_sum p e De), <- Fl. now symmetry. }
  assert (Pw : Forall plain_word (map snd l)).
  { apply Forall_forall. intros m I. apply in_map_iff in I. destruct I as ((k & m') & <- & I).
    apply F in I. apply identifier_plain, (declared_ok p e De _ _ (proj2 (proj1 I))). }
  unfold flags_text. rewrite (parse_bar (char_signed p) name (map snd l) t Pn); [|now destruct l|exact Pw|exact J].
  cbn [bind i_name i_args]. rewrite bytes_eqb_refl.
  assert (Q : flags_call p nm e v0 [map snd l] = Done (v, Returned t)).
  { apply (C75_flags_set_iff p nm e v0 (map snd l) v t De).
    exists (map (fun f => 2 ^ fst f)%Z l). split; [exact R|]. split; [exact U|]. now split. }
  exact (f_equal (fun o => r <- o ;; Done (Some r)) Q).
Qed.

(** "The text shown for a flags variable is accepted by its setter" is false: flags above 128. *)
Theorem C75_flags_text_refuted : forall p nm,
  declarable p BigFlags /\ values_compile p BigFlags true = true /\ values_compile p BigFlags false = true /\
  flags_enum_name p BigFlags 256 = Done (lit "High") /\
  exists m, flags_text p nm BigFlags (lit "f") 256 (lit "f High") = Done (Some (256%Z, Failed m)).
Proof.
  intros p nm. split; [apply BigFlags_ok|].
  split; [destruct p as [[|] [|]]; reflexivity|]. split; [destruct p as [[|] [|]]; reflexivity|].
  split; [destruct p as [[|] [|]]; reflexivity|].
  destruct p as [[|] [|]], nm as [[|] [|]]; eexists; vm_compute; reflexivity.
Qed.

(** "The flags set are shown" is false: a bit without a name hides all of them. *)
Theorem C75_flags_shown_refuted : forall p nm,
  flags_text p nm EntityDebugDrawFlags (lit "f") 1 (lit "f 17") = Done (Some (17%Z, Returned [])) /\
  draw 17 = [lit "Drawing bounding box"].
Proof. intros p nm. destruct p as [[|] [|]], nm as [[|] [|]]; vm_compute; auto. Qed.

(** ** Sessions *)

Lemma parse_safe : forall sg cmd, ~ ill_command (cfg_classes sg default_cfg) cmd ->
  exists r, parse_input sg default_cfg cmd = Done r.
Proof.
  intros sg cmd H. destruct (C01_parse_safe_partial sg default_cfg cmd H) as (r & E).
  unfold parse_input. rewrite E. cbn [bind]. destruct r; eexists; reflexivity.
Qed.

(** With a fixed type no command faults (except for the texts of C01), the variable stays in the
    range of the type, and it changes exactly as specified. *)
Theorem C75_flags_session : forall p nm e name cmds v, declarable p e -> e_fixed e = true ->
  under_range p (e_under e) v ->
  Forall (fun c => ~ ill_command (cfg_classes (char_signed p) default_cfg) c) cmds ->
  exists v' rs, flags_session p nm e name v cmds = Done (v', rs) /\ length rs = length cmds /\
    under_range p (e_under e) v' /\
    flag_steps p (cfg_classes (char_signed p) default_cfg) e name v cmds v'.
Proof.
  intros p nm e name cmds v De Fx Rv H. revert v Rv.
  induction H as [|c cmds Hc H IH]; intros v Rv; cbn [flags_session].
  - exists v, []. split; [reflexivity|]. split; [reflexivity|]. split; [exact Rv|]. constructor.
  - set (C := cfg_classes (char_signed p) default_cfg).
    assert (S : exists r, flags_text p nm e name v c = Done r /\
      let v1 := match r with Some (v1, _) => v1 | None => v end in
      under_range p (e_under e) v1 /\ flag_step p C e name v c v1).
    { destruct (parse_safe _ _ Hc) as (r & E). unfold flags_text. rewrite E. cbn [bind].
      assert (K : forall (named : list (bytes * list bytes)) items,
        command C c (inl (SInput name [items] named)) ->
        exists i, r = Value i /\ i_name i = name /\ i_args i = [items]).
      { intros named items Cm. apply C07_value_iff_wellformed in Cm. rewrite E in Cm. injection Cm as ->.
        eexists. split; [reflexivity|]. now split. }
      destruct r as [i|m].
      2:{ exists None. split; [reflexivity|]. split; [exact Rv|]. apply step_keep.
          intros items named xs Cm _. destruct (K _ _ Cm) as (i & [=] & _). }
      destruct (bytes_eqb_spec (i_name i) name) as [En|Nn].
      2:{ exists None. split; [reflexivity|]. split; [exact Rv|]. apply step_keep.
          intros items named xs Cm _. destruct (K _ _ Cm) as (i' & [= <-] & En & _). contradiction. }
      destruct (flags_call_safe p nm e De Fx v (i_args i)) as (v1 & a & Ec & Rc).
      rewrite Ec. cbn [bind]. exists (Some (v1, a)). split; [reflexivity|]. cbv zeta.
      split; [now apply Rc|].
      destruct (i_args i) as [|input [|? ?]] eqn:Ea.
      - assert (v1 = v).
        { unfold flags_call in Ec. destruct (flags_enum_name p e v); [|discriminate]. now injection Ec. }
        subst v1. apply step_keep. intros items named xs Cm _.
        destruct (K _ _ Cm) as (i' & [= <-] & _ & Ea'). congruence.
      - destruct a as [t|m|].
        + apply (C75_flags_set_iff p nm e v input v1 t De) in Ec. destruct Ec as (xs & F & U & _ & _).
          apply step_set with (items := input) (named := i_named i) (xs := xs); [| |exact U].
          * apply C07_value_iff_wellformed. rewrite E. destruct i as [n0 a0 m0].
            cbn [i_name i_args i_named] in En, Ea |- *. now rewrite En, Ea.
          * clear - F. induction F as [|s x l xs (R & _) F IHF]; constructor; assumption.
        + unfold flags_call in Ec.
          destruct (vector_loop_cases p nm e De input input []) as [(xs & F & V)|(pre & s & post & Ei & _ & O)].
          * rewrite V in Ec. cbn [bind] in Ec. destruct (static_cast e _) as [w|]; [|discriminate].
            cbn [bind] in Ec. destruct (flags_enum_name p e w); discriminate.
          * destruct O as [(_ & O)|(U & inner & _ & O)]; rewrite O in Ec; [discriminate|].
            injection Ec as <- _. apply step_keep. intros items named xs Cm F.
            destruct (K _ _ Cm) as (i' & [= <-] & _ & Ea'). rewrite Ea in Ea'. injection Ea' as <-.
            rewrite Ei in F. clear - F U. revert xs F.
            induction pre as [|b pre IHp]; intros xs F; inversion F; subst; [eapply U; eassumption|].
            eapply IHp. eassumption.
        + exfalso. unfold flags_call in Ec. destruct (vector_loop p nm e input input []) as [[xs|m]|]; cbn [bind] in Ec;
            try discriminate. destruct (static_cast e _) as [w|]; [|discriminate].
          cbn [bind] in Ec. destruct (flags_enum_name p e w); discriminate.
      - assert (v1 = v) by (unfold flags_call in Ec; now injection Ec).
        subst v1. apply step_keep. intros items named xs Cm _.
        destruct (K _ _ Cm) as (i' & [= <-] & _ & Ea'). congruence. }
    destruct S as (r & -> & S). cbn [bind]. destruct r as [(v1, a)|]; cbv zeta in S; destruct S as (R1 & S1).
    + destruct (IH v1 R1) as (v' & rs & -> & L & Rv' & St). cbn [bind fst snd].
      exists v', (Some a :: rs). split; [reflexivity|]. split; [simpl; now rewrite L|].
      split; [exact Rv'|]. econstructor; eassumption.
    + destruct (IH v R1) as (v' & rs & -> & L & Rv' & St). cbn [bind fst snd].
      exists v', (None :: rs). split; [reflexivity|]. split; [simpl; now rewrite L|].
      split; [exact Rv'|]. econstructor; eassumption.
Qed.

(** entity.draw draws exactly what the bits of the variable ask for. *)
Theorem C75_draw : forall v, draw v =
  map snd (filter (fun kt => Z.testbit v (fst kt))
    [(0%Z, lit "Drawing bounding box"); (1%Z, lit "Drawing origin"); (2%Z, lit "Drawing wireframe");
     (3%Z, lit "Drawing name")]).
Proof.
  intros v.
  assert (G : forall k, (0 <= k)%Z -> (Z.land v (2 ^ k) =? 2 ^ k)%Z = Z.testbit v k).
  { intros k Hk. destruct (Z.testbit v k) eqn:B.
    - apply Z.eqb_eq. apply Z.bits_inj'. intros j Hj. rewrite Z.land_spec, Z.pow2_bits_eqb by exact Hk.
      destruct (Z.eqb_spec k j) as [<-|]; [now rewrite B|apply andb_false_r].
    - apply Z.eqb_neq. intros E. pose proof (land_pow2 v k Hk) as L. rewrite B, E in L.
      apply negb_false_iff, Z.eqb_eq in L. assert (0 < 2 ^ k)%Z by (apply Z.pow_pos_nonneg; lia). lia. }
  unfold draw. change 1%Z with (2 ^ 0)%Z at 1 2. change 2%Z with (2 ^ 1)%Z at 3 4.
  cbv zeta. cbn [filter map fst].
  pose proof (G 0%Z ltac:(lia)) as G0. pose proof (G 1%Z ltac:(lia)) as G1.
  pose proof (G 2%Z ltac:(lia)) as G2. pose proof (G 3%Z ltac:(lia)) as G3.
  change (2 ^ 0)%Z with 1%Z in *. change (2 ^ 1)%Z with 2%Z in *.
  change (2 ^ 2)%Z with 4%Z in *. change (2 ^ 3)%Z with 8%Z in *.
  rewrite G0, G1, G2, G3.
  destruct (Z.testbit v 0), (Z.testbit v 1), (Z.testbit v 2), (Z.testbit v 3); reflexivity.
Qed.

(** * Non-vacuity *)

Definition ex_p := Platform true Long64.
Definition ex_nm := Naming false true.

Example C75_ex_read : fromString ex_p ex_nm Ability [lit "speedBOOST"] = Done (Value 1%Z).
Proof. reflexivity. Qed.
Example C75_ex_error : fromString ex_p ex_nm Ability [lit "Fly"] =
  Done (Error (lit "Unable to convert 'Fly' to type 'PlayerAbilitySystem::Ability': Possible values are ['None', 'SpeedBoost', 'IncreasedHealth']")).
Proof. vm_compute. reflexivity. Qed.
Example C75_ex_calls : calls Color (lit "red") 0.
Proof.
  split.
  - exists (lit "Red"). split; [split; [exists [], [(lit "RED", 1%Z)]; split; [reflexivity|intros m []]|lia]|].
    repeat constructor; apply same_lower; vm_compute; lia.
  - intros w m (V & _) _. apply first_name_In in V. destruct V as [H|[H|[]]]; injection H as _ <-; lia.
Qed.
Example C75_ex_overflows : overflows ex_p Temperature 2147483647.
Proof.
  apply (C75_print_fault_iff ex_p Temperature); [apply (C75_print_safe_refuted ex_p)|reflexivity| |].
  - vm_compute. split; congruence.
  - exists Overflow. reflexivity.
Qed.
Example C75_ex_possible : possible (ResetMode (UInt CInt)) 3 /\ ~ castable (ResetMode (UInt CInt)) 4.
Proof.
  split; [apply possible_iff; vm_compute; split; congruence|].
  intros [H|H]; [discriminate|]. apply possible_iff in H. vm_compute in H. now destruct H.
Qed.
Example C75_ex_flags : flags_print EntityDebugDrawFlags 9 (lit "DrawBoundingBox|DrawName").
Proof. apply (C75_flags_print_iff ex_p); [apply EntityDebugDrawFlags_ok|]. vm_compute. reflexivity. Qed.
Example C75_ex_session : flags_session ex_p ex_nm EntityDebugDrawFlags (lit "entity.flags") 9
  [lit "entity.flags"; lit "entity.flags DrawOrigin|DrawWireframe"; lit "entity.flags (DrawOrigin, drawname)";
   lit "entity.flags DrawName DrawSomethingElse"; lit "other 1"] =
  Done (10%Z, [Some (Returned (lit "DrawBoundingBox|DrawName")); Some (Returned (lit "DrawOrigin|DrawWireframe"));
    Some (Returned (lit "DrawOrigin|DrawName")); Some WrongCount; None]).
Proof. vm_compute. reflexivity. Qed.

(** * Assumptions *)
Print Assumptions C75_compiles_iff.
Print Assumptions C75_print_fault_iff.
Print Assumptions C75_print_iff.
Print Assumptions C75_print_from_zero.
Print Assumptions C75_print_safe_refuted.
Print Assumptions C75_read_iff.
Print Assumptions C75_read_fault_iff.
Print Assumptions C75_read_error_iff.
Print Assumptions C75_read_count.
Print Assumptions C75_round_trip_iff.
Print Assumptions C75_round_trip_distinct.
Print Assumptions C75_round_trip_refuted.
Print Assumptions C75_all_visible_refuted.
Print Assumptions C75_only_enumerators_refuted.
Print Assumptions C75_examples_safe.
Print Assumptions C75_reset_mode_refuted.
Print Assumptions C75_flags_print_iff.
Print Assumptions C75_flags_set_iff.
Print Assumptions C75_flags_reject_iff.
Print Assumptions C75_flags_text_back.
Print Assumptions C75_flags_text_refuted.
Print Assumptions C75_flags_shown_refuted.
Print Assumptions C75_flags_session.
Print Assumptions C75_draw.
