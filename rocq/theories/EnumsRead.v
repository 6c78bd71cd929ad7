(** Proofs about the conversions of Enums.v. *)
From Coq Require Import Ascii String NArith ZArith Bool PeanoNat Lia List Sorting.Sorted.
Import ListNotations.
From Verif Require Import Base Lexer StringConv StringConvSpec StringConvProofs
  Serializer SerializerSpec SerializerProofs Enums EnumsSpec EnumsProofs.

Local Notation length := List.length.

(** * Comparing names *)

Lemma uchar_nat : forall c, Z.of_N (uchar c) = Z.of_nat (nat_of_ascii c).
Proof. intros c. unfold uchar, nat_of_ascii. now rewrite N_nat_Z. Qed.

Lemma nat_of_ascii_inj : forall a b, nat_of_ascii a = nat_of_ascii b -> a = b.
Proof. intros a b H. now rewrite <- (ascii_nat_embedding a), <- (ascii_nat_embedding b), H. Qed.

Lemma pred_letter : forall a b, pred a b = true <-> same_letter a b.
Proof.
  intros a b. unfold pred. rewrite Z.eqb_eq, !uchar_nat. unfold tolower. split.
  - intros H.
    destruct (Z.leb_spec 65 (Z.of_nat (nat_of_ascii a))); destruct (Z.leb_spec (Z.of_nat (nat_of_ascii a)) 90);
    destruct (Z.leb_spec 65 (Z.of_nat (nat_of_ascii b))); destruct (Z.leb_spec (Z.of_nat (nat_of_ascii b)) 90);
      cbn [andb] in H;
      first [ replace b with a by (apply nat_of_ascii_inj; lia); constructor
            | apply same_upper; lia | apply same_lower; lia ].
  - intros [c|c d Hc E|c d Hc E]; [reflexivity| |]; rewrite E, ?Nat2Z.inj_add.
    + destruct (Z.leb_spec 65 (Z.of_nat (nat_of_ascii c))); [|lia].
      destruct (Z.leb_spec (Z.of_nat (nat_of_ascii c)) 90); [|lia].
      destruct (Z.leb_spec (Z.of_nat (nat_of_ascii c) + Z.of_nat 32) 90); [lia|].
      rewrite andb_false_r. cbn [andb]. lia.
    + destruct (Z.leb_spec 65 (Z.of_nat (nat_of_ascii d))); [|lia].
      destruct (Z.leb_spec (Z.of_nat (nat_of_ascii d)) 90); [|lia].
      destruct (Z.leb_spec (Z.of_nat (nat_of_ascii d) + Z.of_nat 32) 90); [lia|].
      rewrite andb_false_r. cbn [andb]. lia.
Qed.

Lemma cmp_equal_iff : forall a b, cmp_equal a b pred = true <-> same_word a b.
Proof.
  unfold cmp_equal, same_word. intros a. induction a as [|c a IH]; intros [|d b].
  - split; [constructor|reflexivity].
  - split; [discriminate|intros H; inversion H].
  - split; [discriminate|intros H; inversion H].
  - cbn [length]. rewrite Nat.eqb_sym. specialize (IH b). rewrite Nat.eqb_sym in IH.
    change (S (length b) =? S (length a)) with (length b =? length a).
    destruct (length b =? length a); cbn [cmp_loop].
    + destruct (pred c d) eqn:P.
      * rewrite IH. split; intros H; [|now inversion H]. constructor; [now apply pred_letter|exact H].
      * split; [discriminate|]. intros H. inversion H as [|? ? ? ? L]. apply pred_letter in L. congruence.
    + split; [discriminate|]. intros H. inversion H as [|? ? ? ? _ L]. now apply IH.
Qed.

Lemma same_word_refl : forall s, same_word s s.
Proof. unfold same_word. induction s; constructor; [constructor|assumption]. Qed.

Lemma same_letter_sym : forall a b, same_letter a b -> same_letter b a.
Proof.
  intros a b [c|c d H E|c d H E]; [constructor|apply same_lower; lia|apply same_upper; lia].
Qed.
Lemma same_word_sym : forall a b, same_word a b -> same_word b a.
Proof. unfold same_word. induction 1; constructor; [now apply same_letter_sym|assumption]. Qed.

(** * Numbers *)

Section Proofs.
Variable p : platform.
Variable nm : naming.

Lemma number_iff : forall u s z, underlying_fromString p nm u [s] = Value z <-> number p u s z.
Proof.
  intros u s z. destruct u as [|t]; unfold underlying_fromString.
  - destruct (boolFromString (char_signed p) [s]) as [b|m] eqn:B.
    + split.
      * intros [= <-]. destruct b.
        { apply bool_from_true in B. destruct B as (s' & [= <-] & H). now constructor. }
        { apply bool_from_false in B. destruct B as (s' & [= <-] & H). now constructor. }
      * intros H. inversion H as [s' H'|s' H'| |]; subst.
        { assert (B' : boolFromString (char_signed p) [s] = Value true)
            by (apply bool_from_true; now exists s). rewrite B in B'. now injection B' as ->. }
        { assert (B' : boolFromString (char_signed p) [s] = Value false)
            by (apply bool_from_false; now exists s). rewrite B in B'. now injection B' as ->. }
    + split; [discriminate|]. intros H. exfalso. inversion H as [s' H'|s' H'| |]; subst.
      { assert (B' : boolFromString (char_signed p) [s] = Value true)
            by (apply bool_from_true; now exists s). congruence. }
      { assert (B' : boolFromString (char_signed p) [s] = Value false)
            by (apply bool_from_false; now exists s). congruence. }
  - unfold int_serializer, arith_serializer. cbn [from_value arithmeticFromString].
    transitivity (StringConv.fromString p t s = Some z).
    { destruct (StringConv.fromString p t s); split; intros [= <-]; reflexivity. }
    destruct (is_unsigned t) eqn:Hu.
    + rewrite (from_unsigned p t s z Hu). split.
      * intros (((c & r & -> & Hc) & z0 & D & A & ->) & R).
        assert (NM : ~ minus_first (c :: r)) by (intros (r' & [= -> _]); now elim Hc).
        destruct (Z.le_gt_cases 0 z0) as [Hz|Hz].
        { rewrite Z.mod_small in * by lia. now constructor. }
        { replace (z0 mod 2 ^ route_bits p t)%Z with (z0 + 2 ^ route_bits p t)%Z in *.
          - apply number_wrapped; try assumption. lia.
          - rewrite <- (Z.mod_small (z0 + 2 ^ route_bits p t) (2 ^ route_bits p t)) by lia.
            rewrite <- (Z.mul_1_l (2 ^ route_bits p t)) at 1. now rewrite Z.mod_add by lia. }
      * intros H. inversion H as [| |t' s' z' D R M|t' s' z' U D B M R]; subst.
        { pose proof (in_range_unsigned_nonneg p t z Hu R). pose proof (in_range_route p t z Hu R).
          split; [|exact R]. split.
          - destruct s as [|c r]; [destruct (proj1 (denotes_subject [] z) D) as (? & ? & _ & N & _); now elim N|].
            exists c, r. split; [reflexivity|]. intros ->. apply (M Hu). now exists r.
          - exists z. split; [exact D|]. split; [lia|]. now rewrite Z.mod_small. }
        { split; [|exact R]. split.
          - destruct s as [|c r]; [destruct (proj1 (denotes_subject [] z') D) as (? & ? & _ & N & _); now elim N|].
            exists c, r. split; [reflexivity|]. intros ->. apply M. now exists r.
          - exists z'. split; [exact D|]. split; [lia|].
            rewrite <- (Z.mod_small (z' + 2 ^ route_bits p t) (2 ^ route_bits p t)) by lia.
            rewrite <- (Z.mul_1_l (2 ^ route_bits p t)) at 1. now rewrite Z.mod_add by lia. }
    + rewrite (from_signed p t s z Hu). split.
      * intros (D & R). constructor; [exact D|exact R|]. intros E. congruence.
      * intros H. inversion H as [| |t' s' z' D R M|t' s' z' U D B M R]; subst; [now split|congruence].
Qed.

Lemma number_error_iff : forall u s, (exists m, underlying_fromString p nm u [s] = Error m) <->
  ~ exists z, number p u s z.
Proof.
  intros u s. destruct (underlying_fromString p nm u [s]) as [z|m] eqn:E.
  - split; [intros (m & H); discriminate H|]. intros H. elim H. exists z. now apply number_iff.
  - split; [|intros _; now exists m]. intros _ (z & H). apply number_iff in H. congruence.
Qed.

(** * Conversion to the enumeration *)

Lemma bit_length_le : forall h b, (0 <= b)%Z -> (h < 2 ^ b)%Z <-> (bit_length h <= b)%Z.
Proof.
  intros h b Hb. unfold bit_length. destruct (Z.leb_spec h 0) as [H|H].
  - split; intros _; [exact Hb|]. assert (0 < 2 ^ b)%Z by (apply Z.pow_pos_nonneg; lia). lia.
  - pose proof (Z.log2_lt_pow2 h b H). lia.
Qed.

Lemma bit_length_nonneg : forall h, (0 <= bit_length h)%Z.
Proof.
  intros h. unfold bit_length. destruct (Z.leb_spec h 0); [lia|]. pose proof (Z.log2_nonneg h). lia.
Qed.

Lemma lowest_spec : forall e, (lowest e <= 0)%Z /\
  (forall m v, In (m, v) (e_decl e) -> (lowest e <= v)%Z) /\
  (lowest e < 0 -> exists m, In (m, lowest e) (e_decl e))%Z.
Proof.
  intros e. unfold lowest. induction (e_decl e) as [|[m v] l (A & B & C)]; simpl.
  - split; [lia|]. split; [intros _ _ []|lia].
  - split; [lia|]. split.
    + intros m' v' [[= -> ->]|H]; [lia|]. specialize (B _ _ H). lia.
    + intros H. destruct (Z.min_spec v (fold_right Z.min 0%Z (map snd l))) as [(L & ->)|(L & E)].
      * exists m. now left.
      * rewrite E in *. destruct (C H) as (m' & I). exists m'. now right.
Qed.

Lemma highest_spec : forall e, (0 <= highest e)%Z /\
  (forall m v, In (m, v) (e_decl e) -> (v <= highest e)%Z) /\
  (0 < highest e -> exists m, In (m, highest e) (e_decl e))%Z.
Proof.
  intros e. unfold highest. induction (e_decl e) as [|[m v] l (A & B & C)]; simpl.
  - split; [lia|]. split; [intros _ _ []|lia].
  - split; [lia|]. split.
    + intros m' v' [[= -> ->]|H]; [lia|]. specialize (B _ _ H). lia.
    + intros H. destruct (Z.max_spec v (fold_right Z.max 0%Z (map snd l))) as [(L & E)|(L & ->)].
      * rewrite E in *. destruct (C H) as (m' & I). exists m'. now right.
      * exists m. now left.
Qed.

Lemma holds_unsigned : forall e b, (0 <= lowest e)%Z ->
  (holds_all e false b <-> (Z.max 1 (bit_length (highest e)) <= b)%Z).
Proof.
  intros e b L. destruct (lowest_spec e) as (_ & L1 & _). destruct (highest_spec e) as (H0 & H1 & H2).
  unfold holds_all, representable. split.
  - intros (B & R). assert (highest e < 2 ^ b)%Z.
    { destruct (Z.eq_dec (highest e) 0) as [->|N]; [apply Z.pow_pos_nonneg; lia|].
      destruct H2 as (m & I); [lia|]. apply (R _ _ I). }
    apply bit_length_le in H; lia.
  - intros B. split; [lia|]. intros m v I. specialize (L1 _ _ I). specialize (H1 _ _ I).
    assert (highest e < 2 ^ b)%Z by (apply bit_length_le; lia). lia.
Qed.

Lemma holds_signed : forall e b, (lowest e < 0)%Z ->
  (holds_all e true b <->
   (Z.max (bit_length (highest e)) (bit_length (- lowest e - 1)) + 1 <= b)%Z).
Proof.
  intros e b L. destruct (lowest_spec e) as (_ & L1 & L2). destruct (highest_spec e) as (H0 & H1 & H2).
  destruct (L2 L) as (ml & Il).
  unfold holds_all, representable. split.
  - intros (B & R). assert (highest e < 2 ^ (b - 1))%Z.
    { destruct (Z.eq_dec (highest e) 0) as [->|N]; [apply Z.pow_pos_nonneg; lia|].
      destruct H2 as (m & I); [lia|]. apply (R _ _ I). }
    assert (- lowest e - 1 < 2 ^ (b - 1))%Z by (specialize (R _ _ Il); lia).
    apply bit_length_le in H; [|lia]. apply bit_length_le in H3; lia.
  - intros B. pose proof (bit_length_nonneg (highest e)). split; [lia|].
    intros m v I. specialize (L1 _ _ I). specialize (H1 _ _ I).
    assert (highest e < 2 ^ (b - 1))%Z by (apply bit_length_le; lia).
    assert (- lowest e - 1 < 2 ^ (b - 1))%Z by (apply bit_length_le; lia). lia.
Qed.

Lemma possible_iff : forall e z,
  possible e z <-> (fst (enum_limits e) <= z <= snd (enum_limits e))%Z.
Proof.
  intros e z. unfold enum_limits. destruct (lowest_spec e) as (L0 & L1 & L2).
  destruct (Z.ltb_spec (lowest e) 0) as [L|L]; cbn [fst snd].
  - set (B := Z.max (bit_length (highest e)) (bit_length (- lowest e - 1))).
    assert (B0 : (0 <= B)%Z) by (pose proof (bit_length_nonneg (highest e)); unfold B; lia).
    assert (G : exists m v, In (m, v) (e_decl e) /\ (v < 0)%Z)
      by (destruct (L2 L) as (m & I); now exists m, (lowest e)).
    split.
    + intros (sgn & bits & S & H & M & R). assert (sgn = true) by now apply S. subst sgn.
      apply holds_signed in H; [|exact L]. fold B in H.
      assert (E : bits = (B + 1)%Z).
      { assert (bits <= B + 1)%Z; [|lia]. apply M, holds_signed; [exact L|]. fold B. lia. }
      subst bits. unfold representable in R. replace (B + 1 - 1)%Z with B in R by lia. lia.
    + intros R. exists true, (B + 1)%Z. split; [split; auto|]. split.
      * apply holds_signed; [exact L|]. fold B. lia.
      * split.
        { intros b H. apply holds_signed in H; [|exact L]. fold B in H. lia. }
        unfold representable. replace (B + 1 - 1)%Z with B by lia. lia.
  - set (B := Z.max 1 (bit_length (highest e))).
    assert (NG : ~ exists m v, In (m, v) (e_decl e) /\ (v < 0)%Z)
      by (intros (m & v & I & N); specialize (L1 _ _ I); lia).
    split.
    + intros (sgn & bits & S & H & M & R).
      assert (sgn = false) by (destruct sgn; [elim NG; now apply S|reflexivity]). subst sgn.
      apply holds_unsigned in H; [|exact L]. fold B in H.
      assert (E : bits = B).
      { assert (bits <= B)%Z; [|lia]. apply M, holds_unsigned; [exact L|]. fold B. lia. }
      subst bits. unfold representable in R. lia.
    + intros R. exists false, B. split; [split; [discriminate|intros; now elim NG]|]. split.
      * apply holds_unsigned; [exact L|]. fold B. lia.
      * split.
        { intros b H. apply holds_unsigned in H; [|exact L]. exact H. }
        unfold representable. lia.
Qed.

Lemma static_cast_ok : forall e z, castable e z -> static_cast e z = Done z.
Proof.
  intros e z H. unfold static_cast. destruct (e_fixed e) eqn:F; [reflexivity|].
  destruct H as [H|H]; [congruence|]. apply possible_iff in H.
  rewrite (proj2 (Z.leb_le _ _) (proj1 H)), (proj2 (Z.leb_le _ _) (proj2 H)). reflexivity.
Qed.

Lemma static_cast_fault : forall e z, ~ castable e z -> static_cast e z = Fault Overflow.
Proof.
  intros e z H. unfold static_cast, castable in *. destruct (e_fixed e) eqn:F; [elim H; now left|].
  destruct (Z.leb_spec (fst (enum_limits e)) z); [|reflexivity].
  destruct (Z.leb_spec z (snd (enum_limits e))); [|reflexivity].
  elim H. right. apply possible_iff. lia.
Qed.

Lemma castable_dec : forall e z, castable e z \/ ~ castable e z.
Proof.
  intros e z. unfold castable. rewrite possible_iff. destruct (e_fixed e).
  - left. now left.
  - assert (D : (fst (enum_limits e) <= z <= snd (enum_limits e))%Z \/
      ~ (fst (enum_limits e) <= z <= snd (enum_limits e))%Z) by lia.
    destruct D as [D|D]; [left; now right|right]. intros [H|H]; [discriminate|now elim D].
Qed.

Lemma declared_castable : forall e m v, In (m, v) (e_decl e) -> castable e v.
Proof.
  intros e m v I. right. apply possible_iff. unfold enum_limits.
  destruct (lowest_spec e) as (_ & L & _). destruct (highest_spec e) as (_ & H & _).
  specialize (L _ _ I). specialize (H _ _ I). destruct (Z.ltb_spec (lowest e) 0); cbn [fst snd].
  - pose proof (bit_length_nonneg (highest e)).
    set (B := Z.max (bit_length (highest e)) (bit_length (- lowest e - 1))).
    assert (highest e < 2 ^ B)%Z by (apply bit_length_le; unfold B; lia).
    assert (- lowest e - 1 < 2 ^ B)%Z by (apply bit_length_le; unfold B; lia). lia.
  - assert (highest e < 2 ^ (Z.max 1 (bit_length (highest e))))%Z by (apply bit_length_le; lia). lia.
Qed.

(** * Names to values *)

Section One.
Variable e : enumeration.
Hypothesis De : declarable p e.

Lemma cast_loop_ok : forall s fuel i, i + fuel = length (values p e false) ->
  (forall j v, j < i -> nth_error (values p e false) j = Some v -> ~ same_word s (n e v)) ->
  exists o, cast_loop p e s pred i fuel = Done o /\
    match o with
    | Some v => calls e s v
    | None => forall w m, visible e w m -> ~ same_word s m
    end.
Proof.
  intros s fuel. induction fuel as [|fuel IH]; intros i E B; cbn [cast_loop].
  - exists None. split; [reflexivity|]. intros w m V W.
    assert (I : In w (values p e false)) by (apply (In_values p e De); now exists m).
    apply In_nth_error in I. destruct I as (j & J).
    apply (B j w); [|exact J|].
    + assert (j < length (values p e false)) by (apply nth_error_Some; congruence). lia.
    + now rewrite (first_name_n e w m (proj1 V)).
  - destruct (nth_error (values p e false) i) as [v|] eqn:N.
    2:{ apply nth_error_None in N. lia. }
    unfold element, names. rewrite Nat2Z.id, (map_nth_error (n e) _ _ N). cbn [bind].
    destruct (cmp_equal s (n e v) pred) eqn:C.
    + rewrite (enum_value_ok p e De false i v N). cbn [bind]. exists (Some v).
      split; [reflexivity|]. apply cmp_equal_iff in C.
      pose proof (nth_error_In _ _ N) as I. apply (In_values p e De) in I. destruct I as (m & V).
      split.
      * exists m. split; [exact V|]. now rewrite <- (first_name_n e v m (proj1 V)).
      * intros w m' V' W.
        assert (I : In w (values p e false)) by (apply (In_values p e De); now exists m').
        apply In_nth_error in I. destruct I as (j & J).
        destruct (Nat.lt_trichotomy j i) as [L|[->|L]].
        { elim (B j w L J). now rewrite (first_name_n e w m' (proj1 V')). }
        { rewrite N in J. injection J as ->. lia. }
        { assert (G : forall l, StronglySorted Z.lt l -> forall i j v w, i < j ->
            nth_error l i = Some v -> nth_error l j = Some w -> (v < w)%Z).
          { intros l Sl. induction Sl as [|a l Sl IHl Ha]; intros [|i'] [|j'] v' w' Hij Hi Hj;
              try discriminate; try lia.
            - injection Hi as <-. simpl in Hj. rewrite Forall_forall in Ha. apply Ha.
              eapply nth_error_In, Hj.
            - apply (IHl i' j'); [lia|exact Hi|exact Hj]. }
          apply Z.lt_le_incl, (G _ (values_sorted p e false) i j); assumption. }
    + apply IH; [lia|]. intros j w Hj J. destruct (Nat.eq_dec j i) as [->|Nj].
      * rewrite N in J. injection J as <-. intros W. apply cmp_equal_iff in W. congruence.
      * apply (B j w); [lia|exact J].
Qed.

Lemma enum_cast_ok : forall s, exists o, enum_cast p e s pred = Done o /\
    match o with
    | Some v => calls e s v
    | None => forall w m, visible e w m -> ~ same_word s m
    end.
Proof.
  intros s. unfold enum_cast, count. apply cast_loop_ok; [reflexivity|]. intros j v Hj. lia.
Qed.

Lemma calls_det : forall s v w, calls e s v -> calls e s w -> v = w.
Proof.
  intros s v w ((m & V & W) & L) ((m' & V' & W') & L').
  specialize (L _ _ V' W'). specialize (L' _ _ V W). lia.
Qed.

(** * The error *)

Lemma flatten_loop_spec : forall d sep l ss, l <> [] -> forall t,
  joined sep (map (fun s => d ++ s ++ d) l) t ->
  flatten_loop l sep d sep ss = ss ++ sep ++ t.
Proof.
  intros d sep l. induction l as [|s l IH]; intros ss Hl t J; [now elim Hl|].
  cbn [flatten_loop]. simpl map in J. inversion J as [|s' E1 E2|s' l' r Nr J' E1 E2].
  - destruct l as [|? ?]; [|discriminate]. reflexivity.
  - destruct l as [|x l]; [now elim Nr|]. rewrite (IH _ ltac:(discriminate) r J').
    now rewrite <- !app_assoc.
Qed.

Lemma joined_exists : forall sep l, exists t, joined sep l t.
Proof.
  intros sep l. induction l as [|s l (t & IH)]; [exists []; constructor|].
  destruct l as [|x l]; [exists s; constructor|]. exists (s ++ sep ++ t). now constructor.
Qed.

Lemma flatten_spec : forall d l, joined (lit ", ") (map (fun s => d ++ s ++ d) l) (flatten l d).
Proof.
  intros d l. unfold flatten. destruct l as [|s l]; [constructor|].
  cbn [flatten_loop app map]. destruct l as [|x l].
  - simpl. constructor.
  - destruct (joined_exists (lit ", ") (map (fun s => d ++ s ++ d) (x :: l))) as (t & J).
    rewrite (flatten_loop_spec d (lit ", ") (x :: l) _ ltac:(discriminate) t J).
    apply joined_cons; [discriminate|exact J].
Qed.

Definition the_listing : list (Z * bytes) := map (fun v => (v, n e v)) (values p e false).

Lemma the_listing_ok : listing e the_listing.
Proof.
  split.
  - unfold the_listing. rewrite map_map. cbn [fst]. rewrite map_id. apply values_sorted.
  - intros v m. unfold the_listing. rewrite in_map_iff. split.
    + intros (w & [= -> <-] & I). apply (In_values p e De) in I. destruct I as (m & V).
      now rewrite (first_name_n e v m (proj1 V)).
    + intros V. exists v. rewrite (first_name_n e v m (proj1 V)). split; [reflexivity|].
      apply (In_values p e De). now exists m.
Qed.

Lemma identifier_no_nul : forall m, identifier m -> no_nul m.
Proof.
  intros m (c & r & -> & Hc & Hr) I.
  assert (L : forall c, letter_or_digit c -> c <> ascii_of_nat 0).
  { intros x [[H|[H|H]]|H] ->; try (vm_compute in H; lia). discriminate H. }
  destruct I as [E|I].
  - apply (L c); [now left|exact E].
  - rewrite Forall_forall in Hr. apply (L _ (Hr _ I)). reflexivity.
Qed.

Lemma names_no_nul : no_nul (flatten (names p e false) (lit "'")).
Proof.
  eapply joined_no_nul; [| |apply flatten_spec]; [now apply no_nul_lit|].
  intros s Hs. apply in_map_iff in Hs. destruct Hs as (x & <- & Hx).
  unfold names in Hx. apply in_map_iff in Hx. destruct Hx as (v & <- & Hv).
  apply (In_values p e De) in Hv. destruct Hv as (m & V).
  rewrite (first_name_n e v m (proj1 V)).
  assert (no_nul m) by (apply identifier_no_nul, (declared_ok p e De v), V).
  apply no_nul_app; [now apply no_nul_lit|]. apply no_nul_app; [assumption|now apply no_nul_lit].
Qed.

(** * Reading *)

Theorem read_ok : forall s, 
  (exists z, number p (e_under e) s z /\ castable e z /\ fromString p nm e [s] = Done (Value z)) \/
  (exists z, number p (e_under e) s z /\ ~ castable e z /\ fromString p nm e [s] = Fault Overflow) \/
  (~ exists z, number p (e_under e) s z) /\
  ((exists v, calls e s v /\ fromString p nm e [s] = Done (Value v)) \/
   (forall w m, visible e w m -> ~ same_word s m) /\
   fromString p nm e [s] = Done (Error (createGenericError (e_type e) [s]
     (lit "Possible values are [" ++ flatten (names p e false) (lit "'") ++ lit "]")))).
Proof.
  intros s. unfold fromString.
  destruct (underlying_fromString p nm (e_under e) [s]) as [z|m] eqn:U.
  - apply number_iff in U. destruct (castable_dec e z) as [C|C].
    + left. exists z. now rewrite (static_cast_ok e z C).
    + right. left. exists z. now rewrite (static_cast_fault e z C).
  - right. right. split; [apply number_error_iff; now exists m|].
    destruct (enum_cast_ok s) as ([v|] & -> & H); cbn [bind].
    + left. now exists v.
    + right. split; [exact H|]. now rewrite (c_str_no_nul _ names_no_nul).
Qed.

Lemma number_det : forall s z z', number p (e_under e) s z -> number p (e_under e) s z' -> z = z'.
Proof.
  intros s z z' H H'. apply number_iff in H. apply number_iff in H'. rewrite H in H'. now injection H'.
Qed.

(** No identifier is an integer. *)
Lemma identifier_no_integer : forall t m z, identifier m -> ~ number p (UInt t) m z.
Proof.
  intros t m z (c & r & -> & Hc & Hr) H.
  assert (D : exists z', denotes (c :: r) z').
  { inversion H as [| |t' s' z' D R M|t' s' z' U D B M R]; subst; eexists; exact D. }
  destruct D as (z' & D). inversion D as [ws sg f ds z0 Hw Hs Hd E]. subst.
  apply digits_head in Hd. destruct Hd as (c' & r' & -> & Hc').
  assert (L : ~ blank c /\ c <> ascii_of_nat 43 /\ c <> ascii_of_nat 45 /\ isdigit c = false).
  { unfold blank, isdigit. 
    assert (Hu : uchar c = N.of_nat (nat_of_ascii c)).
    { unfold uchar, nat_of_ascii. now rewrite N2Nat.id. }
    rewrite Hu. destruct Hc as [Hc|[Hc|Hc]].
    3:{ subst c. split; [vm_compute; lia|]. split; [discriminate|]. split; [discriminate|reflexivity]. }
    1,2: split; [intros Hi; simpl in Hi; lia|].
    1,2: split; [intros ->; vm_compute in Hc; lia|].
    1,2: split; [intros ->; vm_compute in Hc; lia|].
    1,2: destruct (N.leb_spec 48 (N.of_nat (nat_of_ascii c)));
         destruct (N.leb_spec (N.of_nat (nat_of_ascii c)) 57); try reflexivity; lia. }
  destruct L as (L1 & L2 & L3 & L4).
  destruct ws as [|w ws].
  - inversion Hs; subst; simpl in E; injection E as E1 E2; subst; try congruence.
  - simpl in E. injection E as E1 E2. subst w. apply L1, Hw. now left.
Qed.
End One.
End Proofs.
