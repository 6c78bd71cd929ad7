(** Proofs about Enums.v. *)
From Coq Require Import Ascii String NArith ZArith Bool PeanoNat Lia List Sorting.Sorted.
Import ListNotations.
From Verif Require Import Base Lexer StringConv StringConvSpec StringConvProofs
  Serializer SerializerSpec SerializerProofs Enums EnumsSpec.

Local Notation length := List.length.

(** * Lists *)

Lemma sorted_filter : forall (f : Z -> bool) l,
  StronglySorted Z.lt l -> StronglySorted Z.lt (filter f l).
Proof.
  intros f l H. induction H as [|a l H IH Ha]; simpl; [constructor|].
  destruct (f a); [|exact IH]. constructor; [exact IH|].
  apply Forall_forall. intros x Hx. apply filter_In in Hx.
  rewrite Forall_forall in Ha. now apply Ha.
Qed.

Lemma sorted_map_seq : forall (f : nat -> Z) k s,
  (forall i j, s <= i -> i < j -> (f i < f j)%Z) -> StronglySorted Z.lt (map f (seq s k)).
Proof.
  intros f k. induction k as [|k IH]; intros s H; simpl; [constructor|].
  constructor.
  - apply IH. intros i j Hi Hj. apply H; lia.
  - apply Forall_forall. intros x Hx. apply in_map_iff in Hx. destruct Hx as (i & <- & Hi).
    apply in_seq in Hi. apply H; lia.
Qed.

Lemma sorted_ext : forall l l' : list Z, StronglySorted Z.lt l -> StronglySorted Z.lt l' ->
  (forall x, In x l <-> In x l') -> l = l'.
Proof.
  intros l l' H. revert l'. induction H as [|a l H IH Ha]; intros l' H' E.
  - destruct l' as [|b l']; [reflexivity|]. destruct (proj2 (E b)). now left.
  - destruct H' as [|b l' H' Hb]; [destruct (proj1 (E a)); now left|].
    rewrite Forall_forall in Ha, Hb.
    assert (a = b).
    { destruct (proj1 (E a) (or_introl eq_refl)) as [->|Ia]; [reflexivity|].
      destruct (proj2 (E b) (or_introl eq_refl)) as [->|Ib]; [reflexivity|].
      specialize (Ha _ Ib). specialize (Hb _ Ia). lia. }
    subst b. f_equal. apply IH; [exact H'|]. intros x. split; intros Hx.
    + destruct (proj1 (E x) (or_intror Hx)) as [->|]; [|assumption]. specialize (Ha _ Hx). lia.
    + destruct (proj2 (E x) (or_intror Hx)) as [->|]; [|assumption]. specialize (Hb _ Hx). lia.
Qed.

Lemma sorted_lower : forall l, StronglySorted Z.lt l -> forall i x,
  nth_error l i = Some x -> (hd 0 l + Z.of_nat i <= x)%Z.
Proof.
  intros l H. induction H as [|a l H IH Ha]; intros [|i] x E; try discriminate.
  - injection E as <-. simpl. lia.
  - simpl in E. pose proof (IH _ _ E) as B. destruct l as [|b l]; [now destruct i|].
    rewrite Forall_forall in Ha. specialize (Ha b (or_introl eq_refl)). simpl in *. lia.
Qed.

Lemma sorted_upper : forall l, StronglySorted Z.lt l -> forall i x,
  nth_error l i = Some x -> (x + Z.of_nat (length l) <= last l 0 + Z.of_nat i + 1)%Z.
Proof.
  intros l H. induction H as [|a l H IH Ha]; intros [|i] x E; try discriminate.
  - injection E as <-. destruct l as [|b l]; [simpl; lia|].
    pose proof (IH 0 b eq_refl) as B. rewrite Forall_forall in Ha.
    specialize (Ha b (or_introl eq_refl)).
    change (last (a :: b :: l) 0%Z) with (last (b :: l) 0%Z). simpl length in *. lia.
  - simpl in E. pose proof (IH _ _ E) as B. destruct l as [|b l]; [now destruct i|].
    change (last (a :: b :: l) 0%Z) with (last (b :: l) 0%Z). simpl length in *. lia.
Qed.

Lemma hd_nth : forall (l : list Z), l <> [] -> nth_error l 0 = Some (hd 0%Z l).
Proof. intros [|a l] H; [now elim H|reflexivity]. Qed.

Lemma last_nth : forall (l : list Z), l <> [] -> nth_error l (length l - 1) = Some (last l 0%Z).
Proof.
  induction l as [|a l IH]; intros H; [now elim H|].
  destruct l as [|b l]; [reflexivity|].
  change (last (a :: b :: l) 0%Z) with (last (b :: l) 0%Z). rewrite <- IH by discriminate.
  simpl. now rewrite Nat.sub_0_r.
Qed.

Lemma hd_In : forall (l : list Z), l <> [] -> In (hd 0%Z l) l.
Proof. intros [|a l] H; [now elim H|now left]. Qed.
Lemma last_In : forall (l : list Z), l <> [] -> In (last l 0%Z) l.
Proof. intros l H. eapply nth_error_In, last_nth, H. Qed.

Lemma sorted_bounds : forall l x, StronglySorted Z.lt l -> In x l ->
  (hd 0 l <= x <= last l 0)%Z.
Proof.
  intros l x H Hx. apply In_nth_error in Hx. destruct Hx as (i & Hi).
  pose proof (sorted_lower l H i x Hi). pose proof (sorted_upper l H i x Hi).
  assert (i < length l) by (apply nth_error_Some; congruence). lia.
Qed.

Lemma sorted_count : forall l, StronglySorted Z.lt l -> l <> [] ->
  (Z.of_nat (length l) <= last l 0 - hd 0 l + 1)%Z.
Proof.
  intros l H Hl. pose proof (sorted_upper l H 0 _ (hd_nth l Hl)). lia.
Qed.

(** Without gaps the elements can be computed. *)
Lemma sorted_dense : forall l, StronglySorted Z.lt l ->
  (last l 0 - hd 0 l + 1 = Z.of_nat (length l))%Z -> forall i x,
  nth_error l i = Some x -> x = (Z.of_nat i + hd 0 l)%Z.
Proof.
  intros l H E i x Hi. pose proof (sorted_lower l H i x Hi). pose proof (sorted_upper l H i x Hi).
  lia.
Qed.

(** * Names of values *)

Lemma find_first : forall (v : Z) (l : list (bytes * Z)) d,
  find (fun d => (snd d =? v)%Z) l = Some d <->
  exists before after, l = before ++ d :: after /\ snd d = v /\ forall m, ~ In (m, v) before.
Proof.
  intros v l d. induction l as [|x l IH]; simpl.
  - split; [discriminate|]. intros ([|? ?] & ? & E & _); discriminate E.
  - destruct (Z.eqb_spec (snd x) v) as [Ex|Nx].
    + split.
      * intros [= <-]. exists [], l. split; [reflexivity|]. split; [assumption|]. intros m [].
      * intros ([|y before] & after & E & Ed & Hb); injection E as <- E; [reflexivity|].
        elim (Hb (fst x)). left. subst v. now destruct x.
    + rewrite IH. split.
      * intros (before & after & -> & Ed & Hb). exists (x :: before), after.
        split; [reflexivity|]. split; [assumption|]. intros m [->|Hm]; [now elim Nx|].
        now elim (Hb m).
      * intros ([|y before] & after & E & Ed & Hb); injection E as <- E; [now elim Nx|].
        exists before, after. split; [assumption|]. split; [assumption|].
        intros m Hm. apply (Hb m). now right.
Qed.

Lemma identifier_nonempty : forall m, identifier m -> m <> [].
Proof. intros m (c & r & -> & _). discriminate. Qed.

Lemma first_name_In : forall e v m, first_name e v m -> In (m, v) (e_decl e).
Proof.
  intros e v m (b & a & E & _). rewrite E. apply in_or_app. right. now left.
Qed.

Section Proofs.
Variable p : platform.
Variable nm : naming.
Variable e : enumeration.
Hypothesis De : declarable p e.

Lemma declared_ok : forall v m, first_name e v m -> identifier m /\ under_range p (e_under e) v.
Proof. intros v m H. apply (proj1 (proj2 De)). now apply first_name_In. Qed.

Lemma first_name_n : forall v m, first_name e v m -> n e v = m.
Proof.
  intros v m (b & a & E & Hb). unfold n.
  rewrite (proj2 (find_first v (e_decl e) (m, v))); [reflexivity|]. now exists b, a.
Qed.

Lemma first_name_valid : forall v m, first_name e v m -> is_valid e v = true.
Proof.
  intros v m H. unfold is_valid. rewrite (first_name_n v m H).
  destruct (declared_ok v m H) as (I & _). apply identifier_nonempty in I.
  destruct m; [now elim I|reflexivity].
Qed.

Lemma valid_first_name : forall v, is_valid e v = true -> first_name e v (n e v).
Proof.
  intros v H. unfold is_valid, n in *.
  destruct (find (fun d => (snd d =? v)%Z) (e_decl e)) as [[m w]|] eqn:F; [|discriminate].
  apply find_first in F. destruct F as (b & a & E & Ew & Hb). simpl in *. subst w. now exists b, a.
Qed.

Lemma first_name_det : forall v m m', first_name e v m -> first_name e v m' -> m = m'.
Proof. intros v m m' H H'. now rewrite <- (first_name_n v m H), <- (first_name_n v m' H'). Qed.

(** * The tables *)

Lemma limits_range : forall u z, under_range p u z <-> (fst (limits p u) <= z <= snd (limits p u))%Z.
Proof.
  intros u z. destruct u as [|t]; [reflexivity|].
  destruct p as [cs lw]; destruct t, cs, lw; reflexivity.
Qed.

Lemma limits_shape : forall u, exists k, (0 <= k)%Z /\ snd (limits p u) = (2 ^ k - 1)%Z /\
  (fst (limits p u) = 0 \/ fst (limits p u) = - 2 ^ k)%Z.
Proof.
  intros u.
  destruct u as [|t]; [exists 1%Z; split; [lia|split; [reflexivity|now left]]|].
  destruct p as [cs lw]; destruct t, cs, lw;
  match goal with
  | |- context [limits ?q (UInt CChar)] =>
      let c := eval vm_compute in (Z.log2 (snd (limits q (UInt CChar)) + 1)) in exists c
  | |- context [limits ?q ?u] =>
      let c := eval vm_compute in (Z.log2 (snd (limits q u) + 1)) in exists c
  end; (split; [lia|]); (split; [reflexivity|]); ((left; reflexivity) || (right; reflexivity)).
Qed.

Lemma digits_spec : forall u, (0 <= digits p u)%Z /\ snd (limits p u) = (2 ^ digits p u - 1)%Z.
Proof.
  intros u. unfold digits. destruct (limits_shape u) as (k & Hk & E & _). rewrite E.
  replace (2 ^ k - 1 + 1)%Z with (2 ^ k)%Z by lia. now rewrite Z.log2_pow2.
Qed.

Lemma value_at_mono : forall fl O i j, (0 <= O \/ fl = false)%Z -> i < j ->
  (value_at fl O i < value_at fl O j)%Z.
Proof.
  intros fl O i j HO Hij. unfold value_at. destruct fl; [|lia].
  destruct HO as [HO|HO]; [|discriminate]. apply Z.pow_lt_mono_r; lia.
Qed.

Lemma values_sorted : forall fl, StronglySorted Z.lt (values p e fl).
Proof.
  intros fl. unfold values. apply sorted_filter, sorted_map_seq.
  intros i j _ Hij. apply value_at_mono; [|exact Hij]. destruct fl; [left; simpl; lia|now right].
Qed.

Lemma reflected_bounds : (-128 <= reflected_min p e false <= 0 /\
  0 < reflected_max p e false <= 128)%Z.
Proof.
  unfold reflected_min, reflected_max. destruct (limits_shape (e_under e)) as (k & Hk & E & F).
  destruct (Z.ltb_spec (-128) (fst (limits p (e_under e))));
  destruct (Z.ltb_spec 128 (snd (limits p (e_under e)))).
  all: destruct (Z.eq_dec k 0) as [->|]; [|assert (2 ^ 1 <= 2 ^ k)%Z by (apply Z.pow_le_mono_r; lia)].
  all: try lia.
  all: exfalso; destruct (e_under e) as [|t]; try discriminate E;
    destruct p as [cs lw]; destruct t, cs, lw; discriminate E.
Qed.

Lemma In_values : forall v,
  In v (values p e false) <-> exists m, visible e v m.
Proof.
  intros v. unfold values. rewrite filter_In, in_map_iff.
  pose proof reflected_bounds as (B1 & B2).
  split.
  - intros ((i & E & Hi) & V). apply in_seq in Hi. unfold value_at in E.
    exists (n e v). split; [now apply valid_first_name|]. lia.
  - intros (m & F & R). split; [|now apply first_name_valid in F].
    destruct (declared_ok v m F) as (_ & U). apply limits_range in U.
    exists (Z.to_nat (v - reflected_min p e false)).
    assert (reflected_min p e false <= v <= reflected_max p e false)%Z.
    { unfold reflected_min, reflected_max.
      destruct (Z.ltb_spec (-128) (fst (limits p (e_under e))));
      destruct (Z.ltb_spec 128 (snd (limits p (e_under e)))); lia. }
    split; [unfold value_at; lia|]. apply in_seq. lia.
Qed.

Lemma In_flag_values : forall v,
  In v (values p e true) <-> exists k m, v = (2 ^ k)%Z /\ flag e k m.
Proof.
  intros v. unfold values. rewrite filter_In, in_map_iff.
  destruct (digits_spec (e_under e)) as (D0 & D1).
  split.
  - intros ((i & E & Hi) & V). apply in_seq in Hi. unfold value_at, reflected_min in E.
    exists (Z.of_nat i), (n e v). rewrite Z.add_0_r in E.
    split; [easy|]. split; [lia|]. rewrite E. now apply valid_first_name.
  - intros (k & m & -> & K & F). split; [|now apply first_name_valid in F].
    destruct (declared_ok _ m F) as (_ & U). apply limits_range in U.
    assert (k < digits p (e_under e))%Z.
    { apply (Z.pow_lt_mono_r_iff 2); lia. }
    exists (Z.to_nat k). unfold value_at, reflected_min, reflected_max.
    split; [rewrite Z2Nat.id, Z.add_0_r by lia; reflexivity|]. apply in_seq. lia.
Qed.

(** Flags as bit numbers. *)
Lemma flag_logs_sorted : StronglySorted Z.lt (map Z.log2 (values p e true)).
Proof.
  unfold values.
  assert (G : forall N s, StronglySorted Z.lt
    (map Z.log2 (filter (is_valid e) (map (value_at true (reflected_min p e true)) (seq s N)))) /\
    forall x, In x (map Z.log2 (filter (is_valid e) (map (value_at true (reflected_min p e true)) (seq s N)))) ->
      (Z.of_nat s <= x)%Z).
  { intros N. induction N as [|N IH]; intros s; cbn [seq map filter].
    - split; [constructor|intros x []].
    - destruct (IH (S s)) as (A & B). destruct (is_valid e _).
      + assert (L : Z.log2 (value_at true (reflected_min p e true) s) = Z.of_nat s).
        { unfold value_at, reflected_min. rewrite Z.add_0_r. apply Z.log2_pow2. lia. }
        cbn [map]. rewrite L. split.
        * constructor; [exact A|]. apply Forall_forall. intros x Hx. specialize (B x Hx). lia.
        * intros x [<-|Hx]; [lia|]. specialize (B x Hx). lia.
      + split; [exact A|]. intros x Hx. specialize (B x Hx). lia. }
  apply G.
Qed.

Lemma map_hd : forall (f : Z -> Z) l, l <> [] -> hd 0%Z (map f l) = f (hd 0%Z l).
Proof. intros f [|a l] H; [now elim H|reflexivity]. Qed.
Lemma map_last : forall (f : Z -> Z) l, l <> [] -> last (map f l) 0%Z = f (last l 0%Z).
Proof.
  intros f l. induction l as [|a l IH]; intros H; [now elim H|].
  destruct l as [|b l]; [reflexivity|].
  change (last (map f (b :: l)) 0%Z = f (last (b :: l) 0%Z)). apply IH. discriminate.
Qed.

Lemma enum_value_ok : forall fl i v, nth_error (values p e fl) i = Some v ->
  enum_value p e fl i = Done v.
Proof.
  intros fl i v H. unfold enum_value, count, assert_.
  assert (L : i < length (values p e fl)) by (apply nth_error_Some; congruence).
  rewrite (proj2 (Nat.ltb_lt _ _) L). cbn [bind].
  assert (Ne : values p e fl <> []) by (intros E; rewrite E in L; simpl in L; lia).
  destruct (is_sparse p e fl) eqn:S.
  - unfold element. now rewrite Nat2Z.id, H.
  - f_equal. unfold is_sparse in S. apply negb_false_iff, Z.eqb_eq in S.
    unfold range_size, count, min_v, max_v in *. destruct fl; unfold value_at.
    + rewrite <- map_hd, <- (map_last Z.log2) in S by exact Ne.
      rewrite <- (map_length Z.log2) in S.
      assert (E : Z.log2 v = (Z.of_nat i + hd 0 (map Z.log2 (values p e true)))%Z).
      { apply (sorted_dense _ flag_logs_sorted); [exact S|].
        now apply map_nth_error. }
      rewrite map_hd in E by exact Ne. rewrite <- E.
      apply nth_error_In, In_flag_values in H. destruct H as (k & m & -> & K & _).
      now rewrite Z.log2_pow2.
    + symmetry. apply (sorted_dense _ (values_sorted false)); assumption.
Qed.

Lemma range_bounds : values p e false <> [] ->
  (0 < range_size p e false <= 257)%Z /\
  (Z.of_nat (length (values p e false)) <= range_size p e false)%Z.
Proof.
  intros Ne. unfold range_size, min_v, max_v.
  pose proof (sorted_count _ (values_sorted false) Ne).
  assert (0 < length (values p e false)) by (destruct (values p e false); [now elim Ne|simpl; lia]).
  pose proof (proj1 (In_values _) (hd_In _ Ne)) as (m1 & _ & H1).
  pose proof (proj1 (In_values _) (last_In _ Ne)) as (m2 & _ & H2). lia.
Qed.

Lemma invalid_not_index : values p e false <> [] -> forall i : Z,
  (0 <= i < Z.of_nat (length (values p e false)))%Z -> i <> invalid_index p e false.
Proof.
  intros Ne i Hi. pose proof (range_bounds Ne). unfold invalid_index.
  change (umax 8) with 255%Z. change (umax 16) with 65535%Z.
  destruct (Z.ltb_spec (range_size p e false) 255); lia.
Qed.

(** The values as a filtered interval between the least and the largest. *)
Lemma values_between : values p e false <> [] ->
  values p e false =
  filter (is_valid e) (map (value_at false (min_v p e false)) (seq 0 (Z.to_nat (range_size p e false)))).
Proof.
  intros Ne. apply sorted_ext; [apply values_sorted| |].
  - apply sorted_filter, sorted_map_seq. intros i j _ H. apply value_at_mono; [now right|exact H].
  - intros x. rewrite filter_In, in_map_iff. pose proof (range_bounds Ne) as (R & _). split.
    + intros Hx. pose proof (sorted_bounds _ x (values_sorted false) Hx) as B. split.
      * exists (Z.to_nat (x - min_v p e false)). unfold value_at, range_size, min_v, max_v in *.
        split; [lia|]. apply in_seq. lia.
      * apply In_values in Hx. destruct Hx as (m & F & _). now apply first_name_valid in F.
    + intros ((i & E & Hi) & V). apply in_seq in Hi. apply In_values. exists (n e x).
      split; [now apply valid_first_name|].
      pose proof (proj1 (In_values _) (hd_In _ Ne)) as (m1 & _ & H1).
      pose proof (proj1 (In_values _) (last_In _ Ne)) as (m2 & _ & H2).
      unfold value_at, range_size, min_v, max_v in *. lia.
Qed.

(** Number of valid values before the [j]-th. *)
Fixpoint rank (min : Z) (k j : nat) : nat :=
  match j with
  | O => 0
  | S j => (if is_valid e (value_at false min k) then 1 else 0) + rank min (S k) j
  end.

Lemma indexes_nth : forall min size k i j, j < size ->
  nth_error (indexes_loop p e false min k size i) j =
  Some (if is_valid e (value_at false min (k + j)) then (i + Z.of_nat (rank min k j))%Z
        else invalid_index p e false).
Proof.
  intros min size. induction size as [|size IH]; intros k i j Hj; [lia|].
  cbn [indexes_loop]. destruct j as [|j].
  - rewrite Nat.add_0_r. destruct (is_valid e _); simpl; [|reflexivity]. now rewrite Z.add_0_r.
  - destruct (is_valid e (value_at false min k)) eqn:V; cbn [nth_error rank]; rewrite IH, V by lia;
    rewrite Nat.add_succ_comm; destruct (is_valid e (value_at false min (k + S j)));
      try reflexivity; f_equal; lia.
Qed.

Lemma rank_nth : forall min size k j, j < size -> is_valid e (value_at false min (k + j)) = true ->
  nth_error (filter (is_valid e) (map (value_at false min) (seq k size))) (rank min k j) =
  Some (value_at false min (k + j)).
Proof.
  intros min size. induction size as [|size IH]; intros k j Hj V; [lia|].
  cbn [seq map filter]. destruct j as [|j].
  - rewrite Nat.add_0_r in *. rewrite V. reflexivity.
  - cbn [rank]. rewrite <- Nat.add_succ_comm in *. destruct (is_valid e (value_at false min k)).
    + cbn [plus nth_error]. apply IH; [lia|exact V].
    + apply IH; [lia|exact V].
Qed.

(** * Printing *)

Lemma wide_limits : forall bits, wide_signed p (e_under e) = Some bits ->
  (fst (limits p (e_under e)) = smin bits /\ snd (limits p (e_under e)) = smax bits)%Z /\
  forall a b, difference p (e_under e) a b = signed_difference bits a b.
Proof.
  intros bits. destruct (e_under e) as [|t]; [discriminate|].
  destruct p as [cs lw]; destruct t, lw; intros [= <-]; (split; [split; reflexivity|]);
    intros a b; reflexivity.
Qed.

(** The difference, if it is defined and the value is not below the least one. *)
Lemma difference_ok : forall a b, under_range p (e_under e) a -> under_range p (e_under e) b ->
  (b <= a)%Z -> (a - b <= 256)%Z ->
  (forall bits, wide_signed p (e_under e) = Some bits ->
     (- 2 ^ (bits - 1) <= a - b < 2 ^ (bits - 1))%Z) ->
  difference p (e_under e) a b = Done (a - b)%Z.
Proof.
  intros a b A B L M W. apply limits_range in A. apply limits_range in B.
  assert (M64 : ((a - b) mod two64 = a - b)%Z) by (apply Z.mod_small; unfold two64; lia).
  assert (SD : forall bits, (9 < bits)%Z -> (- 2 ^ (bits - 1) <= a - b < 2 ^ (bits - 1))%Z ->
    signed_difference bits a b = Done (a - b)%Z).
  { intros bits Hb Hd. unfold signed_difference.
    replace (smin bits <=? a - b)%Z with true by (symmetry; apply Z.leb_le; unfold smin; lia).
    replace (a - b <=? smax bits)%Z with true by (symmetry; apply Z.leb_le; unfold smax; lia).
    cbn [andb]. now rewrite M64. }
  assert (U : forall bits, (9 < bits)%Z -> ((a - b) mod 2 ^ bits = a - b)%Z).
  { intros bits Hb. apply Z.mod_small. split; [lia|].
    assert (2 ^ 9 <= 2 ^ bits)%Z by (apply Z.pow_le_mono_r; lia). change (2 ^ 9)%Z with 512%Z in *. lia. }
  assert (S32 : signed_difference 32 a b = Done (a - b)%Z).
  { apply SD; [lia|]. change (2 ^ (32 - 1))%Z with 2147483648%Z. lia. }
  assert (LB : (9 < long_bits p)%Z) by (unfold long_bits; destruct (long_is p); lia).
  destruct (e_under e) as [|t]; [exact S32|].
  destruct t; unfold difference; try exact S32; try (f_equal; apply U; lia).
  - apply SD; [exact LB|]. apply W. simpl. unfold long_bits. now destruct (long_is p).
  - apply SD; [lia|]. now apply W.
Qed.

Lemma difference_defined : forall a b, under_range p (e_under e) a ->
  under_range p (e_under e) b ->
  (forall bits, wide_signed p (e_under e) = Some bits ->
     (- 2 ^ (bits - 1) <= a - b < 2 ^ (bits - 1))%Z) ->
  exists d, difference p (e_under e) a b = Done d.
Proof.
  intros a b A B W. apply limits_range in A. apply limits_range in B.
  assert (SD : forall bits, (- 2 ^ (bits - 1) <= a - b < 2 ^ (bits - 1))%Z ->
    exists d, signed_difference bits a b = Done d).
  { intros bits H. unfold signed_difference, smin, smax.
    destruct (Z.leb_spec (- 2 ^ (bits - 1)) (a - b)); [|lia].
    destruct (Z.leb_spec (a - b) (2 ^ (bits - 1) - 1)); [|lia]. now eexists. }
  assert (S32 : (-65536 <= a - b <= 65536)%Z -> exists d, signed_difference 32 a b = Done d).
  { intros H. apply SD. change (2 ^ (32 - 1))%Z with 2147483648%Z. lia. }
  destruct (e_under e) as [|t]; [apply S32; simpl in *; lia|].
  destruct t; unfold difference; try (eexists; reflexivity).
  - apply S32. unfold limits, CHAR_MIN, CHAR_MAX in *. cbn [fst snd] in *.
    change (smin 8) with (-128)%Z in *. change (smax 8) with 127%Z in *.
    change (umax 8) with 255%Z in *. destruct (char_signed p); lia.
  - apply S32. cbn [limits fst snd] in *. change (smin 8) with (-128)%Z in *.
    change (smax 8) with 127%Z in *. lia.
  - apply S32. cbn [limits fst snd] in *. change (umax 8) with 255%Z in *. lia.
  - apply S32. cbn [limits fst snd] in *. change (smin 16) with (-32768)%Z in *.
    change (smax 16) with 32767%Z in *. lia.
  - apply S32. cbn [limits fst snd] in *. change (umax 16) with 65535%Z in *. lia.
  - now apply SD, W.
  - apply SD, W. simpl. unfold long_bits. now destruct (long_is p).
  - now apply SD, W.
Qed.

Lemma min_v_least : values p e false <> [] ->
  (exists m, visible e (min_v p e false) m) /\
  forall w m, visible e w m -> (min_v p e false <= w)%Z.
Proof.
  intros Ne. split.
  - apply In_values, hd_In, Ne.
  - intros w m H. assert (I : In w (values p e false)) by (apply In_values; now exists m).
    apply (sorted_bounds _ w (values_sorted false) I).
Qed.

Lemma overflows_iff : values p e false <> [] -> forall v,
  overflows p e v <-> exists bits, wide_signed p (e_under e) = Some bits /\
    ~ (- 2 ^ (bits - 1) <= v - min_v p e false < 2 ^ (bits - 1))%Z.
Proof.
  intros Ne v. destruct (min_v_least Ne) as ((m0 & V0) & L0). split.
  - intros (bits & least & m & W & V & L & O). exists bits. split; [exact W|].
    assert (least = min_v p e false) by (specialize (L0 _ _ V); specialize (L _ _ V0); lia).
    now subst least.
  - intros (bits & W & O). exists bits, (min_v p e false), m0. now repeat (split; try assumption).
Qed.

Lemma undex_ok : values p e false <> [] -> forall v, under_range p (e_under e) v ->
  ~ overflows p e v ->
  exists i, undex p e v = Done i /\
    ((exists m, visible e v m) /\ (0 <= i)%Z /\ nth_error (values p e false) (Z.to_nat i) = Some v \/
     (~ exists m, visible e v m) /\ i = invalid_index p e false).
Proof.
  intros Ne v U O. unfold undex.
  assert (Imin : In (min_v p e false) (values p e false)) by apply hd_In, Ne.
  assert (Imax : In (max_v p e false) (values p e false)) by apply last_In, Ne.
  pose proof (proj1 (In_values _) Imin) as (m1 & F1 & R1).
  pose proof (proj1 (In_values _) Imax) as (m2 & F2 & R2).
  assert (NO : forall bits, wide_signed p (e_under e) = Some bits ->
     (- 2 ^ (bits - 1) <= v - min_v p e false < 2 ^ (bits - 1))%Z).
  { intros bits W. assert (D : (- 2 ^ (bits - 1) <= v - min_v p e false < 2 ^ (bits - 1))%Z \/
      ~ (- 2 ^ (bits - 1) <= v - min_v p e false < 2 ^ (bits - 1))%Z) by lia.
    destruct D as [D|D]; [exact D|]. elim O. apply (overflows_iff Ne). exists bits. now split. }
  destruct (Z.leb_spec (min_v p e false) v) as [L1|L1];
  destruct (Z.leb_spec v (max_v p e false)) as [L2|L2]; cbn [andb].
  2-4: destruct (difference_defined v (min_v p e false) U (proj2 (declared_ok _ _ F1)) NO) as (d & ->);
    cbn [bind]; exists (invalid_index p e false); split; [reflexivity|]; right; split; [|reflexivity];
     intros (m & V); assert (I : In v (values p e false)) by (apply In_values; now exists m);
     apply (sorted_bounds _ v (values_sorted false)) in I; unfold min_v, max_v in *; lia.
  rewrite difference_ok; cbn [bind].
  - assert (NV : (exists m, visible e v m) \/ ~ exists m, visible e v m).
    { destruct (is_valid e v) eqn:V.
      - left. exists (n e v). split; [now apply valid_first_name|lia].
      - right. intros (m & F & _). now rewrite (first_name_valid v m F) in V. }
    pose proof (range_bounds Ne) as (RB & CB).
    destruct (is_sparse p e false) eqn:S.
    + unfold element, indexes. rewrite indexes_nth by (unfold range_size; lia). cbn [bind plus].
      set (j := Z.to_nat (v - min_v p e false)) in *.
      assert (Ej : value_at false (min_v p e false) j = v) by (unfold value_at; lia).
      rewrite Ej. destruct NV as [(m & V)|NV].
      * rewrite (first_name_valid v m (proj1 V)). set (r := rank (min_v p e false) 0 j).
        assert (Hr : nth_error (values p e false) r = Some v).
        { rewrite (values_between Ne) at 1. unfold r. rewrite rank_nth; simpl plus; rewrite ?Ej;
            [reflexivity|unfold range_size; lia|now apply (first_name_valid v m (proj1 V))]. }
        assert (Lr : r < length (values p e false)) by (apply nth_error_Some; congruence).
        destruct (Z.eqb_spec (0 + Z.of_nat r) (invalid_index p e false)) as [E|_].
        { elim (invalid_not_index Ne (Z.of_nat r)); lia. }
        exists (0 + Z.of_nat r)%Z. split; [reflexivity|]. left. split; [now exists m|].
        split; [lia|]. now rewrite Z.add_0_l, Nat2Z.id.
      * destruct (is_valid e v) eqn:V.
        { elim NV. exists (n e v). split; [now apply valid_first_name|lia]. }
        rewrite Z.eqb_refl. eexists. split; [reflexivity|]. right. now split.
    + unfold is_sparse, count in S. apply negb_false_iff, Z.eqb_eq in S.
      exists (v - min_v p e false)%Z. split; [reflexivity|]. left.
      assert (H : nth_error (values p e false) (Z.to_nat (v - min_v p e false)) = Some v).
      { destruct (nth_error (values p e false) (Z.to_nat (v - min_v p e false))) as [x|] eqn:X.
        - f_equal. pose proof (sorted_dense _ (values_sorted false) S _ _ X). unfold min_v in *. lia.
        - apply nth_error_None in X. unfold range_size in S. lia. }
      split; [|split; [lia|exact H]]. apply In_values. eapply nth_error_In, H.
  - exact U.
  - now apply (declared_ok _ m1).
  - exact L1.
  - lia.
  - exact NO.
Qed.

Theorem print_ok : values p e false <> [] -> forall v, under_range p (e_under e) v ->
  ~ overflows p e v ->
  exists t, toString p e v = Done t /\ (visible e v t \/ (~ exists m, visible e v m) /\ t = []).
Proof.
  intros Ne v U O. unfold toString, enum_name.
  destruct (undex_ok Ne v U O) as (i & -> & [((m & V) & I & H)|(NV & ->)]); cbn [bind].
  - assert (L : Z.to_nat i < length (values p e false)) by (apply nth_error_Some; congruence).
    destruct (Z.eqb_spec i (invalid_index p e false)) as [E|_].
    { elim (invalid_not_index Ne i); lia. }
    unfold element, names. rewrite (map_nth_error (n e) _ _ H).
    rewrite (first_name_n v m (proj1 V)). exists m. split; [reflexivity|now left].
  - rewrite Z.eqb_refl. exists []. split; [reflexivity|]. right. now split.
Qed.

Theorem print_overflow : values p e false <> [] -> forall v, overflows p e v ->
  toString p e v = Fault Overflow.
Proof.
  intros Ne v O. apply (overflows_iff Ne) in O. destruct O as (bits & W & O).
  unfold toString, enum_name, undex. rewrite (proj2 (wide_limits bits W)).
  unfold signed_difference, smin, smax.
  destruct (Z.leb_spec (- 2 ^ (bits - 1)) (v - min_v p e false)); [|reflexivity].
  destruct (Z.leb_spec (v - min_v p e false) (2 ^ (bits - 1) - 1)); [lia|reflexivity].
Qed.
End Proofs.
