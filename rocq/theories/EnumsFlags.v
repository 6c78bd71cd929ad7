(** Proofs about the flags variables of Enums.v. *)
From Coq Require Import Ascii String NArith ZArith Bool PeanoNat Lia List Sorting.Sorted.
Import ListNotations.
From Verif Require Import Base Lexer LexerSpec LexerProofs LexerMeta LexerMore StringConv StringConvSpec
  StringConvProofs Serializer SerializerSpec SerializerProofs Enums EnumsSpec EnumsProofs EnumsRead.

Local Notation length := List.length.

(** * Bits *)

Lemma land_pow2 : forall v k, (0 <= k)%Z ->
  negb (Z.land v (2 ^ k) =? 0)%Z = Z.testbit v k.
Proof.
  intros v k Hk. destruct (Z.testbit v k) eqn:B.
  - apply negb_true_iff, Z.eqb_neq. intros E.
    assert (Z.testbit (Z.land v (2 ^ k)) k = false) by (rewrite E; apply Z.testbit_0_l).
    rewrite Z.land_spec, B, Z.pow2_bits_true in H by exact Hk. discriminate.
  - apply negb_false_iff, Z.eqb_eq. apply Z.bits_inj'. intros j Hj.
    rewrite Z.land_spec, Z.testbit_0_l, Z.pow2_bits_eqb by exact Hk.
    destruct (Z.eqb_spec k j) as [<-|]; [now rewrite B|apply andb_false_r].
Qed.

Lemma lor_pow2 : forall a k, (0 <= k)%Z -> (0 <= a < 2 ^ k)%Z -> Z.lor a (2 ^ k) = (a + 2 ^ k)%Z.
Proof.
  intros a k Hk Ha.
  assert (L : Z.land a (2 ^ k) = 0%Z).
  { pose proof (land_pow2 a k Hk) as H.
    assert (Z.testbit a k = false).
    { destruct (Z.eq_dec a 0) as [->|N]; [apply Z.testbit_0_l|].
      apply Z.bits_above_log2; [lia|]. apply Z.log2_lt_pow2; lia. }
    rewrite H0 in H. apply negb_false_iff, Z.eqb_eq in H. exact H. }
  rewrite Z.add_nocarry_lxor by exact L. now rewrite Z.lxor_lor.
Qed.

Lemma sum_app : forall a b, sum (a ++ b) = (sum a + sum b)%Z.
Proof. unfold sum. induction a as [|x a IH]; intros b; simpl; [reflexivity|]. rewrite IH. lia. Qed.

Lemma fold_lor_sum : forall l acc, StronglySorted Z.lt (map Z.log2 l) ->
  (forall w, In w l -> exists k, (0 <= k)%Z /\ w = (2 ^ k)%Z /\ (acc < 2 ^ k)%Z) -> (0 <= acc)%Z ->
  fold_left Z.lor l acc = (acc + sum l)%Z.
Proof.
  induction l as [|w l IH]; intros acc S H A; simpl; [unfold sum; simpl; lia|].
  inversion S as [|? ? S' F]; subst. rewrite Forall_forall in F.
  destruct (H w (or_introl eq_refl)) as (k & Hk & -> & Lk). rewrite lor_pow2 by lia.
  rewrite IH; [unfold sum; simpl; lia|exact S'| |lia].
  intros w' I. destruct (H w' (or_intror I)) as (k' & Hk' & -> & Lk').
  exists k'. split; [exact Hk'|]. split; [reflexivity|].
  assert (L : (Z.log2 (2 ^ k) < Z.log2 (2 ^ k'))%Z) by (apply F, in_map, I).
  rewrite !Z.log2_pow2 in L by assumption.
  assert (2 ^ (k + 1) <= 2 ^ k')%Z by (apply Z.pow_le_mono_r; lia).
  rewrite Z.pow_add_r in H0 by lia. lia.
Qed.

Lemma combined_union : forall xs, union xs (combined xs).
Proof.
  intros xs. unfold union, combined.
  assert (G : forall xs a k, Z.testbit (fold_left Z.lor xs a) k = true <->
    Z.testbit a k = true \/ exists x, In x xs /\ Z.testbit x k = true).
  { intros l. induction l as [|y l IH]; intros a k; simpl.
    - split; [now left|intros [H|(x & [] & _)]; exact H].
    - rewrite IH, Z.lor_spec, orb_true_iff. split.
      + intros [[H|H]|(x & I & H)]; [now left|right; exists y; auto|right; exists x; auto].
      + intros [H|(x & [->|I] & H)]; [auto|auto|right; now exists x]. }
  intros k. rewrite G, Z.testbit_0_l. split; [intros [H|H]; [discriminate|exact H]|now right].
Qed.

Lemma union_det : forall xs r r', union xs r -> union xs r' -> r = r'.
Proof.
  intros xs r r' H H'. apply Z.bits_inj'. intros k _. specialize (H k). specialize (H' k).
  destruct (Z.testbit r k), (Z.testbit r' k); try reflexivity; exfalso.
  - assert (false = true) by (apply H', H; reflexivity). discriminate.
  - assert (false = true) by (apply H, H'; reflexivity). discriminate.
Qed.

(** Unions stay in the range of an integer type. *)
Lemma shift_range : forall b a, (0 <= b)%Z ->
  (- 2 ^ b <= a < 2 ^ b)%Z <-> Z.shiftr a b = 0%Z \/ Z.shiftr a b = (-1)%Z.
Proof.
  intros b a Hb. rewrite Z.shiftr_div_pow2 by exact Hb.
  assert (P : (0 < 2 ^ b)%Z) by (apply Z.pow_pos_nonneg; lia).
  pose proof (Z.div_mod a (2 ^ b) ltac:(lia)) as E. pose proof (Z.mod_pos_bound a (2 ^ b) P) as M.
  split.
  - intros R. assert (-1 <= a / 2 ^ b < 1)%Z; [|lia]. split.
    + apply Z.div_le_lower_bound; lia.
    + apply Z.div_lt_upper_bound; lia.
  - intros [H|H]; rewrite H in E; lia.
Qed.

Lemma lor_range_signed : forall b x y, (0 <= b)%Z -> (- 2 ^ b <= x < 2 ^ b)%Z ->
  (- 2 ^ b <= y < 2 ^ b)%Z -> (- 2 ^ b <= Z.lor x y < 2 ^ b)%Z.
Proof.
  intros b x y Hb Hx Hy. apply shift_range in Hx; [|exact Hb]. apply shift_range in Hy; [|exact Hb].
  apply shift_range; [exact Hb|]. rewrite Z.shiftr_lor.
  destruct Hx as [->| ->]; destruct Hy as [->| ->]; auto.
Qed.

Lemma lor_range_unsigned : forall b x y, (0 <= b)%Z -> (0 <= x < 2 ^ b)%Z -> (0 <= y < 2 ^ b)%Z ->
  (0 <= Z.lor x y < 2 ^ b)%Z.
Proof.
  intros b x y Hb Hx Hy. assert (0 <= Z.lor x y)%Z by (apply Z.lor_nonneg; lia).
  pose proof (lor_range_signed b x y Hb ltac:(lia) ltac:(lia)). lia.
Qed.

Lemma lor_under_range : forall p u x y,
  under_range p u x -> under_range p u y -> under_range p u (Z.lor x y).
Proof.
  intros p u x y. destruct u as [|t]; unfold under_range.
  - intros Hx Hy. pose proof (lor_range_unsigned 1 x y ltac:(lia) ltac:(lia) ltac:(lia)). lia.
  - unfold in_range.
    assert (R : exists b, (0 <= b)%Z /\ type_max p t = (2 ^ b - 1)%Z /\
      (type_min p t = 0%Z \/ type_min p t = (- 2 ^ b)%Z)).
    { exists (Z.log2 (type_max p t + 1)). destruct p as [cs lw].
      destruct t; destruct cs; destruct lw; vm_compute; (split; [congruence|]; split; [reflexivity|]; auto). }
    destruct R as (b & Hb & -> & [->| ->]); intros Hx Hy.
    + pose proof (lor_range_unsigned b x y Hb ltac:(lia) ltac:(lia)). lia.
    + pose proof (lor_range_signed b x y Hb ltac:(lia) ltac:(lia)). lia.
Qed.

Section Proofs.
Variable p : platform.
Variable nm : naming.
Variable e : enumeration.
Hypothesis De : declarable p e.

(** * The text of a flags variable *)

Definition sel (v : Z) (l : list Z) : list Z := filter (fun w => negb (Z.land v w =? 0)%Z) l.

Fixpoint join_acc (a : bytes) (ms : list bytes) : bytes :=
  match ms with
  | [] => a
  | m :: ms => join_acc ((if length a =? 0 then a else a ++ lit "|") ++ m) ms
  end.

Lemma skipn_nth : forall (l : list Z) i x, nth_error l i = Some x -> skipn i l = x :: skipn (S i) l.
Proof.
  induction l as [|y l IH]; intros [|i] x H; try discriminate.
  - injection H as ->. reflexivity.
  - simpl. now rewrite (IH _ _ H).
Qed.

Lemma flags_name_loop_ok : forall v fuel i name check, i + fuel = length (values p e true) ->
  flags_name_loop p e v i fuel name check =
    Done (join_acc name (map (n e) (sel v (skipn i (values p e true)))),
          fold_left Z.lor (sel v (skipn i (values p e true))) check).
Proof.
  intros v fuel. induction fuel as [|fuel IH]; intros i name check E; cbn [flags_name_loop].
  - rewrite skipn_all2 by lia. reflexivity.
  - destruct (nth_error (values p e true) i) as [w|] eqn:N.
    2:{ apply nth_error_None in N. lia. }
    rewrite (enum_value_ok p e De true i w N). cbn [bind].
    rewrite (skipn_nth _ _ _ N). cbn [sel filter].
    destruct (negb (Z.land v w =? 0)%Z).
    + unfold element, names. rewrite Nat2Z.id, (map_nth_error (n e) _ _ N). cbn [bind].
      rewrite IH by lia. reflexivity.
    + rewrite IH by lia. reflexivity.
Qed.

Lemma joined_merge : forall s a m ms r, joined s ((a ++ s ++ m) :: ms) r -> joined s (a :: m :: ms) r.
Proof.
  intros s a m ms r H. inversion H as [|x E1 E2|x l r' Nl J E1 E2]; subst.
  - apply joined_cons; [discriminate|constructor].
  - rewrite <- !app_assoc. apply joined_cons; [discriminate|]. now apply joined_cons.
Qed.

Lemma join_acc_joined : forall ms a, a <> [] -> joined (lit "|") (a :: ms) (join_acc a ms).
Proof.
  induction ms as [|m ms IH]; intros a Ha; cbn [join_acc]; [constructor|].
  destruct a as [|c a]; [now elim Ha|]. cbn [length Nat.eqb]. rewrite <- app_assoc.
  apply joined_merge, IH. discriminate.
Qed.

Lemma join_joined : forall ms, (forall m, In m ms -> m <> []) -> joined (lit "|") ms (join_acc [] ms).
Proof.
  intros [|m ms] H; [constructor|]. cbn [join_acc length Nat.eqb app].
  apply join_acc_joined, H. now left.
Qed.

Definition the_flags (v : Z) : list (Z * bytes) :=
  map (fun w => (Z.log2 w, n e w)) (sel v (values p e true)).

Lemma sorted_sel : forall v l, StronglySorted Z.lt (map Z.log2 l) ->
  StronglySorted Z.lt (map Z.log2 (sel v l)).
Proof.
  intros v l. induction l as [|w l IH]; intros H; [constructor|].
  inversion H as [|? ? H' F]; subst. unfold sel. cbn [filter]. fold (sel v l).
  destruct (negb (Z.land v w =? 0)%Z); [|now apply IH]. cbn [map]. constructor; [now apply IH|].
  rewrite Forall_forall in *. intros x I. apply F. apply in_map_iff in I. destruct I as (y & <- & I).
  apply in_map. apply filter_In in I. apply I.
Qed.

Lemma the_flags_ok : forall v, flags_of e v (the_flags v).
Proof.
  intros v. split.
  - unfold the_flags. rewrite map_map. cbn [fst].
    apply sorted_sel, (flag_logs_sorted p e).
  - intros k m. unfold the_flags, sel. rewrite in_map_iff. split.
    + intros (w & [= <- <-] & I). apply filter_In in I. destruct I as (I & B).
      apply (In_flag_values p e De) in I. destruct I as (k & m & -> & Hk & F).
      rewrite land_pow2 in B by exact Hk. rewrite Z.log2_pow2 by exact Hk.
      rewrite (first_name_n e _ _ F). split; [split; assumption|exact B].
    + intros ((Hk & F) & B). exists (2 ^ k)%Z. rewrite Z.log2_pow2 by exact Hk.
      rewrite (first_name_n e _ _ F). split; [reflexivity|]. apply filter_In. split.
      * apply (In_flag_values p e De). exists k, m. split; [reflexivity|split; assumption].
      * now rewrite land_pow2.
Qed.

Lemma flags_of_det : forall v l l', flags_of e v l -> flags_of e v l' -> l = l'.
Proof.
  intros v l l' (S & H) (S' & H').
  assert (E : map fst l = map fst l').
  { apply sorted_ext; [exact S|exact S'|]. intros x. rewrite !in_map_iff. split.
    - intros ((k & m) & <- & I). exists (k, m). split; [reflexivity|]. now apply H', H.
    - intros ((k & m) & <- & I). exists (k, m). split; [reflexivity|]. now apply H, H'. }
  assert (G : forall k m m', In (k, m) l -> In (k, m') l' -> m = m').
  { intros k m m' I I'. apply H in I. apply H' in I'.
    exact (first_name_det e _ _ _ (proj2 (proj1 I)) (proj2 (proj1 I'))). }
  clear - E G. revert l' E G. induction l as [|(k, m) l IH]; intros [|(k', m') l'] E G; try discriminate.
  - reflexivity.
  - injection E as -> E. rewrite (G k' m m') by now left. f_equal. apply IH; [exact E|].
    intros a b c I I'. apply (G a); now right.
Qed.

Lemma the_flags_sum : forall v,
  fold_left Z.lor (sel v (values p e true)) 0%Z = sum (map (fun f => 2 ^ fst f)%Z (the_flags v)).
Proof.
  intros v.
  assert (P : forall w, In w (sel v (values p e true)) -> exists k, (0 <= k)%Z /\ w = (2 ^ k)%Z).
  { intros w I. apply filter_In in I. destruct I as (I & _).
    apply (In_flag_values p e De) in I. destruct I as (k & m & -> & Hk & _). now exists k. }
  rewrite fold_lor_sum.
  - rewrite Z.add_0_l. unfold the_flags. rewrite map_map. cbn [fst]. f_equal.
    rewrite <- (map_id (sel v (values p e true))) at 1. apply map_ext_in. intros w I.
    destruct (P w I) as (k & Hk & ->). now rewrite Z.log2_pow2.
  - apply sorted_sel, (flag_logs_sorted p e).
  - intros w I. destruct (P w I) as (k & Hk & ->). exists k. split; [exact Hk|].
    split; [reflexivity|]. apply Z.pow_pos_nonneg; lia.
  - lia.
Qed.

Lemma sum_pos : forall l : list (Z * bytes), (forall k m, In (k, m) l -> (0 <= k)%Z) ->
  (0 <= sum (map (fun f => 2 ^ fst f) l))%Z /\ (sum (map (fun f => 2 ^ fst f) l) = 0 -> l = [])%Z.
Proof.
  induction l as [|(k, m) l IH]; intros H; [split; [reflexivity|reflexivity]|].
  destruct IH as (A & _); [intros k' m' I; apply (H k' m'); now right|].
  specialize (H k m (or_introl eq_refl)). assert (0 < 2 ^ k)%Z by (apply Z.pow_pos_nonneg; lia).
  unfold sum in *. cbn [map fold_right fst]. split; [lia|]. intros E. exfalso. lia.
Qed.

Lemma flags_print_ok : forall v, exists t, flags_enum_name p e v = Done t /\ flags_print e v t.
Proof.
  intros v. unfold flags_enum_name, count. rewrite flags_name_loop_ok by reflexivity.
  cbn [bind skipn fst snd]. rewrite the_flags_sum. pose proof (the_flags_ok v) as F.
  destruct (sum_pos (the_flags v)) as (A & B).
  { intros k m I. apply F in I. apply I. }
  destruct (Z.eqb_spec (sum (map (fun f => 2 ^ fst f)%Z (the_flags v))) 0) as [E|E]; cbn [negb andb].
  - exists []. split; [reflexivity|]. eapply flags_unnamed; [exact F|]. left. now apply B.
  - destruct (Z.eqb_spec (sum (map (fun f => 2 ^ fst f)%Z (the_flags v))) v) as [E'|E'].
    + eexists. split; [reflexivity|]. eapply flags_named; [exact F| |now symmetry|].
      * intros N. apply E. now rewrite N.
      * replace (map snd (the_flags v)) with (map (n e) (sel v (values p e true)))
          by (unfold the_flags; now rewrite map_map).
        apply join_joined. intros m I. apply in_map_iff in I. destruct I as (w & <- & I).
        apply filter_In in I. destruct I as (I & _).
        apply (In_flag_values p e De) in I. destruct I as (k & m & -> & Hk & Fn).
        rewrite (first_name_n e _ _ Fn).
        apply identifier_nonempty, (proj1 (declared_ok p e De _ _ Fn)).
    + exists []. split; [reflexivity|]. eapply flags_unnamed; [exact F|]. right. congruence.
Qed.

Lemma flags_print_det : forall v t t', flags_print e v t -> flags_print e v t' -> t = t'.
Proof.
  intros v t t' H H'. destruct H as [l t F N E J|l F O]; destruct H' as [l' t' F' N' E' J'|l' F' O'];
    pose proof (flags_of_det v l l' F F') as <-.
  - exact (joined_det _ _ _ _ J J').
  - destruct O' as [O'|O']; contradiction.
  - destruct O as [O|O]; contradiction.
  - reflexivity.
Qed.

Lemma flags_print_iff : forall v t, flags_enum_name p e v = Done t <-> flags_print e v t.
Proof.
  intros v t. destruct (flags_print_ok v) as (t' & E & H). rewrite E. split.
  - intros [= <-]. exact H.
  - intros H'. now rewrite (flags_print_det v t t' H' H).
Qed.

(** * Setting *)

Lemma read_as_spec : forall s x, read_as p e s x ->
  (castable e x -> fromString p nm e [s] = Done (Value x)) /\
  (~ castable e x -> fromString p nm e [s] = Fault Overflow).
Proof.
  intros s x H. destruct (read_ok p nm e De s) as [(z & N & C & E)|[(z & N & C & E)|(N & R)]].
  - destruct H as [H|(H & _)]; [|now elim H; exists z].
    rewrite (number_det p nm e s x z H N). split; [intros _; exact E|now intros D].
  - destruct H as [H|(H & _)]; [|now elim H; exists z].
    rewrite (number_det p nm e s x z H N). split; [now intros D|intros _; exact E].
  - destruct H as [H|(_ & H)]; [elim N; now exists x|].
    destruct R as [(v & C & E)|(W & _)].
    + rewrite (calls_det e s x v H C). split; [intros _; exact E|]. intros D. elim D.
      destruct C as ((m & (V & _) & _) & _). apply first_name_In in V.
      exact (declared_castable e m v V).
    + destruct H as ((m & V & S) & _). elim (W x m V S).
Qed.

Definition unread (s : bytes) : Prop := forall x, ~ read_as p e s x.

Lemma read_cases : forall s,
  (exists x, read_as p e s x /\ castable e x /\ fromString p nm e [s] = Done (Value x)) \/
  (exists x, read_as p e s x /\ ~ castable e x /\ fromString p nm e [s] = Fault Overflow) \/
  (unread s /\ fromString p nm e [s] = Done (Error (createGenericError (e_type e) [s]
     (lit "Possible values are [" ++ flatten (names p e false) (lit "'") ++ lit "]")))).
Proof.
  intros s. destruct (read_ok p nm e De s) as [(z & N & C & E)|[(z & N & C & E)|(N & R)]].
  - left. exists z. split; [now left|]. now split.
  - right. left. exists z. split; [now left|]. now split.
  - destruct R as [(v & C & E)|(W & E)].
    + left. exists v. split; [right; now split|]. split; [|exact E].
      destruct C as ((m & (V & _) & _) & _). apply first_name_In in V.
      exact (declared_castable e m v V).
    + right. right. split; [|exact E]. intros x [H|(_ & H)]; [elim N; now exists x|].
      destruct H as ((m & V & S) & _). elim (W x m V S).
Qed.

Lemma read_as_det : forall s x y, read_as p e s x -> read_as p e s y -> x = y.
Proof.
  intros s x y [H|(N & H)] [H'|(N' & H')].
  - exact (number_det p nm e s x y H H').
  - elim N'. now exists x.
  - elim N. now exists y.
  - exact (calls_det e s x y H H').
Qed.

Lemma read_as_range : forall s x, read_as p e s x -> under_range p (e_under e) x.
Proof.
  intros s x [H|(_ & ((m & (V & _) & _) & _))].
  - unfold under_range. inversion H; subst; try lia; assumption.
  - exact (proj2 (declared_ok p e De x m V)).
Qed.

Lemma vector_loop_cases : forall input rest acc,
  (exists xs, Forall2 (fun s x => read_as p e s x /\ castable e x) rest xs /\
     vector_loop p nm e input rest acc = Done (Value (acc ++ xs))) \/
  (exists pre s post, rest = pre ++ s :: post /\
     Forall (fun s => exists x, read_as p e s x /\ castable e x) pre /\
     ((exists x, read_as p e s x /\ ~ castable e x) /\
      vector_loop p nm e input rest acc = Fault Overflow \/
      unread s /\ exists m, fromString p nm e [s] = Done (Error m) /\
      vector_loop p nm e input rest acc =
        Done (Error (createGenericError (lit "vector<" ++ e_type e ++ lit ">") input m)))).
Proof.
  intros input rest. induction rest as [|s rest IH]; intros acc; cbn [vector_loop].
  - left. exists []. split; [constructor|]. now rewrite app_nil_r.
  - destruct (read_cases s) as [(x & R & C & E)|[(x & R & C & E)|(U & E)]]; rewrite E; cbn [bind].
    + destruct (IH (acc ++ [x])) as [(xs & F & E')|(pre & s' & post & -> & F & O)].
      * left. exists (x :: xs). split; [constructor; [now split|exact F]|].
        rewrite E'. now rewrite <- app_assoc.
      * right. exists (s :: pre), s', post. split; [reflexivity|]. split; [|exact O].
        constructor; [now exists x|exact F].
    + right. exists [], s, rest. split; [reflexivity|]. split; [constructor|]. left.
      split; [now exists x|reflexivity].
    + right. exists [], s, rest. split; [reflexivity|]. split; [constructor|]. right.
      split; [exact U|]. eexists. split; [exact E|reflexivity].
Qed.

Lemma combined_range : forall xs, Forall (under_range p (e_under e)) xs -> 
  under_range p (e_under e) (combined xs).
Proof.
  intros xs H. unfold combined.
  assert (Z0 : under_range p (e_under e) 0).
  { unfold under_range. destruct (e_under e) as [|t]; [lia|]. unfold in_range.
    destruct p as [cs lw]; destruct t; destruct cs; destruct lw; vm_compute; split; congruence. }
  revert Z0. generalize 0%Z. induction H as [|x xs Hx H IH]; intros a Ha; simpl; [exact Ha|].
  apply IH. now apply lor_under_range.
Qed.

(** * Fixed types: nothing faults *)

Lemma flags_call_safe : e_fixed e = true -> forall v args, exists v' a,
  flags_call p nm e v args = Done (v', a) /\
  (under_range p (e_under e) v -> under_range p (e_under e) v').
Proof.
  intros Fx v args. unfold flags_call. destruct args as [|input [|? ?]].
  - destruct (flags_print_ok v) as (t & -> & _). cbn [bind]. now exists v, (Returned t).
  - destruct (vector_loop_cases input input []) as [(xs & F & ->)|(pre & s & post & _ & _ & O)].
    + cbn [bind app]. rewrite static_cast_ok by now left. cbn [bind].
      destruct (flags_print_ok (combined xs)) as (t & -> & _). cbn [bind].
      exists (combined xs), (Returned t). split; [reflexivity|]. intros _. apply combined_range.
      clear - F De. induction F as [|s x l xs (R & _) F IH]; constructor; [|exact IH].
      exact (read_as_range s x R).
    + destruct O as [((x & _ & C) & _)|(_ & m & _ & ->)]; [elim C; now left|].
      cbn [bind]. eexists. eexists. split; [reflexivity|]. trivial.
  - exists v, WrongCount. now split.
Qed.
End Proofs.

(** * Texts *)

Lemma plain_class : forall sg c,
  ~ In (nat_of_ascii c) [9; 10; 13; 32; 34; 39; 40; 41; 44; 59; 61; 124] ->
  k_word (cfg_classes sg default_cfg) c = true /\ sep (cfg_classes sg default_cfg) c = false /\
  quo (cfg_classes sg default_cfg) c = false.
Proof.
  intros sg [b0 b1 b2 b3 b4 b5 b6 b7] H. revert H.
  destruct sg, b0, b1, b2, b3, b4, b5, b6, b7; vm_compute; intros H;
    solve [ repeat split | exfalso; apply H; tauto ].
Qed.

Lemma identifier_plain : forall m, identifier m -> plain_word m.
Proof.
  intros m (c & r & -> & Hc & Hr). split; [discriminate|].
  assert (G : forall c, letter_or_digit c ->
    ~ In (nat_of_ascii c) [9; 10; 13; 32; 34; 39; 40; 41; 44; 59; 61; 124]).
  { intros d Hd I. simpl in I. unfold letter_or_digit, letter in Hd.
    destruct Hd as [[Hd|[Hd| ->]]|Hd]; [lia|lia| |lia]. vm_compute in I. lia. }
  constructor; [apply G; now left|]. eapply Forall_impl; [|exact Hr]. exact G.
Qed.

Lemma bar_class : forall sg, k_word (cfg_classes sg default_cfg) "|"%char = true /\
  sep (cfg_classes sg default_cfg) "|"%char = true /\ quo (cfg_classes sg default_cfg) "|"%char = false.
Proof. intros [|]; vm_compute; auto. Qed.

Lemma space_class : forall sg, k_space (cfg_classes sg default_cfg) " "%char = true.
Proof. intros [|]; reflexivity. Qed.

Lemma joined_bar : forall sg ms t, Forall plain_word ms -> joined (lit "|") ms t ->
  all (k_word (cfg_classes sg default_cfg)) t /\ none (quo (cfg_classes sg default_cfg)) t /\
  fields (sep (cfg_classes sg default_cfg)) t = ms.
Proof.
  intros sg ms t F J. induction J as [|m|m l r Nl J IH].
  - split; [intros c []|]. split; [intros c []|reflexivity].
  - inversion F as [|? ? (N & P) _]; subst. rewrite Forall_forall in P.
    split; [intros c I; apply (plain_class sg c (P c I))|].
    split; [intros c I; apply (plain_class sg c (P c I))|].
    rewrite <- (app_nil_r m) at 1. rewrite fields_item; [reflexivity|exact N| |exact I].
    intros c I. apply (plain_class sg c (P c I)).
  - inversion F as [|? ? (N & P) F']; subst. rewrite Forall_forall in P.
    destruct (IH F') as (A & B & C). destruct (bar_class sg) as (B1 & B2 & B3).
    change (lit "|") with ["|"%char]. cbn [app].
    split; [|split].
    + intros c I. apply in_app_iff in I. destruct I as [I|[<-|I]];
        [apply (plain_class sg c (P c I))|exact B1|now apply A].
    + intros c I. apply in_app_iff in I. destruct I as [I|[<-|I]];
        [apply (plain_class sg c (P c I))|exact B3|now apply B].
    + rewrite fields_item; [|exact N| |exact B2].
      * f_equal. rewrite <- C. change ("|"%char :: r) with (["|"%char] ++ r). apply fields_sep.
        intros c [<-|[]]. exact B2.
      * intros c I. apply (plain_class sg c (P c I)).
Qed.

Lemma parse_bar : forall sg name ms t, plain_word name -> ms <> [] -> Forall plain_word ms ->
  joined (lit "|") ms t ->
  parse_input sg default_cfg (name ++ lit " " ++ t) = Done (Value (Input name [ms] [])).
Proof.
  intros sg name ms t (Nn & Pn) Nm F J. destruct (joined_bar sg ms t F J) as (A & B & C).
  destruct name as [|c0 w0]; [now elim Nn|]. rewrite Forall_forall in Pn.
  destruct ms as [|m ms]; [now elim Nm|]. inversion F as [|? ? (N & P) _]; subst.
  destruct m as [|c w]; [now elim N|]. rewrite Forall_forall in P.
  assert (Ht : exists w', t = c :: w').
  { inversion J; subst; [now exists w|]. now eexists. }
  destruct Ht as (w' & ->). rewrite <- C.
  change ((c0 :: w0) ++ lit " " ++ c :: w') with (lexeme_text (LWord c0 w0) ++ " "%char :: [] ++ c :: w').
  apply word_compound_fields.
  - constructor. destruct (existsb _ w0) eqn:X; [|reflexivity]. apply existsb_exists in X.
    destruct X as (d & I & X). destruct (plain_class sg d (Pn d (or_intror I))) as (_ & Y & _). congruence.
  - split; [apply (plain_class sg c0), Pn; now left|].
    intros d I. apply (plain_class sg d), Pn. now right.
  - apply space_class.
  - intros d [].
  - apply (plain_class sg c), P. now left.
  - intros d I. apply A. now right.
  - apply (plain_class sg c), P. now left.
  - exact B.
Qed.
