(** The entries stored in the node array under arbitrary operations, also when the bucket
    chains are damaged. *)
From Coq Require Import Ascii String NArith ZArith Bool PeanoNat Lia List.
Import ListNotations.
From Verif Require Import Util Base UMap UMapSpec UMapProofs UMapMore.

Section Iter.
Context {K V : Type}.
Variable keqb : K -> K -> bool.
Variable hash : K -> Z.

Local Notation node := (node K V).
Local Notation umap := (umap K V).

Definition entry (n : node) : K * V := (n_key n, n_val n).

Lemma iterate_entries (m : umap) : iterate m = map entry (nodes m).
Proof. reflexivity. Qed.

Lemma map_set_nth {A B} (f : A -> B) (l : list A) i x : map f (set_nth l i x) = set_nth (map f l) i (f x).
Proof. revert i. induction l as [|y l IH]; intros [|i]; simpl; congruence. Qed.

Lemma set_nth_same {A} (l : list A) i x : nth_error l i = Some x -> set_nth l i x = l.
Proof.
  revert i. induction l as [|y l IH]; intros [|i] H; simpl in *; try congruence.
  now rewrite IH.
Qed.

Lemma at_inv {A} (l : list A) i x : at_ l i = Done x -> nth_error l i = Some x.
Proof. unfold at_. destruct (nth_error l i); congruence. Qed.

Lemma put_prev_entries (ns ns' : list node) i p :
  put_prev ns i p = Done ns' -> map entry ns' = map entry ns.
Proof.
  unfold put_prev. destruct (at_ ns i) as [n|] eqn:E; simpl; [|discriminate]. intros [= <-].
  apply at_inv in E. rewrite map_set_nth. change (entry (set_prev n p)) with (entry n).
  apply set_nth_same. now rewrite nth_error_map, E.
Qed.

Lemma put_next_entries (ns ns' : list node) i p :
  put_next ns i p = Done ns' -> map entry ns' = map entry ns.
Proof.
  unfold put_next. destruct (at_ ns i) as [n|] eqn:E; simpl; [|discriminate]. intros [= <-].
  apply at_inv in E. rewrite map_set_nth. change (entry (set_next n p)) with (entry n).
  apply set_nth_same. now rewrite nth_error_map, E.
Qed.

Lemma insert_walk_entries fuel : forall (ns ns' : list node) new i,
  insert_walk fuel ns new i = Done ns' -> map entry ns' = map entry ns.
Proof.
  induction fuel as [|f IH]; intros ns ns' new i; simpl; [discriminate|].
  destruct (at_ ns i) as [n|]; simpl; [|discriminate].
  destruct (n_next n) as [j|]; [apply IH|].
  destruct (put_next ns i (Some new)) as [ns1|] eqn:E; simpl; [|discriminate].
  intros H. apply put_prev_entries in H. apply put_next_entries in E. congruence.
Qed.

Local Arguments insert_walk : simpl never.

Lemma insertNode_entries (m m' : umap) new :
  insertNode hash m new = Done m' -> iterate m' = iterate m.
Proof.
  unfold insertNode. destruct (at_ (nodes m) new) as [n|] eqn:E; simpl; [|discriminate].
  apply at_inv in E.
  destruct (computeBucketIndex hash m (n_key n)) as [b|]; simpl; [|discriminate].
  destruct (at_ (buckets m) b) as [first|]; simpl; [|discriminate].
  assert (S : map entry (set_nth (nodes m) new (Node (n_key n) (n_val n) (Some b) None None))
              = map entry (nodes m)).
  { rewrite map_set_nth.
    change (entry (Node (n_key n) (n_val n) (Some b) None None)) with (entry n).
    apply set_nth_same. now rewrite nth_error_map, E. }
  destruct first as [i|].
  - match goal with |- context [insert_walk ?f ?l ?x ?y] => destruct (insert_walk f l x y) as [ns'|] eqn:Q end; simpl; [|discriminate]. intros [= <-].
    apply insert_walk_entries in Q. unfold iterate. simpl. etransitivity; [exact Q|exact S].
  - intros [= <-]. unfold iterate. simpl. exact S.
Qed.

Lemma rehash_loop_entries t : forall i (m m' : umap),
  rehash_loop hash t i m = Done m' -> iterate m' = iterate m.
Proof.
  induction t as [|t IH]; intros i m m'; simpl; [congruence|].
  destruct (insertNode hash m i) as [m1|] eqn:E; simpl; [|discriminate].
  intros H. apply IH in H. apply insertNode_entries in E. congruence.
Qed.

Lemma rehash_entries (m m' : umap) n : rehash hash m n = Done m' -> iterate m' = iterate m.
Proof. unfold rehash. intros H. apply rehash_loop_entries in H. exact H. Qed.

Lemma find_walk_sound fuel : forall (ns : list node) k c i,
  find_walk keqb fuel ns k c = Done (Some i) ->
  exists n, nth_error ns i = Some n /\ keqb (n_key n) k = true.
Proof.
  induction fuel as [|f IH]; intros ns k [c|] i; simpl; try discriminate.
  destruct (at_ ns c) as [n|] eqn:E; simpl; [|discriminate]. apply at_inv in E.
  destruct (keqb (n_key n) k) eqn:Q; [|apply IH]. intros [= <-]. eauto.
Qed.

Local Arguments find_walk : simpl never.

Lemma findNodeIndex_sound (m : umap) k i :
  findNodeIndex keqb hash m k = Done (Some i) ->
  exists n, nth_error (nodes m) i = Some n /\ keqb (n_key n) k = true.
Proof.
  unfold findNodeIndex. destruct (computeBucketIndex hash m k) as [b|]; simpl; [|discriminate].
  destruct (at_ (buckets m) b) as [c|]; simpl; [|discriminate]. apply find_walk_sound.
Qed.

(** What find returns is stored under an equal key. *)
Lemma find_entry (m : umap) k v :
  find keqb hash m k = Done (Some v) -> exists k', keqb k' k = true /\ In (k', v) (iterate m).
Proof.
  unfold find. destruct (findNodeIndex keqb hash m k) as [[i|]|] eqn:E; simpl; try discriminate.
  apply findNodeIndex_sound in E. destruct E as (n & E & Q). unfold at_. rewrite E. simpl.
  intros [= <-]. exists (n_key n). split; [exact Q|]. unfold iterate. apply in_map_iff.
  exists n. split; [reflexivity|]. eapply nth_error_In; eauto.
Qed.

(** Adding a key changes nothing but entries with that key. *)
Lemma insert_entries (m m' : umap) k v :
  insertOrAssign keqb hash m k v = Done m' ->
  (exists i n, nth_error (nodes m) i = Some n /\ keqb (n_key n) k = true /\
     iterate m' = set_nth (iterate m) i (n_key n, v)) \/
  iterate m' = iterate m ++ [(k, v)].
Proof.
  unfold insertOrAssign.
  destruct (findNodeIndex keqb hash m k) as [[i|]|] eqn:E; simpl; [| |discriminate].
  - apply findNodeIndex_sound in E. destruct E as (n & E & Q). unfold at_. rewrite E. simpl.
    intros [= <-]. left. exists i, n. repeat split; auto. unfold iterate. simpl.
    now rewrite map_set_nth.
  - destruct (if load_exceeds (S (length (nodes m))) (length (buckets m))
              then rehash hash m (length (nodes m) * 2) else Done m) as [m1|] eqn:R;
      simpl; [|discriminate].
    assert (I : iterate m1 = iterate m).
    { destruct (load_exceeds _ _); [now apply rehash_entries in R|congruence]. }
    intros H. apply insertNode_entries in H. right. rewrite H, <- I.
    unfold iterate. simpl. now rewrite map_app.
Qed.

Lemma in_set_nth_other {A} (l : list A) i x y z :
  nth_error l i = Some z -> In y l -> y <> z -> In y (set_nth l i x).
Proof.
  revert i. induction l as [|a l IH]; intros [|i] E I N; simpl in *; try discriminate.
  - destruct I as [->|I]; [congruence|auto].
  - destruct I as [->|I]; [auto|right; eauto].
Qed.

Lemma in_set_nth {A} (l : list A) i x y : In y (set_nth l i x) -> y = x \/ In y l.
Proof.
  revert i. induction l as [|a l IH]; intros [|i] I; simpl in *; auto.
  - destruct I as [->|I]; auto.
  - destruct I as [->|I]; auto. apply IH in I. tauto.
Qed.

Lemma insert_keeps (m m' : umap) k v e :
  insertOrAssign keqb hash m k v = Done m' ->
  In e (iterate m) -> keqb (fst e) k = false -> In e (iterate m').
Proof.
  intros H I N. destruct (insert_entries _ _ _ _ H) as [(i & n & E & Q & ->)| -> ].
  - apply (in_set_nth_other _ i _ e (entry n)); [|exact I|].
    + unfold iterate. now rewrite nth_error_map, E.
    + intros ->. simpl in N. congruence.
  - apply in_or_app. now left.
Qed.

Lemma insert_only (m m' : umap) k v e :
  insertOrAssign keqb hash m k v = Done m' -> In e (iterate m') ->
  In e (iterate m) \/ (snd e = v /\ (keqb (fst e) k = true \/ e = (k, v))).
Proof.
  intros H I. destruct (insert_entries _ _ _ _ H) as [(i & n & E & Q & X)|X]; rewrite X in I.
  - apply in_set_nth in I. destruct I as [->|I]; auto.
  - apply in_app_or in I. destruct I as [I|[<-|[]]]; auto.
Qed.

Lemma unlink_entries (m m' : umap) idx : unlink m idx = Done m' -> iterate m' = iterate m.
Proof.
  unfold unlink. destruct (at_ (nodes m) idx) as [e|]; simpl; [|discriminate].
  destruct (n_bucket e) as [eb|]; [|discriminate].
  destruct (at_ (buckets m) eb) as [h|]; simpl; [|discriminate].
  destruct (match n_prev e with Some p => _ | None => _ end) as [m1|] eqn:M1; simpl; [|discriminate].
  assert (I1 : iterate m1 = iterate m).
  { destruct (n_prev e) as [p|].
    - destruct (assert_ _); simpl in M1; [|discriminate].
      destruct (put_next (nodes m) p (n_next e)) as [ns|] eqn:P; simpl in M1; [|discriminate].
      injection M1 as <-. unfold iterate. simpl. apply put_next_entries in P. exact P.
    - destruct (assert_ _); simpl in M1; [|discriminate]. injection M1 as <-. reflexivity. }
  destruct (at_ (nodes m1) idx) as [e1|]; simpl; [|discriminate].
  destruct (match n_next e1 with Some n => _ | None => _ end) as [ns2|] eqn:N2; simpl; [|discriminate].
  assert (I2 : map entry ns2 = iterate m1).
  { destruct (n_next e1) as [n|]; [|now injection N2 as <-]. apply put_prev_entries in N2. exact N2. }
  destruct (put_prev ns2 idx None) as [ns3|] eqn:N3; simpl; [|discriminate].
  destruct (put_next ns3 idx None) as [ns4|] eqn:N4; simpl; [|discriminate].
  intros [= <-]. apply put_prev_entries in N3. apply put_next_entries in N4.
  unfold iterate in *. simpl. fold entry. change (map entry ns4 = map entry (nodes m)).
  change (map entry ns2 = map entry (nodes m1)) in I2.
  change (map entry (nodes m1) = map entry (nodes m)) in I1. congruence.
Qed.

(** Erasing removes the entry at the position found; the last entry takes its place. *)
Lemma relocate_pop_entries (m m1 m2 : umap) i x :
  nth_error (iterate m) (pred (length (nodes m))) = Some x -> i < length (nodes m) ->
  relocate m i = Done m1 -> pop_node m1 = Done m2 ->
  iterate m2 = firstn (pred (length (nodes m))) (set_nth (iterate m) i x).
Proof.
  unfold relocate. destruct (length (nodes m)) as [|last] eqn:L; [discriminate|]. simpl.
  intros X I R P.
  assert (PE : forall m' : umap, length (nodes m') = S last -> pop_node m' = Done m2 ->
            iterate m2 = firstn last (iterate m')).
  { intros m' L' P'. unfold pop_node in P'. rewrite L' in P'.
    destruct (at_ (nodes m') last) as [l|]; simpl in P'; [|discriminate].
    destruct (assert_ (match n_prev l with None => true | _ => false end)); simpl in P'; [|discriminate].
    destruct (assert_ (match n_next l with None => true | _ => false end)); simpl in P'; [|discriminate].
    injection P' as <-. unfold iterate. simpl. symmetry. apply firstn_map. }
  destruct (Nat.eqb_spec i last) as [->|N].
  - injection R as <-. rewrite (PE m L P). rewrite set_nth_same; [reflexivity|exact X].
  - destruct (at_ (nodes m) last) as [l|] eqn:A; simpl in R; [|discriminate].
    destruct (match n_prev l with Some p => _ | None => _ end) as [m'|] eqn:M; simpl in R; [|discriminate].
    assert (I' : map entry (nodes m') = map entry (nodes m)).
    { destruct (n_prev l) as [p|].
      - destruct (put_next (nodes m) p (Some i)) as [ns|] eqn:Q; simpl in M; [|discriminate].
        injection M as <-. now apply put_next_entries in Q.
      - destruct (n_bucket l) as [lb|]; [|discriminate].
        destruct (at_ (buckets m) lb); simpl in M; [|discriminate]. injection M as <-. reflexivity. }
    unfold swap_nodes in R.
    destruct (at_ (nodes m') i) as [a|] eqn:Ai; simpl in R; [|discriminate].
    destruct (at_ (nodes m') last) as [b|] eqn:Bl; simpl in R; [|discriminate].
    injection R as <-.
    assert (L' : length (nodes m') = S last).
    { rewrite <- (map_length entry), I', map_length. exact L. }
    apply PE in P; [|simpl; now rewrite !set_nth_length]. rewrite P. clear P PE.
    unfold iterate. simpl.
    change (map (fun n : node => (n_key n, n_val n))) with (map entry).
    rewrite !map_set_nth, I'.
    apply at_inv in Bl.
    assert (xb : x = entry b).
    { change (iterate m) with (map entry (nodes m)) in X. rewrite <- I' in X.
      rewrite nth_error_map, Bl in X. now injection X as <-. }
    subst x. set (l0 := set_nth (map entry (nodes m)) i (entry b)).
    clearbody l0. clear. generalize (entry a). intros e. revert last.
    induction l0 as [|y l0 IH]; intros [|last]; simpl; try reflexivity. now rewrite IH.
Qed.

Lemma erase_entries (m m' : umap) k :
  erase keqb hash m k = Done m' ->
  iterate m' = iterate m \/
  exists i n x, nth_error (nodes m) i = Some n /\ keqb (n_key n) k = true /\
    nth_error (iterate m) (pred (length (nodes m))) = Some x /\
    iterate m' = firstn (pred (length (nodes m))) (set_nth (iterate m) i x).
Proof.
  unfold erase. destruct (findNodeIndex keqb hash m k) as [[i|]|] eqn:E; simpl; [| |discriminate].
  2: { intros [= <-]. now left. }
  apply findNodeIndex_sound in E. destruct E as (n & E & Q).
  destruct (unlink m i) as [m1|] eqn:U; simpl; [|discriminate]. apply unlink_entries in U.
  destruct (relocate m1 i) as [m2|] eqn:R; simpl; [|discriminate]. intros P. right.
  assert (I : i < length (nodes m)) by (apply nth_error_Some; congruence).
  assert (L : length (nodes m1) = length (nodes m)).
  { change (map entry (nodes m1) = map entry (nodes m)) in U.
    rewrite <- (map_length entry), U. apply map_length. }
  destruct (nth_error (iterate m) (pred (length (nodes m)))) as [x|] eqn:X.
  2: { exfalso. apply nth_error_None in X. change (iterate m) with (map entry (nodes m)) in X.
       rewrite map_length in X. lia. }
  exists i, n, x. repeat (split; [auto|]). rewrite <- U, <- L.
  eapply relocate_pop_entries; eauto; [rewrite L; congruence|lia].
Qed.

Lemma firstn_set_in {A} (l : list A) i x y z :
  nth_error l i = Some z -> nth_error l (pred (length l)) = Some x ->
  In y l -> y <> z -> In y (firstn (pred (length l)) (set_nth l i x)).
Proof.
  intros Ei Ex I N.
  assert (Li : i < length l) by (apply nth_error_Some; congruence).
  destruct (In_nth_error _ _ I) as (j & Ej).
  assert (Lj : j < length l) by (apply nth_error_Some; congruence).
  assert (j <> i) by congruence.
  assert (G : forall (l : list A) i q, nth_error (set_nth l i x) q =
                if q =? i then (if q <? length l then Some x else None) else nth_error l q).
  { clear. induction l as [|a l IH]; intros i q.
    - destruct i, q; simpl; try reflexivity. now destruct (q =? i).
    - destruct i, q; simpl; try reflexivity.
      rewrite IH. destruct (q =? i); [|reflexivity].
      change (S q <? S (length l)) with (q <? length l). reflexivity. }
  assert (T : forall (l : list A) q n, q < n -> nth_error (firstn n l) q = nth_error l q).
  { clear. induction l as [|a l IH]; intros q n H; [now rewrite firstn_nil|].
    destruct n; [lia|]. destruct q; simpl; [reflexivity|]. apply IH. lia. }
  destruct (Nat.eq_dec j (pred (length l))) as [->|Nj].
  - (* the last entry moves to the hole *)
    assert (y = x) by congruence. subst y.
    apply (nth_error_In _ i). rewrite T by lia. rewrite G, Nat.eqb_refl.
    destruct (Nat.ltb_spec i (length l)); [reflexivity|lia].
  - apply (nth_error_In _ j). rewrite T by lia. rewrite G.
    destruct (Nat.eqb_spec j i); [lia|exact Ej].
Qed.

Lemma erase_keeps (m m' : umap) k e :
  erase keqb hash m k = Done m' ->
  In e (iterate m) -> keqb (fst e) k = false -> In e (iterate m').
Proof.
  intros H I N. destruct (erase_entries _ _ _ H) as [->|(i & n & x & E & Q & X & ->)]; [exact I|].
  assert (L : length (nodes m) = length (iterate m)) by (unfold iterate; now rewrite map_length).
  rewrite L in *. apply (firstn_set_in _ _ _ _ (entry n)); auto.
  - change (iterate m) with (map entry (nodes m)). now rewrite nth_error_map, E.
  - intros ->. simpl in N. congruence.
Qed.

Lemma in_firstn {A} (l : list A) n x : In x (firstn n l) -> In x l.
Proof. intros H. rewrite <- (firstn_skipn n l). apply in_or_app. now left. Qed.

Lemma erase_only (m m' : umap) k e :
  erase keqb hash m k = Done m' -> In e (iterate m') -> In e (iterate m).
Proof.
  intros H I. destruct (erase_entries _ _ _ H) as [X|(i & n & x & E & Q & X & Y)].
  - now rewrite <- X.
  - rewrite Y in I. apply in_firstn, in_set_nth in I. destruct I as [->|I]; [|exact I].
    eapply nth_error_In; eauto.
Qed.
End Iter.
