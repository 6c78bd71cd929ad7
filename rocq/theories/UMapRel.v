(** The operations of UMap.v respect relations between keys and between values: they do not
    look at values, and at keys only through comparison and hash. *)
From Coq Require Import ZArith Bool PeanoNat Lia List.
From Verif Require Import Util Base UMap.
Import ListNotations.

(** Both finish with related results, or both fault in the same way. *)
Inductive out_rel {A B} (R : A -> B -> Prop) : outcome A -> outcome B -> Prop :=
| out_done : forall a b, R a b -> out_rel R (Done a) (Done b)
| out_fault : forall f, out_rel R (Fault f) (Fault f).

Lemma out_bind {A B C D} (R : A -> B -> Prop) (S : C -> D -> Prop) x y k l :
  out_rel R x y -> (forall a b, R a b -> out_rel S (k a) (l b)) -> out_rel S (bind x k) (bind y l).
Proof. intros [a b H|f] K; simpl; [now apply K|constructor]. Qed.

Lemma out_assert b : out_rel eq (assert_ b) (assert_ b).
Proof. destruct b; constructor. reflexivity. Qed.

Section Rel.
Context {K1 V1 K2 V2 : Type}.
Variable keqb1 : K1 -> K1 -> bool.
Variable keqb2 : K2 -> K2 -> bool.
Variable hash1 : K1 -> Z.
Variable hash2 : K2 -> Z.
Variable RK : K1 -> K2 -> Prop.
Variable RV : V1 -> V2 -> Prop.
Hypothesis RK_eqb : forall a a' b b', RK a a' -> RK b b' -> keqb1 a b = keqb2 a' b'.
Hypothesis RK_hash : forall a a', RK a a' -> hash1 a = hash2 a'.

Definition node_rel (n : node K1 V1) (n' : node K2 V2) : Prop :=
  RK (n_key n) (n_key n') /\ RV (n_val n) (n_val n') /\
  n_bucket n = n_bucket n' /\ n_prev n = n_prev n' /\ n_next n = n_next n'.

Definition nodes_rel := Forall2 node_rel.

Definition umap_rel (m : umap K1 V1) (m' : umap K2 V2) : Prop :=
  buckets m = buckets m' /\ nodes_rel (nodes m) (nodes m').

Lemma rel_length l l' : nodes_rel l l' -> length l = length l'.
Proof. induction 1; simpl; congruence. Qed.

Lemma at_rel l l' i : nodes_rel l l' -> out_rel node_rel (at_ l i) (at_ l' i).
Proof.
  intros H. revert i. induction H as [|x y l l' Hxy _ IH]; intros [|i]; unfold at_ in *; simpl;
    try constructor; auto.
Qed.

Lemma at_buckets (l : list (option nat)) i : out_rel eq (at_ l i) (at_ l i).
Proof. unfold at_. destruct (nth_error l i); constructor. reflexivity. Qed.

Lemma set_nth_rel l l' i x y : nodes_rel l l' -> node_rel x y -> nodes_rel (set_nth l i x) (set_nth l' i y).
Proof.
  intros H. revert i. induction H as [|a b l l' Hab Hl IH]; intros [|i] Hxy; simpl;
    constructor; auto. now apply IH.
Qed.

Lemma put_prev_rel l l' i p : nodes_rel l l' -> out_rel nodes_rel (put_prev l i p) (put_prev l' i p).
Proof.
  intros H. unfold put_prev. eapply out_bind; [apply at_rel, H|]. intros a b Hab. constructor.
  apply set_nth_rel; [exact H|]. unfold node_rel in *; simpl in *. tauto.
Qed.

Lemma put_next_rel l l' i p : nodes_rel l l' -> out_rel nodes_rel (put_next l i p) (put_next l' i p).
Proof.
  intros H. unfold put_next. eapply out_bind; [apply at_rel, H|]. intros a b Hab. constructor.
  apply set_nth_rel; [exact H|]. unfold node_rel in *; simpl in *. tauto.
Qed.

Lemma bucket_index_rel m m' k k' : umap_rel m m' -> RK k k' ->
  out_rel eq (computeBucketIndex hash1 m k) (computeBucketIndex hash2 m' k').
Proof.
  intros [B _] Hk. unfold computeBucketIndex. rewrite B, (RK_hash _ _ Hk).
  destruct (length (buckets m')); constructor. reflexivity.
Qed.

Lemma find_walk_rel fuel : forall l l' k k' c, nodes_rel l l' -> RK k k' ->
  out_rel eq (find_walk keqb1 fuel l k c) (find_walk keqb2 fuel l' k' c).
Proof.
  induction fuel as [|fuel IH]; intros l l' k k' [i|] H Hk; simpl; try constructor; try reflexivity.
  eapply out_bind; [apply at_rel, H|]. intros a b (Ha & _ & _ & _ & Hn).
  rewrite (RK_eqb _ _ _ _ Ha Hk), Hn. destruct (keqb2 _ _); [now constructor|]. now apply IH.
Qed.

Lemma findNodeIndex_rel m m' k k' : umap_rel m m' -> RK k k' ->
  out_rel eq (findNodeIndex keqb1 hash1 m k) (findNodeIndex keqb2 hash2 m' k').
Proof.
  intros H Hk. unfold findNodeIndex. eapply out_bind; [now apply bucket_index_rel|].
  intros b ? <-. destruct H as [B N]. rewrite B. eapply out_bind; [apply at_buckets|].
  intros c ? <-. rewrite (rel_length _ _ N). now apply find_walk_rel.
Qed.

Lemma find_rel m m' k k' : umap_rel m m' -> RK k k' ->
  out_rel (fun o o' => match o, o' with
                       | Some v, Some v' => RV v v'
                       | None, None => True
                       | _, _ => False
                       end)
    (find keqb1 hash1 m k) (find keqb2 hash2 m' k').
Proof.
  intros H Hk. unfold find. eapply out_bind; [now apply findNodeIndex_rel|].
  intros [i|] ? <-; [|now constructor]. eapply out_bind; [apply at_rel, H|].
  intros a b (_ & Hv & _). now constructor.
Qed.

Lemma insert_walk_rel fuel : forall l l' new i, nodes_rel l l' ->
  out_rel nodes_rel (insert_walk fuel l new i) (insert_walk fuel l' new i).
Proof.
  induction fuel as [|fuel IH]; intros l l' new i H; simpl; [constructor|].
  eapply out_bind; [apply at_rel, H|]. intros a b (_ & _ & _ & _ & Hn). rewrite Hn.
  destruct (n_next b) as [j|]; [now apply IH|].
  eapply out_bind; [apply put_next_rel, H|]. intros x y Hxy. now apply put_prev_rel.
Qed.

Lemma insertNode_rel m m' new : umap_rel m m' ->
  out_rel umap_rel (insertNode hash1 m new) (insertNode hash2 m' new).
Proof.
  intros H. unfold insertNode. eapply out_bind; [apply at_rel, H|]. intros a b (Ha & Hv & _).
  eapply out_bind; [now apply bucket_index_rel|]. intros i ? <-. destruct H as [B N]. rewrite B.
  eapply out_bind; [apply at_buckets|]. intros c ? <-.
  assert (N' : nodes_rel (set_nth (nodes m) new (Node (n_key a) (n_val a) (Some i) None None))
                         (set_nth (nodes m') new (Node (n_key b) (n_val b) (Some i) None None))).
  { apply set_nth_rel; [exact N|]. unfold node_rel; simpl. auto. }
  destruct c as [j|].
  - rewrite (rel_length _ _ N'). eapply out_bind; [apply insert_walk_rel, N'|].
    intros x y Hxy. constructor. now split.
  - constructor. now split.
Qed.

Lemma rehash_loop_rel todo : forall i m m', umap_rel m m' ->
  out_rel umap_rel (rehash_loop hash1 todo i m) (rehash_loop hash2 todo i m').
Proof.
  induction todo as [|todo IH]; intros i m m' H; simpl; [now constructor|].
  eapply out_bind; [apply insertNode_rel, H|]. intros a b Hab. now apply IH.
Qed.

Lemma rehash_rel m m' n : umap_rel m m' -> out_rel umap_rel (rehash hash1 m n) (rehash hash2 m' n).
Proof.
  intros [B N]. unfold rehash. rewrite (rel_length _ _ N). apply rehash_loop_rel. now split.
Qed.

Lemma app_rel l l' r r' : nodes_rel l l' -> nodes_rel r r' -> nodes_rel (l ++ r) (l' ++ r').
Proof. apply Forall2_app. Qed.

Lemma insertOrAssign_rel m m' k k' v v' : umap_rel m m' -> RK k k' -> RV v v' ->
  out_rel umap_rel (insertOrAssign keqb1 hash1 m k v) (insertOrAssign keqb2 hash2 m' k' v').
Proof.
  intros H Hk Hv. unfold insertOrAssign. eapply out_bind; [now apply findNodeIndex_rel|].
  intros [i|] ? <-.
  - eapply out_bind; [apply at_rel, H|]. intros a b Hab. constructor. destruct H as [B N].
    split; [exact B|]. simpl. apply set_nth_rel; [exact N|]. unfold node_rel in *; simpl. tauto.
  - destruct H as [B N]. rewrite (rel_length _ _ N), B.
    eapply (out_bind umap_rel).
    + destruct (load_exceeds _ _); [now apply rehash_rel|]. now constructor.
    + intros a b [B' N']. rewrite (rel_length _ _ N'). apply insertNode_rel. split; [exact B'|].
      simpl. apply app_rel; [exact N'|]. repeat constructor; assumption.
Qed.

Lemma unlink_rel m m' i : umap_rel m m' -> out_rel umap_rel (unlink m i) (unlink m' i).
Proof.
  intros [B N]. unfold unlink. eapply out_bind; [apply at_rel, N|].
  intros a b (_ & _ & Hb & Hp & Hn). rewrite Hb. destruct (n_bucket b) as [eb|]; [|constructor].
  rewrite B. eapply out_bind; [apply at_buckets|]. intros h ? <-. rewrite Hp, Hn.
  eapply (out_bind umap_rel).
  - destruct (n_prev b) as [p|].
    + eapply out_bind; [apply out_assert|]. intros _ _ _.
      eapply out_bind; [apply put_next_rel, N|]. intros x y Hxy. constructor. now split.
    + eapply out_bind; [apply out_assert|]. intros _ _ _. constructor. now split.
  - intros m1 m1' [B1 N1]. eapply out_bind; [apply at_rel, N1|].
    intros a1 b1 (_ & _ & _ & Hp1 & Hn1). rewrite Hn1, Hp1.
    eapply (out_bind nodes_rel).
    + destruct (n_next b1); [now apply put_prev_rel|now constructor].
    + intros x y Hxy. eapply out_bind; [apply put_prev_rel, Hxy|]. intros x1 y1 Hxy1.
      eapply out_bind; [apply put_next_rel, Hxy1|]. intros x2 y2 Hxy2. constructor. now split.
Qed.

Lemma swap_nodes_rel l l' i j : nodes_rel l l' -> out_rel nodes_rel (swap_nodes l i j) (swap_nodes l' i j).
Proof.
  intros H. unfold swap_nodes. eapply out_bind; [apply at_rel, H|]. intros a b Hab.
  eapply out_bind; [apply at_rel, H|]. intros c d Hcd. constructor.
  apply set_nth_rel; [|exact Hab]. now apply set_nth_rel.
Qed.

Lemma relocate_rel m m' i : umap_rel m m' -> out_rel umap_rel (relocate m i) (relocate m' i).
Proof.
  intros [B N]. unfold relocate. rewrite (rel_length _ _ N).
  destruct (length (nodes m')) as [|last]; [constructor|].
  destruct (i =? last); [now constructor|].
  eapply out_bind; [apply at_rel, N|]. intros a b (_ & _ & Hb & Hp & _). rewrite Hp, Hb, B.
  eapply (out_bind umap_rel).
  - destruct (n_prev b) as [p|].
    + eapply out_bind; [apply put_next_rel, N|]. intros x y Hxy. constructor. now split.
    + destruct (n_bucket b) as [lb|]; [|constructor].
      eapply out_bind; [apply at_buckets|]. intros _ _ _. constructor. now split.
  - intros m1 m1' [B1 N1]. eapply out_bind; [apply swap_nodes_rel, N1|].
    intros x y Hxy. constructor. now split.
Qed.

Lemma firstn_rel n l l' : nodes_rel l l' -> nodes_rel (firstn n l) (firstn n l').
Proof.
  intros H. revert n. induction H as [|a b l l' Hab _ IH]; intros [|n]; simpl; constructor; auto.
  apply IH.
Qed.

Lemma pop_node_rel m m' : umap_rel m m' -> out_rel umap_rel (pop_node m) (pop_node m').
Proof.
  intros [B N]. unfold pop_node. rewrite (rel_length _ _ N).
  destruct (length (nodes m')) as [|last]; [constructor|].
  eapply out_bind; [apply at_rel, N|]. intros a b (_ & _ & _ & Hp & Hn). rewrite Hp, Hn.
  eapply out_bind; [apply out_assert|]. intros _ _ _.
  eapply out_bind; [apply out_assert|]. intros _ _ _. constructor. split; [exact B|].
  now apply firstn_rel.
Qed.

Lemma clear_rel m m' : umap_rel m m' -> umap_rel (clear m) (clear m').
Proof. intros [B _]. unfold clear. rewrite B. split; [reflexivity|constructor]. Qed.

Lemma empty_rel : umap_rel empty_map empty_map.
Proof. split; [reflexivity|constructor]. Qed.
End Rel.
