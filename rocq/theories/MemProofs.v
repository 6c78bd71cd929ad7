(** Lemmas about the memory model of Mem.v. *)
From Coq Require Import Bool PeanoNat Lia List.
From Verif Require Import Util Base Mem.
Import ListNotations.

Section MemProofs.
Context {A : Type}.
Implicit Types (h : heap A) (cs ds : list (cell A)).

Lemma set_nth_length : forall (X : Type) (l : list X) n x, length (set_nth l n x) = length l.
Proof. induction l as [|y l IH]; intros [|n] x; cbn; auto. Qed.

Lemma nth_error_set_nth_eq : forall (X : Type) (l : list X) n x,
  n < length l -> nth_error (set_nth l n x) n = Some x.
Proof.
  induction l as [|y l IH]; intros [|n] x Hn; cbn in *; try lia; auto. apply IH. lia.
Qed.

Lemma nth_error_set_nth_neq : forall (X : Type) (l : list X) n m x,
  n <> m -> nth_error (set_nth l n x) m = nth_error l m.
Proof.
  induction l as [|y l IH]; intros [|n] [|m] x Hn; cbn; auto; try congruence.
Qed.

Lemma set_nth_same : forall (X : Type) (l : list X) n x,
  nth_error l n = Some x -> set_nth l n x = l.
Proof.
  induction l as [|y l IH]; intros [|n] x Hn; cbn in *; try discriminate.
  - congruence.
  - f_equal. auto.
Qed.

Lemma set_nth_twice : forall (X : Type) (l : list X) n x y,
  set_nth (set_nth l n x) n y = set_nth l n y.
Proof. induction l as [|z l IH]; intros [|n] x y; cbn; f_equal; auto. Qed.

Lemma set_nth_app : forall (X : Type) (l r : list X) x,
  set_nth (l ++ r) (length l) x = l ++ set_nth r 0 x.
Proof. induction l as [|y l IH]; intros r x; cbn; [reflexivity|]. f_equal. apply IH. Qed.

(** [cs] with [l] written over position [k] and following. *)
Definition splice (X : Type) (l : list X) (k : nat) (r : list X) : list X :=
  firstn k l ++ r ++ skipn (k + length r) l.
Arguments splice {X} _ _ _.

Lemma splice_length : forall (X : Type) (l r : list X) k,
  k + length r <= length l -> length (splice l k r) = length l.
Proof.
  intros X l r k Hk. unfold splice. rewrite !app_length, firstn_length, skipn_length. lia.
Qed.

Lemma splice_before : forall (X : Type) (l r : list X) k i,
  i < k -> k <= length l -> nth_error (splice l k r) i = nth_error l i.
Proof.
  intros X l r k i Hi Hk. unfold splice. rewrite nth_error_app1.
  - apply nth_error_firstn_lt. assumption.
  - rewrite firstn_length. lia.
Qed.

Lemma splice_inside : forall (X : Type) (l r : list X) k i,
  k <= length l -> i < length r -> nth_error (splice l k r) (k + i) = nth_error r i.
Proof.
  intros X l r k i Hk Hi. unfold splice.
  rewrite nth_error_app2; rewrite firstn_length; [|lia].
  replace (k + i - Nat.min k (length l)) with i by lia.
  apply nth_error_app1. assumption.
Qed.

Lemma splice_after : forall (X : Type) (l r : list X) k i,
  k <= length l -> k + length r <= i -> nth_error (splice l k r) i = nth_error l i.
Proof.
  intros X l r k i Hk Hi. unfold splice.
  rewrite nth_error_app2; rewrite firstn_length; [|lia].
  rewrite nth_error_app2; [|lia].
  rewrite nth_error_skipn_add. f_equal. lia.
Qed.

Lemma splice_nil : forall (X : Type) (l : list X) k, splice l k [] = l.
Proof. intros X l k. unfold splice. cbn. rewrite Nat.add_0_r. apply firstn_skipn. Qed.

Lemma splice_cons : forall (X : Type) (l : list X) k x r,
  k < length l -> splice (set_nth l k x) (S k) r = splice l k (x :: r).
Proof.
  induction l as [|y l IH]; intros k x r Hk; cbn in Hk; [lia|].
  destruct k as [|k]; [reflexivity|].
  exact (f_equal (cons y) (IH k x r (proj2 (Nat.succ_lt_mono _ _) Hk))).
Qed.

(** ** Blocks *)

Lemma find_block_live : forall h b cs, live h b cs -> find_block h b = Done cs.
Proof. intros h b cs H. unfold find_block, live in *. now rewrite H. Qed.

Lemma live_fun : forall h b cs ds, live h b cs -> live h b ds -> cs = ds.
Proof. unfold live. intros. congruence. Qed.

Lemma live_lt : forall h b cs, live h b cs -> b < length (blocks h).
Proof. intros h b cs H. apply nth_error_Some. unfold live in H. congruence. Qed.

Lemma live_set_block_eq : forall h b cs ds,
  live h b cs -> live (set_block h b (Some ds)) b ds.
Proof.
  intros h b cs ds H. unfold live, set_block. cbn. apply nth_error_set_nth_eq.
  now apply live_lt with cs.
Qed.

Lemma live_set_block_neq : forall h b x c ds,
  b <> c -> (live (set_block h b x) c ds <-> live h c ds).
Proof.
  intros h b x c ds H. unfold live, set_block. cbn.
  rewrite nth_error_set_nth_neq by assumption. reflexivity.
Qed.

Lemma freed_set_block : forall h b cs,
  live h b cs -> nth_error (blocks (set_block h b None)) b = Some None.
Proof. intros h b cs H. cbn. apply nth_error_set_nth_eq. now apply live_lt with cs. Qed.

Lemma not_live_freed : forall h b cs ds, live h b cs -> ~ live (set_block h b None) b ds.
Proof.
  intros h b cs ds H1 H2. pose proof (freed_set_block h b cs H1) as H.
  unfold live in H2. rewrite H in H2. discriminate.
Qed.

Lemma live_spend : forall h n b cs, live (spend h n) b cs <-> live h b cs.
Proof. reflexivity. Qed.

Lemma set_block_same : forall h b cs, live h b cs -> set_block h b (Some cs) = h.
Proof.
  intros [bl c] b cs H. unfold set_block, live in *. cbn in *.
  now rewrite set_nth_same.
Qed.

Lemma set_block_twice : forall h b x y, set_block (set_block h b x) b y = set_block h b y.
Proof. intros [bl c] b x y. unfold set_block. cbn. now rewrite set_nth_twice. Qed.

Lemma live_alloc_new : forall h n, live (fst (alloc h n)) (length (blocks h)) (repeat None n).
Proof.
  intros h n. unfold live, alloc. cbn. rewrite nth_error_app2 by lia.
  now rewrite Nat.sub_diag.
Qed.

Lemma live_alloc_old : forall h n b cs,
  b <> length (blocks h) -> (live (fst (alloc h n)) b cs <-> live h b cs).
Proof.
  intros h n b cs Hb. unfold live, alloc. cbn. split; intros H.
  - assert (b < length (blocks h)) as Hl.
    { assert (b < length (blocks h ++ [Some (repeat (@None A) n)])) as Hb'
        by (apply nth_error_Some; congruence).
      rewrite app_length in Hb'. cbn in Hb'. lia. }
    rewrite nth_error_app1 in H by assumption. assumption.
  - rewrite nth_error_app1; [assumption|]. apply nth_error_Some. congruence.
Qed.

(** ** Reading and writing *)

Lemma load_at : forall h b o i cs c,
  live h b cs -> nth_error cs (o + i) = Some c -> load h (At b o) i = Done c.
Proof.
  intros h b o i cs c H1 H2. unfold load. rewrite (find_block_live _ _ _ H1). cbn.
  now rewrite H2.
Qed.

Lemma load_value_at : forall h b o i cs a,
  live h b cs -> nth_error cs (o + i) = Some (Some a) -> load_value h (At b o) i = Done a.
Proof. intros h b o i cs a H1 H2. unfold load_value. now rewrite (load_at _ _ _ _ _ _ H1 H2). Qed.

Lemma store_at : forall h b o i cs c,
  live h b cs -> o + i < length cs ->
  store h (At b o) i c = Done (set_block h b (Some (set_nth cs (o + i) c))).
Proof.
  intros h b o i cs c H1 H2. unfold store. rewrite (find_block_live _ _ _ H1). cbn [bind].
  apply Nat.ltb_lt in H2. now rewrite H2.
Qed.

Lemma store_past : forall h b o i cs c,
  live h b cs -> length cs <= o + i -> store h (At b o) i c = Fault OutOfBounds.
Proof.
  intros h b o i cs c H1 H2. unfold store. rewrite (find_block_live _ _ _ H1). cbn [bind].
  apply Nat.ltb_ge in H2. now rewrite H2.
Qed.

Lemma skipn_nth : forall (X : Type) n (l : list X) x,
  nth_error l n = Some x -> skipn n l = x :: skipn (S n) l.
Proof.
  induction n as [|n IH]; intros [|y l] x H; cbn in *; try discriminate; [congruence|].
  rewrite (IH l x H). destruct l; reflexivity.
Qed.

Lemma load_n_at : forall n h b o i cs,
  live h b cs -> o + i + n <= length cs ->
  load_n h (At b o) i n = Done (firstn n (skipn (o + i) cs)).
Proof.
  induction n as [|n IH]; intros h b o i cs H1 H2; [reflexivity|].
  cbn [load_n].
  destruct (nth_error cs (o + i)) as [c|] eqn:Hc.
  2:{ apply nth_error_None in Hc. lia. }
  rewrite (load_at _ _ _ _ _ _ H1 Hc). cbn [bind].
  rewrite (IH _ _ _ _ _ H1) by lia. cbn [bind].
  rewrite (skipn_nth _ _ _ _ Hc), <- plus_n_Sm. reflexivity.
Qed.

Lemma load_n_ext : forall n h l i,
  i + n <= length l ->
  load_n h (Ext l) i n = Done (map Some (firstn n (skipn i l))).
Proof.
  induction n as [|n IH]; intros h l i H; [reflexivity|].
  cbn [load_n load].
  destruct (nth_error l i) as [c|] eqn:Hc.
  2:{ apply nth_error_None in Hc. lia. }
  cbn [bind]. rewrite IH by lia. cbn [bind].
  rewrite (skipn_nth _ _ _ _ Hc). reflexivity.
Qed.

Lemma store_n_at : forall l h b o i cs,
  live h b cs -> o + i + length l <= length cs ->
  store_n h (At b o) i l = Done (set_block h b (Some (splice cs (o + i) l))).
Proof.
  induction l as [|c l IH]; intros h b o i cs H1 H2.
  - cbn. rewrite splice_nil, set_block_same by assumption. reflexivity.
  - cbn [store_n length] in *. rewrite (store_at _ _ _ _ _ _ H1) by lia. cbn [bind].
    rewrite (IH _ _ _ _ (set_nth cs (o + i) c)).
    + rewrite set_block_twice. rewrite <- plus_n_Sm, splice_cons by lia. reflexivity.
    + apply live_set_block_eq with cs. assumption.
    + rewrite set_nth_length. lia.
Qed.

(** ** Sources of a copy *)

(** [n] cells [ds] can be read at [p], and the block [o] is not the one they are
    in. *)
Definition source (h : heap A) (o : option nat) (p : pointer A) (n : nat) (ds : list (cell A))
  : Prop :=
  match p with
  | Null => False
  | Ext l => n <= length l /\ ds = map Some (firstn n l)
  | At b off => o <> Some b /\ exists cs, live h b cs /\ off + n <= length cs /\
                                          ds = firstn n (skipn off cs)
  end.

Lemma source_length : forall h o p n ds, source h o p n ds -> length ds = n.
Proof.
  intros h o [|b off|l] n ds H; cbn in H.
  - contradiction.
  - destruct H as (_ & cs & _ & Hn & ->). rewrite firstn_length, skipn_length. lia.
  - destruct H as (Hn & ->). rewrite map_length, firstn_length. lia.
Qed.

Lemma memcpy_from : forall h b o cs p n ds,
  live h b cs -> o + n <= length cs -> source h (Some b) p n ds ->
  memcpy h (At b o) p n = Done (spend (set_block h b (Some (splice cs o ds))) n).
Proof.
  intros h b o cs p n ds H1 H2 H3. pose proof (source_length _ _ _ _ _ H3) as Hl.
  unfold memcpy. cbn [valid]. rewrite (find_block_live _ _ _ H1). cbn [bind].
  destruct (o <=? length cs) eqn:Ho; [|apply Nat.leb_gt in Ho; lia]. cbn [bind].
  destruct p as [|b' off|l]; cbn in H3; [contradiction| |].
  - destruct H3 as (Hne & cs' & Hlv & Hn & ->).
    cbn [valid]. rewrite (find_block_live _ _ _ Hlv). cbn [bind].
    destruct (off <=? length cs') eqn:Ho'; [|apply Nat.leb_gt in Ho'; lia]. cbn [bind].
    rewrite (load_n_at _ _ _ _ _ _ Hlv) by lia. cbn [bind overlap].
    destruct (b =? b') eqn:Hb; [apply Nat.eqb_eq in Hb; congruence|]. cbn [andb].
    rewrite Nat.add_0_r.
    rewrite (store_n_at _ _ _ _ _ _ H1) by (rewrite Nat.add_0_r; lia). cbn [bind].
    now rewrite Nat.add_0_r.
  - destruct H3 as (Hn & ->). cbn [valid bind].
    rewrite load_n_ext by lia. cbn [bind overlap skipn].
    rewrite (store_n_at _ _ _ _ _ _ H1) by (rewrite Nat.add_0_r; lia). cbn [bind].
    now rewrite Nat.add_0_r.
Qed.

(** ** Frames: what an operation on the owner of block [o] may change *)

Definition evolves (h : heap A) (o : option nat) (h' : heap A) (o' : option nat) : Prop :=
  (forall b cs, live h' b cs -> o' = Some b \/ (o <> Some b /\ live h b cs)) /\
  (forall b cs, live h b cs -> o <> Some b -> live h' b cs /\ o' <> Some b).

Lemma evolves_refl : forall h o, evolves h o h o.
Proof.
  intros h o. split.
  - intros b cs H. destruct o as [k|]; [|right; split; [discriminate|assumption]].
    destruct (Nat.eq_dec k b) as [->|Hn]; [left; reflexivity|].
    right. split; [congruence|assumption].
  - intros b cs H Hn. auto.
Qed.

Lemma evolves_trans : forall h o h' o' h'' o'',
  evolves h o h' o' -> evolves h' o' h'' o'' -> evolves h o h'' o''.
Proof.
  intros h o h' o' h'' o'' (A1 & A2) (B1 & B2). split.
  - intros b cs H. destruct (B1 _ _ H) as [|(Hn & H')]; [left; assumption|].
    destruct (A1 _ _ H') as [|]; [contradiction|]. right. assumption.
  - intros b cs H Hn. destruct (A2 _ _ H Hn) as (H' & Hn'). apply (B2 _ _ H' Hn').
Qed.

Lemma evolves_write : forall h b cs ds, live h b cs ->
  evolves h (Some b) (set_block h b (Some ds)) (Some b).
Proof.
  intros h b cs ds H. split.
  - intros c es Hl. destruct (Nat.eq_dec b c) as [->|Hn]; [left; reflexivity|].
    right. split; [congruence|]. now apply live_set_block_neq in Hl.
  - intros c es Hl Hn. split; [|assumption]. apply live_set_block_neq; [congruence|assumption].
Qed.

Lemma evolves_spend : forall h o h' o' n, evolves h o h' o' -> evolves h o (spend h' n) o'.
Proof. intros h o h' o' n H. exact H. Qed.

Lemma evolves_alloc : forall h n,
  evolves h None (fst (alloc h n)) (Some (length (blocks h))).
Proof.
  intros h n. split.
  - intros b cs H. destruct (Nat.eq_dec b (length (blocks h))) as [->|Hn]; [left; reflexivity|].
    right. split; [discriminate|]. now apply live_alloc_old in H.
  - intros b cs H _. pose proof (live_lt _ _ _ H) as Hl. split; [|intros E; injection E; lia].
    apply live_alloc_old; [lia|assumption].
Qed.

Lemma evolves_free : forall h b cs, live h b cs ->
  evolves h (Some b) (set_block h b None) None.
Proof.
  intros h b cs H. split.
  - intros c es Hl. destruct (Nat.eq_dec b c) as [->|Hn].
    + exfalso. exact (not_live_freed _ _ _ _ H Hl).
    + right. split; [congruence|]. now apply live_set_block_neq in Hl.
  - intros c es Hl Hn. split; [|discriminate]. apply live_set_block_neq; [congruence|assumption].
Qed.

Lemma source_evolves : forall h o h' o' p n ds,
  source h o p n ds -> evolves h o h' o' -> source h' o' p n ds.
Proof.
  intros h o h' o' [|b off|l] n ds H E; cbn in *; auto.
  destruct H as (Hne & cs & Hl & Hn & Hd).
  destruct (proj2 E _ _ Hl Hne) as (H1 & H2). split; [assumption|]. exists cs. auto.
Qed.

(** Freeing the old block [k] of an owner that has a new block [k'] already. *)
Lemma evolves_swap_free : forall h o h' k', evolves h None h' (Some k') ->
  match o with
  | None => evolves h o h' (Some k')
  | Some k => forall cs, live h k cs ->
      live h' k cs /\ k <> k' /\ evolves h o (set_block h' k None) (Some k')
  end.
Proof.
  intros h o h' k' E. destruct o as [k|]; [|assumption].
  intros cs Hk. destruct (proj2 E _ _ Hk) as (Hk' & Hne); [discriminate|].
  assert (k <> k') as Hkk by congruence. split; [assumption|]. split; [assumption|]. split.
  - intros b ds Hl. destruct (Nat.eq_dec k b) as [->|Hn].
    + exfalso. exact (not_live_freed _ _ _ _ Hk' Hl).
    + apply live_set_block_neq in Hl; [|assumption].
      destruct (proj1 E _ _ Hl) as [|(_ & H2)]; [left; assumption|].
      right. split; [congruence|assumption].
  - intros b ds Hl Hn. destruct (proj2 E _ _ Hl) as (H1 & H2); [discriminate|].
    split; [|assumption]. apply live_set_block_neq; [congruence|assumption].
Qed.

End MemProofs.

Arguments splice {X} _ _ _.
