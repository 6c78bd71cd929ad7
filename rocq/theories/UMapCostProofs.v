(** Lemmas about the work of the registry. *)
From Coq Require Import Ascii String NArith ZArith Bool PeanoNat Lia FinFun List.
Import ListNotations.
From Verif Require Import Util Base UMap UMapSpec UMapProofs UMapMore UMapCost UMapCostSpec.
Local Notation length := List.length.

(** ** Rounding is monotone *)

Lemma rnd24_bounds z : (0 < z)%Z -> (2 ^ Z.log2 z <= rnd24 z <= 2 ^ (Z.log2 z + 1))%Z.
Proof.
  intros Hz. pose proof (Z.log2_spec z Hz) as Hl. pose proof (Z.log2_nonneg z) as H0.
  rewrite <- Z.add_1_r in Hl. unfold rnd24.
  destruct (Z.ltb_spec z (2 ^ 24)) as [H|H]; [lia|].
  assert (H24 : (24 <= Z.log2 z)%Z).
  { change 24%Z with (Z.log2 (2 ^ 24)). now apply Z.log2_le_mono. }
  set (e := (Z.log2 z - 23)%Z) in *.
  assert (He : (0 < 2 ^ e)%Z) by (apply Z.pow_pos_nonneg; lia).
  assert (E1 : (2 ^ Z.log2 z = 2 ^ 23 * 2 ^ e)%Z).
  { rewrite <- Z.pow_add_r by lia. f_equal. lia. }
  assert (E2 : (2 ^ (Z.log2 z + 1) = 2 ^ 24 * 2 ^ e)%Z).
  { rewrite <- Z.pow_add_r by lia. f_equal. lia. }
  assert (Hq1 : (2 ^ 23 <= z / 2 ^ e)%Z) by (apply Z.div_le_lower_bound; lia).
  assert (Hq2 : (z / 2 ^ e < 2 ^ 24)%Z) by (apply Z.div_lt_upper_bound; lia).
  destruct (_ || _); nia.
Qed.

Lemma rnd24_mono x y : (0 < x <= y)%Z -> (rnd24 x <= rnd24 y)%Z.
Proof.
  intros [Hx Hy]. pose proof (Z.log2_le_mono _ _ Hy) as Hl.
  destruct (Z.eq_dec (Z.log2 x) (Z.log2 y)) as [E|E].
  - pose proof (Z.log2_nonneg x) as H0. unfold rnd24.
    destruct (Z.ltb_spec x (2 ^ 24)) as [H1|H1], (Z.ltb_spec y (2 ^ 24)) as [H2|H2]; try lia.
    + exfalso. assert ((Z.log2 x < 24)%Z).
      { apply Z.log2_lt_pow2; lia. }
      assert ((24 <= Z.log2 y)%Z); [|lia].
      change 24%Z with (Z.log2 (2 ^ 24)). now apply Z.log2_le_mono.
    + rewrite <- E.
      assert (H24 : (24 <= Z.log2 x)%Z).
      { change 24%Z with (Z.log2 (2 ^ 24)). now apply Z.log2_le_mono. }
      set (e := (Z.log2 x - 23)%Z) in *.
      assert (He : (0 < 2 ^ e)%Z) by (apply Z.pow_pos_nonneg; lia).
      pose proof (Z.div_mod x (2 ^ e) ltac:(lia)) as Dx.
      pose proof (Z.div_mod y (2 ^ e) ltac:(lia)) as Dy.
      pose proof (Z.mod_pos_bound x (2 ^ e) He) as Mx.
      pose proof (Z.mod_pos_bound y (2 ^ e) He) as My.
      pose proof (Z.div_le_mono _ _ (2 ^ e) He Hy) as Hq.
      set (qx := (x / 2 ^ e)%Z) in *. set (qy := (y / 2 ^ e)%Z) in *.
      set (rx := (x mod 2 ^ e)%Z) in *. set (ry := (y mod 2 ^ e)%Z) in *.
      destruct (Z.eq_dec qx qy) as [Eq|Eq].
      * rewrite <- Eq. assert (Hr : (rx <= ry)%Z) by nia.
        destruct (Z.ltb_spec (2 ^ (e - 1)) rx), (Z.ltb_spec (2 ^ (e - 1)) ry),
          (Z.eqb_spec rx (2 ^ (e - 1))), (Z.eqb_spec ry (2 ^ (e - 1))), (Z.odd qx);
          cbn [orb andb]; try lia; nia.
      * destruct (_ || _), (_ || _); nia.
  - pose proof (rnd24_bounds x Hx). pose proof (rnd24_bounds y ltac:(lia)).
    assert ((2 ^ (Z.log2 x + 1) <= 2 ^ Z.log2 y)%Z); [|lia].
    apply Z.pow_le_mono_r; lia.
Qed.

(** A rehash happens only when there are no fewer nodes than buckets. *)
Lemma load_exceeds_full n w : 0 < w -> load_exceeds (S n) w = true -> w <= n.
Proof.
  intros Hw H. destruct (Nat.le_gt_cases w n) as [L|L]; [easy|]. exfalso.
  unfold load_exceeds in H. apply Z.ltb_lt in H.
  pose proof (rnd24_mono (Z.of_nat (S n)) (Z.of_nat w) ltac:(lia)).
  pose proof (rnd24_mono_pos (Z.of_nat w) ltac:(lia)). lia.
Qed.

Lemma snd_wbind {A B} (x : costed A) (k : A -> costed B) :
  snd (wbind x k) = (a <- snd x ;; snd (k a)).
Proof. unfold wbind. destruct x as [w [a|f]]; reflexivity. Qed.

Lemma wbind_gratis {A B} (o : outcome A) (k : A -> costed B) :
  wbind (gratis o) k = match o with Done a => k a | Fault f => gratis (Fault f) end.
Proof.
  unfold wbind, gratis. cbn [fst snd]. destruct o as [a|f]; [|easy].
  destruct (k a) as [[a1 a2 a3 a4 a5] o]. reflexivity.
Qed.

Lemma wbind_pair {A B} w (o : outcome A) (k : A -> costed B) :
  wbind (w, o) k = match o with
                   | Done a => (plus_work w (fst (k a)), snd (k a))
                   | Fault f => (w, Fault f)
                   end.
Proof. now destruct o. Qed.

Lemma bind_ext_ {A B} (x : outcome A) (k l : A -> outcome B) :
  (forall a, k a = l a) -> bind x k = bind x l.
Proof. intros H. destruct x; cbn [bind]; [apply H|easy]. Qed.

Lemma plus_work_assoc a b c : plus_work a (plus_work b c) = plus_work (plus_work a b) c.
Proof. unfold plus_work. cbn. f_equal; lia. Qed.

Lemma plus_no_work a : plus_work a no_work = a.
Proof. destruct a. unfold plus_work. cbn. f_equal; lia. Qed.

Lemma no_plus_work a : plus_work no_work a = a.
Proof. destruct a. reflexivity. Qed.

Section Cost.
Context {K V : Type}.
Variable keqb : K -> K -> bool.
Variable hash : K -> Z.
Notation node := (node K V).
Notation umap := (umap K V).
Notation op := (op K V).

(** ** The outcomes are those of UMap.v *)

Lemma find_walk_same fuel : forall (ns : list node) k c,
  snd (find_walk_w keqb fuel ns k c) = find_walk keqb fuel ns k c.
Proof.
  induction fuel as [|f IH]; intros ns k [i|]; try reflexivity.
  cbn [find_walk_w find_walk]. rewrite wbind_gratis. destruct (at_ ns i) as [n|]; [|easy].
  cbn [bind]. rewrite snd_wbind. cbn [matches_w snd bind].
  destruct (keqb (n_key n) k); [easy|]. apply IH.
Qed.

Lemma findNodeIndex_same (m : umap) k :
  snd (findNodeIndex_w keqb hash m k) = findNodeIndex keqb hash m k.
Proof.
  unfold findNodeIndex_w, findNodeIndex. rewrite snd_wbind. cbn [computeBucketIndex_w snd].
  apply bind_ext_. intros b. rewrite snd_wbind. apply bind_ext_. intros c. apply find_walk_same.
Qed.

Lemma find_same (m : umap) k : snd (find_w keqb hash m k) = find keqb hash m k.
Proof.
  unfold find_w, find. rewrite snd_wbind, findNodeIndex_same. apply bind_ext_. intros [i|]; [|easy].
  rewrite snd_wbind. easy.
Qed.

Lemma insert_walk_same fuel : forall (ns : list node) new i,
  snd (insert_walk_w fuel ns new i) = insert_walk fuel ns new i.
Proof.
  induction fuel as [|f IH]; intros ns new i; [easy|].
  cbn [insert_walk_w insert_walk]. rewrite snd_wbind. apply bind_ext_. intros n.
  destruct (n_next n); [apply IH|]. now rewrite snd_wbind.
Qed.

Lemma insertNode_same (m : umap) i : snd (insertNode_w hash m i) = insertNode hash m i.
Proof.
  unfold insertNode_w, insertNode. rewrite snd_wbind. apply bind_ext_. intros n.
  rewrite snd_wbind. apply bind_ext_. intros b. rewrite snd_wbind. apply bind_ext_. intros [j|]; [|easy].
  rewrite snd_wbind, insert_walk_same. apply bind_ext_. easy.
Qed.

Lemma rehash_loop_same t : forall i (m : umap),
  snd (rehash_loop_w hash t i m) = rehash_loop hash t i m.
Proof.
  induction t as [|t IH]; intros i m; [easy|]. cbn [rehash_loop_w rehash_loop].
  rewrite snd_wbind. unfold relink_w. rewrite snd_wbind. cbn [snd bind]. rewrite insertNode_same.
  apply bind_ext_. intros m'. apply IH.
Qed.

Lemma rehash_same (m : umap) n : snd (rehash_w hash m n) = rehash hash m n.
Proof.
  unfold rehash_w, rehash. rewrite snd_wbind. cbn [resetBuckets_w snd bind]. apply rehash_loop_same.
Qed.

Lemma insertOrAssign_same (m : umap) k v :
  snd (insertOrAssign_w keqb hash m k v) = insertOrAssign keqb hash m k v.
Proof.
  unfold insertOrAssign_w, insertOrAssign. rewrite snd_wbind, findNodeIndex_same.
  apply bind_ext_. intros [i|].
  - rewrite snd_wbind. easy.
  - cbv zeta. rewrite snd_wbind. destruct (load_exceeds _ _); [rewrite rehash_same|cbn [gratis snd]];
      apply bind_ext_; intros m1; apply insertNode_same.
Qed.

Lemma erase_same (m : umap) k : snd (erase_w keqb hash m k) = erase keqb hash m k.
Proof.
  unfold erase_w, erase. rewrite snd_wbind, findNodeIndex_same. apply bind_ext_. intros [i|]; [|easy].
  rewrite snd_wbind. apply bind_ext_. intros m1. rewrite snd_wbind. easy.
Qed.

Lemma step_same (m : umap) o : snd (step_w keqb hash m o) = step keqb hash m o.
Proof.
  destruct o as [k v|k|]; cbn [step_w step]; [apply insertOrAssign_same|apply erase_same|easy].
Qed.

Lemma run_from_same h : forall m : umap,
  snd (run_w_from keqb hash m h) = run_from (step keqb hash) m h.
Proof.
  induction h as [|o h IH]; intros m; [easy|]. cbn [run_w_from run_from].
  rewrite snd_wbind, step_same. apply bind_ext_. easy.
Qed.

Lemma run_w_unfold (h : list op) :
  run_w keqb hash h =
  (plus_work (Work 0 0 0 0 1) (fst (run_w_from keqb hash empty_map h)),
   snd (run_w_from keqb hash empty_map h)).
Proof. reflexivity. Qed.

Lemma run_same (h : list op) : snd (run_w keqb hash h) = run keqb hash h.
Proof. rewrite run_w_unfold. cbn [snd]. apply run_from_same. Qed.

(** ** Work of one lookup *)

Lemma find_walk_cost fuel : forall (ns : list node) k c,
  hashes (fst (find_walk_w keqb fuel ns k c)) = 0 /\
  visits (fst (find_walk_w keqb fuel ns k c)) = 0 /\
  relinks (fst (find_walk_w keqb fuel ns k c)) = 0 /\
  resets (fst (find_walk_w keqb fuel ns k c)) = 0.
Proof.
  induction fuel as [|f IH]; intros ns k [i|]; try (cbn; lia).
  cbn [find_walk_w]. rewrite wbind_gratis. destruct (at_ ns i) as [n|]; [|cbn; lia].
  unfold matches_w. rewrite wbind_pair. unfold plus_work.
  cbn [fst hashes visits relinks resets Nat.add]. destruct (keqb (n_key n) k); [cbn; lia|]. apply IH.
Qed.

Lemma find_walk_fuel fuel : forall (ns : list node) k c,
  matches (fst (find_walk_w keqb fuel ns k c)) <= fuel.
Proof.
  induction fuel as [|f IH]; intros ns k [i|]; try (cbn; lia).
  cbn [find_walk_w]. rewrite wbind_gratis. destruct (at_ ns i) as [n|]; [|cbn; lia].
  unfold matches_w. rewrite wbind_pair. unfold plus_work. cbn [fst matches Nat.add].
  destruct (keqb (n_key n) k); [cbn; lia|]. specialize (IH ns k (n_next n)). lia.
Qed.

Lemma findNodeIndex_cost (m : umap) k :
  hashes (fst (findNodeIndex_w keqb hash m k)) = 1 /\
  visits (fst (findNodeIndex_w keqb hash m k)) = 0 /\
  relinks (fst (findNodeIndex_w keqb hash m k)) = 0 /\
  resets (fst (findNodeIndex_w keqb hash m k)) = 0.
Proof.
  unfold findNodeIndex_w, computeBucketIndex_w. rewrite wbind_pair.
  destruct (computeBucketIndex hash m k) as [b|]; [|cbn; lia].
  rewrite wbind_gratis. destruct (at_ (buckets m) b) as [c|]; [|cbn; lia]. unfold plus_work.
  cbn [fst hashes visits relinks resets].
  destruct (find_walk_cost (S (length (nodes m))) (nodes m) k c) as (-> & -> & -> & ->). lia.
Qed.

Hypothesis keqb_spec : forall a b, reflect (a = b) (keqb a b).

Lemma walk_matches (ns : list node) k c l r fuel :
  walk ns k c l r -> length l < fuel -> matches (fst (find_walk_w keqb fuel ns k c)) = length l.
Proof.
  intros H. revert fuel. induction H as [|i H|i n H Hk|i n l r H Hk Hw IH]; intros fuel Hf; cbn in Hf;
    (destruct fuel as [|fuel]; [lia|]); cbn [find_walk_w]; try easy;
    rewrite wbind_gratis; unfold at_; rewrite H; try easy;
    unfold matches_w; rewrite wbind_pair; unfold plus_work; cbn [fst matches Nat.add].
  - destruct (keqb_spec (n_key n) k); easy.
  - destruct (keqb_spec (n_key n) k); [easy|]. rewrite IH by lia. easy.
Qed.

(** A lookup that ends compares no key twice. *)
Lemma findNodeIndex_matches (m : umap) k :
  findNodeIndex keqb hash m k <> Fault Diverges ->
  matches (fst (findNodeIndex_w keqb hash m k)) <= length (nodes m).
Proof.
  unfold findNodeIndex, findNodeIndex_w, computeBucketIndex_w. rewrite wbind_pair.
  destruct (computeBucketIndex hash m k) as [b|]; cbn [bind]; [|cbn; lia].
  rewrite wbind_gratis. destruct (at_ (buckets m) b) as [c|]; cbn [bind]; [|cbn; lia].
  intros H. destruct (find_walk_walk keqb keqb_spec _ _ _ _ H) as (l & Hl).
  pose proof (walk_length _ _ _ _ _ Hl) as L. unfold plus_work. cbn [fst matches Nat.add].
  rewrite (walk_matches _ _ _ _ _ _ Hl) by lia. easy.
Qed.

(** ** Work of one insertion *)

Lemma insert_walk_cost fuel : forall (ns : list node) new i,
  hashes (fst (insert_walk_w fuel ns new i)) = 0 /\
  matches (fst (insert_walk_w fuel ns new i)) = 0 /\
  relinks (fst (insert_walk_w fuel ns new i)) = 0 /\
  resets (fst (insert_walk_w fuel ns new i)) = 0.
Proof.
  induction fuel as [|f IH]; intros ns new i; [cbn; lia|].
  cbn [insert_walk_w]. unfold visit_w. rewrite wbind_pair.
  destruct (at_ ns i) as [n|]; [|cbn; lia]. unfold plus_work.
  cbn [fst hashes matches relinks resets Nat.add].
  destruct (n_next n) as [j|]; [apply IH|].
  rewrite wbind_gratis. destruct (put_next ns i (Some new)); cbn; lia.
Qed.

Lemma iwalk_visits (ns : list node) new c l q fuel :
  iwalk ns c l (Some q) -> length l < fuel ->
  visits (fst (insert_walk_w fuel ns new c)) = length l.
Proof.
  intros H. remember (Some q) as r eqn:Er. revert q Er fuel.
  induction H as [i H|i n H Hk|i n j l r H Hk Hw IH]; intros q Er fuel Hf; cbn in Hf; [easy| |];
    (destruct fuel as [|fuel]; [lia|]); cbn [insert_walk_w]; unfold visit_w; rewrite wbind_pair;
    unfold at_; rewrite H; unfold plus_work; cbn [fst visits Nat.add]; rewrite Hk.
  - rewrite wbind_gratis. destruct (put_next ns i (Some new)); cbn; lia.
  - rewrite (IH q Er fuel) by lia. easy.
Qed.

Lemma insert_walk_done fuel : forall (ns : list node) new c ns',
  insert_walk fuel ns new c = Done ns' -> exists l q, iwalk ns c l (Some q).
Proof.
  induction fuel as [|f IH]; intros ns new i ns'; [easy|]. cbn [insert_walk].
  destruct (at_ ns i) as [n|] eqn:E; cbn [bind]; [|easy]. apply at_done in E.
  destruct (n_next n) as [j|] eqn:En.
  - intros H. destruct (IH _ _ _ _ H) as (l & q & Hl). exists (i :: l), q. now apply iwalk_next with n j.
  - intros _. exists [i], i. now apply iwalk_end with n.
Qed.

(** One insertion: a single hash; each node is visited at most once. *)
Lemma insertNode_cost (m : umap) i :
  hashes (fst (insertNode_w hash m i)) <= 1 /\
  matches (fst (insertNode_w hash m i)) = 0 /\
  relinks (fst (insertNode_w hash m i)) = 0 /\
  resets (fst (insertNode_w hash m i)) = 0 /\
  (forall m', insertNode hash m i = Done m' ->
     visits (fst (insertNode_w hash m i)) <= length (nodes m)).
Proof.
  unfold insertNode_w, insertNode. rewrite wbind_gratis.
  destruct (at_ (nodes m) i) as [n|]; cbn [bind]; [|cbn; repeat split; (lia || easy)].
  unfold computeBucketIndex_w. rewrite wbind_pair.
  destruct (computeBucketIndex hash m (n_key n)) as [b|]; cbn [bind]; [|cbn; repeat split; (lia || easy)].
  rewrite wbind_gratis. destruct (at_ (buckets m) b) as [[j|]|]; cbn [bind];
    [|cbn; repeat split; (lia || easy)|cbn; repeat split; (lia || easy)].
  cbv zeta. set (ns := set_nth _ _ _).
  destruct (insert_walk_cost (S (length ns)) ns i j) as (H1 & H2 & H3 & H4).
  pose proof (insert_walk_same (S (length ns)) ns i j) as Hs.
  pose proof (set_nth_length (nodes m) i (Node (n_key n) (n_val n) (Some b) None None)) as Hl.
  fold ns in Hl.
  assert (H5 : forall ns', insert_walk (S (length ns)) ns i j = Done ns' ->
                 visits (fst (insert_walk_w (S (length ns)) ns i j)) <= length ns).
  { intros ns' E. destruct (insert_walk_done _ _ _ _ _ E) as (l & q & Hi).
    pose proof (iwalk_length _ _ _ _ Hi). rewrite (iwalk_visits _ _ _ _ _ _ Hi) by lia. easy. }
  rewrite <- Hs in *. destruct (insert_walk_w (S (length ns)) ns i j) as [w o].
  cbn [fst snd] in *. rewrite wbind_pair. destruct o as [ns'|f]; unfold plus_work;
    cbn [gratis no_work fst snd hashes matches relinks resets visits Nat.add bind]; cbn beta; (split; [lia|]); (split; [lia|]);
    (split; [lia|]); (split; [lia|]).
  - intros _ _. specialize (H5 ns' eq_refl). lia.
  - easy.
Qed.

Lemma rehash_loop_cost t : forall i (m : umap),
  hashes (fst (rehash_loop_w hash t i m)) <= relinks (fst (rehash_loop_w hash t i m)) /\
  matches (fst (rehash_loop_w hash t i m)) = 0 /\
  relinks (fst (rehash_loop_w hash t i m)) <= t /\
  resets (fst (rehash_loop_w hash t i m)) = 0 /\
  (forall m', rehash_loop hash t i m = Done m' ->
     relinks (fst (rehash_loop_w hash t i m)) = t /\
     visits (fst (rehash_loop_w hash t i m)) <= t * length (nodes m)).
Proof.
  induction t as [|t IH]; intros i m; [cbn; repeat split; lia|].
  cbn [rehash_loop_w rehash_loop]. unfold relink_w. rewrite wbind_pair.
  destruct (insertNode_cost m i) as (H1 & H2 & H3 & H4 & H5).
  pose proof (insertNode_same m i) as Hs. pose proof (insertNode_length hash m) as Hl.
  specialize (Hl) . rewrite <- Hs in *. 
  destruct (insertNode_w hash m i) as [w o] eqn:Ew. cbn [fst snd] in *.
  rewrite wbind_pair. destruct o as [m1|f]; cbn [bind].
  2:{ unfold plus_work. cbn [fst hashes matches relinks resets visits Nat.add]. repeat split; (lia || easy). }
  assert (Hl1 : length (nodes m1) = length (nodes m)) by (symmetry in Hs; apply insertNode_length in Hs; lia).
  destruct (IH (S i) m1) as (I1 & I2 & I3 & I4 & I5).
  destruct (rehash_loop_w hash t (S i) m1) as [w1 o1]. cbn [fst snd] in *.
  unfold plus_work. cbn [fst hashes matches relinks resets visits Nat.add].
  split; [lia|]. split; [lia|]. split; [lia|]. split; [lia|].
  intros m' E. destruct (I5 m' E) as (J1 & J2). specialize (H5 m1 eq_refl).
  split; [lia|]. rewrite Hl1 in J2. cbn [Nat.mul]. lia.
Qed.

Lemma rehash_cost (m : umap) n :
  hashes (fst (rehash_w hash m n)) <= relinks (fst (rehash_w hash m n)) /\
  matches (fst (rehash_w hash m n)) = 0 /\
  relinks (fst (rehash_w hash m n)) <= length (nodes m) /\
  resets (fst (rehash_w hash m n)) = n /\
  (forall m', rehash hash m n = Done m' ->
     relinks (fst (rehash_w hash m n)) = length (nodes m) /\
     visits (fst (rehash_w hash m n)) <= length (nodes m) * length (nodes m)).
Proof.
  unfold rehash_w, rehash, resetBuckets_w. rewrite wbind_pair.
  destruct (rehash_loop_cost (length (nodes m)) 0 (UMap (repeat None n) (nodes m)))
    as (H1 & H2 & H3 & H4 & H5).
  destruct (rehash_loop_w _ _ _ _) as [w o]. cbn [fst snd nodes] in *.
  unfold plus_work. cbn [fst hashes matches relinks resets visits Nat.add].
  split; [lia|]. split; [lia|]. split; [lia|]. split; [lia|]. exact H5.
Qed.

(** ** Work of one operation *)

(** Nodes beyond half of the buckets pay for the next rehash. *)
Definition credit (o : outcome umap) : nat :=
  match o with Done m => 2 * length (nodes m) - length (buckets m) | Fault _ => 0 end.

Definition count (p : op -> bool) (o : op) : nat := if p o then 1 else 0.

Lemma insertOrAssign_cost (m : umap) k v :
  0 < length (buckets m) ->
  let w := fst (insertOrAssign_w keqb hash m k v) in
  let o := insertOrAssign keqb hash m k v in
  hashes w <= relinks w + 2 /\
  relinks w + credit o <= credit (Done m) + 2 /\
  resets w + 2 * credit o <= 2 * credit (Done m) + 4 /\
  (forall m', o = Done m' ->
     0 < length (buckets m') <= Nat.max (length (buckets m)) (2 * length (nodes m)) /\
     length (nodes m) <= length (nodes m') <= S (length (nodes m)) /\
     matches w <= length (nodes m) /\
     visits w <= (relinks w + 1) * length (nodes m')).
Proof.
  intros Hb. unfold insertOrAssign_w, insertOrAssign.
  pose proof (findNodeIndex_cost m k) as (F1 & F2 & F3 & F4).
  pose proof (findNodeIndex_matches m k) as F5.
  rewrite <- findNodeIndex_same in *.
  destruct (findNodeIndex_w keqb hash m k) as [wf of]. cbn [fst snd] in *.
  rewrite wbind_pair. destruct of as [[i|]|f]; cbn [bind].
  - rewrite wbind_gratis. specialize (F5 ltac:(easy)). unfold credit.
    destruct (at_ (nodes m) i) as [n|]; cbn [bind gratis fst snd]; cbv zeta; rewrite plus_no_work;
      cbn [nodes buckets]; rewrite ?set_nth_length; (split; [lia|]); (split; [lia|]); (split; [lia|]); [|easy].
    intros m' [= <-]. cbn [nodes buckets]. rewrite set_nth_length. lia.
  - specialize (F5 ltac:(easy)). cbv zeta.
    destruct (load_exceeds (S (length (nodes m))) (length (buckets m))) eqn:L.
    + pose proof (load_exceeds_full _ _ Hb L) as Lf.
      pose proof (rehash_cost m (length (nodes m) * 2)) as (R1 & R2 & R3 & R4 & R5).
      pose proof (rehash_same m (length (nodes m) * 2)) as Rs.
      destruct (rehash_w hash m (length (nodes m) * 2)) as [wr or]. cbn [fst snd] in *.
      rewrite <- Rs in *. rewrite wbind_pair. destruct or as [m1|f]; cbn [bind].
      2:{ cbn [fst snd credit]. unfold plus_work. cbn [hashes relinks resets].
          split; [lia|]. split; [lia|]. split; [lia|]. easy. }
      destruct (R5 m1 eq_refl) as (R6 & R7).
      assert (Rl : length (nodes m1) = length (nodes m) /\ length (buckets m1) = length (nodes m) * 2).
      { symmetry in Rs. unfold rehash in Rs. apply rehash_loop_length in Rs. cbn [nodes buckets] in Rs.
        rewrite repeat_length in Rs. lia. }
      set (m2 := UMap (buckets m1) (nodes m1 ++ [Node k v None None None])).
      assert (El : length (nodes m2) = S (length (nodes m))).
      { unfold m2. cbn [nodes]. rewrite app_length. cbn [length]. lia. }
      destruct (insertNode_cost m2 (length (nodes m1))) as (I1 & I2 & I3 & I4 & I5).
      pose proof (insertNode_same m2 (length (nodes m1))) as Is.
      destruct (insertNode_w hash m2 (length (nodes m1))) as [wi oi]. cbn [fst snd] in *.
      rewrite <- Is in *. unfold plus_work. cbn [fst snd hashes relinks resets matches visits].
      split; [lia|].
      destruct oi as [m'|f]; cbn [credit]; [|(split; [lia|]); (split; [lia|]); easy].
      symmetry in Is. apply insertNode_length in Is. cbn [m2 nodes buckets] in Is.
      fold m2 in Is. destruct Is as (Is1 & Is2).
      assert (Is3 : length (nodes m') = S (length (nodes m))) by (cbn [m2 nodes] in *; lia).
      assert (Is4 : length (buckets m') = length (nodes m) * 2) by (cbn [m2 buckets] in *; lia).
      split; [lia|]. split; [lia|]. intros m'' [= <-].
      specialize (I5 m' eq_refl). split; [lia|]. split; [lia|]. split; [lia|]. nia.
    + rewrite wbind_gratis.
      set (m2 := UMap (buckets m) (nodes m ++ [Node k v None None None])).
      assert (El : length (nodes m2) = S (length (nodes m))).
      { unfold m2. cbn [nodes]. rewrite app_length. cbn [length]. lia. }
      cbn [bind]. fold m2.
      destruct (insertNode_cost m2 (length (nodes m))) as (I1 & I2 & I3 & I4 & I5).
      pose proof (insertNode_same m2 (length (nodes m))) as Is.
      destruct (insertNode_w hash m2 (length (nodes m))) as [wi oi]. cbn [fst snd] in *.
      rewrite <- Is in *. unfold plus_work. cbn [fst snd hashes relinks resets matches visits].
      split; [lia|].
      destruct oi as [m'|f]; cbn [credit]; [|(split; [lia|]); (split; [lia|]); easy].
      symmetry in Is. apply insertNode_length in Is. destruct Is as (Is1 & Is2).
      cbn [m2 buckets] in *.
      split; [lia|]. split; [lia|]. intros m'' [= <-].
      specialize (I5 m' eq_refl). cbn [m2 nodes] in *. split; [lia|]. split; [lia|]. split; [lia|]. nia.
  - cbn [fst snd credit]. split; [lia|]. split; [lia|]. split; [lia|]. easy.
Qed.

Lemma erase_w_fst (m : umap) k :
  fst (erase_w keqb hash m k) = fst (findNodeIndex_w keqb hash m k).
Proof.
  unfold erase_w. destruct (findNodeIndex_w keqb hash m k) as [w [[i|]|f]]; rewrite wbind_pair;
    cbn [fst]; [|apply plus_no_work|easy].
  rewrite wbind_gratis. destruct (unlink m i) as [m1|]; [|apply plus_no_work].
  rewrite wbind_gratis. destruct (relocate m1 i) as [m2|]; apply plus_no_work.
Qed.

Lemma erase_cost (m : umap) k :
  let w := fst (erase_w keqb hash m k) in
  let o := erase keqb hash m k in
  hashes w = 1 /\ visits w = 0 /\ relinks w = 0 /\ resets w = 0 /\
  credit o <= credit (Done m) /\
  (forall m', o = Done m' -> matches w <= length (nodes m)).
Proof.
  cbv zeta. rewrite erase_w_fst.
  pose proof (findNodeIndex_cost m k) as (F1 & F2 & F3 & F4).
  pose proof (findNodeIndex_matches m k) as F5.
  assert (Hc : credit (erase keqb hash m k) <= credit (Done m)).
  { destruct (erase keqb hash m k) as [m'|] eqn:E; [|cbn; lia]. apply erase_length in E.
    cbn [credit]. lia. }
  repeat split; try lia. intros m' E. apply F5. unfold erase in E.
  destruct (findNodeIndex keqb hash m k); easy.
Qed.

Lemma step_cost (m : umap) o :
  0 < length (buckets m) ->
  let w := fst (step_w keqb hash m o) in
  let r := step keqb hash m o in
  hashes w <= relinks w + 2 * count is_add o + count is_remove o /\
  relinks w + credit r <= credit (Done m) + 2 * count is_add o /\
  resets w + 2 * credit r <= 2 * credit (Done m) + 4 * count is_add o
                             + count is_clear o * length (buckets m) /\
  (forall m', r = Done m' ->
     0 < length (buckets m') <= Nat.max (length (buckets m)) (2 * length (nodes m)) /\
     length (nodes m') <= length (nodes m) + count is_add o /\
     matches w <= length (nodes m) /\
     visits w <= (relinks w + count is_add o) * length (nodes m')).
Proof.
  intros Hb. destruct o as [k v|k|]; cbn [step_w step count is_add is_remove is_clear].
  - destruct (insertOrAssign_cost m k v Hb) as (H1 & H2 & H3 & H4). cbv zeta.
    split; [lia|]. split; [lia|]. split; [lia|]. intros m' E.
    destruct (H4 m' E) as (J1 & J2 & J3 & J4). repeat split; lia.
  - destruct (erase_cost m k) as (H1 & H2 & H3 & H4 & H5 & H6). cbv zeta.
    split; [lia|]. split; [lia|]. split; [lia|]. intros m' E.
    pose proof (H6 m' E). apply erase_length in E. repeat split; lia.
  - unfold clear_w, resetBuckets_w. rewrite wbind_pair. cbv zeta. unfold plus_work, clear.
    cbn [gratis no_work fst snd hashes matches relinks resets visits credit nodes buckets length Nat.add Nat.mul].
    rewrite repeat_length. split; [lia|]. split; [lia|]. split; [lia|]. intros m' [= <-].
    cbn [nodes buckets length]. rewrite repeat_length. lia.
Qed.

(** ** Work of a history *)

Lemma count_cons (p : op -> bool) o h : length (filter p (o :: h)) = count p o + length (filter p h).
Proof. unfold count. cbn [filter]. now destruct (p o). Qed.

Lemma run_cost h : forall m : umap,
  0 < length (buckets m) ->
  let w := fst (run_w_from keqb hash m h) in
  let r := run_from (step keqb hash) m h in
  let B := Nat.max (length (buckets m)) (2 * (length (nodes m) + adds h)) in
  hashes w <= relinks w + 2 * adds h + removals h /\
  relinks w + credit r <= credit (Done m) + 2 * adds h /\
  resets w + 2 * credit r <= 2 * credit (Done m) + 4 * adds h + clears h * B /\
  (forall m', r = Done m' ->
     0 < length (buckets m') <= B /\
     length (nodes m') <= length (nodes m) + adds h /\
     matches w <= length h * (length (nodes m) + adds h) /\
     visits w <= (relinks w + adds h) * (length (nodes m) + adds h)).
Proof.
  induction h as [|o h IH]; intros m Hb; cbv zeta.
  - cbn [run_w_from run_from gratis no_work fst hashes relinks resets matches visits length].
    unfold adds, clears, removals. cbn [filter length Nat.mul Nat.add].
    split; [lia|]. split; [lia|]. split; [lia|]. intros m' [= <-]. lia.
  - cbn [run_w_from run_from].
    destruct (step_cost m o Hb) as (S1 & S2 & S3 & S4).
    pose proof (step_same m o) as Ss.
    destruct (step_w keqb hash m o) as [ws os]. cbn [fst snd] in *. rewrite <- Ss in *.
    unfold adds, clears, removals. rewrite !count_cons.
    fold (adds h) (clears h) (removals h). rewrite wbind_pair.
    set (a := count is_add o) in *. set (c := count is_clear o) in *. set (x := count is_remove o) in *.
    assert (Hc : c <= 1) by (unfold c, count; destruct (is_clear o); lia).
    destruct os as [m1|f]; cbn [bind].
    2:{ cbn [fst credit] in *. split; [lia|]. split; [lia|]. split; [|easy].
        assert (c * length (buckets m) <= (c + clears h) *
           Nat.max (length (buckets m)) (2 * (length (nodes m) + (a + adds h)))); [|lia].
        apply Nat.mul_le_mono; lia. }
    destruct (S4 m1 eq_refl) as (T1 & T2 & T3 & T4).
    destruct (IH m1 ltac:(lia)) as (I1 & I2 & I3 & I4). cbv zeta in *.
    destruct (run_w_from keqb hash m1 h) as [w1 o1]. cbn [fst snd] in *.
    unfold plus_work. cbn [fst hashes matches visits relinks resets].
    set (B1 := Nat.max (length (buckets m1)) (2 * (length (nodes m1) + adds h))) in *.
    set (B := Nat.max (length (buckets m)) (2 * (length (nodes m) + (a + adds h)))).
    assert (HB : B1 <= B) by (unfold B, B1; lia).
    split; [lia|]. split; [lia|]. split.
    + assert (c * length (buckets m) <= c * B) by (apply Nat.mul_le_mono; [easy|unfold B; lia]).
      assert (clears h * B1 <= clears h * B) by (apply Nat.mul_le_mono; lia).
      rewrite Nat.mul_add_distr_r. lia.
    + intros m' E. destruct (I4 m' E) as (J1 & J2 & J3 & J4).
      set (N := length (nodes m) + (a + adds h)).
      assert (HN : length (nodes m1) + adds h <= N) by (unfold N; lia).
      split; [lia|]. split; [unfold N; lia|]. split.
      * assert (length h * (length (nodes m1) + adds h) <= length h * N) by (apply Nat.mul_le_mono; lia).
        cbn [length Nat.mul]. unfold N in *. lia.
      * assert ((relinks ws + a) * length (nodes m1) <= (relinks ws + a) * N)
          by (apply Nat.mul_le_mono; unfold N in *; lia).
        assert ((relinks w1 + adds h) * (length (nodes m1) + adds h) <= (relinks w1 + adds h) * N)
          by (apply Nat.mul_le_mono; lia).
        replace (relinks ws + relinks w1 + (a + adds h)) with ((relinks ws + a) + (relinks w1 + adds h)) by lia.
        rewrite (Nat.mul_add_distr_r _ _ N). lia.
Qed.

(** ** Exact work on well-formed maps *)

Lemma rivals_bidx w k (l : list K) :
  0 < w -> rivals hash w k l = filter (fun x => bidx hash w x =? bidx hash w k) l.
Proof.
  intros Hw. apply filter_ext. intros x. unfold bidx.
  pose proof (Z.mod_pos_bound (hash x) (Z.of_nat w) ltac:(lia)).
  pose proof (Z.mod_pos_bound (hash k) (Z.of_nat w) ltac:(lia)).
  destruct (Z.eqb_spec (hash x mod Z.of_nat w) (hash k mod Z.of_nat w)) as [E|E].
  - rewrite E. symmetry. apply Nat.eqb_refl.
  - symmetry. apply Nat.eqb_neq. intros E'. apply E. apply Z2Nat.inj; lia.
Qed.

Lemma find_walk_position (ns : list node) b st k : forall l p fuel ks,
  dll ns b st p l None -> length l <= fuel -> map (key_at ns) l = map Some ks ->
  fst (find_walk_w keqb fuel ns k (hd_error l)) = Work 0 (position keqb k ks) 0 0 0.
Proof.
  induction l as [|i l IH]; intros p fuel ks H Hf Hk.
  - destruct ks; [|easy]. destruct fuel; reflexivity.
  - cbn [length] in Hf. destruct fuel as [|fuel]; [lia|]. cbn [dll] in H.
    destruct H as (n & H1 & H2 & H3 & H4 & H5).
    destruct ks as [|x ks]; [easy|]. cbn [map] in Hk. injection Hk as Hx Hks.
    unfold key_at in Hx. rewrite H1 in Hx. cbn in Hx. injection Hx as <-.
    cbn [hd_error find_walk_w]. rewrite wbind_gratis, (at_some _ _ _ H1).
    unfold matches_w. rewrite wbind_pair. cbn [fst position].
    destruct (keqb (n_key n) k); [reflexivity|].
    assert (Hn : n_next n = hd_error l) by (rewrite H3; now destruct l).
    rewrite Hn, (IH _ fuel ks H5) by (easy || lia). reflexivity.
Qed.

Lemma findNodeIndex_exact (m : umap) ch st ord k :
  wf hash m ch (fun _ => True) st -> ordered hash m ch ord ->
  fst (findNodeIndex_w keqb hash m k) =
  Work 1 (position keqb k (rivals hash (length (buckets m)) k ord)) 0 0 0.
Proof.
  intros W O. pose proof (wf_pos _ _ _ _ _ W) as Hp. unfold findNodeIndex_w, computeBucketIndex_w.
  rewrite wbind_pair, compute_bucket by easy. cbn [fst].
  set (b := bidx hash (length (buckets m)) k).
  rewrite wbind_gratis, (at_some _ _ _ (wf_head _ _ _ _ _ W b (bidx_lt hash _ k Hp))).
  rewrite (find_walk_position _ b st k (ch b) None _
             (filter (fun x => bidx hash (length (buckets m)) x =? b) ord)).
  - rewrite rivals_bidx by easy. reflexivity.
  - apply (wf_link _ _ _ _ _ W).
  - apply le_S. eapply chain_bound. exact W.
  - apply O.
Qed.

Lemma dll_iwalk (ns : list node) b st : forall l i p,
  dll ns b st p (i :: l) None -> exists q, iwalk ns i (i :: l) (Some q).
Proof.
  induction l as [|j l IH]; intros i p H; cbn [dll] in H;
    destruct H as (n & H1 & H2 & H3 & H4 & H5).
  - exists i. now apply iwalk_end with n.
  - destruct (IH j (Some i) H5) as (q & Hq). exists q. now apply iwalk_next with n j.
Qed.

Lemma insertNode_exact (m : umap) ch (lk st : _ -> Prop) new n ord :
  wf hash m ch lk st -> ordered hash m ch ord ->
  ~ lk new -> nth_error (nodes m) new = Some n ->
  fst (insertNode_w hash m new) =
  Work 1 0 (length (rivals hash (length (buckets m)) (n_key n) ord)) 0 0.
Proof.
  intros W O Hl Hn. pose proof (wf_pos _ _ _ _ _ W) as Hp.
  unfold insertNode_w. rewrite wbind_gratis, (at_some _ _ _ Hn).
  unfold computeBucketIndex_w. rewrite wbind_pair, compute_bucket by easy. cbn [fst].
  set (b := bidx hash (length (buckets m)) (n_key n)).
  rewrite wbind_gratis, (at_some _ _ _ (wf_head _ _ _ _ _ W b (bidx_lt hash _ _ Hp))).
  cbv zeta. set (ns := set_nth _ _ _).
  assert (Hlen : length (rivals hash (length (buckets m)) (n_key n) ord) = length (ch b)).
  { rewrite rivals_bidx by easy. specialize (O b).
    apply (f_equal (@List.length _)) in O. rewrite !map_length in O. symmetry. exact O. }
  rewrite Hlen.
  assert (Hd : dll ns b st None (ch b) None).
  { eapply dll_same; [| |apply (wf_link _ _ _ _ _ W)]; [|auto].
    intros i Hi. unfold ns. apply set_nth_other. intros <-. apply (wf_mem _ _ _ _ _ W) in Hi. easy. }
  destruct (ch b) as [|i l] eqn:Ec; cbn [hd_error]; [reflexivity|].
  destruct (dll_iwalk _ _ _ _ _ _ Hd) as (q & Hq).
  pose proof (iwalk_length _ _ _ _ Hq) as Hi.
  pose proof (iwalk_visits ns new i (i :: l) q (S (length ns)) Hq ltac:(lia)) as Hv.
  destruct (insert_walk_cost (S (length ns)) ns new i) as (C1 & C2 & C3 & C4).
  destruct (insert_walk_w (S (length ns)) ns new i) as [[w1 w2 w3 w4 w5] o].
  cbn [fst hashes matches visits relinks resets] in *. subst. rewrite wbind_pair.
  destruct o; cbn [gratis fst]; rewrite ?plus_no_work; reflexivity.
Qed.

Lemma insert_both (m : umap) ch (lk st : _ -> Prop) new n ord :
  wf hash m ch lk st -> ordered hash m ch ord ->
  ~ lk new -> nth_error (nodes m) new = Some n -> ~ st (n_key n) ->
  exists m' ch',
    insertNode_w hash m new =
      (Work 1 0 (length (rivals hash (length (buckets m)) (n_key n) ord)) 0 0, Done m') /\
    length (buckets m') = length (buckets m) /\
    pairs (nodes m') = pairs (nodes m) /\
    wf hash m' ch' (fun i => lk i \/ i = new) st /\
    ordered hash m' ch' (ord ++ [n_key n]).
Proof.
  intros W O Hl Hn Hs.
  destruct (insert_node_ordered hash m ch lk st new n ord W O Hl Hn Hs)
    as (m' & ch' & E & E1).
  exists m', ch'. split; [|exact E1].
  rewrite <- (insertNode_exact m ch lk st new n ord W O Hl Hn), <- E, <- insertNode_same.
  now destruct (insertNode_w hash m new).
Qed.

Lemma rehash_loop_exact todo : forall i (m : umap) ch,
  i + todo = length (nodes m) ->
  wf hash m ch (fun j => j < i) (fun _ => False) ->
  ordered hash m ch (firstn i (nkeys (nodes m))) ->
  fst (rehash_loop_w hash todo i m) =
  Work todo 0 (append_all hash (length (buckets m)) (firstn i (nkeys (nodes m)))
                          (skipn i (nkeys (nodes m)))) todo 0.
Proof.
  induction todo as [|t IH]; intros i m ch Hi W O.
  - rewrite skipn_all2 by (unfold nkeys; rewrite map_length; lia). reflexivity.
  - destruct (nth_error (nodes m) i) as [n|] eqn:Hn.
    2:{ apply nth_error_None in Hn. lia. }
    destruct (insert_both m ch _ _ i n _ W O) as (m1 & ch1 & E & E1 & E2 & W1 & O1); [lia|easy|easy|].
    cbn [rehash_loop_w]. unfold relink_w. rewrite wbind_pair, E. cbn [fst snd].
    rewrite wbind_pair. cbn [fst snd].
    assert (Ek : nkeys (nodes m1) = nkeys (nodes m)) by now rewrite nkeys_pairs, E2, <- nkeys_pairs.
    assert (Ef : firstn (S i) (nkeys (nodes m)) = firstn i (nkeys (nodes m)) ++ [n_key n]).
    { apply firstn_S_nth. now apply nkeys_nth. }
    assert (Es : skipn i (nkeys (nodes m)) = n_key n :: skipn (S i) (nkeys (nodes m))).
    { clear - Hn. apply nkeys_nth in Hn. revert i Hn. induction (nkeys (nodes m)) as [|x l IHl];
        intros [|i] H; cbn in *; try easy; [now injection H as ->|]. now apply IHl. }
    rewrite (IH (S i) m1 ch1).
    + rewrite Ek, Ef, Es, E1. reflexivity.
    + rewrite (pairs_eq_length _ _ E2). lia.
    + eapply wf_ext; [| |exact W1]; [|easy]. intros j _. cbn. lia.
    + rewrite Ek, Ef. exact O1.
Qed.

Lemma rehash_exact (m : umap) ch st n :
  wf hash m ch (fun _ => True) st -> 0 < n ->
  fst (rehash_w hash m n) =
  Work (length (nodes m)) 0 (append_all hash n [] (nkeys (nodes m))) (length (nodes m)) n.
Proof.
  intros W Hn. unfold rehash_w, resetBuckets_w. rewrite wbind_pair.
  rewrite (rehash_loop_exact _ _ _ (fun _ => [])).
  - cbn [fst buckets nodes firstn skipn]. rewrite repeat_length. unfold plus_work.
    cbn [hashes matches visits relinks resets Nat.add]. f_equal. lia.
  - easy.
  - constructor; cbn [buckets nodes].
    + now rewrite repeat_length.
    + rewrite repeat_length. intros b Hb. now apply nth_error_repeat.
    + apply (wf_keys _ _ _ _ _ W).
    + constructor.
    + cbn. split; [easy|]. intros [? _]. lia.
    + easy.
  - easy.
Qed.

(** ** Histories without removals *)

Definition plain (m : umap) (ord : list K) (f : K -> option V) : Prop :=
  good hash m (Shape ord ord [] (length (buckets m))) f.

Lemma existsb_memb k (l : list K) : existsb (fun x => keqb x k) l = memb keqb k l.
Proof.
  unfold memb. induction l as [|x l IH]; cbn; [easy|]. rewrite IH. f_equal.
  destruct (keqb_spec x k), (keqb_spec k x); congruence.
Qed.

Lemma plain_step (m : umap) ord f o :
  plain m ord f -> is_remove o = false ->
  exists m', step keqb hash m o = Done m' /\
    plain m' (register keqb ord o) (ideal_step keqb f o).
Proof.
  intros G Hr. destruct (good_step keqb hash keqb_spec m _ f o G) as (m' & E & G'); [now destruct o|].
  exists m'. split; [exact E|]. unfold plain.
  assert (Hw : width (shape_step keqb hash (Shape ord ord [] (length (buckets m))) o)
               = length (buckets m')).
  { destruct G' as (ch & _ & _ & _ & Hw & _). now rewrite Hw. }
  destruct o as [k v|k|]; [|easy|].
  - cbn [shape_step register] in *. unfold shape_add in *. cbn [slots order stale width] in *.
    rewrite existsb_memb. destruct (memb keqb k ord).
    + cbn [width] in Hw. rewrite <- Hw. exact G'.
    + destruct (load_exceeds _ _); cbn [slots order stale width] in *; rewrite <- Hw; exact G'.
  - cbn [shape_step register width] in *. rewrite <- Hw. exact G'.
Qed.

Lemma no_removals_cons o (h : list op) :
  no_removals (o :: h) -> is_remove o = false /\ no_removals h.
Proof. intros H. split; [apply H; now left|]. intros x Hx. apply H. now right. Qed.

Lemma plain_run_from h : forall (m : umap) ord f,
  plain m ord f -> no_removals h ->
  exists m', run_from (step keqb hash) m h = Done m' /\
    plain m' (fold_left (register keqb) h ord) (fold_left (ideal_step keqb) h f).
Proof.
  induction h as [|o h IH]; intros m ord f G Hh; cbn [run_from fold_left].
  - now exists m.
  - apply no_removals_cons in Hh. destruct Hh as (Ho & Hh).
    destruct (plain_step m ord f o G Ho) as (m1 & E & G1). rewrite E. cbn [bind]. now apply IH.
Qed.

Lemma plain_empty : plain empty_map [] (fun _ => None).
Proof. exact (good_empty hash). Qed.

Lemma plain_run (h : list op) :
  no_removals h ->
  exists m, run keqb hash h = Done m /\ plain m (registered keqb h) (ideal keqb h).
Proof. intros H. exact (plain_run_from h _ _ _ plain_empty H). Qed.

Lemma plain_length (m : umap) ord f : plain m ord f -> length (nodes m) = length ord.
Proof.
  intros (ch & _ & _ & Hk & _). cbn [slots] in Hk. rewrite <- Hk. unfold nkeys. now rewrite map_length.
Qed.

Lemma plain_pos (m : umap) ord f : plain m ord f -> 0 < length (buckets m).
Proof. intros (ch & W & _). apply (wf_pos _ _ _ _ _ W). Qed.

Lemma find_w_fst (m : umap) k : fst (find_w keqb hash m k) = fst (findNodeIndex_w keqb hash m k).
Proof.
  unfold find_w. destruct (findNodeIndex_w keqb hash m k) as [w [[i|]|f]]; rewrite wbind_pair;
    cbn [fst]; [|apply plus_no_work|easy].
  rewrite wbind_gratis. destruct (at_ (nodes m) i); apply plus_no_work.
Qed.

Lemma plain_find (m : umap) ord f k :
  plain m ord f ->
  find_w keqb hash m k =
  (Work 1 (position keqb k (rivals hash (length (buckets m)) k ord)) 0 0 0, Done (f k)).
Proof.
  intros G. rewrite <- (good_find keqb hash keqb_spec m _ f k G), <- find_same.
  destruct G as (ch & W & O & _). cbn [order] in O.
  rewrite <- (findNodeIndex_exact m ch _ ord k W O), <- find_w_fst. apply surjective_pairing.
Qed.

Lemma position_absent k (l : list K) : ~ In k l -> position keqb k l = length l.
Proof.
  induction l as [|x l IH]; intros H; [easy|]. cbn [position length].
  destruct (keqb_spec x k) as [->|_]; [exfalso; apply H; now left|].
  rewrite IH; [easy|]. intros Hi. apply H. now right.
Qed.

Lemma append_all_snoc w k : forall todo before : list K,
  append_all hash w before (todo ++ [k]) =
  append_all hash w before todo + length (rivals hash w k (before ++ todo)).
Proof.
  induction todo as [|x r IH]; intros before; cbn [app append_all].
  - rewrite app_nil_r. lia.
  - rewrite IH, <- app_assoc. cbn [app]. lia.
Qed.

Lemma wf_append (m : umap) ch st k v :
  wf hash m ch (fun _ => True) st ->
  (forall i n, nth_error (nodes m) i = Some n -> n_key n <> k) ->
  wf hash (UMap (buckets m) (nodes m ++ [Node k v None None None])) ch
     (fun i => i < length (nodes m)) st.
Proof.
  intros W Hk. set (m0 := UMap _ _).
  assert (Hold : forall i, i < length (nodes m) -> nth_error (nodes m0) i = nth_error (nodes m) i).
  { intros i Hi. cbn. now apply nth_error_app1. }
  assert (Hnew : nth_error (nodes m0) (length (nodes m)) = Some (Node k v None None None)).
  { cbn. rewrite nth_error_app2 by lia. now rewrite Nat.sub_diag. }
  assert (Hin : forall b i, In i (ch b) -> i < length (nodes m)).
  { intros b i Hi. apply (wf_mem _ _ _ _ _ W) in Hi. destruct Hi as (_ & n & Hn & _).
    eapply nth_error_lt; exact Hn. }
  assert (Hcase : forall i n, nth_error (nodes m0) i = Some n ->
     nth_error (nodes m) i = Some n \/ (i = length (nodes m) /\ n = Node k v None None None)).
  { intros i n Hn. destruct (Nat.lt_ge_cases i (length (nodes m))) as [Hi|Hi].
    - left. now rewrite <- Hold.
    - right. pose proof (nth_error_lt _ _ _ Hn) as Hi'. cbn in Hi'. rewrite app_length in Hi'. cbn in Hi'.
      assert (i = length (nodes m)) by lia. subst i. rewrite Hnew in Hn. injection Hn as <-. easy. }
  destruct W as [W1 W2 W3 W4 W5 W6]. constructor.
  - exact W1.
  - exact W2.
  - intros i j n n' Hn Hn' E.
    destruct (Hcase i n Hn) as [Hi|[-> ->]], (Hcase j n' Hn') as [Hj|[-> ->]].
    + eapply W3; eauto.
    + exfalso. now apply (Hk i n).
    + exfalso. now apply (Hk j n').
    + easy.
  - exact W4.
  - intros b i. rewrite W5. change (buckets m0) with (buckets m). split.
    + intros (_ & n & Hn & E). split; [eapply nth_error_lt; exact Hn|]. exists n.
      rewrite Hold; [easy|eapply nth_error_lt; exact Hn].
    + intros (Hl & n & Hn & E). split; [easy|]. exists n. now rewrite <- Hold.
  - intros b. eapply dll_same; [| |apply W6]; [|auto].
    intros i Hi. apply Hold. now apply (Hin b).
Qed.

(** The insertion of a new key into a map with the chains [ord]. *)
Lemma insert_new_exact (m : umap) ch st ord k v :
  wf hash m ch (fun _ => True) st -> ordered hash m ch ord ->
  (forall i n, nth_error (nodes m) i = Some n -> n_key n <> k) ->
  fst (insertNode_w hash (UMap (buckets m) (nodes m ++ [Node k v None None None])) (length (nodes m)))
  = Work 1 0 (length (rivals hash (length (buckets m)) k ord)) 0 0.
Proof.
  intros W O Hk. pose proof (wf_append m ch st k v W Hk) as W0.
  set (m0 := UMap (buckets m) (nodes m ++ [Node k v None None None])) in *.
  change (rivals hash (length (buckets m)) k ord)
    with (rivals hash (length (buckets m0)) (n_key (Node k v None None None)) ord).
  eapply insertNode_exact; [exact W0| |cbn beta; lia|].
  - intros b. change (buckets m0) with (buckets m); rewrite <- (O b). apply map_ext_in. intros i Hi. unfold key_at.
    cbn [m0 nodes]. rewrite nth_error_app1; [easy|].
    apply (wf_mem _ _ _ _ _ W) in Hi. destruct Hi as (_ & n & Hn & _). eapply nth_error_lt; exact Hn.
  - cbn [m0 nodes]. rewrite nth_error_app2 by lia. now rewrite Nat.sub_diag.
Qed.

Lemma plain_add (m : umap) ord f k v :
  plain m ord f ->
  fst (insertOrAssign_w keqb hash m k v) = add_work keqb hash (length (buckets m)) ord k.
Proof.
  intros G. pose proof (plain_length _ _ _ G) as Hlen. pose proof (plain_pos _ _ _ G) as Hp.
  pose proof G as (ch & W & O & Hk & _). cbn [order slots] in O, Hk.
  pose proof (findNodeIndex_exact m ch _ ord k W O) as Hf.
  pose proof (findNodeIndex_same m k) as Hs.
  unfold insertOrAssign_w, add_work. rewrite existsb_memb.
  destruct (findNodeIndex_w keqb hash m k) as [w0 o0]. cbn [fst snd] in Hf, Hs. subst w0 o0.
  destruct (find_index keqb hash keqb_spec m ch _ k W) as [(i & n & E & Hn & En)|[E Hno]];
    rewrite E, wbind_pair.
  - assert (Hin : In k ord).
    { rewrite <- Hk, <- En. apply in_map. eapply nth_error_In; exact Hn. }
    destruct (memb_spec keqb keqb_spec k ord) as [_|?]; [|easy].
    rewrite wbind_gratis, (at_some _ _ _ Hn). cbn [gratis fst]. now rewrite plus_no_work.
  - assert (Hnin : ~ In k ord).
    { rewrite <- Hk. unfold nkeys. rewrite in_map_iff. intros (n & En & Hn).
      apply In_nth_error in Hn. destruct Hn as (i & Hn). now apply (Hno i n). }
    destruct (memb_spec keqb keqb_spec k ord) as [?|_]; [easy|]. cbv zeta.
    rewrite position_absent by (unfold rivals; rewrite filter_In; tauto).
    rewrite Hlen. destruct (load_exceeds (S (length ord)) (length (buckets m))) eqn:L.
    + pose proof (load_exceeds_full _ _ Hp L) as Lf.
      destruct (rehash_ok hash m ch _ (length ord * 2) W ltac:(lia)) as (m1 & ch1 & E1 & E2 & E3 & E4 & E5).
      pose proof (rehash_exact m ch _ (length ord * 2) W ltac:(lia)) as Hx.
      pose proof (rehash_same m (length ord * 2)) as Hy. rewrite E1 in Hy.
      destruct (rehash_w hash m (length ord * 2)) as [w1 o1]. cbn [fst snd] in Hx, Hy. subst w1 o1.
      rewrite wbind_pair. cbn [fst snd].
      assert (Ek : nkeys (nodes m1) = ord) by now rewrite nkeys_pairs, E3, <- nkeys_pairs.
      rewrite Ek in E5.
      rewrite (insert_new_exact m1 ch1 _ ord k v E4 E5).
      2:{ intros i n Hn Ekn. destruct (pairs_eq_nth _ _ _ _ E3 Hn) as (y & Hy & Ky & _).
          apply (Hno i y Hy). congruence. }
      rewrite E2, Hk, Hlen, append_all_snoc. cbn [app].
      replace (length ord * 2) with (2 * length ord) by lia. unfold plus_work.
      cbn [hashes matches visits relinks resets]. f_equal; lia.
    + rewrite wbind_gratis.
      replace (length ord) with (length (nodes m)).
      rewrite (insert_new_exact m ch _ ord k v W O Hno). cbn [fst]. unfold plus_work.
      cbn [hashes matches visits relinks resets]. f_equal; lia.
Qed.

(** *** Keys that all share a hash value *)

Lemma rivals_all w k (l : list K) :
  (forall x, In x l -> hash x = hash k) -> rivals hash w k l = l.
Proof.
  intros H. unfold rivals. induction l as [|x l IH]; [easy|]. cbn [filter].
  rewrite (H x) by now left. rewrite Z.eqb_refl. f_equal. apply IH. intros y Hy. apply H. now right.
Qed.

Lemma registered_adds (l : list K) (vs : K -> V) : forall ord,
  NoDup (ord ++ l) ->
  fold_left (register keqb) (map (fun k => Add k (vs k)) l) ord = ord ++ l.
Proof.
  induction l as [|k l IH]; intros ord H; cbn [map fold_left]; [now rewrite app_nil_r|].
  cbn [register]. rewrite existsb_memb.
  pose proof (NoDup_remove_2 _ _ _ H) as Hn.
  destruct (memb_spec keqb keqb_spec k ord) as [Hi|_]; [exfalso; apply Hn; apply in_or_app; now left|].
  rewrite IH; rewrite <- app_assoc; easy.
Qed.

Lemma same_hash_run (l : list K) (vs : K -> V) z : forall (m : umap) ord f,
  plain m ord f -> NoDup (ord ++ l) -> (forall x, In x (ord ++ l) -> hash x = z) ->
  let w := fst (run_w_from keqb hash m (map (fun k => Add k (vs k)) l)) in
  2 * matches w + length l = length l * (2 * length ord + length l) /\
  matches w <= visits w.
Proof.
  induction l as [|k l IH]; intros m ord f G Hnd Hz; cbv zeta.
  - cbn. lia.
  - cbn [map run_w_from].
    pose proof (plain_add m ord f k (vs k) G) as Ha.
    pose proof (NoDup_remove_2 _ _ _ Hnd) as Hn.
    destruct (plain_step m ord f (Add k (vs k)) G eq_refl) as (m1 & E & G1).
    cbn [register] in G1. rewrite existsb_memb in G1.
    cbn [step_w]. pose proof (insertOrAssign_same m k (vs k)) as Hs. cbn [step] in E. rewrite E in Hs.
    destruct (insertOrAssign_w keqb hash m k (vs k)) as [w0 o0]. cbn [fst snd] in Ha, Hs. subst w0 o0.
    unfold add_work. rewrite existsb_memb.
    destruct (memb_spec keqb keqb_spec k ord) as [Hi|_]; [exfalso; apply Hn; apply in_or_app; now left|].
    assert (Hk : forall w, rivals hash w k ord = ord).
    { intros w. apply rivals_all. intros x Hx. rewrite (Hz k) by (apply in_or_app; right; now left).
      apply Hz. apply in_or_app. now left. }
    rewrite !Hk, append_all_snoc. cbn [app]. rewrite Hk.
    rewrite wbind_pair. cbn [fst].
    destruct (IH m1 (ord ++ [k]) _ G1) as (I1 & I2).
    + now rewrite <- app_assoc.
    + now rewrite <- app_assoc.
    + cbv zeta in I1, I2. rewrite app_length in I1. cbn [length] in *.
      destruct (run_w_from keqb hash m1 _) as [w1 o1]. cbn [fst snd] in *.
      unfold plus_work.
      destruct (load_exceeds _ _); cbn [matches visits]; split; try lia; nia.
Qed.

Lemma position_nth : forall (l : list K) i k,
  NoDup l -> nth_error l i = Some k -> position keqb k l = S i.
Proof.
  induction l as [|x l IH]; intros [|i] k Hn Hi; try easy; cbn [nth_error position] in *.
  - injection Hi as ->. destruct (keqb_spec k k); easy.
  - inversion_clear Hn as [|? ? H1 H2]. destruct (keqb_spec x k) as [->|_].
    + exfalso. apply H1. eapply nth_error_In. exact Hi.
    + now rewrite (IH i k).
Qed.

Lemma position_le k (l : list K) : position keqb k l <= length l.
Proof. induction l as [|x l IH]; cbn; [lia|]. destruct (keqb x k); lia. Qed.

(** ** Harmless histories *)

Lemma good_find_cost (m : umap) s f k :
  good hash m s f ->
  matches (fst (find_w keqb hash m k))
  <= length (rivals hash (length (buckets m)) k (map fst (iterate m))).
Proof.
  intros (ch & W & O & Hk & _). rewrite find_w_fst, (findNodeIndex_exact m ch _ _ k W O).
  cbn [matches]. eapply Nat.le_trans; [apply position_le|].
  set (b := bidx hash (length (buckets m)) k).
  pose proof (wf_pos _ _ _ _ _ W) as Hp. specialize (O b).
  rewrite (rivals_bidx _ k (order s)) by easy. fold b.
  assert (El : length (filter (fun x => bidx hash (length (buckets m)) x =? b) (order s)) = length (ch b)).
  { apply (f_equal (@List.length _)) in O. rewrite !map_length in O. symmetry. exact O. }
  rewrite El, <- (map_length (key_at (nodes m)) (ch b)),
    <- (map_length Some (rivals hash (length (buckets m)) k (map fst (iterate m)))).
  apply NoDup_incl_length.
  - pose proof (wf_nodup _ _ _ _ _ W b) as Hn.
    assert (Hin : forall i, In i (ch b) -> exists n, nth_error (nodes m) i = Some n).
    { intros i Hi. apply (wf_mem _ _ _ _ _ W) in Hi. destruct Hi as (_ & n & Hi & _). eauto. }
    clear O El. induction (ch b) as [|i l IH]; cbn [map]; [constructor|].
    inversion_clear Hn as [|? ? H1 H2]. constructor; [|apply IH; [easy|]; intros j Hj; apply Hin; now right].
    rewrite in_map_iff. intros (j & Ej & Hj). unfold key_at in Ej.
    destruct (Hin i (or_introl eq_refl)) as (n & Hi). destruct (Hin j (or_intror Hj)) as (n' & Hj').
    rewrite Hi, Hj' in Ej. cbn in Ej. injection Ej as Ej.
    assert (j = i) by (apply (wf_keys _ _ _ _ _ W j i n' n); easy). congruence.
  - intros o. rewrite in_map_iff. intros (i & <- & Hi). apply (wf_mem _ _ _ _ _ W) in Hi.
    destruct Hi as (_ & n & Hi & Hb). unfold key_at. rewrite Hi. cbn [option_map].
    apply in_map. rewrite rivals_bidx by easy. apply filter_In. split.
    + unfold iterate. rewrite map_map. cbn [fst]. apply in_map_iff. exists n. split; [easy|].
      eapply nth_error_In. exact Hi.
    + apply Nat.eqb_eq. fold b. now rewrite Hb.
Qed.
End Cost.

(** ** Names with the same hash value *)

Lemma hash_step_pair sg h :
  hash_step sg (hash_step sg h "a"%char) "b"%char = hash_step sg (hash_step sg h "b"%char) "A"%char.
Proof.
  assert (E : forall h c, hash_step sg h c = ((33 * h + char_val sg c) mod 2 ^ 64)%Z).
  { intros x c. unfold hash_step. change two64 with (2 ^ 64)%Z.
    rewrite Z.add_mod_idemp_l by discriminate. rewrite <- Z.add_assoc.
    rewrite Z.add_mod_idemp_l by discriminate. f_equal. ring. }
  rewrite !E.
  assert (E' : forall x y, ((33 * (x mod 2 ^ 64) + y) mod 2 ^ 64 = (33 * x + y) mod 2 ^ 64)%Z).
  { intros x y. rewrite <- Z.add_mod_idemp_l by discriminate.
    rewrite Z.mul_mod_idemp_r by discriminate. now rewrite Z.add_mod_idemp_l by discriminate. }
  rewrite !E'. f_equal.
  replace (char_val sg "a"%char) with 97%Z by now destruct sg.
  replace (char_val sg "b"%char) with 98%Z by now destruct sg.
  replace (char_val sg "A"%char) with 65%Z by now destruct sg. ring.
Qed.

Lemma namesakes_hash sg n : forall h, exists z, forall s,
  In s (namesakes n) -> fold_left (hash_step sg) s h = z.
Proof.
  induction n as [|n IH]; intros h.
  - exists h. intros s [<-|[]]. easy.
  - destruct (IH (hash_step sg (hash_step sg h "a"%char) "b"%char)) as (z & Hz). exists z.
    intros s. cbn [namesakes]. rewrite in_app_iff, !in_map_iff.
    intros [(t & <- & Ht)|(t & <- & Ht)]; cbn [lit list_ascii_of_string app fold_left].
    + apply Hz. easy.
    + change (lit "bA" ++ t) with ("b"%char :: "A"%char :: t). cbn [fold_left].
      rewrite <- hash_step_pair. apply Hz. easy.
Qed.

Lemma namesakes_count n : length (namesakes n) = 2 ^ n.
Proof.
  induction n as [|n IH]; [easy|]. cbn [namesakes]. rewrite app_length, !map_length. cbn [Nat.pow].
  unfold bytes in *. lia.
Qed.

Lemma namesakes_nodup n : NoDup (namesakes n).
Proof.
  induction n as [|n IH]; [repeat constructor; easy|]. cbn [namesakes].
  assert (Hmap : forall (p : bytes) l, NoDup l -> NoDup (map (fun s => p ++ s) l)).
  { intros p l H. apply Injective_map_NoDup; [|easy]. intros a b. apply app_inv_head. }
  assert (Hdis : forall x, In x (map (fun s => lit "ab" ++ s) (namesakes n)) ->
                   ~ In x (map (fun s => lit "bA" ++ s) (namesakes n))).
  { intros x. rewrite !in_map_iff. intros (s & <- & _) (t & E & _). discriminate E. }
  pose proof (Hmap (lit "ab") _ IH) as H1. pose proof (Hmap (lit "bA") _ IH) as H2.
  revert H1 H2 Hdis. generalize (map (fun s => lit "bA" ++ s) (namesakes n)).
  generalize (map (fun s => lit "ab" ++ s) (namesakes n)). clear.
  induction l as [|x l IH]; intros r H1 H2 Hd; [easy|]. cbn [app].
  inversion_clear H1 as [|? ? Hx Hl]. constructor.
  - rewrite in_app_iff. intros [H|H]; [easy|]. apply (Hd x); [now left|easy].
  - apply IH; try easy. intros y Hy. apply Hd. now right.
Qed.

Lemma namesakes_length n s : In s (namesakes n) -> length s = 2 * n.
Proof.
  revert s. induction n as [|n IH]; intros s; cbn [namesakes]; [intros [<-|[]]; easy|].
  rewrite in_app_iff, !in_map_iff.
  intros [(t & <- & Ht)|(t & <- & Ht)]; cbn; rewrite (IH t Ht); lia.
Qed.
