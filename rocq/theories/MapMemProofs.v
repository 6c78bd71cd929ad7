(** The map on memory (MapMem.v) does what the map on lists (UMap.v) does. *)
From Coq Require Import ZArith Bool PeanoNat Lia List.
From Verif Require Import Util Base Mem MemProofs MemOwners VectorMem VectorMemProofs UMap UMapRel.
From Verif Require Import MapMem.
Import ListNotations.

Lemma set_nth_same_fun {X} (l : list X) : forall i x, Mem.set_nth l i x = UMap.set_nth l i x.
Proof. induction l as [|y l IH]; intros [|i] x; cbn; [reflexivity..|]. now rewrite IH. Qed.

Lemma uset_length {X} (l : list X) : forall i x, length (UMap.set_nth l i x) = length l.
Proof. intros. rewrite <- set_nth_same_fun. apply set_nth_length. Qed.

Lemma uset_map {X Y} (f : X -> Y) (l : list X) : forall i x,
  UMap.set_nth (map f l) i (f x) = map f (UMap.set_nth l i x).
Proof. induction l as [|y l IH]; intros [|i] x; cbn; [reflexivity..|]. now rewrite IH. Qed.

Lemma uset_Forall {X} (P : X -> Prop) (l : list X) : forall i x, Forall P l -> P x -> Forall P (UMap.set_nth l i x).
Proof.
  induction l as [|y l IH]; intros [|i] x H Hx; cbn; [constructor..| |]; inversion H; subst; constructor; auto.
Qed.

Lemma uset_nth_eq {X} (l : list X) i x : i < length l -> nth_error (UMap.set_nth l i x) i = Some x.
Proof. rewrite <- set_nth_same_fun. apply nth_error_set_nth_eq. Qed.

Lemma uset_nth_neq {X} (l : list X) i j x : i <> j -> nth_error (UMap.set_nth l i x) j = nth_error l j.
Proof. rewrite <- set_nth_same_fun. apply nth_error_set_nth_neq. Qed.

Lemma uset_twice {X} (l : list X) i x y : UMap.set_nth (UMap.set_nth l i x) i y = UMap.set_nth l i y.
Proof. rewrite <- !set_nth_same_fun. apply set_nth_twice. Qed.

Lemma uset_comm {X} (l : list X) : forall i j x y, i <> j ->
  UMap.set_nth (UMap.set_nth l i x) j y = UMap.set_nth (UMap.set_nth l j y) i x.
Proof. induction l as [|z l IH]; intros [|i] [|j] x y H; cbn; try easy. f_equal. apply IH. lia. Qed.

Lemma at_some {X} (l : list X) i x : nth_error l i = Some x -> at_ l i = Done x.
Proof. unfold at_. now intros ->. Qed.

Lemma bind_done {A} (x : outcome A) : bind x Done = x.
Proof. now destruct x. Qed.

(** ** Elements of a vector through pointers *)
Section Elements.
Context {X : Type}.
Variable sizeT W : nat.
Local Notation vrep := (vrep sizeT W).

Lemma cells_len (l : list X) cap : length l <= cap -> length (cells l cap) = cap.
Proof. intros H. unfold cells. rewrite app_length, map_length, repeat_length. lia. Qed.

Lemma elem_load (h : vmem X) b l i x : vrep h b l -> nth_error l i = Some x ->
  load_value h (advance (m_ptr b) i) 0 = Done x.
Proof.
  intros [H1 H2 H3 H4 ->|k cap [-> Hl Hle Hp Hf]] E; [destruct i; discriminate|].
  cbn [m_ptr buf advance]. eapply load_value_at; [exact Hl|]. rewrite Nat.add_0_r. now apply cells_nth.
Qed.

Lemma elem_store (h : vmem X) b l i x y : vrep h b l -> nth_error l i = Some x ->
  exists h', store h (advance (m_ptr b) i) 0 (Some y) = Done h' /\ vrep h' b (UMap.set_nth l i y) /\
    evolves h (owner_of b) h' (owner_of b) /\ length (blocks h') = length (blocks h).
Proof.
  intros [H1 H2 H3 H4 ->|k cap H] E; [destruct i; discriminate|].
  pose proof (vholds_owner _ _ _ _ _ _ _ H) as Ho. rewrite Ho. destruct H as [Eb Hl Hle Hp Hf]. subst b.
  assert (i < length l) as Hi by (apply nth_error_Some; congruence).
  cbn [m_ptr buf advance].
  rewrite (store_at _ _ _ _ _ _ Hl) by (rewrite cells_len by assumption; cbn; lia).
  replace (0 + i + 0) with i by lia.
  apply nth_error_split in E. destruct E as (l1 & l2 & -> & <-).
  rewrite cells_set. eexists. split; [reflexivity|]. rewrite <- set_nth_same_fun, set_nth_app. cbn [Mem.set_nth].
  split; [|split].
  - apply vrep_at with k cap. constructor; auto.
    + unfold buf. rewrite !app_length. reflexivity.
    + eapply live_set_block_eq. eassumption.
    + rewrite app_length in *. cbn in *. lia.
  - eapply evolves_write. eassumption.
  - cbn. apply set_nth_length.
Qed.

Lemma elem_set (h : vmem X) b l i x y : vrep h b l -> nth_error l i = Some x ->
  exists h', vec_set h b i y = Done h' /\ vrep h' b (UMap.set_nth l i y) /\
    evolves h (owner_of b) h' (owner_of b) /\ length (blocks h') = length (blocks h).
Proof.
  intros R E. destruct (elem_store h b l i x y R E) as (h' & Es & H).
  exists h'. split; [|exact H]. unfold vec_set. rewrite (vrep_size _ _ _ _ _ R).
  assert (i < length l) as Hi by (apply nth_error_Some; congruence). apply Nat.ltb_lt in Hi. rewrite Hi.
  cbn [assert_ bind]. pose proof (elem_load h b l i x R E) as El.
  destruct R as [H1 H2 H3 H4 ->|k cap [-> Hl Hle Hp Hf]]; [destruct i; discriminate|].
  cbn [m_ptr buf advance] in *. unfold load_value, load, store in *. cbn [Nat.add] in *.
  rewrite Nat.add_0_r in *. rewrite El. cbn [bind]. exact Es.
Qed.
End Elements.

Section MapMemProofs.
Context {K V : Type}.
Variable keqb : K -> K -> bool.
Variable hash : K -> Z.
Variable movedK : K -> K.
Variable movedV : V -> V.
Variable sizeN sizeI W : nat.
Hypothesis sizeI_pos : 0 < sizeI.
Hypothesis sizeN_big : 3 * sizeI <= sizeN.

Lemma sizeN_pos : 0 < sizeN. Proof. lia. Qed.

Implicit Types (h : mheap K V) (m : mmap K V) (u : umap K V).
Local Notation invalid := (invalid W).
Local Notation vrepB := (VectorMemProofs.vrep sizeI W).
Local Notation vrepN := (VectorMemProofs.vrep sizeN W).

(** ** Representation *)

Definition enc (o : option nat) : nat := match o with Some i => i | None => invalid end.
Definition encn (n : node K V) : mnode K V :=
  MNode (n_key n) (n_val n) (enc (n_bucket n)) (enc (n_prev n)) (enc (n_next n)).

(** An index that is not invalidIndex. *)
Definition tight (o : option nat) : Prop := match o with Some i => i < invalid | None => True end.
Definition node_ok (n : node K V) : Prop := tight (n_bucket n) /\ tight (n_prev n) /\ tight (n_next n).
Definition ok u : Prop := Forall tight (buckets u) /\ Forall node_ok (nodes u).

Record rep h m u : Prop := Rep {
  rp_b : vrepB (h_buckets h) (mm_buckets m) (map enc (buckets u));
  rp_n : vrepN (h_nodes h) (mm_nodes m) (map encn (nodes u));
  rp_ok : ok u
}.

(** Other registries see nothing; no node storage is allocated. *)
Definition inplace h m h' : Prop :=
  evolves (h_buckets h) (owner_of (mm_buckets m)) (h_buckets h') (owner_of (mm_buckets m)) /\
  evolves (h_nodes h) (owner_of (mm_nodes m)) (h_nodes h') (owner_of (mm_nodes m)) /\
  length (blocks (h_nodes h')) = length (blocks (h_nodes h)).

Definition becomes h m h' u' : Prop := rep h' m u' /\ inplace h m h'.

Lemma inplace_refl h m : inplace h m h.
Proof. split; [apply evolves_refl|]. split; [apply evolves_refl|reflexivity]. Qed.

Lemma inplace_trans h m h1 h2 : inplace h m h1 -> inplace h1 m h2 -> inplace h m h2.
Proof.
  intros (A & B & C) (A' & B' & C'). split; [|split].
  - eapply evolves_trans; eassumption.
  - eapply evolves_trans; eassumption.
  - congruence.
Qed.

Lemma becomes_refl h m u : rep h m u -> becomes h m h u.
Proof. intros R. split; [exact R|apply inplace_refl]. Qed.

Lemma becomes_trans h m h1 u1 h2 u2 : becomes h m h1 u1 -> becomes h1 m h2 u2 -> becomes h m h2 u2.
Proof. intros (_ & A) (R & B). split; [exact R|eapply inplace_trans; eassumption]. Qed.

Lemma rep_size h m u : rep h m u -> m_size (mm_nodes m) = length (nodes u).
Proof. intros R. rewrite (vrep_size _ _ _ _ _ (rp_n _ _ _ R)). apply map_length. Qed.

Lemma rep_buckets h m u : rep h m u -> m_size (mm_buckets m) = length (buckets u).
Proof. intros R. rewrite (vrep_size _ _ _ _ _ (rp_b _ _ _ R)). apply map_length. Qed.

(** There are fewer nodes and buckets than values of a size_t but one. *)
Lemma rep_few h m u : rep h m u -> 0 < W -> length (nodes u) < W /\ length (buckets u) < W.
Proof.
  intros R HW. pose proof (vrep_le _ _ sizeN_pos _ _ _ (rp_n _ _ _ R)) as A. pose proof (vrep_fits _ _ sizeN_pos _ _ _ (rp_n _ _ _ R) HW) as B.
  pose proof (vrep_le _ _ sizeI_pos _ _ _ (rp_b _ _ _ R)) as C. pose proof (vrep_fits _ _ sizeI_pos _ _ _ (rp_b _ _ _ R) HW) as D.
  rewrite map_length in A, C. split; nia.
Qed.

Lemma enc_invalid o : tight o -> (enc o =? invalid) = match o with Some _ => false | None => true end.
Proof.
  destruct o as [i|]; cbn; [|intros _; apply Nat.eqb_refl]. intros H. apply Nat.eqb_neq. lia.
Qed.

Lemma enc_eqb o i : tight o -> i < invalid -> (enc o =? i) = match o with Some j => j =? i | None => false end.
Proof. destruct o as [j|]; cbn; intros H Hi; [reflexivity|]. apply Nat.eqb_neq. lia. Qed.

Lemma node_ok_nth u i n : ok u -> nth_error (nodes u) i = Some n -> node_ok n.
Proof. intros (_ & H) E. rewrite Forall_forall in H. apply H. eapply nth_error_In. eassumption. Qed.

Lemma bucket_ok_nth u i o : ok u -> nth_error (buckets u) i = Some o -> tight o.
Proof. intros (H & _) E. rewrite Forall_forall in H. apply H. eapply nth_error_In. eassumption. Qed.

(** ** Single accesses *)

Definition ptr m (i : nat) : node_ptr := advance (m_ptr (mm_nodes m)) i.

Lemma node_at_ok h m u i : rep h m u -> i < length (nodes u) -> node_at m i = Done (ptr m i).
Proof.
  intros R H. unfold node_at. rewrite (rep_size _ _ _ R). apply Nat.ltb_lt in H. rewrite H. reflexivity.
Qed.

Lemma node_at_past h m u i : rep h m u -> length (nodes u) <= i -> node_at m i = Fault AssertFailed.
Proof.
  intros R H. unfold node_at. rewrite (rep_size _ _ _ R). apply Nat.ltb_ge in H. rewrite H. reflexivity.
Qed.

Lemma deref_ok h m u i n : rep h m u -> nth_error (nodes u) i = Some n -> deref h (ptr m i) = Done (encn n).
Proof.
  intros R E. unfold deref, ptr. eapply elem_load; [exact (rp_n _ _ _ R)|].
  now rewrite nth_error_map, E.
Qed.

Lemma modify_ok h m u i n f n' : rep h m u -> nth_error (nodes u) i = Some n -> f (encn n) = encn n' -> node_ok n' ->
  exists h', modify h (ptr m i) f = Done h' /\ becomes h m h' (UMap (buckets u) (UMap.set_nth (nodes u) i n')).
Proof.
  intros R E Ef Ok. unfold modify. rewrite (deref_ok _ _ _ _ _ R E). cbn [bind]. rewrite Ef.
  destruct (elem_store sizeN W (h_nodes h) (mm_nodes m) (map encn (nodes u)) i (encn n) (encn n') (rp_n _ _ _ R))
    as (g & Es & Rg & Ev & Lg); [now rewrite nth_error_map, E|].
  unfold ptr. rewrite Es. cbn [bind]. eexists. split; [reflexivity|].
  split; [constructor; cbn [h_buckets h_nodes buckets nodes]|].
  - exact (rp_b _ _ _ R).
  - rewrite uset_map in Rg. exact Rg.
  - destruct (rp_ok _ _ _ R) as (A & B). split; [exact A|]. now apply uset_Forall.
  - split; [apply evolves_refl|]. split; [exact Ev|exact Lg].
Qed.

Lemma get_bucket_ok h m u i o : rep h m u -> nth_error (buckets u) i = Some o -> get_bucket h m i = Done (enc o).
Proof.
  intros R E. unfold get_bucket. eapply get_ok; [exact (rp_b _ _ _ R)|]. now rewrite nth_error_map, E.
Qed.

Lemma set_bucket_ok h m u i o : rep h m u -> i < length (buckets u) -> tight o ->
  exists h', set_bucket h m i (enc o) = Done h' /\ becomes h m h' (UMap (UMap.set_nth (buckets u) i o) (nodes u)).
Proof.
  intros R Hi Ok. unfold set_bucket. destruct (nth_error (buckets u) i) as [x|] eqn:E.
  2: { apply nth_error_None in E. lia. }
  destruct (elem_set sizeI W (h_buckets h) (mm_buckets m) (map enc (buckets u)) i (enc x) (enc o) (rp_b _ _ _ R))
    as (g & -> & Rg & Ev & Lg); [now rewrite nth_error_map, E|].
  cbn [bind]. eexists. split; [reflexivity|].
  split; [constructor; cbn [h_buckets h_nodes buckets nodes]|].
  - rewrite uset_map in Rg. exact Rg.
  - exact (rp_n _ _ _ R).
  - destruct (rp_ok _ _ _ R) as (A & B). split; [|exact B]. now apply uset_Forall.
  - split; [exact Ev|]. split; [apply evolves_refl|reflexivity].
Qed.

(** ** Lookup *)

Lemma bucket_index_ok h m u k : rep h m u -> bucket_index hash m k = computeBucketIndex hash u k.
Proof. intros R. unfold bucket_index, computeBucketIndex. now rewrite (rep_buckets _ _ _ R). Qed.

Lemma bucket_index_lt u k b : computeBucketIndex hash u k = Done b -> b < length (buckets u).
Proof.
  unfold computeBucketIndex. destruct (length (buckets u)) as [|x]; [discriminate|]. intros [= <-].
  pose proof (Z.mod_pos_bound (hash k) (Z.of_nat (S x)) ltac:(lia)). lia.
Qed.

Definition found u (i : nat) (o : option nat) : Prop :=
  i = enc o /\ tight o /\ match o with Some j => j < length (nodes u) | None => True end.

Lemma find_loop_ok fuel : forall h m u k c, rep h m u -> tight c ->
  out_rel (found u) (find_loop keqb W fuel h m k (enc c)) (find_walk keqb fuel (nodes u) k c).
Proof.
  induction fuel as [|fuel IH]; intros h m u k c R Hc; cbn [find_loop find_walk]; rewrite (enc_invalid _ Hc);
    destruct c as [i|]; cbn [enc]; try constructor; try easy.
  destruct (nth_error (nodes u) i) as [n|] eqn:E.
  - assert (i < length (nodes u)) as Hi by (apply nth_error_Some; congruence).
    rewrite (rep_size _ _ _ R). apply Nat.ltb_lt in Hi as Hi'. rewrite Hi'. cbn [assert_ bind].
    rewrite (node_at_ok _ _ _ _ R Hi). cbn [bind]. rewrite (deref_ok _ _ _ _ _ R E). cbn [bind].
    rewrite (at_some _ _ _ E). cbn [bind]. cbn [mn_key encn].
    destruct (keqb (n_key n) k).
    + constructor. now repeat split.
    + cbn [mn_next encn]. apply IH; [exact R|]. now destruct (node_ok_nth _ _ _ (rp_ok _ _ _ R) E) as (_ & _ & T).
  - unfold at_. rewrite E. apply nth_error_None in E. rewrite (rep_size _ _ _ R).
    apply Nat.ltb_ge in E. rewrite E. cbn. constructor.
Qed.

Lemma find_index_ok h m u k : rep h m u ->
  out_rel (found u) (find_index keqb hash W h m k) (findNodeIndex keqb hash u k).
Proof.
  intros R. unfold find_index, findNodeIndex. rewrite (bucket_index_ok _ _ _ _ R).
  destruct (computeBucketIndex hash u k) as [b|f] eqn:E; cbn [bind]; [|constructor].
  apply bucket_index_lt in E. rewrite (rep_buckets _ _ _ R). apply Nat.ltb_lt in E as E'. rewrite E'. cbn [assert_ bind].
  destruct (nth_error (buckets u) b) as [o|] eqn:Eo; [|apply nth_error_None in Eo; lia].
  rewrite (get_bucket_ok _ _ _ _ _ R Eo), (at_some _ _ _ Eo). cbn [bind]. rewrite (rep_size _ _ _ R).
  apply find_loop_ok; [exact R|]. eapply bucket_ok_nth; [exact (rp_ok _ _ _ R)|exact Eo].
Qed.

(** ** insertNode *)

Lemma insert_loop_ok fuel : forall h m u new i, rep h m u -> new < length (nodes u) -> new < invalid -> i < invalid ->
  out_rel (fun h' ns => becomes h m h' (UMap (buckets u) ns))
    (insert_loop W fuel h m new (ptr m new) i) (insert_walk fuel (nodes u) new i).
Proof.
  induction fuel as [|fuel IH]; intros h m u new i R Hn Hw Hi; cbn [insert_loop insert_walk].
  { assert (i =? invalid = false) as -> by (apply Nat.eqb_neq; lia). constructor. }
  assert (i =? invalid = false) as -> by (apply Nat.eqb_neq; lia).
  destruct (nth_error (nodes u) i) as [n|] eqn:E.
  - assert (i < length (nodes u)) as Hl by (apply nth_error_Some; congruence).
    rewrite (rep_size _ _ _ R). apply Nat.ltb_lt in Hl as Hl'. rewrite Hl'. cbn [assert_ bind].
    rewrite (node_at_ok _ _ _ _ R Hl). cbn [bind]. rewrite (deref_ok _ _ _ _ _ R E), (at_some _ _ _ E). cbn [bind].
    cbn [mn_next encn]. destruct (node_ok_nth _ _ _ (rp_ok _ _ _ R) E) as (T1 & T2 & T3). rewrite (enc_invalid _ T3).
    destruct (n_next n) as [j|] eqn:En.
    + apply IH; auto.
    + destruct (modify_ok h m u i n (with_next new) (set_next n (Some new)) R E) as (h1 & -> & B1).
      { reflexivity. }
      { now repeat split. }
      cbn [bind]. unfold put_next at 1. rewrite (at_some _ _ _ E). cbn [bind].
      set (ns1 := UMap.set_nth (nodes u) i (set_next n (Some new))) in *.
      destruct (nth_error ns1 new) as [n1|] eqn:E1.
      2: { apply nth_error_None in E1. unfold ns1 in E1. rewrite uset_length in E1. lia. }
      destruct B1 as (R1 & P1).
      destruct (modify_ok h1 m _ new n1 (with_prev i) (set_prev n1 (Some i)) R1 E1) as (h2 & -> & B2).
      { reflexivity. }
      { destruct (node_ok_nth _ _ _ (rp_ok _ _ _ R1) E1) as (U1 & U2 & U3). now repeat split. }
      unfold put_prev. rewrite (at_some _ _ _ E1). cbn [bind]. constructor.
      eapply becomes_trans; [split; eassumption|exact B2].
  - unfold at_. rewrite E. apply nth_error_None in E. rewrite (rep_size _ _ _ R).
    apply Nat.ltb_ge in E. rewrite E. cbn. constructor.
Qed.

Lemma rep_few' h m u : rep h m u -> nodes u <> [] -> length (nodes u) < invalid /\ length (buckets u) < W.
Proof.
  intros R N. assert (0 < W) as HW.
  { destruct (rp_n _ _ _ R) as [_ _ _ _ E|k cap [_ _ _ Hp Hf]]; [|nia].
    exfalso. apply N. destruct (nodes u); [reflexivity|discriminate]. }
  destruct (rep_few _ _ _ R HW) as (_ & B). split; [|exact B].
  pose proof (vrep_le _ _ sizeN_pos _ _ _ (rp_n _ _ _ R)) as A. pose proof (vrep_fits _ _ sizeN_pos _ _ _ (rp_n _ _ _ R) HW) as C.
  rewrite map_length in A. unfold MapMem.invalid. destruct (nodes u); [congruence|]. cbn [length] in *. nia.
Qed.

Lemma insert_node_ok h m u new : rep h m u ->
  out_rel (becomes h m) (insert_node hash W h m new) (insertNode hash u new).
Proof.
  intros R. unfold insert_node, insertNode.
  destruct (nth_error (nodes u) new) as [n|] eqn:E.
  2: { unfold at_. rewrite E. apply nth_error_None in E. rewrite (rep_size _ _ _ R).
       apply Nat.ltb_ge in E. rewrite E. cbn. constructor. }
  assert (new < length (nodes u)) as Hl by (apply nth_error_Some; congruence).
  rewrite (rep_size _ _ _ R). apply Nat.ltb_lt in Hl as Hl'. rewrite Hl'. cbn [assert_ bind].
  rewrite (node_at_ok _ _ _ _ R Hl). cbn [bind]. rewrite (deref_ok _ _ _ _ _ R E), (at_some _ _ _ E). cbn [bind].
  rewrite (bucket_index_ok _ _ _ _ R). cbn [mn_key encn].
  destruct (rep_few' _ _ _ R) as (Fn & Fb). { intros N. rewrite N in Hl. cbn in Hl. lia. }
  destruct (computeBucketIndex hash u (n_key n)) as [b|f] eqn:Eb; cbn [bind]; [|constructor].
  apply bucket_index_lt in Eb. rewrite (rep_buckets _ _ _ R). apply Nat.ltb_lt in Eb as Eb'. rewrite Eb'. cbn [assert_ bind].
  destruct (node_ok_nth _ _ _ (rp_ok _ _ _ R) E) as (T1 & T2 & T3).
  assert (Tb : tight (Some b)) by (cbn; unfold MapMem.invalid; lia).
  destruct (modify_ok h m u new n (with_bucket b) (Node (n_key n) (n_val n) (Some b) (n_prev n) (n_next n)) R E)
    as (h1 & -> & B1); [reflexivity|now repeat split|]. cbn [bind].
  destruct B1 as (R1 & P1).
  destruct (modify_ok h1 m _ new _ (with_next invalid) (Node (n_key n) (n_val n) (Some b) (n_prev n) None) R1
              (uset_nth_eq _ _ _ Hl)) as (h2 & -> & R2 & P2); [reflexivity|now repeat split|].
  cbn [bind buckets nodes] in *. rewrite uset_twice in R2.
  destruct (modify_ok h2 m _ new _ (with_prev invalid) (Node (n_key n) (n_val n) (Some b) None None) R2
              (uset_nth_eq _ _ _ Hl)) as (h3 & -> & R3 & P3); [reflexivity|now repeat split|].
  cbn [bind buckets nodes] in *. rewrite uset_twice in R3.
  assert (P : inplace h m h3) by (eapply inplace_trans; [|exact P3]; eapply inplace_trans; eassumption).
  destruct (nth_error (buckets u) b) as [o|] eqn:Eo; [|apply nth_error_None in Eo; lia].
  rewrite (get_bucket_ok h3 m (UMap (buckets u) _) b o R3 Eo), (at_some _ _ _ Eo). cbn [bind].
  pose proof (bucket_ok_nth _ _ _ (rp_ok _ _ _ R) Eo) as To. rewrite (enc_invalid _ To).
  destruct o as [i|].
  - match goal with |- context [insert_walk _ ?ns _ _] => set (ns' := ns) in * end.
    assert (Ln : length ns' = length (nodes u)) by (unfold ns'; apply uset_length). rewrite Ln.
    rewrite <- (bind_done (insert_loop W _ _ _ _ _ _)).
    eapply out_bind; [apply (insert_loop_ok _ h3 m (UMap (buckets u) ns') new i R3); cbn [nodes]; [lia|lia|exact To]|].
    intros h4 ns4 B4. cbn [buckets] in B4. constructor.
    eapply becomes_trans; [split; [exact R3|exact P]|exact B4].
  - destruct (set_bucket_ok h3 m (UMap (buckets u) (UMap.set_nth (nodes u) new (Node (n_key n) (n_val n) (Some b) None None)))
                b (Some new) R3) as (h4 & E4 & B4); [exact Eb|cbn; lia|]. cbn [enc] in E4. rewrite E4. constructor.
    eapply becomes_trans; [split; [exact R3|exact P]|exact B4].
Qed.

(** ** rehash *)

Lemma reset_loop_ok todo : forall h m l done,
  vrepB (h_buckets h) (mm_buckets m) (repeat invalid done ++ l) -> length l = todo ->
  exists h', reset_loop W todo done h m = Done h' /\
    vrepB (h_buckets h') (mm_buckets m) (repeat invalid (done + todo)) /\
    evolves (h_buckets h) (owner_of (mm_buckets m)) (h_buckets h') (owner_of (mm_buckets m)) /\
    h_nodes h' = h_nodes h.
Proof.
  induction todo as [|t IH]; intros h m l done R L; cbn [reset_loop].
  - destruct l; [|discriminate]. exists h. rewrite app_nil_r in R. rewrite Nat.add_0_r.
    split; [reflexivity|]. split; [exact R|]. split; [apply evolves_refl|reflexivity].
  - destruct l as [|x l]; [discriminate|]. unfold set_bucket.
    destruct (elem_set sizeI W (h_buckets h) (mm_buckets m) (repeat invalid done ++ x :: l) done x invalid R)
      as (g & -> & Rg & Ev & _).
    { rewrite nth_error_app2; rewrite repeat_length; [|lia]. now rewrite Nat.sub_diag. }
    cbn [bind].
    assert (E : UMap.set_nth (repeat invalid done ++ x :: l) done invalid = repeat invalid (S done) ++ l).
    { rewrite <- set_nth_same_fun. rewrite <- (repeat_length invalid done) at 2. rewrite set_nth_app. cbn [Mem.set_nth].
      change (repeat invalid (S done)) with (invalid :: repeat invalid done). rewrite repeat_cons, <- app_assoc. reflexivity. }
    rewrite E in Rg. destruct (IH (MHeap g (h_nodes h)) m l (S done) Rg) as (h' & -> & R' & Ev' & N').
    { now injection L. }
    exists h'. split; [reflexivity|]. replace (done + S t) with (S done + t) by lia. split; [exact R'|].
    split; [|exact N']. eapply evolves_trans; [exact Ev|exact Ev'].
Qed.

Lemma rehash_nodes_ok todo : forall i h m u, rep h m u ->
  out_rel (becomes h m) (rehash_nodes hash W todo i h m) (rehash_loop hash todo i u).
Proof.
  induction todo as [|t IH]; intros i h m u R; cbn [rehash_nodes rehash_loop].
  - constructor. now apply becomes_refl.
  - eapply out_bind; [apply insert_node_ok, R|]. intros h1 u1 B1.
    pose proof (IH (S i) h1 m u1 (proj1 B1)) as H. revert H. 
    destruct (rehash_nodes hash W t (S i) h1 m), (rehash_loop hash t (S i) u1); intros H; inversion H; subst; constructor.
    eapply becomes_trans; eassumption.
Qed.

Lemma map_repeat {A B} (f : A -> B) x (n : nat) : map f (repeat x n) = repeat (f x) n.
Proof. induction n as [|n IH]; [reflexivity|]. cbn. now rewrite IH. Qed.

Definition rehashed h m (r : mheap K V * mmap K V) u' : Prop :=
  let '(h', m') := r in
  rep h' m' u' /\ mm_nodes m' = mm_nodes m /\
  evolves (h_buckets h) (owner_of (mm_buckets m)) (h_buckets h') (owner_of (mm_buckets m')) /\
  evolves (h_nodes h) (owner_of (mm_nodes m)) (h_nodes h') (owner_of (mm_nodes m)) /\
  length (blocks (h_nodes h')) = length (blocks (h_nodes h)).

Lemma rehash_ok h m u (n : nat) : rep h m u -> n * sizeI < W ->
  out_rel (rehashed h m) (MapMem.rehash hash sizeI W h m n) (UMap.rehash hash u n).
Proof.
  intros R F. unfold MapMem.rehash, UMap.rehash.
  destruct (resize_vec_ok 0 (fun x => x) sizeI W sizeI_pos (h_buckets h) (mm_buckets m) _ n (rp_b _ _ _ R) F)
    as (hb & b & -> & Rb & Ev). cbn [bind fst snd].
  set (l := firstn n (map enc (buckets u)) ++ repeat 0 (n - length (map enc (buckets u)))) in *.
  assert (Ll : length l = n) by (unfold l; rewrite app_length, firstn_length, repeat_length; lia).
  unfold reset_buckets. cbn [mm_buckets mm_nodes]. rewrite (vrep_size _ _ _ _ _ Rb), Ll.
  destruct (reset_loop_ok n (MHeap hb (h_nodes h)) (MMap b (mm_nodes m)) l 0 Rb Ll) as (h2 & -> & R2 & Ev2 & N2).
  cbn [bind]. cbn [Nat.add h_buckets h_nodes mm_buckets] in *.
  assert (Rr : rep h2 (MMap b (mm_nodes m)) (UMap (repeat None n) (nodes u))).
  { constructor; cbn [mm_buckets mm_nodes buckets nodes].
    - rewrite map_repeat. exact R2.
    - rewrite N2. exact (rp_n _ _ _ R).
    - destruct (rp_ok _ _ _ R) as (_ & B). split; [|exact B]. apply Forall_forall. intros x Hx.
      apply repeat_spec in Hx. now subst x. }
  rewrite (rep_size _ _ _ R), <- (bind_done (rehash_loop hash (length (nodes u)) 0 (UMap (repeat None n) (nodes u)))).
  eapply out_bind; [apply rehash_nodes_ok, Rr|].
  intros h3 u3 (R3 & P1 & P2 & P3). constructor. cbn [mm_buckets mm_nodes] in *. rewrite N2 in *.
  split; [exact R3|]. split; [reflexivity|]. split; [|now split].
  eapply evolves_trans; [exact Ev|]. eapply evolves_trans; [exact Ev2|exact P1].
Qed.

(** ** Growing the node storage *)

Lemma constructNext_shape {X} sizeT (g : heap X) b x g' b' : constructNext sizeT g b x = Done (g', b') ->
  m_ptr b' = m_ptr b /\ length (blocks g') = length (blocks g).
Proof.
  unfold constructNext. destruct (match m_ptr b with Null => false | _ => true end); [|discriminate]. cbn [assert_ bind].
  destruct (m_size b <? m_capacity b); [|discriminate]. cbn [assert_ bind].
  destruct (m_chunkSize b =? sizeT); [|discriminate]. cbn [assert_ bind].
  destruct (load g (m_ptr b) (m_size b)) as [[|]|]; try discriminate. cbn [bind].
  unfold store. destruct (m_ptr b) as [|k o|l] eqn:Ep; try discriminate.
  destruct (find_block g k) as [cs|]; [|discriminate]. cbn [bind].
  destruct (o + m_size b <? length cs); [|discriminate]. intros [= <- <-]. cbn. split; [reflexivity|]. apply set_nth_length.
Qed.

Lemma store_shape {X} (g : heap X) p i c g' : store g p i c = Done g' -> length (blocks g') = length (blocks g).
Proof.
  unfold store. destruct p as [|k o|l]; try discriminate.
  destruct (find_block g k) as [cs|]; [|discriminate]. cbn [bind].
  destruct (o + i <? length cs); [|discriminate]. intros [= <-]. cbn. apply set_nth_length.
Qed.

Lemma move_loop_shape {X} mv sizeT n : forall (g : heap X) b nb i g' nb', move_loop mv sizeT g b nb i n = Done (g', nb') ->
  m_ptr nb' = m_ptr nb /\ length (blocks g') = length (blocks g).
Proof.
  induction n as [|n IH]; intros g b nb i g' nb'; cbn [move_loop].
  - intros [= <- <-]. auto.
  - destruct (load_value g (m_ptr b) i) as [v|]; [|discriminate]. cbn [bind].
    destruct (store g (m_ptr b) i (Some (mv v))) as [g1|] eqn:E1; [|discriminate]. cbn [bind].
    destruct (constructNext sizeT g1 nb v) as [[g2 nb2]|] eqn:E2; [|discriminate]. cbn [bind fst snd].
    intros E. apply IH in E. apply store_shape in E1. apply constructNext_shape in E2. cbn [blocks spend] in E.
    destruct E, E2. split; congruence.
Qed.

Lemma destructLast_shape {X} sizeT (g : heap X) b g' b' : destructLast sizeT g b = Done (g', b') ->
  m_ptr b' = m_ptr b /\ length (blocks g') = length (blocks g).
Proof.
  unfold destructLast. destruct (0 <? m_size b); [|discriminate]. cbn [assert_ bind].
  destruct (m_chunkSize b =? sizeT); [|discriminate]. cbn [assert_ bind].
  destruct (load_value g (m_ptr b) (m_size b - 1)); [|discriminate]. cbn [bind].
  destruct (store g (m_ptr b) (m_size b - 1) None) as [g1|] eqn:E; [|discriminate]. cbn [bind].
  destruct (0 <? m_constructed b); [|discriminate]. cbn [assert_ bind]. intros [= <- <-]. cbn.
  split; [reflexivity|]. eapply store_shape. eassumption.
Qed.

Lemma destruct_to_shape {X} sizeT fuel : forall (g : heap X) b n g' b', destruct_to sizeT fuel g b n = Done (g', b') ->
  m_ptr b' = m_ptr b /\ length (blocks g') = length (blocks g).
Proof.
  induction fuel as [|f IH]; intros g b n g' b'; cbn [destruct_to]; destruct (n <? m_size b); try discriminate;
    try (intros [= <- <-]; auto; fail).
  destruct (destructLast sizeT g b) as [[g1 b1]|] eqn:E; [|discriminate]. cbn [bind fst snd].
  intros E1. apply IH in E1. apply destructLast_shape in E. destruct E, E1. split; congruence.
Qed.

Lemma destroy_shape {X} ob (g : heap X) b g' : buffer_destroy ob g b = Done g' -> length (blocks g') = length (blocks g).
Proof.
  unfold buffer_destroy. destruct (m_constructed b =? 0); [|discriminate]. cbn [assert_ bind].
  destruct (m_ptr b) as [|k o|l]; [intros [= <-]; reflexivity| |discriminate].
  unfold free. destruct (find_block g k) as [cs|]; [|discriminate]. cbn [bind].
  destruct (negb (o =? 0)); [discriminate|]. destruct (_ && _); [discriminate|]. intros [= <-]. cbn. apply set_nth_length.
Qed.

Lemma grow_shape {X} mv sizeT (g : heap X) b n g' b' : 0 < sizeT -> 0 < n -> n * sizeT < W ->
  vec_grow mv sizeT W g b n = Done (g', b') ->
  m_ptr b' = At (length (blocks g)) 0 /\ m_capacity b' = n /\ length (blocks g') = S (length (blocks g)).
Proof.
  intros Hs Hn Hf. unfold vec_grow.
  destruct (make_vec sizeT W Hs g n Hf) as (_ & H). destruct (H Hn) as (-> & _). cbn [bind fst snd].
  destruct (move_loop mv sizeT (fst (alloc g n)) b (buf sizeT (length (blocks g)) n 0) 0 (m_size b)) as [[g1 b1]|] eqn:E1;
    [|discriminate]. cbn [bind fst snd]. apply move_loop_shape in E1.
  destruct (m_size b =? m_size b1); [|discriminate]. cbn [assert_ bind].
  destruct (destruct_to sizeT (m_size b) g1 b 0) as [[g2 b2]|] eqn:E2; [|discriminate]. cbn [bind fst snd].
  apply destruct_to_shape in E2. unfold buffer_assign_move.
  destruct (buffer_destroy true g2 b2) as [g3|] eqn:E3; [|discriminate]. cbn [bind].
  apply destroy_shape in E3. destruct (m_capacity b1 =? n) eqn:Ec; [|discriminate]. cbn [assert_ bind].
  intros [= <- <-]. apply Nat.eqb_eq in Ec. destruct E1 as (P1 & L1), E2 as (_ & L2).
  cbn [buf m_ptr alloc fst blocks] in *. rewrite app_length in L1. cbn [length] in L1.
  split; [exact P1|]. split; [exact Ec|]. lia.
Qed.

(** pushBack: where the elements are afterwards. *)
Lemma push_shape {X} mv sizeT (g : heap X) b l x g' b' : 0 < sizeT -> vrep sizeT W g b l -> 3 * length l < W ->
  (3 * S (length l) / 2) * sizeT < W -> vec_push mv sizeT W g b x = Done (g', b') ->
  if length l <? m_capacity b
  then m_ptr b' = m_ptr b /\ m_capacity b' = m_capacity b /\ length (blocks g') = length (blocks g)
  else m_ptr b' = At (length (blocks g)) 0 /\ m_capacity b' = Nat.max (S (length l)) (length l * 3 / 2) /\
       length (blocks g') = S (length (blocks g)).
Proof.
  intros Hs R HW Hf. unfold vec_push. rewrite (vrep_size _ _ _ _ _ R).
  assert (D : S (length l) <= 3 * S (length l) / 2) by (apply Nat.div_le_lower_bound; lia).
  assert (E1 : wadd W (length l) 1 = S (length l)) by (unfold wadd; rewrite Nat.mod_small; nia). rewrite E1.
  assert (E2 : wmul W (length l) 3 = length l * 3) by (unfold wmul; rewrite Nat.mod_small; lia). rewrite E2.
  assert (Ex : forall g1 b1 g' b', (_ <- assert_ (S (length l) <=? m_capacity b1) ;;
                hb1 <- constructNext sizeT g1 b1 x ;; Done (spend (fst hb1) 1, snd hb1)) = Done (g', b') ->
                m_ptr b' = m_ptr b1 /\ m_capacity b' = m_capacity b1 /\ length (blocks g') = length (blocks g1)).
  { clear. intros g1 b1 g' b'. destruct (S (length l) <=? m_capacity b1); [|discriminate]. cbn [assert_ bind].
    destruct (constructNext sizeT g1 b1 x) as [[g2 b2]|] eqn:E; [|discriminate]. cbn [bind fst snd]. intros [= <- <-].
    destruct (constructNext_shape _ _ _ _ _ _ E) as (A & B). split; [exact A|]. split; [|exact B].
    revert E. unfold constructNext. destruct (assert_ _); [|discriminate]. cbn [bind]. destruct (assert_ _); [|discriminate]. cbn [bind].
    destruct (assert_ _); [|discriminate]. cbn [bind]. destruct (load _ _ _) as [[|]|]; try discriminate. cbn [bind].
    destruct (store _ _ _ _); [|discriminate]. now intros [= <- <-]. }
  destruct (length l <? m_capacity b) eqn:Ec.
  - apply Nat.ltb_lt in Ec. assert (m_capacity b <? S (length l) = false) as -> by (apply Nat.ltb_ge; lia). cbn [bind fst snd].
    apply Ex.
  - apply Nat.ltb_ge in Ec. assert (m_capacity b <? S (length l) = true) as -> by (apply Nat.ltb_lt; lia).
    set (n := if length l * 3 / 2 <? S (length l) then S (length l) else length l * 3 / 2).
    assert (En : n = Nat.max (S (length l)) (length l * 3 / 2)).
    { unfold n. destruct (length l * 3 / 2 <? S (length l)) eqn:E; [apply Nat.ltb_lt in E|apply Nat.ltb_ge in E]; lia. }
    assert (Hn : n <= 3 * S (length l) / 2).
    { rewrite En. apply Nat.max_lub; [exact D|]. apply Nat.div_le_mono; lia. }
    destruct (vec_grow mv sizeT W g b n) as [[g1 b1]|] eqn:Eg; [|discriminate]. cbn [bind fst snd].
    apply grow_shape in Eg; [|exact Hs|lia|nia]. intros E. apply Ex in E. rewrite <- En.
    destruct E as (A & B & C), Eg as (A' & B' & C'). split; [congruence|]. split; congruence.
Qed.
(** ** The operations *)

(** The state after an operation that leaves the nodes in the same storage. *)
Definition stays h m (r : mheap K V * mmap K V) u' : Prop :=
  let '(h', m') := r in
  rep h' m' u' /\
  evolves (h_buckets h) (owner_of (mm_buckets m)) (h_buckets h') (owner_of (mm_buckets m')) /\
  evolves (h_nodes h) (owner_of (mm_nodes m)) (h_nodes h') (owner_of (mm_nodes m')) /\
  m_ptr (mm_nodes m') = m_ptr (mm_nodes m) /\ m_capacity (mm_nodes m') = m_capacity (mm_nodes m) /\
  length (blocks (h_nodes h')) = length (blocks (h_nodes h)).

Lemma stays_becomes h m h' u' : becomes h m h' u' -> stays h m (h', m) u'.
Proof. intros (R & P1 & P2 & P3). now repeat (split; try assumption). Qed.

Lemma becomes_length h m u h' u' : rep h m u -> becomes h m h' u' ->
  length (nodes u') = length (nodes u) /\ length (buckets u') = length (buckets u).
Proof.
  intros R (R' & _). split.
  - rewrite <- (rep_size _ _ _ R). symmetry. apply (rep_size _ _ _ R').
  - rewrite <- (rep_buckets _ _ _ R). symmetry. apply (rep_buckets _ _ _ R').
Qed.

Lemma nth_some {X} (l : list X) i : i < length l -> exists x, nth_error l i = Some x.
Proof. intros H. destruct (nth_error l i) as [x|] eqn:E; [now exists x|]. apply nth_error_None in E. lia. Qed.

Lemma ptr_end h m u i : rep h m u -> i < length (nodes u) -> ptr_eqb (ptr m i) (end_ m) = false.
Proof.
  intros R Hi. unfold ptr, end_. rewrite (rep_size _ _ _ R).
  destruct (rp_n _ _ _ R) as [_ _ _ _ E|k cap [-> _ _ _ _]].
  - destruct (nodes u); [cbn in Hi; lia|discriminate].
  - cbn. rewrite Nat.eqb_refl. cbn. apply Nat.eqb_neq. lia.
Qed.

Lemma end_end h m u : rep h m u -> ptr_eqb (end_ m) (end_ m) = true.
Proof.
  intros R. unfold end_. destruct (rp_n _ _ _ R) as [E _ _ _ _|k cap [-> _ _ _ _]].
  - now rewrite E.
  - cbn. now rewrite !Nat.eqb_refl.
Qed.

Lemma find_ok h m u k : rep h m u ->
  out_rel (fun p o => p = match o with Some i => ptr m i | None => end_ m end /\
                      ptr_eqb p (end_ m) = match o with Some _ => false | None => true end /\
                      match o with Some j => j < length (nodes u) | None => True end)
    (MapMem.find keqb hash W h m k) (findNodeIndex keqb hash u k).
Proof.
  intros R. unfold MapMem.find. rewrite <- (bind_done (findNodeIndex keqb hash u k)).
  eapply out_bind; [apply find_index_ok, R|]. intros i o (-> & T & L). rewrite (enc_invalid _ T).
  destruct o as [j|]; cbn [negb enc].
  - rewrite (node_at_ok _ _ _ _ R L). constructor. split; [reflexivity|]. split; [now apply (ptr_end h m u)|exact L].
  - constructor. split; [reflexivity|]. split; [now apply (end_end h m u)|exact I].
Qed.

(** What insertOrAssign leaves if the key was found at [o]. *)
Definition inserted h m u (o : option nat) (r : mheap K V * mmap K V * node_ptr) u' : Prop :=
  let '(h', m', it) := r in
  rep h' m' u' /\
  evolves (h_buckets h) (owner_of (mm_buckets m)) (h_buckets h') (owner_of (mm_buckets m')) /\
  evolves (h_nodes h) (owner_of (mm_nodes m)) (h_nodes h') (owner_of (mm_nodes m')) /\
  it = ptr m' (match o with Some i => i | None => length (nodes u) end) /\
  match o with
  | Some i => m' = m /\ i < length (nodes u) /\ length (blocks (h_nodes h')) = length (blocks (h_nodes h))
  | None =>
      if length (nodes u) <? m_capacity (mm_nodes m)
      then m_ptr (mm_nodes m') = m_ptr (mm_nodes m) /\ m_capacity (mm_nodes m') = m_capacity (mm_nodes m) /\
           length (blocks (h_nodes h')) = length (blocks (h_nodes h))
      else m_ptr (mm_nodes m') = At (length (blocks (h_nodes h))) 0 /\
           m_capacity (mm_nodes m') = Nat.max (S (length (nodes u))) (length (nodes u) * 3 / 2) /\
           length (blocks (h_nodes h')) = S (length (blocks (h_nodes h)))
  end.

Local Notation insert_m := (insert_or_assign keqb hash movedK movedV sizeN sizeI W).

Lemma insert_ok h m u k v : rep h m u -> (3 * S (length (nodes u)) / 2) * sizeN < W ->
  match findNodeIndex keqb hash u k with
  | Fault f => insert_m h m k v = Fault f /\ insertOrAssign keqb hash u k v = Fault f
  | Done o => out_rel (inserted h m u o) (insert_m h m k v) (insertOrAssign keqb hash u k v)
  end.
Proof.
  intros R F. unfold insert_or_assign, insertOrAssign.
  pose proof (find_ok h m u k R) as Hf. revert Hf.
  destruct (MapMem.find keqb hash W h m k) as [p|f], (findNodeIndex keqb hash u k) as [o|f'];
    intros Hf; inversion Hf as [? ? H1|]; subst; [|split; reflexivity]. clear Hf.
  destruct H1 as (-> & E & L). cbn [bind]. rewrite E.
  set (n := length (nodes u)) in *.
  assert (D : S n <= 3 * S n / 2) by (apply Nat.div_le_lower_bound; lia).
  assert (B3 : 3 * S n < W) by nia.
  destruct o as [i|]; cbn [negb].
  - destruct (nth_some _ _ L) as (x & Ex). rewrite (at_some _ _ _ Ex). cbn [bind].
    destruct (modify_ok h m u i x (with_val v) (set_val x v) R Ex) as (h' & -> & R' & P1 & P2 & P3).
    { reflexivity. }
    { exact (node_ok_nth _ _ _ (rp_ok _ _ _ R) Ex). }
    cbn [bind]. constructor. now repeat (split; try assumption).
  - rewrite (rep_size _ _ _ R), (rep_buckets _ _ _ R). fold n.
    assert (E1 : wadd W n 1 = S n) by (unfold wadd; rewrite Nat.mod_small; lia).
    assert (E2 : wmul W n 2 = n * 2) by (unfold wmul; rewrite Nat.mod_small; lia).
    rewrite E1, E2.
    eapply out_bind with (R := rehashed h m).
    { destruct (load_exceeds (S n) (length (buckets u))).
      - apply rehash_ok; [exact R|]. nia.
      - constructor. unfold rehashed. split; [exact R|]. split; [reflexivity|].
        split; [apply evolves_refl|]. split; [apply evolves_refl|reflexivity]. }
    intros [h1 m1] u1 (R1 & Em & Eb & En & Ln). rewrite Em.
    rewrite (rep_size _ _ _ R). fold n.
    assert (L1 : length (nodes u1) = n).
    { rewrite <- (rep_size _ _ _ R1), Em. apply (rep_size _ _ _ R). }
    rewrite L1.
    destruct (push_ok (moved_node movedK movedV) sizeN W sizeN_pos (h_nodes h1) (mm_nodes m1) (map encn (nodes u1))
                (MNode k v invalid invalid invalid) (rp_n _ _ _ R1)) as (g & b & Ep & Rg & Ev & _).
    { now rewrite map_length, L1. }
    pose proof (push_shape (moved_node movedK movedV) sizeN (h_nodes h1) (mm_nodes m1) (map encn (nodes u1))
                (MNode k v invalid invalid invalid) g b sizeN_pos (rp_n _ _ _ R1)) as Sh.
    rewrite map_length, L1 in Sh. specialize (Sh ltac:(lia) F Ep). rewrite Em in Ep, Sh, Ev. rewrite Ep. cbn [bind fst snd].
    assert (R2 : rep (MHeap (h_buckets h1) g) (MMap (mm_buckets m1) b)
                   (UMap (buckets u1) (nodes u1 ++ [Node k v None None None]))).
    { constructor; cbn [h_buckets h_nodes mm_buckets mm_nodes buckets nodes].
      - exact (rp_b _ _ _ R1).
      - rewrite map_app. exact Rg.
      - destruct (rp_ok _ _ _ R1) as (A & B). split; [exact A|]. apply Forall_app. split; [exact B|].
        constructor; [|constructor]. now repeat split. }
    pose proof (insert_node_ok _ _ _ n R2) as Hi. revert Hi.
    destruct (insert_node hash W (MHeap (h_buckets h1) g) (MMap (mm_buckets m1) b) n) as [h3|];
    match goal with |- context [insertNode hash ?x n] => destruct (insertNode hash x n) as [u3|] end;
      intros Hi; inversion Hi as [? ? B3'|]; subst; cbn [bind]; [|constructor].
    destruct (becomes_length _ _ _ _ _ R2 B3') as (L3 & _). cbn [nodes] in L3. rewrite app_length in L3. cbn in L3.
    destruct B3' as (R3 & P1 & P2 & P3). cbn [h_buckets h_nodes mm_buckets mm_nodes] in P1, P2, P3.
    rewrite (node_at_ok _ _ _ _ R3) by lia. cbn [bind].
    constructor. unfold inserted. cbn [mm_buckets mm_nodes]. split; [exact R3|].
    split; [eapply evolves_trans; [exact Eb|exact P1]|].
    split; [eapply evolves_trans; [exact En|]; eapply evolves_trans; [exact Ev|exact P2]|].
    split; [reflexivity|]. fold n. rewrite Ln in Sh.
    destruct (n <? m_capacity (mm_nodes m)); destruct Sh as (A & B & C); repeat (split; try assumption); congruence.
Qed.

(** *** clear, destruction, construction *)

Lemma clear_map_ok h m u : rep h m u -> exists r, MapMem.clear sizeN W h m = Done r /\ stays h m r (UMap.clear u).
Proof.
  intros R. unfold MapMem.clear.
  destruct (clear_ok sizeN W sizeN_pos (h_nodes h) (mm_nodes m) _ (rp_n _ _ _ R)) as (g & b & E & Rg & Ev & Ho & Hc & _).
  assert (Sh : m_ptr b = m_ptr (mm_nodes m) /\ length (blocks g) = length (blocks (h_nodes h)))
    by (eapply destruct_to_shape; exact E).
  rewrite E. cbn [bind fst snd]. unfold reset_buckets. cbn [mm_buckets]. rewrite (rep_buckets _ _ _ R).
  destruct (reset_loop_ok (length (buckets u)) (MHeap (h_buckets h) g) (MMap (mm_buckets m) b) (map enc (buckets u)) 0
              (rp_b _ _ _ R) (map_length _ _)) as (h' & -> & R' & Ev' & N').
  cbn [bind]. eexists. split; [reflexivity|]. cbn [Nat.add h_nodes h_buckets mm_buckets mm_nodes] in *.
  unfold stays. rewrite N'. cbn [mm_nodes mm_buckets]. destruct Sh as (S1 & S2).
  split; [|split; [exact Ev'|split; [exact Ev|now repeat split]]].
  constructor; cbn [mm_buckets mm_nodes buckets nodes UMap.clear map].
  - rewrite map_repeat. exact R'.
  - rewrite N'. exact Rg.
  - split; [|constructor]. apply Forall_forall. intros x Hx. apply repeat_spec in Hx. now subst x.
Qed.

Lemma destroy_map_ok h m u : rep h m u -> exists h', MapMem.destroy sizeN sizeI h m = Done h' /\
  evolves (h_buckets h) (owner_of (mm_buckets m)) (h_buckets h') None /\
  evolves (h_nodes h) (owner_of (mm_nodes m)) (h_nodes h') None /\
  length (blocks (h_nodes h')) = length (blocks (h_nodes h)).
Proof.
  intros R. unfold MapMem.destroy.
  destruct (destroy_vec_ok sizeN W sizeN_pos (h_nodes h) (mm_nodes m) _ (rp_n _ _ _ R)) as (g & E & Ev).
  destruct (destroy_vec_ok sizeI W sizeI_pos (h_buckets h) (mm_buckets m) _ (rp_b _ _ _ R)) as (g' & E' & Ev').
  rewrite E, E'. cbn [bind]. eexists. split; [reflexivity|]. cbn [h_buckets h_nodes].
  split; [exact Ev'|]. split; [exact Ev|]. clear - E. revert E. unfold vec_destroy.
  destruct (vec_clear sizeN (h_nodes h) (mm_nodes m)) as [[g1 b1]|] eqn:Ec; [|discriminate]. cbn [bind fst snd].
  intros Ed. apply destroy_shape in Ed. apply destruct_to_shape in Ec. destruct Ec. congruence.
Qed.

Lemma make_ok h : sizeN < W -> exists h' m', MapMem.make hash sizeN sizeI W h = Done (h', m') /\
  rep h' m' empty_map /\ evolves (h_buckets h) None (h_buckets h') (owner_of (mm_buckets m')) /\
  evolves (h_nodes h) None (h_nodes h') None /\ owner_of (mm_nodes m') = None /\ m_capacity (mm_nodes m') = 0 /\
  length (blocks (h_nodes h')) = length (blocks (h_nodes h)).
Proof.
  intros HW. unfold MapMem.make, vec_make.
  destruct (make_vec sizeI W sizeI_pos (h_buckets h) 0) as (E & _); [lia|]. rewrite (E eq_refl). clear E. cbn [bind fst snd].
  destruct (make_vec sizeN W sizeN_pos (h_nodes h) 0) as (E & _); [lia|]. rewrite (E eq_refl). clear E. cbn [bind fst snd].
  set (m0 := MMap (Buffer Null 0 sizeI 0 0) (Buffer Null 0 sizeN 0 0)).
  assert (R : rep (MHeap (h_buckets h) (h_nodes h)) m0 (UMap [] [])).
  { constructor; [apply vrep_null; reflexivity..|]. split; constructor. }
  pose proof (rehash_ok _ _ _ 1 R ltac:(lia)) as H. cbn [UMap.rehash nodes length rehash_loop repeat] in H.
  unfold UMap.rehash in H. cbn [nodes length rehash_loop repeat] in H.
  inversion H as [[h' m'] ? (R' & Em & Eb & En & Ln) E1 E2|]; subst.
  exists h', m'. split; [reflexivity|]. split; [exact R'|]. cbn [h_buckets h_nodes m0 mm_buckets mm_nodes] in *.
  split; [exact Eb|]. split; [exact En|]. rewrite Em. now repeat split.
Qed.
End MapMemProofs.
