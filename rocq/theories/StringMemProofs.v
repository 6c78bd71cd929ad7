(** The String model refines StringMemSpec.v. *)
From Coq Require Import Ascii Bool PeanoNat Lia List.
From Verif Require Import Util Base Mem MemProofs StringMem StringMemSpec.
Import ListNotations.

Section StringMemProofs.
Variable W : nat.
Implicit Types (h : mem) (s : str) (l : list (option byte)) (cs : list (cell byte)).

(** The cells [cs] hold the bytes [l]. *)
Definition shows (l : list (option byte)) (cs : list (cell byte)) : Prop :=
  forall i b, nth_error l i = Some (Some b) -> nth_error cs i = Some (Some b).

Record holds (h : mem) (s : str) (l : list (option byte)) (k : nat) (cs : list (cell byte))
  : Prop := Holds {
  hd_ptr : m_ptr s = At k 0;
  hd_live : live h k cs;
  hd_cap : m_capacity s = length cs;
  hd_fits : length cs < W;
  hd_chunk : m_chunkSize s = 1;
  hd_count : m_constructed s = 0;
  hd_size : m_size s = S (length l) \/ (m_size s = 0 /\ l = []);
  hd_shows : shows l cs;
  hd_lt : length l < length cs;
  hd_end : m_size s <> 0 -> nth_error cs (length l) = Some (Some NUL)
}.

(** The string [s] in heap [h] has the bytes [l]; it owns block [o]. *)
Inductive rep (h : mem) (s : str) : list (option byte) -> option nat -> Prop :=
| rep_null : m_ptr s = Null -> m_capacity s = 0 -> m_size s = 0 -> m_constructed s = 0 ->
             rep h s [] None
| rep_at : forall l k cs, holds h s l k cs -> rep h s l (Some k).

Lemma holds_lt : forall h s l k cs, holds h s l k cs -> length l < length cs.
Proof. intros h s l k cs H. apply (hd_lt _ _ _ _ _ H). Qed.

Lemma holds_length : forall h s l k cs, holds h s l k cs -> str_length s = length l.
Proof.
  intros h s l k cs H. unfold str_length. destruct (hd_size _ _ _ _ _ H) as [->|(-> & ->)].
  - cbn. lia.
  - reflexivity.
Qed.

Lemma rep_length : forall h s l o, rep h s l o -> str_length s = length l.
Proof.
  intros h s l o [H1 H2 H3 H4|l' k cs H].
  - unfold str_length. now rewrite H3.
  - eapply holds_length, H.
Qed.

Lemma holds_validate : forall h s l k cs, holds h s l k cs -> validate h s = Done tt.
Proof.
  intros h s l k cs H. unfold validate, str_end. rewrite (holds_length _ _ _ _ _ H).
  destruct (hd_size _ _ _ _ _ H) as [Hs|(Hs & ->)]; rewrite Hs; [|reflexivity].
  cbn [Nat.ltb Nat.leb Nat.eqb negb assert_ bind].
  rewrite (hd_ptr _ _ _ _ _ H). cbn [advance Nat.add].
  rewrite (load_value_at _ _ _ _ cs NUL).
  - reflexivity.
  - apply (hd_live _ _ _ _ _ H).
  - rewrite Nat.add_0_r. apply (hd_end _ _ _ _ _ H). rewrite Hs. discriminate.
Qed.

Lemma rep_validate : forall h s l o, rep h s l o -> validate h s = Done tt.
Proof.
  intros h s l o [H1 H2 H3 H4|l' k cs H].
  - unfold validate. now rewrite H3.
  - eapply holds_validate, H.
Qed.

Lemma wadd_small : forall a b, a + b < W -> wadd W a b = a + b.
Proof. intros a b H. unfold wadd. apply Nat.mod_small. assumption. Qed.

Lemma wmul_1 : forall a, a < W -> wmul W a 1 = a.
Proof. intros a H. unfold wmul. rewrite Nat.mul_1_r. apply Nat.mod_small. assumption. Qed.

Lemma make_ok : forall h n, 0 < n -> n < W ->
  buffer_make W h n 1 =
  Done (fst (alloc h n), Buffer (At (length (blocks h)) 0) n 1 0 0).
Proof.
  intros h n H1 H2. unfold buffer_make. rewrite wmul_1 by assumption.
  apply Nat.ltb_lt in H1. rewrite H1. rewrite Nat.div_1_r. reflexivity.
Qed.

Lemma make_0 : forall h, 0 < W -> buffer_make W h 0 1 = Done (h, Buffer Null 0 1 0 0).
Proof. intros h H. unfold buffer_make. rewrite wmul_1 by assumption. reflexivity. Qed.

Lemma shows_firstn : forall l cs n, shows l cs -> n <= length l -> length l <= length cs ->
  shows l (firstn (length l) cs).
Proof.
  intros l cs n H Hn Hl i b Hb. rewrite nth_error_firstn_lt; [auto|].
  apply nth_error_Some. congruence.
Qed.

Lemma copy_from : forall h b cs p n ds cap,
  live h b cs -> length cs = cap -> cap < W -> n <= cap -> source h (Some b) p n ds ->
  buffer_copy W h (Buffer (At b 0) cap 1 0 0) p n =
  Done (if n =? 0 then h else spend (set_block h b (Some (splice cs 0 ds))) n).
Proof.
  intros h b cs p n ds cap H1 H2 H3 H4 H5. unfold buffer_copy.
  destruct (n =? 0) eqn:Hn; [reflexivity|].
  assert (assert_ (match p with Null => false | _ => true end) = Done tt) as ->.
  { destruct p; cbn in H5; [contradiction|reflexivity|reflexivity]. }
  cbn [bind]. unfold capacityBytes. cbn [m_capacity m_chunkSize m_ptr].
  rewrite wmul_1 by assumption. apply Nat.leb_le in H4 as H4'. rewrite H4'. cbn [assert_ bind].
  apply memcpy_from; [assumption|lia|assumption].
Qed.

(** *** reserve *)
Lemma reserve_ok : forall h s l o n,
  rep h s l o -> S n < W ->
  exists h' s' k,
    str_reserve W h s n = Done (h', s') /\ rep h' s' l (Some k) /\
    n < m_capacity s' /\ m_size s' = m_size s /\ evolves h o h' (Some k) /\
    (n < m_capacity s -> h' = h /\ s' = s /\ o = Some k) /\
    (m_capacity s <= n ->
       cost h' = cost h + length l /\ m_capacity s' = S n /\
       forall k0, o = Some k0 -> nth_error (blocks h') k0 = Some None).
Proof.
  intros h s l o n Hr Hn. unfold str_reserve.
  rewrite (rep_validate _ _ _ _ Hr). cbn [bind].
  rewrite wadd_small by lia. rewrite (rep_length _ _ _ _ Hr).
  destruct (m_capacity s <? n + 1) eqn:Hc.
  2:{ apply Nat.ltb_ge in Hc. destruct Hr as [H1 H2 H3 H4|l k cs H]; [lia|].
      exists h, s, k. cbn [bind fst snd].
      rewrite (holds_validate _ _ _ _ _ H). cbn [bind].
      split; [reflexivity|]. split; [econstructor; eassumption|].
      split; [lia|]. split; [reflexivity|]. split; [apply evolves_refl|].
      split; [auto|intros; lia]. }
  apply Nat.ltb_lt in Hc.
  rewrite (make_ok h (n + 1)) by lia. cbn [bind fst snd m_ptr].
  set (k := length (blocks h)). set (h0 := fst (alloc h (n + 1))).
  assert (live h0 k (repeat None (n + 1))) as Hk by apply live_alloc_new.
  assert (evolves h None h0 (Some k)) as E0 by apply evolves_alloc.
  (* the copy of the old bytes *)
  assert (exists ds, length ds = length l /\ shows l ds /\ length l < n + 1 /\
            source h0 (Some k) (match m_ptr s with Null => Ext [] | p => p end) (length l) ds /\
            (m_ptr s = Null -> length l = 0) /\
            m_size s <= n + 1) as (ds & Hd1 & Hd2 & Hd3 & Hd4 & Hd5 & Hd6).
  { destruct Hr as [H1 H2 H3 H4|l k0 cs H].
    - exists []. rewrite H1, H3. cbn. repeat split; auto; try lia. intros [|i] b Hb; discriminate.
    - pose proof (holds_lt _ _ _ _ _ H) as Hlt. pose proof (hd_cap _ _ _ _ _ H) as Hcap.
      pose proof (hd_size _ _ _ _ _ H) as Hsz.
      exists (firstn (length l) cs). rewrite firstn_length.
      split; [lia|]. split; [apply shows_firstn with 0; [apply (hd_shows _ _ _ _ _ H)|lia|lia]|].
      split; [lia|]. rewrite (hd_ptr _ _ _ _ _ H). split; [|split; [discriminate|destruct Hsz as [|(Hz & _)]; lia]].
      cbn. pose proof (hd_live _ _ _ _ _ H) as Hlv. pose proof (live_lt _ _ _ Hlv).
      destruct (proj2 E0 _ _ Hlv) as (Hlv' & Hne); [discriminate|].
      split; [assumption|]. exists cs. split; [assumption|]. split; [lia|reflexivity]. }
  assert (buffer_copy W h0 (Buffer (At k 0) (n + 1) 1 0 0) (m_ptr s) (length l) =
          Done (if length l =? 0 then h0
                else spend (set_block h0 k (Some (splice (repeat None (n + 1)) 0 ds))) (length l)))
    as ->.
  { destruct (m_ptr s) as [|b off|e] eqn:Hp.
    - rewrite Hd5 by reflexivity. reflexivity.
    - apply copy_from; [assumption|apply repeat_length|lia|lia|assumption].
    - apply copy_from; [assumption|apply repeat_length|lia|lia|assumption]. }
  cbn [bind].
  set (h1 := if length l =? 0 then h0 else _).
  assert (live h1 k (splice (repeat None (n + 1)) 0 ds)) as Hk1.
  { unfold h1. destruct (length l =? 0) eqn:Hl0.
    - apply Nat.eqb_eq in Hl0. destruct ds; [|cbn in Hd1; lia]. rewrite splice_nil. assumption.
    - apply live_spend. eapply live_set_block_eq. eassumption. }
  assert (evolves h None h1 (Some k)) as E1.
  { unfold h1. destruct (length l =? 0); [assumption|].
    apply evolves_spend. eapply evolves_trans; [eassumption|].
    eapply evolves_write. eassumption. }
  assert (cost h1 = cost h + length l) as C1.
  { unfold h1. destruct (length l =? 0) eqn:Hl0; [apply Nat.eqb_eq in Hl0; cbn; lia|].
    reflexivity. }
  assert (length (splice (repeat (@None byte) (n + 1)) 0 ds) = n + 1) as Hsl.
  { rewrite splice_length; rewrite repeat_length; lia. }
  rewrite (store_at _ _ _ _ _ _ Hk1) by lia. cbn [bind Nat.add].
  unfold buffer_resize. cbn [m_capacity m_ptr m_chunkSize m_constructed].
  apply Nat.leb_le in Hd6 as Hd6'. rewrite Hd6'. cbn [assert_ bind].
  unfold buffer_assign_move.
  set (cs2 := set_nth (splice (repeat None (n + 1)) 0 ds) (length l) (Some NUL)).
  set (h2 := set_block h1 k (Some cs2)).
  set (s' := Buffer (At k 0) (n + 1) 1 (m_size s) 0).
  assert (live h2 k cs2) as Hk2 by (eapply live_set_block_eq; eassumption).
  assert (evolves h None h2 (Some k)) as E2
    by (eapply evolves_trans; [eassumption|]; eapply evolves_write; eassumption).
  assert (forall h3, live h3 k cs2 -> holds h3 s' l k cs2) as Hh.
  { intros h3 Hl3. constructor; try reflexivity; try assumption.
    - unfold cs2. rewrite set_nth_length. symmetry. assumption.
    - unfold cs2. rewrite set_nth_length. lia.
    - cbn. destruct Hr as [H1 H2 H3 H4|l k0 cs H]; [right; auto|apply (hd_size _ _ _ _ _ H)].
    - intros i b Hb. assert (i < length l) by (apply nth_error_Some; congruence).
      unfold cs2. rewrite nth_error_set_nth_neq by lia.
      change i with (0 + i). rewrite splice_inside by lia. apply Hd2. assumption.
    - unfold cs2. rewrite set_nth_length. lia.
    - intros _. unfold cs2. apply nth_error_set_nth_eq. lia. }
  destruct Hr as [H1 H2 H3 H4|l k0 cs H].
  - unfold buffer_destroy. rewrite H4, H1. cbn [Nat.eqb assert_ bind fst snd].
    rewrite (holds_validate _ _ _ _ _ (Hh h2 Hk2)). cbn [bind].
    exists h2, s', k. split; [reflexivity|]. split; [econstructor; apply Hh; assumption|].
    split; [cbn; lia|]. split; [reflexivity|]. split; [assumption|].
    split; [intros; lia|]. intros _. split; [assumption|]. split; [cbn; lia|discriminate].
  - pose proof (hd_live _ _ _ _ _ H) as Hlv.
    destruct (evolves_swap_free _ (Some k0) _ _ E2 _ Hlv) as (Hl2 & Hne & E3).
    unfold buffer_destroy. rewrite (hd_count _ _ _ _ _ H), (hd_ptr _ _ _ _ _ H).
    cbn [Nat.eqb assert_ bind free].
    rewrite (find_block_live _ _ _ Hl2). cbn [bind Nat.eqb negb andb fst snd].
    assert (live (set_block h2 k0 None) k cs2) as Hk3
      by (apply live_set_block_neq; [congruence|assumption]).
    rewrite (holds_validate _ _ _ _ _ (Hh _ Hk3)). cbn [bind].
    exists (set_block h2 k0 None), s', k. split; [reflexivity|].
    split; [econstructor; apply Hh; assumption|].
    split; [cbn; lia|]. split; [reflexivity|]. split; [assumption|].
    split; [intros; lia|]. intros _. split; [assumption|]. split; [cbn; lia|].
    intros k1 E. injection E as <-. eapply freed_set_block. eassumption.
Qed.

(** *** resize *)
Definition resized (l : list (option byte)) (n : nat) : list (option byte) :=
  firstn n l ++ repeat None (n - length l).

Lemma resized_length : forall l n, length (resized l n) = n.
Proof. intros l n. unfold resized. rewrite app_length, firstn_length, repeat_length. lia. Qed.

Lemma nth_error_repeat_None : forall (X : Type) n i (x : X),
  nth_error (repeat (@None X) n) i = Some (Some x) -> False.
Proof.
  induction n as [|n IH]; intros [|i] x H; cbn in H; try discriminate. eauto.
Qed.

Lemma resized_nth : forall l n i b,
  nth_error (resized l n) i = Some (Some b) -> i < n /\ nth_error l i = Some (Some b).
Proof.
  intros l n i b H. assert (i < n) as Hi.
  { rewrite <- (resized_length l n). apply nth_error_Some. congruence. }
  split; [assumption|]. unfold resized in H.
  destruct (Nat.lt_ge_cases i (length (firstn n l))) as [Hl|Hl].
  - rewrite nth_error_app1 in H by assumption. now rewrite nth_error_firstn_lt in H.
  - rewrite nth_error_app2 in H by assumption. exfalso. eapply nth_error_repeat_None, H.
Qed.

Lemma resize_ok : forall h s l o n,
  rep h s l o -> S n < W ->
  exists h' s' k cs',
    str_resize W h s n = Done (h', s') /\ holds h' s' (resized l n) k cs' /\
    m_size s' = S n /\ evolves h o h' (Some k) /\
    (n < m_capacity s -> o = Some k /\ m_ptr s' = m_ptr s /\ m_capacity s' = m_capacity s /\
                         cost h' = cost h) /\
    (m_capacity s <= n ->
       cost h' = cost h + length l /\ m_capacity s' = S n /\
       forall k0, o = Some k0 -> nth_error (blocks h') k0 = Some None).
Proof.
  intros h s l o n Hr Hn. unfold str_resize.
  rewrite (rep_validate _ _ _ _ Hr). cbn [bind].
  destruct (reserve_ok h s l o n Hr Hn) as (h1 & s1 & k & -> & Hr1 & Hc1 & Hs1 & E1 & Hsame & Hnew).
  cbn [bind fst snd]. rewrite wadd_small by lia.
  destruct (n + 1 <=? m_capacity s1) eqn:Hle; [|apply Nat.leb_gt in Hle; lia].
  cbn [assert_ bind]. unfold buffer_resize. rewrite Hle. cbn [assert_ bind m_ptr m_size].
  inversion Hr1 as [|l0 k0 cs H]; subst l0 k0.
  pose proof (hd_cap _ _ _ _ _ H) as Hcap. pose proof (hd_live _ _ _ _ _ H) as Hlv.
  rewrite (hd_ptr _ _ _ _ _ H).
  rewrite (store_at _ _ _ _ _ _ Hlv) by (cbn; lia). cbn [bind Nat.add].
  rewrite Nat.eqb_refl. cbn [assert_ bind].
  set (cs' := set_nth cs n (Some NUL)).
  set (h' := set_block h1 k (Some cs')).
  set (s' := Buffer _ _ _ _ _).
  assert (live h' k cs') as Hlv' by (eapply live_set_block_eq; eassumption).
  assert (holds h' s' (resized l n) k cs') as Hh.
  { constructor; try assumption.
    - reflexivity.
    - unfold cs'. rewrite set_nth_length. assumption.
    - unfold cs'. rewrite set_nth_length. apply (hd_fits _ _ _ _ _ H).
    - apply (hd_chunk _ _ _ _ _ H).
    - apply (hd_count _ _ _ _ _ H).
    - left. rewrite resized_length. cbn. lia.
    - intros i b Hb. apply resized_nth in Hb as (Hi & Hb). unfold cs'.
      rewrite nth_error_set_nth_neq by lia. apply (hd_shows _ _ _ _ _ H). assumption.
    - unfold cs'. rewrite set_nth_length, resized_length. lia.
    - intros _. rewrite resized_length. apply nth_error_set_nth_eq. lia. }
  rewrite (holds_validate _ _ _ _ _ Hh). cbn [bind].
  exists h', s', k, cs'. split; [reflexivity|]. split; [assumption|].
  split; [cbn; lia|]. split; [|split].
  - eapply evolves_trans; [eassumption|]. eapply evolves_write. eassumption.
  - intros Hlt. destruct (Hsame Hlt) as (-> & -> & ->). split; [reflexivity|].
    split; [symmetry; apply (hd_ptr _ _ _ _ _ H)|]. auto.
  - intros Hge. destruct (Hnew Hge) as (Hcost & Hcap1 & Hfree).
    split; [assumption|]. split; [assumption|].
    intros k0 Hk0. unfold h'. cbn. rewrite nth_error_set_nth_neq; [auto|].
    intros <-. specialize (Hfree k Hk0). unfold live in Hlv. congruence.
Qed.

(** *** Copying [ds] over the bytes at position [len] of a string *)
Lemma write_ok : forall h s l k cs len ds m,
  holds h s l k cs -> shows m ds -> length m = length ds ->
  len + length ds <= length l ->
  holds (set_block h k (Some (splice cs len ds))) s
        (firstn len l ++ m ++ skipn (len + length ds) l) k (splice cs len ds).
Proof.
  intros h s l k cs len ds m H Hm Hlm Hlen.
  pose proof (holds_lt _ _ _ _ _ H) as Hlt.
  assert (length (firstn len l ++ m ++ skipn (len + length ds) l) = length l) as Hl.
  { rewrite !app_length, firstn_length, skipn_length. lia. }
  constructor.
  - apply (hd_ptr _ _ _ _ _ H).
  - eapply live_set_block_eq, (hd_live _ _ _ _ _ H).
  - rewrite splice_length by lia. apply (hd_cap _ _ _ _ _ H).
  - rewrite splice_length by lia. apply (hd_fits _ _ _ _ _ H).
  - apply (hd_chunk _ _ _ _ _ H).
  - apply (hd_count _ _ _ _ _ H).
  - rewrite Hl. destruct (hd_size _ _ _ _ _ H) as [|(Hz & ->)]; [left; assumption|].
    right. split; [assumption|]. destruct (firstn len [] ++ _); [reflexivity|discriminate].
  - intros i b Hb. destruct (Nat.lt_ge_cases i len) as [Hi|Hi].
    + rewrite nth_error_app1 in Hb by (rewrite firstn_length; lia).
      rewrite nth_error_firstn_lt in Hb by assumption.
      rewrite splice_before by lia. now apply (hd_shows _ _ _ _ _ H).
    + rewrite nth_error_app2, firstn_length in Hb by (rewrite firstn_length; lia).
      replace (i - Nat.min len (length l)) with (i - len) in Hb by lia.
      destruct (Nat.lt_ge_cases (i - len) (length m)) as [Hj|Hj].
      * rewrite nth_error_app1 in Hb by assumption. replace i with (len + (i - len)) by lia.
        rewrite splice_inside by lia. auto.
      * rewrite nth_error_app2, nth_error_skipn_add in Hb by assumption.
        replace (len + length ds + (i - len - length m)) with i in Hb by lia.
        rewrite splice_after by lia. now apply (hd_shows _ _ _ _ _ H).
  - rewrite Hl, splice_length by lia. assumption.
  - intros Hz. rewrite Hl, splice_after by lia. apply (hd_end _ _ _ _ _ H). assumption.
Qed.

Lemma holds_spend : forall h s l k cs n, holds h s l k cs -> holds (spend h n) s l k cs.
Proof. intros h s l k cs n []. constructor; assumption. Qed.

Lemma resized_grow : forall l n m, length m = n ->
  firstn (length l) (resized l (length l + n)) ++ m ++
  skipn (length l + n) (resized l (length l + n)) = l ++ m.
Proof.
  intros l n m Hm. unfold resized.
  assert (firstn (length l + n) l = l) as -> by (apply firstn_all2; lia).
  rewrite firstn_length_app. rewrite skipn_all2 by (rewrite app_length, repeat_length; lia).
  now rewrite app_nil_r.
Qed.

(** *** append *)
Lemma append_ok : forall h s l o p n ds m,
  rep h s l o -> source h o p n ds -> shows m ds -> length m = n -> S (length l + n) < W ->
  exists h' s' k,
    str_append W h s p n = Done (h', s') /\ rep h' s' (l ++ m) (Some k) /\
    evolves h o h' (Some k) /\ m_size s' = S (length l + n) /\
    cost h' = cost h + n + (if length l + n <? m_capacity s then 0 else length l) /\
    m_capacity s' = (if length l + n <? m_capacity s then m_capacity s else S (length l + n)).
Proof.
  intros h s l o p n ds m Hr Hsrc Hm Hlm Hfit. unfold str_append.
  rewrite (rep_validate _ _ _ _ Hr). cbn [bind]. rewrite (rep_length _ _ _ _ Hr).
  rewrite wadd_small by lia.
  destruct (resize_ok h s l o (length l + n) Hr) as (h1 & s1 & k & cs & -> & H1 & Hs1 & E1 & Hold & Hnew);
    [lia|]. cbn [bind fst snd].
  pose proof (source_length _ _ _ _ _ Hsrc) as Hds.
  pose proof (source_evolves _ _ _ _ _ _ _ Hsrc E1) as Hsrc1.
  pose proof (holds_lt _ _ _ _ _ H1) as Hlt. rewrite resized_length in Hlt.
  rewrite (hd_ptr _ _ _ _ _ H1). cbn [advance Nat.add].
  rewrite (memcpy_from _ _ _ cs _ _ ds (hd_live _ _ _ _ _ H1)) by (assumption || lia).
  cbn [bind].
  pose proof (write_ok _ _ _ _ _ (length l) ds m H1 Hm) as H2.
  rewrite resized_length, Hds in H2. specialize (H2 Hlm (le_n _)).
  rewrite resized_grow in H2 by assumption.
  pose proof (holds_spend _ _ _ _ _ n H2) as H3.
  rewrite (holds_validate _ _ _ _ _ H3). cbn [bind].
  do 3 eexists. split; [reflexivity|]. split; [econstructor; eassumption|]. split.
  - apply evolves_spend. eapply evolves_trans; [eassumption|].
    eapply evolves_write, (hd_live _ _ _ _ _ H1).
  - split; [assumption|]. cbn [cost spend set_block]. destruct (length l + n <? m_capacity s) eqn:Hc.
    + apply Nat.ltb_lt in Hc. destruct (Hold Hc) as (_ & _ & -> & ->). lia.
    + apply Nat.ltb_ge in Hc. destruct (Hnew Hc) as (-> & -> & _). lia.
Qed.

(** *** Construction from a pointer and a length *)
Lemma str_make_ok : forall h p n ds m,
  source h None p n ds -> shows m ds -> length m = n -> S n < W ->
  exists h' s' k,
    str_make W h p n = Done (h', s') /\ rep h' s' m (Some k) /\ evolves h None h' (Some k) /\
    m_size s' = S n /\ m_capacity s' = S n /\ cost h' = cost h + n.
Proof.
  intros h p n ds m Hsrc Hm Hlm Hn. unfold str_make.
  rewrite make_0 by lia. cbn [bind fst snd].
  set (s0 := Buffer Null 0 1 0 0).
  assert (rep h s0 [] None) as Hr by (constructor; reflexivity).
  destruct (resize_ok h s0 [] None n Hr Hn) as (h1 & s1 & k & cs & -> & H1 & Hs1 & E1 & _ & Hnew).
  destruct Hnew as (Hcost & Hcap & _); [cbn; lia|]. cbn [length] in Hcost.
  cbn [bind fst snd].
  assert (assert_ (match p with Null => false | _ => true end) = Done tt) as ->.
  { destruct p; cbn in Hsrc; [contradiction|reflexivity|reflexivity]. }
  cbn [bind].
  pose proof (source_length _ _ _ _ _ Hsrc) as Hds.
  pose proof (source_evolves _ _ _ _ _ _ _ Hsrc E1) as Hsrc1.
  pose proof (holds_lt _ _ _ _ _ H1) as Hlt. rewrite resized_length in Hlt.
  assert (buffer_copy W h1 s1 p n =
          Done (if n =? 0 then h1 else spend (set_block h1 k (Some (splice cs 0 ds))) n)) as ->.
  { unfold buffer_copy. destruct (n =? 0) eqn:Hn0; [reflexivity|].
    assert (assert_ (match p with Null => false | _ => true end) = Done tt) as ->.
    { destruct p; cbn in Hsrc; [contradiction|reflexivity|reflexivity]. }
    cbn [bind]. unfold capacityBytes. rewrite (hd_chunk _ _ _ _ _ H1), (hd_cap _ _ _ _ _ H1).
    rewrite wmul_1 by apply (hd_fits _ _ _ _ _ H1).
    destruct (n <=? length cs) eqn:Hle; [|apply Nat.leb_gt in Hle; lia]. cbn [assert_ bind].
    rewrite (hd_ptr _ _ _ _ _ H1).
    apply memcpy_from; [apply (hd_live _ _ _ _ _ H1)|lia|assumption]. }
  cbn [bind].
  assert (exists cs2, holds (if n =? 0 then h1 else spend (set_block h1 k (Some (splice cs 0 ds))) n)
                            s1 m k cs2) as (cs2 & H2).
  { destruct (n =? 0) eqn:Hn0.
    - apply Nat.eqb_eq in Hn0. exists cs. subst n. destruct m; [|discriminate].
      unfold resized in H1. cbn in H1. assumption.
    - exists (splice cs 0 ds). apply holds_spend.
      pose proof (write_ok _ _ _ _ _ 0 ds m H1 Hm) as H2.
      rewrite resized_length, Hds in H2. specialize (H2 Hlm (le_n _)).
      rewrite skipn_all2 in H2 by (rewrite resized_length; cbn; lia).
      rewrite app_nil_r in H2. exact H2. }
  rewrite (holds_validate _ _ _ _ _ H2). cbn [bind].
  do 3 eexists. split; [reflexivity|]. split; [econstructor; eassumption|].
  split; [|split; [assumption|split; [assumption|]]].
  - destruct (n =? 0); [assumption|]. apply evolves_spend.
    eapply evolves_trans; [eassumption|]. eapply evolves_write, (hd_live _ _ _ _ _ H1).
  - destruct (n =? 0) eqn:Hn0; [apply Nat.eqb_eq in Hn0; lia|]. cbn. lia.
Qed.

(** *** Copy construction and assignment *)
Lemma str_copy_ok : forall h s l k cs,
  holds h s l k cs ->
  exists h' s' k',
    str_copy W h s = Done (h', s') /\ rep h' s' l (Some k') /\ evolves h None h' (Some k') /\
    m_size s' = m_size s.
Proof.
  intros h s l k cs H. unfold str_copy, buffer_copy_ctor.
  pose proof (holds_lt _ _ _ _ _ H) as Hlt. pose proof (hd_fits _ _ _ _ _ H) as Hf.
  rewrite (hd_cap _ _ _ _ _ H), (hd_chunk _ _ _ _ _ H).
  rewrite make_ok by lia. cbn [bind fst snd m_chunkSize m_ptr m_capacity m_constructed].
  rewrite (hd_count _ _ _ _ _ H). cbn [Nat.eqb assert_ bind].
  assert (m_size s <= length cs) as Hsz
    by (destruct (hd_size _ _ _ _ _ H) as [|(Hz & _)]; lia).
  assert (forall n, n < W -> wmul W n 1 = n) as Hw by apply wmul_1.
  rewrite Hw by lia.
  set (k' := length (blocks h)). set (h0 := fst (alloc h (length cs))).
  assert (live h0 k' (repeat None (length cs))) as Hk by apply live_alloc_new.
  assert (evolves h None h0 (Some k')) as E0 by apply evolves_alloc.
  destruct (proj2 E0 _ _ (hd_live _ _ _ _ _ H)) as (Hlv & Hne); [discriminate|].
  set (ds := firstn (m_size s) cs).
  assert (source h0 (Some k') (m_ptr s) (m_size s) ds) as Hsrc.
  { rewrite (hd_ptr _ _ _ _ _ H). cbn. split; [congruence|]. exists cs. auto. }
  rewrite (copy_from _ _ _ _ _ _ _ Hk (repeat_length _ _) Hf Hsz Hsrc). cbn [bind].
  assert (length ds = m_size s) as Hds by (unfold ds; rewrite firstn_length; lia).
  set (cs' := splice (repeat None (length cs)) 0 ds).
  assert (length cs' = length cs) as Hcs'.
  { unfold cs'. rewrite splice_length; rewrite repeat_length; lia. }
  assert (forall i, i < m_size s -> nth_error cs' i = nth_error cs i) as Hnth.
  { intros i Hi. change i with (0 + i) at 1. unfold cs'.
    rewrite splice_inside by (rewrite ?repeat_length; lia).
    unfold ds. rewrite nth_error_firstn_lt by lia. reflexivity. }
  set (h' := if m_size s =? 0 then h0 else spend (set_block h0 k' (Some cs')) (m_size s)).
  assert (live h' k' cs') as Hk'.
  { unfold h'. destruct (m_size s =? 0) eqn:Hz.
    - apply Nat.eqb_eq in Hz. unfold cs', ds. rewrite Hz. cbn [firstn]. rewrite splice_nil. assumption.
    - apply live_spend. eapply live_set_block_eq. eassumption. }
  exists h'. eexists. exists k'. split; [reflexivity|]. split; [|split].
  - apply rep_at with cs'. constructor; cbn [m_ptr m_capacity m_chunkSize m_size m_constructed].
    + reflexivity.
    + assumption.
    + symmetry. assumption.
    + lia.
    + reflexivity.
    + reflexivity.
    + apply (hd_size _ _ _ _ _ H).
    + intros i b Hb. assert (i < length l) by (apply nth_error_Some; congruence).
      rewrite Hnth; [now apply (hd_shows _ _ _ _ _ H)|].
      destruct (hd_size _ _ _ _ _ H) as [|(_ & ->)]; [lia|cbn in *; lia].
    + lia.
    + intros Hz. rewrite Hnth; [now apply (hd_end _ _ _ _ _ H)|].
      destruct (hd_size _ _ _ _ _ H) as [|(Hz' & _)]; [lia|congruence].
  - unfold h'. destruct (m_size s =? 0); [assumption|]. apply evolves_spend.
    eapply evolves_trans; [eassumption|]. eapply evolves_write. eassumption.
  - reflexivity.
Qed.

(** *** Destruction *)
Lemma destroy_ok : forall h s l o, rep h s l o ->
  exists h', str_destroy h s = Done h' /\ evolves h o h' None /\
    (forall k, o = Some k -> nth_error (blocks h') k = Some None).
Proof.
  intros h s l o H. unfold str_destroy, buffer_destroy.
  destruct H as [H1 H2 H3 H4|l k cs H].
  - rewrite H4, H1. exists h. split; [reflexivity|]. split; [apply evolves_refl|discriminate].
  - rewrite (hd_count _ _ _ _ _ H), (hd_ptr _ _ _ _ _ H). cbn [Nat.eqb assert_ bind free].
    pose proof (hd_live _ _ _ _ _ H) as Hl.
    rewrite (find_block_live _ _ _ Hl). cbn [bind Nat.eqb negb andb].
    eexists. split; [reflexivity|]. split; [eapply evolves_free; eassumption|].
    intros k0 E. injection E as <-. eapply freed_set_block. eassumption.
Qed.

Lemma rep_evolves : forall h s l o h' k k',
  rep h s l o -> evolves h k h' k' -> (forall b, o = Some b -> k <> Some b) -> rep h' s l o.
Proof.
  intros h s l o h' k k' H E Hd. destruct H as [H1 H2 H3 H4|l b cs H].
  - constructor; assumption.
  - apply rep_at with cs. destruct H. constructor; try assumption.
    destruct (proj2 E _ _ hd_live0) as (? & _); auto.
Qed.

Lemma str_assign_ok : forall h s l o y ly k cs,
  rep h s l o -> holds h y ly k cs ->
  exists h' s' k',
    str_assign W h s y = Done (h', s') /\ rep h' s' ly (Some k') /\
    evolves h o h' (Some k') /\ m_size s' = m_size y.
Proof.
  intros h s l o y ly k cs Hs Hy. unfold str_assign, buffer_assign.
  rewrite (hd_count _ _ _ _ _ Hy). cbn [Nat.eqb assert_ bind].
  destruct (str_copy_ok h y ly k cs Hy) as (h1 & s1 & k1 & E & Hr1 & E1 & Hsz).
  unfold str_copy in E. rewrite E. cbn [bind fst snd].
  assert (rep h1 s l o) as Hs1 by (eapply rep_evolves; [eassumption|eassumption|discriminate]).
  destruct Hs as [H1 H2 H3 H4|l b bs H].
  - unfold buffer_destroy. rewrite H4, H1. cbn [Nat.eqb assert_ bind].
    exists h1, s1, k1. auto.
  - destruct (evolves_swap_free _ (Some b) _ _ E1 _ (hd_live _ _ _ _ _ H)) as (Hl2 & Hne & E3).
    unfold buffer_destroy. rewrite (hd_count _ _ _ _ _ H), (hd_ptr _ _ _ _ _ H).
    cbn [Nat.eqb assert_ bind free].
    rewrite (find_block_live _ _ _ Hl2). cbn [bind Nat.eqb negb andb].
    exists (set_block h1 b None), s1, k1. split; [reflexivity|].
    split; [|split; assumption].
    eapply rep_evolves with (k := Some b); [eassumption|eapply evolves_free; eassumption|].
    intros b' E'. injection E' as <-. congruence.
Qed.

(** ** Programs *)

Definition tag_ok (c : content) (s : str) : Prop :=
  match c with
  | Gone => m_ptr s = Null
  | Hollow => m_ptr s <> Null /\ m_size s = 0
  | Chars l => m_size s = S (length l)
  end.

(** The block owned by a string. *)
Definition owned (s : str) : option nat := match m_ptr s with At k _ => Some k | _ => None end.

Lemma rep_owned : forall h s l o, rep h s l o -> owned s = o.
Proof.
  intros h s l o [H1 H2 H3 H4|l' k cs H]; unfold owned.
  - now rewrite H1.
  - now rewrite (hd_ptr _ _ _ _ _ H).
Qed.

Record related (a : strings) (w : world) : Prop := Related {
  rl_obj : forall i, match a i, w_str w i with
                     | None, None => True
                     | Some c, Some s => rep (w_mem w) s (chars c) (owned s) /\ tag_ok c s
                     | _, _ => False
                     end;
  rl_apart : forall i j s t k, w_str w i = Some s -> w_str w j = Some t ->
               owned s = Some k -> owned t = Some k -> i = j;
  rl_owner : forall k cs, live (w_mem w) k cs ->
               exists i s, w_str w i = Some s /\ owned s = Some k
}.

Lemma related_some : forall a w i c, related a w -> a i = Some c ->
  exists s, w_str w i = Some s /\ rep (w_mem w) s (chars c) (owned s) /\ tag_ok c s.
Proof.
  intros a w i c R H. pose proof (rl_obj _ _ R i) as Hi. rewrite H in Hi.
  destruct (w_str w i) as [s|]; [|contradiction]. exists s. tauto.
Qed.

Lemma related_none : forall a w i, related a w -> a i = None -> w_str w i = None.
Proof.
  intros a w i R H. pose proof (rl_obj _ _ R i) as Hi. rewrite H in Hi.
  destruct (w_str w i); [contradiction|reflexivity].
Qed.

(** One object changes, in a way that concerns its own block only. *)
Lemma related_step : forall a w i h' c' (s' : option str) o,
  related a w ->
  match w_str w i with Some s => owned s | None => None end = o ->
  evolves (w_mem w) o h' (match s' with Some s => owned s | None => None end) ->
  match c', s' with
  | None, None => True
  | Some c, Some s => rep h' s (chars c) (owned s) /\ tag_ok c s
  | _, _ => False
  end ->
  related (upd a i c') (World h' (put (w_str w) i s')).
Proof.
  intros a w i h' c' s' o R Ho E Hnew.
  assert (forall j t k, j <> i -> w_str w j = Some t -> owned t = Some k ->
            o <> Some k /\ exists cs, live (w_mem w) k cs) as Hother.
  { intros j t k Hj Ht Hk. split.
    - intros ->. destruct (w_str w i) as [s|] eqn:Hs; [|discriminate].
      apply Hj. symmetry. eapply (rl_apart _ _ R); eassumption.
    - pose proof (rl_obj _ _ R j) as Hobj. rewrite Ht in Hobj.
      destruct (a j) as [c|]; [|contradiction]. destruct Hobj as (Hr & _).
      rewrite Hk in Hr. inversion Hr as [|l0 k0 cs Hh]. exists cs. apply (hd_live _ _ _ _ _ Hh). }
  constructor; cbn [w_mem w_str].
  - intros j. unfold upd, put. destruct (Nat.eqb j i) eqn:Hj; [assumption|].
    apply Nat.eqb_neq in Hj. pose proof (rl_obj _ _ R j) as Hobj.
    destruct (a j) as [c|], (w_str w j) as [t|] eqn:Ht; auto.
    destruct Hobj as (Hr & Htag). split; [|assumption].
    eapply rep_evolves; [eassumption|eassumption|].
    intros b Hb. destruct (Hother j t b) as (? & _); auto.
  - intros j1 j2 s1 s2 k. unfold put.
    destruct (Nat.eqb j1 i) eqn:H1, (Nat.eqb j2 i) eqn:H2; intros E1 E2 K1 K2.
    + apply Nat.eqb_eq in H1, H2. congruence.
    + apply Nat.eqb_neq in H2. exfalso. destruct (Hother j2 s2 k) as (Hn & cs & Hl); auto.
      destruct (proj2 E _ _ Hl Hn) as (_ & Hx). subst s'. congruence.
    + apply Nat.eqb_neq in H1. exfalso. destruct (Hother j1 s1 k) as (Hn & cs & Hl); auto.
      destruct (proj2 E _ _ Hl Hn) as (_ & Hx). subst s'. congruence.
    + eapply (rl_apart _ _ R); eassumption.
  - intros k cs Hl. destruct (proj1 E _ _ Hl) as [Hk|(Hn & Hl0)].
    + destruct s' as [s'|]; [|discriminate]. exists i, s'. unfold put. rewrite Nat.eqb_refl. auto.
    + destruct (rl_owner _ _ R _ _ Hl0) as (j & t & Ht & Hk). exists j, t.
      unfold put. destruct (Nat.eqb j i) eqn:Hj; [|auto].
      apply Nat.eqb_eq in Hj. subst j. rewrite Ht in Ho. congruence.
Qed.

Definition other (i j m : nat) : nat :=
  if Nat.eqb m i then j else if Nat.eqb m j then i else m.

Lemma other_inj : forall i j m n, other i j m = other i j n -> m = n.
Proof.
  intros i j m n. unfold other.
  destruct (Nat.eqb m i) eqn:E1; destruct (Nat.eqb n i) eqn:E2;
  destruct (Nat.eqb m j) eqn:E3; destruct (Nat.eqb n j) eqn:E4;
    rewrite ?Nat.eqb_eq, ?Nat.eqb_neq in *; congruence.
Qed.

(** Two objects exchange their buffers, or one takes over the other's. *)
Lemma related_swap : forall a w i j c d x y,
  related a w -> i <> j ->
  a i = c -> a j = Some d -> w_str w i = x -> w_str w j = Some y ->
  match c with
  | Some c => related (upd (upd a j (Some c)) i (Some d))
                      (World (w_mem w) (put (put (w_str w) j x) i (Some y)))
  | None => related (upd (upd a j (Some Gone)) i (Some d))
                    (World (w_mem w) (put (put (w_str w) j (Some moved_buffer)) i (Some y)))
  end.
Proof.
  intros a w i j c d x y R Hij Hi Hj Hx Hy.
  pose proof (rl_obj _ _ R i) as Oi. pose proof (rl_obj _ _ R j) as Oj.
  rewrite Hi, Hx in Oi. rewrite Hj, Hy in Oj.
  destruct c as [c|].
  - destruct x as [x|]; [|contradiction]. constructor; cbn [w_mem w_str].
    + intros m. unfold upd, put. destruct (Nat.eqb m i) eqn:Em; [assumption|].
      destruct (Nat.eqb m j) eqn:En; [assumption|]. apply (rl_obj _ _ R m).
    + intros m n s t k Em En Ks Kt.
      assert (forall m s, put (put (w_str w) j (Some x)) i (Some y) m = Some s ->
                w_str w (other i j m) = Some s) as Hput.
      { intros m' s'. unfold put, other. destruct (Nat.eqb m' i); [congruence|].
        destruct (Nat.eqb m' j); [congruence|auto]. }
      apply (other_inj i j). eapply (rl_apart _ _ R); eauto.
    + intros k cs Hl. destruct (rl_owner _ _ R _ _ Hl) as (m & t & Ht & Hk).
      destruct (Nat.eq_dec m i) as [->|Hmi].
      * exists j, t. unfold put. destruct (Nat.eqb j i) eqn:E; [apply Nat.eqb_eq in E; congruence|].
        rewrite Nat.eqb_refl. split; congruence.
      * destruct (Nat.eq_dec m j) as [->|Hmj].
        -- exists i, t. unfold put. rewrite Nat.eqb_refl. split; congruence.
        -- exists m, t. unfold put. apply Nat.eqb_neq in Hmi, Hmj. now rewrite Hmi, Hmj.
  - destruct x as [x|]; [contradiction|]. constructor; cbn [w_mem w_str].
    + intros m. unfold upd, put. destruct (Nat.eqb m i) eqn:Em; [assumption|].
      destruct (Nat.eqb m j) eqn:En; [|apply (rl_obj _ _ R m)].
      split; [constructor; reflexivity|reflexivity].
    + intros m n s t k Em En Ks Kt.
      assert (forall m s, put (put (w_str w) j (Some moved_buffer)) i (Some y) m = Some s ->
                owned s = Some k -> w_str w (other i j m) = Some s) as Hput.
      { intros m' s'. unfold put, other. destruct (Nat.eqb m' i); [congruence|].
        destruct (Nat.eqb m' j); [|auto]. intros E. injection E as <-. discriminate. }
      apply (other_inj i j). eapply (rl_apart _ _ R); eauto.
    + intros k cs Hl. destruct (rl_owner _ _ R _ _ Hl) as (m & t & Ht & Hk).
      assert (m <> i) as Hmi by congruence.
      destruct (Nat.eq_dec m j) as [->|Hmj].
      * exists i, t. unfold put. rewrite Nat.eqb_refl. split; congruence.
      * exists m, t. unfold put. apply Nat.eqb_neq in Hmi, Hmj. now rewrite Hmi, Hmj.
Qed.

Lemma related_ext : forall a b w f,
  related a w -> (forall i, a i = b i) -> (forall i, w_str w i = f i) ->
  related b (World (w_mem w) f).
Proof.
  intros a b w f R Ha Hf. constructor; cbn [w_mem w_str].
  - intros i. rewrite <- Ha, <- Hf. apply (rl_obj _ _ R).
  - intros i j s t k. rewrite <- !Hf. apply (rl_apart _ _ R).
  - intros k cs Hl. destruct (rl_owner _ _ R _ _ Hl) as (i & s & H1 & H2).
    exists i, s. rewrite <- Hf. auto.
Qed.

Lemma strlen_from_ext : forall h (l r pre : bytes) fuel, ~ In NUL l -> length l < fuel ->
  strlen_from h (Ext (pre ++ l ++ NUL :: r)) (length pre) fuel = Done (length l).
Proof.
  intros h l. induction l as [|c l IH]; intros r pre fuel Hn Hf;
    (destruct fuel as [|fuel]; [cbn in Hf; lia|]); cbn [strlen_from].
  - unfold load_value, load. rewrite nth_error_app2, Nat.sub_diag by lia. reflexivity.
  - unfold load_value, load. rewrite nth_error_app2, Nat.sub_diag by lia.
    cbn [nth_error app bind].
    destruct (Ascii.eqb c NUL) eqn:Ec.
    + apply Ascii.eqb_eq in Ec. exfalso. apply Hn. left. assumption.
    + specialize (IH r (pre ++ [c]) fuel). rewrite app_length in IH. cbn [length] in IH.
      rewrite <- app_assoc, Nat.add_1_r in IH. cbn [app] in IH. rewrite IH.
      * reflexivity.
      * intros Hi. apply Hn. right. assumption.
      * cbn in Hf. lia.
Qed.

Lemma strlen_ext : forall h (src l : bytes), c_string src l -> strlen h (Ext src) = Done (length l).
Proof.
  intros h src l (r & -> & Hn). unfold strlen, object_size.
  apply (strlen_from_ext h l r []); [assumption|]. rewrite app_length. cbn. lia.
Qed.

Lemma c_string_firstn : forall (src l : bytes), c_string src l ->
  length l <= length src /\ firstn (length l) src = l.
Proof.
  intros src l (r & -> & _). rewrite app_length. split; [lia|]. apply firstn_length_app.
Qed.

Lemma source_ext : forall h o src n, n <= length src ->
  source h o (Ext src) n (map Some (firstn n src)).
Proof. intros h o src n H. split; [assumption|reflexivity]. Qed.

Lemma shows_refl : forall l, shows l l.
Proof. intros l i b H. assumption. Qed.

Lemma known_length : forall (l : bytes), length (known l) = length l.
Proof. intros l. apply map_length. Qed.

(** A part of the characters of a string that is not [Gone] can be read. *)
Lemma source_part : forall h y d pre l post o,
  rep h y (chars d) (owned y) -> tag_ok d y -> d <> Gone ->
  chars d = pre ++ l ++ post -> (forall k, owned y = Some k -> o <> Some k) ->
  exists k cs ds, m_ptr y = At k 0 /\ holds h y (chars d) k cs /\
    source h o (At k (length pre)) (length l) ds /\ shows l ds.
Proof.
  intros h y d pre l post o Hr Ht Hd Hc Ho.
  inversion Hr as [H1 H2 H3 H4 E1 E2|l0 k cs H E1 E2].
  - exfalso. destruct d; cbn in *.
    + congruence.
    + tauto.
    + rewrite H3 in Ht. discriminate.
  - subst l0. exists k, cs. pose proof (holds_lt _ _ _ _ _ H) as Hlt.
    rewrite Hc, !app_length in Hlt.
    exists (firstn (length l) (skipn (length pre) cs)).
    split; [apply (hd_ptr _ _ _ _ _ H)|]. split; [assumption|]. split.
    + cbn. split; [auto|]. exists cs. split; [apply (hd_live _ _ _ _ _ H)|]. split; [lia|reflexivity].
    + intros i b Hb. assert (i < length l) by (apply nth_error_Some; congruence).
      rewrite nth_error_firstn_lt by assumption. rewrite nth_error_skipn_add.
      apply (hd_shows _ _ _ _ _ H). rewrite Hc. rewrite nth_error_app2 by lia.
      replace (length pre + i - length pre) with i by lia.
      rewrite nth_error_app1 by assumption. assumption.
Qed.

Lemma view_part : forall y k n pre l post, m_ptr y = At k 0 -> str_length y = n ->
  n = length (pre ++ l ++ post) -> n < W ->
  (v <- str_view y ;; view_substr W v (length pre) (length l)) =
  Done (View (At k (length pre)) (length l)).
Proof.
  intros y k n pre l post Hp Hl Hn Hw. unfold str_view, view_make. rewrite Hp, Hl.
  cbn [assert_ bind]. unfold view_substr. cbn [v_length v_str].
  rewrite !app_length in Hn. rewrite wadd_small by lia.
  assert (length pre <=? n = true) as -> by (apply Nat.leb_le; lia).
  assert (length l <=? n = true) as -> by (apply Nat.leb_le; lia).
  assert (length pre + length l <=? n = true) as -> by (apply Nat.leb_le; lia).
  reflexivity.
Qed.

Theorem step_refines : forall a w o a',
  related a w -> smeans W a o a' ->
  exists w', sstep W w o = Done w' /\ related a' w'.
Proof.
  intros a w o a' R M.
  assert (forall i s' h' c k, w_str w i = None ->
            rep h' s' (chars c) (Some k) -> tag_ok c s' -> evolves (w_mem w) None h' (Some k) ->
            related (upd a i (Some c)) (set1 w i (h', s'))) as Knew.
  { intros i s' h' c k Hi Hr Ht E. eapply related_step with (o := None); [exact R|now rewrite Hi| |];
      cbn [fst snd]; rewrite (rep_owned _ _ _ _ Hr); auto. }
  assert (forall i s s' h' c k, w_str w i = Some s ->
            rep h' s' (chars c) (Some k) -> tag_ok c s' -> evolves (w_mem w) (owned s) h' (Some k) ->
            related (upd a i (Some c)) (set1 w i (h', s'))) as Kold.
  { intros i s s' h' c k Hi Hr Ht E. eapply related_step with (o := owned s); [exact R|now rewrite Hi| |];
      cbn [fst snd]; rewrite (rep_owned _ _ _ _ Hr); auto. }
  destruct M as [i src n Hi Hn Hw|i src l Hi Hs Hw|i j c pre l post Hi Hj Hg Hc|i j c Hi Hj Hg
                |i j c Hi Hj|i j c d Hi Hj Hg|i j c d Hi Hj|i c Hi|i c n Hi Hw|i c n Hi Hw
                |i pre mid l post Hi Hm|i c src n Hi Hn Hw|i c src l Hi Hs Hw|i c b Hi Hw
                |i j c d pre l post Hij Hi Hj Hg Hc Hw|i j c d Hij Hi Hj Hg Hw];
    cbn [sstep]; unfold unused, var.
  - pose proof (related_none _ _ _ R Hi) as Wi. rewrite Wi. cbn [bind].
    destruct (str_make_ok (w_mem w) (Ext src) n _ (known (firstn n src))
                (source_ext _ _ _ _ Hn) (shows_refl _)) as (h' & s' & k & -> & Hr & E & Hsz & _);
      [rewrite known_length, firstn_length; lia|assumption|].
    cbn [bind]. eexists. split; [reflexivity|]. eapply Knew; eauto.
    cbn. rewrite known_length, firstn_length. lia.
  - pose proof (related_none _ _ _ R Hi) as Wi. rewrite Wi. cbn [bind].
    unfold str_make_c. rewrite (strlen_ext _ _ _ Hs). cbn [bind].
    destruct (c_string_firstn _ _ Hs) as (Hle & Hf).
    destruct (str_make_ok (w_mem w) (Ext src) (length l) _ (known l)
                (source_ext _ _ _ _ Hle)) as (h' & s' & k & -> & Hr & E & Hsz & _);
      [rewrite Hf; apply shows_refl|apply known_length|assumption|].
    cbn [bind]. eexists. split; [reflexivity|]. eapply Knew; eauto.
    cbn. rewrite known_length. assumption.
  - pose proof (related_none _ _ _ R Hi) as Wi. rewrite Wi. cbn [bind].
    destruct (related_some _ _ _ _ R Hj) as (y & Wj & Hr & Ht). rewrite Wj. cbn [bind].
    destruct (source_part _ _ _ _ _ _ None Hr Ht Hg Hc) as (k & cs & ds & Hp & Hh & Hsrc & Hsh);
      [discriminate|].
    pose proof (holds_lt _ _ _ _ _ Hh) as Hlt. pose proof (hd_fits _ _ _ _ _ Hh) as Hf.
    pose proof (holds_length _ _ _ _ _ Hh) as Hlen.
    assert (length (chars c) < W) by lia.
    pose proof (view_part y k _ pre l post Hp Hlen) as Hv. rewrite Hc in Hv.
    specialize (Hv eq_refl). rewrite <- Hc in Hv. specialize (Hv ltac:(lia)).
    destruct (str_view y) as [v|]; cbn [bind] in Hv |- *; [|discriminate]. rewrite Hv. cbn [bind].
    unfold str_make_view, view_data. cbn [v_str v_length assert_ bind].
    destruct (str_make_ok (w_mem w) _ (length l) ds l Hsrc Hsh eq_refl)
      as (h' & s' & k' & -> & Hr' & E & Hsz & _).
    { rewrite Hc, !app_length in Hlt. lia. }
    cbn [bind]. eexists. split; [reflexivity|]. eapply Knew; eauto.
  - pose proof (related_none _ _ _ R Hi) as Wi. rewrite Wi. cbn [bind].
    destruct (related_some _ _ _ _ R Hj) as (y & Wj & Hr & Ht). rewrite Wj. cbn [bind].
    destruct (source_part _ _ _ [] [] (chars c) None Hr Ht Hg eq_refl)
      as (k & cs & ds & Hp & Hh & _); [discriminate|].
    destruct (str_copy_ok _ _ _ _ _ Hh) as (h' & s' & k' & -> & Hr' & E & Hsz).
    cbn [bind]. eexists. split; [reflexivity|]. eapply Knew; eauto.
    destruct c; cbn in *.
    + congruence.
    + inversion Hr' as [|l0 k0 cs' Hh']. rewrite (hd_ptr _ _ _ _ _ Hh'). split; [discriminate|].
      rewrite Hsz. tauto.
    + congruence.
  - pose proof (related_none _ _ _ R Hi) as Wi. rewrite Wi. cbn [bind].
    destruct (related_some _ _ _ _ R Hj) as (y & Wj & Hr & Ht). rewrite Wj.
    cbn [bind str_move buffer_move_ctor].
    eexists. split; [reflexivity|].
    assert (i <> j) as Hij by congruence.
    exact (related_swap a w i j None c None y R Hij Hi Hj Wi Wj).
  - destruct (related_some _ _ _ _ R Hi) as (x & Wi & Hrx & Htx). rewrite Wi. cbn [bind].
    destruct (related_some _ _ _ _ R Hj) as (y & Wj & Hr & Ht). rewrite Wj. cbn [bind].
    destruct (source_part _ _ _ [] [] (chars d) None Hr Ht Hg eq_refl)
      as (k & cs & ds & Hp & Hh & _); [discriminate|].
    destruct (str_assign_ok _ _ _ _ _ _ _ _ Hrx Hh) as (h' & s' & k' & -> & Hr' & E & Hsz).
    cbn [bind]. eexists. split; [reflexivity|]. eapply Kold; eauto.
    destruct d; cbn in *.
    + congruence.
    + inversion Hr' as [|l0 k0 cs' Hh']. rewrite (hd_ptr _ _ _ _ _ Hh'). split; [discriminate|].
      rewrite Hsz. tauto.
    + congruence.
  - destruct (related_some _ _ _ _ R Hi) as (x & Wi & Hrx & Htx). rewrite Wi. cbn [bind].
    destruct (related_some _ _ _ _ R Hj) as (y & Wj & Hr & Ht). rewrite Wj.
    cbn [bind str_assign_move buffer_assign_move].
    eexists. split; [reflexivity|].
    destruct (Nat.eq_dec i j) as [->|Hij].
    + eapply related_ext; [eassumption| |].
      * intros m. unfold upd. destruct (Nat.eqb m j) eqn:E; [|reflexivity].
        apply Nat.eqb_eq in E. congruence.
      * intros m. unfold put. destruct (Nat.eqb m j) eqn:E; [|reflexivity].
        apply Nat.eqb_eq in E. congruence.
    + exact (related_swap a w i j (Some c) d (Some x) y R Hij Hi Hj Wi Wj).
  - destruct (related_some _ _ _ _ R Hi) as (x & Wi & Hrx & Htx). rewrite Wi. cbn [bind].
    destruct (destroy_ok _ _ _ _ Hrx) as (h' & -> & E & _). cbn [bind].
    eexists. split; [reflexivity|]. eapply related_step with (o := owned x); eauto.
    now rewrite Wi.
  - destruct (related_some _ _ _ _ R Hi) as (x & Wi & Hrx & Htx). rewrite Wi. cbn [bind].
    destruct (reserve_ok _ _ _ _ n Hrx Hw) as (h' & s' & k & -> & Hr' & _ & Hsz & E & _).
    cbn [bind]. eexists. split; [reflexivity|].
    assert (m_ptr s' <> Null) as Hnn.
    { inversion Hr' as [|l0 k0 cs' Hh']. rewrite (hd_ptr _ _ _ _ _ Hh'). discriminate. }
    eapply Kold; eauto.
    + destruct c; assumption.
    + destruct c; cbn in *.
      * split; [assumption|]. rewrite Hsz. inversion Hrx as [? ? Hz|l0 k0 cs' Hh' E1 E2]; [assumption|].
        rewrite (hd_ptr _ _ _ _ _ Hh') in Htx. discriminate.
      * split; [assumption|]. rewrite Hsz. tauto.
      * congruence.
  - destruct (related_some _ _ _ _ R Hi) as (x & Wi & Hrx & Htx). rewrite Wi. cbn [bind].
    destruct (resize_ok _ _ _ _ n Hrx Hw) as (h' & s' & k & cs & -> & Hr' & Hsz & E & _).
    cbn [bind]. eexists. split; [reflexivity|].
    eapply Kold; eauto.
    + econstructor. exact Hr'.
    + cbn. change (m_size s' = S (length (resized (chars c) n))). rewrite resized_length. assumption.
  - destruct (related_some _ _ _ _ R Hi) as (x & Wi & Hrx & Htx). rewrite Wi. cbn [bind].
    cbn [chars] in Hrx. cbn in Htx.
    inversion Hrx as [H1 H2 H3 H4 E1 E2|l0 k cs H E1 E2].
    { exfalso. rewrite H3 in Htx. discriminate. }
    subst l0. unfold str_fill. rewrite (hd_ptr _ _ _ _ _ H).
    pose proof (holds_lt _ _ _ _ _ H) as Hlt. rewrite !app_length in Hlt.
    pose proof (hd_live _ _ _ _ _ H) as Hlv.
    rewrite (store_n_at _ _ _ _ _ _ Hlv) by (cbn; rewrite map_length; lia).
    cbn [bind Nat.add]. eexists. split; [reflexivity|].
    pose proof (write_ok _ _ _ _ _ (length pre) (map Some l) (known l) H (shows_refl _) eq_refl) as H5.
    rewrite map_length in H5. rewrite !app_length in H5. specialize (H5 ltac:(lia)).
    rewrite firstn_length_app in H5.
    rewrite skipn_add, skipn_length_app, <- Hm, skipn_length_app in H5.
    eapply Kold; eauto.
    + econstructor. exact H5.
    + cbn. rewrite Htx, !app_length, known_length. lia.
    + rewrite <- E2. eapply evolves_write. eassumption.
  - destruct (related_some _ _ _ _ R Hi) as (x & Wi & Hrx & Htx). rewrite Wi. cbn [bind].
    destruct (append_ok _ _ _ _ (Ext src) n _ (known (firstn n src)) Hrx (source_ext _ _ _ _ Hn)
                (shows_refl _)) as (h' & s' & k & -> & Hr' & E & Hsz & _);
      [rewrite known_length, firstn_length; lia|assumption|].
    cbn [bind]. eexists. split; [reflexivity|]. eapply Kold; eauto.
    cbn. rewrite app_length, known_length, firstn_length. lia.
  - destruct (related_some _ _ _ _ R Hi) as (x & Wi & Hrx & Htx). rewrite Wi. cbn [bind].
    unfold str_append_c. rewrite (strlen_ext _ _ _ Hs). cbn [bind].
    destruct (c_string_firstn _ _ Hs) as (Hle & Hf).
    destruct (append_ok _ _ _ _ (Ext src) (length l) _ (known l) Hrx (source_ext _ _ _ _ Hle))
      as (h' & s' & k & -> & Hr' & E & Hsz & _);
      [rewrite Hf; apply shows_refl|apply known_length|assumption|].
    cbn [bind]. eexists. split; [reflexivity|]. eapply Kold; eauto.
    cbn. rewrite app_length, known_length. assumption.
  - destruct (related_some _ _ _ _ R Hi) as (x & Wi & Hrx & Htx). rewrite Wi. cbn [bind].
    unfold str_append_char.
    destruct (append_ok _ _ _ _ (Ext [b]) 1 _ (known [b]) Hrx (source_ext _ _ [b] 1 (le_n _)) (shows_refl _))
      as (h' & s' & k & -> & Hr' & E & Hsz & _); [reflexivity|assumption|].
    cbn [bind]. eexists. split; [reflexivity|]. eapply Kold; eauto.
    cbn. rewrite app_length. cbn. lia.
  - destruct (related_some _ _ _ _ R Hi) as (x & Wi & Hrx & Htx). rewrite Wi. cbn [bind].
    destruct (related_some _ _ _ _ R Hj) as (y & Wj & Hr & Ht). rewrite Wj. cbn [bind].
    destruct (source_part _ _ _ _ _ _ (owned x) Hr Ht Hg Hc) as (k & cs & ds & Hp & Hh & Hsrc & Hsh).
    { intros k Hk Hk'. apply Hij. eapply (rl_apart _ _ R); eassumption. }
    pose proof (holds_lt _ _ _ _ _ Hh) as Hlt. pose proof (hd_fits _ _ _ _ _ Hh) as Hf.
    pose proof (holds_length _ _ _ _ _ Hh) as Hlen.
    pose proof (view_part y k _ pre l post Hp Hlen) as Hv. rewrite Hc in Hv.
    specialize (Hv eq_refl). rewrite <- Hc in Hv. specialize (Hv ltac:(lia)).
    destruct (str_view y) as [v|]; cbn [bind] in Hv |- *; [|discriminate]. rewrite Hv. cbn [bind].
    unfold str_append_view, view_data. cbn [v_str v_length assert_ bind].
    destruct (append_ok _ _ _ _ _ (length l) ds l Hrx Hsrc Hsh eq_refl Hw)
      as (h' & s' & k' & -> & Hr' & E & Hsz & _).
    cbn [bind]. eexists. split; [reflexivity|]. eapply Kold; eauto.
    cbn. rewrite app_length. assumption.
  - destruct (related_some _ _ _ _ R Hi) as (x & Wi & Hrx & Htx). rewrite Wi. cbn [bind].
    destruct (related_some _ _ _ _ R Hj) as (y & Wj & Hr & Ht). rewrite Wj. cbn [bind].
    destruct (source_part _ _ _ [] (chars d) [] (owned x) Hr Ht Hg) as (k & cs & ds & Hp & Hh & Hsrc & Hsh).
    { now rewrite app_nil_r. }
    { intros k Hk Hk'. apply Hij. eapply (rl_apart _ _ R); eassumption. }
    unfold str_append_str. rewrite Hp, (holds_length _ _ _ _ _ Hh). cbn [length] in Hsrc.
    destruct (append_ok _ _ _ _ _ (length (chars d)) ds (chars d) Hrx Hsrc Hsh eq_refl Hw)
      as (h' & s' & k' & -> & Hr' & E & Hsz & _).
    cbn [bind]. eexists. split; [reflexivity|]. eapply Kold; eauto.
    cbn. rewrite app_length. assumption.
Qed.

Lemma start_related : related no_strings start.
Proof.
  constructor; cbn.
  - intros i. exact I.
  - discriminate.
  - intros [|k] cs H; discriminate.
Qed.

Theorem program_refines : forall a os a', sprogram W a os a' ->
  forall w, related a w -> exists w', sruns W w os = Done w' /\ related a' w'.
Proof.
  intros a os a' H. induction H as [a|a o a1 os a2 H1 H2 IH]; intros w R.
  - exists w. split; [reflexivity|assumption].
  - destruct (step_refines _ _ _ _ R H1) as (w1 & E1 & R1).
    destruct (IH w1 R1) as (w2 & E2 & R2). exists w2. cbn [sruns]. rewrite E1. auto.
Qed.

End StringMemProofs.
