(** C42-C44, C55: coil::String on memory. *)
From Coq Require Import Ascii String NArith ZArith Bool PeanoNat Lia List.
From Verif Require Import Util Base Mem MemProofs StringMem StringMemSpec StringMemProofs.
Import ListNotations.

(** The byte at position [i] after cStr(). *)
Definition byte_at (w : world) (s : str) (i : nat) : outcome byte :=
  load_value (w_mem w) (m_ptr s) i.

(** What the object [s] shows to its users agrees with the content [c]. *)
Definition reads (w : world) (s : str) (c : content) : Prop :=
  str_length s = length (chars c) /\
  (forall i b, nth_error (chars c) i = Some (Some b) -> byte_at w s i = Done b) /\
  (forall l, c = Chars l -> byte_at w s (length l) = Done NUL).

(** ** C42 *)

(** Every string of every program is NUL-terminated. *)
Definition C42_full_statement : Prop :=
  forall W os w i s, sruns W start os = Done w -> w_str w i = Some s ->
    byte_at w s (str_length s) = Done NUL.

(** It is not: a string moved from, reserved, and then copied. *)
Definition ex_hollow : list sop :=
  [SMakeC 0 (lit "x" ++ [NUL]); SMove 1 0; SReserve 0 10; SCopy 2 0].

Theorem C42_copy_of_reserved_refuted :
  exists w s, sruns 100 start ex_hollow = Done w /\ w_str w 2 = Some s /\
    m_ptr s <> Null /\ str_length s = 0 /\ byte_at w s 0 = Fault BadLifetime.
Proof.
  do 2 eexists. split; [vm_compute; reflexivity|]. split; [reflexivity|].
  split; [discriminate|]. split; reflexivity.
Qed.

Theorem C42_full_statement_refuted : ~ C42_full_statement.
Proof.
  intros H. destruct C42_copy_of_reserved_refuted as (w & s & E & Hs & _ & Hl & Hb).
  specialize (H _ _ _ _ _ E Hs). rewrite Hl, Hb in H. discriminate.
Qed.

(** A moved-from string can be neither copied nor viewed nor appended. *)
Theorem C42_moved_from_refuted :
  sruns 100 start [SMakeC 0 (lit "x" ++ [NUL]); SMove 1 0; SCopy 2 0] = Fault AssertFailed /\
  sruns 100 start [SMakeC 0 (lit "x" ++ [NUL]); SMove 1 0; SAssign 1 0] = Fault AssertFailed /\
  sruns 100 start [SMakeC 0 (lit "x" ++ [NUL]); SMove 1 0; SMakeView 2 0 0 0] = Fault AssertFailed /\
  sruns 100 start [SMakeC 0 (lit "x" ++ [NUL]); SMove 1 0; SAppendStr 1 0] = Fault NullDeref.
Proof. repeat split; vm_compute; reflexivity. Qed.

(** In general: any use of the characters of a moved-from string faults. *)
Theorem C42_moved_from_unusable : forall W w j,
  w_str w j = Some moved_buffer ->
  (forall i, w_str w i = None -> sstep W w (SCopy i j) = Fault AssertFailed) /\
  (forall i s, w_str w i = Some s -> sstep W w (SAssign i j) = Fault AssertFailed) /\
  (forall i off n, w_str w i = None -> sstep W w (SMakeView i j off n) = Fault AssertFailed).
Proof.
  intros W w j Hj.
  assert (buffer_copy_ctor W (w_mem w) moved_buffer = Fault AssertFailed) as Hc.
  { unfold buffer_copy_ctor, buffer_make. cbn [m_capacity m_chunkSize moved_buffer].
    destruct (0 <? wmul W 0 0); reflexivity. }
  split; [|split].
  - intros i Hi. cbn. unfold unused, var. rewrite Hi, Hj. cbn [bind]. unfold str_copy.
    now rewrite Hc.
  - intros i s Hi. cbn. unfold var. rewrite Hi, Hj. cbn [bind]. unfold str_assign, buffer_assign.
    rewrite Hc. reflexivity.
  - intros i off n Hi. cbn. unfold unused, var. rewrite Hi, Hj. reflexivity.
Qed.

(** Resizing to the greatest size_t writes far outside the storage: the
    computation of the size of the storage wraps around to 0. *)
Theorem C42_resize_wraps_refuted : forall W h s l k cs,
  holds W h s l k cs -> 0 < W -> str_resize W h s (W - 1) = Fault OutOfBounds.
Proof.
  intros W h s l k cs H HW. unfold str_resize.
  rewrite (holds_validate _ _ _ _ _ _ H). cbn [bind].
  assert (wadd W (W - 1) 1 = 0) as Hw.
  { unfold wadd. replace (W - 1 + 1) with W by lia. apply Nat.mod_same. lia. }
  unfold str_reserve. rewrite (holds_validate _ _ _ _ _ _ H), Hw. cbn [bind].
  cbn [Nat.ltb Nat.leb bind fst snd]. rewrite (holds_validate _ _ _ _ _ _ H). cbn [bind snd fst].
  cbn [assert_ bind]. unfold buffer_resize. cbn [assert_ Nat.leb bind m_ptr].
  rewrite (hd_ptr _ _ _ _ _ _ H).
  pose proof (hd_fits _ _ _ _ _ _ H).
  rewrite (store_past _ _ _ _ _ _ (hd_live _ _ _ _ _ _ H)) by (cbn; lia). reflexivity.
Qed.

(** Every program that uses its strings properly runs without a fault, and
    then every string reads as it should. *)
Theorem C42_programs_read_back_partial : forall W os a,
  sprogram W no_strings os a ->
  exists w, sruns W start os = Done w /\
    forall i, match a i, w_str w i with
              | Some c, Some s => reads w s c
              | None, None => True
              | _, _ => False
              end.
Proof.
  intros W os a H. destruct (program_refines W _ _ _ H start (start_related W)) as (w & E & R).
  exists w. split; [assumption|]. intros i. pose proof (rl_obj _ _ _ R i) as Hi.
  destruct (a i) as [c|], (w_str w i) as [s|]; auto. destruct Hi as (Hr & Ht).
  split; [apply (rep_length _ _ _ _ _ Hr)|].
  inversion Hr as [H1 H2 H3 H4 E1 E2|l0 k cs Hh E1 E2].
  - split; [intros i0 b Hb; destruct i0; discriminate|].
    intros l ->. cbn in Ht. congruence.
  - unfold byte_at. rewrite (hd_ptr _ _ _ _ _ _ Hh). pose proof (hd_live _ _ _ _ _ _ Hh) as Hl.
    split.
    + intros i0 b Hb. eapply load_value_at; [eassumption|]. apply (hd_shows _ _ _ _ _ _ Hh).
      subst l0. assumption.
    + intros l ->. cbn in *. eapply load_value_at; [eassumption|]. cbn. subst l0.
      apply (hd_end _ _ _ _ _ _ Hh). rewrite Ht. discriminate.
Qed.

(** No storage is shared or leaked: the live blocks are those of the live
    strings, one each; if all strings have been destroyed, none is left. *)
Theorem C42_no_leak_partial : forall W os a,
  sprogram W no_strings os a ->
  exists w, sruns W start os = Done w /\
    (forall k cs, live (w_mem w) k cs ->
       exists i s, w_str w i = Some s /\ m_ptr s = At k 0 /\
         forall j t, w_str w j = Some t -> m_ptr t = At k 0 -> j = i) /\
    ((forall i, a i = None) -> forall k cs, ~ live (w_mem w) k cs).
Proof.
  intros W os a H. destruct (program_refines W _ _ _ H start (start_related W)) as (w & E & R).
  exists w. split; [assumption|]. split.
  - intros k cs Hl. destruct (rl_owner _ _ _ R _ _ Hl) as (i & s & Hi & Hk).
    exists i, s. split; [assumption|]. split.
    + pose proof (rl_obj _ _ _ R i) as Ho. rewrite Hi in Ho. destruct (a i) as [c|]; [|contradiction].
      destruct Ho as (Hr & _). rewrite Hk in Hr. inversion Hr as [|l0 k0 cs0 Hh].
      apply (hd_ptr _ _ _ _ _ _ Hh).
    + intros j t Hj Ht. eapply (rl_apart _ _ _ R); [eassumption|eassumption| |eassumption].
      unfold owned. now rewrite Ht.
  - intros Hnone k cs Hl. destruct (rl_owner _ _ _ R _ _ Hl) as (i & s & Hi & _).
    pose proof (rl_obj _ _ _ R i) as Ho. rewrite Hi, Hnone in Ho. contradiction.
Qed.

(** Properly used also means: the operation is always possible if only its
    arguments are in range.  Together with the theorems above this says that
    strings that are never moved from cannot go wrong. *)
Theorem C42_proper_uses : forall W (a : strings) i c,
  a i = Some c ->
  (forall n, S n < W -> exists a', smeans W a (SResize i n) a') /\
  (forall n, S n < W -> exists a', smeans W a (SReserve i n) a') /\
  (forall src n, n <= length src -> S (length (chars c) + n) < W ->
     exists a', smeans W a (SAppend i src n) a') /\
  (forall j d, a j = Some d -> d <> Gone -> i <> j ->
     S (length (chars c) + length (chars d)) < W -> exists a', smeans W a (SAppendStr i j) a') /\
  (forall j d, a j = Some d -> exists a', smeans W a (SAssignMove i j) a') /\
  (c <> Gone -> forall j d, a j = Some d -> exists a', smeans W a (SAssign j i) a') /\
  (exists a', smeans W a (SDestroy i) a').
Proof.
  intros W a i c Hi. repeat split; intros; eexists; econstructor; eauto.
Qed.

(** Reading whole strings. *)
Lemma view_bytes_reads : forall w s l,
  reads w s (Chars (known l)) -> m_ptr s <> Null ->
  (v <- str_view s ;; view_bytes (w_mem w) v) = Done l.
Proof.
  intros w s l (H1 & H2 & _) Hn. unfold str_view, view_make.
  assert (assert_ (match m_ptr s with Null => false | _ => true end) = Done tt) as E
    by (destruct (m_ptr s); [congruence|reflexivity|reflexivity]).
  rewrite E. cbn [bind]. unfold view_bytes, view_data. cbn [v_str v_length]. rewrite E. cbn [bind].
  rewrite H1. cbn [chars]. rewrite known_length. unfold byte_at in H2. cbn [chars] in H2.
  assert (forall m r, l = m ++ r ->
            view_bytes_from (w_mem w) (m_ptr s) (length m) (length r) = Done r) as Hg.
  { intros m r. revert m. induction r as [|b r IH]; intros m Hl; [reflexivity|].
    cbn [length view_bytes_from]. rewrite (H2 (length m) b).
    - cbn [bind]. specialize (IH (m ++ [b])). rewrite app_length, Nat.add_1_r in IH.
      rewrite IH; [reflexivity|]. rewrite <- app_assoc. assumption.
    - unfold known. rewrite Hl, map_app, nth_error_app2; rewrite map_length; [|lia].
      now rewrite Nat.sub_diag. }
  apply (Hg [] l eq_refl).
Qed.

(** The bytes read through a StringView of the string, if all are known. *)
Theorem C42_view_partial : forall W os a i l,
  sprogram W no_strings os a -> a i = Some (Chars (known l)) ->
  exists w s, sruns W start os = Done w /\ w_str w i = Some s /\
    (v <- str_view s ;; view_bytes (w_mem w) v) = Done l.
Proof.
  intros W os a i l H Hi.
  destruct (program_refines W _ _ _ H start (start_related W)) as (w & E & R).
  destruct (C42_programs_read_back_partial _ _ _ H) as (w' & E' & Hw).
  rewrite E in E'. injection E' as <-.
  specialize (Hw i). rewrite Hi in Hw. destruct (w_str w i) as [s|] eqn:Hs; [|contradiction].
  exists w, s. split; [assumption|]. split; [assumption|].
  apply view_bytes_reads; [assumption|]. destruct (related_some _ _ _ _ _ R Hi) as (s' & Es & Hr & Ht).
  rewrite Hs in Es. injection Es as <-.
  inversion Hr as [H1 H2 H3|l0 k cs Hh]; [cbn in Ht; congruence|].
  rewrite (hd_ptr _ _ _ _ _ _ Hh). discriminate.
Qed.

(** A non-trivial program. *)
Definition ex_os : list sop :=
  [SMakeC 0 (lit "ab" ++ [NUL]); SMake 1 (lit "xyz") 2; SAppendStr 0 1; SMove 2 0;
   SAppendChar 0 "!"%char; SAppendView 2 0 0 1; SAssign 1 2; SReserve 1 20; SResize 2 2;
   SAssignMove 0 2; SDestroy 2].

Example C42_ex_program : exists a, sprogram 100 no_strings ex_os a /\
  a 0 = Some (Chars (known (lit "ab"))) /\
  a 1 = Some (Chars (known (lit "abxy!"))) /\ a 2 = None.
Proof.
  eexists. split.
  - unfold ex_os.
    eapply P_cons. { eapply (M_make_c 100 _ 0 _ (lit "ab")); [reflexivity| |cbn; lia].
      exists []. split; [reflexivity|]. cbn. intros [H|[H|[]]]; discriminate. }
    eapply P_cons. { eapply M_make; [reflexivity|cbn; lia|lia]. }
    eapply P_cons. { eapply M_append_str; [lia|reflexivity|reflexivity|discriminate|cbn; lia]. }
    eapply P_cons. { eapply M_move; reflexivity. }
    eapply P_cons. { eapply M_append_char; [reflexivity|cbn; lia]. }
    eapply P_cons. { eapply (M_append_view 100 _ 2 0 _ _ [] (known (lit "!")) []);
      [lia|reflexivity|reflexivity|discriminate|reflexivity|cbn; lia]. }
    eapply P_cons. { eapply M_assign; [reflexivity|reflexivity|discriminate]. }
    eapply P_cons. { eapply M_reserve; [reflexivity|lia]. }
    eapply P_cons. { eapply M_resize; [reflexivity|lia]. }
    eapply P_cons. { eapply M_assign_move; reflexivity. }
    eapply P_cons. { eapply M_destroy; reflexivity. }
    apply P_nil.
  - repeat split.
Qed.

(** ** C43 *)

(** Appending a part of a string to the string itself: it works if and only if
    the storage has room already; otherwise the bytes are read from storage that
    has been freed. *)
Theorem C43_own_part : forall W h s pre l post k cs,
  holds W h s (pre ++ l ++ post) k cs -> m_size s <> 0 ->
  S (length (pre ++ l ++ post) + length l) < W ->
  if length (pre ++ l ++ post) + length l <? m_capacity s
  then exists h' s', str_append W h s (At k (length pre)) (length l) = Done (h', s') /\
                     rep W h' s' ((pre ++ l ++ post) ++ l) (Some k)
  else str_append W h s (At k (length pre)) (length l) = Fault UseAfterFree.
Proof.
  intros W h s pre l post k cs H Hz Hfit. set (all := pre ++ l ++ post) in *.
  assert (rep W h s all (Some k)) as Hr by (econstructor; eassumption).
  pose proof (rep_validate _ _ _ _ _ Hr) as Hv.
  destruct (resize_ok W h s all (Some k) (length all + length l) Hr)
    as (h1 & s1 & k1 & cs1 & E & H1 & Hs1 & E1 & Hold & Hnew); [lia|].
  unfold str_append. rewrite Hv. cbn [bind]. rewrite (rep_length _ _ _ _ _ Hr).
  rewrite wadd_small by lia. rewrite E. cbn [bind fst snd].
  rewrite (hd_ptr _ _ _ _ _ _ H1). cbn [advance Nat.add].
  pose proof (hd_live _ _ _ _ _ _ H1) as Hl1.
  pose proof (hd_lt _ _ _ _ _ _ H1) as Hlt1. rewrite resized_length in Hlt1.
  assert (length all = length pre + (length l + length post)) as Hall
    by (unfold all; rewrite !app_length; reflexivity).
  destruct (length all + length l <? m_capacity s) eqn:Hc.
  - apply Nat.ltb_lt in Hc. destruct (Hold Hc) as (Ek & _). injection Ek as <-.
    set (ds := firstn (length l) (skipn (length pre) cs1)).
    assert (length ds = length l) as Hds.
    { unfold ds. rewrite firstn_length, skipn_length. lia. }
    assert (shows l ds) as Hsh.
    { intros i b Hb. assert (i < length l) by (apply nth_error_Some; congruence).
      unfold ds. rewrite nth_error_firstn_lt by assumption. rewrite nth_error_skipn_add.
      apply (hd_shows _ _ _ _ _ _ H1). unfold resized.
      assert (firstn (length all + length l) all = all) as -> by (apply firstn_all2; lia).
      unfold all. rewrite <- !app_assoc. rewrite nth_error_app2 by lia.
      replace (length pre + i - length pre) with i by lia. now rewrite nth_error_app1. }
    assert (memcpy h1 (At k (length all)) (At k (length pre)) (length l) =
            Done (spend (set_block h1 k (Some (splice cs1 (length all) ds))) (length l))) as ->.
    { unfold memcpy, valid. rewrite (find_block_live _ _ _ Hl1). cbn [bind].
      destruct (length all <=? length cs1) eqn:L1; [|apply Nat.leb_gt in L1; lia]. cbn [bind].
      destruct (length pre <=? length cs1) eqn:L2; [|apply Nat.leb_gt in L2; lia]. cbn [bind].
      rewrite (load_n_at _ _ _ _ _ _ Hl1) by lia. cbn [bind]. rewrite Nat.add_0_r. fold ds.
      assert (overlap (@At byte k (length all)) (At k (length pre)) (length l) = false) as ->.
      { unfold overlap. rewrite Nat.eqb_refl. cbn [andb].
        assert (length all <? length pre + length l = false \/ length l = 0) as [->|Hz0].
        { destruct (Nat.eq_dec (length l) 0); [right; assumption|left; apply Nat.ltb_ge; lia]. }
        - reflexivity.
        - rewrite Hz0, !Nat.add_0_r.
          destruct (length all <? length pre) eqn:X; [apply Nat.ltb_lt in X; lia|reflexivity]. }
      rewrite (store_n_at _ _ _ _ _ _ Hl1) by lia. cbn [bind]. now rewrite Nat.add_0_r. }
    cbn [bind].
    pose proof (write_ok _ _ _ _ _ _ (length all) ds l H1 Hsh (eq_sym Hds)) as H2.
    rewrite resized_length, Hds in H2. specialize (H2 (le_n _)).
    rewrite resized_grow in H2 by reflexivity.
    pose proof (holds_spend _ _ _ _ _ _ (length l) H2) as H3.
    rewrite (holds_validate _ _ _ _ _ _ H3). cbn [bind].
    do 2 eexists. split; [reflexivity|]. econstructor. exact H3.
  - apply Nat.ltb_ge in Hc. destruct (Hnew Hc) as (_ & _ & Hf). specialize (Hf k eq_refl).
    unfold memcpy, valid. rewrite (find_block_live _ _ _ Hl1). cbn [bind].
    destruct (length all <=? length cs1) eqn:L1; [|apply Nat.leb_gt in L1; lia]. cbn [bind].
    unfold find_block. rewrite Hf. reflexivity.
Qed.

(** The property: appending a string to itself doubles it. *)
Definition C43_full_statement : Prop :=
  forall W h s l k cs, holds W h s l k cs -> m_size s <> 0 -> S (length l + length l) < W ->
    exists h' s' k', str_append_str W h s s = Done (h', s') /\ rep W h' s' (l ++ l) (Some k').

(** Exactly the strings with enough spare capacity are doubled. *)
Theorem C43_self_append_partial : forall W h s l k cs,
  holds W h s l k cs -> m_size s <> 0 -> S (length l + length l) < W ->
  if 2 * length l <? m_capacity s
  then exists h' s', str_append_str W h s s = Done (h', s') /\ rep W h' s' (l ++ l) (Some k)
  else str_append_str W h s s = Fault UseAfterFree.
Proof.
  intros W h s l k cs H Hz Hfit.
  pose proof (C43_own_part W h s [] l [] k cs) as P. cbn [app length] in P.
  rewrite app_nil_r in P. specialize (P H Hz Hfit).
  unfold str_append_str. rewrite (hd_ptr _ _ _ _ _ _ H), (holds_length _ _ _ _ _ _ H).
  replace (2 * length l) with (length l + length l) by lia. assumption.
Qed.

Theorem C43_self_append_refuted :
  sruns 100 start [SMakeC 0 (lit "ab" ++ [NUL]); SAppendStr 0 0] = Fault UseAfterFree.
Proof. vm_compute. reflexivity. Qed.

Theorem C43_full_statement_refuted : ~ C43_full_statement.
Proof.
  intros F.
  destruct (str_make_ok 100 empty_heap (Ext (lit "ab")) 2 _ (known (lit "ab"))
              (source_ext _ _ (lit "ab") 2 (le_n _)) (shows_refl _) eq_refl)
    as (h & s & k & E & Hr & _ & Hsz & Hcap & _); [lia|].
  inversion Hr as [|l0 k0 cs Hh]. 
  pose proof (C43_self_append_partial 100 h s _ k cs Hh) as P.
  cbn [length known map lit list_ascii_of_string] in P. rewrite Hcap in P. cbn in P.
  destruct (F 100 h s _ k cs Hh) as (h' & s' & k' & E' & _);
    [rewrite Hsz; discriminate|cbn; lia|].
  rewrite P in E'; [discriminate|rewrite Hsz; discriminate|lia].
Qed.

(** With reserved storage it works (the first branch above is taken). *)
Example C43_ex_reserved : exists w s,
  sruns 100 start [SMakeC 0 (lit "ab" ++ [NUL]); SReserve 0 4; SAppendStr 0 0] = Done w /\
  w_str w 0 = Some s /\ (v <- str_view s ;; view_bytes (w_mem w) v) = Done (lit "abab").
Proof. do 2 eexists. split; [vm_compute; reflexivity|]. split; reflexivity. Qed.

(** ** C44 *)

(** Two strings compare equal exactly if they have the same bytes. *)
Lemma memcmp_reads : forall h p q l m n,
  (forall i b, nth_error l i = Some b -> load_value h p (n + i) = Done b) ->
  (forall i b, nth_error m i = Some b -> load_value h q (n + i) = Done b) ->
  length l = length m ->
  exists b, memcmp_eq h p q n (length l) = Done b /\ (b = true <-> l = m).
Proof.
  intros h p q l. induction l as [|x l IH]; intros [|y m] n Hl Hm Hlen; try discriminate.
  - exists true. split; [reflexivity|tauto].
  - cbn [length memcmp_eq].
    pose proof (Hl 0 x eq_refl) as Lx. pose proof (Hm 0 y eq_refl) as Ly.
    rewrite Nat.add_0_r in Lx, Ly. rewrite Lx, Ly. cbn [bind].
    destruct (Ascii.eqb x y) eqn:E.
    + apply Ascii.eqb_eq in E. subst y.
      destruct (IH m (S n)) as (b & Hb & Hiff).
      * intros i b Hb. rewrite Nat.add_succ_comm. apply (Hl (S i)). assumption.
      * intros i b Hb. rewrite Nat.add_succ_comm. apply (Hm (S i)). assumption.
      * injection Hlen. auto.
      * exists b. split; [assumption|]. rewrite Hiff. split; congruence.
    + apply Ascii.eqb_neq in E. exists false. split; [reflexivity|]. split; congruence.
Qed.

(** A view shows the bytes [l]: they can be read, and its pointer is valid. *)
Definition view_of (h : mem) (v : view) (l : bytes) : Prop :=
  v_length v = length l /\ v_str v <> Null /\ valid h (v_str v) = Done tt /\
  forall i b, nth_error l i = Some b -> load_value h (v_str v) i = Done b.

Lemma not_null : forall (p : ptr), p <> Null ->
  assert_ (match p with Null => false | _ => true end) = Done tt.
Proof. intros [| |] H; [congruence|reflexivity|reflexivity]. Qed.

Theorem C44_equal_iff_same_bytes : forall h v w l m,
  view_of h v l -> view_of h w m ->
  exists b, view_eq h v w = Done b /\ (b = true <-> l = m).
Proof.
  intros h v w l m (L1 & N1 & V1 & R1) (L2 & N2 & V2 & R2). unfold view_eq.
  rewrite L1, L2. destruct (length l =? length m) eqn:E; cbn [negb].
  - apply Nat.eqb_eq in E. unfold view_data. rewrite !not_null by assumption. cbn [bind].
    rewrite V1, V2. cbn [bind]. apply (memcmp_reads h _ _ l m 0); auto.
  - apply Nat.eqb_neq in E. exists false. split; [reflexivity|]. split; [discriminate|congruence].
Qed.

(** The hash as a polynomial in 33, modulo 2^64. *)
Fixpoint djb2 (sg : bool) (l : bytes) : Z :=
  match l with
  | [] => 0%Z
  | c :: r => (char_val sg c * 33 ^ Z.of_nat (length r) + djb2 sg r)%Z
  end.

Definition djb2_hash (sg : bool) (l : bytes) : Z :=
  ((5381 * 33 ^ Z.of_nat (length l) + djb2 sg l) mod 2 ^ 64)%Z.

Lemma hash_step_mod : forall sg h c,
  hash_step sg h c = ((33 * h + char_val sg c) mod 2 ^ 64)%Z.
Proof.
  intros sg h c. unfold hash_step. change two64 with (2 ^ 64)%Z.
  rewrite Z.add_mod_idemp_l by discriminate.
  replace ((h * 32) mod 2 ^ 64 + h + char_val sg c)%Z
    with ((h * 32) mod 2 ^ 64 + (h + char_val sg c))%Z by ring.
  rewrite Z.add_mod_idemp_l by discriminate. f_equal. ring.
Qed.

Lemma hash_from_reads : forall sg h p l n acc,
  (forall i b, nth_error l i = Some b -> load_value h p (n + i) = Done b) ->
  (0 <= acc < 2 ^ 64)%Z ->
  hash_from sg h p n (length l) acc =
  Done ((acc * 33 ^ Z.of_nat (length l) + djb2 sg l) mod 2 ^ 64)%Z.
Proof.
  intros sg h p l. induction l as [|c l IH]; intros n acc Hr Ha.
  - cbn [length hash_from djb2]. cbn [Z.of_nat]. rewrite Z.pow_0_r, Z.mul_1_r, Z.add_0_r.
    now rewrite Z.mod_small.
  - cbn [length hash_from].
    pose proof (Hr 0 c eq_refl) as Lc. rewrite Nat.add_0_r in Lc. rewrite Lc. cbn [bind].
    rewrite IH.
    + rewrite hash_step_mod. f_equal. cbn [djb2].
      rewrite Nat2Z.inj_succ, Z.pow_succ_r by lia.
      rewrite <- Z.add_mod_idemp_l, Z.mul_mod_idemp_l, Z.add_mod_idemp_l by discriminate.
      f_equal. ring.
    + intros i b Hb. rewrite Nat.add_succ_comm. apply (Hr (S i)). assumption.
    + rewrite hash_step_mod. apply Z.mod_pos_bound. reflexivity.
Qed.

(** The hash of a view depends on its bytes only, wherever they are stored, and
    on the signedness of char. *)
Theorem C44_hash_of_bytes : forall sg h v l,
  view_of h v l -> view_hash sg h v = Done (djb2_hash sg l).
Proof.
  intros sg h v l (L & N & _ & R). unfold view_hash, view_data. rewrite not_null by assumption.
  cbn [bind]. rewrite L. apply (hash_from_reads sg h (v_str v) l 0 5381%Z); [exact R|lia].
Qed.

(** A String hashes and compares as a StringView of the same bytes does. *)
Theorem C44_string_as_view : forall sg W h s l k cs v m,
  holds W h s (known l) k cs -> view_of h v m ->
  exists u, str_view s = Done u /\ view_of h u l /\
    str_hash sg h s = Done (djb2_hash sg l) /\
    (exists b, view_eq h u v = Done b /\ (b = true <-> l = m)) /\
    (l = m -> view_hash sg h v = str_hash sg h s).
Proof.
  intros sg W h s l k cs v m H Hv. exists (View (At k 0) (length l)).
  assert (str_view s = Done (View (At k 0) (length l))) as E.
  { unfold str_view, view_make. rewrite (hd_ptr _ _ _ _ _ _ H), (holds_length _ _ _ _ _ _ H).
    rewrite known_length. reflexivity. }
  assert (view_of h (View (At k 0) (length l)) l) as Hu.
  { split; [reflexivity|]. split; [discriminate|]. split.
    - cbn. rewrite (find_block_live _ _ _ (hd_live _ _ _ _ _ _ H)). reflexivity.
    - intros i b Hb. cbn [v_str]. eapply load_value_at; [apply (hd_live _ _ _ _ _ _ H)|].
      apply (hd_shows _ _ _ _ _ _ H). cbn. unfold known. rewrite nth_error_map, Hb. reflexivity. }
  split; [assumption|]. split; [assumption|]. unfold str_hash. rewrite E. cbn [bind].
  split; [apply C44_hash_of_bytes; assumption|]. split.
  - apply C44_equal_iff_same_bytes; assumption.
  - intros <-. rewrite !(C44_hash_of_bytes sg h _ l) by assumption. reflexivity.
Qed.

(** The hash used by the model of the hash map is this one. *)
Theorem C44_hash_of_map : forall sg l, hash_string sg l = djb2_hash sg l.
Proof.
  intros sg l. unfold hash_string, hash_view, djb2_hash.
  assert (forall r acc, (0 <= acc < 2 ^ 64)%Z ->
            fold_left (hash_step sg) r acc =
            ((acc * 33 ^ Z.of_nat (length r) + djb2 sg r) mod 2 ^ 64)%Z) as H.
  { intros r acc Ha.
    pose proof (hash_from_reads sg empty_heap (Ext r) r 0 acc) as P.
    specialize (P ltac:(intros i b Hb; unfold load_value, load; cbn; now rewrite Hb) Ha).
    assert (forall q n a0, hash_from sg empty_heap (Ext (firstn n r ++ q)) n (length q) a0 =
              Done (fold_left (hash_step sg) q a0) \/ n > length r) as Hf.
    { induction q as [|c q IH]; intros n a0; [left; reflexivity|].
      destruct (Nat.le_gt_cases n (length r)) as [Hn|]; [left|right; lia].
      cbn [length hash_from]. unfold load_value at 1, load at 1.
      rewrite nth_error_app2; rewrite firstn_length; [|lia].
      replace (n - Nat.min n (length r)) with 0 by lia. cbn [nth_error bind fold_left].
      assert (forall n q0 a1 pre, length pre = n ->
                hash_from sg empty_heap (Ext (pre ++ q0)) n (length q0) a1 =
                Done (fold_left (hash_step sg) q0 a1)) as Hg.
      { intros n0 q0. revert n0. induction q0 as [|d q0 IHq]; intros n0 a1 pre Hp; [reflexivity|].
        cbn [length hash_from]. unfold load_value at 1, load at 1.
        rewrite nth_error_app2, Hp, Nat.sub_diag by lia. cbn [nth_error bind fold_left].
        specialize (IHq (S n0) (hash_step sg a1 d) (pre ++ [d])).
        rewrite app_length, <- app_assoc in IHq. cbn [length app] in IHq. apply IHq. lia. }
      specialize (Hg (S n) q (hash_step sg a0 c) (firstn n r ++ [c])).
      rewrite <- app_assoc in Hg. cbn [app] in Hg. apply Hg.
      rewrite app_length, firstn_length. cbn. lia. }
    destruct (Hf r 0 acc) as [Hf0|]; [|lia]. cbn [firstn app] in Hf0.
    rewrite Hf0 in P. injection P. auto. }
  apply H. lia.
Qed.

(** Bytes above 127 count as negative numbers where char is signed. *)
Example C44_ex_signed :
  djb2_hash true ["200"%char] = 177517%Z /\ djb2_hash false ["200"%char] = 177773%Z.
Proof. split; reflexivity. Qed.

(** ** C55 *)

(** Appending [l] character by character to an empty string. *)
Definition one_by_one (l : bytes) : list sop := SMakeC 0 [NUL] :: map (SAppendChar 0) l.

(** The property: it copies a number of bytes proportional to the length. *)
Definition C55_full_statement : Prop :=
  exists C, forall W l w, S (S (length l)) < W -> sruns W start (one_by_one l) = Done w ->
    cost (w_mem w) <= C * S (length l).

Lemma append_chars_cost : forall W l w s m k,
  w_str w 0 = Some s -> rep W (w_mem w) s m (Some k) -> m_capacity s = S (length m) ->
  S (S (length m + length l)) < W ->
  exists w' s', sruns W w (map (SAppendChar 0) l) = Done w' /\ w_str w' 0 = Some s' /\
    2 * cost (w_mem w') + length m * (length m + 1) =
    2 * cost (w_mem w) + (length m + length l) * (length m + length l + 1).
Proof.
  intros W l. induction l as [|b l IH]; intros w s m k Hs Hr Hc Hfit; cbn [map sruns length].
  - exists w, s. split; [reflexivity|]. split; [assumption|]. rewrite Nat.add_0_r. reflexivity.
  - cbn [sstep]. unfold var. rewrite Hs. cbn [bind]. unfold str_append_char.
    destruct (append_ok W _ _ _ _ (Ext [b]) 1 _ (known [b]) Hr (source_ext _ _ [b] 1 (le_n _))
                (shows_refl _)) as (h' & s' & k' & -> & Hr' & _ & _ & Hcost & Hcap);
      [reflexivity|cbn in Hfit; lia|].
    cbn [bind]. rewrite Hc in Hcost, Hcap.
    destruct (length m + 1 <? S (length m)) eqn:Hlt; [apply Nat.ltb_lt in Hlt; lia|].
    assert (length (m ++ known [b]) = S (length m)) as Hl
      by (rewrite app_length; cbn; lia).
    destruct (IH (set1 w 0 (h', s')) s' (m ++ known [b]) k') as (w' & s'' & E & Es & Hcst).
    + reflexivity.
    + exact Hr'.
    + rewrite Hl. lia.
    + rewrite Hl. cbn in Hfit. lia.
    + exists w', s''. split; [assumption|]. split; [assumption|].
      rewrite Hl in Hcst. cbn [w_mem set1 fst] in Hcst. rewrite Hcost in Hcst.
      cbn [length] in Hcst. lia.
Qed.

(** Exactly n(n+1)/2 bytes are copied. *)
Theorem C55_append_cost : forall W l, S (S (length l)) < W ->
  exists w, sruns W start (one_by_one l) = Done w /\
    2 * cost (w_mem w) = length l * (length l + 1).
Proof.
  intros W l Hfit. unfold one_by_one. cbn [sruns sstep]. unfold unused. cbn [w_str start bind].
  unfold str_make_c.
  assert (c_string [NUL] []) as Hcs by (exists []; split; [reflexivity|auto]).
  rewrite (strlen_ext _ _ _ Hcs). cbn [bind length].
  destruct (str_make_ok W (w_mem start) (Ext [NUL]) 0 _ [] (source_ext _ _ [NUL] 0 (le_S _ _ (le_n _)))
              (shows_refl _) eq_refl) as (h & s & k & -> & Hr & _ & _ & Hc & Hcost); [lia|].
  cbn [bind].
  destruct (append_chars_cost W l (set1 start 0 (h, s)) s [] k eq_refl Hr Hc) as (w & s' & E & _ & H).
  { cbn. assumption. }
  exists w. split; [assumption|]. cbn [w_mem set1 fst] in H. rewrite Hcost in H. cbn in H. lia.
Qed.

Theorem C55_append_linear_refuted : ~ C55_full_statement.
Proof.
  intros (C & H). set (l := repeat NUL (4 * C + 4)).
  assert (length l = 4 * C + 4) as Hl by apply repeat_length.
  destruct (C55_append_cost (S (S (S (length l)))) l) as (w & E & Hc); [lia|].
  specialize (H _ l w (le_n _) E). rewrite Hl in *. nia.
Qed.

(** If the storage is reserved first, every byte is copied once. *)
Lemma append_chars_reserved : forall W l w s m k,
  w_str w 0 = Some s -> rep W (w_mem w) s m (Some k) -> length m + length l < m_capacity s ->
  m_capacity s < W ->
  exists w' s', sruns W w (map (SAppendChar 0) l) = Done w' /\ w_str w' 0 = Some s' /\
    cost (w_mem w') = cost (w_mem w) + length l.
Proof.
  intros W l. induction l as [|b l IH]; intros w s m k Hs Hr Hc Hfit; cbn [map sruns length].
  - exists w, s. split; [reflexivity|]. split; [assumption|]. lia.
  - cbn [sstep]. unfold var. rewrite Hs. cbn [bind]. unfold str_append_char. cbn [length] in Hc.
    destruct (append_ok W _ _ _ _ (Ext [b]) 1 _ (known [b]) Hr (source_ext _ _ [b] 1 (le_n _))
                (shows_refl _)) as (h' & s' & k' & -> & Hr' & _ & _ & Hcost & Hcap);
      [reflexivity|lia|].
    cbn [bind].
    destruct (length m + 1 <? m_capacity s) eqn:Hlt; [|apply Nat.ltb_ge in Hlt; lia].
    assert (length (m ++ known [b]) = S (length m)) as Hl
      by (rewrite app_length; cbn; lia).
    destruct (IH (set1 w 0 (h', s')) s' (m ++ known [b]) k') as (w' & s'' & E & Es & Hcst).
    + reflexivity.
    + exact Hr'.
    + rewrite Hl. lia.
    + lia.
    + exists w', s''. split; [assumption|]. split; [assumption|].
      rewrite Hcst. cbn [w_mem set1 fst]. lia.
Qed.

Theorem C55_reserved_linear_partial : forall W l, S (S (length l)) < W ->
  exists w, sruns W start (SMakeC 0 [NUL] :: SReserve 0 (length l) :: map (SAppendChar 0) l) = Done w /\
    cost (w_mem w) = length l.
Proof.
  intros W l Hfit. cbn [sruns]. cbn [sstep]. unfold unused at 1. cbn [w_str start bind].
  unfold str_make_c.
  assert (c_string [NUL] []) as Hcs by (exists []; split; [reflexivity|auto]).
  rewrite (strlen_ext _ _ _ Hcs). cbn [bind length].
  destruct (str_make_ok W (w_mem start) (Ext [NUL]) 0 _ [] (source_ext _ _ [NUL] 0 (le_S _ _ (le_n _)))
              (shows_refl _) eq_refl) as (h & s & k & -> & Hr & _ & _ & Hc & Hcost); [lia|].
  cbn [bind]. unfold var. cbn [w_str set1 fst snd put Nat.eqb bind w_mem].
  destruct (reserve_ok W h s [] (Some k) (length l) Hr) as (h' & s' & k' & -> & Hr' & Hlt & _ & _ & Hsame & Hnew);
    [lia|]. cbn [bind].
  destruct (Nat.lt_ge_cases (length l) (m_capacity s)) as [Hs|Hs].
  - destruct (Hsame Hs) as (-> & -> & _).
    destruct (append_chars_reserved W l (set1 (set1 start 0 (h, s)) 0 (h, s)) s [] k' eq_refl Hr')
      as (w & s'' & E & _ & H); [cbn; lia|lia|].
    exists w. split; [assumption|]. rewrite H. cbn [w_mem set1 fst]. rewrite Hcost. cbn. lia.
  - destruct (Hnew Hs) as (Hcost' & Hcap' & _).
    destruct (append_chars_reserved W l (set1 (set1 start 0 (h, s)) 0 (h', s')) s' [] k' eq_refl Hr')
      as (w & s'' & E & _ & H); [cbn; lia|lia|].
    exists w. split; [assumption|]. rewrite H. cbn [w_mem set1 fst]. rewrite Hcost', Hcost. cbn. lia.
Qed.

Example C55_ex : exists w, sruns 100 start (one_by_one (lit "abcd")) = Done w /\ cost (w_mem w) = 10.
Proof. eexists. split; [vm_compute; reflexivity|]. reflexivity. Qed.

(** * Assumptions *)
Print Assumptions C42_copy_of_reserved_refuted.
Print Assumptions C42_full_statement_refuted.
Print Assumptions C42_moved_from_refuted.
Print Assumptions C42_moved_from_unusable.
Print Assumptions C42_resize_wraps_refuted.
Print Assumptions C42_programs_read_back_partial.
Print Assumptions C42_no_leak_partial.
Print Assumptions C42_proper_uses.
Print Assumptions C42_view_partial.
Print Assumptions C43_own_part.
Print Assumptions C43_self_append_partial.
Print Assumptions C43_self_append_refuted.
Print Assumptions C43_full_statement_refuted.
Print Assumptions C44_equal_iff_same_bytes.
Print Assumptions C44_hash_of_bytes.
Print Assumptions C44_string_as_view.
Print Assumptions C44_hash_of_map.
Print Assumptions C55_append_cost.
Print Assumptions C55_append_linear_refuted.
Print Assumptions C55_reserved_linear_partial.
