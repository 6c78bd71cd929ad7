(** The Vector model refines VectorMemSpec.v. *)
From Coq Require Import Bool PeanoNat Lia List.
From Verif Require Import Util Base Mem MemProofs MemOwners VectorMem VectorMemSpec.
Import ListNotations.

Section VectorMemProofs.
Context {V : Type}.
Variable dflt : V.
Variable moved : V -> V.
Variable sizeT : nat.
Variable W : nat.
Hypothesis sizeT_pos : 0 < sizeT.
Implicit Types (h : vmem V) (b : vec V) (l : list V) (k cap : nat).

(** The cells of a block with [cap] slots, the first of which hold [l]. *)
Definition cells l cap : list (cell V) := map Some l ++ repeat None (cap - length l).

Definition buf (k cap n : nat) : vec V := Buffer (At k 0) cap sizeT n n.

Lemma cells_length : forall l cap, length l <= cap -> length (cells l cap) = cap.
Proof. intros l cap H. unfold cells. rewrite app_length, map_length, repeat_length. lia. Qed.

Lemma cells_nth : forall l cap i v, nth_error l i = Some v ->
  nth_error (cells l cap) i = Some (Some v).
Proof.
  intros l cap i v H. unfold cells. rewrite nth_error_app1.
  - now rewrite nth_error_map, H.
  - rewrite map_length. apply nth_error_Some. congruence.
Qed.

Lemma cells_end : forall l cap, length l < cap -> nth_error (cells l cap) (length l) = Some None.
Proof.
  intros l cap H. unfold cells. rewrite nth_error_app2, map_length, Nat.sub_diag
    by (rewrite map_length; lia).
  destruct (cap - length l) as [|n] eqn:E; [lia|]. reflexivity.
Qed.

Lemma cells_push : forall l cap v, length l < cap ->
  set_nth (cells l cap) (length l) (Some v) = cells (l ++ [v]) cap.
Proof.
  intros l cap v H. unfold cells. rewrite map_app, <- app_assoc, app_length. cbn [length map].
  rewrite <- (map_length (@Some V) l) at 2. rewrite set_nth_app. f_equal.
  destruct (cap - length l) as [|n] eqn:E; [lia|].
  replace (cap - (length l + 1)) with n by lia. reflexivity.
Qed.

Lemma cells_pop : forall l cap v, length l < cap ->
  set_nth (cells (l ++ [v]) cap) (length l) None = cells l cap.
Proof.
  intros l cap v H. unfold cells. rewrite map_app, <- app_assoc, app_length. cbn [length map].
  rewrite <- (map_length (@Some V) l) at 2. rewrite set_nth_app. f_equal.
  destruct (cap - length l) as [|n] eqn:E; [lia|].
  replace (cap - (length l + 1)) with n by lia. reflexivity.
Qed.

Lemma cells_set : forall l x r cap v,
  set_nth (cells (l ++ x :: r) cap) (length l) (Some v) = cells (l ++ v :: r) cap.
Proof.
  intros l x r cap v. unfold cells. rewrite !map_app, <- !app_assoc, !app_length. cbn [length map].
  rewrite <- (map_length (@Some V) l) at 2. rewrite set_nth_app. reflexivity.
Qed.

Record vholds h b l k cap : Prop := VHolds {
  vh_buf : b = buf k cap (length l);
  vh_live : live h k (cells l cap);
  vh_le : length l <= cap;
  vh_pos : 0 < cap;
  vh_fits : cap * sizeT < W
}.

Inductive vrep h b l : Prop :=
| vrep_null : m_ptr b = Null -> m_capacity b = 0 -> m_size b = 0 -> m_constructed b = 0 ->
              l = [] -> vrep h b l
| vrep_at : forall k cap, vholds h b l k cap -> vrep h b l.

Lemma vrep_size : forall h b l, vrep h b l -> m_size b = length l.
Proof. intros h b l [H1 H2 H3 H4 ->|k cap [-> _ _ _ _]]; [assumption|reflexivity]. Qed.

Lemma vrep_le : forall h b l, vrep h b l -> length l <= m_capacity b.
Proof. intros h b l [H1 H2 H3 H4 ->|k cap [-> _ H _ _]]; [cbn; lia|assumption]. Qed.

Lemma vrep_fits : forall h b l, vrep h b l -> 0 < W -> m_capacity b * sizeT < W.
Proof. intros h b l [H1 H2 H3 H4 ->|k cap [-> _ _ _ H]] HW; [rewrite H2; lia|assumption]. Qed.

Lemma vholds_owner : forall h b l k cap, vholds h b l k cap -> owner_of b = Some k.
Proof. intros h b l k cap [-> _ _ _ _]. reflexivity. Qed.

Lemma vrep_live : forall h b l k, vrep h b l -> owner_of b = Some k -> exists cs, live h k cs.
Proof.
  intros h b l k [H1 _ _ _ _|k' cap H] E.
  - unfold owner_of in E. rewrite H1 in E. discriminate.
  - rewrite (vholds_owner _ _ _ _ _ H) in E. injection E as ->. eexists. apply (vh_live _ _ _ _ _ H).
Qed.

Lemma vrep_frame : forall h b l h' o o', vrep h b l -> evolves h o h' o' ->
  (forall k, owner_of b = Some k -> o <> Some k) -> vrep h' b l.
Proof.
  intros h b l h' o o' [H1 H2 H3 H4 H5|k cap H] E Ho.
  - apply vrep_null; assumption.
  - apply vrep_at with k cap. pose proof (vholds_owner _ _ _ _ _ H) as Hk. destruct H.
    constructor; auto. destruct (proj2 E _ _ vh_live0) as (? & _); auto.
Qed.

Lemma vrep_nothing : forall h, vrep h moved_buffer [].
Proof. intros h. apply vrep_null; reflexivity. Qed.

Lemma vholds_spend : forall h b l k cap n, vholds h b l k cap -> vholds (spend h n) b l k cap.
Proof. intros h b l k cap n []. constructor; assumption. Qed.

(** ** Single steps *)

Lemma constructNext_ok : forall h b l k cap v, vholds h b l k cap -> length l < cap ->
  constructNext sizeT h b v =
  Done (set_block h k (Some (cells (l ++ [v]) cap)), buf k cap (S (length l))).
Proof.
  intros h b l k cap v [-> Hl Hle Hp Hf] Hlt. unfold constructNext, buf.
  cbn [m_ptr m_size m_capacity m_chunkSize m_constructed assert_ bind].
  apply Nat.ltb_lt in Hlt as Hlt'. rewrite Hlt', Nat.eqb_refl. cbn [assert_ bind].
  rewrite (load_at h k 0 (length l) _ _ Hl (cells_end _ _ Hlt)). cbn [bind].
  rewrite (store_at _ _ _ _ _ _ Hl) by (rewrite cells_length by lia; cbn; lia).
  cbn [bind Nat.add]. rewrite cells_push by assumption. reflexivity.
Qed.

Lemma constructNext_holds : forall h b l k cap v, vholds h b l k cap -> length l < cap ->
  vholds (set_block h k (Some (cells (l ++ [v]) cap))) (buf k cap (S (length l))) (l ++ [v]) k cap.
Proof.
  intros h b l k cap v [-> Hl Hle Hp Hf] Hlt. constructor; auto.
  - rewrite app_length, Nat.add_1_r. reflexivity.
  - eapply live_set_block_eq. eassumption.
  - rewrite app_length. cbn. lia.
Qed.

Lemma destructLast_ok : forall h b l v k cap, vholds h b (l ++ [v]) k cap ->
  destructLast sizeT h b = Done (set_block h k (Some (cells l cap)), buf k cap (length l)).
Proof.
  intros h b l v k cap [-> Hl Hle Hp Hf]. rewrite app_length, Nat.add_1_r in *.
  unfold destructLast, buf.
  cbn [m_ptr m_size m_capacity m_chunkSize m_constructed assert_ bind Nat.ltb Nat.leb].
  rewrite Nat.eqb_refl. cbn [assert_ bind].
  replace (S (length l) - 1) with (length l) by lia.
  rewrite (load_value_at _ _ _ _ _ v Hl).
  2:{ apply cells_nth. cbn. rewrite nth_error_app2, Nat.sub_diag by lia. reflexivity. }
  cbn [bind].
  rewrite (store_at _ _ _ _ _ _ Hl).
  2:{ rewrite cells_length; rewrite ?app_length; cbn; lia. }
  cbn [bind Nat.add]. rewrite cells_pop by lia. reflexivity.
Qed.

Lemma vholds_write : forall h b l k cap m, vholds h b l k cap -> length m <= cap ->
  vholds (set_block h k (Some (cells m cap))) (buf k cap (length m)) m k cap.
Proof.
  intros h b l k cap m [-> Hl Hle Hp Hf] Hm. constructor; auto. eapply live_set_block_eq. eassumption.
Qed.

Lemma destruct_to_ok : forall r h b l k cap fuel, vholds h b (l ++ r) k cap -> length r <= fuel ->
  destruct_to sizeT fuel h b (length l) =
  Done (set_block h k (Some (cells l cap)), buf k cap (length l)).
Proof.
  induction r as [|v r IH] using rev_ind; intros h b l k cap fuel H Hf.
  - rewrite app_nil_r in H. pose proof H as [-> Hl _ _ _].
    assert (m_size (buf k cap (length l)) = length l) as Hs by reflexivity.
    destruct fuel; cbn [destruct_to]; rewrite Hs, Nat.ltb_irrefl;
      rewrite set_block_same by assumption; reflexivity.
  - rewrite app_length in Hf. cbn in Hf. destruct fuel as [|fuel]; [lia|]. cbn [destruct_to].
    pose proof (vh_buf _ _ _ _ _ H) as Hb. rewrite app_assoc in H.
    assert (m_size b = length l + S (length r)) as Hs.
    { rewrite Hb. cbn. rewrite !app_length. cbn. lia. }
    rewrite Hs. destruct (length l <? length l + S (length r)) eqn:E; [|apply Nat.ltb_ge in E; lia].
    rewrite (destructLast_ok _ _ _ _ _ _ H). cbn [bind fst snd].
    rewrite (IH _ _ l k cap).
    + rewrite set_block_twice. reflexivity.
    + eapply vholds_write; [eassumption|].
      pose proof (vh_le _ _ _ _ _ H) as Hle. rewrite app_length in Hle. lia.
    + lia.
Qed.

Lemma construct_to_ok : forall n h b l k cap fuel, vholds h b l k cap ->
  length l + n <= cap -> n <= fuel ->
  construct_to dflt sizeT fuel h b (length l + n) =
  Done (set_block h k (Some (cells (l ++ repeat dflt n) cap)), buf k cap (length l + n)).
Proof.
  induction n as [|n IH]; intros h b l k cap fuel H Hc Hf.
  - pose proof H as [-> Hl _ _ _]. rewrite Nat.add_0_r. cbn [repeat]. rewrite app_nil_r.
    assert (m_size (buf k cap (length l)) = length l) as Hs by reflexivity.
    destruct fuel; cbn [construct_to]; rewrite Hs, Nat.ltb_irrefl;
      rewrite set_block_same by assumption; reflexivity.
  - destruct fuel as [|fuel]; [lia|]. cbn [construct_to].
    assert (m_size b = length l) as Hs by (rewrite (vh_buf _ _ _ _ _ H); reflexivity).
    rewrite Hs. destruct (length l <? length l + S n) eqn:E; [|apply Nat.ltb_ge in E; lia].
    rewrite (constructNext_ok _ _ _ _ _ dflt H) by lia. cbn [bind fst snd].
    specialize (IH _ _ (l ++ [dflt]) k cap fuel (constructNext_holds _ _ _ _ _ dflt H ltac:(lia))).
    rewrite app_length in IH. cbn [length] in IH.
    replace (length l + 1 + n) with (length l + S n) in IH by lia.
    rewrite IH by lia. rewrite set_block_twice, <- app_assoc. reflexivity.
Qed.

Lemma make_vec : forall h n, n * sizeT < W ->
  (n = 0 -> buffer_make W h n sizeT = Done (h, Buffer Null 0 sizeT 0 0)) /\
  (0 < n -> buffer_make W h n sizeT = Done (fst (alloc h n), buf (length (blocks h)) n 0) /\
            vholds (fst (alloc h n)) (buf (length (blocks h)) n 0) [] (length (blocks h)) n).
Proof.
  intros h n Hf. unfold buffer_make, wmul.
  assert (0 <? sizeT = true) as Hs by (apply Nat.ltb_lt; assumption). rewrite Hs.
  rewrite Nat.mod_small by assumption. split; intros Hn.
  - subst n. reflexivity.
  - assert (0 <? n * sizeT = true) as -> by (apply Nat.ltb_lt; nia).
    rewrite Nat.div_mul by lia. split; [reflexivity|]. constructor; auto.
    + unfold cells. cbn [map app length]. rewrite Nat.sub_0_r. apply live_alloc_new.
    + cbn. lia.
Qed.

(** ** Loops over elements *)

Lemma source_load : forall h o p n ds i v, source h o p n ds ->
  nth_error ds i = Some (Some v) -> load_value h p i = Done v.
Proof.
  intros h o p n ds i v H Hi. destruct p as [|c off|e]; cbn in H.
  - contradiction.
  - destruct H as (_ & cs & Hl & Hn & ->). assert (i < n) as Hin.
    { assert (i < length (firstn n (skipn off cs))) by (apply nth_error_Some; congruence).
      rewrite firstn_length in *. lia. }
    eapply load_value_at; [eassumption|].
    rewrite nth_error_firstn_lt, nth_error_skipn_add in Hi by assumption. assumption.
  - destruct H as (Hn & ->). unfold load_value, load. rewrite nth_error_map in Hi.
    destruct (nth_error (firstn n e) i) as [x|] eqn:Ex; [|discriminate]. injection Hi as ->.
    assert (i < n) as Hin.
    { assert (i < length (firstn n e)) by (apply nth_error_Some; congruence).
      rewrite firstn_length in *. lia. }
    rewrite nth_error_firstn_lt in Ex by assumption. rewrite Ex. reflexivity.
Qed.

Lemma copy_loop_ok : forall l2 l1 h b p k cap n,
  vholds h b l1 k cap -> length l1 + length l2 <= cap ->
  source h (Some k) p n (map Some (l1 ++ l2)) ->
  exists h', copy_loop sizeT h b p (length l1) (length l2) =
             Done (h', buf k cap (length l1 + length l2)) /\
    vholds h' (buf k cap (length l1 + length l2)) (l1 ++ l2) k cap /\
    evolves h (Some k) h' (Some k) /\ cost h' = cost h + length l2.
Proof.
  induction l2 as [|v l2 IH]; intros l1 h b p k cap n H Hc Hs.
  - exists h. cbn [length copy_loop]. rewrite Nat.add_0_r, app_nil_r.
    rewrite <- (vh_buf _ _ _ _ _ H). split; [reflexivity|]. split; [assumption|].
    split; [apply evolves_refl|lia].
  - cbn [length copy_loop].
    rewrite (source_load _ _ _ _ _ (length l1) v Hs).
    2:{ rewrite map_app, nth_error_app2; rewrite map_length; [|lia].
        now rewrite Nat.sub_diag. }
    cbn [bind]. cbn [length] in Hc. rewrite (constructNext_ok _ _ _ _ _ v H) by lia.
    cbn [bind fst snd].
    pose proof (constructNext_holds _ _ _ _ _ v H ltac:(lia)) as H1.
    set (h1 := set_block h k (Some (cells (l1 ++ [v]) cap))) in *.
    assert (evolves h (Some k) h1 (Some k)) as E1
      by (eapply evolves_write, (vh_live _ _ _ _ _ H)).
    pose proof (source_evolves _ _ _ _ _ _ _ Hs E1) as Hs1.
    destruct (IH (l1 ++ [v]) (spend h1 1) (buf k cap (S (length l1))) p k cap n)
      as (h' & E & H' & E' & C').
    + apply vholds_spend. assumption.
    + rewrite app_length. cbn. lia.
    + rewrite <- app_assoc. exact Hs1.
    + rewrite app_length, Nat.add_1_r in E, H'. rewrite <- app_assoc in H'.
      replace (length l1 + S (length l2)) with (S (length l1) + length l2) by lia.
      exists h'. split; [exact E|]. split; [exact H'|]. split.
      * eapply evolves_trans; [eassumption|exact E'].
      * rewrite C'. cbn. lia.
Qed.

Definition same_but (h h' : vmem V) (k k' : nat) : Prop :=
  forall c cs, c <> k -> c <> k' -> (live h c cs <-> live h' c cs).

Lemma move_loop_ok : forall l2 l1 h b nb ko capo kn capn,
  vholds h b (map moved l1 ++ l2) ko capo -> vholds h nb l1 kn capn -> ko <> kn ->
  length l1 + length l2 <= capn ->
  exists h', move_loop moved sizeT h b nb (length l1) (length l2) =
             Done (h', buf kn capn (length l1 + length l2)) /\
    vholds h' b (map moved (l1 ++ l2)) ko capo /\
    vholds h' (buf kn capn (length l1 + length l2)) (l1 ++ l2) kn capn /\
    same_but h h' ko kn /\ cost h' = cost h + length l2.
Proof.
  induction l2 as [|v l2 IH]; intros l1 h b nb ko capo kn capn Ho Hn Hne Hc.
  - exists h. cbn [length move_loop]. rewrite Nat.add_0_r, app_nil_r in *.
    rewrite <- (vh_buf _ _ _ _ _ Hn). split; [reflexivity|]. split; [assumption|].
    split; [assumption|]. split; [intros c cs _ _; reflexivity|lia].
  - cbn [length move_loop] in *.
    pose proof (vh_buf _ _ _ _ _ Ho) as Hb.
    assert (m_ptr b = At ko 0) as Hp by (rewrite Hb; reflexivity). rewrite Hp.
    pose proof (vh_live _ _ _ _ _ Ho) as Hlo. pose proof (vh_le _ _ _ _ _ Ho) as Hleo.
    rewrite app_length, map_length in Hleo. cbn [length] in Hleo.
    rewrite (load_value_at _ _ _ _ _ v Hlo).
    2:{ apply cells_nth. cbn. rewrite nth_error_app2; rewrite map_length; [|lia].
        now rewrite Nat.sub_diag. }
    cbn [bind].
    rewrite (store_at _ _ _ _ _ _ Hlo).
    2:{ rewrite cells_length; rewrite ?app_length, ?map_length; cbn; lia. }
    cbn [bind Nat.add].
    assert (set_nth (cells (map moved l1 ++ v :: l2) capo) (length l1) (Some (moved v)) =
            cells (map moved (l1 ++ [v]) ++ l2) capo) as ->.
    { rewrite <- (map_length moved l1) at 1. rewrite cells_set, map_app, <- app_assoc. reflexivity. }
    set (h1 := set_block h ko (Some (cells (map moved (l1 ++ [v]) ++ l2) capo))).
    assert (live h1 kn (cells l1 capn)) as Hln
      by (apply live_set_block_neq; [assumption|apply (vh_live _ _ _ _ _ Hn)]).
    assert (vholds h1 nb l1 kn capn) as Hn1 by (destruct Hn; constructor; assumption).
    rewrite (constructNext_ok _ _ _ _ _ v Hn1) by lia. cbn [bind fst snd].
    pose proof (constructNext_holds _ _ _ _ _ v Hn1 ltac:(lia)) as Hn2.
    set (h2 := set_block h1 kn (Some (cells (l1 ++ [v]) capn))) in *.
    assert (vholds h2 b (map moved (l1 ++ [v]) ++ l2) ko capo) as Ho2.
    { destruct Ho. constructor; auto.
      - rewrite Hb. unfold buf. rewrite !app_length, !map_length, app_length. cbn. f_equal; lia.
      - apply live_set_block_neq; [congruence|]. eapply live_set_block_eq. eassumption.
      - rewrite app_length, map_length, app_length. cbn. lia. }
    assert (same_but h h2 ko kn) as Hsame.
    { intros c cs H1 H2. unfold h2, h1. rewrite !live_set_block_neq by congruence. reflexivity. }
    destruct (IH (l1 ++ [v]) (spend h2 1) b (buf kn capn (S (length l1))) ko capo kn capn)
      as (h' & E & Ho' & Hn' & S' & C').
    + apply vholds_spend. assumption.
    + apply vholds_spend. assumption.
    + assumption.
    + rewrite app_length. cbn. lia.
    + rewrite app_length, Nat.add_1_r in E, Hn'. rewrite <- app_assoc in Ho', Hn'.
      replace (length l1 + S (length l2)) with (S (length l1) + length l2) by lia.
      rewrite Hp in E || idtac.
      exists h'. split; [exact E|]. split; [exact Ho'|]. split; [exact Hn'|]. split.
      * intros c cs H1 H2. rewrite (Hsame c cs H1 H2). apply S'; assumption.
      * rewrite C'. cbn. lia.
Qed.

Lemma all_raw : forall n, existsb (fun c : cell V => match c with Some _ => true | None => false end)
                            (repeat None n) = false.
Proof. induction n; [reflexivity|assumption]. Qed.

Lemma free_empty : forall h k cap, live h k (cells [] cap) ->
  free true h (At k 0) = Done (set_block h k None).
Proof.
  intros h k cap H. unfold free. rewrite (find_block_live _ _ _ H). cbn [bind Nat.eqb negb].
  unfold cells. cbn [map app]. rewrite all_raw. reflexivity.
Qed.

(** *** grow *)
Lemma grow_ok : forall h b l n, vrep h b l -> length l <= n -> 0 < n -> n * sizeT < W ->
  exists h' k, vec_grow moved sizeT W h b n = Done (h', buf k n (length l)) /\
    vholds h' (buf k n (length l)) l k n /\
    evolves h (owner_of b) h' (Some k) /\ cost h' = cost h + length l.
Proof.
  intros h b l n Hr Hl Hn Hf. unfold vec_grow.
  destruct (make_vec h n Hf) as (_ & Hm). destruct (Hm Hn) as (-> & Hnew). cbn [bind fst snd].
  set (k := length (blocks h)) in *. set (h0 := fst (alloc h n)) in *.
  assert (evolves h None h0 (Some k)) as E0 by apply evolves_alloc.
  destruct Hr as [H1 H2 H3 H4 ->|ko capo H].
  - rewrite H3. cbn [move_loop bind fst snd m_size buf Nat.eqb assert_ destruct_to].
    rewrite H3. cbn [Nat.ltb Nat.leb bind fst snd]. unfold buffer_assign_move.
    unfold buffer_destroy. rewrite H4, H1. cbn [Nat.eqb assert_ bind m_capacity buf].
    rewrite Nat.eqb_refl. cbn [assert_ bind].
    exists h0, k. split; [reflexivity|]. split; [assumption|]. split.
    + unfold owner_of. rewrite H1. assumption.
    + cbn. lia.
  - assert (ko <> k) as Hne.
    { pose proof (live_lt _ _ _ (vh_live _ _ _ _ _ H)). unfold k. lia. }
    assert (vholds h0 b l ko capo) as Ho0.
    { destruct H. constructor; auto. destruct (proj2 E0 _ _ vh_live0) as (? & _); [discriminate|assumption]. }
    pose proof (vh_buf _ _ _ _ _ H) as Hb.
    assert (m_size b = length l) as Hsz by (rewrite Hb; reflexivity). rewrite Hsz.
    destruct (move_loop_ok l [] h0 b (buf k n 0) ko capo k n Ho0 Hnew Hne)
      as (h1 & E1 & Ho1 & Hn1 & S1 & C1); [assumption|].
    cbn [length Nat.add app] in *. rewrite E1. cbn [bind fst snd m_size buf].
    rewrite Nat.eqb_refl. cbn [assert_ bind].
    pose proof (destruct_to_ok (map moved l) h1 b [] ko capo (length l) Ho1) as Ed.
    rewrite map_length in Ed. specialize (Ed (le_n _)). cbn [length] in Ed. rewrite Ed. clear Ed.
    cbn [bind fst snd]. unfold buffer_assign_move, buffer_destroy.
    cbn [m_constructed buf Nat.eqb assert_ bind m_ptr].
    pose proof (vh_live _ _ _ _ _ Ho1) as Hlo1.
    rewrite (free_empty _ _ capo) by (eapply live_set_block_eq; eassumption).
    cbn [bind]. rewrite set_block_twice.
    assert (m_capacity (buf k n (length l)) =? n = true) as ->
      by (cbn; apply Nat.eqb_refl).
    cbn [assert_ bind].
    exists (set_block h1 ko None), k. split; [reflexivity|]. split; [|split].
    + destruct Hn1. constructor; auto. apply live_set_block_neq; assumption.
    + rewrite (vholds_owner _ _ _ _ _ H). split.
      * intros c cs Hl'. destruct (Nat.eq_dec k c) as [->|Hkc]; [left; reflexivity|].
        destruct (Nat.eq_dec ko c) as [->|Hkoc]; [exfalso; exact (not_live_freed _ _ _ _ Hlo1 Hl')|].
        right. split; [congruence|]. apply live_set_block_neq in Hl'; [|assumption].
        apply S1 in Hl'; [|congruence|congruence].
        destruct (proj1 E0 _ _ Hl') as [Ek|(_ & ?)]; [congruence|assumption].
      * intros c cs Hl' Hc. destruct (proj2 E0 _ _ Hl') as (Hc0 & Hc1); [discriminate|].
        split; [|assumption]. apply live_set_block_neq; [congruence|].
        apply S1; [congruence|congruence|assumption].
    + cbn [cost set_block]. rewrite C1. reflexivity.
Qed.

(** *** The operations *)

Lemma reserve_vec_ok : forall h b l n, vrep h b l -> n * sizeT < W ->
  exists h' b', vec_reserve moved sizeT W h b n = Done (h', b') /\ vrep h' b' l /\
    evolves h (owner_of b) h' (owner_of b') /\ n <= m_capacity b'.
Proof.
  intros h b l n Hr Hf. unfold vec_reserve. destruct (m_capacity b <? n) eqn:E.
  - apply Nat.ltb_lt in E. pose proof (vrep_le _ _ _ Hr) as Hle.
    destruct (grow_ok h b l n Hr) as (h' & k & -> & Hh & Ev & _); [lia|lia|assumption|].
    exists h', (buf k n (length l)). split; [reflexivity|]. split; [eapply vrep_at; eassumption|].
    split; [assumption|reflexivity].
  - apply Nat.ltb_ge in E. exists h, b. split; [reflexivity|]. split; [assumption|].
    split; [apply evolves_refl|assumption].
Qed.

Lemma push_ok : forall h b l v, vrep h b l -> (3 * S (length l) / 2) * sizeT < W ->
  exists h' b', vec_push moved sizeT W h b v = Done (h', b') /\ vrep h' b' (l ++ [v]) /\
    evolves h (owner_of b) h' (owner_of b') /\
    (length l < m_capacity b -> m_capacity b' = m_capacity b /\ cost h' = cost h + 1) /\
    (m_capacity b = length l -> cost h' = cost h + length l + 1 /\
       m_capacity b' = Nat.max (S (length l)) (wmul W (length l) 3 / 2)).
Proof.
  intros h b l v Hr Hf. unfold vec_push. rewrite (vrep_size _ _ _ Hr).
  pose proof (vrep_le _ _ _ Hr) as Hle.
  assert (S (length l) <= 3 * S (length l) / 2) as Hq1.
  { apply Nat.div_le_lower_bound; lia. }
  assert (3 * length l / 2 <= 3 * S (length l) / 2) as Hq2 by (apply Nat.div_le_mono; lia).
  assert (S (length l) * sizeT < W) as Hf1 by nia.
  assert (wadd W (length l) 1 = S (length l)) as ->.
  { unfold wadd. rewrite Nat.mod_small by nia. lia. }
  destruct (m_capacity b <? S (length l)) eqn:E.
  - apply Nat.ltb_lt in E. assert (m_capacity b = length l) as Hcap by lia.
    set (c := if wmul W (length l) 3 / 2 <? S (length l) then S (length l)
              else wmul W (length l) 3 / 2).
    assert (wmul W (length l) 3 / 2 <= 3 * length l / 2) as Hwm.
    { apply Nat.div_le_mono; [lia|]. unfold wmul.
      etransitivity; [apply Nat.mod_le; lia|lia]. }
    assert (S (length l) <= c /\ c <= 3 * S (length l) / 2) as (Hc1 & Hc2).
    { unfold c. destruct (wmul W (length l) 3 / 2 <? S (length l)) eqn:Ec.
      - lia.
      - apply Nat.ltb_ge in Ec. lia. }
    destruct (grow_ok h b l c Hr) as (h1 & k & -> & Hh & Ev & Cs); [lia|lia|nia|].
    cbn [bind fst snd]. cbn [m_capacity buf].
    destruct (S (length l) <=? c) eqn:El; [|apply Nat.leb_gt in El; lia].
    cbn [assert_ bind].
    change (Buffer (At k 0) c sizeT (length l) (length l)) with (buf k c (length l)).
    rewrite (constructNext_ok _ _ _ _ _ v Hh) by lia. cbn [bind fst snd].
    do 2 eexists. split; [reflexivity|]. split.
    { eapply vrep_at, vholds_spend, constructNext_holds; [eassumption|lia]. }
    split.
    { apply evolves_spend. eapply evolves_trans; [eassumption|].
      eapply evolves_write, (vh_live _ _ _ _ _ Hh). }
    split; [intros; lia|]. intros _. split; [cbn; lia|].
    cbn [m_capacity buf]. unfold c.
    destruct (wmul W (length l) 3 / 2 <? S (length l)) eqn:Ec.
    + apply Nat.ltb_lt in Ec. lia.
    + apply Nat.ltb_ge in Ec. lia.
  - apply Nat.ltb_ge in E. cbn [bind fst snd].
    destruct (S (length l) <=? m_capacity b) eqn:El; [|apply Nat.leb_gt in El; lia].
    cbn [assert_ bind].
    destruct Hr as [H1 H2 H3 H4 H5|k cap H]; [lia|].
    assert (m_capacity b = cap) as Hcap by (rewrite (vh_buf _ _ _ _ _ H); reflexivity).
    rewrite (constructNext_ok _ _ _ _ _ v H) by lia. cbn [bind fst snd].
    do 2 eexists. split; [reflexivity|]. split.
    { eapply vrep_at, vholds_spend, constructNext_holds; [eassumption|lia]. }
    split.
    { rewrite (vholds_owner _ _ _ _ _ H). apply evolves_spend.
      eapply evolves_write, (vh_live _ _ _ _ _ H). }
    split; [|intros; lia]. intros _. split; [cbn; congruence|cbn; lia].
Qed.

Lemma pop_ok : forall h b l v, vrep h b (l ++ [v]) ->
  exists h' b', vec_pop sizeT h b = Done (h', b') /\ vrep h' b' l /\
    evolves h (owner_of b) h' (owner_of b') /\ m_capacity b' = m_capacity b /\ cost h' = cost h.
Proof.
  intros h b l v Hr. unfold vec_pop. rewrite (vrep_size _ _ _ Hr), app_length, Nat.add_1_r.
  cbn [Nat.eqb negb assert_ bind].
  destruct Hr as [H1 H2 H3 H4 H5|k cap H]; [destruct l; discriminate|].
  rewrite (destructLast_ok _ _ _ _ _ _ H).
  do 2 eexists. split; [reflexivity|]. split.
  { eapply vrep_at, vholds_write; [eassumption|].
    pose proof (vh_le _ _ _ _ _ H) as Hle. rewrite app_length in Hle. lia. }
  split; [|split].
  - rewrite (vholds_owner _ _ _ _ _ H). eapply evolves_write, (vh_live _ _ _ _ _ H).
  - rewrite (vh_buf _ _ _ _ _ H). reflexivity.
  - reflexivity.
Qed.

Lemma clear_ok : forall h b l, vrep h b l ->
  exists h' b', vec_clear sizeT h b = Done (h', b') /\ vrep h' b' [] /\
    evolves h (owner_of b) h' (owner_of b') /\ owner_of b' = owner_of b /\
    m_capacity b' = m_capacity b /\ cost h' = cost h.
Proof.
  intros h b l Hr. unfold vec_clear. rewrite (vrep_size _ _ _ Hr).
  destruct Hr as [H1 H2 H3 H4 ->|k cap H].
  - cbn [length destruct_to]. rewrite H3. cbn [Nat.ltb Nat.leb].
    exists h, b. split; [reflexivity|]. split; [apply vrep_null; auto|].
    split; [apply evolves_refl|auto].
  - pose proof (destruct_to_ok l h b [] k cap (length l) H (le_n _)) as Ed.
    cbn [length] in Ed. rewrite Ed.
    do 2 eexists. split; [reflexivity|]. split.
    { eapply vrep_at, (vholds_write _ _ _ _ _ [] H). cbn. lia. }
    split; [|split; [|split]].
    + rewrite (vholds_owner _ _ _ _ _ H). eapply evolves_write, (vh_live _ _ _ _ _ H).
    + rewrite (vholds_owner _ _ _ _ _ H). reflexivity.
    + rewrite (vh_buf _ _ _ _ _ H). reflexivity.
    + reflexivity.
Qed.

Lemma destroy_empty_ok : forall h b, vrep h b [] ->
  exists h', buffer_destroy true h b = Done h' /\ evolves h (owner_of b) h' None.
Proof.
  intros h b [H1 H2 H3 H4 _|k cap H]; unfold buffer_destroy.
  - rewrite H4, H1. exists h. split; [reflexivity|]. unfold owner_of. rewrite H1. apply evolves_refl.
  - pose proof (vholds_owner _ _ _ _ _ H) as Ho. destruct H as [-> Hl _ _ _].
    cbn [m_constructed buf length Nat.eqb assert_ bind m_ptr]. rewrite (free_empty _ _ _ Hl).
    eexists. split; [reflexivity|]. eapply evolves_free. eassumption.
Qed.

Lemma destroy_vec_ok : forall h b l, vrep h b l ->
  exists h', vec_destroy sizeT h b = Done h' /\ evolves h (owner_of b) h' None.
Proof.
  intros h b l Hr. unfold vec_destroy.
  destruct (clear_ok h b l Hr) as (h1 & b1 & -> & Hr1 & E1 & Ho & _). cbn [bind fst snd].
  destruct (destroy_empty_ok h1 b1 Hr1) as (h2 & -> & E2).
  exists h2. split; [reflexivity|]. rewrite Ho in E1, E2. eapply evolves_trans; eassumption.
Qed.

Lemma resize_vec_ok : forall h b l n, vrep h b l -> n * sizeT < W ->
  exists h' b', vec_resize dflt moved sizeT W h b n = Done (h', b') /\
    vrep h' b' (firstn n l ++ repeat dflt (n - length l)) /\
    evolves h (owner_of b) h' (owner_of b').
Proof.
  intros h b l n Hr Hf. unfold vec_resize.
  assert (exists h1 b1, (if m_capacity b <? n then vec_grow moved sizeT W h b n else Done (h, b)) =
                        Done (h1, b1) /\ vrep h1 b1 l /\ evolves h (owner_of b) h1 (owner_of b1) /\
                        n <= m_capacity b1) as (h1 & b1 & -> & Hr1 & E1 & Hn1)
    by (apply (reserve_vec_ok h b l n Hr Hf)).
  cbn [bind fst snd].
  destruct (n <=? m_capacity b1) eqn:El; [|apply Nat.leb_gt in El; lia]. cbn [assert_ bind].
  rewrite (vrep_size _ _ _ Hr1).
  destruct Hr1 as [H1 H2 H3 H4 ->|k cap H].
  - assert (n = 0) as -> by lia. cbn [length destruct_to]. rewrite ?H3.
    cbn [Nat.ltb Nat.leb bind fst snd construct_to]. rewrite ?H3.
    cbn [Nat.ltb Nat.leb bind fst snd]. rewrite ?H3. cbn [Nat.eqb assert_ bind].
    exists h1, b1. split; [reflexivity|]. split; [apply vrep_null; auto|assumption].
  - assert (m_capacity b1 = cap) as Hcap by (rewrite (vh_buf _ _ _ _ _ H); reflexivity).
    rewrite (vholds_owner _ _ _ _ _ H) in E1.
    destruct (Nat.le_gt_cases n (length l)) as [Hle|Hgt].
    + assert (l = firstn n l ++ skipn n l) as Hs by (symmetry; apply firstn_skipn).
      assert (length (firstn n l) = n) as Hfl by (rewrite firstn_length; lia).
      rewrite Hs in H.
      pose proof (destruct_to_ok (skipn n l) h1 b1 (firstn n l) k cap (length l) H) as Ed.
      rewrite skipn_length, Hfl in Ed. rewrite Ed by lia. cbn [bind fst snd].
      assert (forall f h0, construct_to dflt sizeT f h0 (buf k cap n) n = Done (h0, buf k cap n)) as Hct.
      { intros f h0. destruct f; cbn [construct_to m_size buf]; rewrite Nat.ltb_irrefl; reflexivity. }
      rewrite Hct. cbn [bind fst snd m_size buf]. rewrite Nat.eqb_refl. cbn [assert_ bind].
      replace (n - length l) with 0 by lia. cbn [repeat]. rewrite app_nil_r.
      do 2 eexists. split; [reflexivity|]. split.
      * pose proof (vholds_write _ _ _ _ _ (firstn n l) H ltac:(lia)) as Hw.
        rewrite Hfl in Hw. eapply vrep_at. exact Hw.
      * eapply evolves_trans; [eassumption|]. eapply evolves_write, (vh_live _ _ _ _ _ H).
    + pose proof H as Hsave.
      assert (forall f h0, destruct_to sizeT f h0 b1 n = Done (h0, b1)) as Hdt.
      { intros f h0. assert (m_size b1 = length l) as Hs by (rewrite (vh_buf _ _ _ _ _ H); reflexivity).
        destruct f; cbn [destruct_to]; rewrite Hs;
          (destruct (n <? length l) eqn:X; [apply Nat.ltb_lt in X; lia|reflexivity]). }
      rewrite Hdt. cbn [bind fst snd].
      pose proof (construct_to_ok (n - length l) h1 b1 l k cap n H) as Ec.
      replace (length l + (n - length l)) with n in Ec by lia.
      rewrite Ec by lia. cbn [bind fst snd m_size buf]. rewrite Nat.eqb_refl. cbn [assert_ bind].
      rewrite firstn_all2 by lia.
      assert (length (l ++ repeat dflt (n - length l)) = n) as Hln
        by (rewrite app_length, repeat_length; lia).
      do 2 eexists. split; [reflexivity|]. split.
      * pose proof (vholds_write _ _ _ _ _ (l ++ repeat dflt (n - length l)) H ltac:(lia)) as Hw.
        rewrite Hln in Hw. eapply vrep_at. exact Hw.
      * eapply evolves_trans; [eassumption|]. eapply evolves_write, (vh_live _ _ _ _ _ H).
Qed.

Lemma range_ok : forall h p l, source h None p (length l) (map Some l) -> length l * sizeT < W ->
  exists h' b', vec_range sizeT W h p (length l) = Done (h', b') /\ vrep h' b' l /\
    evolves h None h' (owner_of b') /\ cost h' = cost h + length l.
Proof.
  intros h p l Hs Hf. unfold vec_range, vec_make. destruct (make_vec h (length l) Hf) as (H0 & H1).
  destruct l as [|v l].
  - rewrite (H0 eq_refl). cbn [bind fst snd m_capacity m_size length Nat.leb Nat.eqb assert_ copy_loop].
    do 2 eexists. split; [reflexivity|]. split; [apply vrep_null; reflexivity|].
    split; [apply evolves_refl|]. cbn. lia.
  - destruct (H1 ltac:(cbn; lia)) as (-> & Hn). set (m := v :: l) in *.
    cbn [bind fst snd m_capacity m_size buf]. rewrite Nat.leb_refl. cbn [Nat.eqb assert_ bind].
    pose proof (evolves_alloc h (length m)) as E0. pose proof (source_evolves _ _ _ _ _ _ _ Hs E0) as Hs'.
    destruct (copy_loop_ok m [] _ _ p _ _ _ Hn ltac:(cbn [length]; lia) Hs') as (h' & E & Hh & Ev & C).
    exists h', (buf (length (blocks h)) (length m) (length m)). split; [exact E|].
    split; [eapply vrep_at; exact Hh|]. split; [eapply evolves_trans; eassumption|].
    rewrite C. reflexivity.
Qed.

Lemma vrep_source : forall h b l o, vrep h b l -> l <> [] ->
  (forall k, owner_of b = Some k -> o <> Some k) ->
  source h o (m_ptr b) (length l) (map Some l).
Proof.
  intros h b l o [H1 H2 H3 H4 ->|k cap H] Hl Ho; [contradiction|].
  pose proof (vholds_owner _ _ _ _ _ H) as Hk. destruct H as [-> Hv Hle _ _].
  cbn [m_ptr buf source]. split; [auto|]. exists (cells l cap). split; [assumption|].
  split; [rewrite cells_length by assumption; cbn; lia|]. cbn [skipn]. unfold cells.
  rewrite firstn_app, map_length, Nat.sub_diag, firstn_all2 by (rewrite map_length; lia).
  cbn [firstn]. now rewrite app_nil_r.
Qed.

Lemma copy_ok : forall h b l, vrep h b l ->
  exists h' b', vec_copy sizeT W h b = Done (h', b') /\ vrep h' b' l /\
    evolves h None h' (owner_of b') /\ cost h' = cost h + length l.
Proof.
  intros h b l Hr. unfold vec_copy. rewrite (vrep_size _ _ _ Hr).
  destruct l as [|v l].
  - unfold vec_range, vec_make, buffer_make, wmul. cbn [length Nat.mul].
    assert (0 <? sizeT = true) as -> by (apply Nat.ltb_lt; assumption).
    assert (0 mod W = 0) as -> by (destruct W; [reflexivity|apply Nat.mod_0_l; discriminate]).
    cbn [Nat.ltb Nat.leb bind fst snd m_capacity m_size Nat.eqb assert_ copy_loop].
    do 2 eexists. split; [reflexivity|]. split; [apply vrep_null; reflexivity|].
    split; [apply evolves_refl|]. lia.
  - apply range_ok.
    + apply vrep_source; [assumption|discriminate|]. intros k _. discriminate.
    + destruct Hr as [H1 H2 H3 H4 H5|k cap H]; [discriminate|].
      pose proof (vh_le _ _ _ _ _ H). pose proof (vh_fits _ _ _ _ _ H). nia.
Qed.

Lemma assign_ok : forall h b l c m, vrep h b l -> vrep h c m ->
  exists h' b', vec_assign sizeT W h b c = Done (h', b') /\ vrep h' b' m /\
    evolves h (owner_of b) h' (owner_of b').
Proof.
  intros h b l c m Hb Hc. unfold vec_assign.
  destruct (copy_ok h c m Hc) as (h1 & n & -> & Hn & E1 & _). cbn [bind fst snd].
  unfold buffer_assign_move.
  assert (vrep h1 b l) as Hb1 by (eapply vrep_frame; [eassumption|eassumption|intros; discriminate]).
  destruct (destroy_vec_ok h1 b l Hb1) as (h2 & -> & E2). cbn [bind].
  exists h2, n. split; [reflexivity|].
  assert (forall k, owner_of b = Some k -> owner_of n <> Some k) as Hap.
  { intros k Hk Hnk. destruct (vrep_live _ _ _ _ Hb Hk) as (cs & Hl).
    destruct (proj2 E1 _ _ Hl) as (_ & X); [discriminate|]. congruence. }
  split.
  - eapply vrep_frame; [eassumption|eassumption|]. intros k Hk E. apply (Hap k E). assumption.
  - split.
    + intros k cs Hl. destruct (proj1 E2 _ _ Hl) as [X|(X & Hl1)]; [discriminate|].
      destruct (proj1 E1 _ _ Hl1) as [Y|(_ & Hl0)]; [left; assumption|right; auto].
    + intros k cs Hl Hk. destruct (proj2 E1 _ _ Hl) as (Hl1 & X); [discriminate|].
      destruct (proj2 E2 _ _ Hl1 Hk) as (Hl2 & _). auto.
Qed.

Lemma get_ok : forall h b l i v, vrep h b l -> nth_error l i = Some v -> vec_get h b i = Done v.
Proof.
  intros h b l i v Hr Hi. unfold vec_get. rewrite (vrep_size _ _ _ Hr).
  assert (i < length l) as Hlt by (apply nth_error_Some; congruence).
  apply Nat.ltb_lt in Hlt. rewrite Hlt. cbn [assert_ bind].
  destruct Hr as [H1 H2 H3 H4 ->|k cap H]; [destruct i; discriminate|].
  destruct H as [-> Hl _ _ _]. eapply load_value_at; [exact Hl|]. apply cells_nth. assumption.
Qed.

Lemma get_past : forall h b l i, vrep h b l -> nth_error l i = None ->
  vec_get h b i = Fault AssertFailed.
Proof.
  intros h b l i Hr Hi. unfold vec_get. rewrite (vrep_size _ _ _ Hr).
  apply nth_error_None in Hi. apply Nat.ltb_ge in Hi. rewrite Hi. reflexivity.
Qed.

Lemma set_ok : forall h b l x r v, vrep h b (l ++ x :: r) ->
  exists h', vec_set h b (length l) v = Done h' /\ vrep h' b (l ++ v :: r) /\
    evolves h (owner_of b) h' (owner_of b).
Proof.
  intros h b l x r v Hr. unfold vec_set. rewrite (vrep_size _ _ _ Hr), app_length. cbn [length].
  destruct (length l <? length l + S (length r)) eqn:E; [|apply Nat.ltb_ge in E; lia].
  cbn [assert_ bind].
  destruct Hr as [H1 H2 H3 H4 H5|k cap H]; [destruct l; discriminate|].
  pose proof (vholds_owner _ _ _ _ _ H) as Ho. pose proof H as [Hb Hl Hle Hp Hf].
  assert (m_ptr b = At k 0) as -> by (rewrite Hb; reflexivity).
  rewrite (load_value_at _ _ _ _ _ x Hl).
  2:{ apply cells_nth. cbn. rewrite nth_error_app2, Nat.sub_diag by lia. reflexivity. }
  cbn [bind]. rewrite (store_at _ _ _ _ _ _ Hl).
  2:{ rewrite cells_length by assumption. rewrite app_length in Hle. cbn in *. lia. }
  cbn [Nat.add]. rewrite cells_set. eexists. split; [reflexivity|]. split.
  - eapply vrep_at. pose proof (vholds_write _ _ _ _ _ (l ++ v :: r) H) as Hw.
    rewrite Hb. rewrite app_length in *. cbn [length] in *. apply Hw. assumption.
  - rewrite Ho. eapply evolves_write. eassumption.
Qed.

(** ** Programs *)

Definition vrelated (a : vectors (V := V)) (w : vworld V) : Prop :=
  owners vrep a (vw_mem w) (vw_vec w).

Lemma vstart_related : vrelated no_vectors vstart.
Proof.
  constructor.
  - intros i. exact I.
  - intros i j s t k H. discriminate.
  - intros k cs H. unfold live in H. cbn in H. destruct k; discriminate.
Qed.

Lemma vstep_refines : forall o a a' w, vrelated a w -> vmeans dflt sizeT W a o a' ->
  exists w', vstep dflt moved sizeT W w o = Done w' /\ vrelated a' w'.
Proof.
  intros o a a' w R H.
  pose proof (owners_step vrep vrep_live vrep_frame) as Step.
  assert (forall i x hb o, a i = x ->
            match vw_vec w i with Some s => owner_of s | None => None end = o ->
            forall l, vrep (fst hb) (snd hb) l ->
            evolves (vw_mem w) o (fst hb) (owner_of (snd hb)) ->
            vrelated (vupd a i (Some l)) (vset1 w i hb)) as Set1.
  { intros i x hb o0 _ Ho l Hr E. unfold vset1.
    apply (Step a (vw_mem w) (vw_vec w) i (fst hb) (Some l) (Some (snd hb)) o0 R Ho E Hr). }
  destruct H; cbn [vstep]; unfold vunused, vvar.
  - pose proof (owners_none _ _ _ _ _ R H) as Fi. rewrite Fi. cbn [bind].
    unfold vec_make. destruct (make_vec (vw_mem w) n H0) as (Z & P).
    destruct n as [|n].
    + rewrite (Z eq_refl). cbn [bind]. eexists. split; [reflexivity|].
      eapply Set1; [eassumption|rewrite Fi; reflexivity|apply vrep_null; reflexivity|apply evolves_refl].
    + destruct (P ltac:(lia)) as (-> & Hh). cbn [bind]. eexists. split; [reflexivity|].
      eapply Set1; [eassumption|rewrite Fi; reflexivity|eapply vrep_at; exact Hh|apply evolves_alloc].
  - pose proof (owners_none _ _ _ _ _ R H) as Fi. rewrite Fi. cbn [bind].
    destruct (range_ok (vw_mem w) (Ext l) l) as (h' & b' & -> & Hr & E & _).
    + cbn. split; [lia|]. now rewrite firstn_all.
    + assumption.
    + cbn [bind]. eexists. split; [reflexivity|].
      eapply Set1; [eassumption|rewrite Fi; reflexivity|exact Hr|exact E].
  - pose proof (owners_none _ _ _ _ _ R H) as Fi. rewrite Fi. cbn [bind].
    destruct (owners_some _ _ _ _ _ _ R H0) as (y & Fj & Hy). rewrite Fj. cbn [bind].
    destruct (copy_ok _ _ _ Hy) as (h' & b' & -> & Hr & E & _). cbn [bind].
    eexists. split; [reflexivity|].
    eapply Set1; [eassumption|rewrite Fi; reflexivity|exact Hr|exact E].
  - pose proof (owners_none _ _ _ _ _ R H) as Fi. rewrite Fi. cbn [bind].
    destruct (owners_some _ _ _ _ _ _ R H0) as (y & Fj & Hy). rewrite Fj. cbn [bind].
    unfold buffer_move_ctor. eexists. split; [reflexivity|].
    apply (owners_move vrep [] vrep_nothing a (vw_mem w) (vw_vec w) i j l y R H H0 Fj).
  - destruct (owners_some _ _ _ _ _ _ R H) as (x & Fi & Hx).
    destruct (owners_some _ _ _ _ _ _ R H0) as (y & Fj & Hy). rewrite Fi, Fj. cbn [bind].
    destruct (assign_ok _ _ _ _ _ Hx Hy) as (h' & b' & -> & Hr & E). cbn [bind].
    eexists. split; [reflexivity|].
    eapply Set1; [eassumption|rewrite Fi; reflexivity|exact Hr|exact E].
  - destruct (owners_some _ _ _ _ _ _ R H) as (x & Fi & Hx).
    destruct (owners_some _ _ _ _ _ _ R H0) as (y & Fj & Hy). rewrite Fi, Fj. cbn [bind].
    unfold buffer_assign_move. eexists. split; [reflexivity|].
    apply (owners_swap vrep a (vw_mem w) (vw_vec w) i j l m x y R H H0 Fi Fj).
  - destruct (owners_some _ _ _ _ _ _ R H) as (x & Fi & Hx). rewrite Fi. cbn [bind].
    destruct (destroy_vec_ok _ _ _ Hx) as (h' & -> & E). cbn [bind].
    eexists. split; [reflexivity|].
    apply (Step a (vw_mem w) (vw_vec w) i h' None None (owner_of x) R); [now rewrite Fi|exact E|exact I].
  - destruct (owners_some _ _ _ _ _ _ R H) as (x & Fi & Hx). rewrite Fi. cbn [bind].
    destruct (reserve_vec_ok _ _ _ n Hx) as (h' & b' & -> & Hr & E & _); [assumption|]. cbn [bind].
    eexists. split; [reflexivity|].
    eapply Set1; [eassumption|rewrite Fi; reflexivity|exact Hr|exact E].
  - destruct (owners_some _ _ _ _ _ _ R H) as (x & Fi & Hx). rewrite Fi. cbn [bind].
    destruct (resize_vec_ok _ _ _ n Hx) as (h' & b' & -> & Hr & E); [assumption|]. cbn [bind].
    eexists. split; [reflexivity|].
    eapply Set1; [eassumption|rewrite Fi; reflexivity|exact Hr|exact E].
  - destruct (owners_some _ _ _ _ _ _ R H) as (x & Fi & Hx). rewrite Fi. cbn [bind].
    destruct (push_ok _ _ _ v Hx) as (h' & b' & -> & Hr & E & _); [assumption|]. cbn [bind].
    eexists. split; [reflexivity|].
    eapply Set1; [eassumption|rewrite Fi; reflexivity|exact Hr|exact E].
  - destruct (owners_some _ _ _ _ _ _ R H) as (x & Fi & Hx).
    destruct (owners_some _ _ _ _ _ _ R H0) as (y & Fj & Hy). rewrite Fi, Fj. cbn [bind].
    rewrite (get_ok _ _ _ _ _ Hy H1). cbn [bind].
    destruct (push_ok _ _ _ v Hx) as (h' & b' & -> & Hr & E & _); [assumption|]. cbn [bind].
    eexists. split; [reflexivity|].
    eapply Set1; [eassumption|rewrite Fi; reflexivity|exact Hr|exact E].
  - destruct (owners_some _ _ _ _ _ _ R H) as (x & Fi & Hx). rewrite Fi. cbn [bind].
    destruct (pop_ok _ _ _ _ Hx) as (h' & b' & -> & Hr & E & _). cbn [bind].
    eexists. split; [reflexivity|].
    eapply Set1; [eassumption|rewrite Fi; reflexivity|exact Hr|exact E].
  - destruct (owners_some _ _ _ _ _ _ R H) as (x & Fi & Hx). rewrite Fi. cbn [bind].
    destruct (clear_ok _ _ _ Hx) as (h' & b' & -> & Hr & E & _). cbn [bind].
    eexists. split; [reflexivity|].
    eapply Set1; [eassumption|rewrite Fi; reflexivity|exact Hr|exact E].
  - destruct (owners_some _ _ _ _ _ _ R H) as (b & Fi & Hx). rewrite Fi. cbn [bind].
    destruct (set_ok _ _ _ _ _ v Hx) as (h' & -> & Hr & E). cbn [bind].
    eexists. split; [reflexivity|].
    eapply Set1; [eassumption|rewrite Fi; reflexivity|exact Hr|exact E].
Qed.

Lemma vprogram_refines : forall os a a' w, vrelated a w -> vprogram dflt sizeT W a os a' ->
  exists w', vruns dflt moved sizeT W w os = Done w' /\ vrelated a' w'.
Proof.
  induction os as [|o os IH]; intros a a' w R H; inversion H; subst.
  - exists w. auto.
  - destruct (vstep_refines _ _ _ _ R H3) as (w1 & E1 & R1). cbn. rewrite E1. cbn [bind].
    apply (IH _ _ _ R1 H5).
Qed.

Lemma eq_loop_ok : forall (V_eqb : V -> V -> bool), (forall x y, reflect (x = y) (V_eqb x y)) ->
  forall h a b l2 m2 l1 m1, vrep h a (l1 ++ l2) -> vrep h b (m1 ++ m2) ->
  length l1 = length m1 -> length l2 = length m2 ->
  exists r, eq_loop V_eqb h a b (length l1) (length l2) = Done r /\ (r = true <-> l2 = m2).
Proof.
  intros V_eqb Veq h a b. induction l2 as [|x l2 IH]; intros m2 l1 m1 Ha Hb H1 H2.
  - destruct m2; [|discriminate]. exists true. split; [reflexivity|]. split; reflexivity.
  - destruct m2 as [|y m2]; [discriminate|]. cbn [length eq_loop].
    rewrite (get_ok _ _ _ (length l1) x Ha).
    2:{ rewrite nth_error_app2, Nat.sub_diag by lia. reflexivity. }
    rewrite (get_ok _ _ _ (length l1) y Hb).
    2:{ rewrite nth_error_app2 by lia. replace (length l1 - length m1) with 0 by lia. reflexivity. }
    cbn [bind]. destruct (Veq x y) as [->|Hn].
    + destruct (IH m2 (l1 ++ [y]) (m1 ++ [y])) as (r & E & Hr).
      * now rewrite <- app_assoc.
      * now rewrite <- app_assoc.
      * rewrite !app_length. cbn. lia.
      * cbn in H2. lia.
      * rewrite app_length, Nat.add_1_r in E. exists r. split; [assumption|].
        rewrite Hr. split; congruence.
    + exists false. split; [reflexivity|]. split; congruence.
Qed.

Lemma vec_eq_ok : forall (V_eqb : V -> V -> bool), (forall x y, reflect (x = y) (V_eqb x y)) ->
  forall h a b l m, vrep h a l -> vrep h b m ->
  exists r, vec_eq V_eqb h a b = Done r /\ (r = true <-> l = m).
Proof.
  intros V_eqb Veq h a b l m Ha Hb. unfold vec_eq.
  rewrite (vrep_size _ _ _ Ha), (vrep_size _ _ _ Hb).
  destruct (length l =? length m) eqn:E; cbn [negb].
  - apply Nat.eqb_eq in E. apply (eq_loop_ok V_eqb Veq h a b l m [] [] Ha Hb eq_refl E).
  - apply Nat.eqb_neq in E. exists false. split; [reflexivity|]. split; [discriminate|].
    intros ->. contradiction.
Qed.

End VectorMemProofs.
