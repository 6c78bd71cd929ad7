(** Ownership of handlers and names (C60, C61). *)
From Coq Require Import Ascii String NArith ZArith Bool PeanoNat Lia Permutation List.
From Verif Require Import Util Base UMap UMapProofs UMapIter UMapRel Handlers HandlersSpec HandlersProofs.
Import ListNotations.

(** Erasing takes the entry that was found. *)
Lemma erase_perm {K V} (keqb : K -> K -> bool) (h : K -> Z) (m m' : umap K V) k i n :
  findNodeIndex keqb h m k = Done (Some i) -> nth_error (nodes m) i = Some n ->
  erase keqb h m k = Done m' -> Permutation (iterate m) (entry n :: iterate m').
Proof.
  intros E En. unfold erase. rewrite E. cbn [bind].
  destruct (unlink m i) as [m1|] eqn:U; cbn [bind]; [|discriminate]. apply unlink_entries in U.
  destruct (relocate m1 i) as [m2|] eqn:R; cbn [bind]; [|discriminate]. intros P.
  assert (L : length (nodes m1) = length (nodes m)).
  { change (map entry (nodes m1) = map entry (nodes m)) in U.
    rewrite <- (map_length entry), U. apply map_length. }
  pose proof (iterate_at _ _ _ En) as En'.
  assert (I : i < length (nodes m)) by (apply nth_error_Some; congruence).
  destruct (nth_error (iterate m1) (pred (length (nodes m1)))) as [x|] eqn:X.
  2: { exfalso. apply nth_error_None in X. rewrite U, L in X.
       change (iterate m) with (map entry (nodes m)) in X. rewrite map_length in X. lia. }
  pose proof (relocate_pop_entries m1 m2 m' i x X ltac:(lia) R P) as It.
  rewrite U, L in *. clear R P U E L. rewrite It.
  assert (LL : length (iterate m) = length (nodes m)) by apply map_length.
  destruct (length (nodes m)) as [|last]; [lia|]. cbn [pred] in *.
  pose proof (set_nth_perm (fun z => [z]) (iterate m) i (entry n) x En') as P.
  assert (FM : forall l : list (K * V), flat_map (fun z => [z]) l = l).
  { intros l0. induction l0; cbn; congruence. }
  rewrite !FM in P. cbn [app] in P.
  assert (S : set_nth (iterate m) i x = firstn last (set_nth (iterate m) i x) ++ [x]).
  { assert (Lx : nth_error (set_nth (iterate m) i x) last = Some x).
    { destruct (Nat.eq_dec i last) as [->|NE]; [eapply UMapProofs.set_nth_same, En'|].
      now rewrite set_nth_other. }
    assert (Ls : length (set_nth (iterate m) i x) = S last) by now rewrite set_nth_length.
    revert Lx Ls. generalize (set_nth (iterate m) i x). clear. intros l. revert l.
    induction last as [|last IH]; intros [|z l] A B; cbn in *; try discriminate.
    - injection A as ->. destruct l; [reflexivity|discriminate].
    - f_equal. apply IH; [exact A|lia]. }
  rewrite S in P. apply (Permutation_cons_inv (a := x)). rewrite <- P.
  rewrite (Permutation_app_comm _ [x]). cbn [app]. apply perm_swap.
Qed.

Lemma find_index {K V} (keqb : K -> K -> bool) (h : K -> Z) (m : umap K V) k v :
  find keqb h m k = Done (Some v) ->
  exists i n, findNodeIndex keqb h m k = Done (Some i) /\ nth_error (nodes m) i = Some n /\ n_val n = v.
Proof.
  unfold find. destruct (findNodeIndex keqb h m k) as [[i|]|]; cbn [bind]; try discriminate.
  destruct (at_ (nodes m) i) as [n|] eqn:A; cbn [bind]; [|discriminate]. intros [= <-].
  apply at_inv in A. eauto.
Qed.

Section Handlers.
Context {F : Type}.
Variable types : F -> list bytes.
Variable hash : bytes -> Z.
Local Notation runs_h := (runs_h types hash).
Local Notation step_h := (step_h types hash).

Lemma reach_rel (os : list (op F)) w : runs_h start os = Done w ->
  exists s, runs_s hash no_values os = Done s /\ world_rel types w s.
Proof.
  intros E. pose proof (runs_rel types hash os start no_values (start_rel types)) as R.
  rewrite E in R. inversion R; subst. eauto.
Qed.

(** ** C60 *)

(** The program with pointers and the program on values finish alike or fail alike. *)
Theorem C60_same_faults : forall (os : list (op F)) f,
  runs_h start os = Fault f <-> runs_s hash no_values os = Fault f.
Proof.
  intros os f. pose proof (runs_rel types hash os start no_values (start_rel types)) as R.
  inversion R as [a b _ E1 E2|g E1 E2]; split; intros E; congruence.
Qed.

(** Every lookup reads, through the pointers, what the program on values finds. *)
Theorem C60_lookup : forall (os : list (op F)) w, runs_h start os = Done w ->
  exists s, runs_s hash no_values os = Done s /\
    forall b name, lookup_h hash w b name = reads types name (lookup_s hash s b name).
Proof.
  intros os w E. destruct (reach_rel os w E) as (s & Es & R). exists s. split; [exact Es|].
  intros b name. now apply lookup_rel.
Qed.

(** The handler objects alive are those in the variables, each once; so are the storages
    and the buffers of names. *)
Theorem C60_alive : forall (os : list (op F)) w s,
  runs_h start os = Done w -> runs_s hash no_values os = Done s ->
  Permutation (map snd (h_cells (funcs (w_mem w)))) (values_handlers s) /\
  List.length (h_cells (stores (w_mem w))) = List.length (values_handlers s) /\
  Permutation (map snd (h_cells (keys (w_mem w)))) (values_names s).
Proof.
  intros os w s E Es. destruct (reach_rel os w E) as (s' & Es' & R). rewrite Es in Es'.
  injection Es' as <-. now apply live_rel in R.
Qed.

(** Once every variable is out of scope nothing is left. *)
Theorem C60_no_leak : forall (os : list (op F)) w, runs_h start os = Done w ->
  (forall v, In v (w_vecs w) -> v = None) -> (forall b, In b (w_maps w) -> b = None) ->
  h_cells (funcs (w_mem w)) = [] /\ h_cells (stores (w_mem w)) = [] /\ h_cells (keys (w_mem w)) = [].
Proof.
  intros os w E NV NM. destruct (reach_rel os w E) as (s & Es & R).
  destruct (live_rel types w s R) as (A & B & C). destruct R as [G _ Rv Rm _].
  assert (H : values_handlers s = []).
  { unfold values_handlers. replace (flat_map (opt_held (fun fs => fs)) (s_vecs s)) with (@nil F).
    - cbn. clear - Rm NM. induction Rm as [|x y l l' H _ IH]; [reflexivity|].
      rewrite (NM x (or_introl eq_refl)) in H. destruct y; [contradiction|]. cbn. apply IH.
      intros b I. apply NM. now right.
    - clear - Rv NV. induction Rv as [|x y l l' H _ IH]; [reflexivity|].
      rewrite (NV x (or_introl eq_refl)) in H. destruct y; [contradiction|]. cbn. apply IH.
      intros b I. apply NV. now right. }
  assert (N : values_names s = []).
  { unfold values_names. clear - Rm NM. induction Rm as [|x y l l' H _ IH]; [reflexivity|].
    rewrite (NM x (or_introl eq_refl)) in H. destruct y; [contradiction|]. cbn. apply IH.
    intros b I. apply NM. now right. }
  rewrite H in A, B. rewrite N in C. apply Permutation_sym, Permutation_nil in A, C.
  apply map_eq_nil in A, C. destruct (h_cells (stores (w_mem w))); [auto|discriminate].
Qed.

(** No pointer is used after its object is gone, no object is deleted twice and no null
    pointer is dereferenced: programs fail only by using variables out of scope, or in the
    map (C21, C22, C51), as they would without any pointers. *)
Definition map_fault (f : fault) : Prop :=
  f = BadLifetime \/ f = AssertFailed \/ f = DivByZero \/ f = Diverges.

Section Faults.
Context {K V : Type}.
Variable keqb : K -> K -> bool.
Variable h : K -> Z.
Definition faults_ok {A} (x : outcome A) : Prop := match x with Done _ => True | Fault f => map_fault f end.

Lemma fo_bind {A B} (x : outcome A) (k : A -> outcome B) :
  faults_ok x -> (forall a, x = Done a -> faults_ok (k a)) -> faults_ok (bind x k).
Proof. destruct x as [a|f]; cbn; auto. Qed.
Lemma fo_at {A} (l : list A) i : faults_ok (at_ l i).
Proof. unfold at_. destruct (nth_error l i); cbn; unfold map_fault; auto. Qed.
Lemma fo_assert b : faults_ok (assert_ b).
Proof. destruct b; cbn; unfold map_fault; auto. Qed.
Lemma fo_bucket (m : umap K V) k : faults_ok (computeBucketIndex h m k).
Proof. unfold computeBucketIndex. destruct (List.length (buckets m)); cbn; unfold map_fault; auto. Qed.
Lemma fo_find_walk fuel : forall (ns : list (node K V)) k c, faults_ok (find_walk keqb fuel ns k c).
Proof.
  induction fuel as [|fuel IH]; intros ns k [i|]; cbn; unfold map_fault; auto.
  apply fo_bind; [apply fo_at|]. intros n _. destruct (keqb _ _); cbn; auto.
Qed.
Lemma fo_index (m : umap K V) k : faults_ok (findNodeIndex keqb h m k).
Proof.
  apply fo_bind; [apply fo_bucket|]. intros b _. apply fo_bind; [apply fo_at|]. intros c _.
  apply fo_find_walk.
Qed.
Lemma fo_put_prev (ns : list (node K V)) i p : faults_ok (put_prev ns i p).
Proof. apply fo_bind; [apply fo_at|]. intros; exact I. Qed.
Lemma fo_put_next (ns : list (node K V)) i p : faults_ok (put_next ns i p).
Proof. apply fo_bind; [apply fo_at|]. intros; exact I. Qed.
Lemma fo_insert_walk fuel : forall (ns : list (node K V)) new i, faults_ok (insert_walk fuel ns new i).
Proof.
  induction fuel as [|fuel IH]; intros ns new i; cbn; [unfold map_fault; auto|].
  apply fo_bind; [apply fo_at|]. intros n _. destruct (n_next n); [apply IH|].
  apply fo_bind; [apply fo_put_next|]. intros ns1 _. apply fo_put_prev.
Qed.
Lemma fo_insertNode (m : umap K V) new : faults_ok (insertNode h m new).
Proof.
  apply fo_bind; [apply fo_at|]. intros n _. apply fo_bind; [apply fo_bucket|]. intros b _.
  apply fo_bind; [apply fo_at|]. intros [j|] _; [|exact I].
  apply fo_bind; [apply fo_insert_walk|]. intros; exact I.
Qed.
Lemma fo_rehash t : forall i (m : umap K V), faults_ok (rehash_loop h t i m).
Proof.
  induction t as [|t IH]; intros i m; cbn; [exact I|].
  apply fo_bind; [apply fo_insertNode|]. intros m' _. apply IH.
Qed.
Lemma fo_insert (m : umap K V) k v : faults_ok (insertOrAssign keqb h m k v).
Proof.
  apply fo_bind; [apply fo_index|]. intros [i|] _.
  - apply fo_bind; [apply fo_at|]. intros; exact I.
  - apply fo_bind; [|intros; apply fo_insertNode]. destruct (load_exceeds _ _); [apply fo_rehash|exact I].
Qed.
Lemma fo_unlink (m : umap K V) i : faults_ok (unlink m i).
Proof.
  apply fo_bind; [apply fo_at|]. intros e _. destruct (n_bucket e) as [eb|]; [|cbn; unfold map_fault; auto].
  apply fo_bind; [apply fo_at|]. intros hd _. apply fo_bind.
  { destruct (n_prev e).
    - apply fo_bind; [apply fo_assert|]. intros _ _. apply fo_bind; [apply fo_put_next|]. intros; exact I.
    - apply fo_bind; [apply fo_assert|]. intros; exact I. }
  intros m1 _. apply fo_bind; [apply fo_at|]. intros e1 _. apply fo_bind.
  { destruct (n_next e1); [apply fo_put_prev|exact I]. }
  intros ns2 _. apply fo_bind; [apply fo_put_prev|]. intros ns3 _.
  apply fo_bind; [apply fo_put_next|]. intros; exact I.
Qed.
Lemma fo_relocate (m : umap K V) i : faults_ok (relocate m i).
Proof.
  unfold relocate. destruct (List.length (nodes m)) as [|last]; [cbn; unfold map_fault; auto|].
  destruct (i =? last); [exact I|]. apply fo_bind; [apply fo_at|]. intros l _. apply fo_bind.
  { destruct (n_prev l).
    - apply fo_bind; [apply fo_put_next|]. intros; exact I.
    - destruct (n_bucket l); [|cbn; unfold map_fault; auto]. apply fo_bind; [apply fo_at|]. intros; exact I. }
  intros m1 _. apply fo_bind; [|intros; exact I].
  apply fo_bind; [apply fo_at|]. intros a _. apply fo_bind; [apply fo_at|]. intros; exact I.
Qed.
Lemma fo_pop (m : umap K V) : faults_ok (pop_node m).
Proof.
  unfold pop_node. destruct (List.length (nodes m)); [cbn; unfold map_fault; auto|].
  apply fo_bind; [apply fo_at|]. intros l _. apply fo_bind; [apply fo_assert|]. intros _ _.
  apply fo_bind; [apply fo_assert|]. intros; exact I.
Qed.
Lemma fo_erase (m : umap K V) k : faults_ok (erase keqb h m k).
Proof.
  apply fo_bind; [apply fo_index|]. intros [i|] _; [|exact I].
  apply fo_bind; [apply fo_unlink|]. intros m1 _. apply fo_bind; [apply fo_relocate|]. intros m2 _.
  apply fo_pop.
Qed.
End Faults.

Lemma fo_var {A} (l : list (option A)) i : faults_ok (var l i).
Proof. unfold var. destruct (nth_error l i) as [[x|]|]; cbn; unfold map_fault; auto. Qed.

Lemma fo_step (s : values F) o : faults_ok (step_s hash s o).
Proof.
  destruct o; cbn [step_s]; try exact I;
    repeat first
      [ apply fo_bind; [first [apply fo_var | apply fo_insert | apply fo_erase]|intros ? _]
      | exact I ].
Qed.

Theorem C60_no_bad_pointer : forall (os : list (op F)) f, runs_h start os = Fault f -> map_fault f.
Proof.
  intros os f E. apply C60_same_faults in E. revert E. generalize (@no_values F).
  induction os as [|o os IH]; intros s; cbn [runs_s]; [discriminate|].
  pose proof (fo_step s o) as H. destruct (step_s hash s o) as [s'|g]; cbn [bind]; [apply IH|].
  intros [= <-]. exact H.
Qed.

(** ** Objects that go *)

Definition alive (w : world F) : list F := map snd (h_cells (funcs (w_mem w))).

Lemma dead_target (m : mem F) G S K x a : mem_ok m G S K -> m_storage x = Some a -> ~ In a S ->
  af_target m x = Fault UseAfterFree.
Proof.
  intros M E N. unfold af_target. rewrite E. unfold deref.
  destruct (cell (h_cells (stores m)) a) as [c|] eqn:C; [|reflexivity].
  exfalso. apply N, (ok_only _ _ _ _ M _ _ C).
Qed.

Lemma index_text (mp : umap key command) a name :
  findNodeIndex key_eqb (khash hash) mp (Key a name) = findNodeIndex key_eqb (khash hash) mp (as_key name).
Proof.
  pose proof (findNodeIndex_rel key_eqb key_eqb (khash hash) (khash hash)
    (fun k k' => k_text k = k_text k') (@eq command)) as R.
  assert (R1 : out_rel eq (findNodeIndex key_eqb (khash hash) mp (Key a name))
                          (findNodeIndex key_eqb (khash hash) mp (as_key name))).
  { apply R.
    - intros k k' l l' E1 E2. unfold key_eqb. now rewrite E1, E2.
    - intros k k' E1. unfold khash. now rewrite E1.
    - split; [reflexivity|]. induction (nodes mp) as [|n l IH]; constructor; [|exact IH].
      repeat split; reflexivity.
    - reflexivity. }
  inversion R1 as [? ? E|]; [now rewrite E|reflexivity].
Qed.

Lemma b_add_map (m : mem F) mp name v r : b_add hash m mp name v = Done r ->
  forall i n, findNodeIndex key_eqb (khash hash) mp (as_key name) = Done (Some i) ->
    nth_error (nodes mp) i = Some n ->
    Permutation (held_vec (c_functors (n_val n)) ++ held_map (snd r)) (held_vec v ++ held_map mp).
Proof.
  unfold b_add. cbn [alloc]. intros E i n Ei En.
  rewrite index_text, Ei in E. cbn [bind] in E.
  unfold insertOrAssign in E.
  rewrite index_text, Ei in E. cbn [bind] in E.
  rewrite (at_some _ _ _ En) in E. cbn [bind] in E.
  destruct (fvec_destroy _ _) as [m'|]; cbn [bind] in E; [|discriminate].
  destruct (key_destroy _ _) as [m''|]; cbn [bind] in E; [|discriminate]. cbn [nodes] in E.
  rewrite (at_some _ _ _ (UMapProofs.set_nth_same _ _ _ _ En)) in E. cbn [bind] in E.
  injection E as <-. cbn [snd n_val set_val c_functors n_key].
  set (c := Command (Some (k_buf (n_key n), List.length (k_text (n_key n)))) v).
  pose proof (set_nth_perm held_entry (iterate mp) i (entry n) (n_key n, c) (iterate_at _ _ _ En)) as P.
  change (held_entry (entry n)) with (held_vec (c_functors (n_val n))) in P.
  change (held_entry (n_key n, c)) with (held_vec v) in P.
  unfold held_map at 1. unfold iterate at 1. cbn [nodes].
  rewrite UMapIter.map_set_nth, UMapIter.map_set_nth.
  change (map (fun n0 => (n_key n0, n_val n0)) (nodes mp)) with (iterate mp). cbn [set_val n_key n_val].
  assert (SS : forall (l : list (key * command)) j x y, set_nth (set_nth l j x) j y = set_nth l j y).
  { clear. induction l as [|z l IH]; intros [|j] x y; cbn; congruence. }
  rewrite SS. exact P.
Qed.

Ltac use P a := pose proof (count_perm Nat.eq_dec _ _ P a); rewrite ?count_occ_app in *.

(** The handlers of a command are destroyed when the command is removed or replaced: a
    functor that still points to one of them fails. *)
Theorem C60_removed_dead : forall (os : list (op F)) w b mp name c o w',
  runs_h start os = Done w -> var (w_maps w) b = Done mp ->
  find key_eqb (khash hash) mp (as_key name) = Done (Some c) ->
  (o = RemoveName b name \/ (exists v, o = AddVec b name v) \/ (exists f, o = AddFunc b name f)) ->
  step_h w o = Done w' ->
  Forall (fun x => af_target (w_mem w') x = Fault UseAfterFree) (v_items (c_functors c)).
Proof.
  intros os w b mp name c o w' E Vb Fc Ho St.
  destruct (reach_rel os w E) as (s & _ & R).
  pose proof (step_rel types hash w s o R) as RS. rewrite St in RS. inversion RS as [? s' R' E1 E2|]; subst.
  clear RS E2. destruct R as [G M Rv Rm Nm], R' as [G' M' _ _ _].
  destruct (find_index _ _ _ _ _ Fc) as (i & n & Ei & En & <-).
  assert (Eb : nth_error (w_maps w) b = Some (Some mp)).
  { unfold var in Vb. destruct (nth_error (w_maps w) b) as [[?|]|]; congruence. }
  set (hc := held_vec (c_functors (n_val n))).
  assert (Bef : forall a, In a hc -> count_occ Nat.eq_dec (held_vecs (w_vecs w) ++ held_maps (w_maps w)) a = 1).
  { intros a Ia. apply NoDup_count_occ'; [exact (ok_nodup _ _ _ _ M)|].
    apply in_or_app. right. eapply in_opt; [exact Eb|]. eapply in_held_map; eauto. }
  assert (Key : forall a, In a hc -> ~ In a (held_vecs (w_vecs w') ++ held_maps (w_maps w'))).
  { intros a Ia. pose proof (Bef a Ia) as B1. rewrite (count_occ_In Nat.eq_dec) in Ia.
    rewrite (count_occ_not_In Nat.eq_dec). rewrite count_occ_app in *.
    destruct Ho as [->|[(v & ->)|(f & ->)]]; cbn [Handlers.step_h] in St; rewrite Vb in St; cbn [bind] in St.
    - destruct (b_remove hash (w_mem w) mp name) as [r|] eqn:Er; cbn [bind] in St; [|discriminate].
      injection St as <-. cbn [w_vecs w_maps].
      assert (Ee : erase key_eqb (khash hash) mp (as_key name) = Done (snd r)).
      { unfold b_remove in Er. unfold erase. rewrite Ei in *. cbn [bind] in *.
        destruct (unlink mp i); cbn [bind] in *; [|discriminate].
        destruct (relocate _ _); cbn [bind] in *; [|discriminate].
        destruct (pop_node _); cbn [bind] in *; [|discriminate].
        destruct (at_ _ _); cbn [bind] in *; [|discriminate].
        destruct (node_destroy _ _); cbn [bind] in *; [|discriminate]. now injection Er as <-. }
      pose proof (erase_perm _ _ _ _ _ _ _ Ei En Ee) as P.
      apply (Permutation_flat_map held_entry) in P. cbn [flat_map] in P.
      fold (held_map mp) in P. fold (held_map (snd r)) in P.
      change (held_entry (entry n)) with hc in P. use P a.
      pose proof (held_maps_set _ _ _ (Some (snd r)) Eb) as Q. cbn [opt_held] in Q. use Q a. lia.
    - destruct (var (w_vecs w) v) as [y|] eqn:Vv; cbn [bind] in St; [|discriminate].
      destruct (b_add hash (w_mem w) mp name (fst (fvec_move y))) as [r|] eqn:Er; cbn [bind] in St; [|discriminate].
      injection St as <-. cbn [w_vecs w_maps fvec_move fst snd] in *.
      pose proof (b_add_map _ _ _ _ _ Er i n Ei En) as P. fold hc in P. use P a.
      pose proof (held_maps_set _ _ _ (Some (snd r)) Eb) as Q. cbn [opt_held] in Q. use Q a.
      assert (Ev : nth_error (w_vecs w) v = Some (Some y)).
      { unfold var in Vv. destruct (nth_error (w_vecs w) v) as [[?|]|]; congruence. }
      pose proof (held_vecs_set _ _ _ (Some fvec_new) Ev) as W. cbn [opt_held] in W. use W a.
      change (count_occ Nat.eq_dec (held_vec fvec_new) a) with 0 in *. lia.
    - destruct (af_make_ok types (w_mem w) G _ _ f M) as (m1 & x & G1 & Em & _ & _ & M1).
      rewrite Em in St. cbn [bind fst snd] in St.
      unfold b_add1 in St. cbn [af_move] in St. destruct (fvec_push_ok m1 fvec_new x) as (cap & Ep).
      rewrite Ep in St. cbn [bind fst snd fvec_move] in St.
      destruct (b_add hash m1 mp name (FVec (v_items fvec_new ++ [x]) cap)) as [r|] eqn:Er; cbn [bind] in St; [|discriminate].
      destruct r as [m2 mp2]. cbn in St. injection St as <-. cbn [w_vecs w_maps].
      pose proof (b_add_map _ _ _ _ _ Er i n Ei En) as P. fold hc in P. cbn [snd] in P.
      assert (HV : held_vec (FVec (v_items fvec_new ++ [x]) cap) = held x) by apply app_nil_r.
      rewrite HV in P. use P a.
      pose proof (held_maps_set _ _ _ (Some mp2) Eb) as Q. cbn [opt_held] in Q. use Q a.
      pose proof (ok_nodup _ _ _ _ M1) as Nd. rewrite (NoDup_count_occ Nat.eq_dec) in Nd. specialize (Nd a).
      rewrite !count_occ_app in Nd.
      lia. }
  apply Forall_forall. intros x Ix.
  assert (Rx : exists a, m_storage x = Some a).
  { pose proof (var_rel _ _ _ b Rm) as V. rewrite Vb in V. inversion V as [? y [Ry _] E3 E4|]; subst.
    pose proof (at_rel key_rel (cmd_rel types G) _ _ i (proj2 Ry)) as A. rewrite (at_some _ _ _ En) in A.
    inversion A as [? n' (_ & Rc & _) E5 E6|]; subst. clear - Ix Rc. unfold cmd_rel, vec_rel in Rc.
    induction Rc as [|z f l l' (a & Ea & _) _ IH]; [contradiction|]. destruct Ix as [->|I]; eauto. }
  destruct Rx as (a & Ea). eapply dead_target; [exact M'|exact Ea|]. apply Key.
  unfold hc, held_vec, held_items. apply in_flat_map. exists x. split; [exact Ix|]. unfold held.
  rewrite Ea. now left.
Qed.

(** ** C61 *)

Lemma node_named w s b mp n : world_rel types w s -> var (w_maps w) b = Done mp -> In n (nodes mp) ->
  c_name (n_val n) = Some (k_buf (n_key n), List.length (k_text (n_key n))) /\
  cell (h_cells (keys (w_mem w))) (k_buf (n_key n)) = Some (k_text (n_key n)).
Proof.
  intros [G M Rv Rm Nm] Vb In_.
  assert (Eb : nth_error (w_maps w) b = Some (Some mp)).
  { unfold var in Vb. destruct (nth_error (w_maps w) b) as [[?|]|]; congruence. }
  apply In_nth_error in In_. destruct In_ as (i & En).
  pose proof (all_nth _ _ _ _ Nm Eb) as NN. unfold all_named in NN. rewrite Forall_forall in NN.
  split; [exact (NN (entry n) (nth_error_In _ i (iterate_at _ _ _ En)))|].
  apply in_cell; [apply (ok_keys _ _ _ _ M)|].
  eapply Permutation_in; [symmetry; apply (ok_names _ _ _ _ M)|].
  eapply in_opt; [exact Eb|]. unfold keys_map. apply (in_map key_of _ (entry n)).
  apply (nth_error_In _ i), iterate_at, En.
Qed.

(** The name of every command in a registry is a view of a live buffer with the name it was
    registered under. *)
Theorem C61_names_readable : forall (os : list (op F)) w b mp n,
  runs_h start os = Done w -> var (w_maps w) b = Done mp -> In n (nodes mp) ->
  read_name (w_mem w) (n_val n) = Done (k_text (n_key n)).
Proof.
  intros os w b mp n E Vb In_. destruct (reach_rel os w E) as (s & _ & R).
  destruct (node_named w s b mp n R Vb In_) as [N C]. unfold read_name, deref. rewrite N, C. cbn.
  now rewrite firstn_all.
Qed.

(** It is the name one looks for. *)
Theorem C61_found_name : forall (os : list (op F)) w b name t ts fs,
  runs_h start os = Done w -> lookup_h hash w b name = Done (Some (t, ts, fs)) -> t = name.
Proof.
  intros os w b name t ts fs E L. destruct (reach_rel os w E) as (s & _ & R).
  rewrite (lookup_rel types hash w s b name R) in L.
  destruct (lookup_s hash s b name) as [[x|]|]; cbn in L; congruence.
Qed.

Lemma keys_af_destroy (m m' : mem F) x : af_destroy m x = Done m' -> keys m' = keys m.
Proof.
  unfold af_destroy. destruct (m_storage x) as [a|]; [|now intros [= <-]].
  destruct (free (stores m) a) as [[c hs]|]; cbn [bind fst snd]; [|discriminate].
  unfold fw_destroy. destruct (m_func c) as [p|]; [|now intros [= <-]]. cbn.
  destruct (free (funcs m) p) as [[d hf]|]; cbn; [|discriminate]. now intros [= <-].
Qed.

Lemma keys_destroy_items l : forall m m' : mem F, destroy_items m l = Done m' -> keys m' = keys m.
Proof.
  induction l as [|x l IH]; intros m m'; cbn [destroy_items]; [now intros [= <-]|].
  destruct (destroy_items m l) as [m1|] eqn:E; cbn [bind]; [|discriminate].
  intros H. apply keys_af_destroy in H. rewrite H. now apply IH.
Qed.

Lemma keys_af_make (m : mem F) f r : af_make types m f = Done r -> keys (fst r) = keys m.
Proof. cbn. now intros [= <-]. Qed.

Lemma keys_b_add (m : mem F) mp name v r : b_add hash m mp name v = Done r ->
  forall a, a < h_next (keys m) -> cell (h_cells (keys (fst r))) a = cell (h_cells (keys m)) a.
Proof.
  unfold b_add. cbn [alloc].
  destruct (findNodeIndex _ _ _ _) as [i|]; cbn [bind]; [|discriminate].
  destruct (insertOrAssign _ _ _ _ _) as [mp1|]; cbn [bind]; [|discriminate].
  intros E a La.
  assert (N : (h_next (keys m) =? a) = false) by (apply Nat.eqb_neq; lia).
  destruct i as [i|].
  - destruct (at_ (nodes mp) i) as [n|]; cbn [bind] in E; [|discriminate].
    destruct (fvec_destroy _ _) as [m'|] eqn:D; cbn [bind] in E; [|discriminate].
    unfold fvec_destroy in D. apply keys_destroy_items in D. cbn in D.
    unfold key_destroy in E. rewrite D in E. unfold free, deref in E. cbn in E.
    rewrite Nat.eqb_refl in E. cbn in E.
    destruct (at_ (nodes mp1) i); cbn in E; [|discriminate]. now injection E as <-.
  - cbn [bind] in E. destruct (at_ (nodes mp1) _); cbn [bind] in E; [|discriminate].
    injection E as <-. cbn. now rewrite N.
Qed.

(** A view of a name stays good when commands are added or replaced, also the command
    itself. *)
Theorem C61_add_keeps_names : forall (os : list (op F)) w b mp n b' name o w',
  runs_h start os = Done w -> var (w_maps w) b = Done mp -> In n (nodes mp) ->
  ((exists v, o = AddVec b' name v) \/ (exists f, o = AddFunc b' name f)) ->
  step_h w o = Done w' ->
  read_name (w_mem w') (n_val n) = Done (k_text (n_key n)).
Proof.
  intros os w b mp n b' name o w' E Vb In_ Ho St. destruct (reach_rel os w E) as (s & _ & R).
  destruct (node_named w s b mp n R Vb In_) as [N C].
  assert (L : k_buf (n_key n) < h_next (keys (w_mem w))).
  { destruct R as [G M _ _ _]. apply (proj2 (ok_keys _ _ _ _ M)). apply cell_in in C.
    now apply (in_map fst) in C. }
  assert (X : cell (h_cells (keys (w_mem w'))) (k_buf (n_key n)) = Some (k_text (n_key n))).
  { rewrite <- C. destruct Ho as [(v & ->)|(f & ->)]; cbn [Handlers.step_h] in St.
    - destruct (var (w_maps w) b') as [x|]; cbn [bind] in St; [|discriminate].
      destruct (var (w_vecs w) v) as [y|]; cbn [bind] in St; [|discriminate].
      destruct (b_add hash (w_mem w) x name (fst (fvec_move y))) as [r|] eqn:Er; cbn [bind] in St; [|discriminate].
      injection St as <-. cbn [w_mem]. now apply (keys_b_add _ _ _ _ _ Er).
    - destruct (var (w_maps w) b') as [x|]; cbn [bind] in St; [|discriminate].
      destruct (af_make types (w_mem w) f) as [a|] eqn:Ea; cbn [bind] in St; [|discriminate].
      apply keys_af_make in Ea. unfold b_add1 in St. cbn [af_move] in St.
      destruct (fvec_push_ok (fst a) fvec_new (snd a)) as (cap & Ep). rewrite Ep in St. cbn [bind fst snd fvec_move] in St.
      destruct (b_add hash (fst a) x name _) as [r|] eqn:Er; cbn [bind] in St; [|discriminate].
      cbn in St. injection St as <-. cbn [w_mem]. rewrite <- Ea. apply (keys_b_add _ _ _ _ _ Er).
      now rewrite Ea. }
  unfold read_name, deref. rewrite N, X. cbn. now rewrite firstn_all.
Qed.

(** A view of the name of a command that was removed is not good any more. *)
Theorem C61_removed_name_dead : forall (os : list (op F)) w b mp name c w',
  runs_h start os = Done w -> var (w_maps w) b = Done mp ->
  find key_eqb (khash hash) mp (as_key name) = Done (Some c) ->
  step_h w (RemoveName b name) = Done w' ->
  read_name (w_mem w') c = Fault UseAfterFree.
Proof.
  intros os w b mp name c w' E Vb Fc St.
  destruct (reach_rel os w E) as (s & _ & R).
  destruct (find_index _ _ _ _ _ Fc) as (i & n & Ei & En & <-).
  destruct (node_named w s b mp n R Vb (nth_error_In _ _ En)) as [N C].
  pose proof (step_rel types hash w s (RemoveName b name) R) as RS.
  rewrite St in RS. inversion RS as [? s' R' E1 E2|]; subst. clear RS E2.
  destruct R as [G M Rv Rm Nm], R' as [G' M' _ _ _].
  assert (Eb : nth_error (w_maps w) b = Some (Some mp)).
  { unfold var in Vb. destruct (nth_error (w_maps w) b) as [[?|]|]; congruence. }
  cbn [Handlers.step_h] in St. rewrite Vb in St. cbn [bind] in St.
  destruct (b_remove hash (w_mem w) mp name) as [r|] eqn:Er; cbn [bind] in St; [|discriminate].
  assert (Ee : erase key_eqb (khash hash) mp (as_key name) = Done (snd r)).
  { unfold b_remove in Er. unfold erase. rewrite Ei in *. cbn [bind] in *.
    destruct (unlink mp i); cbn [bind] in *; [|discriminate].
    destruct (relocate _ _); cbn [bind] in *; [|discriminate].
    destruct (pop_node _); cbn [bind] in *; [|discriminate].
    destruct (at_ _ _); cbn [bind] in *; [|discriminate].
    destruct (node_destroy _ _); cbn [bind] in *; [|discriminate]. now injection Er as <-. }
  pose proof (erase_perm _ _ _ _ _ _ _ Ei En Ee) as P.
  apply (Permutation_map key_of) in P. cbn [map] in P. fold (keys_map mp) in P. fold (keys_map (snd r)) in P.
  pose proof (keys_maps_set _ _ _ (Some (snd r)) Eb) as Q. cbn [opt_held] in Q.
  assert (PK : Permutation (keys_maps (w_maps w)) (key_of (entry n) :: keys_maps (w_maps w'))).
  { injection St as <-. cbn [w_maps]. rewrite P in Q. cbn [app] in Q.
    apply (Permutation_app_inv_l (keys_map (snd r))). rewrite <- Q. apply Permutation_middle. }
  assert (Nd : NoDup (map fst (keys_maps (w_maps w)))).
  { eapply Permutation_NoDup; [apply Permutation_map, (ok_names _ _ _ _ M)|]. apply (ok_keys _ _ _ _ M). }
  apply (Permutation_map fst) in PK. apply (Permutation_NoDup PK) in Nd. cbn [map] in Nd.
  inversion Nd as [|? ? N1 _]; subst.
  unfold read_name, deref. rewrite N. rewrite cell_none; [reflexivity|]. intros I. apply N1.
  eapply Permutation_in; [apply Permutation_map, (ok_names _ _ _ _ M')|exact I].
Qed.
End Handlers.

(** ** Examples *)

(** Handlers are numbers; [n] takes [n] parameters. *)
Definition ex_types (n : nat) : list bytes := repeat (lit "int") n.
Definition ex_hash (t : bytes) : Z := Z.of_nat (List.length t).

(** A vector and a registry with three commands; one is replaced and one removed, and the
    registry is moved. *)
Definition ex_prog : list (op nat) :=
  [Overload [1; 2]; NewBindings; AddVec 0 (lit "add") 0; AddFunc 0 (lit "sub") 3;
   AddFunc 0 (lit "mul") 4; AddFunc 0 (lit "sub") 5; RemoveName 0 (lit "mul"); MoveBindings 0].
Definition ex_world : world nat :=
  match runs_h ex_types ex_hash start ex_prog with Done w => w | Fault _ => start end.

Example C60_ex_runs : runs_h ex_types ex_hash start ex_prog = Done ex_world.
Proof. vm_compute. reflexivity. Qed.
Example C60_ex_lookup :
  lookup_h ex_hash ex_world 1 (lit "add") =
    Done (Some (lit "add", [[lit "int"]; [lit "int"; lit "int"]], [1; 2])) /\
  lookup_h ex_hash ex_world 1 (lit "mul") = Done None.
Proof. vm_compute. auto. Qed.
Example C60_ex_alive : map snd (h_cells (funcs (w_mem ex_world))) = [5; 2; 1].
Proof. vm_compute. reflexivity. Qed.
(** Replacing a command of this world: hypotheses of C60_removed_dead and of
    C61_add_keeps_names. *)
Example C60_ex_replace : exists mp c w',
  var (w_maps ex_world) 1 = Done mp /\
  find key_eqb (khash ex_hash) mp (as_key (lit "add")) = Done (Some c) /\
  List.length (v_items (c_functors c)) = 2 /\
  step_h ex_types ex_hash ex_world (AddFunc 1 (lit "add") 7) = Done w' /\
  map snd (h_cells (funcs (w_mem w'))) = [7; 5].
Proof. vm_compute. do 3 eexists. repeat split. Qed.
(** Removing it: hypotheses of C61_removed_name_dead. *)
Example C61_ex_remove : exists mp c w',
  var (w_maps ex_world) 1 = Done mp /\
  find key_eqb (khash ex_hash) mp (as_key (lit "add")) = Done (Some c) /\
  read_name (w_mem ex_world) c = Done (lit "add") /\
  step_h ex_types ex_hash ex_world (RemoveName 1 (lit "add")) = Done w' /\
  read_name (w_mem w') c = Fault UseAfterFree.
Proof. vm_compute. do 3 eexists. repeat split. Qed.
(** All variables end: hypotheses of C60_no_leak. *)
Example C60_ex_end : exists w,
  runs_h ex_types ex_hash start (ex_prog ++ [EndVec 0; EndBindings 0; EndBindings 1]) = Done w /\
  w_vecs w = [None] /\ w_maps w = [None; None] /\ h_cells (funcs (w_mem w)) = [].
Proof. vm_compute. eexists. repeat split. Qed.
(** A registry that was moved from fails, in both programs. *)
Example C60_ex_fault :
  runs_h ex_types ex_hash start (ex_prog ++ [AddFunc 0 (lit "x") 1]) = Fault DivByZero.
Proof. vm_compute. reflexivity. Qed.

(** * Assumptions *)
Print Assumptions C60_same_faults.
Print Assumptions C60_lookup.
Print Assumptions C60_alive.
Print Assumptions C60_no_leak.
Print Assumptions C60_no_bad_pointer.
Print Assumptions C60_removed_dead.
Print Assumptions C61_names_readable.
Print Assumptions C61_found_name.
Print Assumptions C61_add_keeps_names.
Print Assumptions C61_removed_name_dead.
