(** C65: coil::Vector when allocation and the constructors of the elements may throw. *)
From Coq Require Import Bool PeanoNat Lia List.
From Verif Require Import Util Base Mem MemProofs MemOwners VectorMem VectorMemSpec VectorMemProofs
  P_VectorMem VectorThrow VectorThrowSpec VectorThrowProofs.
Import ListNotations.

Local Ltac destr H :=
  match type of H with
  | context [bind ?e _] => let E := fresh "E" in destruct e as [?|?] eqn:E; cbn [bind] in H; [|discriminate]
  end.

(** ** C65 *)
Section C65.
Context {V : Type}.
Variable dflt : V.
Variable moved torn : V -> V.
Variable sizeT W : nat.
Variable asserts : bool.
Variable raises : list call -> bool.
Hypothesis sizeT_pos : 0 < sizeT.

(** Full statement (refuted below, C65_any_exception_refuted): every proper
    program runs without a fault, whichever calls throw.  Missing here: move
    constructors that throw.  Then every program that uses its vectors properly,
    whatever has been thrown before, runs without a fault; each operation either
    does its work or throws and leaves every vector as it was (resize may have
    added some elements), and every vector shows the sequence it should. *)
Theorem C65_exceptions_partial : forall p,
  (forall t, raises (MoveT :: t) = false) ->
  proper dflt sizeT W no_vectors p ->
  exists w t trace a,
    x_runs dflt moved torn sizeT W asserts raises vstart [] p = Done (w, t, trace) /\
    ends dflt sizeT W no_vectors p trace a /\
    forall i, match a i, vw_vec w i with
              | Some l, Some b => shows (vw_mem w) b l
              | None, None => True
              | _, _ => False
              end.
Proof.
  intros p Hm H.
  destruct (prog_refines dflt moved torn sizeT W asserts raises sizeT_pos Hm p no_vectors vstart []
              (vstart_related sizeT W) H) as (w & t & tr & a & E & En & R).
  exists w, t, tr, a. split; [assumption|]. split; [assumption|].
  intros i. pose proof (ow_obj _ _ _ _ R i) as Hi.
  destruct (a i), (vw_vec w i); auto. now apply (vrep_shows sizeT W sizeT_pos).
Qed.

(** Nor is anything leaked (same restriction): the storage and the elements that
    are alive are those of the vectors that are alive. *)
Theorem C65_no_leak_partial : forall p,
  (forall t, raises (MoveT :: t) = false) ->
  proper dflt sizeT W no_vectors p ->
  exists w t trace a,
    x_runs dflt moved torn sizeT W asserts raises vstart [] p = Done (w, t, trace) /\
    ends dflt sizeT W no_vectors p trace a /\
    (forall k cs, live (vw_mem w) k cs ->
       exists i b l, a i = Some l /\ vw_vec w i = Some b /\ m_ptr b = At k 0 /\
         cs = map Some l ++ repeat None (m_capacity b - length l) /\
         forall j c, vw_vec w j = Some c -> m_ptr c = At k 0 -> j = i) /\
    ((forall i, a i = None) -> forall k cs, ~ live (vw_mem w) k cs).
Proof.
  intros p Hm H.
  destruct (prog_refines dflt moved torn sizeT W asserts raises sizeT_pos Hm p no_vectors vstart []
              (vstart_related sizeT W) H) as (w & t & tr & a & E & En & R).
  exists w, t, tr, a. split; [assumption|]. split; [assumption|]. split.
  - intros k cs Hl. destruct (ow_owner _ _ _ _ R _ _ Hl) as (i & b & Hi & Hk).
    pose proof (ow_obj _ _ _ _ R i) as Ho. rewrite Hi in Ho.
    destruct (a i) as [l|] eqn:Ai; [|contradiction]. exists i, b, l.
    destruct Ho as [H1 _ _ _ _|k' cap [Hb Hv _ _ _]].
    { unfold owner_of in Hk. rewrite H1 in Hk. discriminate. }
    rewrite Hb in Hk. injection Hk as ->. rewrite Hb.
    split; [assumption|]. split; [now rewrite <- Hb|]. split; [reflexivity|].
    split; [exact (live_fun _ _ _ _ Hl Hv)|].
    intros j c Hj Hc. eapply (ow_apart _ _ _ _ R); [eassumption|eassumption| |].
    + unfold owner_of. now rewrite Hc.
    + rewrite Hb. reflexivity.
  - intros Hnone k cs Hl. destruct (ow_owner _ _ _ _ R _ _ Hl) as (i & b & Hi & _).
    pose proof (ow_obj _ _ _ _ R i) as Ho. rewrite Hi, Hnone in Ho. contradiction.
Qed.

(** No exception is swallowed or invented: an operation throws if and only if
    one of its calls throws, which then is its last one. *)
Theorem C65_throws_iff : forall w t o w' t' thrown,
  x_step dflt moved torn sizeT W asserts raises w t o = Done (w', t', thrown) ->
  exists calls, t' = calls ++ t /\
    (thrown = true -> calls <> []) /\
    forall later c earlier, calls = later ++ c :: earlier ->
      raises (c :: earlier ++ t) = match later with [] => thrown | _ => false end.
Proof. intros w t o w' t' x H. eapply step_honest; eassumption. Qed.

(** An operation that does not throw does what it does without exceptions
    (C40, C41). *)
Theorem C65_no_throw_same : forall w t o w' t',
  x_step dflt moved torn sizeT W asserts raises w t o = Done (w', t', false) ->
  vstep dflt moved sizeT W w o = Done w'.
Proof. intros w t o w' t' H. eapply step_quiet; eassumption. Qed.

(** Its calls are exactly these: growing moves every element once and copies
    none, pushBack copies its argument once and moves it once, copying copies
    every element once, and the other operations call nothing. *)
Theorem C65_calls : forall w t o w' t',
  (forall i x, vw_vec w i = Some x -> S (m_size x) < W) ->
  x_step dflt moved torn sizeT W asserts raises w t o = Done (w', t', false) ->
  exists calls, t' = calls ++ t /\ calls_of sizeT W (vw_vec w) o calls.
Proof.
  intros w t o w' t' Hw H.
  destruct o as [i n|i l|i j|i j|i j|i j|i|i n|i n|i v|i j k|i|i|i k v]; cbn [x_step] in H;
    try (destruct (vstep dflt moved sizeT W w _); cbn [bind] in H; [|discriminate];
         injection H as <- <-; exists []; split; [reflexivity|constructor]).
  - destr H. destr H. destruct a0 as [[h1 t1] [b1|]]; [|discriminate].
    apply make_calls in E0. cbn in H. injection H as <- <-. subst t1. eexists. split; [reflexivity|constructor].
  - destr H. destr H. destruct a0 as [[h1 t1] [b1|]]; [|discriminate].
    apply range_calls in E0. cbn in H. injection H as <- <-. subst t1. rewrite app_assoc.
    eexists. split; [reflexivity|constructor].
  - destr H. unfold vvar in H. destruct (vw_vec w j) as [y|] eqn:Hj; [|discriminate]. cbn [bind] in H.
    destr H. destruct a0 as [[h1 t1] [b1|]]; [|discriminate].
    unfold x_copy in E0. apply range_calls in E0. cbn in H. injection H as <- <-. subst t1. rewrite app_assoc.
    eexists. split; [reflexivity|now constructor].
  - unfold vvar in H. destruct (vw_vec w i) as [x|] eqn:Hi; [|discriminate].
    destruct (vw_vec w j) as [y|] eqn:Hj; [|discriminate]. cbn [bind] in H.
    destr H. destruct a as [[[h1 t1] b1] z]. cbn in H. injection H as <- <- ->.
    apply assign_calls in E. subst t1. rewrite app_assoc. eexists. split; [reflexivity|now constructor].
  - unfold vvar in H. destruct (vw_vec w i) as [x|] eqn:Hi; [|discriminate]. cbn [bind] in H.
    destr H. destruct a as [[[h1 t1] b1] z]. cbn in H. injection H as <- <- ->.
    apply reserve_calls in E as (-> & _). destruct (m_capacity x <? n) eqn:X.
    + apply Nat.ltb_lt in X. eexists. split; [reflexivity|now constructor].
    + apply Nat.ltb_ge in X. exists []. split; [reflexivity|]. now apply K_reserved with x.
  - unfold vvar in H. destruct (vw_vec w i) as [x|] eqn:Hi; [|discriminate]. cbn [bind] in H.
    destr H. destruct a as [[[h1 t1] b1] z]. cbn in H. injection H as <- <- ->.
    apply resize_calls in E; [|assumption]. subst t1. destruct (m_capacity x <? n) eqn:X.
    + apply Nat.ltb_lt in X. rewrite app_assoc. eexists. split; [reflexivity|now constructor].
    + apply Nat.ltb_ge in X. eexists. split; [reflexivity|]. now apply K_resize_in_place.
  - unfold vvar in H. destruct (vw_vec w i) as [x|] eqn:Hi; [|discriminate]. cbn [bind] in H.
    destr H. destruct a as [[[h1 t1] b1] z]. cbn in H. injection H as <- <- ->.
    apply push_calls in E as (n & Hn & ->); [|eauto|eauto]. destruct (m_capacity x <? S (m_size x)) eqn:X.
    + apply Nat.ltb_lt in X.
      exists (MoveT :: repeat MoveT (m_size x) ++ storage sizeT W n ++ [CopyT]).
      split; [cbn; now rewrite <- !app_assoc|]. apply K_push; [assumption|lia|lia].
    + apply Nat.ltb_ge in X. exists [MoveT; CopyT]. split; [reflexivity|].
      now apply K_push_in_place with x.
  - unfold vvar in H. destruct (vw_vec w i) as [x|] eqn:Hi; [|discriminate].
    destruct (vw_vec w j) as [y|] eqn:Hj; [|discriminate]. cbn [bind] in H. destr H.
    destr H. destruct a0 as [[[h1 t1] b1] z]. cbn in H. injection H as <- <- ->.
    apply push_calls in E0 as (n & Hn & ->); [|eauto|eauto]. destruct (m_capacity x <? S (m_size x)) eqn:X.
    + apply Nat.ltb_lt in X.
      exists (MoveT :: repeat MoveT (m_size x) ++ storage sizeT W n ++ [CopyT]).
      split; [cbn; now rewrite <- !app_assoc|]. apply K_push_elem; [assumption|lia|lia].
    + apply Nat.ltb_ge in X. exists [MoveT; CopyT]. split; [reflexivity|].
      now apply K_push_elem_in_place with x.
Qed.

(** [b] owns block [k], of [cap] elements, and holds [l]. *)
Definition holding (h : vmem V) (b : vec V) (l : list V) (k cap : nat) : Prop :=
  b = {| m_ptr := At k 0; m_capacity := cap; m_chunkSize := sizeT;
         m_size := length l; m_constructed := length l |} /\
  live h k (map Some l ++ repeat None (cap - length l)) /\
  length l <= cap /\ 0 < cap /\ cap * sizeT < W.

(** What happens when the move of the element [v] throws while a vector grows.
    If [v] is the first element, the exception leaves grow, nothing has been
    leaked, and the vector has what the throwing constructor has left of [v].
    Otherwise the elements already moved are lost: ~Buffer finds them, which
    fails its assertion, or releases the storage without destroying them. *)
Theorem C65_throwing_move : forall h t b l v r k cap n,
  holding h b (l ++ v :: r) k cap -> cap < n -> fits sizeT W n ->
  raises (NewStorage :: t) = false ->
  (forall j, j < length l -> raises (repeat MoveT (S j) ++ NewStorage :: t) = false) ->
  raises (repeat MoveT (S (length l)) ++ NewStorage :: t) = true ->
  match l with
  | [] => exists h',
      x_reserve moved torn sizeT W asserts raises h t b n = Done (h', MoveT :: NewStorage :: t, b, true) /\
      holding h' b (torn v :: r) k cap /\
      forall c cs, c <> k -> (live h c cs <-> live h' c cs)
  | _ => x_reserve moved torn sizeT W asserts raises h t b n =
         Fault (if asserts then AssertFailed else BadLifetime)
  end.
Proof.
  intros h t b l v r k cap n (H1 & H2 & H3 & H4 & H5) Hn Hf Hs Hm Ht.
  assert (vholds sizeT W h b (l ++ v :: r) k cap) as H by (constructor; assumption).
  pose proof (grow_throws moved torn sizeT W asserts raises sizeT_pos h t b l v r k cap n H
                ltac:(lia) Hf Hs Hm Ht) as G.
  assert (x_reserve moved torn sizeT W asserts raises h t b n =
          x_grow moved torn sizeT W asserts raises h t b n) as Er.
  { unfold x_reserve. rewrite H1. cbn [m_capacity].
    destruct (cap <? n) eqn:X; [reflexivity|]. apply Nat.ltb_ge in X. lia. }
  destruct l as [|u l]; [|now rewrite Er].
  destruct G as (h' & E & [G1 G2 G3 G4 G5] & Ev). exists h'. rewrite Er. split; [assumption|].
  split; [repeat split; assumption|]. intros c cs Hc. split; intros Hl.
  - apply (proj2 Ev _ _ Hl). congruence.
  - destruct (proj1 Ev _ _ Hl) as [X|(_ & ?)]; [congruence|assumption].
Qed.

End C65.

(** ** Witnesses and examples *)

(** The [n]-th move throws. *)
Definition nth_move (n : nat) (t : list call) : bool :=
  match t with
  | MoveT :: _ => length (filter (fun c => match c with MoveT => true | _ => false end) t) =? n
  | _ => false
  end.

(** The [n]-th call throws unless it is a move. *)
Definition nth_call (n : nat) (t : list call) : bool :=
  match t with MoveT :: _ => false | _ => length t =? n end.

(** A vector with three elements, whose owner wants room for nine. *)
Definition grow_prog : xprog nat :=
  XDo (VRange 0 [1; 2; 3]) (fun thrown => if thrown then XEnd else
  XDo (VReserve 0 9) (fun _ => XEnd)).

Lemma grow_prog_proper : proper 0 1 64 no_vectors grow_prog.
Proof.
  apply P_do with (vupd no_vectors 0 (Some [1; 2; 3])).
  - constructor; [reflexivity|]. unfold fits. cbn. lia.
  - eapply P_do.
    + econstructor; [reflexivity|]. unfold fits. lia.
    + constructor.
    + intros a' H. constructor.
  - intros a' H. constructor.
Qed.

(** The full statement is false: if the second move throws, grow fails an
    assertion, or leaks the element moved first where assertions are off. *)
Theorem C65_any_exception_refuted :
  ~ (forall (dflt : nat) moved torn sizeT W asserts raises p,
       0 < sizeT -> proper dflt sizeT W no_vectors p ->
       exists r, x_runs dflt moved torn sizeT W asserts raises vstart [] p = Done r).
Proof.
  intros H.
  destruct (H 0 (fun _ => 0) (fun v => v) 1 64 true (nth_move 2) grow_prog ltac:(lia) grow_prog_proper)
    as (r & E).
  vm_compute in E. discriminate.
Qed.

Example C65_throwing_move_asserts :
  x_runs 0 (fun _ => 0) (fun v => v) 1 64 true (nth_move 2) vstart [] grow_prog = Fault AssertFailed /\
  x_runs 0 (fun _ => 0) (fun v => v) 1 64 false (nth_move 2) vstart [] grow_prog = Fault BadLifetime.
Proof. split; vm_compute; reflexivity. Qed.

Definition seen (r : outcome (vworld nat * list call * list bool)) (i : nat) :=
  match r with
  | Done (w, t, trace) =>
      Some (trace, rev t, match vw_vec w i with
                          | Some b => map (vec_get (vw_mem w) b) (seq 0 (m_size b))
                          | None => []
                          end)
  | Fault _ => None
  end.

(** The first move throws and leaves 7 in its argument: the vector survives. *)
Example C65_first_move :
  seen (x_runs 0 (fun _ => 0) (fun _ => 7) 1 64 true (nth_move 1) vstart [] grow_prog) 0 =
  Some ([false; true], [NewStorage; CopyT; CopyT; CopyT; NewStorage; MoveT], [Done 7; Done 2; Done 3]).
Proof. vm_compute. reflexivity. Qed.

(** A program that retries: two elements, a pushBack that may throw, another
    one if it did; then a resize. *)
Definition retry_prog : xprog nat :=
  XDo (VRange 0 [1; 2]) (fun thrown => if thrown then XEnd else
  XDo (VPush 0 3) (fun thrown => if thrown
    then XDo (VPush 0 4) (fun _ => XDo (VResize 0 5) (fun _ => XEnd))
    else XDo (VResize 0 5) (fun _ => XDo (VDestroy 0) (fun _ => XEnd)))).

Lemma retry_prog_proper : proper 0 1 64 no_vectors retry_prog.
Proof.
  eapply P_do.
  - constructor; [reflexivity|]. unfold fits. cbn. lia.
  - eapply P_do.
    + econstructor; [reflexivity|]. unfold fits. cbn. lia.
    + eapply P_do.
      * econstructor; [reflexivity|]. unfold fits. lia.
      * eapply P_do; [econstructor; reflexivity|constructor|intros; constructor].
      * intros a H. inversion H; subst.
        eapply P_do; [econstructor; reflexivity|constructor|intros; constructor].
    + intros a H. inversion H; subst. eapply P_do.
      * econstructor; [reflexivity|]. unfold fits. cbn. lia.
      * eapply P_do; [econstructor; [reflexivity|unfold fits; lia]|constructor|intros; constructor].
      * intros a H0. inversion H0; subst.
        eapply P_do; [econstructor; [reflexivity|unfold fits; lia]|constructor|intros; constructor].
  - intros a H. constructor.
Qed.

Example C65_no_exception :
  seen (x_runs 0 (fun _ => 0) (fun v => v) 1 64 true (fun _ => false) vstart [] retry_prog) 0 =
  Some ([false; false; false; false],
        [NewStorage; CopyT; CopyT;
         CopyT; NewStorage; MoveT; MoveT; MoveT;
         NewStorage; MoveT; MoveT; MoveT; DefaultT; DefaultT], []).
Proof. vm_compute. reflexivity. Qed.

(** The storage of the first pushBack cannot be allocated. *)
Example C65_bad_alloc :
  seen (x_runs 0 (fun _ => 0) (fun v => v) 1 64 true (nth_call 5) vstart [] retry_prog) 0 =
  Some ([false; true; false; false],
        [NewStorage; CopyT; CopyT;
         CopyT; NewStorage;
         CopyT; NewStorage; MoveT; MoveT; MoveT;
         NewStorage; MoveT; MoveT; MoveT; DefaultT; DefaultT],
        [Done 1; Done 2; Done 4; Done 0; Done 0]).
Proof. vm_compute. reflexivity. Qed.

(** The copy made for pushBack throws, and then the second T() of resize. *)
Example C65_copy_and_default_throw :
  seen (x_runs 0 (fun _ => 0) (fun v => v) 1 64 true
          (fun t => nth_call 4 t || nth_call 14 t) vstart [] retry_prog) 0 =
  Some ([false; true; false; true],
        [NewStorage; CopyT; CopyT;
         CopyT;
         CopyT; NewStorage; MoveT; MoveT; MoveT;
         NewStorage; MoveT; MoveT; MoveT; DefaultT],
        [Done 1; Done 2; Done 4]).
Proof. vm_compute. reflexivity. Qed.

(** The second copy of the range constructor throws: nothing is left. *)
Example C65_constructor_throws :
  match x_runs 0 (fun _ => 0) (fun v => v) 1 64 true (nth_call 3) vstart [] retry_prog with
  | Done (w, t, trace) => (trace, rev t, vw_vec w 0, blocks (vw_mem w)) =
                          ([true], [NewStorage; CopyT; CopyT], None, [None])
  | Fault _ => False
  end.
Proof. vm_compute. reflexivity. Qed.

Example C65_retry_meets : exists w t trace a,
  x_runs 0 (fun _ => 0) (fun v => v) 1 64 true (nth_call 5) vstart [] retry_prog = Done (w, t, trace) /\
  ends 0 1 64 no_vectors retry_prog trace a /\
  forall i, match a i, vw_vec w i with
            | Some l, Some b => shows (vw_mem w) b l
            | None, None => True
            | _, _ => False
            end.
Proof.
  apply C65_exceptions_partial; [lia|reflexivity|apply retry_prog_proper].
Qed.

(** * Assumptions *)
Print Assumptions C65_exceptions_partial.
Print Assumptions C65_no_leak_partial.
Print Assumptions C65_throws_iff.
Print Assumptions C65_no_throw_same.
Print Assumptions C65_calls.
Print Assumptions C65_throwing_move.
Print Assumptions C65_any_exception_refuted.
