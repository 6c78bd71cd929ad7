(** C40, C41: coil::Vector on memory. *)
From Coq Require Import Bool PeanoNat Lia List.
From Verif Require Import Util Base Mem MemProofs MemOwners VectorMem VectorMemSpec VectorMemProofs.
Import ListNotations.

(** ** C40 *)
Section C40.
Context {V : Type}.
Variable dflt : V.
Variable moved : V -> V.
Variable sizeT W : nat.
Hypothesis sizeT_pos : 0 < sizeT.

(** What the object [b] shows to its users: the sequence [l]. *)
Definition shows (h : vmem V) (b : vec V) (l : list V) : Prop :=
  m_size b = length l /\
  m_size b <= m_capacity b /\
  (forall i v, nth_error l i = Some v -> vec_get h b i = Done v) /\
  (forall i, length l <= i -> vec_get h b i = Fault AssertFailed) /\
  match l with
  | [] => vec_front h b = Fault AssertFailed /\ vec_back h b = Fault AssertFailed
  | v :: _ => vec_front h b = Done v /\ vec_back h b = Done (last l v)
  end.

Lemma nth_error_last : forall (l : list V) d, l <> [] ->
  nth_error l (length l - 1) = Some (last l d).
Proof.
  induction l as [|x l IH]; intros d H; [contradiction|].
  destruct l as [|y l]; [reflexivity|].
  specialize (IH d ltac:(discriminate)). cbn [length last] in *.
  replace (S (S (length l)) - 1) with (S (length l)) by lia.
  replace (S (length l) - 1) with (length l) in IH by lia. exact IH.
Qed.

Lemma vrep_shows : forall h b l, vrep sizeT W h b l -> shows h b l.
Proof.
  intros h b l H. pose proof (vrep_size _ _ _ _ _ H) as Hs.
  split; [assumption|]. split; [rewrite Hs; eapply vrep_le; eassumption|].
  split; [intros; eapply get_ok; eassumption|].
  split; [intros i Hi; eapply get_past; [eassumption|now apply nth_error_None]|].
  unfold vec_front, vec_back. rewrite Hs. destruct l as [|v l]; [auto|].
  split; cbn [length Nat.eqb negb assert_ bind]; eapply get_ok; try eassumption; [reflexivity|].
  apply (nth_error_last (v :: l)). discriminate.
Qed.

(** Every program that uses its vectors properly runs without a fault, in
    particular without constructing over a live element, destroying or reading
    a dead one; then every vector shows the sequence it should. *)
Theorem C40_programs_read_back : forall os a,
  vprogram dflt sizeT W no_vectors os a ->
  exists w, vruns dflt moved sizeT W vstart os = Done w /\
    forall i, match a i, vw_vec w i with
              | Some l, Some b => shows (vw_mem w) b l
              | None, None => True
              | _, _ => False
              end.
Proof.
  intros os a H.
  destruct (vprogram_refines dflt moved sizeT W sizeT_pos os _ _ _ (vstart_related sizeT W) H)
    as (w & E & R).
  exists w. split; [assumption|]. intros i. pose proof (ow_obj _ _ _ _ R i) as Hi.
  destruct (a i), (vw_vec w i); auto. now apply vrep_shows.
Qed.

(** The element objects that are alive are exactly those of the vectors that
    are alive, each in the storage of one vector; if all vectors have been
    destroyed, neither storage nor elements are left. *)
Theorem C40_no_leak : forall os a,
  vprogram dflt sizeT W no_vectors os a ->
  exists w, vruns dflt moved sizeT W vstart os = Done w /\
    (forall k cs, live (vw_mem w) k cs ->
       exists i b l, a i = Some l /\ vw_vec w i = Some b /\ m_ptr b = At k 0 /\
         cs = map Some l ++ repeat None (m_capacity b - length l) /\
         forall j c, vw_vec w j = Some c -> m_ptr c = At k 0 -> j = i) /\
    ((forall i, a i = None) -> forall k cs, ~ live (vw_mem w) k cs).
Proof.
  intros os a H.
  destruct (vprogram_refines dflt moved sizeT W sizeT_pos os _ _ _ (vstart_related sizeT W) H)
    as (w & E & R).
  exists w. split; [assumption|]. split.
  - intros k cs Hl. destruct (ow_owner _ _ _ _ R _ _ Hl) as (i & b & Hi & Hk).
    pose proof (ow_obj _ _ _ _ R i) as Ho. rewrite Hi in Ho.
    destruct (a i) as [l|] eqn:Ai; [|contradiction]. exists i, b, l.
    destruct Ho as [H1 _ _ _ _|k' cap [Hb Hv _ _ _]].
    { unfold owner_of in Hk. rewrite H1 in Hk. discriminate. }
    rewrite Hb in Hk. injection Hk as ->. rewrite Hb.
    split; [assumption|]. split; [now rewrite <- Hb|]. split; [reflexivity|].
    split; [exact (live_fun _ _ _ _ Hl Hv)|].
    intros j c Hj Hc. eapply (ow_apart _ _ _ _ R); [eassumption|eassumption| |].
    + unfold owner_of. now rewrite Hc.
    + rewrite Hb. reflexivity.
  - intros Hnone k cs Hl. destruct (ow_owner _ _ _ _ R _ _ Hl) as (i & b & Hi & _).
    pose proof (ow_obj _ _ _ _ R i) as Ho. rewrite Hi, Hnone in Ho. contradiction.
Qed.

(** operator== compares the sequences. *)
Theorem C40_equal : forall (V_eqb : V -> V -> bool) os a i j l m,
  (forall x y, reflect (x = y) (V_eqb x y)) ->
  vprogram dflt sizeT W no_vectors os a -> a i = Some l -> a j = Some m ->
  exists w x y r, vruns dflt moved sizeT W vstart os = Done w /\
    vw_vec w i = Some x /\ vw_vec w j = Some y /\
    vec_eq V_eqb (vw_mem w) x y = Done r /\ (r = true <-> l = m).
Proof.
  intros V_eqb os a i j l m Veq H Hi Hj.
  destruct (vprogram_refines dflt moved sizeT W sizeT_pos os _ _ _ (vstart_related sizeT W) H)
    as (w & E & R).
  destruct (owners_some _ _ _ _ _ _ R Hi) as (x & Fi & Hx).
  destruct (owners_some _ _ _ _ _ _ R Hj) as (y & Fj & Hy).
  destruct (vec_eq_ok sizeT W sizeT_pos V_eqb Veq _ _ _ _ _ Hx Hy) as (r & Er & Hr).
  exists w, x, y, r. auto.
Qed.

(** Which uses are proper: any operation on vectors that exist, with indices in
    range and sizes that fit in the address space.  Both arguments may be the
    same vector. *)
Theorem C40_proper_uses : forall (a : vectors) i l, a i = Some l ->
  (forall n, fits sizeT W n -> exists a', vmeans dflt sizeT W a (VReserve i n) a') /\
  (forall n, fits sizeT W n -> exists a', vmeans dflt sizeT W a (VResize i n) a') /\
  (forall v, fits sizeT W (3 * S (length l) / 2) -> exists a', vmeans dflt sizeT W a (VPush i v) a') /\
  (forall j m k, a j = Some m -> k < length m -> fits sizeT W (3 * S (length l) / 2) ->
     exists a', vmeans dflt sizeT W a (VPushElem i j k) a') /\
  (l <> [] -> exists a', vmeans dflt sizeT W a (VPop i) a') /\
  (forall k v, k < length l -> exists a', vmeans dflt sizeT W a (VSet i k v) a') /\
  (exists a', vmeans dflt sizeT W a (VClear i) a') /\
  (exists a', vmeans dflt sizeT W a (VDestroy i) a') /\
  (forall j m, a j = Some m -> exists a', vmeans dflt sizeT W a (VAssign i j) a') /\
  (forall j m, a j = Some m -> exists a', vmeans dflt sizeT W a (VAssignMove i j) a') /\
  (forall j, a j = None -> exists a', vmeans dflt sizeT W a (VCopy j i) a') /\
  (forall j, a j = None -> exists a', vmeans dflt sizeT W a (VMove j i) a').
Proof.
  intros a i l Hi.
  split; [intros; eexists; econstructor; eauto|].
  split; [intros; eexists; econstructor; eauto|].
  split; [intros; eexists; econstructor; eauto|].
  split.
  { intros j m k Hj Hk Hf. destruct (nth_error m k) as [v|] eqn:E.
    - eexists; econstructor; eauto.
    - apply nth_error_None in E. lia. }
  split.
  { intros Hl. destruct (exists_last Hl) as (l' & v & ->). eexists; econstructor; eauto. }
  split.
  { intros k v Hk. destruct (nth_error l k) as [x|] eqn:E; [|apply nth_error_None in E; lia].
    destruct (nth_error_split _ _ E) as (l1 & l2 & -> & <-). eexists; econstructor; eauto. }
  repeat split; intros; eexists; econstructor; eauto.
Qed.

End C40.

(** Reserving more than fits in the address space leaves a vector that believes
    it has storage which it does not: [reserve n] of a vector of 8-byte elements,
    with 256 values of size_t, passes all assertions, and a later pushBack writes
    outside the storage; or there is no storage at all. *)
Theorem C40_reserve_wraps_refuted :
  (exists w, vruns (V := nat) 0 (fun _ => 0) 8 256 vstart [VMake 0 0; VReserve 0 33] = Done w /\
     forall b, vw_vec w 0 = Some b -> m_capacity b = 33) /\
  vruns (V := nat) 0 (fun _ => 0) 8 256 vstart [VMake 0 0; VReserve 0 33; VPush 0 1; VPush 0 2] =
    Fault OutOfBounds /\
  vruns (V := nat) 0 (fun _ => 0) 8 256 vstart [VMake 0 0; VReserve 0 32; VPush 0 1] =
    Fault AssertFailed.
Proof.
  split; [|split; vm_compute; reflexivity].
  eexists. split; [vm_compute; reflexivity|]. intros b H. injection H as <-. reflexivity.
Qed.

(** Two vectors; one is grown by pushing its own elements, the other is
    copied from it, changed, moved and destroyed. *)
Definition ex_vops : list (vop nat) :=
  [VRange 0 [7; 8; 9]; VPushElem 0 0 1; VCopy 1 0; VSet 1 2 5; VMove 2 1; VAssign 0 2;
   VAssign 0 0; VResize 0 2; VAssignMove 2 0; VPop 2; VPush 1 4; VReserve 1 20; VDestroy 0; VClear 2].

Example C40_ex_meant : exists a, vprogram 0 8 1000 no_vectors ex_vops a /\
  a 0 = None /\ a 1 = Some [4] /\ a 2 = Some [].
Proof.
  eexists. split.
  { unfold ex_vops, no_vectors.
    eapply VP_cons.
    { apply VM_range; [reflexivity|]. unfold fits. cbn. lia. }
    eapply VP_cons.
    { eapply (VM_push_elem _ _ _ _ 0 0 1 [7;8;9] [7;8;9] 8); try reflexivity. unfold fits. cbn. lia. }
    eapply VP_cons.
    { apply (VM_copy _ _ _ _ 1 0 [7;8;9;8]); reflexivity. }
    eapply VP_cons.
    { apply (VM_set _ _ _ _ 1 [7;8] 9 [8] 5). reflexivity. }
    eapply VP_cons.
    { apply (VM_move _ _ _ _ 2 1 [7;8;5;8]); reflexivity. }
    eapply VP_cons.
    { apply (VM_assign _ _ _ _ 0 2 [7;8;9;8] [7;8;5;8]); reflexivity. }
    eapply VP_cons.
    { apply (VM_assign _ _ _ _ 0 0 [7;8;5;8] [7;8;5;8]); reflexivity. }
    eapply VP_cons.
    { apply (VM_resize _ _ _ _ 0 [7;8;5;8] 2); [reflexivity|]. unfold fits. cbn. lia. }
    eapply VP_cons.
    { apply (VM_assign_move _ _ _ _ 2 0 [7;8;5;8] [7;8]); reflexivity. }
    eapply VP_cons.
    { apply (VM_pop _ _ _ _ 2 [7] 8). reflexivity. }
    eapply VP_cons.
    { apply (VM_push _ _ _ _ 1 [] 4); [reflexivity|]. unfold fits. cbn. lia. }
    eapply VP_cons.
    { apply (VM_reserve _ _ _ _ 1 [4] 20); [reflexivity|]. unfold fits. cbn. lia. }
    eapply VP_cons.
    { apply (VM_destroy _ _ _ _ 0 [7;8;5;8]). reflexivity. }
    eapply VP_cons.
    { apply (VM_clear _ _ _ _ 2 [7]). reflexivity. }
    apply VP_nil. }
  repeat split.
Qed.

Example C40_ex_runs : exists w, vruns 0 (fun _ => 0) 8 1000 vstart ex_vops = Done w /\
  forall b, vw_vec w 1 = Some b -> vec_get (vw_mem w) b 0 = Done 4 /\ m_capacity b = 20.
Proof.
  eexists. split; [vm_compute; reflexivity|]. intros b H. injection H as <-. split; reflexivity.
Qed.

(** ** C41 *)
Section C41.
Context {V : Type}.
Variable dflt : V.
Variable moved : V -> V.
Variable sizeT W : nat.
Hypothesis sizeT_pos : 0 < sizeT.

(** Appending to, popping from and clearing one vector. *)
Inductive stack_op : vop V -> Prop :=
| so_push : forall v, stack_op (VPush 0 v)
| so_pop : stack_op (VPop 0)
| so_clear : stack_op (VClear 0).

Fixpoint pushes (os : list (vop V)) : nat :=
  match os with
  | [] => 0
  | VPush _ _ :: r => S (pushes r)
  | _ :: r => pushes r
  end.

Lemma stack_cost : forall os a a' w b l p g,
  vrelated sizeT W a w -> a 0 = Some l -> vw_vec w 0 = Some b ->
  Forall stack_op os -> vprogram dflt sizeT W a os a' ->
  3 * (p + pushes os) < W ->
  length l <= p -> cost (vw_mem w) = g + p -> g <= 3 * m_capacity b -> g <= 4 * p ->
  exists w', vruns dflt moved sizeT W w os = Done w' /\
    cost (vw_mem w') <= 5 * (p + pushes os).
Proof.
  induction os as [|o os IH]; intros a a' w b l p g R Ha Hb Hst Hp HW Hl Hc G1 G2.
  - exists w. split; [reflexivity|]. cbn. lia.
  - inversion Hst as [|? ? Ho Hos]; subst. inversion Hp as [|? ? a1 ? ? Hm Hrest]; subst.
    destruct (vstep_refines dflt moved sizeT W sizeT_pos _ _ _ _ R Hm) as (w1 & E1 & R1).
    destruct (owners_some _ _ _ _ _ _ R Ha) as (b0 & Hb0 & Hr).
    assert (b0 = b) as -> by congruence. clear Hb0.
    destruct Ho; inversion Hm; subst; cbn [vstep] in E1; unfold vvar in E1; rewrite Hb in E1;
      cbn [bind] in E1.
    + match goal with [H : a 0 = Some ?x, H' : a 0 = Some l |- _] =>
        assert (x = l) as -> by congruence end.
      destruct (push_ok moved sizeT W sizeT_pos _ _ _ v Hr) as (h' & b' & Ep & Hr' & _ & C1 & C2);
        [assumption|].
      rewrite Ep in E1. cbn [bind] in E1. injection E1 as <-.
      cbn [pushes vruns vstep] in *. unfold vvar. rewrite Hb. cbn [bind]. rewrite Ep. cbn [bind].
      replace (p + S (pushes os)) with (S p + pushes os) in * by lia.
      pose proof (vrep_le _ _ sizeT_pos _ _ _ Hr) as Hle.
      destruct (Nat.eq_dec (m_capacity b) (length l)) as [Heq|Hneq].
      * destruct (C2 Heq) as (Cc & Cm). unfold wmul in Cm.
        rewrite Nat.mod_small, (Nat.mul_comm (length l) 3) in Cm by lia.
        eapply (IH _ _ _ b' (l ++ [v]) (S p) (g + length l) R1); try eassumption.
        -- reflexivity.
        -- reflexivity.
        -- rewrite app_length. cbn. lia.
        -- cbn [vw_mem vset1 fst]. lia.
        -- rewrite Cm.
           pose proof (Nat.div_mod (3 * length l) 2 ltac:(lia)) as Hd.
           pose proof (Nat.mod_upper_bound (3 * length l) 2 ltac:(lia)) as Hmb. lia.
        -- lia.
      * destruct (C1 ltac:(lia)) as (Cm & Cc).
        eapply (IH _ _ _ b' (l ++ [v]) (S p) g R1); try eassumption.
        -- reflexivity.
        -- reflexivity.
        -- rewrite app_length. cbn. lia.
        -- cbn [vw_mem vset1 fst]. lia.
        -- lia.
        -- lia.
    + match goal with [H : a 0 = Some ?x, H' : a 0 = Some l |- _] =>
        assert (l = x) as -> by congruence end.
      destruct (pop_ok sizeT W sizeT_pos _ _ _ _ Hr) as (h' & b' & Ep & Hr' & _ & Cm & Cc).
      rewrite Ep in E1. cbn [bind] in E1. injection E1 as <-.
      cbn [pushes vruns vstep] in *. unfold vvar. rewrite Hb. cbn [bind]. rewrite Ep. cbn [bind].
      rewrite app_length in Hl. cbn in Hl.
      eapply (IH _ _ _ b' _ p g R1); try eassumption; try reflexivity.
      * lia.
      * cbn [vw_mem vset1 fst]. lia.
      * lia.
    + destruct (clear_ok sizeT W sizeT_pos _ _ _ Hr)
        as (h' & b' & Ep & Hr' & _ & _ & Cm & Cc).
      rewrite Ep in E1. cbn [bind] in E1. injection E1 as <-.
      cbn [pushes vruns vstep] in *. unfold vvar. rewrite Hb. cbn [bind]. rewrite Ep. cbn [bind].
      eapply (IH _ _ _ b' [] p g R1); try eassumption; try reflexivity.
      * cbn [length]. lia.
      * cbn [vw_mem vset1 fst]. lia.
      * lia.
Qed.

(** Appending, popping and clearing in any order moves at most five elements
    per pushBack, its own argument included. *)
Theorem C41_stack_amortised_partial : forall os a,
  Forall stack_op os ->
  vprogram dflt sizeT W no_vectors (VMake 0 0 :: os) a ->
  3 * pushes os < W ->
  exists w, vruns dflt moved sizeT W vstart (VMake 0 0 :: os) = Done w /\
    cost (vw_mem w) <= 5 * pushes os.
Proof.
  intros os a Hst Hp HW. inversion Hp as [|? ? a1 ? ? Hm Hrest]; subst.
  destruct (vstep_refines dflt moved sizeT W sizeT_pos _ _ _ _ (vstart_related sizeT W) Hm)
    as (w1 & E1 & R1).
  inversion Hm; subst. cbn [vruns]. rewrite E1. cbn [bind].
  destruct (owners_some _ _ _ _ 0 [] R1 ltac:(reflexivity)) as (b & Hb & Hr).
  eapply (stack_cost os _ _ w1 b [] 0 0 R1); try eassumption; try reflexivity; try (cbn; lia).
  cbn [vstep] in E1. unfold vunused, vec_make, buffer_make, wmul in E1.
  cbn [vstart vw_vec bind vw_mem] in E1.
  assert (0 <? sizeT = true) as Hs by (apply Nat.ltb_lt; assumption).
  assert ((0 * sizeT) mod W = 0) as Hz by (destruct W; [lia|apply Nat.mod_0_l; discriminate]).
  rewrite Hz, Hs in E1. cbn in E1. injection E1 as <-. reflexivity.
Qed.

Lemma push_program : forall r l (a : vectors), a 0 = Some l ->
  fits sizeT W (3 * length (l ++ r) / 2) ->
  exists a', vprogram dflt sizeT W a (map (fun v => VPush 0 v) r) a'.
Proof.
  induction r as [|v r IH]; intros l a Ha Hf.
  - eexists. constructor.
  - assert (length (l ++ v :: r) = length ((l ++ [v]) ++ r)) as Hlen
      by (rewrite !app_length; cbn; lia).
    destruct (IH (l ++ [v]) (vupd a 0 (Some (l ++ [v])))) as (a' & H').
    + reflexivity.
    + now rewrite <- Hlen.
    + exists a'. cbn [map]. econstructor; [|exact H']. constructor; [assumption|].
      unfold fits in *. rewrite app_length in Hf. cbn [length] in Hf.
      assert (3 * S (length l) / 2 <= 3 * (length l + S (length r)) / 2)
        by (apply Nat.div_le_mono; lia).
      nia.
Qed.

Lemma pushes_map : forall r, pushes (map (fun v => VPush 0 v) r) = length r.
Proof. induction r; cbn; auto. Qed.

(** Appending [n] elements one by one to an empty vector moves at most [5 n]
    elements.  Beyond a third of the values of size_t this can be false, see
    below. *)
Theorem C41_append_amortised_partial : forall l : list V,
  fits sizeT W (3 * length l / 2) -> 3 * length l < W ->
  exists w, vruns dflt moved sizeT W vstart (VMake 0 0 :: map (fun v => VPush 0 v) l) = Done w /\
    cost (vw_mem w) <= 5 * length l.
Proof.
  intros l Hf HW. destruct (push_program l [] (vupd no_vectors 0 (Some []))) as (a & Ha);
    [reflexivity|assumption|].
  pose proof (C41_stack_amortised_partial (map (fun v => VPush 0 v) l) a) as H.
  rewrite pushes_map in H. apply H; [| |assumption].
  - apply Forall_forall. intros o Ho. apply in_map_iff in Ho. destruct Ho as (v & <- & _). constructor.
  - econstructor; [|exact Ha]. constructor; [reflexivity|]. unfold fits. cbn. lia.
Qed.

End C41.

(** The full statement, for every vector that fits in memory with some room. *)
Definition C41_full_statement : Prop :=
  exists c, forall W (l : list nat), fits 1 W (3 * length l / 2) ->
    exists w, vruns 0 (fun _ => 0) 1 W vstart (VMake 0 0 :: map (fun v => VPush 0 v) l) = Done w /\
      cost (vw_mem w) <= c * length l.

(** From [3 m / 2] of [3 m] bytes on every pushBack moves all elements. *)
Lemma append_slow : forall m, 0 < m -> forall r l (a : vectors (V := nat)) w b,
  vrelated 1 (3 * m) a w -> a 0 = Some l -> vw_vec w 0 = Some b ->
  length l + length r < 2 * m ->
  m_capacity b <= Nat.max (3 * m / 2) (length l) ->
  exists w', vruns 0 (fun _ => 0) 1 (3 * m) w (map (fun v => VPush 0 v) r) = Done w' /\
    cost (vw_mem w) + (3 * m / 2) * (length l + length r - Nat.max (3 * m / 2) (length l))
    <= cost (vw_mem w').
Proof.
  intros m Hm. set (q := 3 * m / 2).
  induction r as [|v r IH]; intros l a w b R Ha Hb Hlen Hcap.
  - exists w. split; [reflexivity|]. cbn [length].
    replace (length l + 0 - Nat.max q (length l)) with 0 by lia. lia.
  - cbn [length] in Hlen. destruct (owners_some _ _ _ _ _ _ R Ha) as (b0 & Hb0 & Hr).
    assert (b0 = b) as -> by congruence. clear Hb0.
    assert (fits 1 (3 * m) (3 * S (length l) / 2)) as Hf.
    { unfold fits. rewrite Nat.mul_1_r. apply Nat.div_lt_upper_bound; lia. }
    destruct (vstep_refines 0 (fun _ => 0) 1 (3 * m) ltac:(lia) _ _ _ _ R
                (VM_push 0 1 (3 * m) a 0 l v Ha Hf)) as (w1 & E1 & R1).
    destruct (push_ok (fun _ => 0) 1 (3 * m) ltac:(lia) _ _ _ v Hr Hf)
      as (h' & b' & Ep & Hr' & _ & C1 & C2).
    cbn [map vruns]. rewrite E1. cbn [bind].
    cbn [vstep] in E1. unfold vvar in E1. rewrite Hb in E1. cbn [bind] in E1. rewrite Ep in E1.
    cbn [bind] in E1. injection E1 as <-.
    pose proof (vrep_le 1 (3 * m) ltac:(lia) _ _ _ Hr) as Hle.
    assert (m_capacity b' <= Nat.max q (length (l ++ [v]))) as Hcap'.
    { rewrite app_length. cbn [length].
      destruct (Nat.eq_dec (m_capacity b) (length l)) as [Heq|Hneq].
      - destruct (C2 Heq) as (_ & ->). apply Nat.max_lub; [lia|]. unfold wmul.
        destruct (Nat.lt_ge_cases (length l) m) as [Hlt|Hge].
        + rewrite Nat.mod_small by lia.
          assert (length l * 3 / 2 <= q) by (apply Nat.div_le_mono; lia). lia.
        + assert ((length l * 3) mod (3 * m) = 3 * (length l - m)) as ->.
          { replace (length l * 3) with (3 * (length l - m) + 1 * (3 * m)) by lia.
            rewrite Nat.mod_add by lia. apply Nat.mod_small. lia. }
          assert (3 * (length l - m) / 2 < S (length l)) by (apply Nat.div_lt_upper_bound; lia).
          lia.
      - destruct (C1 ltac:(lia)) as (-> & _). lia. }
    destruct (IH (l ++ [v]) _ _ b' R1 eq_refl eq_refl) as (w' & E' & C').
    + rewrite app_length. cbn. lia.
    + assumption.
    + exists w'. split; [exact E'|]. cbn [vw_mem vset1 fst] in C'.
      rewrite app_length in C'. cbn [length] in *.
      destruct (Nat.le_gt_cases q (length l)) as [Hql|Hql].
      * assert (m_capacity b = length l) as Heq by lia.
        destruct (C2 Heq) as (Cc & _).
        replace (length l + S (length r) - Nat.max q (length l)) with (S (length r)) by lia.
        replace (length l + 1 + length r - Nat.max q (length l + 1)) with (length r) in C' by lia.
        nia.
      * assert (cost (vw_mem w) <= cost h') as Hc.
        { destruct (Nat.eq_dec (m_capacity b) (length l)) as [Heq|Hneq].
          - destruct (C2 Heq) as (-> & _). lia.
          - destruct (C1 ltac:(lia)) as (_ & ->). lia. }
        replace (Nat.max q (length l + 1)) with q in C' by lia.
        replace (Nat.max q (length l)) with q by lia.
        replace (length l + S (length r)) with (length l + 1 + length r) by lia. lia.
Qed.

Theorem C41_full_statement_refuted : ~ C41_full_statement.
Proof.
  intros (c & H). set (m := 16 * c + 16).
  specialize (H (3 * m) (repeat 0 (2 * m - 1))). rewrite repeat_length in H.
  destruct H as (w & E & C).
  { unfold fits. rewrite Nat.mul_1_r. apply Nat.div_lt_upper_bound; lia. }
  destruct (vstep_refines 0 (fun _ => 0) 1 (3 * m) ltac:(lia) (VMake 0 0) _ _ _
              (vstart_related 1 (3 * m))
              (VM_make 0 1 (3 * m) no_vectors 0 0 eq_refl ltac:(unfold fits; lia)))
    as (w1 & E1 & R1).
  cbn [vruns] in E. rewrite E1 in E. cbn [bind] in E.
  cbn [vstep] in E1. unfold vunused, vec_make, buffer_make, wmul in E1.
  cbn [vstart vw_vec bind vw_mem] in E1.
  assert ((0 * 1) mod (3 * m) = 0) as Hz by (apply Nat.mod_0_l; lia).
  rewrite Hz in E1. cbn in E1. injection E1 as <-.
  destruct (append_slow m ltac:(lia) (repeat 0 (2 * m - 1)) [] _ _
              (Buffer Null 0 1 0 0) R1 eq_refl eq_refl) as (w' & E' & C').
  - rewrite repeat_length. cbn. lia.
  - cbn. lia.
  - rewrite E in E'. injection E' as <-. rewrite repeat_length in C'. cbn [length] in C'.
    cbn [vw_mem vset1 fst cost empty_heap] in C'.
    assert (3 * m / 2 = 24 * c + 24) as Hq.
    { unfold m. replace (3 * (16 * c + 16)) with ((24 * c + 24) * 2) by lia.
      apply Nat.div_mul. lia. }
    rewrite Hq in C'. replace (Nat.max (24 * c + 24) 0) with (24 * c + 24) in C' by lia.
    unfold m in *. nia.
Qed.

(** With one-byte elements size() * 3 wraps around when more than a third of
    the address space is in use, and from there on the storage grows by one
    element each time. *)
Example C41_ex_wraps : exists w,
  vruns 0 (fun _ => 0) 1 200 vstart (VMake 0 0 :: map (fun v => VPush 0 v) (repeat 1 130)) = Done w /\
  7 * 130 < cost (vw_mem w).
Proof. eexists. split; [vm_compute; reflexivity|]. apply Nat.ltb_lt. vm_compute. reflexivity. Qed.

Example C41_ex : exists w,
  vruns 0 (fun _ => 0) 8 2000 vstart (VMake 0 0 :: map (fun v => VPush 0 v) (repeat 1 100)) = Done w /\
  cost (vw_mem w) = 384.
Proof. eexists. split; [vm_compute; reflexivity|]. vm_compute. reflexivity. Qed.

(** * Assumptions *)
Print Assumptions C40_programs_read_back.
Print Assumptions C40_no_leak.
Print Assumptions C40_equal.
Print Assumptions C40_proper_uses.
Print Assumptions C40_reserve_wraps_refuted.
Print Assumptions C41_stack_amortised_partial.
Print Assumptions C41_append_amortised_partial.
Print Assumptions C41_full_statement_refuted.
