(** Vector with exceptions: proofs. *)
From Coq Require Import Bool PeanoNat Lia List.
From Verif Require Import Util Base Mem MemProofs MemOwners VectorMem VectorMemSpec VectorMemProofs
  VectorThrow VectorThrowSpec.
Import ListNotations.

Section VectorThrowProofs.
Context {V : Type}.
Variable dflt : V.
Variable moved : V -> V.
Variable torn : V -> V.
Variable sizeT W : nat.
Variable asserts : bool.
Variable raises : list call -> bool.
Hypothesis sizeT_pos : 0 < sizeT.
Implicit Types (h : vmem V) (b : vec V) (l : list V) (t : list call).

Local Notation vrep := (vrep sizeT W).
Local Notation vholds := (vholds sizeT W).
Local Notation x_make := (x_make sizeT W raises (V := V)).
Local Notation x_copy_loop := (x_copy_loop sizeT raises (V := V)).
Local Notation x_range := (x_range sizeT W raises (V := V)).
Local Notation x_copy := (x_copy sizeT W raises (V := V)).
Local Notation x_assign := (x_assign sizeT W raises (V := V)).
Local Notation x_move_loop := (x_move_loop moved torn sizeT raises).
Local Notation x_grow := (x_grow moved torn sizeT W asserts raises).
Local Notation x_reserve := (x_reserve moved torn sizeT W asserts raises).
Local Notation x_construct_to := (x_construct_to dflt sizeT raises).
Local Notation x_resize := (x_resize dflt moved torn sizeT W asserts raises).
Local Notation x_push := (x_push moved torn sizeT W asserts raises).
Local Notation x_step := (x_step dflt moved torn sizeT W asserts raises).
Local Notation x_runs := (x_runs dflt moved torn sizeT W asserts raises).

(** ** Exceptions come from the calls *)

(** The calls of an operation, and whether it threw: the last call is the only
    one that may throw, and then the operation throws. *)
Definition honest t t' (thrown : bool) : Prop :=
  exists calls, t' = calls ++ t /\
    (thrown = true -> calls <> []) /\
    forall pre c suf, calls = pre ++ c :: suf ->
      raises (c :: suf ++ t) = match pre with [] => thrown | _ => false end.

Lemma honest_nil : forall t, honest t t false.
Proof.
  intros t. exists []. split; [reflexivity|]. split; [discriminate|].
  intros [|d pre] c suf H; discriminate.
Qed.

Lemma honest_one : forall t c x, raises (c :: t) = x -> honest t (c :: t) x.
Proof.
  intros t c x H. exists [c]. split; [reflexivity|]. split; [discriminate|].
  intros [|e pre] d suf E; cbn in E; injection E as E1 E2; subst.
  - reflexivity.
  - destruct pre; discriminate.
Qed.

Lemma honest_trans : forall t t1 t2 x, honest t t1 false -> honest t1 t2 x -> honest t t2 x.
Proof.
  intros t t1 t2 x (c1 & -> & _ & H1) (c2 & -> & N2 & H2).
  exists (c2 ++ c1). rewrite app_assoc. split; [reflexivity|]. split.
  { intros Hx E. apply app_eq_nil in E as (E & _). apply (N2 Hx E). }
  intros pre c suf E.
  destruct (Nat.le_gt_cases (length c2) (length pre)) as [Hle|Hlt].
  - assert (pre = c2 ++ skipn (length c2) pre) as Hp.
    { rewrite <- (firstn_skipn (length c2) pre) at 1. f_equal.
      assert (firstn (length c2) (c2 ++ c1) = firstn (length c2) (pre ++ c :: suf)) as F by now rewrite E.
      rewrite firstn_app, Nat.sub_diag, firstn_all, app_nil_r in F. cbn in F.
      rewrite firstn_app in F. replace (length c2 - length pre) with 0 in F by lia. cbn in F.
      rewrite app_nil_r in F. symmetry. exact F. }
    rewrite Hp in E. rewrite <- app_assoc in E. apply app_inv_head in E.
    rewrite (H1 _ _ _ E). destruct (skipn (length c2) pre) as [|d r] eqn:Es.
    + rewrite app_nil_r in Hp. subst pre.
      destruct c2; [|reflexivity]. destruct x; [|reflexivity]. exfalso. now apply N2.
    + destruct pre as [|? ?]; [|reflexivity]. destruct c2; discriminate.
  - assert (exists suf', c2 = pre ++ c :: suf' /\ suf = suf' ++ c1) as (suf' & -> & ->).
    { clear -E Hlt. revert c2 E Hlt. induction pre as [|d pre IH]; intros c2 E Hlt.
      - destruct c2 as [|e c2]; [cbn in Hlt; lia|]. cbn in E. injection E as -> <-. exists c2. auto.
      - destruct c2 as [|e c2]; [cbn in Hlt; lia|]. cbn in E. injection E as -> E.
        destruct (IH c2 E) as (s' & -> & ->); [cbn in Hlt; lia|]. exists s'. auto. }
    rewrite <- app_assoc. apply (H2 _ _ _ eq_refl).
Qed.

Ltac destr H :=
  match type of H with
  | context [bind ?e _] => let E := fresh "E" in destruct e as [?|?] eqn:E; cbn [bind] in H; [|discriminate]
  end.

Lemma make_honest : forall h t n h' t' o, x_make h t n = Done (h', t', o) ->
  honest t t' (match o with None => true | Some _ => false end).
Proof.
  intros h t n h' t' o H. unfold VectorThrow.x_make in H.
  destruct (0 <? wmul W n sizeT).
  - destruct (raises (NewStorage :: t)) eqn:R.
    + injection H as <- <- <-. now apply honest_one.
    + destr H. injection H as <- <- <-. now apply honest_one.
  - destr H. injection H as <- <- <-. apply honest_nil.
Qed.

Lemma copy_loop_honest : forall n h t b p i h' t' b' x,
  x_copy_loop h t b p i n = Done (h', t', b', x) -> honest t t' x.
Proof.
  induction n as [|n IH]; intros h t b p i h' t' b' x H; cbn in H.
  - injection H as <- <- <- <-. apply honest_nil.
  - destr H. destruct (raises (CopyT :: t)) eqn:R.
    + injection H as <- <- <- <-. now apply honest_one.
    + destr H. eapply honest_trans; [apply honest_one, R|eapply IH, H].
Qed.

Lemma move_loop_honest : forall n h t b nb i h' t' b' x,
  x_move_loop h t b nb i n = Done (h', t', b', x) -> honest t t' x.
Proof.
  induction n as [|n IH]; intros h t b p i h' t' b' x H; cbn in H.
  - injection H as <- <- <- <-. apply honest_nil.
  - destr H. destruct (raises (MoveT :: t)) eqn:R.
    + destr H. injection H as <- <- <- <-. now apply honest_one.
    + destr H. destr H. eapply honest_trans; [apply honest_one, R|eapply IH, H].
Qed.

Lemma construct_to_honest : forall f h t b n h' t' b' x,
  x_construct_to f h t b n = Done (h', t', b', x) -> honest t t' x.
Proof.
  induction f as [|f IH]; intros h t b n h' t' b' x H;
    cbn [VectorThrow.x_construct_to] in H; destruct (m_size b <? n).
  - discriminate.
  - injection H as <- <- <- <-. apply honest_nil.
  - destruct (raises (DefaultT :: t)) eqn:R.
    + injection H as <- <- <- <-. now apply honest_one.
    + destr H. eapply honest_trans; [apply honest_one, R|eapply IH, H].
  - injection H as <- <- <- <-. apply honest_nil.
Qed.

Lemma range_honest : forall h t p n h' t' o, x_range h t p n = Done (h', t', o) ->
  honest t t' (match o with None => true | Some _ => false end).
Proof.
  intros h t p n h' t' o H. unfold VectorThrow.x_range in H. destr H. destruct a as [[h1 t1] o1].
  pose proof (make_honest _ _ _ _ _ _ E) as Hm.
  destruct o1 as [b|]; [|injection H as <- <- <-; exact Hm].
  destr H. destr H. destr H. destruct a1 as [[[h2 t2] b2] x]. pose proof (copy_loop_honest _ _ _ _ _ _ _ _ _ _ E2) as Hc.
  destruct x.
  - destr H. injection H as <- <- <-. eapply honest_trans; eassumption.
  - injection H as <- <- <-. eapply honest_trans; eassumption.
Qed.

Lemma grow_honest : forall h t b n h' t' b' x, x_grow h t b n = Done (h', t', b', x) -> honest t t' x.
Proof.
  intros h t b n h' t' b' x H. unfold VectorThrow.x_grow in H. destr H. destruct a as [[h1 t1] o1].
  pose proof (make_honest _ _ _ _ _ _ E) as Hm.
  destruct o1 as [nb|]; [|injection H as <- <- <- <-; exact Hm].
  destr H. destruct a as [[[h2 t2] b2] y]. pose proof (move_loop_honest _ _ _ _ _ _ _ _ _ _ E0) as Hc.
  destruct y.
  - destr H. injection H as <- <- <- <-. eapply honest_trans; eassumption.
  - destr H. destr H. unfold buffer_assign_move in H. destr H. destr H.
    injection H as <- <- <- <-. eapply honest_trans; eassumption.
Qed.

Lemma reserve_honest : forall h t b n h' t' b' x, x_reserve h t b n = Done (h', t', b', x) -> honest t t' x.
Proof.
  intros h t b n h' t' b' x H. unfold VectorThrow.x_reserve in H. destruct (m_capacity b <? n).
  - eapply grow_honest, H.
  - injection H as <- <- <- <-. apply honest_nil.
Qed.

Lemma resize_honest : forall h t b n h' t' b' x, x_resize h t b n = Done (h', t', b', x) -> honest t t' x.
Proof.
  intros h t b n h' t' b' x H. unfold VectorThrow.x_resize in H. destr H.
  destruct a as [[[h1 t1] b1] y]. pose proof (reserve_honest _ _ _ _ _ _ _ _ E) as Hr. destruct y.
  - injection H as <- <- <- <-. exact Hr.
  - destr H. destr H. destr H. destruct a1 as [[[h2 t2] b2] z].
    pose proof (construct_to_honest _ _ _ _ _ _ _ _ _ E2) as Hc. destruct z.
    + injection H as <- <- <- <-. eapply honest_trans; eassumption.
    + destr H. injection H as <- <- <- <-. eapply honest_trans; eassumption.
Qed.

Lemma push_honest : forall h t b v h' t' b' x, x_push h t b v = Done (h', t', b', x) -> honest t t' x.
Proof.
  intros h t b v h' t' b' x H. unfold VectorThrow.x_push in H.
  destruct (raises (CopyT :: t)) eqn:R.
  { injection H as <- <- <- <-. now apply honest_one. }
  apply honest_one in R. destr H. destruct a as [[[h1 t1] b1] y].
  assert (honest (CopyT :: t) t1 y) as Hg.
  { destruct (m_capacity b <? wadd W (m_size b) 1).
    - eapply grow_honest, E.
    - injection E as <- <- <- <-. apply honest_nil. }
  pose proof (honest_trans _ _ _ _ R Hg) as H1. destruct y.
  - injection H as <- <- <- <-. exact H1.
  - destr H. destruct (raises (MoveT :: t1)) eqn:R1.
    + injection H as <- <- <- <-. eapply honest_trans; [exact H1|now apply honest_one].
    + destr H. injection H as <- <- <- <-. eapply honest_trans; [exact H1|now apply honest_one].
Qed.

Lemma step_honest : forall w t o w' t' x, x_step w t o = Done (w', t', x) -> honest t t' x.
Proof.
  intros w t o w' t' x H. destruct o; cbn [VectorThrow.x_step] in H;
    try (destr H; injection H as <- <- <-; apply honest_nil).
  - destr H. destr H. destruct a0 as [[h1 t1] o1]. cbn in H. injection H as <- <- <-.
    eapply make_honest, E0.
  - destr H. destr H. destruct a0 as [[h1 t1] o1]. cbn in H. injection H as <- <- <-.
    eapply range_honest, E0.
  - destr H. destr H. destr H. destruct a1 as [[h1 t1] o1]. cbn in H. injection H as <- <- <-.
    eapply range_honest, E1.
  - destr H. destr H. destr H. unfold VectorThrow.x_assign in E1. destr E1.
    destruct a2 as [[h2 t2] o2]. apply range_honest in E2.
    destruct o2 as [temp|].
    + unfold buffer_assign_move in E1. destr E1. injection E1 as <-. cbn in H. injection H as <- <- <-.
      assumption.
    + injection E1 as <-. cbn in H. injection H as <- <- <-. assumption.
  - destr H. destr H. destruct a0 as [[[h1 t1] b1] y]. cbn in H. injection H as <- <- <-.
    eapply reserve_honest, E0.
  - destr H. destr H. destruct a0 as [[[h1 t1] b1] y]. cbn in H. injection H as <- <- <-.
    eapply resize_honest, E0.
  - destr H. destr H. destruct a0 as [[[h1 t1] b1] y]. cbn in H. injection H as <- <- <-.
    eapply push_honest, E0.
  - destr H. destr H. destr H. destr H. destruct a2 as [[[h1 t1] b1] y]. cbn in H.
    injection H as <- <- <-. eapply push_honest, E2.
Qed.

(** ** An operation that does not throw is the one of VectorMem.v *)

Lemma make_quiet : forall h t n h' t' b, x_make h t n = Done (h', t', Some b) ->
  vec_make sizeT W h n = Done (h', b).
Proof.
  intros h t n h' t' b H. unfold VectorThrow.x_make in H. unfold vec_make.
  destruct (0 <? wmul W n sizeT); [destruct (raises (NewStorage :: t)); [discriminate|]|];
    destr H; injection H as <- <- <-; now destruct a.
Qed.

Lemma copy_loop_quiet : forall n h t b p i h' t' b',
  x_copy_loop h t b p i n = Done (h', t', b', false) -> copy_loop sizeT h b p i n = Done (h', b').
Proof.
  induction n as [|n IH]; intros h t b p i h' t' b' H; cbn in H |- *.
  - injection H as <- <- <-. reflexivity.
  - destr H. cbn [bind]. destruct (raises (CopyT :: t)); [discriminate|]. destr H. cbn [bind]. eapply IH, H.
Qed.

Lemma move_loop_quiet : forall n h t b nb i h' t' b',
  x_move_loop h t b nb i n = Done (h', t', b', false) ->
  move_loop moved sizeT h b nb i n = Done (h', b').
Proof.
  induction n as [|n IH]; intros h t b nb i h' t' b' H; cbn in H |- *.
  - injection H as <- <- <-. reflexivity.
  - destr H. cbn [bind]. destruct (raises (MoveT :: t)); [destr H; discriminate|].
    destr H. cbn [bind]. destr H. cbn [bind]. eapply IH, H.
Qed.

Lemma construct_to_quiet : forall f h t b n h' t' b',
  x_construct_to f h t b n = Done (h', t', b', false) ->
  construct_to dflt sizeT f h b n = Done (h', b').
Proof.
  induction f as [|f IH]; intros h t b n h' t' b' H;
    cbn [VectorThrow.x_construct_to construct_to] in H |- *; destruct (m_size b <? n).
  - discriminate.
  - injection H as <- <- <-. reflexivity.
  - destruct (raises (DefaultT :: t)); [discriminate|]. destr H. cbn [bind]. eapply IH, H.
  - injection H as <- <- <-. reflexivity.
Qed.

Lemma range_quiet : forall h t p n h' t' b, x_range h t p n = Done (h', t', Some b) ->
  vec_range sizeT W h p n = Done (h', b).
Proof.
  intros h t p n h' t' b H. unfold VectorThrow.x_range in H. unfold vec_range. destr H.
  destruct a as [[h1 t1] [b1|]]; [|discriminate].
  rewrite (make_quiet _ _ _ _ _ _ E). cbn [bind fst snd]. destr H. cbn [bind]. destr H. cbn [bind].
  destr H. destruct a1 as [[[h2 t2] b2] x]. destruct x; [destr H; discriminate|].
  injection H as <- <- <-. eapply copy_loop_quiet, E2.
Qed.

Lemma assign_quiet : forall h t b c h' t' b', x_assign h t b c = Done (h', t', b', false) ->
  vec_assign sizeT W h b c = Done (h', b').
Proof.
  intros h t b c h' t' b' H. unfold VectorThrow.x_assign in H. unfold vec_assign. destr H.
  destruct a as [[h1 t1] [b1|]]; [|discriminate]. unfold vec_copy.
  rewrite (range_quiet _ _ _ _ _ _ _ E). cbn [bind fst snd]. unfold buffer_assign_move in *.
  destr H. cbn [bind]. injection H as <- <- <-. reflexivity.
Qed.

Lemma grow_quiet : forall h t b n h' t' b', x_grow h t b n = Done (h', t', b', false) ->
  vec_grow moved sizeT W h b n = Done (h', b').
Proof.
  intros h t b n h' t' b' H. unfold VectorThrow.x_grow in H. unfold vec_grow. destr H.
  destruct a as [[h1 t1] [b1|]]; [|discriminate].
  pose proof (make_quiet _ _ _ _ _ _ E) as Em. unfold vec_make in Em. rewrite Em. cbn [bind fst snd].
  destr H. destruct a as [[[h2 t2] b2] x]. destruct x; [destr H; discriminate|].
  rewrite (move_loop_quiet _ _ _ _ _ _ _ _ _ E0). cbn [bind fst snd].
  destr H. cbn [bind]. destr H. cbn [bind]. unfold buffer_assign_move in *. destr H. cbn [bind].
  destr H. cbn [bind]. injection H as <- <- <-. reflexivity.
Qed.

Lemma reserve_quiet : forall h t b n h' t' b', x_reserve h t b n = Done (h', t', b', false) ->
  vec_reserve moved sizeT W h b n = Done (h', b').
Proof.
  intros h t b n h' t' b' H. unfold VectorThrow.x_reserve in H. unfold vec_reserve.
  destruct (m_capacity b <? n); [eapply grow_quiet, H|]. injection H as <- <- <-. reflexivity.
Qed.

Lemma resize_quiet : forall h t b n h' t' b', x_resize h t b n = Done (h', t', b', false) ->
  vec_resize dflt moved sizeT W h b n = Done (h', b').
Proof.
  intros h t b n h' t' b' H. unfold VectorThrow.x_resize in H. unfold vec_resize. destr H.
  destruct a as [[[h1 t1] b1] x]. destruct x; [discriminate|].
  pose proof (reserve_quiet _ _ _ _ _ _ _ E) as Er. unfold vec_reserve in Er. rewrite Er.
  cbn [bind fst snd]. destr H. cbn [bind]. destr H. cbn [bind]. destr H.
  destruct a1 as [[[h2 t2] b2] x]. destruct x; [discriminate|].
  rewrite (construct_to_quiet _ _ _ _ _ _ _ _ E2). cbn [bind snd]. destr H. cbn [bind].
  injection H as <- <- <-. reflexivity.
Qed.

Lemma push_quiet : forall h t b v h' t' b', x_push h t b v = Done (h', t', b', false) ->
  vec_push moved sizeT W h b v = Done (h', b').
Proof.
  intros h t b v h' t' b' H. unfold VectorThrow.x_push in H. unfold vec_push.
  destruct (raises (CopyT :: t)); [discriminate|]. destr H. destruct a as [[[h1 t1] b1] x].
  destruct x; [discriminate|].
  assert ((if m_capacity b <? wadd W (m_size b) 1 then
             vec_grow moved sizeT W h b
               (if wmul W (m_size b) 3 / 2 <? wadd W (m_size b) 1 then wadd W (m_size b) 1
                else wmul W (m_size b) 3 / 2)
           else Done (h, b)) = Done (h1, b1)) as Eg.
  { destruct (m_capacity b <? wadd W (m_size b) 1); [eapply grow_quiet, E|].
    injection E as <- <- <-. reflexivity. }
  cbn zeta. rewrite Eg. cbn [bind fst snd]. destr H. cbn [bind].
  destruct (raises (MoveT :: t1)); [discriminate|]. destr H. cbn [bind].
  injection H as <- <- <-. reflexivity.
Qed.

Lemma step_quiet : forall w t o w' t', x_step w t o = Done (w', t', false) ->
  vstep dflt moved sizeT W w o = Done w'.
Proof.
  intros w t o w' t' H. destruct o; cbn [VectorThrow.x_step] in H; cbn [vstep];
    try (destr H; injection H as <- <-; exact E).
  - destr H. cbn [bind]. destr H. destruct a0 as [[h1 t1] [b1|]]; [|discriminate].
    rewrite (make_quiet _ _ _ _ _ _ E0). cbn in H |- *. injection H as <- <-. reflexivity.
  - destr H. cbn [bind]. destr H. destruct a0 as [[h1 t1] [b1|]]; [|discriminate].
    rewrite (range_quiet _ _ _ _ _ _ _ E0). cbn in H |- *. injection H as <- <-. reflexivity.
  - destr H. cbn [bind]. destr H. cbn [bind]. destr H. destruct a1 as [[h1 t1] [b1|]]; [|discriminate].
    unfold vec_copy. rewrite (range_quiet _ _ _ _ _ _ _ E1). cbn in H |- *. injection H as <- <-. reflexivity.
  - destr H. cbn [bind]. destr H. cbn [bind]. destr H. destruct a1 as [[[h1 t1] b1] x]. cbn in H.
    injection H as <- <- ->. rewrite (assign_quiet _ _ _ _ _ _ _ E1). reflexivity.
  - destr H. cbn [bind]. destr H. destruct a0 as [[[h1 t1] b1] x]. cbn in H.
    injection H as <- <- ->. rewrite (reserve_quiet _ _ _ _ _ _ _ E0). reflexivity.
  - destr H. cbn [bind]. destr H. destruct a0 as [[[h1 t1] b1] x]. cbn in H.
    injection H as <- <- ->. rewrite (resize_quiet _ _ _ _ _ _ _ E0). reflexivity.
  - destr H. cbn [bind]. destr H. destruct a0 as [[[h1 t1] b1] x]. cbn in H.
    injection H as <- <- ->. rewrite (push_quiet _ _ _ _ _ _ _ E0). reflexivity.
  - destr H. cbn [bind]. destr H. cbn [bind]. destr H. cbn [bind]. destr H.
    destruct a2 as [[[h1 t1] b1] x]. cbn in H.
    injection H as <- <- ->. rewrite (push_quiet _ _ _ _ _ _ _ E2). reflexivity.
Qed.

(** ** Without throwing moves *)
Section NothrowMove.
Hypothesis move_nothrow : forall t, raises (MoveT :: t) = false.

Lemma move_loop_eq : forall n h t b nb i,
  x_move_loop h t b nb i n =
  (hb <- move_loop moved sizeT h b nb i n ;; Done (fst hb, repeat MoveT n ++ t, snd hb, false)).
Proof.
  induction n as [|n IH]; intros h t b nb i; cbn; [reflexivity|].
  destruct (load_value h (m_ptr b) i); cbn [bind]; [|reflexivity]. rewrite move_nothrow.
  destruct (store h (m_ptr b) i (Some (moved a))); cbn [bind]; [|reflexivity].
  destruct (constructNext sizeT a0 nb a); cbn [bind]; [|reflexivity]. rewrite IH.
  destruct (move_loop moved sizeT (spend (fst a1) 1) b (snd a1) (S i) n); cbn [bind]; [|reflexivity].
  assert (repeat MoveT n ++ MoveT :: t = MoveT :: repeat MoveT n ++ t) as ->; [|reflexivity].
  clear. induction n; [reflexivity|]. cbn. now rewrite IHn.
Qed.

Lemma make_cases : forall h t n, 0 < n -> n * sizeT < W ->
  (raises (NewStorage :: t) = true /\ x_make h t n = Done (h, NewStorage :: t, None)) \/
  (raises (NewStorage :: t) = false /\
   exists h1 b1, buffer_make W h n sizeT = Done (h1, b1) /\
                 x_make h t n = Done (h1, NewStorage :: t, Some b1)).
Proof.
  intros h t n Hn Hf. unfold VectorThrow.x_make.
  assert (0 <? wmul W n sizeT = true) as ->.
  { unfold wmul. rewrite Nat.mod_small by assumption. apply Nat.ltb_lt. nia. }
  destruct (raises (NewStorage :: t)); [left; auto|]. right. split; [reflexivity|].
  destruct (make_vec sizeT W sizeT_pos h n Hf) as (_ & Hm). destruct (Hm Hn) as (-> & _).
  cbn [bind fst snd]. eauto.
Qed.

Lemma grow_cases : forall h t b n, 0 < n -> n * sizeT < W ->
  (raises (NewStorage :: t) = true /\ x_grow h t b n = Done (h, NewStorage :: t, b, true)) \/
  (raises (NewStorage :: t) = false /\
   x_grow h t b n = (hb <- vec_grow moved sizeT W h b n ;;
                     Done (fst hb, repeat MoveT (m_size b) ++ NewStorage :: t, snd hb, false))).
Proof.
  intros h t b n Hn Hf. unfold VectorThrow.x_grow.
  destruct (make_cases h t n Hn Hf) as [(R & ->)|(R & h1 & b1 & Em & ->)]; [left; auto|right].
  split; [assumption|]. cbn [bind]. rewrite move_loop_eq. unfold vec_grow. rewrite Em. cbn [bind fst snd].
  destruct (move_loop moved sizeT h1 b b1 0 (m_size b)) as [[h2 nb]|]; cbn [bind fst snd]; [|reflexivity].
  destruct (assert_ (m_size b =? m_size nb)); cbn [bind]; [|reflexivity].
  destruct (destruct_to sizeT (m_size b) h2 b 0) as [[h3 b3]|]; cbn [bind fst snd]; [|reflexivity].
  unfold buffer_assign_move. destruct (buffer_destroy true h3 b3); cbn [bind]; [|reflexivity].
  destruct (assert_ (m_capacity nb =? n)); cbn [bind fst snd]; reflexivity.
Qed.

Lemma option_eq_nat : forall (o : option nat) k, o = Some k \/ o <> Some k.
Proof.
  intros [j|] k; [|right; discriminate]. destruct (Nat.eq_dec j k) as [->|]; [left|right]; congruence.
Qed.

Definition left_as h b l h' b' : Prop :=
  vrep h' b' l /\ evolves h (owner_of b) h' (owner_of b').

Lemma left_refl : forall h b l, vrep h b l -> left_as h b l h b.
Proof. intros h b l H. split; [assumption|apply evolves_refl]. Qed.

Lemma copy_loop_any : forall l2 l1 h t b p k cap n,
  vholds h b l1 k cap -> length l1 + length l2 <= cap ->
  source h (Some k) p n (map Some (l1 ++ l2)) ->
  exists h' t' b' x l', x_copy_loop h t b p (length l1) (length l2) = Done (h', t', b', x) /\
    vholds h' b' l' k cap /\ evolves h (Some k) h' (Some k).
Proof.
  induction l2 as [|v l2 IH]; intros l1 h t b p k cap n H Hc Hs.
  - exists h, t, b, false, l1. cbn [length VectorThrow.x_copy_loop]. split; [reflexivity|].
    split; [assumption|apply evolves_refl].
  - cbn [length VectorThrow.x_copy_loop].
    rewrite (source_load sizeT sizeT_pos _ _ _ _ _ (length l1) v Hs).
    2:{ rewrite map_app, nth_error_app2; rewrite map_length; [|lia].
        now rewrite Nat.sub_diag. }
    cbn [bind]. destruct (raises (CopyT :: t)).
    { exists h, (CopyT :: t), b, true, l1. split; [reflexivity|]. split; [assumption|apply evolves_refl]. }
    cbn [length] in Hc. rewrite (constructNext_ok sizeT W sizeT_pos _ _ _ _ _ v H) by lia.
    cbn [bind fst snd].
    pose proof (constructNext_holds sizeT W sizeT_pos _ _ _ _ _ v H ltac:(lia)) as H1.
    set (h1 := set_block h k (Some (cells (l1 ++ [v]) cap))) in *.
    assert (evolves h (Some k) h1 (Some k)) as E1
      by (eapply evolves_write, (vh_live _ _ _ _ _ _ _ H)).
    pose proof (source_evolves _ _ _ _ _ _ _ Hs E1) as Hs1.
    destruct (IH (l1 ++ [v]) (spend h1 1) (CopyT :: t) (buf sizeT k cap (S (length l1))) p k cap n)
      as (h' & t' & b' & x & l' & E & H' & E').
    + apply vholds_spend. assumption.
    + rewrite app_length. cbn. lia.
    + rewrite <- app_assoc. exact Hs1.
    + rewrite app_length, Nat.add_1_r in E.
      exists h', t', b', x, l'. split; [exact E|]. split; [exact H'|].
      eapply evolves_trans; [eassumption|exact E'].
Qed.

Lemma range_any : forall h t p l, source h None p (length l) (map Some l) -> length l * sizeT < W ->
  exists h' t' o, x_range h t p (length l) = Done (h', t', o) /\
    (o = None -> evolves h None h' None).
Proof.
  intros h t p l Hs Hf. unfold VectorThrow.x_range. destruct l as [|v l].
  - cbn [length]. unfold VectorThrow.x_make, buffer_make, wmul. cbn [Nat.mul].
    assert (0 <? sizeT = true) as -> by (apply Nat.ltb_lt; assumption).
    assert (0 mod W = 0) as -> by (destruct W; [reflexivity|apply Nat.mod_0_l; discriminate]).
    cbn. do 3 eexists. split; [reflexivity|]. discriminate.
  - set (m := v :: l) in *.
    destruct (make_cases h t (length m) ltac:(cbn; lia) Hf) as [(R & ->)|(R & h1 & b1 & Em & ->)].
    { cbn [bind]. do 3 eexists. split; [reflexivity|]. intros _. apply evolves_refl. }
    destruct (make_vec sizeT W sizeT_pos h (length m) Hf) as (_ & Hm).
    destruct (Hm ltac:(cbn; lia)) as (Em' & Hn). rewrite Em' in Em. injection Em as <- <-. cbn [bind].
    cbn [m_capacity m_size buf]. rewrite Nat.leb_refl. cbn [Nat.eqb assert_ bind].
    pose proof (evolves_alloc h (length m)) as E0. pose proof (source_evolves _ _ _ _ _ _ _ Hs E0) as Hs'.
    destruct (copy_loop_any m [] _ (NewStorage :: t) _ p _ _ _ Hn ltac:(cbn [length]; lia) Hs')
      as (h' & t' & b' & x & l' & E & Hh & Ev).
    replace (x_copy_loop _ _ _ p 0 (length m)) with
      (Done (h', t', b', x)) by (symmetry; exact E). cbn [bind]. destruct x.
    + destruct (destroy_vec_ok sizeT W sizeT_pos _ _ _ (vrep_at _ _ _ _ _ _ _ Hh)) as (h2 & -> & E2).
      cbn [bind]. do 3 eexists. split; [reflexivity|]. intros _.
      eapply evolves_trans; [exact E0|]. eapply evolves_trans; [exact Ev|].
      rewrite (vholds_owner _ _ _ _ _ _ _ Hh) in E2. exact E2.
    + do 3 eexists. split; [reflexivity|]. discriminate.
Qed.

Lemma copy_any : forall h t b l, vrep h b l ->
  exists h' t' o, x_copy h t b = Done (h', t', o) /\ (o = None -> evolves h None h' None).
Proof.
  intros h t b l Hr. unfold VectorThrow.x_copy. rewrite (vrep_size _ _ _ _ _ Hr).
  destruct l as [|v l].
  - unfold VectorThrow.x_range, VectorThrow.x_make, buffer_make, wmul. cbn [length Nat.mul].
    assert (0 <? sizeT = true) as -> by (apply Nat.ltb_lt; assumption).
    assert (0 mod W = 0) as -> by (destruct W; [reflexivity|apply Nat.mod_0_l; discriminate]).
    cbn. do 3 eexists. split; [reflexivity|]. discriminate.
  - apply range_any.
    + eapply (vrep_source sizeT W sizeT_pos); [eassumption|discriminate|]. intros k _. discriminate.
    + destruct Hr as [H1 H2 H3 H4 H5|k cap H]; [discriminate|].
      pose proof (vh_le _ _ _ _ _ _ _ H). pose proof (vh_fits _ _ _ _ _ _ _ H). nia.
Qed.

Lemma assign_any : forall h t b l c m, vrep h b l -> vrep h c m ->
  exists h' t' b' x, x_assign h t b c = Done (h', t', b', x) /\
    (x = true -> left_as h b l h' b').
Proof.
  intros h t b l c m Hb Hc. unfold VectorThrow.x_assign.
  destruct (copy_any h t c m Hc) as (h1 & t1 & o & E & Ho). rewrite E. cbn [bind].
  destruct o as [n|].
  - unfold VectorThrow.x_copy in E. pose proof (range_quiet _ _ _ _ _ _ _ E) as Eq.
    destruct (copy_ok sizeT W sizeT_pos h c m Hc) as (h1' & n' & Ec & Hn & E1 & _).
    unfold vec_copy in Ec. rewrite Eq in Ec. injection Ec as <- <-.
    unfold buffer_assign_move.
    assert (vrep h1 b l) as Hb1 by (eapply vrep_frame; [eassumption|eassumption|intros; discriminate]).
    destruct (destroy_vec_ok sizeT W sizeT_pos h1 b l Hb1) as (h2 & -> & E2). cbn [bind].
    do 4 eexists. split; [reflexivity|]. discriminate.
  - do 4 eexists. split; [reflexivity|]. intros _. specialize (Ho eq_refl).
    split; [eapply vrep_frame; [eassumption|eassumption|intros; discriminate]|].
    split.
    + intros k cs Hl. destruct (proj1 Ho _ _ Hl) as [X|(_ & Hl1)]; [discriminate|].
      destruct (option_eq_nat (owner_of b) k) as [X|X]; auto.
    + intros k cs Hl Hk. destruct (proj2 Ho _ _ Hl) as (Hl1 & _); [discriminate|]. auto.
Qed.

Lemma grow_any : forall h t b l n, vrep h b l -> length l <= n -> 0 < n -> n * sizeT < W ->
  exists h' t' b' x, x_grow h t b n = Done (h', t', b', x) /\ (x = true -> h' = h /\ b' = b).
Proof.
  intros h t b l n Hr Hl Hn Hf.
  destruct (grow_cases h t b n Hn Hf) as [(_ & ->)|(_ & ->)].
  - do 4 eexists. split; [reflexivity|auto].
  - destruct (grow_ok moved sizeT W sizeT_pos h b l n Hr Hl Hn Hf) as (h' & k & -> & _).
    cbn [bind]. do 4 eexists. split; [reflexivity|discriminate].
Qed.

Lemma reserve_any : forall h t b l n, vrep h b l -> n * sizeT < W ->
  exists h' t' b' x, x_reserve h t b n = Done (h', t', b', x) /\
    (x = true -> h' = h /\ b' = b /\ length l < n).
Proof.
  intros h t b l n Hr Hf. unfold VectorThrow.x_reserve.
  pose proof (vrep_le sizeT W sizeT_pos _ _ _ Hr) as Hle.
  destruct (m_capacity b <? n) eqn:E.
  - apply Nat.ltb_lt in E.
    destruct (grow_any h t b l n Hr) as (h' & t' & b' & x & Eg & Hx); [lia|lia|assumption|].
    exists h', t', b', x. split; [assumption|]. intros ->. destruct Hx; auto. repeat split; auto; lia.
  - do 4 eexists. split; [reflexivity|discriminate].
Qed.

Lemma construct_to_any : forall n h t b l k cap fuel, vholds h b l k cap ->
  length l + n <= cap -> n <= fuel ->
  exists h' t' b' x, x_construct_to fuel h t b (length l + n) = Done (h', t', b', x) /\
    (x = true -> exists j, j < n /\ vholds h' b' (l ++ repeat dflt j) k cap /\
                 evolves h (Some k) h' (Some k)).
Proof.
  induction n as [|n IH]; intros h t b l k cap fuel H Hc Hf.
  - assert (m_size b = length l) as Hs by (rewrite (vh_buf _ _ _ _ _ _ _ H); reflexivity).
    rewrite Nat.add_0_r. destruct fuel; cbn [VectorThrow.x_construct_to]; rewrite Hs, Nat.ltb_irrefl;
      do 4 eexists; (split; [reflexivity|discriminate]).
  - destruct fuel as [|fuel]; [lia|]. cbn [VectorThrow.x_construct_to].
    assert (m_size b = length l) as Hs by (rewrite (vh_buf _ _ _ _ _ _ _ H); reflexivity).
    rewrite Hs. destruct (length l <? length l + S n) eqn:E; [|apply Nat.ltb_ge in E; lia].
    destruct (raises (DefaultT :: t)).
    { do 4 eexists. split; [reflexivity|]. intros _. exists 0. cbn [repeat]. rewrite app_nil_r.
      split; [lia|]. split; [assumption|apply evolves_refl]. }
    rewrite (constructNext_ok sizeT W sizeT_pos _ _ _ _ _ dflt H) by lia. cbn [bind fst snd].
    specialize (IH (set_block h k (Some (cells (l ++ [dflt]) cap))) (DefaultT :: t) _ (l ++ [dflt])
                  k cap fuel (constructNext_holds sizeT W sizeT_pos _ _ _ _ _ dflt H ltac:(lia))).
    rewrite app_length in IH. cbn [length] in IH.
    replace (length l + 1 + n) with (length l + S n) in IH by lia.
    destruct IH as (h' & t' & b' & x & Ec & Hx); [lia|lia|].
    exists h', t', b', x. split; [exact Ec|]. intros X. destruct (Hx X) as (j & Hj & Hh & Ev).
    exists (S j). split; [lia|]. rewrite <- app_assoc in Hh. split; [exact Hh|].
    eapply evolves_trans; [|exact Ev]. eapply evolves_write, (vh_live _ _ _ _ _ _ _ H).
Qed.

Lemma resize_any : forall h t b l n, vrep h b l -> n * sizeT < W ->
  exists h' t' b' x, x_resize h t b n = Done (h', t', b', x) /\
    (x = true -> exists k, length l + k < n /\
       vrep h' b' (l ++ repeat dflt k) /\ evolves h (owner_of b) h' (owner_of b')).
Proof.
  intros h t b l n Hr Hf. unfold VectorThrow.x_resize.
  destruct (reserve_any h t b l n Hr Hf) as (h1 & t1 & b1 & x & Er & Hx). rewrite Er. cbn [bind].
  destruct x.
  { destruct (Hx eq_refl) as (-> & -> & Hl). do 4 eexists. split; [reflexivity|]. intros _.
    exists 0. cbn [repeat]. rewrite app_nil_r, Nat.add_0_r. split; [assumption|].
    split; [assumption|apply evolves_refl]. }
  pose proof (reserve_quiet _ _ _ _ _ _ _ Er) as Eq. clear Hx.
  destruct (reserve_vec_ok moved sizeT W sizeT_pos h b l n Hr Hf) as (h1' & b1' & Eq' & Hr1 & E1 & Hn1).
  rewrite Eq in Eq'. injection Eq' as <- <-.
  destruct (n <=? m_capacity b1) eqn:El; [|apply Nat.leb_gt in El; lia]. cbn [assert_ bind].
  rewrite (vrep_size sizeT W _ _ _ Hr1).
  destruct Hr1 as [H1 H2 H3 H4 ->|k cap H].
  - assert (n = 0) as -> by lia. cbn [length destruct_to]. rewrite ?H3.
    cbn [Nat.ltb Nat.leb bind fst snd VectorThrow.x_construct_to]. rewrite ?H3.
    cbn [Nat.ltb Nat.leb bind fst snd]. rewrite ?H3. cbn [Nat.eqb assert_ bind].
    do 4 eexists. split; [reflexivity|discriminate].
  - assert (m_capacity b1 = cap) as Hcap by (rewrite (vh_buf _ _ _ _ _ _ _ H); reflexivity).
    rewrite (vholds_owner _ _ _ _ _ _ _ H) in E1.
    destruct (Nat.le_gt_cases n (length l)) as [Hle|Hgt].
    + assert (l = firstn n l ++ skipn n l) as Hs by (symmetry; apply firstn_skipn).
      assert (length (firstn n l) = n) as Hfl by (rewrite firstn_length; lia).
      rewrite Hs in H.
      pose proof (destruct_to_ok sizeT W sizeT_pos (skipn n l) h1 b1 (firstn n l) k cap (length l) H) as Ed.
      rewrite skipn_length, Hfl in Ed. rewrite Ed by lia. cbn [bind fst snd].
      assert (forall f h0, x_construct_to f h0 t1 (buf sizeT k cap n) n = Done (h0, t1, buf sizeT k cap n, false))
        as Hct.
      { intros f h0. destruct f; cbn [VectorThrow.x_construct_to m_size buf]; rewrite Nat.ltb_irrefl; reflexivity. }
      rewrite Hct. cbn [bind m_size buf]. rewrite Nat.eqb_refl. cbn [assert_ bind].
      do 4 eexists. split; [reflexivity|discriminate].
    + assert (m_size b1 = length l) as Hs by (rewrite (vh_buf _ _ _ _ _ _ _ H); reflexivity).
      assert (forall f h0, destruct_to sizeT f h0 b1 n = Done (h0, b1)) as Hdt.
      { intros f h0. destruct f; cbn [destruct_to]; rewrite Hs;
          (destruct (n <? length l) eqn:X; [apply Nat.ltb_lt in X; lia|reflexivity]). }
      rewrite Hdt. cbn [bind fst snd].
      destruct (construct_to_any (n - length l) h1 t1 b1 l k cap n H)
        as (h2 & t2 & b2 & x & Ec & Hx); [lia|lia|].
      replace (length l + (n - length l)) with n in Ec by lia. rewrite Ec. cbn [bind]. destruct x.
      * do 4 eexists. split; [reflexivity|]. intros _. destruct (Hx eq_refl) as (j & Hj & Hh & Ev).
        exists j. split; [lia|]. split; [eapply vrep_at; exact Hh|].
        rewrite (vholds_owner _ _ _ _ _ _ _ Hh). eapply evolves_trans; eassumption.
      * pose proof (construct_to_quiet _ _ _ _ _ _ _ _ Ec) as Eq2.
        pose proof (construct_to_ok dflt sizeT W sizeT_pos (n - length l) h1 b1 l k cap n H) as Ek.
        replace (length l + (n - length l)) with n in Ek by lia. rewrite Eq2 in Ek.
        specialize (Ek ltac:(lia) ltac:(lia)). injection Ek as -> ->.
        cbn [m_size buf]. rewrite Nat.eqb_refl. cbn [assert_ bind].
        do 4 eexists. split; [reflexivity|discriminate].
Qed.

Lemma push_any : forall h t b l v, vrep h b l -> (3 * S (length l) / 2) * sizeT < W ->
  exists h' t' b' x, x_push h t b v = Done (h', t', b', x) /\ (x = true -> h' = h /\ b' = b).
Proof.
  intros h t b l v Hr Hf.
  destruct (push_ok moved sizeT W sizeT_pos h b l v Hr Hf) as (hp & bp & Ep & _). revert Ep.
  unfold VectorThrow.x_push, vec_push. rewrite (vrep_size _ _ _ _ _ Hr).
  destruct (raises (CopyT :: t)); [intros _; do 4 eexists; split; [reflexivity|auto]|].
  pose proof (vrep_le sizeT W sizeT_pos _ _ _ Hr) as Hle.
  assert (S (length l) <= 3 * S (length l) / 2) as Hq1.
  { apply Nat.div_le_lower_bound; lia. }
  assert (3 * length l / 2 <= 3 * S (length l) / 2) as Hq2 by (apply Nat.div_le_mono; lia).
  assert (S (length l) * sizeT < W) as Hf1 by nia.
  assert (wadd W (length l) 1 = S (length l)) as ->.
  { unfold wadd. rewrite Nat.mod_small by nia. lia. }
  cbn zeta. destruct (m_capacity b <? S (length l)) eqn:E.
  - apply Nat.ltb_lt in E.
    set (c := if wmul W (length l) 3 / 2 <? S (length l) then S (length l)
              else wmul W (length l) 3 / 2).
    assert (wmul W (length l) 3 / 2 <= 3 * length l / 2) as Hwm.
    { apply Nat.div_le_mono; [lia|]. unfold wmul.
      etransitivity; [apply Nat.mod_le; lia|lia]. }
    assert (S (length l) <= c /\ c <= 3 * S (length l) / 2) as (Hc1 & Hc2).
    { unfold c. destruct (wmul W (length l) 3 / 2 <? S (length l)) eqn:Ec.
      - lia.
      - apply Nat.ltb_ge in Ec. lia. }
    destruct (grow_any h (CopyT :: t) b l c Hr) as (h1 & t1 & b1 & x & Eg & Hx); [lia|lia|nia|].
    rewrite Eg. cbn [bind]. destruct x.
    { intros _. do 4 eexists. split; [reflexivity|]. auto. }
    rewrite (grow_quiet _ _ _ _ _ _ _ Eg). cbn [bind fst snd]. intros Ep.
    destr Ep. cbn [bind]. rewrite move_nothrow. destr Ep. cbn [bind].
    do 4 eexists. split; [reflexivity|discriminate].
  - cbn [bind fst snd]. intros Ep. destr Ep. cbn [bind]. rewrite move_nothrow. destr Ep. cbn [bind].
    do 4 eexists. split; [reflexivity|discriminate].
Qed.

(** ** Programs *)

Local Notation vrelated := (vrelated sizeT W).
Local Notation vmeans := (vmeans dflt sizeT W).

Lemma same_related : forall a w i h' b b', vrelated a w -> vw_vec w i = Some b -> h' = vw_mem w -> b' = b ->
  vrelated a (VWorld h' (vput (vw_vec w) i (Some b'))).
Proof.
  intros a w i h' b b' R Hi -> ->. unfold VectorMemProofs.vrelated. cbn [vw_mem vw_vec].
  eapply owners_ext; [exact R|reflexivity|]. intros j. unfold vput.
  destruct (Nat.eqb_spec j i) as [->|]; [assumption|reflexivity].
Qed.

Lemma set_related : forall a w i b h' b' l, vrelated a w -> vw_vec w i = Some b ->
  vrep h' b' l -> evolves (vw_mem w) (owner_of b) h' (owner_of b') ->
  vrelated (vupd a i (Some l)) (VWorld h' (vput (vw_vec w) i (Some b'))).
Proof.
  intros a w i b h' b' l R Hi Hr E.
  apply (owners_step vrep (vrep_live sizeT W) (vrep_frame sizeT W)
           a (vw_mem w) (vw_vec w) i h' (Some l) (Some b') (owner_of b) R);
    [now rewrite Hi|exact E|exact Hr].
Qed.

Lemma kept_related : forall a w i b h' b' l, vrelated a w -> a i = Some l -> vw_vec w i = Some b ->
  left_as (vw_mem w) b l h' b' ->
  vrelated a (VWorld h' (vput (vw_vec w) i (Some b'))).
Proof.
  intros a w i b h' b' l R Ha Hi (Hr & E).
  eapply owners_ext; [exact (set_related _ _ _ _ _ _ _ R Hi Hr E)| |reflexivity].
  intros j. unfold vupd. destruct (Nat.eqb_spec j i) as [->|]; [now rewrite Ha|reflexivity].
Qed.

Lemma unmade_related : forall a w i h', vrelated a w -> a i = None -> evolves (vw_mem w) None h' None ->
  vrelated a (VWorld h' (vput (vw_vec w) i None)).
Proof.
  intros a w i h' R Ha E. pose proof (owners_none _ _ _ _ _ R Ha) as Hi.
  eapply owners_ext; [|intros j; instantiate (1 := vupd a i None)|reflexivity].
  2:{ unfold vupd. destruct (Nat.eqb_spec j i) as [->|]; [now rewrite Ha|reflexivity]. }
  apply (owners_step vrep (vrep_live sizeT W) (vrep_frame sizeT W)
           a (vw_mem w) (vw_vec w) i h' None None None R); [now rewrite Hi|exact E|exact I].
Qed.

Lemma step_refines : forall o a a' w t, vrelated a w -> vmeans a o a' ->
  exists w' t' x, x_step w t o = Done (w', t', x) /\
    (x = false -> vrelated a' w') /\
    (x = true -> exists a'', throwing dflt a o a'' /\ vrelated a'' w').
Proof.
  intros o a a' w t R H.
  assert (exists w' t' x, x_step w t o = Done (w', t', x) /\
            (x = true -> exists a'', throwing dflt a o a'' /\ vrelated a'' w')) as (w' & t' & x & E & Hx).
  { pose proof (vstep_refines dflt moved sizeT W sizeT_pos _ _ _ _ R H) as (wq & Eq & _).
    revert Eq. destruct H; cbn [VectorThrow.x_step]; try (intros ->; cbn [bind]; do 3 eexists;
      split; [reflexivity|discriminate]); intros _; unfold vunused, vvar.
    - rewrite (owners_none _ _ _ _ _ R H). cbn [bind]. destruct n as [|n].
      + unfold VectorThrow.x_make, buffer_make, wmul. cbn [Nat.mul].
        assert (0 <? sizeT = true) as -> by (apply Nat.ltb_lt; assumption).
        assert (0 mod W = 0) as -> by (destruct W; [reflexivity|apply Nat.mod_0_l; discriminate]).
        cbn. do 3 eexists. split; [reflexivity|discriminate].
      + destruct (make_cases (vw_mem w) t (S n) ltac:(lia) H0) as [(_ & ->)|(_ & h1 & b1 & _ & ->)];
          cbn [bind x_new]; do 3 eexists; (split; [reflexivity|]); [intros _|discriminate].
        exists a. split; [constructor|]. apply unmade_related; auto. apply evolves_refl.
    - rewrite (owners_none _ _ _ _ _ R H). cbn [bind].
      destruct (range_any (vw_mem w) t (Ext l) l) as (h' & t' & o & -> & Ho);
        [cbn; split; [lia|now rewrite firstn_all]|assumption|].
      cbn [bind x_new]. do 3 eexists. split; [reflexivity|]. destruct o as [b|]; [discriminate|intros _].
      exists a. split; [constructor|]. apply unmade_related; auto.
    - rewrite (owners_none _ _ _ _ _ R H). cbn [bind].
      destruct (owners_some _ _ _ _ _ _ R H0) as (y & Fj & Hy). rewrite Fj. cbn [bind].
      destruct (copy_any (vw_mem w) t y l Hy) as (h' & t' & o & -> & Ho).
      cbn [bind x_new]. do 3 eexists. split; [reflexivity|]. destruct o as [b|]; [discriminate|intros _].
      exists a. split; [constructor|]. apply unmade_related; auto.
    - destruct (owners_some _ _ _ _ _ _ R H) as (b & Fi & Hb).
      destruct (owners_some _ _ _ _ _ _ R H0) as (y & Fj & Hy). rewrite Fi, Fj. cbn [bind].
      destruct (assign_any (vw_mem w) t _ _ _ _ Hb Hy) as (h' & t' & b' & x & -> & Hx).
      cbn [bind x_set]. do 3 eexists. split; [reflexivity|]. intros X. exists a. split; [constructor|].
      eapply kept_related; eauto.
    - destruct (owners_some _ _ _ _ _ _ R H) as (b & Fi & Hb). rewrite Fi. cbn [bind].
      destruct (reserve_any (vw_mem w) t b l n Hb H0) as (h' & t' & b' & x & -> & Hx).
      cbn [bind x_set]. do 3 eexists. split; [reflexivity|]. intros X. exists a. split; [constructor|].
      destruct (Hx X) as (? & ? & _). eapply same_related; eauto.
    - destruct (owners_some _ _ _ _ _ _ R H) as (b & Fi & Hb). rewrite Fi. cbn [bind].
      destruct (resize_any (vw_mem w) t b l n Hb H0) as (h' & t' & b' & x & -> & Hx).
      cbn [bind x_set]. do 3 eexists. split; [reflexivity|]. intros X.
      destruct (Hx X) as (k & Hk & Hr & E). exists (vupd a i (Some (l ++ repeat dflt k))).
      split; [constructor; assumption|]. eapply set_related; eauto.
    - destruct (owners_some _ _ _ _ _ _ R H) as (b & Fi & Hb). rewrite Fi. cbn [bind].
      destruct (push_any (vw_mem w) t b l v Hb H0) as (h' & t' & b' & x & -> & Hx).
      cbn [bind x_set]. do 3 eexists. split; [reflexivity|]. intros X. exists a. split; [constructor|].
      destruct (Hx X) as (? & ?). eapply same_related; eauto.
    - destruct (owners_some _ _ _ _ _ _ R H) as (b & Fi & Hb).
      destruct (owners_some _ _ _ _ _ _ R H0) as (y & Fj & Hy). rewrite Fi, Fj. cbn [bind].
      rewrite (get_ok sizeT W _ _ _ _ _ Hy H1). cbn [bind].
      destruct (push_any (vw_mem w) t b _ v Hb ltac:(eassumption)) as (h' & t' & b' & x & -> & Hx).
      cbn [bind x_set]. do 3 eexists. split; [reflexivity|]. intros X. exists a. split; [constructor|].
      destruct (Hx X) as (? & ?). eapply same_related; eauto. }
  exists w', t', x. split; [assumption|]. split; [|assumption]. intros ->.
  pose proof (step_quiet _ _ _ _ _ E) as Eq.
  destruct (vstep_refines dflt moved sizeT W sizeT_pos _ _ _ _ R H) as (wq & Eq' & Rq). congruence.
Qed.

Lemma prog_refines : forall p a w t, vrelated a w -> proper dflt sizeT W a p ->
  exists w' t' tr a', x_runs w t p = Done (w', t', tr) /\ ends dflt sizeT W a p tr a' /\ vrelated a' w'.
Proof.
  induction p as [|o next IH]; intros a w t R H; inversion H; subst.
  - exists w, t, [], a. split; [reflexivity|]. split; [constructor|assumption].
  - destruct (step_refines o a a' w t R ltac:(assumption)) as (w1 & t1 & x & E & Hf & Ht).
    cbn [VectorThrow.x_runs]. rewrite E. cbn [bind]. destruct x.
    + destruct (Ht eq_refl) as (a1 & T & R1).
      destruct (IH true a1 w1 t1 R1) as (w2 & t2 & tr & a2 & E2 & En & R2); [auto|].
      rewrite E2. cbn [bind]. do 4 eexists. split; [reflexivity|]. split; [|exact R2].
      eapply E_throw; eassumption.
    + destruct (IH false a' w1 t1 (Hf eq_refl)) as (w2 & t2 & tr & a2 & E2 & En & R2); [assumption|].
      rewrite E2. cbn [bind]. do 4 eexists. split; [reflexivity|]. split; [|exact R2].
      eapply E_ok; eassumption.
Qed.

End NothrowMove.

(** ** When a move throws *)

Lemma repeat_shift : forall (c : call) n t, repeat c n ++ c :: t = repeat c (S n) ++ t.
Proof. induction n as [|n IH]; intros t; [reflexivity|]. cbn. now rewrite IH. Qed.

Lemma move_loop_throws : forall l2 l1 h t b nb ko capo kn capn v r,
  vholds h b (map moved l1 ++ l2 ++ v :: r) ko capo -> vholds h nb l1 kn capn -> ko <> kn ->
  length l1 + length l2 < capn ->
  (forall j, j < length l2 -> raises (repeat MoveT (S j) ++ t) = false) ->
  raises (repeat MoveT (S (length l2)) ++ t) = true ->
  exists h' nb', x_move_loop h t b nb (length l1) (length l2 + S (length r)) =
                 Done (h', repeat MoveT (S (length l2)) ++ t, nb', true) /\
    vholds h' b (map moved (l1 ++ l2) ++ torn v :: r) ko capo /\
    vholds h' nb' (l1 ++ l2) kn capn /\ same_but h h' ko kn.
Proof.
  induction l2 as [|u l2 IH]; intros l1 h t b nb ko capo kn capn v r Ho Hn Hne Hc Hf Ht;
    cbn [length Nat.add VectorThrow.x_move_loop] in *;
    pose proof (vh_buf _ _ _ _ _ _ _ Ho) as Hb;
    assert (m_ptr b = At ko 0) as Hp by (rewrite Hb; reflexivity); rewrite Hp;
    pose proof (vh_live _ _ _ _ _ _ _ Ho) as Hlo; pose proof (vh_le _ _ _ _ _ _ _ Ho) as Hleo;
    rewrite !app_length, map_length in Hleo; cbn [length] in Hleo.
  - cbn [app] in *. cbn [repeat app] in Ht.
    rewrite (load_value_at _ _ _ _ _ v Hlo).
    2:{ apply cells_nth. cbn. rewrite nth_error_app2; rewrite map_length; [|lia].
        now rewrite Nat.sub_diag. }
    cbn [bind]. rewrite Ht. rewrite (store_at _ _ _ _ _ _ Hlo).
    2:{ rewrite (cells_length sizeT sizeT_pos); rewrite ?app_length, ?map_length; cbn; lia. }
    cbn [bind Nat.add].
    assert (set_nth (cells (map moved l1 ++ v :: r) capo) (length l1) (Some (torn v)) =
            cells (map moved l1 ++ torn v :: r) capo) as ->.
    { rewrite <- (map_length moved l1) at 1. now rewrite cells_set. }
    do 2 eexists. split; [reflexivity|]. rewrite app_nil_r. split; [|split].
    + destruct Ho. constructor; auto.
      * rewrite Hb. unfold buf. rewrite !app_length. reflexivity.
      * eapply live_set_block_eq. eassumption.
      * rewrite app_length, map_length. cbn. lia.
    + destruct Hn. constructor; auto. apply live_set_block_neq; assumption.
    + intros c cs H1 H2. rewrite live_set_block_neq by congruence. reflexivity.
  - rewrite <- app_comm_cons in Hlo. rewrite (load_value_at _ _ _ _ _ u Hlo).
    2:{ apply cells_nth. cbn. rewrite nth_error_app2; rewrite map_length; [|lia].
        now rewrite Nat.sub_diag. }
    cbn [bind]. pose proof (Hf 0 ltac:(lia)) as Hf0. cbn [repeat app] in Hf0. rewrite Hf0.
    rewrite (store_at _ _ _ _ _ _ Hlo).
    2:{ rewrite (cells_length sizeT sizeT_pos); rewrite ?app_length, ?map_length; cbn; rewrite ?app_length; cbn; lia. }
    cbn [bind Nat.add].
    assert (set_nth (cells (map moved l1 ++ u :: l2 ++ v :: r) capo) (length l1) (Some (moved u)) =
            cells (map moved (l1 ++ [u]) ++ l2 ++ v :: r) capo) as ->.
    { rewrite <- (map_length moved l1) at 1. rewrite cells_set, map_app, <- app_assoc. reflexivity. }
    set (h1 := set_block h ko (Some (cells (map moved (l1 ++ [u]) ++ l2 ++ v :: r) capo))).
    assert (vholds h1 nb l1 kn capn) as Hn1
      by (destruct Hn; constructor; auto; apply live_set_block_neq; assumption).
    rewrite (constructNext_ok sizeT W sizeT_pos _ _ _ _ _ u Hn1) by lia. cbn [bind fst snd].
    pose proof (constructNext_holds sizeT W sizeT_pos _ _ _ _ _ u Hn1 ltac:(lia)) as Hn2.
    set (h2 := set_block h1 kn (Some (cells (l1 ++ [u]) capn))) in *.
    assert (vholds h2 b (map moved (l1 ++ [u]) ++ l2 ++ v :: r) ko capo) as Ho2.
    { destruct Ho. constructor; auto.
      - rewrite Hb. unfold buf. rewrite !app_length, !map_length, !app_length. cbn.
        rewrite ?app_length. cbn. f_equal; lia.
      - apply live_set_block_neq; [congruence|]. eapply live_set_block_eq. eassumption.
      - rewrite !app_length, map_length, app_length. cbn. lia. }
    assert (same_but h h2 ko kn) as Hsame.
    { intros c cs H1 H2. unfold h2, h1. rewrite !live_set_block_neq by congruence. reflexivity. }
    destruct (IH (l1 ++ [u]) (spend h2 1) (MoveT :: t) b (buf sizeT kn capn (S (length l1)))
                ko capo kn capn v r) as (h' & nb' & E & Ho' & Hn' & S').
    + apply vholds_spend. assumption.
    + apply vholds_spend. assumption.
    + assumption.
    + rewrite app_length. cbn. lia.
    + intros j Hj. rewrite repeat_shift. apply Hf. lia.
    + rewrite repeat_shift. exact Ht.
    + rewrite app_length, Nat.add_1_r, repeat_shift in E. rewrite <- app_assoc in Ho', Hn'.
      exists h', nb'. split; [exact E|]. split; [exact Ho'|]. split; [exact Hn'|].
      intros c cs H1 H2. rewrite (Hsame c cs H1 H2). apply S'; assumption.
Qed.

Lemma grow_throws : forall h t b l v r ko capo n,
  vholds h b (l ++ v :: r) ko capo -> length (l ++ v :: r) <= n -> n * sizeT < W ->
  raises (NewStorage :: t) = false ->
  (forall j, j < length l -> raises (repeat MoveT (S j) ++ NewStorage :: t) = false) ->
  raises (repeat MoveT (S (length l)) ++ NewStorage :: t) = true ->
  match l with
  | [] => exists h', x_grow h t b n = Done (h', MoveT :: NewStorage :: t, b, true) /\
            vholds h' b (torn v :: r) ko capo /\ evolves h (Some ko) h' (Some ko)
  | _ => x_grow h t b n = Fault (if asserts then AssertFailed else BadLifetime)
  end.
Proof.
  intros h t b l v r ko capo n H Hl Hf Hs Hm Ht.
  assert (length (l ++ v :: r) = length l + S (length r)) as Hlen by (rewrite app_length; reflexivity).
  destruct (make_vec sizeT W sizeT_pos h n Hf) as (_ & Hmk). destruct (Hmk ltac:(lia)) as (Em & Hnew).
  set (k := length (blocks h)) in *. set (h0 := fst (alloc h n)) in *.
  assert (evolves h None h0 (Some k)) as E0 by apply evolves_alloc.
  assert (ko <> k) as Hne.
  { pose proof (live_lt _ _ _ (vh_live _ _ _ _ _ _ _ H)). unfold k. lia. }
  assert (vholds h0 b (l ++ v :: r) ko capo) as Ho0.
  { destruct H. constructor; auto. destruct (proj2 E0 _ _ vh_live) as (? & _); [discriminate|assumption]. }
  assert (m_size b = length l + S (length r)) as Hsz
    by (rewrite (vh_buf _ _ _ _ _ _ _ H); cbn; assumption).
  destruct (move_loop_throws l [] h0 (NewStorage :: t) b (buf sizeT k n 0) ko capo k n v r Ho0 Hnew Hne)
    as (h1 & nb & E1 & Ho1 & Hn1 & S1); [cbn; lia|assumption|assumption|].
  cbn [length Nat.add app] in E1, Ho1, Hn1.
  assert (x_grow h t b n =
          (h2 <- x_drop asserts h1 nb ;; Done (h2, repeat MoveT (S (length l)) ++ NewStorage :: t, b, true)))
    as Eg.
  { unfold VectorThrow.x_grow, VectorThrow.x_make.
    assert (0 <? wmul W n sizeT = true) as ->.
    { unfold wmul. rewrite Nat.mod_small by assumption. apply Nat.ltb_lt. nia. }
    rewrite Hs, Em. cbn [bind fst snd]. rewrite Hsz.
    replace (x_move_loop _ _ b _ 0 (length l + S (length r))) with
      (Done (h1, repeat MoveT (S (length l)) ++ NewStorage :: t, nb, true)) by (symmetry; exact E1).
    reflexivity. }
  rewrite Eg. pose proof (vh_live _ _ _ _ _ _ _ Hn1) as Hlv. pose proof (vh_buf _ _ _ _ _ _ _ Hn1) as Hb.
  unfold VectorThrow.x_drop, buffer_destroy. rewrite Hb. cbn [m_constructed m_ptr buf].
  destruct l as [|u l].
  - cbn [length Nat.eqb assert_ bind]. exists (set_block h1 k None).
    rewrite (free_empty _ _ n Hlv).
    split; [destruct asserts; reflexivity|].
    cbn [map app] in Ho1. split.
    + destruct Ho1. constructor; auto. apply live_set_block_neq; [congruence|assumption].
    + split.
      * intros c cs Hc. destruct (Nat.eq_dec ko c) as [->|Hkc]; [left; reflexivity|].
        destruct (Nat.eq_dec k c) as [<-|Hc']; [exfalso; exact (not_live_freed _ _ _ _ Hlv Hc)|].
        right. split; [congruence|]. apply live_set_block_neq in Hc; [|assumption].
        apply S1 in Hc; [|congruence|congruence].
        destruct (proj1 E0 _ _ Hc) as [Ek|(_ & ?)]; [congruence|assumption].
      * intros c cs Hc Hkc. split; [|assumption].
        destruct (proj2 E0 _ _ Hc) as (Hc0 & Hc1); [discriminate|].
        apply live_set_block_neq; [congruence|]. apply S1; [congruence|congruence|assumption].
  - destruct asserts; [reflexivity|]. unfold free. rewrite (find_block_live _ _ _ Hlv).
    reflexivity.
Qed.

(** ** How many calls *)

Lemma make_calls : forall h t n h' t' b, x_make h t n = Done (h', t', Some b) ->
  t' = storage sizeT W n ++ t.
Proof.
  intros h t n h' t' b H. unfold VectorThrow.x_make, wmul in H. unfold storage.
  destruct (0 <? (n * sizeT) mod W); [destruct (raises (NewStorage :: t)); [discriminate|]|];
    destr H; injection H as <- <- <-; reflexivity.
Qed.

Lemma copy_loop_calls : forall n h t b p i h' t' b',
  x_copy_loop h t b p i n = Done (h', t', b', false) -> t' = repeat CopyT n ++ t.
Proof.
  induction n as [|n IH]; intros h t b p i h' t' b' H; cbn in H.
  - injection H as <- <- <-. reflexivity.
  - destr H. destruct (raises (CopyT :: t)); [discriminate|]. destr H. apply IH in H.
    rewrite H. apply repeat_shift.
Qed.

Lemma constructNext_sizes : forall h b v h' b', constructNext sizeT h b v = Done (h', b') ->
  m_size b' = S (m_size b).
Proof.
  intros h b v h' b' H. unfold constructNext in H. do 4 destr H. destruct a2; [discriminate|]. destr H.
  injection H as <- <-. reflexivity.
Qed.

Lemma destructLast_sizes : forall h b h' b', destructLast sizeT h b = Done (h', b') ->
  m_size b' = m_size b - 1.
Proof.
  intros h b h' b' H. unfold destructLast in H. do 5 destr H. injection H as <- <-. reflexivity.
Qed.

Lemma destruct_to_sizes : forall f h b n h' b', destruct_to sizeT f h b n = Done (h', b') ->
  m_size b' = Nat.min (m_size b) n.
Proof.
  induction f as [|f IH]; intros h b n h' b' H; cbn [destruct_to] in H;
    destruct (n <? m_size b) eqn:E; try discriminate.
  - injection H as <- <-. apply Nat.ltb_ge in E. lia.
  - destr H. destruct a as [h1 b1]. apply IH in H. apply Nat.ltb_lt in E.
    apply destructLast_sizes in E0. cbn [snd] in H. lia.
  - injection H as <- <-. apply Nat.ltb_ge in E. lia.
Qed.

Lemma move_loop_calls : forall n h t b nb i h' t' b',
  x_move_loop h t b nb i n = Done (h', t', b', false) -> t' = repeat MoveT n ++ t.
Proof.
  induction n as [|n IH]; intros h t b nb i h' t' b' H; cbn in H.
  - injection H as <- <- <-. reflexivity.
  - destr H. destruct (raises (MoveT :: t)); [destr H; discriminate|]. destr H. destr H. apply IH in H.
    rewrite H. apply repeat_shift.
Qed.

Lemma construct_to_calls : forall f h t b n h' t' b',
  x_construct_to f h t b n = Done (h', t', b', false) -> t' = repeat DefaultT (n - m_size b) ++ t.
Proof.
  induction f as [|f IH]; intros h t b n h' t' b' H; cbn [VectorThrow.x_construct_to] in H;
    destruct (m_size b <? n) eqn:E; try discriminate.
  - injection H as <- <- <-. apply Nat.ltb_ge in E. now replace (n - m_size b) with 0 by lia.
  - destruct (raises (DefaultT :: t)); [discriminate|]. destr H. destruct a as [h1 b1].
    apply constructNext_sizes in E0. apply IH in H. cbn [snd] in H. rewrite H, E0, repeat_shift.
    apply Nat.ltb_lt in E. now replace (S (n - S (m_size b))) with (n - m_size b) by lia.
  - injection H as <- <- <-. apply Nat.ltb_ge in E. now replace (n - m_size b) with 0 by lia.
Qed.

Lemma range_calls : forall h t p n h' t' b, x_range h t p n = Done (h', t', Some b) ->
  t' = repeat CopyT n ++ storage sizeT W n ++ t.
Proof.
  intros h t p n h' t' b H. unfold VectorThrow.x_range in H. destr H.
  destruct a as [[h1 t1] [b1|]]; [|discriminate]. apply make_calls in E. subst t1.
  destr H. destr H. destr H. destruct a1 as [[[h2 t2] b2] x]. destruct x; [destr H; discriminate|].
  injection H as <- <- <-. eapply copy_loop_calls, E1.
Qed.

Lemma assign_calls : forall h t b c h' t' b', x_assign h t b c = Done (h', t', b', false) ->
  t' = repeat CopyT (m_size c) ++ storage sizeT W (m_size c) ++ t.
Proof.
  intros h t b c h' t' b' H. unfold VectorThrow.x_assign in H. destr H.
  destruct a as [[h1 t1] [b1|]]; [|discriminate]. unfold buffer_assign_move in H. destr H.
  injection H as <- <- <-. eapply range_calls, E.
Qed.

Lemma grow_calls : forall h t b n h' t' b', x_grow h t b n = Done (h', t', b', false) ->
  t' = repeat MoveT (m_size b) ++ storage sizeT W n ++ t /\ m_size b' = m_size b.
Proof.
  intros h t b n h' t' b' H. unfold VectorThrow.x_grow in H. destr H.
  destruct a as [[h1 t1] [b1|]]; [|discriminate]. apply make_calls in E. subst t1.
  destr H. destruct a as [[[h2 t2] b2] x]. destruct x; [destr H; discriminate|].
  apply move_loop_calls in E. destruct (m_size b =? m_size b2) eqn:Es; [|discriminate].
  cbn [assert_ bind] in H. destr H. unfold buffer_assign_move in H.
  destr H. destr H. injection H as <- <- <-.
  apply Nat.eqb_eq in Es. auto.
Qed.

Lemma reserve_calls : forall h t b n h' t' b', x_reserve h t b n = Done (h', t', b', false) ->
  t' = (if m_capacity b <? n then repeat MoveT (m_size b) ++ storage sizeT W n else []) ++ t /\
  m_size b' = m_size b.
Proof.
  intros h t b n h' t' b' H. unfold VectorThrow.x_reserve in H.
  destruct (m_capacity b <? n).
  - rewrite <- app_assoc. eapply grow_calls, H.
  - injection H as <- <- <-. auto.
Qed.

Lemma resize_calls : forall h t b n h' t' b', x_resize h t b n = Done (h', t', b', false) ->
  t' = repeat DefaultT (n - m_size b) ++
       (if m_capacity b <? n then repeat MoveT (m_size b) ++ storage sizeT W n else []) ++ t.
Proof.
  intros h t b n h' t' b' H. unfold VectorThrow.x_resize in H. destr H.
  destruct a as [[[h1 t1] b1] x]. destruct x; [discriminate|].
  apply reserve_calls in E as (-> & Es). destr H. destr H. destruct a0 as [h2 b2]. destr H.
  destruct a0 as [[[h3 t3] b3] x]. destruct x; [discriminate|]. destr H. injection H as <- <- <-.
  apply construct_to_calls in E1. apply destruct_to_sizes in E0. cbn [fst snd] in E1. rewrite E1, E0, Es.
  now replace (n - Nat.min (m_size b) n) with (n - m_size b) by lia.
Qed.

Lemma push_calls : forall h t b v h' t' b', x_push h t b v = Done (h', t', b', false) ->
  S (m_size b) < W ->
  exists n, S (m_size b) <= n /\
  t' = MoveT :: (if m_capacity b <? S (m_size b) then repeat MoveT (m_size b) ++ storage sizeT W n else []) ++
       CopyT :: t.
Proof.
  intros h t b v h' t' b' H HW. unfold VectorThrow.x_push in H.
  assert (wadd W (m_size b) 1 = S (m_size b)) as Hw
    by (unfold wadd; rewrite Nat.mod_small by lia; lia). rewrite Hw in H.
  destruct (raises (CopyT :: t)); [discriminate|]. destr H. destruct a as [[[h1 t1] b1] x].
  destruct x; [discriminate|]. destr H. destruct (raises (MoveT :: t1)); [discriminate|]. destr H.
  injection H as <- <- <-.
  exists (if wmul W (m_size b) 3 / 2 <? S (m_size b) then S (m_size b) else wmul W (m_size b) 3 / 2).
  split.
  { destruct (wmul W (m_size b) 3 / 2 <? S (m_size b)) eqn:X; [lia|]. apply Nat.ltb_ge in X. lia. }
  f_equal. destruct (m_capacity b <? S (m_size b)).
  - apply grow_calls in E as (-> & _). now rewrite <- app_assoc.
  - injection E as <- <- <-. reflexivity.
Qed.

End VectorThrowProofs.
