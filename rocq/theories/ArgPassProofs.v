(** Proofs about ArgPass.v: what one call does to the objects and to the log. *)
From Coq Require Import Bool PeanoNat Lia List Permutation.
From Verif Require Import Base ArgPass ArgPassSpec.
Import ListNotations.

Lemma set_nth_length : forall A (l : list A) i x, List.length (set_nth l i x) = List.length l.
Proof. induction l as [|y l IH]; intros [|i] x; cbn; [reflexivity..|]. now rewrite IH. Qed.

Lemma set_nth_eq : forall A (l : list A) i x, i < List.length l -> nth_error (set_nth l i x) i = Some x.
Proof.
  induction l as [|y l IH]; intros [|i] x Hi; cbn in *; try lia; [reflexivity|]. apply IH. lia.
Qed.

Lemma set_nth_neq : forall A (l : list A) i j x, i <> j -> nth_error (set_nth l i x) j = nth_error l j.
Proof.
  induction l as [|y l IH]; intros [|i] [|j] x Hij; cbn; try reflexivity; try lia.
  apply IH. lia.
Qed.

Lemma nth_error_bound : forall A (l : list A) i x, nth_error l i = Some x -> i < List.length l.
Proof. intros A l i x H. apply nth_error_Some. congruence. Qed.

Lemma list_sum_perm : forall l l', Permutation l l' -> list_sum l = list_sum l'.
Proof. unfold list_sum. induction 1; cbn [fold_right]; lia. Qed.

Section Proofs.
Context {V : Type}.
Variable moved torn : V -> V.
Variable raises : list (event V) -> bool.
Notation store := (list (option V)).

Definition alive (O : store) (o : nat) : Prop := exists v, nth_error O o = Some (Some v).

(** From [O] to [O'] objects are only added, none dies, none revives, and only
    those in [touch] change. *)
Definition rel (touch : nat -> Prop) (O O' : store) : Prop :=
  List.length O <= List.length O' /\
  forall o, o < List.length O -> (alive O o <-> alive O' o) /\ (~ touch o -> nth_error O' o = nth_error O o).
Definition dead_above (n : nat) (O : store) : Prop :=
  forall o, n <= o < List.length O -> nth_error O o = Some None.

Lemma alive_bound : forall O o, alive O o -> o < List.length O.
Proof. intros O o [v H]. eapply nth_error_bound; eassumption. Qed.

Lemma rel_refl : forall T O, rel T O O.
Proof. intros T O. split; [lia|]. intros o _. split; [reflexivity|auto]. Qed.

Lemma rel_trans : forall (T : nat -> Prop) (U : nat -> Prop) O1 O2 O3,
  rel T O1 O2 -> rel U O2 O3 -> (forall o, o < List.length O1 -> U o -> T o) -> rel T O1 O3.
Proof.
  intros T U O1 O2 O3 [L1 H1] [L2 H2] HUT. split; [lia|]. intros o Ho.
  destruct (H1 o Ho) as [A1 B1]. destruct (H2 o ltac:(lia)) as [A2 B2]. split.
  - rewrite A1. apply A2.
  - intros Hn. rewrite B2, B1; [reflexivity|assumption|]. intro HU. apply Hn. now apply HUT.
Qed.

(** ** Destroying *)
Lemma destroy_ok : forall (st : state V) o, alive (objs st) o ->
  destroy st o = Done (St (set_nth (objs st) o None) (EDestroy :: log st)).
Proof. intros st o [v H]. unfold destroy. now rewrite H. Qed.

Definition quiet (l l' : list (event V)) (m : nat) : Prop :=
  copies l' = copies l /\ calls l' = calls l /\ moves l' = m + moves l.

Lemma quiet_trans : forall a b c m n, quiet a b m -> quiet b c n -> quiet a c (n + m).
Proof. unfold quiet. intros a b c m n (A & B & C) (D & F & G). repeat split; congruence || lia. Qed.

Lemma destroy_all_ok : forall os (st : state V), NoDup os -> (forall o, In o os -> alive (objs st) o) ->
  exists st', destroy_all st os = Done st' /\
    List.length (objs st') = List.length (objs st) /\
    (forall o, In o os -> nth_error (objs st') o = Some None) /\
    (forall o, ~ In o os -> nth_error (objs st') o = nth_error (objs st) o) /\
    quiet (log st) (log st') 0.
Proof.
  induction os as [|o os IH]; intros st Hnd Hal.
  - exists st. cbn. repeat split; auto. intros o [].
  - inversion Hnd as [|? ? Hni Hnd']; subst. cbn [destroy_all].
    rewrite destroy_ok by (apply Hal; now left). cbn [bind].
    destruct (IH (St (set_nth (objs st) o None) (EDestroy :: log st)) Hnd') as (st' & E1 & L & D & K & Q).
    + intros x Hx. cbn [objs]. destruct (Hal x (or_intror Hx)) as [v Hv].
      exists v. rewrite set_nth_neq; [assumption|]. intros ->. contradiction.
    + cbn [objs log] in *. rewrite set_nth_length in L.
      exists st'. split; [assumption|]. split; [assumption|]. split; [|split].
      * intros x [<-|Hx]; [|now apply D].
        rewrite K by assumption. apply set_nth_eq. apply alive_bound. apply Hal. now left.
      * intros x Hx. rewrite K by (intro; apply Hx; now right). apply set_nth_neq. intros ->.
        apply Hx. now left.
      * destruct Q as (A & B & C). repeat split; assumption.
Qed.

(** ** Initializing one parameter *)
Definition arg_obj (a : @arg V) : option nat :=
  match a with ATemp _ => None | AObj _ o => Some o end.
(** The object a reference parameter is bound to. *)
Definition borrow (p : ptype) (a : @arg V) : option nat :=
  match a with
  | ATemp _ => None
  | AObj (c, k) o => match init_how p c k with Some BindRef => Some o | _ => None end
  end.
(** The number of moves. *)
Definition mv (p : ptype) (a : @arg V) : nat :=
  match a with
  | ATemp _ => 0
  | AObj (c, k) o => match init_how p c k with Some MoveInit => 1 | _ => 0 end
  end.
(** [a] has the value [v] and initializes [p] without a copy. *)
Definition arg_ok (O : store) (p : ptype) (a : @arg V) (v : V) : Prop :=
  match a with
  | ATemp w => w = v /\ init_how p Prvalue false = Some InPlace
  | AObj (c, k) o => nth_error O o = Some (Some v) /\
                     (init_how p c k = Some BindRef \/ init_how p c k = Some MoveInit)
  end.

Lemma init_param_ok : forall p a (st : state V) v, arg_ok (objs st) p a v ->
  exists st' x, init_param moved torn raises p a st = Done (st', x) /\
    rel (fun o => arg_obj a = Some o) (objs st) (objs st') /\
    match x with
    | None => List.length (objs st') = List.length (objs st) /\
              (exists l, raises l = true) /\
              exists m, m <= 1 /\ quiet (log st) (log st') m
    | Some (o, own) =>
        nth_error (objs st') o = Some (Some v) /\
        quiet (log st) (log st') (mv p a) /\
        match borrow p a with
        | Some b => o = b /\ own = false /\ objs st' = objs st
        | None => o = List.length (objs st) /\ own = true /\
                  List.length (objs st') = Datatypes.S (List.length (objs st))
        end
    end.
Proof.
  intros p a st v Ha. destruct a as [w|[c k] o]; cbn [arg_ok] in Ha; unfold init_param, borrow, mv.
  - destruct Ha as [-> ->]. cbn [make note objs log].
    eexists _, _. split; [reflexivity|]. cbn [objs log]. split; [|split; [|split]].
    + split; [rewrite app_length; cbn; lia|]. intros x Hx.
      unfold alive. rewrite nth_error_app1 by assumption. split; [reflexivity|auto].
    + rewrite nth_error_app2 by lia. now rewrite Nat.sub_diag.
    + repeat split; reflexivity.
    + rewrite app_length. cbn. repeat split. lia.
  - destruct Ha as [Hv Hi]. assert (Hlen := nth_error_bound _ _ _ _ Hv).
    destruct Hi as [Hi|Hi]; rewrite Hi.
    + eexists _, _. split; [reflexivity|]. split; [apply rel_refl|].
      repeat split; assumption.
    + unfold move_from, get, put. rewrite Hv. cbn [bind note objs log].
      assert (Hrel : forall w, rel (fun x => arg_obj (AObj (c, k) o) = Some x) (objs st)
                                 (set_nth (objs st) o (Some w))).
      { intros w. split; [now rewrite set_nth_length|]. intros x Hx. cbn [arg_obj].
        destruct (Nat.eq_dec o x) as [<-|Hne].
        - split; [|congruence]. unfold alive. rewrite set_nth_eq by assumption.
          split; intros _; eauto.
        - unfold alive. rewrite set_nth_neq by assumption. split; [reflexivity|auto]. }
      destruct (raises (EMove :: log st)) eqn:Hr; rewrite Hv; cbn [bind make objs log option_map].
      * eexists _, _. split; [reflexivity|]. split; [apply Hrel|]. cbn [objs log].
        rewrite set_nth_length. split; [reflexivity|]. split; [eauto|].
        exists 1. split; [lia|]. repeat split.
      * eexists _, _. split; [reflexivity|]. cbn [objs log]. split; [|split; [|split]].
        -- destruct (Hrel (moved v)) as [HL HR]. rewrite set_nth_length in HL.
           split; [rewrite app_length, set_nth_length; lia|]. intros x Hx.
           destruct (HR x Hx) as [HA HB]. unfold alive in *.
           rewrite nth_error_app1 by (rewrite set_nth_length; assumption). split; assumption.
        -- rewrite nth_error_app2 by lia. now rewrite Nat.sub_diag.
        -- repeat split; reflexivity.
        -- rewrite app_length, set_nth_length. cbn. repeat split. lia.
Qed.

(** ** Initializing the parameters of a call *)
Section Call.
Variable ps : list ptype.
Variable args : list (@arg V).
Variable vs : list V.
Variable st0 : state V.
Let len0 := List.length (objs st0).
Let n := List.length args.
Hypothesis Hps : List.length ps = n.
Hypothesis Hvs : List.length vs = n.
Hypothesis Hargs : forall i p a v, nth_error ps i = Some p -> nth_error args i = Some a ->
  nth_error vs i = Some v -> arg_ok (objs st0) p a v.
Hypothesis Hdistinct : forall i j a b o, nth_error args i = Some a -> nth_error args j = Some b ->
  arg_obj a = Some o -> arg_obj b = Some o -> i = j.

Definition arg_objs (o : nat) : Prop := exists i a, nth_error args i = Some a /\ arg_obj a = Some o.

Definition mv_at (i : nat) : nat :=
  match nth_error ps i, nth_error args i with Some p, Some a => mv p a | _, _ => 0 end.

Record inv (D : list nat) (st : state V) (hs owned : list nat) : Prop := {
  i_range : forall i, In i D -> i < n;
  i_hs : List.length hs = n;
  i_done : forall i p a v, In i D -> nth_error ps i = Some p -> nth_error args i = Some a ->
    nth_error vs i = Some v ->
    exists o, nth_error hs i = Some o /\ nth_error (objs st) o = Some (Some v) /\
              match borrow p a with Some b => o = b | None => len0 <= o end;
  i_inj : forall i j o, In i D -> In j D -> nth_error hs i = Some o -> nth_error hs j = Some o -> i = j;
  i_todo : forall i p a v, ~ In i D -> nth_error ps i = Some p -> nth_error args i = Some a ->
    nth_error vs i = Some v -> arg_ok (objs st) p a v;
  i_rel : rel arg_objs (objs st0) (objs st);
  i_owned : owned = rev (seq len0 (List.length (objs st) - len0));
  i_alive : forall o, len0 <= o < List.length (objs st) -> alive (objs st) o;
  i_log : quiet (log st0) (log st) (list_sum (map mv_at D)) }.

Lemma inv_init : inv [] st0 (repeat 0 n) [].
Proof.
  constructor.
  - intros i [].
  - apply repeat_length.
  - intros i p a v [].
  - intros i j o [].
  - intros i p a v _. apply Hargs.
  - apply rel_refl.
  - unfold len0. now rewrite Nat.sub_diag.
  - unfold len0. lia.
  - repeat split.
Qed.

Lemma arg_obj_bound : forall o, arg_objs o -> o < len0.
Proof.
  intros o (i & a & Ha & Ho). assert (Hi := nth_error_bound _ _ _ _ Ha). fold n in Hi.
  destruct (nth_error ps i) as [p|] eqn:Hp; [|apply nth_error_None in Hp; lia].
  destruct (nth_error vs i) as [v|] eqn:Hv; [|apply nth_error_None in Hv; lia].
  specialize (Hargs i p a v Hp Ha Hv). destruct a as [w|[c k] x]; cbn in Ho; [discriminate|].
  injection Ho as ->. destruct Hargs as [H _]. eapply nth_error_bound; eassumption.
Qed.

Lemma borrow_arg_obj : forall p a b, borrow p a = Some b -> arg_obj a = Some b.
Proof.
  intros p [w|[c k] o] b; cbn; [discriminate|]. destruct (init_how p c k) as [[]|]; congruence.
Qed.

Lemma init_params_ok : forall ord D st hs owned, inv D st hs owned ->
  NoDup ord -> (forall i, In i ord -> i < n /\ ~ In i D) ->
  exists st' x owned', init_params moved torn raises ps args ord st hs owned = Done (st', x, owned') /\
    match x with
    | Some hs' => inv (rev ord ++ D) st' hs' owned'
    | None => rel arg_objs (objs st0) (objs st') /\
              owned' = rev (seq len0 (List.length (objs st') - len0)) /\
              (forall o, len0 <= o < List.length (objs st') -> alive (objs st') o) /\
              (exists l, raises l = true) /\
              exists m, quiet (log st0) (log st') m
    end.
Proof.
  induction ord as [|i ord IH]; intros D st hs owned HI Hnd Hin.
  - exists st, (Some hs), owned. split; [reflexivity|]. exact HI.
  - inversion Hnd as [|? ? Hni Hnd']; subst.
    destruct (Hin i (or_introl eq_refl)) as [Hi HiD].
    destruct (nth_error ps i) as [p|] eqn:Hp; [|apply nth_error_None in Hp; lia].
    destruct (nth_error args i) as [a|] eqn:Ha; [|apply nth_error_None in Ha; unfold n in Hi; lia].
    destruct (nth_error vs i) as [v|] eqn:Hv; [|apply nth_error_None in Hv; lia].
    destruct HI as [Hrange Hhs Hdone Hinj Htodo Hrel Howned Halive Hlog].
    destruct (init_param_ok p a st v (Htodo i p a v HiD Hp Ha Hv)) as (st1 & x & E1 & R1 & X).
    cbn [init_params]. rewrite Hp, Ha, E1. cbn [bind].
    assert (Hrel1 : rel arg_objs (objs st0) (objs st1)).
    { eapply rel_trans; [exact Hrel|exact R1|]. intros o _ Ho. exists i, a. auto. }
    assert (Hkeep : forall o, arg_obj a <> Some o -> o < List.length (objs st) ->
                    nth_error (objs st1) o = nth_error (objs st) o).
    { intros o Ho Hb. destruct R1 as [_ R1]. destruct (R1 o Hb) as [_ H]. apply H. exact Ho. }
    destruct x as [[o own]|].
    + destruct X as (Ho & Hq & Hb).
      assert (Hrest : inv (i :: D) st1 (set_nth hs i o) (if own then o :: owned else owned)).
      { assert (Hfresh : forall j b, In j D -> nth_error args j = Some b -> arg_obj b <> None ->
                         forall x, arg_obj b = Some x -> arg_obj a <> Some x).
        { intros j b Hj Hbj _ x Hx Hax. apply HiD. now rewrite (Hdistinct i j a b x Ha Hbj Hax Hx). }
        assert (Hdone1 : forall j q b w, In j D -> nth_error ps j = Some q ->
                  nth_error args j = Some b -> nth_error vs j = Some w ->
                  exists o', nth_error hs j = Some o' /\ nth_error (objs st1) o' = Some (Some w) /\
                    match borrow q b with Some y => o' = y | None => len0 <= o' end).
        { intros j q b w Hj Hq' Hb' Hw. destruct (Hdone j q b w Hj Hq' Hb' Hw) as (o' & A & B & C).
          exists o'. split; [assumption|]. split; [|assumption].
          rewrite Hkeep; [assumption| |eapply nth_error_bound; eassumption].
          destruct (borrow q b) as [y|] eqn:Hbor.
          - subst y. apply borrow_arg_obj in Hbor. apply (Hfresh j b Hj Hb'); congruence.
          - intro Hao. assert (arg_objs o') by (exists i, a; auto).
            apply arg_obj_bound in H. lia. }
        constructor.
        - intros j [<-|Hj]; auto.
        - now rewrite set_nth_length.
        - intros j q b w Hj Hq' Hb' Hw. destruct (Nat.eq_dec i j) as [<-|Hne].
          + rewrite Hp in Hq'. rewrite Ha in Hb'. rewrite Hv in Hw.
            injection Hq' as <-. injection Hb' as <-. injection Hw as <-.
            exists o. rewrite set_nth_eq by lia. split; [reflexivity|]. split; [assumption|].
            destruct (borrow p a); [tauto|]. destruct Hb as (-> & _). destruct Hrel as [HL _].
            exact HL.
          + destruct Hj as [->|Hj]; [contradiction|]. rewrite set_nth_neq by assumption.
            now apply Hdone1.
        - assert (Hnew : forall j o', In j D -> nth_error hs j = Some o' -> o' <> o).
          { intros j o' Hj Hjo ->.
            assert (Hjn := Hrange j Hj).
            destruct (nth_error ps j) as [q|] eqn:Hq'; [|apply nth_error_None in Hq'; lia].
            destruct (nth_error args j) as [b|] eqn:Hb'; [|apply nth_error_None in Hb'; unfold n in Hjn; lia].
            destruct (nth_error vs j) as [w|] eqn:Hw; [|apply nth_error_None in Hw; lia].
            destruct (Hdone j q b w Hj Hq' Hb' Hw) as (o2 & A & B & C).
            rewrite Hjo in A. injection A as <-.
            destruct (borrow p a) as [y|] eqn:Hba.
            - destruct Hb as (-> & _ & _). apply borrow_arg_obj in Hba.
              destruct (borrow q b) as [z|] eqn:Hbb.
              + subst z. apply borrow_arg_obj in Hbb.
                apply (Hfresh j b Hj Hb' ltac:(congruence) y); assumption.
              + assert (arg_objs y) by (exists i, a; auto). apply arg_obj_bound in H. lia.
            - destruct Hb as (-> & _ & _). apply nth_error_bound in B. lia. }
          intros j k x Hj Hk Hjx Hkx.
          destruct (Nat.eq_dec i j) as [<-|Hij]; destruct (Nat.eq_dec i k) as [<-|Hik]; [reflexivity| | |].
          + rewrite set_nth_eq in Hjx by lia. rewrite set_nth_neq in Hkx by assumption.
            destruct Hk as [->|Hk]; [contradiction|]. exfalso.
            apply (Hnew k x Hk Hkx). congruence.
          + rewrite set_nth_eq in Hkx by lia. rewrite set_nth_neq in Hjx by assumption.
            destruct Hj as [->|Hj]; [contradiction|]. exfalso.
            apply (Hnew j x Hj Hjx). congruence.
          + rewrite set_nth_neq in Hjx, Hkx by assumption.
            destruct Hj as [->|Hj]; [contradiction|]. destruct Hk as [->|Hk]; [contradiction|].
            now apply (Hinj j k x).
        - intros j q b w Hj Hq' Hb' Hw. assert (Hji : i <> j) by (intros ->; apply Hj; now left).
          specialize (Htodo j q b w (fun H => Hj (or_intror H)) Hq' Hb' Hw).
          destruct b as [u|[c k] y]; cbn [arg_ok] in *; [assumption|].
          destruct Htodo as [H1 H2]. split; [|assumption].
          rewrite Hkeep; [assumption| |eapply nth_error_bound; eassumption].
          intro Hay. apply Hji. apply (Hdistinct i j a (AObj (c, k) y) y); auto.
        - assumption.
        - destruct Hrel as [HL _]. fold len0 in HL. destruct (borrow p a) as [y|].
          + destruct Hb as (_ & -> & ->). assumption.
          + destruct Hb as (-> & -> & ->). rewrite Howned.
            replace (Datatypes.S (List.length (objs st)) - len0)
              with (Datatypes.S (List.length (objs st) - len0)) by lia.
            rewrite seq_S, rev_app_distr. cbn. f_equal. lia.
        - intros x Hx. destruct (Nat.lt_ge_cases x (List.length (objs st))) as [Hlt|Hge].
          + destruct R1 as [_ R1]. destruct (R1 x Hlt) as [HA _]. apply HA. apply Halive. lia.
          + destruct (borrow p a) as [y|].
            * destruct Hb as (_ & _ & Hb). rewrite Hb in Hx. lia.
            * destruct Hb as (-> & _ & Hb).
              replace x with (List.length (objs st)) by lia. eexists. exact Ho.
        - cbn [map list_sum fold_right]. unfold mv_at at 1. rewrite Hp, Ha.
          exact (quiet_trans _ _ _ _ _ Hlog Hq). }
      destruct (IH (i :: D) st1 _ _ Hrest Hnd') as (st' & x & ow & E2 & X2).
      { intros j Hj. destruct (Hin j (or_intror Hj)) as [Hjn HjD]. split; [assumption|].
        intros [->|]; contradiction. }
      exists st', x, ow. split; [exact E2|]. destruct x as [hs'|]; [|exact X2].
      cbn [rev]. rewrite <- app_assoc. exact X2.
    + destruct X as (Hlen & Hr & m & _ & Hq). exists st1, None, owned. split; [reflexivity|].
      split; [assumption|]. rewrite Hlen. split; [assumption|]. split; [|split; [assumption|]].
      * intros o Ho. destruct R1 as [_ R1]. destruct (R1 o ltac:(lia)) as [HA _]. apply HA. now apply Halive.
      * eexists. exact (quiet_trans _ _ _ _ _ Hlog Hq).
Qed.

(** What the body of a call finds. *)
Record entered (st1 : state V) (hs : list nat) : Prop := {
  e_hs : List.length hs = n;
  e_val : forall i o v, nth_error hs i = Some o -> nth_error vs i = Some v ->
    nth_error (objs st1) o = Some (Some v);
  e_loc : forall i o p a, nth_error hs i = Some o -> nth_error ps i = Some p ->
    nth_error args i = Some a -> match borrow p a with Some b => o = b | None => len0 <= o end;
  e_inj : forall i j o, nth_error hs i = Some o -> nth_error hs j = Some o -> i = j;
  e_rel : rel arg_objs (objs st0) (objs st1);
  e_log : quiet (log st0) (log st1) (list_sum (map mv_at (seq 0 n))) }.

Variable order : nat -> nat -> list nat.
Variable dorder : nat -> list nat -> list nat.
Hypothesis Horder : any_order order.
Hypothesis Hdorder : any_dorder dorder.

Lemma pass_ok : forall A level (body : state V -> list nat -> outcome (state V * result A)),
  (forall st1 hs, entered st1 hs -> exists st2 r, body st1 hs = Done (st2, r) /\
     rel (fun o => In o hs) (objs st1) (objs st2) /\ dead_above (List.length (objs st1)) (objs st2)) ->
  exists st' r, pass moved torn raises order dorder level ps args body st0 = Done (st', r) /\
    rel arg_objs (objs st0) (objs st') /\ dead_above len0 (objs st') /\
    ((r = Thrown /\ (exists l, raises l = true) /\ exists m, quiet (log st0) (log st') m) \/
     exists st1 hs st2, entered st1 hs /\ body st1 hs = Done (st2, r) /\
       (forall o, o < len0 -> nth_error (objs st') o = nth_error (objs st2) o) /\
       quiet (log st2) (log st') 0).
Proof.
  intros A level body Hbody. unfold pass. fold n.
  assert (Hperm := Horder level n).
  destruct (init_params_ok (order level n) [] st0 (repeat 0 n) [] inv_init) as (st1 & x & ow & E1 & X).
  { eapply Permutation_NoDup; [apply Permutation_sym; exact Hperm|]. apply seq_NoDup. }
  { intros i Hi. split; [|intros []]. apply (Permutation_in _ Hperm) in Hi. apply in_seq in Hi. lia. }
  rewrite E1. cbn [bind]. destruct x as [hs|].
  - rewrite app_nil_r in X.
    assert (HD : forall i, i < n -> In i (rev (order level n))).
    { intros i Hi. rewrite <- in_rev. eapply Permutation_in; [apply Permutation_sym; exact Hperm|].
      apply in_seq. lia. }
    destruct X as [Hrange Hhs Hdone Hinj Htodo Hrel Howned Halive Hlog].
    assert (Hent : entered st1 hs).
    { constructor; try assumption.
      - intros i o v Hi Hv. assert (Hn := nth_error_bound _ _ _ _ Hv). rewrite Hvs in Hn.
        destruct (nth_error ps i) as [p|] eqn:Hp; [|apply nth_error_None in Hp; lia].
        destruct (nth_error args i) as [a|] eqn:Ha; [|apply nth_error_None in Ha; unfold n in Hn; lia].
        destruct (Hdone i p a v (HD i Hn) Hp Ha Hv) as (o' & B & C & _). congruence.
      - intros i o p a Hi Hp Ha. assert (Hn := nth_error_bound _ _ _ _ Ha). fold n in Hn.
        destruct (nth_error vs i) as [v|] eqn:Hv; [|apply nth_error_None in Hv; lia].
        destruct (Hdone i p a v (HD i Hn) Hp Ha Hv) as (o' & B & _ & C).
        rewrite Hi in B. injection B as <-. exact C.
      - intros i j o Hi Hj. assert (Bi := nth_error_bound _ _ _ _ Hi).
        assert (Bj := nth_error_bound _ _ _ _ Hj). rewrite Hhs in Bi, Bj.
        apply (Hinj i j o); auto.
      - replace (list_sum (map mv_at (seq 0 n))) with (list_sum (map mv_at (rev (order level n)))); [exact Hlog|].
        apply list_sum_perm, Permutation_map.
        eapply Permutation_trans; [apply Permutation_sym, Permutation_rev|]. exact Hperm. }
    destruct (Hbody st1 hs Hent) as (st2 & r & E2 & R2 & D2). rewrite E2. cbn [bind].
    assert (Hin : forall o, In o (dorder level ow) <-> len0 <= o < List.length (objs st1)).
    { intros o. assert (HL := proj1 Hrel). fold len0 in HL. split; intro Ho.
      - apply (Permutation_in _ (Hdorder level ow)) in Ho. rewrite Howned in Ho.
        apply in_rev in Ho. apply in_seq in Ho. lia.
      - eapply Permutation_in; [apply Permutation_sym, Hdorder|]. rewrite Howned.
        apply -> in_rev. apply in_seq. lia. }
    assert (Hhs_touch : forall o, o < len0 -> In o hs -> arg_objs o).
    { intros o Ho Hi. apply In_nth_error in Hi. destruct Hi as [i Hi].
      assert (Bi := nth_error_bound _ _ _ _ Hi). rewrite Hhs in Bi.
      destruct (nth_error ps i) as [p|] eqn:Hp; [|apply nth_error_None in Hp; lia].
      destruct (nth_error args i) as [a|] eqn:Ha; [|apply nth_error_None in Ha; unfold n in Bi; lia].
      assert (H := e_loc _ _ Hent i o p a Hi Hp Ha).
      destruct (borrow p a) as [b|] eqn:Hb; [|lia]. subst b.
      exists i, a. split; [assumption|]. now apply borrow_arg_obj in Hb. }
    assert (R02 : rel arg_objs (objs st0) (objs st2)).
    { eapply rel_trans; [exact Hrel|exact R2|]. intros o Ho Hi. now apply Hhs_touch. }
    destruct (destroy_all_ok (dorder level ow) st2) as (st' & E3 & L3 & Dd & Kd & Q3).
    { eapply Permutation_NoDup; [apply Permutation_sym, Hdorder|]. rewrite Howned.
      apply NoDup_rev, seq_NoDup. }
    { intros o Ho. apply Hin in Ho. destruct R2 as [L2 R2].
      apply (R2 o ltac:(lia)). apply Halive. lia. }
    rewrite E3. cbn [bind]. exists st', r. split; [reflexivity|].
    assert (Hbelow : forall o, o < len0 -> nth_error (objs st') o = nth_error (objs st2) o).
    { intros o Ho. apply Kd. rewrite Hin. lia. }
    split; [|split; [|right]].
    + destruct R02 as [L R]. split; [lia|]. intros o Ho. destruct (R o Ho) as [RA RB].
      split.
      * rewrite RA. unfold alive. now rewrite Hbelow.
      * intros Hn. rewrite Hbelow by exact Ho. now apply RB.
    + intros o Ho. destruct (Nat.lt_ge_cases o (List.length (objs st1))) as [Hlt|Hge].
      * apply Dd. apply Hin. lia.
      * rewrite Kd by (rewrite Hin; lia). apply D2. lia.
    + exists st1, hs, st2. auto.
  - destruct X as (R1 & Howned & Halive & Hr & m & Hq).
    assert (HL := proj1 R1). fold len0 in HL.
    assert (Hin : forall o, In o ow <-> len0 <= o < List.length (objs st1)).
    { intros o. rewrite Howned, <- in_rev, in_seq. lia. }
    destruct (destroy_all_ok ow st1) as (st' & E3 & L3 & Dd & Kd & Q3).
    { rewrite Howned. apply NoDup_rev, seq_NoDup. }
    { intros o Ho. apply Halive. now apply Hin. }
    rewrite E3. cbn [bind]. exists st', Thrown. split; [reflexivity|].
    assert (Hbelow : forall o, o < len0 -> nth_error (objs st') o = nth_error (objs st1) o).
    { intros o Ho. apply Kd. rewrite Hin. lia. }
    split; [|split; [|left]].
    + destruct R1 as [L R]. split; [lia|]. intros o Ho. destruct (R o Ho) as [RA RB]. split.
      * rewrite RA. unfold alive. now rewrite Hbelow.
      * intros Hn. rewrite Hbelow by exact Ho. now apply RB.
    + intros o Ho. apply Dd. apply Hin. lia.
    + split; [reflexivity|]. split; [assumption|]. eexists. exact (quiet_trans _ _ _ _ _ Hq Q3).
Qed.
End Call.
End Proofs.
