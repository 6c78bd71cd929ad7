(** Strings when memory can run out: proofs. *)
From Coq Require Import Ascii NArith ZArith Bool PeanoNat Lia List.
From Verif Require Import Util Base Mem MemProofs StringMem StringMemSpec StringMemProofs
  Printf PrintfSpec PrintfProofs StringThrow StringThrowSpec.
Import ListNotations.

Section StringThrowProofs.
Variable W : nat.
Variable imax : nat.
Variable strict : bool.
Variable full : list nat -> bool.
Local Notation log := (list nat).

(** ** Operations with at most one request *)

Section Gates.
Context {A R : Type}.
Variable fl : log -> R.
Variable ok : log -> A -> R.

Definition quiet (t : log) (plain : outcome A) : outcome R :=
  a <- plain ;; Done (ok t a).

(** [x] is [plain] with the request [ask] that may fail before it. *)
Definition gates (ask : option nat) (t : log) (plain : outcome A) (x : outcome R) : Prop :=
  match ask with
  | None => x = quiet t plain
  | Some b => if full (b :: t) then x = Done (fl (b :: t)) \/ (exists f, plain = Fault f /\ x = Fault f)
              else x = quiet (b :: t) plain
  end.

Lemma gates_fault : forall ask t f, gates ask t (Fault f) (Fault f).
Proof.
  intros [b|] t f; cbn; [|reflexivity]. destruct (full (b :: t)); [right; eauto|reflexivity].
Qed.

Lemma gates_pre : forall {B} (e : outcome B) (k : B -> outcome A) k' ask t,
  (forall a, e = Done a -> gates ask t (k a) (k' a)) -> gates ask t (bind e k) (bind e k').
Proof.
  intros B e k k' ask t H. destruct e as [a|f]; cbn [bind]; [auto|apply gates_fault].
Qed.

End Gates.

Lemma gates_post : forall {A R A' R'} (fl : log -> R) (ok : log -> A -> R)
  (fl' : log -> R') (ok' : log -> A' -> R') (k : A -> outcome A') (k' : R -> outcome R') ask t plain x,
  gates fl ok ask t plain x ->
  (forall t, k' (fl t) = Done (fl' t)) ->
  (forall t a, plain = Done a -> k' (ok t a) = quiet ok' t (k a)) ->
  gates fl' ok' ask t (bind plain k) (bind x k').
Proof.
  intros A R A' R' fl ok fl' ok' k k' [b|] t plain x H H1 H2; cbn in *.
  - destruct (full (b :: t)).
    + destruct H as [->|(f & -> & ->)]; cbn [bind]; [left; apply H1|right; eauto].
    + subst x. destruct plain; cbn [quiet bind]; [now apply H2|reflexivity].
  - subst x. destruct plain; cbn [quiet bind]; [now apply H2|reflexivity].
Qed.

Lemma bind_bind : forall {A B C} (e : outcome A) (k : A -> outcome B) (k' : B -> outcome C),
  bind (bind e k) k' = bind e (fun a => bind (k a) k').
Proof. intros A B C [a|f] k k'; reflexivity. Qed.

(** The results of constructors and of operations on an object. *)
Definition new_fl (h : mem) (t : log) : mem * log * option str := (h, t, None).
Definition new_ok (t : log) (hs : mem * str) : mem * log * option str := (fst hs, t, Some (snd hs)).
Definition set_fl (h : mem) (s : str) (t : log) : mem * log * str * bool := (h, t, s, true).
Definition set_ok (t : log) (hs : mem * str) : mem * log * str * bool := (fst hs, t, snd hs, false).

Definition bytes_ask (n : nat) : option nat := if 0 <? n then Some n else None.

Lemma buffer_gates : forall h t cap chunk,
  gates (new_fl h) new_ok (bytes_ask (wmul W cap chunk)) t
    (buffer_make W h cap chunk) (y_buffer W full h t cap chunk).
Proof.
  intros h t cap chunk. unfold y_buffer, bytes_ask.
  destruct (0 <? wmul W cap chunk); cbn [andb gates]; [|reflexivity].
  destruct (full (_ :: t)); [left|]; reflexivity.
Qed.

Lemma copy_gates : forall h t y,
  gates (new_fl h) new_ok (bytes_ask (wmul W (m_capacity y) (m_chunkSize y))) t
    (str_copy W h y) (y_copy W full h t y).
Proof.
  intros h t y. unfold str_copy, buffer_copy_ctor, y_copy.
  eapply gates_post; [apply buffer_gates|reflexivity|].
  intros t' (h' & b) _. cbn [new_ok fst snd]. unfold quiet.
  destruct (m_constructed y =? 0); cbn [assert_ bind]; [|reflexivity].
  destruct (buffer_copy W h' b (m_ptr y) _); reflexivity.
Qed.

Lemma assign_gates : forall h t x y,
  gates (set_fl h x) set_ok (bytes_ask (wmul W (m_capacity y) (m_chunkSize y))) t
    (str_assign W h x y) (y_assign W full h t x y).
Proof.
  intros h t x y. unfold str_assign, buffer_assign, y_assign.
  apply gates_pre. intros [] _. eapply gates_post; [apply copy_gates|reflexivity|].
  intros t' (h' & b) _. cbn [new_ok fst snd buffer_assign_move]. unfold quiet.
  destruct (buffer_destroy false h' x); reflexivity.
Qed.

Definition room_ask (s : str) (n : nat) : option nat :=
  if m_capacity s <? wadd W n 1 then Some (wadd W n 1) else None.

Lemma wmul_wadd_1 : forall n, wmul W (wadd W n 1) 1 = wadd W n 1.
Proof.
  intros n. unfold wmul, wadd. rewrite Nat.mul_1_r. destruct W as [|w]; [reflexivity|].
  apply Nat.mod_mod. discriminate.
Qed.

Lemma reserve_gates : forall h t s n,
  gates (set_fl h s) set_ok (room_ask s n) t (str_reserve W h s n) (y_reserve W full h t s n).
Proof.
  intros h t s n. unfold str_reserve, y_reserve, room_ask.
  apply gates_pre. intros [] Hv.
  destruct (m_capacity s <? wadd W n 1) eqn:Hc.
  - apply Nat.ltb_lt in Hc.
    pose proof (buffer_gates h t (wadd W n 1) 1) as B. rewrite wmul_wadd_1 in B.
    unfold bytes_ask in B. rewrite (proj2 (Nat.ltb_lt 0 (wadd W n 1))) in B by lia.
    set (plain := buffer_make W h (wadd W n 1) 1) in *.
    rewrite bind_bind. eapply gates_post; [exact B|reflexivity|].
    intros t' (h' & b) _. cbn [new_ok fst snd]. unfold quiet.
    destruct (buffer_copy W h' b (m_ptr s) (str_length s)) as [h1|]; cbn [bind]; [|reflexivity].
    destruct (store h1 (m_ptr b) (str_length s) (Some NUL)) as [h2|]; cbn [bind]; [|reflexivity].
    destruct (buffer_resize b (m_size s)) as [b'|]; cbn [bind buffer_assign_move]; [|reflexivity].
    destruct (buffer_destroy false h2 s) as [h3|]; cbn [bind fst snd]; [|reflexivity].
    destruct (validate h3 b') as [[]|]; reflexivity.
  - cbn [gates bind fst snd]. rewrite Hv. reflexivity.
Qed.

Lemma resize_gates : forall h t s n,
  gates (set_fl h s) set_ok (room_ask s n) t (str_resize W h s n) (y_resize W full h t s n).
Proof.
  intros h t s n. unfold str_resize, y_resize.
  apply gates_pre. intros [] Hv.
  eapply gates_post; [apply reserve_gates|reflexivity|].
  intros t' (h' & b) _. cbn [set_ok fst snd]. unfold quiet.
  destruct (assert_ (wadd W n 1 <=? m_capacity b)); cbn [bind]; [|reflexivity].
  destruct (buffer_resize b (wadd W n 1)) as [b'|]; cbn [bind]; [|reflexivity].
  destruct (store h' (m_ptr b') n (Some NUL)) as [h1|]; cbn [bind]; [|reflexivity].
  destruct (assert_ (m_size b' =? wadd W n 1)); cbn [bind]; [|reflexivity].
  destruct (validate h1 b'); reflexivity.
Qed.

(** The member m_buffer before the body of the constructor. *)
Definition null_buffer : str := Buffer Null 0 1 0 0.

Lemma wmul_0 : wmul W 0 1 = 0.
Proof. unfold wmul. destruct W; [reflexivity|now apply Nat.mod_0_l]. Qed.

Lemma make_gates : forall h t p n,
  gates (new_fl h) new_ok (room_ask null_buffer n) t (str_make W h p n) (y_make W full h t p n).
Proof.
  intros h t p n. unfold str_make, y_make, y_buffer, buffer_make. rewrite wmul_0.
  cbn [Nat.ltb Nat.leb andb assert_ bind fst snd].
  eapply gates_post; [apply (resize_gates h t null_buffer n)|reflexivity|].
  intros t' (h' & b) _. cbn [set_ok fst snd]. unfold quiet.
  destruct (assert_ _); cbn [bind]; [|reflexivity].
  destruct (buffer_copy W h' b p n) as [h1|]; cbn [bind]; [|reflexivity].
  destruct (validate h1 b); reflexivity.
Qed.

Lemma append_gates : forall h t s p n,
  gates (set_fl h s) set_ok (room_ask s (wadd W (str_length s) n)) t
    (str_append W h s p n) (y_append W full h t s p n).
Proof.
  intros h t s p n. unfold str_append, y_append.
  apply gates_pre. intros [] Hv.
  eapply gates_post; [apply resize_gates|reflexivity|].
  intros t' (h' & b) _. cbn [set_ok fst snd]. unfold quiet.
  destruct (memcpy h' _ p n) as [h1|]; cbn [bind]; [|reflexivity].
  destruct (validate h1 b); reflexivity.
Qed.

(** operator+= of StringMem.v. *)
Definition str_add (h : mem) (s : str) (a : added) : outcome (mem * str) :=
  match a with
  | AChar c => str_append_char W h s c
  | ACString p => str_append_c W h s p
  | AString rhs => str_append_str W h s rhs
  | AView v => str_append_view W h s v
  end.

Definition added_length (h : mem) (a : added) : nat :=
  match a with
  | AChar _ => 1
  | ACString p => match strlen h p with Done n => n | Fault _ => 0 end
  | AString rhs => str_length rhs
  | AView v => v_length v
  end.

Lemma add_gates : forall h t s a,
  gates (set_fl h s) set_ok (room_ask s (wadd W (str_length s) (added_length h a))) t
    (str_add h s a) (y_add W full h t s a).
Proof.
  intros h t s [c|p|y|v]; cbn [str_add y_add added_length].
  - apply append_gates.
  - unfold str_append_c. apply gates_pre. intros n ->. apply append_gates.
  - apply append_gates.
  - unfold str_append_view. apply gates_pre. intros p _. apply append_gates.
Qed.

(** ** The operations of a program *)

Definition length_of (w : world) (r : rhs) : nat :=
  match y_operand W w r with Done a => added_length (w_mem w) a | Fault _ => 0 end.

Definition ask_of (w : world) (o : sop) : option nat :=
  let cap j := match w_str w j with
               | Some y => bytes_ask (wmul W (m_capacity y) (m_chunkSize y)) | None => None end in
  let grow i n := match w_str w i with
                  | Some x => room_ask x (n (str_length x)) | None => None end in
  match o with
  | SMake i src n => room_ask null_buffer n
  | SMakeC i src => room_ask null_buffer (added_length (w_mem w) (ACString (Ext src)))
  | SMakeView i j off n => room_ask null_buffer n
  | SCopy i j | SAssign i j => cap j
  | SReserve i n | SResize i n => grow i (fun _ => n)
  | SAppend i src n => grow i (fun l => wadd W l n)
  | SAppendC i src => grow i (fun l => wadd W l (added_length (w_mem w) (ACString (Ext src))))
  | SAppendChar i c => grow i (fun l => wadd W l 1)
  | SAppendView i j off n => grow i (fun l => wadd W l (length_of w (RView j off n)))
  | SAppendStr i j => grow i (fun l => wadd W l (length_of w (RString j)))
  | SMove _ _ | SAssignMove _ _ | SDestroy _ | SFill _ _ _ => None
  end.

(** The variable that an operation constructs or changes. *)
Definition target (o : sop) : nat :=
  match o with
  | SMake i _ _ | SMakeC i _ | SMakeView i _ _ _ | SCopy i _ | SMove i _ | SAssign i _
  | SAssignMove i _ | SDestroy i | SReserve i _ | SResize i _ | SFill i _ _ | SAppend i _ _
  | SAppendC i _ | SAppendChar i _ | SAppendView i _ _ _ | SAppendStr i _ => i
  end.

(** The world after a failure. *)
Definition w_fl (w : world) (i : nat) (t : log) : world * log * bool :=
  (World (w_mem w) (put (w_str w) i (w_str w i)), t, true).
Definition w_ok (t : log) (w : world) : world * log * bool := (w, t, false).

Lemma new_w : forall w i ask t plain x, unused w i = Done tt ->
  gates (new_fl (w_mem w)) new_ok ask t plain x ->
  gates (w_fl w i) w_ok ask t (hs <- plain ;; Done (set1 w i hs)) (r <- x ;; Done (y_new w i r)).
Proof.
  intros w i ask t plain x Hu H. eapply gates_post; [exact H| |reflexivity].
  intros t'. unfold w_fl. unfold unused in Hu. destruct (w_str w i); [discriminate|reflexivity].
Qed.

Lemma set_w : forall w i s ask t plain x, var w i = Done s ->
  gates (set_fl (w_mem w) s) set_ok ask t plain x ->
  gates (w_fl w i) w_ok ask t (hs <- plain ;; Done (set1 w i hs)) (r <- x ;; Done (y_set w i r)).
Proof.
  intros w i s ask t plain x Hu H. eapply gates_post; [exact H| |reflexivity].
  intros t'. unfold w_fl. unfold var in Hu. destruct (w_str w i); [|discriminate].
  injection Hu as ->. reflexivity.
Qed.

Lemma var_str : forall w i s, var w i = Done s -> w_str w i = Some s.
Proof. intros w i s H. unfold var in H. destruct (w_str w i); [congruence|discriminate]. Qed.

Lemma op_gates : forall w t o, gates (w_fl w (target o)) w_ok (ask_of w o) t (sstep W w o) (y_op W full w t o).
Proof.
  intros w t o.
  destruct o as [i src n|i src|i j off n|i j|i j|i j|i j|i|i n|i n|i off l|i src n|i src|i c
                |i j off n|i j]; cbn [sstep y_op target ask_of].
  - apply gates_pre. intros [] Hu. eapply new_w; [exact Hu|]. apply make_gates.
  - apply gates_pre. intros [] Hu. eapply new_w; [exact Hu|]. unfold str_make_c, y_make_c.
    cbn [added_length]. apply gates_pre. intros n ->. apply make_gates.
  - apply gates_pre. intros [] Hu. apply gates_pre. intros y Hy. apply gates_pre. intros v Hv.
    apply gates_pre. intros v' Hv'. eapply new_w; [exact Hu|]. unfold str_make_view, y_make_view.
    apply gates_pre. intros p _.
    assert (v_length v' = n) as ->; [|apply make_gates].
    unfold view_substr, view_make in Hv'.
    repeat match type of Hv' with
           | bind (assert_ ?b) _ = _ => destruct b; cbn [assert_ bind] in Hv'; [|discriminate] end.
    destruct (advance (v_str v) off); cbn [assert_ bind] in Hv';
      try discriminate; injection Hv' as <-; reflexivity.
  - apply gates_pre. intros [] Hu. apply gates_pre. intros y Hy. rewrite (var_str _ _ _ Hy).
    eapply new_w; [exact Hu|]. apply copy_gates.
  - cbn [gates]. unfold quiet. reflexivity.
  - apply gates_pre. intros x Hx. apply gates_pre. intros y Hy. rewrite (var_str _ _ _ Hy).
    eapply set_w; [exact Hx|]. apply assign_gates.
  - reflexivity.
  - reflexivity.
  - apply gates_pre. intros x Hx. rewrite (var_str _ _ _ Hx). eapply set_w; [exact Hx|].
    apply reserve_gates.
  - apply gates_pre. intros x Hx. rewrite (var_str _ _ _ Hx). eapply set_w; [exact Hx|].
    apply resize_gates.
  - reflexivity.
  - apply gates_pre. intros x Hx. rewrite (var_str _ _ _ Hx). eapply set_w; [exact Hx|].
    apply append_gates.
  - apply gates_pre. intros x Hx. rewrite (var_str _ _ _ Hx). eapply set_w; [exact Hx|].
    apply (add_gates _ _ _ (ACString (Ext src))).
  - apply gates_pre. intros x Hx. rewrite (var_str _ _ _ Hx). eapply set_w; [exact Hx|].
    apply (add_gates _ _ _ (AChar c)).
  - apply gates_pre. intros x Hx. rewrite (var_str _ _ _ Hx). unfold length_of. cbn [y_operand].
    destruct (var w j) as [y|]; cbn [bind]; [|apply gates_fault].
    destruct (str_view y) as [v|]; cbn [bind]; [|apply gates_fault].
    destruct (view_substr W v off n) as [v'|]; cbn [bind]; [|apply gates_fault].
    eapply set_w; [exact Hx|]. apply (add_gates _ _ _ (AView v')).
  - apply gates_pre. intros x Hx. rewrite (var_str _ _ _ Hx). unfold length_of. cbn [y_operand].
    destruct (var w j) as [y|]; cbn [bind]; [|apply gates_fault].
    eapply set_w; [exact Hx|]. apply (add_gates _ _ _ (AString y)).
Qed.

(** ** Requests and exceptions *)

(** Between the records [t] and [t'], only the last request may have failed, and
    it has failed iff [thrown]. *)
Definition honest (t t' : log) (thrown : bool) : Prop :=
  exists calls, t' = calls ++ t /\ (thrown = true -> calls <> []) /\
    forall later c earlier, calls = later ++ c :: earlier ->
      full (c :: earlier ++ t) = match later with [] => thrown | _ => false end.

Lemma honest_refl : forall t, honest t t false.
Proof.
  intros t. exists []. split; [reflexivity|]. split; [discriminate|].
  intros [|x l] c e H; discriminate.
Qed.

Lemma honest_one : forall t b, honest t (b :: t) (full (b :: t)).
Proof.
  intros t b. exists [b]. split; [reflexivity|]. split; [discriminate|].
  intros [|x l] c e H; cbn in H; injection H as H1 H2; subst.
  - reflexivity.
  - destruct l; discriminate.
Qed.

Lemma honest_trans : forall t t1 t2 x, honest t t1 false -> honest t1 t2 x -> honest t t2 x.
Proof.
  intros t t1 t2 x (c1 & -> & _ & H1) (c2 & -> & N2 & H2).
  exists (c2 ++ c1). split; [apply app_assoc|]. split.
  - intros E. specialize (N2 E). destruct c2; [contradiction|discriminate].
  - intros later c earlier E. apply List.app_eq_app in E.
    destruct E as (l & [(E1 & E2)|(E1 & E2)]).
    + destruct l as [|d l].
      * rewrite app_nil_r in E1. cbn in E2. subst later.
        rewrite (H1 [] c earlier) by now symmetry.
        destruct c2 as [|d c2]; [|reflexivity].
        destruct x; [|reflexivity]. exfalso. now apply N2.
      * cbn in E2. injection E2 as -> ->. rewrite <- app_assoc. now rewrite (H2 later d l).
    + rewrite (H1 l c earlier) by assumption. subst later.
      destruct c2 as [|d c2]; cbn.
      * destruct l; [|reflexivity]. destruct x; [|reflexivity]. exfalso. now apply N2.
      * destruct l; reflexivity.
Qed.

Definition olist (o : option nat) : list nat := match o with Some b => [b] | None => [] end.

Lemma gates_cases : forall {A R} (fl : log -> R) (ok : log -> A -> R) ask t plain r,
  gates fl ok ask t plain (Done r) ->
  (exists t', r = fl t' /\ honest t t' true /\ ask <> None) \/
  (exists a, plain = Done a /\ r = ok (olist ask ++ t) a /\ honest t (olist ask ++ t) false).
Proof.
  intros A R fl ok ask t plain r H. destruct ask as [b|]; cbn [gates olist app] in *.
  - pose proof (honest_one t b) as Hb. destruct (full (b :: t)).
    + destruct H as [H|(f & _ & H)]; [|discriminate]. injection H as ->.
      left. exists (b :: t). split; [reflexivity|]. split; [assumption|discriminate].
    + destruct plain as [a|]; cbn in H; [|discriminate]. injection H as ->.
      right. exists a. auto.
  - destruct plain as [a|]; cbn in H; [|discriminate]. injection H as ->.
    right. exists a. split; [reflexivity|]. split; [reflexivity|apply honest_refl].
Qed.

Lemma gates_done : forall {A R} (fl : log -> R) (ok : log -> A -> R) ask t a x,
  gates fl ok ask t (Done a) x ->
  (exists t', x = Done (fl t') /\ honest t t' true /\ ask <> None) \/
  (x = Done (ok (olist ask ++ t) a) /\ honest t (olist ask ++ t) false).
Proof.
  intros A R fl ok ask t a x H.
  assert (exists r, x = Done r) as (r & ->).
  { destruct ask as [b|]; cbn [gates quiet bind] in H; [|eauto].
    destruct (full (b :: t)); [|eauto]. destruct H as [->|(f & X & _)]; [eauto|discriminate]. }
  destruct (gates_cases _ _ _ _ _ _ H) as [(t' & -> & Ht & Hn)|(b & E & -> & Ht)].
  - left. eauto.
  - right. injection E as <-. auto.
Qed.

Ltac cases G :=
  let t1 := fresh "t1" in let Ht := fresh "Ht" in let a := fresh "r" in let E := fresh "E" in
  apply gates_cases in G; destruct G as [(t1 & -> & Ht & ?)|(a & E & -> & Ht)].

Lemma destroy_inv : forall {B} (h : mem) s (k : mem -> outcome B) r, bind (str_destroy h s) k = Done r ->
  exists h', str_destroy h s = Done h' /\ k h' = Done r.
Proof. intros B h s k r H. destruct (str_destroy h s) as [h'|]; cbn [bind] in H; [eauto|discriminate]. Qed.

Lemma plus_honest : forall h t y a h' t' o, y_plus W full h t y a = Done (h', t', o) ->
  honest t t' (match o with None => true | Some _ => false end).
Proof.
  intros h t y a h' t' o H. unfold y_plus in H.
  pose proof (copy_gates h t y) as G1.
  destruct (y_copy W full h t y) as [r1|]; cbn [bind] in H; [|discriminate].
  cases G1; cbn [new_fl new_ok] in H.
  - injection H as <- <- <-. assumption.
  - pose proof (add_gates (fst r) (olist (bytes_ask (wmul W (m_capacity y) (m_chunkSize y))) ++ t) (snd r) a) as G2.
    destruct (y_add W full _ _ _ a) as [r2|]; cbn [bind] in H; [|discriminate].
    cases G2; cbn [set_fl set_ok] in H.
    + apply destroy_inv in H. destruct H as (h2 & _ & H). injection H as <- <- <-.
      eapply honest_trans; eassumption.
    + match type of H with bind (y_copy _ _ ?h2 ?t2 ?s2) _ = _ =>
        pose proof (copy_gates h2 t2 s2) as G3; destruct (y_copy W full h2 t2 s2) as [r3|] end;
        cbn [bind] in H; [|discriminate].
      cases G3; cbn [new_fl new_ok] in H; apply destroy_inv in H; destruct H as (h3 & _ & H);
        injection H as <- <- <-; (eapply honest_trans; [|eassumption]);
        eapply honest_trans; eassumption.
Qed.

Lemma logline_honest : forall h t x y h' t' x' thrown,
  y_logline W full h t x y = Done (h', t', x', thrown) -> honest t t' thrown.
Proof.
  intros h t x y h' t' x' thrown H. unfold y_logline in H.
  match type of H with bind (y_reserve _ _ ?h ?t ?s ?n) _ = _ =>
    pose proof (reserve_gates h t s n) as G1; destruct (y_reserve W full h t s n) as [r1|] end;
    cbn [bind] in H; [|discriminate].
  cases G1; cbn [set_fl set_ok] in H.
  - injection H as <- <- <- <-. assumption.
  - match type of H with bind (y_add _ _ ?h ?t ?s ?n) _ = _ =>
      pose proof (add_gates h t s n) as G2; destruct (y_add W full h t s n) as [r2|] end;
      cbn [bind] in H; [|discriminate].
    cases G2; cbn [set_fl set_ok] in H.
    + injection H as <- <- <- <-. eapply honest_trans; eassumption.
    + match type of H with y_add _ _ ?h ?t ?s ?n = _ =>
        pose proof (add_gates h t s n) as G3; rewrite H in G3 end.
      apply gates_cases in G3. destruct G3 as [(t3 & E3 & H3 & _)|(a3 & _ & E3 & H3)];
        injection E3 as -> -> -> ->; (eapply honest_trans; [|eassumption]);
        eapply honest_trans; eassumption.
Qed.

Lemma step_honest : forall w t o w' t' thrown,
  y_step W full w t o = Done (w', t', thrown) -> honest t t' thrown.
Proof.
  intros w t o w' t' thrown H. destruct o as [o|i j r|i j]; cbn [y_step] in H.
  - pose proof (op_gates w t o) as G. rewrite H in G. apply gates_cases in G.
    destruct G as [(t1 & E & Ht & _)|(a & _ & E & Ht)]; injection E as -> -> ->; assumption.
  - destruct (unused w i) as [[]|]; cbn [bind] in H; [|discriminate].
    destruct (var w j) as [y|]; cbn [bind] in H; [|discriminate].
    destruct (y_operand W w r) as [ad|]; cbn [bind] in H; [|discriminate].
    destruct (y_plus W full (w_mem w) t y ad) as [[[h1 t1] o1]|] eqn:E; cbn [bind] in H; [|discriminate].
    injection H as <- <- <-. eapply plus_honest. eassumption.
  - destruct (var w i) as [x|]; cbn [bind] in H; [|discriminate].
    destruct (var w j) as [y|]; cbn [bind] in H; [|discriminate].
    destruct (y_logline W full (w_mem w) t x y) as [[[[h1 t1] x1] th]|] eqn:E; cbn [bind] in H; [|discriminate].
    injection H as <- <- <-. eapply logline_honest. eassumption.
Qed.

(** ** Refinement *)

(** The characters [l] can be added to the owner of block [o]. *)
Definition addend (h : mem) (o : option nat) (ad : added) (l : list (option byte)) : Prop :=
  match ad with
  | AChar c => l = known [c]
  | ACString p => exists src lb, p = Ext src /\ c_string src lb /\ l = known lb
  | AString s => str_length s = length l /\
                 exists ds, source h o (m_ptr s) (length l) ds /\ shows l ds
  | AView v => v_length v = length l /\ v_str v <> Null /\
               exists ds, source h o (v_str v) (length l) ds /\ shows l ds
  end.

Lemma addend_evolves : forall h o h' o' ad l, addend h o ad l -> evolves h o h' o' -> addend h' o' ad l.
Proof.
  intros h o h' o' [c|p|s|v] l H E; cbn in *; auto.
  - destruct H as (H1 & ds & H2 & H3). split; [assumption|]. exists ds. split; [|assumption].
    eapply source_evolves; eassumption.
  - destruct H as (H1 & H0 & ds & H2 & H3). split; [assumption|]. split; [assumption|].
    exists ds. split; [|assumption]. eapply source_evolves; eassumption.
Qed.

Lemma addend_length : forall h o ad l, addend h o ad l -> added_length h ad = length l.
Proof.
  intros h o [c|p|s|v] l H; cbn [addend added_length] in *.
  - now subst.
  - destruct H as (src & lb & -> & Hc & ->). rewrite (strlen_ext _ _ _ Hc). symmetry. apply known_length.
  - apply H.
  - apply H.
Qed.

Lemma add_ok : forall h s l0 o ad l,
  rep W h s l0 o -> addend h o ad l -> S (length l0 + length l) < W ->
  exists h' s' k, str_add h s ad = Done (h', s') /\ rep W h' s' (l0 ++ l) (Some k) /\
    evolves h o h' (Some k) /\ m_size s' = S (length l0 + length l) /\
    m_capacity s' = (if length l0 + length l <? m_capacity s then m_capacity s
                     else S (length l0 + length l)).
Proof.
  intros h s l0 o ad l R A F.
  assert (forall p ds, source h o p (length l) ds -> shows l ds ->
    exists h' s' k, str_append W h s p (length l) = Done (h', s') /\ rep W h' s' (l0 ++ l) (Some k) /\
    evolves h o h' (Some k) /\ m_size s' = S (length l0 + length l) /\
    m_capacity s' = (if length l0 + length l <? m_capacity s then m_capacity s
                     else S (length l0 + length l))) as K.
  { intros p ds Hs Hd. destruct (append_ok W h s l0 o p (length l) ds l R Hs Hd eq_refl F)
      as (h' & s' & k & H1 & H2 & H3 & H4 & _ & H5). exists h', s', k. auto. }
  destruct ad as [c|p|y|v]; cbn [addend str_add] in *.
  - subst l. apply (K (Ext [c]) [Some c]); [split; [cbn; lia|reflexivity]|apply shows_refl].
  - destruct A as (src & lb & -> & Hc & ->). unfold str_append_c. rewrite (strlen_ext _ _ _ Hc).
    cbn [bind]. rewrite known_length in *. destruct (c_string_firstn _ _ Hc) as (Hle & Hf).
    eapply K; [apply source_ext; assumption|]. rewrite Hf. apply shows_refl.
  - destruct A as (Hl & ds & H1 & H2). unfold str_append_str. rewrite Hl. eapply K; eassumption.
  - destruct A as (Hl & Hn & ds & H1 & H2). unfold str_append_view, view_data. rewrite Hl.
    destruct (v_str v); [contradiction| |]; cbn [assert_ bind]; eapply K; eassumption.
Qed.

Lemma not_gone_holds : forall h y d, rep W h y (chars d) (owned y) -> tag_ok d y -> d <> Gone ->
  exists k cs, holds W h y (chars d) k cs.
Proof.
  intros h y d Hr Ht Hd.
  destruct (source_part W h y d [] [] (chars d) None Hr Ht Hd eq_refl) as (k & cs & ds & _ & H & _);
    [discriminate|]. eauto.
Qed.

Lemma operand_ok : forall a w r l o, related W a w -> operand a r l ->
  (forall b y, o = Some b -> match r with RString k | RView k _ _ => w_str w k = Some y | _ => False end ->
     owned y <> Some b) ->
  exists ad, y_operand W w r = Done ad /\ addend (w_mem w) o ad l.
Proof.
  intros a w r l o R H Ho. destruct H as [c|src l Hc|k d Hk Hd|k d pre l post Hk Hd Hl]; cbn [y_operand].
  - eexists. split; reflexivity.
  - eexists. split; [reflexivity|]. exists src, l. auto.
  - destruct (related_some _ _ _ _ _ R Hk) as (z & Wz & Hr & Ht).
    unfold var. rewrite Wz. cbn [bind]. eexists. split; [reflexivity|].
    destruct (source_part W _ z d [] (chars d) [] o Hr Ht Hd) as (k' & cs & ds & Hp & Hh & Hs & Hsh).
    + now rewrite app_nil_r.
    + intros b Hb E. apply (Ho b z); [assumption|exact Wz|assumption].
    + cbn. split; [apply (holds_length _ _ _ _ _ _ Hh)|]. exists ds. rewrite Hp. auto.
  - destruct (related_some _ _ _ _ _ R Hk) as (z & Wz & Hr & Ht).
    unfold var. rewrite Wz. cbn [bind].
    destruct (source_part W _ z d pre l post o Hr Ht Hd Hl) as (k' & cs & ds & Hp & Hh & Hs & Hsh).
    + intros b Hb E. apply (Ho b z); [assumption|exact Wz|assumption].
    + pose proof (holds_lt _ _ _ _ _ _ Hh). pose proof (hd_fits _ _ _ _ _ _ Hh).
      pose proof (view_part W z k' (length (chars d)) pre l post Hp (holds_length _ _ _ _ _ _ Hh)) as Hv.
      specialize (Hv ltac:(now rewrite Hl) ltac:(lia)).
      destruct (str_view z) as [v|]; cbn [bind] in Hv |- *; [|discriminate]. rewrite Hv. cbn [bind].
      eexists. split; [reflexivity|]. cbn. split; [reflexivity|]. split; [discriminate|].
      exists ds. auto.
Qed.

Lemma copy_capacity : forall h y h' s, str_copy W h y = Done (h', s) ->
  m_capacity s = m_capacity y /\ m_chunkSize s = m_chunkSize y.
Proof.
  intros h y h' s H. unfold str_copy, buffer_copy_ctor, buffer_make in H.
  destruct (if 0 <? wmul W (m_capacity y) (m_chunkSize y) then _ else _) as [h1 p].
  destruct (assert_ _); cbn [bind] in H; [|discriminate].
  destruct (assert_ _); cbn [bind] in H; [|discriminate].
  destruct (buffer_copy _ _ _ _ _); cbn [bind] in H; [|discriminate].
  injection H as <- <-. split; reflexivity.
Qed.

Lemma holds_ask : forall h s l k cs, holds W h s l k cs ->
  bytes_ask (wmul W (m_capacity s) (m_chunkSize s)) = Some (m_capacity s).
Proof.
  intros h s l k cs H. pose proof (hd_fits _ _ _ _ _ _ H). pose proof (hd_lt _ _ _ _ _ _ H).
  pose proof (hd_cap _ _ _ _ _ _ H). rewrite (hd_chunk _ _ _ _ _ _ H).
  unfold wmul. rewrite Nat.mul_1_r, Nat.mod_small by lia. unfold bytes_ask.
  now rewrite (proj2 (Nat.ltb_lt _ _)) by lia.
Qed.

Lemma room_ask_room : forall s n, S n < W -> olist (room_ask s n) = room s n.
Proof.
  intros s n H. unfold room_ask, room. rewrite wadd_small by lia. rewrite Nat.add_1_r.
  destruct (Nat.ltb_spec n (m_capacity s)), (Nat.ltb_spec (m_capacity s) (S n)); cbn; try reflexivity; lia.
Qed.

Lemma evolves_over : forall (h h1 h2 : mem) k o',
  evolves h None h1 o' -> evolves h1 (Some k) h2 None -> evolves h (Some k) h2 o'.
Proof.
  intros h h1 h2 k o' (A1 & A2) (B1 & B2). split.
  - intros b cs H. destruct (B1 _ _ H) as [|(Hn & H1)]; [discriminate|].
    destruct (A1 _ _ H1) as [|(_ & H0)]; [left; assumption|right; auto].
  - intros b cs H Hn. destruct (A2 _ _ H) as (H1 & Hn'); [discriminate|].
    destruct (B2 _ _ H1 Hn) as (H2 & _). auto.
Qed.

(** y + z. *)
Lemma plus_ok : forall h t y c k cs ad l,
  holds W h y c k cs -> addend h None ad l -> S (length c + length l) < W ->
  exists h' t' o, y_plus W full h t y ad = Done (h', t', o) /\
    match o with
    | None => evolves h None h' None
    | Some s => exists k', rep W h' s (c ++ l) (Some k') /\ evolves h None h' (Some k') /\
        m_size s = S (length c + length l) /\
        t' = (if str_length y + length l <? m_capacity y then [m_capacity y; m_capacity y]
              else [S (str_length y + length l); S (str_length y + length l); m_capacity y]) ++ t
    end.
Proof.
  intros h t y c k cs ad l H A F. unfold y_plus.
  pose proof (copy_gates h t y) as G1. rewrite (holds_ask _ _ _ _ _ H) in G1.
  destruct (str_copy_ok W h y c k cs H) as (h1 & s1 & k1 & E1 & R1 & V1 & Z1). rewrite E1 in G1.
  destruct (copy_capacity _ _ _ _ E1) as (C1 & _).
  apply gates_done in G1. destruct G1 as [(t1 & -> & _)|(-> & _)]; cbn [new_fl new_ok fst snd bind].
  { exists h, t1, None. split; [reflexivity|]. apply evolves_refl. }
  pose proof (addend_evolves _ _ _ _ _ _ A V1) as A1.
  pose proof (add_gates h1 (olist (Some (m_capacity y)) ++ t) s1 ad) as G2.
  rewrite (addend_length _ _ _ _ A1), (rep_length _ _ _ _ _ R1), wadd_small in G2 by lia.
  destruct (add_ok h1 s1 c (Some k1) ad l R1 A1 F) as (h2 & s2 & k2 & E2 & R2 & V2 & Z2 & C2).
  rewrite E2 in G2. apply gates_done in G2.
  destruct G2 as [(t2 & -> & _)|(-> & _)]; cbn [set_fl set_ok fst snd bind].
  { destruct (destroy_ok W h1 s1 _ _ R1) as (h3 & -> & V3 & _). cbn [bind].
    exists h3, t2, None. split; [reflexivity|]. eapply evolves_trans; eassumption. }
  inversion R2 as [|l2 k2' cs2 H2]; subst l2 k2'.
  match goal with |- context[y_copy _ _ _ ?t2 _] => pose proof (copy_gates h2 t2 s2) as G3 end.
  rewrite (holds_ask _ _ _ _ _ H2) in G3.
  destruct (str_copy_ok W h2 s2 _ k2 cs2 H2) as (h3 & s3 & k3 & E3 & R3 & V3 & Z3). rewrite E3 in G3.
  apply gates_done in G3. destruct G3 as [(t3 & -> & _)|(-> & _)]; cbn [new_fl new_ok fst snd bind].
  { destruct (destroy_ok W h2 s2 _ _ R2) as (h4 & -> & V4 & _). cbn [bind].
    exists h4, t3, None. split; [reflexivity|].
    eapply evolves_trans; [exact V1|]. eapply evolves_trans; eassumption. }
  assert (k2 <> k3) as Hkk.
  { destruct (proj2 V3 _ _ (hd_live _ _ _ _ _ _ H2)) as (_ & X); [discriminate|]. congruence. }
  assert (rep W h3 s2 (c ++ l) (Some k2)) as R2'.
  { eapply rep_evolves; [exact R2|exact V3|]. discriminate. }
  destruct (destroy_ok W h3 s2 _ _ R2') as (h4 & -> & V4 & _). cbn [bind].
  do 3 eexists. split; [reflexivity|]. cbn beta iota. exists k3. split; [|split; [|split]].
  - eapply rep_evolves; [exact R3|exact V4|]. intros b X. congruence.
  - eapply evolves_trans; [exact V1|]. eapply evolves_trans; [exact V2|].
    eapply evolves_over; eassumption.
  - congruence.
  - rewrite (holds_length _ _ _ _ _ _ H). rewrite (room_ask_room s1) by lia. unfold room.
    rewrite C2, C1. destruct (length c + length l <? m_capacity y); reflexivity.
Qed.

(** logline: after reserve nothing is asked for. *)
Lemma logline_gates : forall h t x l o ad y m,
  rep W h x l o -> ad = AString y -> addend h o ad m -> S (length l + length m + 1) < W ->
  gates (set_fl h x) set_ok (room_ask x (length l + length m + 1)) t
    (ctx_logline W h x y) (y_logline W full h t x y) /\
  exists h' x' k, ctx_logline W h x y = Done (h', x') /\
    rep W h' x' (l ++ m ++ known [ascii_of_N 10]) (Some k) /\ evolves h o h' (Some k) /\
    m_size x' = S (length l + length m + 1).
Proof.
  intros h t x l o ad y m R -> A F. unfold ctx_logline, y_logline.
  assert (str_length y = length m) as Hy by apply A.
  rewrite (rep_length _ _ _ _ _ R), Hy.
  rewrite (wadd_small W (length l)) by lia. rewrite (wadd_small W (length l + length m)) by lia.
  destruct (reserve_ok W h x l o (length l + length m + 1) R) as (h1 & x1 & k1 & E1 & R1 & C1 & _ & V1 & _);
    [lia|].
  pose proof (addend_evolves _ _ _ _ _ _ A V1) as A1.
  destruct (add_ok h1 x1 l (Some k1) (AString y) m R1 A1) as (h2 & x2 & k2 & E2 & R2 & V2 & _ & C2); [lia|].
  cbn [str_add] in E2.
  rewrite (proj2 (Nat.ltb_lt _ _)) in C2 by lia.
  destruct (add_ok h2 x2 (l ++ m) (Some k2) (AChar (ascii_of_N 10)) (known [ascii_of_N 10]) R2 eq_refl)
    as (h3 & x3 & k3 & E3 & R3 & V3 & Z3 & _).
  { rewrite app_length. cbn. lia. }
  cbn [str_add] in E3. split.
  - eapply gates_post; [apply reserve_gates|reflexivity|].
    intros t' hs E. rewrite E1 in E. injection E as <-. cbn [set_ok fst snd]. rewrite E2. cbn [bind fst snd].
    pose proof (add_gates h1 t' x1 (AString y)) as G2. cbn [added_length str_add] in G2.
    rewrite Hy, (rep_length _ _ _ _ _ R1), wadd_small, E2 in G2 by lia.
    unfold room_ask in G2. rewrite wadd_small in G2 by lia.
    rewrite (proj2 (Nat.ltb_ge _ _)) in G2 by lia. cbn [gates quiet bind] in G2. rewrite G2.
    cbn [bind set_ok fst snd].
    pose proof (add_gates h2 t' x2 (AChar (ascii_of_N 10))) as G3. cbn [added_length str_add] in G3.
    rewrite (rep_length _ _ _ _ _ R2), app_length, wadd_small in G3 by lia.
    unfold room_ask in G3. rewrite wadd_small in G3 by lia.
    rewrite (proj2 (Nat.ltb_ge _ _)) in G3 by lia. exact G3.
  - rewrite E1. cbn [bind fst snd]. rewrite E2. cbn [bind fst snd]. rewrite E3.
    exists h3, x3, k3. split; [reflexivity|]. rewrite app_assoc. split; [exact R3|]. split.
    + eapply evolves_trans; [exact V1|]. eapply evolves_trans; eassumption.
    + rewrite Z3, app_length. cbn. lia.
Qed.

Lemma unused_none : forall w i, w_str w i = None -> unused w i = Done tt.
Proof. intros w i H. unfold unused. now rewrite H. Qed.

Lemma var_some : forall w i s, w_str w i = Some s -> var w i = Done s.
Proof. intros w i s H. unfold var. now rewrite H. Qed.

Lemma null_room : forall n, S n < W -> olist (room_ask null_buffer n) = [S n].
Proof. intros n H. rewrite room_ask_room by assumption. reflexivity. Qed.

(** The requests of an operation of C42. *)
Lemma ask_of_asks : forall a w o a', related W a w -> smeans W a o a' ->
  asks (w_str w) (YOp o) (olist (ask_of w o)).
Proof.
  intros a w o a' R M.
  destruct M as [i src n Hi Hn Hw|i src l Hi Hs Hw|i j c pre l post Hi Hj Hg Hc|i j c Hi Hj Hg
                |i j c Hi Hj|i j c d Hi Hj Hg|i j c d Hi Hj|i c Hi|i c n Hi Hw|i c n Hi Hw
                |i pre mid l post Hi Hm|i c src n Hi Hn Hw|i c src l Hi Hs Hw|i c b Hi Hw
                |i j c d pre l post Hij Hi Hj Hg Hc Hw|i j c d Hij Hi Hj Hg Hw];
    cbn [ask_of];
    try (destruct (related_some _ _ _ _ _ R Hi) as (x & Wi & Hr & Ht); rewrite Wi;
         pose proof (rep_length _ _ _ _ _ Hr) as Hl).
  - rewrite null_room by assumption. constructor.
  - cbn [added_length]. rewrite (strlen_ext _ _ _ Hs), null_room by assumption. now constructor.
  - destruct (related_some _ _ _ _ _ R Hj) as (y & Wj & Hr & Ht).
    destruct (not_gone_holds _ _ _ Hr Ht Hg) as (k & cs & Hh).
    pose proof (hd_fits _ _ _ _ _ _ Hh). pose proof (hd_lt _ _ _ _ _ _ Hh) as Hlt.
    rewrite Hc, !app_length in Hlt. rewrite null_room by lia. constructor.
  - destruct (related_some _ _ _ _ _ R Hj) as (y & Wj & Hr & Ht). rewrite Wj.
    destruct (not_gone_holds _ _ _ Hr Ht Hg) as (k & cs & Hh). rewrite (holds_ask _ _ _ _ _ Hh).
    now constructor.
  - now apply K_never.
  - destruct (related_some _ _ _ _ _ R Hj) as (y & Wj & Hr' & Ht'). rewrite Wj.
    destruct (not_gone_holds _ _ _ Hr' Ht' Hg) as (k & cs & Hh). rewrite (holds_ask _ _ _ _ _ Hh).
    now constructor.
  - now apply K_never.
  - now apply K_never.
  - rewrite room_ask_room by assumption. now constructor.
  - rewrite room_ask_room by assumption. now constructor.
  - now apply K_never.
  - rewrite Hl, wadd_small, room_ask_room by lia. rewrite <- Hl. now constructor.
  - cbn [added_length]. rewrite (strlen_ext _ _ _ Hs), Hl, wadd_small, room_ask_room by lia.
    rewrite <- Hl. now constructor.
  - rewrite Hl, wadd_small, room_ask_room by lia. rewrite <- Hl. now constructor.
  - unfold length_of.
    destruct (operand_ok a w (RView j (length pre) (length l)) l None R) as (ad & -> & A).
    { econstructor; eassumption. }
    { discriminate. }
    rewrite (addend_length _ _ _ _ A), Hl, wadd_small, room_ask_room by lia. rewrite <- Hl.
    now constructor.
  - unfold length_of.
    destruct (operand_ok a w (RString j) (chars d) None R) as (ad & -> & A).
    { econstructor; eassumption. }
    { discriminate. }
    destruct (related_some _ _ _ _ _ R Hj) as (y & Wj & Hr' & Ht').
    rewrite (addend_length _ _ _ _ A), Hl, wadd_small, room_ask_room by lia.
    rewrite <- Hl, <- (rep_length _ _ _ _ _ Hr'). now constructor.
Qed.

Lemma fl_related : forall a w i, related W a w ->
  related W a (World (w_mem w) (put (w_str w) i (w_str w i))).
Proof.
  intros a w i R. eapply related_ext; [exact R|reflexivity|].
  intros m. unfold put. destruct (Nat.eqb_spec m i) as [->|]; reflexivity.
Qed.

Lemma ask_never : forall w o, ask_of w o <> None -> ~ never_throws (YOp o).
Proof. intros w o H N. destruct o; cbn in *; contradiction. Qed.

Lemma step_ok : forall a w t o a', related W a w -> means W a o a' ->
  exists w' t' thrown, y_step W full w t o = Done (w', t', thrown) /\
    if thrown : bool then ~ never_throws o /\ related W a w'
    else related W a' w' /\ exists calls, t' = calls ++ t /\ asks (w_str w) o calls.
Proof.
  intros a w t o a' R M.
  destruct M as [o a' M|i j r c l Hi Hj Hg Ho Hf|i j c d Hij Hi Hj Hg Hf]; cbn [y_step].
  - destruct (step_refines W a w o a' R M) as (w' & E & R').
    pose proof (op_gates w t o) as G. rewrite E in G. apply gates_done in G.
    destruct G as [(t' & -> & _ & Hn)|(-> & _)]; unfold w_fl, w_ok.
    + do 3 eexists. split; [reflexivity|]. cbn beta iota. split.
      * eapply ask_never. eassumption.
      * now apply fl_related.
    + do 3 eexists. split; [reflexivity|]. cbn beta iota. split; [assumption|].
      eexists. split; [reflexivity|]. eapply ask_of_asks; eassumption.
  - pose proof (related_none _ _ _ _ R Hi) as Wi. rewrite (unused_none _ _ Wi). cbn [bind].
    destruct (related_some _ _ _ _ _ R Hj) as (y & Wj & Hr & Ht). rewrite (var_some _ _ _ Wj). cbn [bind].
    destruct (operand_ok a w r l None R Ho) as (ad & Ea & A).
    { discriminate. }
    rewrite Ea. cbn [bind].
    destruct (not_gone_holds _ _ _ Hr Ht Hg) as (k & cs & Hh).
    destruct (plus_ok (w_mem w) t y (chars c) k cs ad l Hh A Hf) as (h' & t' & o & -> & Hx).
    cbn [bind y_new]. do 3 eexists. split; [reflexivity|]. destruct o as [s|]; cbn beta iota.
    + destruct Hx as (k' & R' & V & Z & ->). split.
      * eapply related_step with (o := None); [exact R|now rewrite Wi| |];
          rewrite (rep_owned _ _ _ _ _ R'); auto. split; [exact R'|].
        cbn. now rewrite Z, app_length.
      * eexists. split; [reflexivity|]. constructor; [assumption|].
        pose proof (addend_length _ _ _ _ A) as La.
        inversion Ho; subst.
        -- constructor.
        -- rewrite known_length. now constructor.
        -- destruct (related_some _ _ _ _ _ R H) as (z & Wz & Hrz & _).
           rewrite <- (rep_length _ _ _ _ _ Hrz). now constructor.
        -- constructor.
    + split; [exact (fun x => x)|].
      assert (related W (upd a i None) (World h' (put (w_str w) i None))) as R1.
      { eapply related_step with (o := None); [exact R|now rewrite Wi|exact Hx|exact I]. }
      eapply related_ext in R1; [exact R1| |reflexivity].
      intros m. unfold upd. destruct (Nat.eqb_spec m i) as [->|]; [now rewrite Hi|reflexivity].
  - destruct (related_some _ _ _ _ _ R Hi) as (x & Wi & Hr & Ht). rewrite (var_some _ _ _ Wi). cbn [bind].
    destruct (related_some _ _ _ _ _ R Hj) as (y & Wj & Hry & Hty). rewrite (var_some _ _ _ Wj). cbn [bind].
    destruct (operand_ok a w (RString j) (chars d) (owned x) R) as (ad & Ea & A).
    { econstructor; eassumption. }
    { intros b z Hb Wz E. apply Hij. eapply (rl_apart _ _ _ R); eassumption. }
    cbn [y_operand] in Ea. rewrite (var_some _ _ _ Wj) in Ea. cbn [bind] in Ea. injection Ea as <-.
    destruct (logline_gates (w_mem w) t x (chars c) (owned x) (AString y) y (chars d) Hr eq_refl A Hf)
      as (G & h' & x' & k & E & R' & V & Z).
    rewrite E in G. apply gates_done in G.
    destruct G as [(t' & -> & _)|(-> & _)]; cbn [bind y_set set_fl set_ok fst snd].
    + do 3 eexists. split; [reflexivity|]. cbn beta iota. split; [exact (fun x => x)|].
      rewrite <- Wi. now apply fl_related.
    + do 3 eexists. split; [reflexivity|]. cbn beta iota. split.
      * eapply related_step with (o := owned x); [exact R|now rewrite Wi| |];
          rewrite (rep_owned _ _ _ _ _ R'); auto. split; [exact R'|].
        cbn [tag_ok]. rewrite Z, !app_length. cbn. lia.
      * eexists. split; [reflexivity|]. rewrite room_ask_room by assumption.
        rewrite <- (rep_length _ _ _ _ _ Hr), <- (rep_length _ _ _ _ _ Hry). now constructor.
Qed.

Lemma runs_ok : forall p a, proper W a p -> forall w t, related W a w ->
  exists w' t' trace a', y_runs W full w t p = Done (w', t', trace) /\
    ends W a p trace a' /\ related W a' w'.
Proof.
  intros p a P. induction P as [a|a o a' next M P1 IH1 P2 IH2]; intros w t R; cbn [y_runs].
  - exists w, t, [], a. split; [reflexivity|]. split; [constructor|assumption].
  - destruct (step_ok a w t o a' R M) as (w1 & t1 & [|] & -> & H); cbn [bind].
    + destruct H as (Hn & R1). destruct (IH2 Hn w1 t1 R1) as (w2 & t2 & tr & a2 & -> & E2 & R2).
      cbn [bind]. exists w2, t2, (true :: tr), a2. split; [reflexivity|]. split; [|assumption].
      econstructor; eassumption.
    + destruct H as (R1 & _). destruct (IH1 w1 t1 R1) as (w2 & t2 & tr & a2 & -> & E2 & R2).
      cbn [bind]. exists w2, t2, (false :: tr), a2. split; [reflexivity|]. split; [|assumption].
      econstructor; eassumption.
Qed.

(** ** Formatted output *)

Lemma vsprintf_cases : forall h t fmt f args a u,
  c_text h fmt f -> given imax h args a -> prints f a u ->
  length u <= imax -> (strict = true -> length u < imax) -> S (S imax) < W ->
  exists h' t' o, y_vsprintf W imax strict full h t fmt args = Done (h', t', o) /\
    match o with
    | None => evolves h None h' None /\ honest t t' true
    | Some s => vsprintf W imax strict h fmt args = Done (h', s) /\ honest t t' false
    end.
Proof.
  intros h t fmt f args a u Hf Hg Hp Hu Hst HW.
  destruct (vsprintf_ok W imax strict h fmt f args a u Hf Hg Hp Hu Hst HW)
    as (hf & sf & kf & Ef & _ & _ & _).
  unfold y_vsprintf. unfold vsprintf in Ef |- *.
  rewrite (measure_ok imax strict _ _ _ _ _ _ Hf Hg Hp) in Ef |- *.
  destruct (Nat.ltb_spec imax (length u)) as [|_]; [lia|]. cbn [bind snd fst] in Ef |- *.
  rewrite to_size_small in Ef |- * by lia.
  pose proof (empty_string_ok W h) as Em. destruct Em as (h0 & s0 & k0 & E0 & R0 & V0); [lia|].
  rewrite E0 in Ef |- *. cbn [bind fst snd] in Ef |- *.
  assert (gates (new_fl h) new_ok (room_ask null_buffer 0) t (str_make_c W h (Ext [NUL]))
            (y_make_c W full h t (Ext [NUL]))) as G0.
  { unfold str_make_c, y_make_c. apply gates_pre. intros n Hn.
    rewrite (strlen_ext h [NUL] []) in Hn by (exists []; split; [reflexivity|exact (fun x => x)]).
    injection Hn as <-. apply make_gates. }
  rewrite E0 in G0. apply gates_done in G0.
  destruct G0 as [(t1 & -> & Ht1 & _)|(-> & Ht1)]; cbn [new_fl new_ok fst snd bind].
  { exists h, t1, None. split; [reflexivity|]. split; [apply evolves_refl|assumption]. }
  destruct (resize_ok W h0 s0 [] (Some k0) (length u) R0) as (h1 & s1 & k & cs & E1 & H1 & _);
    [lia|].
  pose proof (resize_gates h0 (olist (room_ask null_buffer 0) ++ t) s0 (length u)) as G1.
  rewrite E1 in Ef, G1 |- *. cbn [bind fst snd] in Ef |- *. apply gates_done in G1.
  destruct G1 as [(t2 & -> & Ht2 & _)|(-> & Ht2)]; cbn [set_fl set_ok fst snd bind].
  { destruct (destroy_ok W h0 s0 _ _ R0) as (h2 & -> & V2 & _). cbn [bind].
    exists h2, t2, None. split; [reflexivity|]. split; [|eapply honest_trans; eassumption].
    eapply evolves_trans; eassumption. }
  destruct (vsnprintf imax strict h1 (m_ptr s1) _ fmt args) as [[h2 z]|]; cbn [bind fst snd] in Ef |- *;
    [|discriminate].
  destruct (assert_ _) as [[]|]; cbn [bind] in Ef |- *; [|discriminate].
  do 3 eexists. split; [reflexivity|]. cbn beta iota. split; [reflexivity|].
  eapply honest_trans; eassumption.
Qed.

(** A statement logf or loglinef, where [plain] is the code with enough memory. *)
Lemma statement_cases : forall add plain h t out l o fmt f args a u v,
  rep W h out l o -> c_text h fmt f -> given imax h args a -> prints f a u ->
  length u <= imax -> (strict = true -> length u < imax) -> S (S imax) < W ->
  (forall h t s k, rep W h out l o -> rep W h s (known u) (Some k) -> o <> Some k ->
     exists h' out' ask, plain h out s = Done (h', out') /\
       gates (set_fl h out) set_ok ask t (plain h out s) (add h t out s) /\
       exists k', rep W h' out' (l ++ v) (Some k') /\ evolves h o h' (Some k')) ->
  exists h' t' out' thrown,
    y_statement W imax strict full add h t out fmt args = Done (h', t', out', thrown) /\
    honest t t' thrown /\
    if thrown : bool then out' = out /\ evolves h None h' None
    else (hs <- vsprintf W imax strict h fmt args ;;
          ho <- plain (fst hs) out (snd hs) ;;
          h' <- str_destroy (fst ho) (snd hs) ;; Done (h', snd ho)) = Done (h', out').
Proof.
  intros add plain h t out l o fmt f args a u v Ro Hf Hg Hp Hu Hst HW Hadd.
  unfold y_statement.
  destruct (vsprintf_cases h t fmt f args a u Hf Hg Hp Hu Hst HW) as (h1 & t1 & os & -> & Hc).
  destruct (vsprintf_ok W imax strict h fmt f args a u Hf Hg Hp Hu Hst HW)
    as (h1' & s' & k & Ef & Rs & E1 & _).
  cbn [bind]. destruct os as [s|].
  - destruct Hc as (Ev & Ht1). rewrite Ef in Ev. injection Ev as -> ->. rewrite Ef. cbn [bind fst snd].
    pose proof (other_new _ _ _ _ E1 (rep_live _ _ _ _ _ Ro)) as Hok.
    assert (rep W h1 out l o) as Ro1.
    { eapply rep_evolves; [exact Ro|exact E1|]. discriminate. }
    destruct (Hadd h1 t1 s k Ro1 Rs Hok) as (h2 & out' & ask & E2 & G & k' & R2 & V2).
    rewrite E2 in G |- *. apply gates_done in G. destruct G as [(t2 & -> & Ht2 & _)|(-> & Ht2)];
      cbn [set_fl set_ok fst snd bind].
    + destruct (destroy_ok W h1 s _ _ Rs) as (h3 & -> & V3 & _). cbn [bind].
      do 4 eexists. split; [reflexivity|]. split; [eapply honest_trans; eassumption|].
      cbn beta iota. split; [reflexivity|]. eapply evolves_trans; eassumption.
    + assert (rep W h2 s (known u) (Some k)) as Rs2.
      { eapply rep_evolves; [exact Rs|exact V2|]. intros b X. congruence. }
      destruct (destroy_ok W h2 s _ _ Rs2) as (h3 & -> & V3 & _). cbn [bind].
      do 4 eexists. split; [reflexivity|]. split; [eapply honest_trans; eassumption|reflexivity].
  - destruct Hc as (V & Ht1). do 4 eexists. split; [reflexivity|]. split; [assumption|].
    cbn beta iota. auto.
Qed.

Lemma add_string_gates : forall h out l o s u k,
  rep W h out l o -> rep W h s (known u) (Some k) -> o <> Some k -> addend h o (AString s) (known u).
Proof.
  intros h out l o s u k Ro Rs Ho. destruct (string_source W h s u k o Rs Ho) as (ds & H1 & H2).
  cbn. rewrite known_length. split; [rewrite (rep_length _ _ _ _ _ Rs); apply known_length|].
  exists ds. auto.
Qed.

Lemma logf_cases : forall h t out l o fmt f args a u,
  rep W h out l o -> c_text h fmt f -> given imax h args a -> prints f a u ->
  length u <= imax -> (strict = true -> length u < imax) -> S (S imax) < W ->
  S (length l + length u) < W ->
  exists h' t' out' thrown,
    y_logf W imax strict full h t out fmt args = Done (h', t', out', thrown) /\
    honest t t' thrown /\
    if thrown : bool then out' = out /\ evolves h None h' None
    else ctx_logf W imax strict h out fmt args = Done (h', out').
Proof.
  intros h t out l o fmt f args a u Ro Hf Hg Hp Hu Hst HW Hfit.
  eapply statement_cases with (plain := ctx_log W) (v := known u); try eassumption.
  intros h1 t1 s k R1 Rs Ho. pose proof (add_string_gates _ _ _ _ _ _ _ R1 Rs Ho) as A.
  destruct (add_ok h1 out l o (AString s) (known u) R1 A) as (h2 & o2 & k2 & E2 & R2 & V2 & _).
  { now rewrite known_length. }
  do 3 eexists. split; [exact E2|]. split; [apply (add_gates h1 t1 out (AString s))|]. eauto.
Qed.

Lemma loglinef_cases : forall h t out l o fmt f args a u,
  rep W h out l o -> c_text h fmt f -> given imax h args a -> prints f a u ->
  length u <= imax -> (strict = true -> length u < imax) -> S (S imax) < W ->
  S (S (length l + length u)) < W ->
  exists h' t' out' thrown,
    y_loglinef W imax strict full h t out fmt args = Done (h', t', out', thrown) /\
    honest t t' thrown /\
    if thrown : bool then out' = out /\ evolves h None h' None
    else ctx_loglinef W imax strict h out fmt args = Done (h', out').
Proof.
  intros h t out l o fmt f args a u Ro Hf Hg Hp Hu Hst HW Hfit.
  eapply statement_cases with (plain := ctx_logline W) (v := known u ++ known [ascii_of_N 10]); try eassumption.
  intros h1 t1 s k R1 Rs Ho. pose proof (add_string_gates _ _ _ _ _ _ _ R1 Rs Ho) as A.
  destruct (logline_gates h1 t1 out l o (AString s) s (known u) R1 eq_refl A)
    as (G & h2 & o2 & k2 & E2 & R2 & V2 & _).
  { rewrite known_length. lia. }
  do 3 eexists. split; [exact E2|]. split; [exact G|]. eauto.
Qed.

(** What is asked for by an append within the capacity: nothing. *)
Lemma add_within : forall h t s l o ad m,
  rep W h s l o -> addend h o ad m -> length l + length m < m_capacity s -> m_capacity s < W ->
  exists h' s' k, y_add W full h t s ad = Done (h', t, s', false) /\
    rep W h' s' (l ++ m) (Some k) /\ evolves h o h' (Some k) /\ m_capacity s' = m_capacity s.
Proof.
  intros h t s l o ad m R A C F.
  destruct (add_ok h s l o ad m R A) as (h' & s' & k & E & R' & V & _ & C'); [lia|].
  rewrite (proj2 (Nat.ltb_lt _ _)) in C' by lia.
  pose proof (add_gates h t s ad) as G.
  rewrite E, (addend_length _ _ _ _ A), (rep_length _ _ _ _ _ R), wadd_small in G by lia.
  unfold room_ask in G. rewrite wadd_small in G by lia.
  rewrite (proj2 (Nat.ltb_ge _ _)) in G by lia. cbn [gates quiet bind] in G.
  exists h', s', k. auto.
Qed.

End StringThrowProofs.
