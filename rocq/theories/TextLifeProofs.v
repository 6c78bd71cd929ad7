(** Proofs about TextLife.v. *)
From Coq Require Import Ascii String NArith ZArith Bool PeanoNat Lia List.
Import ListNotations.
From Verif Require Import Util Base Lexer LexerMore StringConv Serializer SerializerProofs UMap UMapProofs ExecSpec ExecProofs
  TextLife TextLifeSpec.

Local Notation length := List.length.

(** * Views *)

Lemma shows_len ts v b : shows ts v b -> v_len (sv_view v) = length b.
Proof. now destruct 1. Qed.

Lemma slice_between (a b c : bytes) : firstn (length b) (skipn (length a) (a ++ b ++ c)) = b.
Proof.
  rewrite skipn_app, skipn_all, Nat.sub_diag. simpl.
  rewrite firstn_app, firstn_all, Nat.sub_diag. simpl. apply app_nil_r.
Qed.

Lemma read_shows m v b : shows (m_texts m) v b -> read_view m v = Done b.
Proof.
  destruct 1 as [i off|i a b c H]; unfold read_view; simpl; [reflexivity|].
  destruct (length b =? 0) eqn:E.
  - apply Nat.eqb_eq in E. now destruct b.
  - rewrite H. unfold view_bytes. simpl.
    destruct (length a + length b <=? length (a ++ b ++ c)) eqn:L.
    + now rewrite slice_between.
    + apply Nat.leb_gt in L. rewrite !app_length in L. lia.
Qed.

Lemma read_all_shows m vs bs : Forall2 (shows (m_texts m)) vs bs -> read_all m vs = Done bs.
Proof.
  induction 1 as [|v b vs bs H _ IH]; simpl; [reflexivity|].
  now rewrite (read_shows _ _ _ H), IH.
Qed.

Lemma view_shows ts i cmd v :
  exists_text ts i cmd -> v_off v + v_len v <= length cmd -> shows ts (in_text i v) (view_bytes cmd v).
Proof.
  intros H L. unfold in_text. destruct v as [off len]. simpl in L.
  assert (E : cmd = firstn off cmd ++ view_bytes cmd (View off len) ++ skipn (off + len) cmd).
  { unfold view_bytes. simpl. rewrite <- (firstn_skipn off cmd) at 1. f_equal.
    rewrite <- (firstn_skipn len (skipn off cmd)) at 1. f_equal.
    now rewrite skipn_add. }
  assert (L1 : length (firstn off cmd) = off) by (rewrite firstn_length; lia).
  assert (L2 : length (view_bytes cmd (View off len)) = len).
  { unfold view_bytes. simpl. rewrite firstn_length, skipn_length. lia. }
  rewrite <- L1 at 1. rewrite <- L2 at 1.
  apply shows_part with (after := skipn (off + len) cmd). rewrite <- E. exact H.
Qed.

Lemma Forall2_map_both {A B C} (R : B -> C -> Prop) (f : A -> B) (g : A -> C) l :
  (forall x, In x l -> R (f x) (g x)) -> Forall2 R (map f l) (map g l).
Proof. induction l; simpl; intros H; constructor; auto. Qed.

Lemma Forall2_same_length {A B} (R : A -> B -> Prop) l l' : Forall2 R l l' -> length l = length l'.
Proof. induction 1; simpl; congruence. Qed.

(** * Values *)

Definition ext (m m' : mem) : Prop :=
  m_texts m' = m_texts m /\ exists l, m_values m' = m_values m ++ l.

Lemma ext_refl m : ext m m.
Proof. split; [reflexivity|]. exists []. now rewrite app_nil_r. Qed.
Lemma ext_trans a b c : ext a b -> ext b c -> ext a c.
Proof.
  intros [T1 [l1 V1]] [T2 [l2 V2]]. split; [congruence|].
  exists (l1 ++ l2). now rewrite V2, V1, app_assoc.
Qed.

Local Arguments new_value : simpl never.
Local Arguments mismatch : simpl never.
Local Arguments lit : simpl never.

Lemma ext_new m vs : ext m (fst (new_value m vs)).
Proof. split; [reflexivity|]. simpl. eauto. Qed.

Lemma deref_ext m m' r vs : ext m m' -> deref m r = Done vs -> deref m' r = Done vs.
Proof.
  intros [_ [l V]]. unfold deref. rewrite V. intros H.
  destruct (nth_error (m_values m) r) eqn:E; [|discriminate].
  rewrite nth_error_app1; [now rewrite E|]. apply nth_error_Some. congruence.
Qed.

Lemma deref_new m vs : deref (fst (new_value m vs)) (snd (new_value m vs)) = Done vs.
Proof.
  unfold deref. simpl. rewrite nth_error_app2 by lia. now rewrite Nat.sub_diag.
Qed.

Lemma set_nth_app_r {A} (l r : list A) i x :
  length l <= i -> set_nth (l ++ r) i x = l ++ set_nth r (i - length l) x.
Proof.
  revert i. induction l as [|y l IH]; simpl; intros i H; [now rewrite Nat.sub_0_r|].
  destruct i; [lia|]. simpl. now rewrite IH by lia.
Qed.

(** Freeing what was created since. *)
Lemma ext_free m m' r : length (m_values m) <= r -> ext m m' -> ext m (free_value m' r).
Proof.
  intros L [T [l V]]. split; [exact T|]. simpl. rewrite V, set_nth_app_r by exact L. eauto.
Qed.

Lemma deref_free m r : r < length (m_values m) -> deref (free_value m r) r = Fault UseAfterFree.
Proof.
  intros L. unfold deref, free_value. simpl.
  destruct (nth_error (m_values m) r) as [y|] eqn:E.
  - rewrite (set_nth_same _ _ None y E). reflexivity.
  - apply nth_error_None in E. lia.
Qed.

Lemma ext_len m m' : ext m m' -> length (m_values m) <= length (m_values m').
Proof. intros [_ [l ->]]. rewrite app_length. lia. Qed.

(** * Conversions *)

Lemma take_any m m' t c : without_value t -> take m t c = take m' t c.
Proof. now destruct t. Qed.

Lemma name_by_value t : tname (by_value t) = type_name t.
Proof. induction t; simpl; try reflexivity; now rewrite IHt. Qed.

(** [from] behaves on live inputs like the conversion by value. *)
Definition converts_like (t : ty) (from : mem -> nat -> outcome (mem * expected (converted t))) : Prop :=
  forall m r vs bs, deref m r = Done vs -> Forall2 (shows (m_texts m)) vs bs ->
  exists m' e, from m r = Done (m', e) /\ ext m m' /\
    match e with
    | Error d => from_value (by_value t) bs = Error d
    | Value c => exists o y, take m' t c = Done o /\ denotes (m_texts m) t o y /\
                             from_value (by_value t) bs = Value y
    end.

Lemma Forall2_snoc {A B} (R : A -> B -> Prop) l l' x y :
  Forall2 R l l' -> R x y -> Forall2 R (l ++ [x]) (l' ++ [y]).
Proof. intros H Hx. apply Forall2_app; auto. Qed.

Lemma vector_from_ok t from name input vs bs :
  without_value t -> converts_like t from ->
  forall rest rbs m acc acc',
  deref m input = Done vs -> Forall2 (shows (m_texts m)) vs bs ->
  Forall2 (shows (m_texts m)) rest rbs -> Forall2 (denotes (m_texts m) t) acc acc' ->
  exists m' e, vector_from t from name input m rest acc = Done (m', e) /\ ext m m' /\
    match e with
    | Error d => vector_loop (by_value t) name bs rbs acc' = Error d
    | Value o => exists y, Forall2 (denotes (m_texts m) t) o y /\
                           vector_loop (by_value t) name bs rbs acc' = Value y
    end.
Proof.
  intros Nv C rest. induction rest as [|v rest IH]; intros rbs m acc acc' Hd Hv Hr Ha.
  - inversion Hr; subst. exists m, (Value acc). split; [reflexivity|]. split; [apply ext_refl|].
    exists acc'. auto.
  - inversion Hr as [|? b ? rbs' Hb Hr']; subst. cbn [vector_from].
    pose proof (ext_new m [v]) as X. destruct (new_value m [v]) as [m1 tmp] eqn:En. simpl fst in X.
    assert (Ht : deref m1 tmp = Done [v]).
    { pose proof (deref_new m [v]) as D. now rewrite En in D. }
    assert (Lt : length (m_values m) <= tmp) by (unfold new_value in En; inversion En; lia).
    destruct X as [XT XV].
    destruct (C m1 tmp [v] [b] Ht) as (m2 & e & E & X2 & Q).
    { rewrite XT. auto. }
    rewrite E. cbn [bind].
    assert (X3 : ext m (free_value m2 tmp)).
    { apply ext_free; [exact Lt|]. eapply ext_trans; [split; [exact XT|exact XV]|exact X2]. }
    assert (T3 := proj1 X3).
    destruct e as [c|d].
    + destruct Q as (o & y & Tk & Dn & Fv). rewrite XT in Dn.
      rewrite (take_any _ m2) by exact Nv. rewrite Tk. cbn [bind vector_loop]. rewrite Fv.
      destruct (IH rbs' (free_value m2 tmp) (acc ++ [o]) (acc' ++ [y])) as (m4 & e4 & E4 & X4 & Q4).
      * eapply deref_ext; eauto.
      * now rewrite T3.
      * now rewrite T3.
      * rewrite T3. now apply Forall2_snoc.
      * exists m4, e4. split; [exact E4|]. split; [eapply ext_trans; eauto|].
        rewrite T3 in Q4. exact Q4.
    + rewrite (deref_ext _ _ _ _ X3 Hd). cbn [bind].
      rewrite (read_all_shows (free_value m2 tmp) vs bs) by now rewrite T3. cbn [bind].
      eexists _, _. split; [reflexivity|]. split; [exact X3|].
      simpl. now rewrite Q.
Qed.

Lemma converts_ok t : without_value t -> converts_like t (fromString t).
Proof.
  induction t as [T| | | |t IH|t IH]; intros Nv m r vs bs Hd Hv; simpl in Nv.
  - simpl. rewrite Hd. simpl. rewrite (read_all_shows _ _ _ Hv). simpl.
    eexists m, _. split; [reflexivity|]. split; [apply ext_refl|].
    destruct (from_value T bs); eauto.
  - simpl. rewrite Hd. simpl.
    assert (M : exists d, @mismatch bytes m (lit "string") vs = Done (m, Error d) /\
                (match bs with [_] => False | _ => True end ->
                 stringFromString bs = Error d)).
    { unfold mismatch. rewrite (read_all_shows _ _ _ Hv). cbn [bind]. eexists. split; [reflexivity|].
      destruct bs as [|b [|]]; simpl; intuition. }
    destruct M as (d & M1 & M2).
    inversion Hv as [|v b vs' bs' Hb Hv']; subst; [|inversion Hv' as [|v2 b2 vs2 bs2 Hb2 Hv2]; subst].
    + rewrite M1. exists m, (Error d). split; [reflexivity|]. split; [apply ext_refl|]. now apply M2.
    + rewrite (read_shows _ _ _ Hb). simpl. exists m, (Value b).
      split; [reflexivity|]. split; [apply ext_refl|]. exists b, b. auto.
    + rewrite M1. exists m, (Error d). split; [reflexivity|]. split; [apply ext_refl|]. now apply M2.
  - simpl. rewrite Hd. simpl.
    assert (M : exists d, @mismatch sview m (lit "string") vs = Done (m, Error d) /\
                (match bs with [_] => False | _ => True end ->
                 stringFromString bs = Error d)).
    { unfold mismatch. rewrite (read_all_shows _ _ _ Hv). cbn [bind]. eexists. split; [reflexivity|].
      destruct bs as [|b [|]]; simpl; intuition. }
    destruct M as (d & M1 & M2).
    inversion Hv as [|v b vs' bs' Hb Hv']; subst; [|inversion Hv' as [|v2 b2 vs2 bs2 Hb2 Hv2]; subst].
    + rewrite M1. exists m, (Error d). split; [reflexivity|]. split; [apply ext_refl|]. now apply M2.
    + exists m, (Value v). split; [reflexivity|]. split; [apply ext_refl|]. exists v, b. auto.
    + rewrite M1. exists m, (Error d). split; [reflexivity|]. split; [apply ext_refl|]. now apply M2.
  - easy.
  - cbn [fromString]. rewrite Hd. cbn [bind].
    destruct (vector_from_ok t (fromString t) (type_name (TVector t)) r vs bs Nv (IH Nv)
                vs bs m [] []) as (m' & e & E & X & Q); auto.
    exists m', e. split; [exact E|]. split; [exact X|].
    simpl in Q |- *. rewrite name_by_value. destruct e as [c|d]; [|exact Q].
    destruct Q as (y & D & L). exists c, y. auto.
  - cbn [fromString]. rewrite Hd. cbn [bind].
    inversion Hv as [|v b vs' bs' Hb Hv']; subst.
    + exists m, (Value None). split; [reflexivity|]. split; [apply ext_refl|]. exists None, None. simpl. auto.
    + rewrite (shows_len _ _ _ Hb). destruct b as [|b0 b]; cbn [Nat.eqb length].
      { exists m, (Value None). split; [reflexivity|]. split; [apply ext_refl|].
        exists None, None. simpl. auto. }
      pose proof (ext_new m [v]) as X. destruct (new_value m [v]) as [m1 tmp] eqn:En. simpl fst in X.
      assert (Ht : deref m1 tmp = Done [v]).
      { pose proof (deref_new m [v]) as D. now rewrite En in D. }
      assert (Lt : length (m_values m) <= tmp) by (unfold new_value in En; inversion En; lia).
      destruct X as [XT XV].
      destruct (IH Nv m1 tmp [v] [b0 :: b] Ht) as (m2 & e & E & X2 & Q).
      { rewrite XT. auto. }
      rewrite E. cbn [bind].
      assert (X3 : ext m (free_value m2 tmp)).
      { apply ext_free; [exact Lt|]. eapply ext_trans; [split; [exact XT|exact XV]|exact X2]. }
      assert (T3 := proj1 X3).
      destruct e as [c|d].
      * destruct Q as (o & y & Tk & Dn & Fv). rewrite XT in Dn.
        rewrite (take_any _ m2) by exact Nv. rewrite Tk. cbn [bind].
        eexists _, _. split; [reflexivity|]. split; [exact X3|]. exists (Some o), (Some y).
        split; [reflexivity|]. split; [exact Dn|].
        simpl. unfold bytes in *. now rewrite Fv.
      * rewrite (deref_ext _ _ _ _ X3 Hd). cbn [bind].
        rewrite (read_all_shows (free_value m2 tmp) (v :: vs') ((b0 :: b) :: bs')) by now rewrite T3.
        cbn [bind]. eexists _, _. split; [reflexivity|]. split; [exact X3|].
        simpl. unfold bytes in *. rewrite Q. now rewrite name_by_value.
Qed.

Lemma converts_outermost t : value_only_outermost t -> converts_like t (fromString t).
Proof.
  intros [->|Nv]; [|now apply converts_ok].
  intros m r vs bs Hd Hv. simpl. exists m, (Value r). split; [reflexivity|]. split; [apply ext_refl|].
  exists vs, bs. simpl. auto.
Qed.

(** * Printing *)

Lemma vector_to_ok m t :
  (forall o c, denotes (m_texts m) t o c -> toString m t o = Done (to_text (by_value t) c)) ->
  forall xs ys acc sep, Forall2 (denotes (m_texts m) t) xs ys ->
  vector_to t (toString m t) acc sep xs = Done (vector_text (by_value t) acc sep ys).
Proof.
  intros P xs ys acc sep H. revert acc sep. induction H as [|x y xs ys Hx _ IH]; intros; simpl; [reflexivity|].
  rewrite (P _ _ Hx). simpl. apply IH.
Qed.

Lemma toString_ok m t : forall o c,
  denotes (m_texts m) t o c -> toString m t o = Done (to_text (by_value t) c).
Proof.
  induction t as [T| | | |t IH|t IH]; simpl; intros o c H.
  - now subst.
  - now subst.
  - now apply read_shows.
  - now rewrite (read_all_shows _ _ _ H).
  - now apply vector_to_ok.
  - destruct o, c; try easy. now apply IH.
Qed.

(** * Changing texts *)

Lemma denotes_contained ts ts' t : self_contained t -> forall o c, denotes ts t o c -> denotes ts' t o c.
Proof.
  induction t as [T| | | |t IH|t IH]; simpl; intros S o c H; try easy.
  - induction H; constructor; auto.
  - destruct o, c; try easy. now apply IH.
Qed.

Lemma shows_more ts l v b : shows ts v b -> shows (ts ++ l) v b.
Proof.
  destruct 1 as [|i a b c H]; [constructor|]. apply shows_part with (after := c).
  rewrite nth_error_app1; [exact H|]. apply nth_error_Some. congruence.
Qed.

Lemma denotes_more ts l t : forall o c, denotes ts t o c -> denotes (ts ++ l) t o c.
Proof.
  induction t as [T| | | |t IH|t IH]; simpl; intros o c H; try easy.
  - now apply shows_more.
  - induction H; constructor; auto. now apply shows_more.
  - induction H; constructor; auto.
  - destruct o, c; try easy. now apply IH.
Qed.

Lemma self_contained_without t : self_contained t -> without_value t.
Proof. induction t; simpl; auto. Qed.

(** * Commands *)

Lemma new_values_ok args : forall m,
  ext m (fst (new_values m args)) /\
  (forall r, In r (snd (new_values m args)) -> length (m_values m) <= r) /\
  Forall2 (fun r a => deref (fst (new_values m args)) r = Done a) (snd (new_values m args)) args.
Proof.
  induction args as [|a args IH]; intros m; simpl.
  - split; [apply ext_refl|]. split; [easy|constructor].
  - destruct (IH (fst (new_value m a))) as (X & L & D).
    change (Mem (m_texts m) (m_values m ++ [Some a])) with (fst (new_value m a)).
    destruct (new_values (fst (new_value m a)) args) as [m2 is] eqn:E. simpl in X, L, D |- *.
    assert (X' : ext m m2).
    { eapply ext_trans; [apply (ext_new m a)|]. exact X. }
    split; [exact X'|]. split.
    + intros r [<-|H]; [lia|]. apply L in H. rewrite app_length in H. lia.
    + constructor; [|exact D]. eapply deref_ext; [exact X|]. apply (deref_new m a).
Qed.

Lemma ext_free_all refs : forall m m', (forall r, In r refs -> length (m_values m) <= r) ->
  ext m m' -> ext m (fold_left free_value refs m').
Proof.
  induction refs as [|r refs IH]; simpl; intros m m' H X; [exact X|].
  apply IH; [auto|]. apply ext_free; auto.
Qed.

Lemma arity_text name n : arity_message name [0; 1] n
  (lit "Wrong number of arguments to '" ++ c_str name ++ lit "': expected 0 or 1, got " ++ printf_zu n).
Proof.
  exists (c_str name), (enum_text [0; 1]), (printf_zu n).
  split; [apply before_nul_c_str|]. split; [apply enum_text_enumeration|].
  split; [apply printf_zu_canonical|reflexivity].
Qed.

Lemma invoke_ok m refs n t o c args bargs :
  value_only_outermost t -> denotes (m_texts m) t o c ->
  Forall2 (fun r a => deref m r = Done a) refs args ->
  Forall2 (Forall2 (shows (m_texts m))) args bargs ->
  exists o' c' m' es r,
    invoke_variable m refs (Var n t o) = Done (Var n t o', (m', es, r)) /\ ext m m' /\
    denotes (m_texts m) t o' c' /\ register (by_value t) n c bargs c' es r.
Proof.
  intros Ok D R A. unfold invoke_variable.
  inversion R as [|r a refs' args' Hr R']; subst.
  { inversion A; subst. simpl. rewrite (toString_ok _ _ _ _ D). simpl.
    exists o, c. eexists _, _, _. split; [reflexivity|]. split; [apply ext_refl|]. split; [exact D|constructor]. }
  inversion A as [|? b ? bargs' Ab A']; subst.
  inversion R' as [|r2 a2 refs2 args2 Hr2 R2]; subst.
  - inversion A'; subst. simpl.
    destruct (converts_outermost t Ok m r a b Hr Ab) as (m' & e & E & X & Q).
    rewrite E. simpl. destruct e as [y|d].
    + destruct Q as (v & z & Tk & Dv & Fv). rewrite Tk. simpl.
      rewrite (toString_ok m' t v z) by now rewrite (proj1 X). simpl.
      exists v, z. eexists _, _, _. split; [reflexivity|]. split; [exact X|]. split; [exact Dv|].
      now constructor.
    + exists o, c. eexists _, _, _. split; [reflexivity|]. split; [exact X|]. split; [exact D|].
      now constructor.
  - inversion A' as [|? b2 ? bargs2 Ab2 A2]; subst.
    exists o, c. eexists _, _, _. split; [reflexivity|]. split; [apply ext_refl|]. split; [exact D|].
    constructor.
    assert (L : length (b :: b2 :: bargs2) = length (r :: r2 :: refs2)).
    { simpl. do 2 f_equal. rewrite (Forall2_same_length _ _ _ R2). symmetry.
      apply (Forall2_same_length _ _ _ A2). }
    unfold value. rewrite L. apply arity_text.
Qed.

Lemma on_variable_ok m refs args bargs name : 
  Forall2 (fun r a => deref m r = Done a) refs args ->
  Forall2 (Forall2 (shows (m_texts m))) args bargs ->
  forall vars rs, Forall2 (holds (m_texts m)) vars rs ->
  Forall (fun x => value_only_outermost (x_type x)) vars ->
  (on_variable (invoke_variable m refs) vars name = Done None /\ ~ In name (map g_name rs)) \/
  (exists vars' m' es r rs1 t c c' rs2,
     on_variable (invoke_variable m refs) vars name = Done (Some (vars', (m', es, r))) /\
     ext m m' /\ rs = rs1 ++ Reg name t c :: rs2 /\ ~ In name (map g_name rs1) /\
     register (by_value t) name c bargs c' es r /\
     Forall2 (holds (m_texts m)) vars' (rs1 ++ Reg name t c' :: rs2) /\
     map x_type vars' = map x_type vars).
Proof.
  intros R A vars rs H. induction H as [|x g vars rs Hx Hr IH]; intros Ok.
  { left. simpl. auto. }
  inversion Ok as [|? ? Ok1 Ok2]; subst.
  destruct Hx as [n t o c D]. simpl.
  destruct (bytes_eqb_spec n name) as [->|Ne].
  - right. destruct (invoke_ok m refs name t o c args bargs Ok1 D R A)
      as (o' & c' & m' & es & r & E & X & D' & Rg).
    rewrite E. simpl. exists (Var name t o' :: vars), m', es, r, [], t, c, c', rs.
    split; [reflexivity|]. split; [exact X|]. split; [reflexivity|]. split; [easy|].
    split; [exact Rg|]. split; [|reflexivity]. simpl. constructor; [now constructor|].
    exact Hr.
  - destruct (IH Ok2) as [[E N]|(vars' & m' & es & r & rs1 & t1 & c1 & c1' & rs2 & E & X & Er & N & Rg & Hh & Ty)].
    + left. rewrite E. simpl. split; [reflexivity|]. intros [H|H]; [easy|now apply N].
    + right. rewrite E. simpl.
      exists (Var n t o :: vars'), m', es, r, (Reg n t c :: rs1), t1, c1, c1', rs2.
      split; [reflexivity|]. split; [exact X|]. split; [now rewrite Er|].
      split; [intros [H|H]; [easy|now apply N]|]. split; [exact Rg|].
      split; [constructor; [now constructor|exact Hh]|]. simpl. now f_equal.
Qed.

Lemma parse_input_cases sg cfg cmd p : parse_input sg cfg cmd = Done p ->
  (exists e, p = Error e /\ parse sg cfg cmd = Done (Error e)) \/
  (exists vi, p = Value (resolve cmd vi) /\ parse sg cfg cmd = Done (Value vi)).
Proof.
  unfold parse_input. destruct (parse sg cfg cmd) as [[vi|e]|f]; cbn [bind]; intros H; inversion H; eauto.
Qed.

Lemma unknown_text name : unknown_message name (lit "No function '" ++ c_str name ++ lit "' is registered").
Proof. exists (c_str name). split; [apply before_nul_c_str|reflexivity]. Qed.

Lemma args_shown ts i cmd vi sg cfg : exists_text ts i cmd -> parse sg cfg cmd = Done (Value vi) ->
  shows ts (in_text i (vi_name vi)) (view_bytes cmd (vi_name vi)) /\
  Forall2 (Forall2 (shows ts)) (map (map (in_text i)) (vi_args vi))
          (map (map (view_bytes cmd)) (vi_args vi)).
Proof.
  intros H P. destruct (parse_views_inside _ _ _ _ P) as (Hn & Ha & _).
  split; [now apply view_shows|].
  apply Forall2_map_both. intros a Ia. apply Forall2_map_both. intros v Iv.
  apply view_shows; [exact H|]. eapply Ha; eauto.
Qed.

Section Execute.
Variable sg : bool.
Variable cfg : lexer_cfg.

Lemma execute_ok w i cmd p rs :
  exists_text (m_texts (w_mem w)) i cmd -> parse_input sg cfg cmd = Done p ->
  Forall2 (holds (m_texts (w_mem w))) (w_vars w) rs ->
  Forall (fun x => value_only_outermost (x_type x)) (w_vars w) ->
  exists w' res rs', execute sg cfg w i = Done (w', res) /\
    m_texts (w_mem w') = m_texts (w_mem w) /\
    replies sg cfg cmd rs rs' (vr_errors res) (vr_return res) /\
    Forall2 (holds (m_texts (w_mem w))) (w_vars w') rs' /\
    map x_type (w_vars w') = map x_type (w_vars w).
Proof.
  intros He Hp Hh Ok. unfold execute. rewrite He.
  destruct (parse_input_cases _ _ _ _ Hp) as [(e & -> & E)|(vi & -> & E)]; rewrite E; cbn [bind].
  - eexists w, _, rs. split; [reflexivity|]. split; [reflexivity|].
    split; [now constructor|]. auto.
  - destruct (args_shown _ _ _ _ _ _ He E) as [Sn Sa].
    destruct (new_values_ok (map (map (in_text i)) (vi_args vi)) (w_mem w)) as (X & L & D).
    destruct (new_values (w_mem w) (map (map (in_text i)) (vi_args vi))) as [m refs] eqn:En.
    cbn [fst snd] in X, L, D.
    assert (T := proj1 X).
    rewrite (read_shows m _ (view_bytes cmd (vi_name vi))) by now rewrite T. cbn [bind].
    destruct (view_bytes cmd (vi_name vi)) as [|n0 n] eqn:Nm.
    { eexists (World (fold_left free_value refs m) (w_vars w)), _, rs.
      split; [reflexivity|]. cbn [w_mem w_vars vr_errors vr_return].
      split; [exact (proj1 (ext_free_all refs _ _ L X))|].
      split; [eapply replies_no_name; [exact Hp|exact Nm]|]. auto. }
    assert (Ne : i_name (resolve cmd vi) <> []) by (simpl; rewrite Nm; discriminate).
    assert (En' : i_name (resolve cmd vi) = n0 :: n) by exact Nm.
    destruct (on_variable_ok m refs (map (map (in_text i)) (vi_args vi))
                (map (map (view_bytes cmd)) (vi_args vi)) (n0 :: n) D) with (vars := w_vars w) (rs := rs)
      as [[E1 N1]|(vars' & m' & es & r & rs1 & t & c & c' & rs2 & E1 & X1 & Er & N1 & Rg & Hh' & Ty)].
    + now rewrite T.
    + now rewrite T.
    + exact Ok.
    + rewrite E1. cbn [bind].
      eexists (World (fold_left free_value refs m) (w_vars w)), _, rs.
      split; [reflexivity|]. cbn [w_mem w_vars vr_errors vr_return].
      split; [exact (proj1 (ext_free_all refs _ _ L X))|].
      split; [|auto].
      eapply replies_unknown; [exact Hp|exact Ne| |]; rewrite En'; [exact N1|].
      apply unknown_text.
    + rewrite E1. cbn [bind].
      eexists (World (fold_left free_value refs m') vars'), _, (rs1 ++ Reg (n0 :: n) t c' :: rs2).
      split; [reflexivity|]. cbn [w_mem w_vars vr_errors vr_return].
      split; [exact (proj1 (ext_free_all refs _ _ L (ext_trans _ _ _ X X1)))|].
      split; [|split; [now rewrite <- T|exact Ty]].
      rewrite Er, <- En'. apply replies_register; [exact Hp|exact Ne|now rewrite En'|].
      rewrite En'. exact Rg.
Qed.

(** A session in which no variable can be hurt. *)
Lemma session_ok ops : forall w kept rs,
  Forall2 (holds (m_texts (w_mem w))) (w_vars w) rs ->
  (Forall self_contained (map x_type (w_vars w)) \/
   (Forall value_only_outermost (map x_type (w_vars w)) /\ texts_kept ops)) ->
  proper sg cfg (m_texts (w_mem w)) ops ->
  exists w' kept' obs rs', session sg cfg w kept ops = Done (w', kept', obs) /\
    serves sg cfg (m_texts (w_mem w)) rs ops obs rs' /\
    m_texts (w_mem w') = final_texts (m_texts (w_mem w)) ops /\
    Forall2 (holds (m_texts (w_mem w'))) (w_vars w') rs'.
Proof.
  assert (Ch : forall ts ts' vars rs, Forall self_contained (map x_type vars) ->
                 Forall2 (holds ts) vars rs -> Forall2 (holds ts') vars rs).
  { intros ts ts' vars rs S H. induction H as [|x g vars rs Hx _ IH]; constructor.
    - inversion S; subst. destruct Hx. constructor. eapply denotes_contained; eauto.
    - apply IH. now inversion S. }
  induction ops as [|o ops IH]; intros w kept rs Hh Ty Pr.
  { exists w, kept, [], rs. repeat split; auto. constructor. }
  destruct o as [b|i b|i|i|k]; simpl in Pr.
  - destruct (IH (World (Mem (m_texts (w_mem w) ++ [Some b]) (m_values (w_mem w))) (w_vars w)) kept rs)
      as (w' & k' & obs & rs' & E & Sv & Tx & H'); simpl.
    + clear -Hh. induction Hh as [|x g vars rs Hx _ IH]; constructor; auto.
      destruct Hx. constructor. now apply denotes_more.
    + destruct Ty as [Ty|[Ty Tk]]; auto.
    + exact Pr.
    + simpl in *. rewrite E. cbn [bind].
      exists w', k', obs, rs'. repeat split; auto. now constructor.
  - destruct Pr as [(b' & Hb) Pr]. destruct Ty as [Ty|[_ []]].
    destruct (IH (World (set_text (w_mem w) i (Some b)) (w_vars w)) kept rs)
      as (w' & k' & obs & rs' & E & Sv & Tx & H'); simpl; auto.
    + eapply Ch; eauto.
    + simpl. unfold alive. rewrite Hb. cbn [bind]. rewrite E. cbn [bind].
      exists w', k', obs, rs'. repeat split; auto. now constructor.
  - destruct Pr as [(b' & Hb) Pr]. destruct Ty as [Ty|[_ []]].
    destruct (IH (World (set_text (w_mem w) i None) (w_vars w)) kept rs)
      as (w' & k' & obs & rs' & E & Sv & Tx & H'); simpl; auto.
    + eapply Ch; eauto.
    + simpl. unfold alive. rewrite Hb. cbn [bind]. rewrite E. cbn [bind].
      exists w', k', obs, rs'. repeat split; auto. now constructor.
  - destruct Pr as [(cmd & p & Hb & Hp) Pr].
    destruct (execute_ok w i cmd p rs Hb Hp Hh) as (w1 & res & rs1 & E1 & T1 & R1 & H1 & Ty1).
    { rewrite <- Forall_map. destruct Ty as [Ty|[Ty _]]; [|exact Ty].
      eapply Forall_impl; [|exact Ty]. intros t Ht. right. now apply self_contained_without. }
    destruct (IH w1 (kept ++ [res]) rs1) as (w' & k' & obs & rs' & E & Sv & Tx & H').
    + now rewrite T1.
    + rewrite Ty1. destruct Ty as [Ty|[Ty Tk]]; auto.
    + now rewrite T1.
    + simpl. rewrite E1. cbn [bind fst snd]. rewrite E. cbn [bind].
      rewrite T1 in Sv, Tx.
      exists w', k', (SAnswer (vr_errors res) (vr_return res) :: obs), rs'.
      repeat split; auto. econstructor; eauto.
  - easy.
Qed.
End Execute.

(** * Looking at old results *)

Lemma resolve_args ts i cmd l : exists_text ts i cmd ->
  (forall a, In a l -> forall v, In v a -> v_off v + v_len v <= length cmd) ->
  forall m, m_texts m = ts -> read_args m (map (map (in_text i)) l) = Done (map (map (view_bytes cmd)) l).
Proof.
  intros H. induction l as [|a l IH]; simpl; intros Hl m Tm; [reflexivity|].
  rewrite (read_all_shows m _ (map (view_bytes cmd) a)).
  - cbn [bind]. rewrite (IH (fun a I => Hl a (or_intror I)) m Tm). reflexivity.
  - rewrite Tm. apply Forall2_map_both. intros v Iv. apply view_shows; [exact H|].
    apply (Hl a); auto.
Qed.

Lemma resolve_named ts i cmd l : exists_text ts i cmd ->
  (forall k a, In (k, a) l -> v_off k + v_len k <= length cmd /\
     forall v, In v a -> v_off v + v_len v <= length cmd) ->
  forall m, m_texts m = ts ->
  read_named m (map (fun kv => (in_text i (fst kv), map (in_text i) (snd kv))) l) =
  Done (map (fun kv => (view_bytes cmd (fst kv), map (view_bytes cmd) (snd kv))) l).
Proof.
  intros H. induction l as [|[k a] l IH]; simpl; intros Hl m Tm; [reflexivity|].
  destruct (Hl k a (or_introl eq_refl)) as [Hk Ha].
  rewrite (read_shows m _ (view_bytes cmd k)) by (rewrite Tm; now apply view_shows). cbn [bind].
  rewrite (read_all_shows m _ (map (view_bytes cmd) a)).
  - cbn [bind]. rewrite IH; auto.
  - rewrite Tm. apply Forall2_map_both. intros v Iv. apply view_shows; auto.
Qed.

(** The result of a command holds the views the lexer made. *)
Lemma execute_views sg cfg w i cmd vi w' r :
  exists_text (m_texts (w_mem w)) i cmd -> parse sg cfg cmd = Done (Value vi) ->
  execute sg cfg w i = Done (w', r) ->
  vr_name r = in_text i (vi_name vi) /\ vr_args r = map (map (in_text i)) (vi_args vi) /\
  vr_named r = map (fun kv => (in_text i (fst kv), map (in_text i) (snd kv))) (vi_named vi).
Proof.
  intros He P. unfold execute. rewrite He, P. cbn [bind].
  destruct (new_values _ _) as [m refs].
  destruct (read_view m _) as [[|n0 n]|f]; cbn [bind]; intros H; try discriminate.
  - inversion H; subst. auto.
  - destruct (on_variable _ _ _) as [[[vars [[m' es] t]]|]|f]; cbn [bind] in H; inversion H; subst; auto.
Qed.

Lemma look_kept sg cfg cmd vi i m r :
  parse sg cfg cmd = Done (Value vi) -> exists_text (m_texts m) i cmd ->
  vr_name r = in_text i (vi_name vi) -> vr_args r = map (map (in_text i)) (vi_args vi) ->
  vr_named r = map (fun kv => (in_text i (fst kv), map (in_text i) (snd kv))) (vi_named vi) ->
  look m r = Done (resolve cmd vi).
Proof.
  intros P H N A K. destruct (parse_views_inside _ _ _ _ P) as (Hn & Ha & Hk).
  unfold look. rewrite N, A, K.
  rewrite (read_shows m _ (view_bytes cmd (vi_name vi))) by now apply view_shows. cbn [bind].
  rewrite (resolve_args _ i cmd (vi_args vi) H Ha m eq_refl). cbn [bind].
  rewrite (resolve_named _ i cmd (vi_named vi) H Hk m eq_refl). reflexivity.
Qed.

(** Reading through views of a text that is gone. *)
Lemma read_gone m i v cmd : nth_error (m_texts m) i = Some None -> v_off v + v_len v <= length cmd ->
  read_view m (in_text i v) =
  match view_bytes cmd v with [] => Done [] | _ => Fault UseAfterFree end.
Proof.
  intros H L. unfold read_view, in_text. simpl.
  assert (Lb : length (view_bytes cmd v) = v_len v).
  { unfold view_bytes. rewrite firstn_length, skipn_length. lia. }
  destruct (view_bytes cmd v); simpl in Lb; rewrite <- Lb; simpl; [reflexivity|]. now rewrite H.
Qed.

Definition all_empty (l : list bytes) : Prop := forall b, In b l -> b = [].

Lemma read_all_gone m i cmd l : nth_error (m_texts m) i = Some None ->
  (forall v, In v l -> v_off v + v_len v <= length cmd) ->
  (read_all m (map (in_text i) l) = Fault UseAfterFree /\
     exists b, In b (map (view_bytes cmd) l) /\ b <> []) \/
  (read_all m (map (in_text i) l) = Done (map (view_bytes cmd) l) /\
     all_empty (map (view_bytes cmd) l)).
Proof.
  intros H. induction l as [|v l IH]; simpl; intros Hl.
  { right. split; [reflexivity|]. now intros b []. }
  rewrite (read_gone m i v cmd H (Hl v (or_introl eq_refl))).
  destruct (view_bytes cmd v) eqn:Ev; cbn [bind].
  - destruct (IH (fun v I => Hl v (or_intror I))) as [[E (b & Ib & Nb)]|[E N]]; rewrite E; cbn [bind].
    + left. split; [reflexivity|]. exists b. auto.
    + right. split; [reflexivity|]. intros b [<-|Ib]; [reflexivity|auto].
  - left. split; [reflexivity|]. eexists. split; [left; reflexivity|discriminate].
Qed.

Lemma read_args_gone m i cmd l : nth_error (m_texts m) i = Some None ->
  (forall a, In a l -> forall v, In v a -> v_off v + v_len v <= length cmd) ->
  (read_args m (map (map (in_text i)) l) = Fault UseAfterFree /\
     exists a b, In a (map (map (view_bytes cmd)) l) /\ In b a /\ b <> []) \/
  (read_args m (map (map (in_text i)) l) = Done (map (map (view_bytes cmd)) l) /\
     forall a, In a (map (map (view_bytes cmd)) l) -> all_empty a).
Proof.
  intros H. induction l as [|a l IH]; simpl; intros Hl.
  { right. split; [reflexivity|]. now intros b []. }
  destruct (read_all_gone m i cmd a H (Hl a (or_introl eq_refl))) as [[E (b & Ib & Nb)]|[E N]];
    rewrite E; cbn [bind].
  { left. split; [reflexivity|]. exists (map (view_bytes cmd) a), b. auto. }
  destruct (IH (fun v I => Hl v (or_intror I))) as [[E' (a' & b & Ia & Ib & Nb)]|[E' N']];
    rewrite E'; cbn [bind].
  - left. split; [reflexivity|]. exists a', b. auto.
  - right. split; [reflexivity|]. intros x [<-|Ix]; auto.
Qed.

Lemma read_named_gone m i cmd l : nth_error (m_texts m) i = Some None ->
  (forall k a, In (k, a) l -> v_off k + v_len k <= length cmd /\
     forall v, In v a -> v_off v + v_len v <= length cmd) ->
  let shown := map (fun kv => (view_bytes cmd (fst kv), map (view_bytes cmd) (snd kv))) l in
  let views := map (fun kv => (in_text i (fst kv), map (in_text i) (snd kv))) l in
  (read_named m views = Fault UseAfterFree /\
     exists k a, In (k, a) shown /\ (k <> [] \/ exists b, In b a /\ b <> [])) \/
  (read_named m views = Done shown /\ forall k a, In (k, a) shown -> k = [] /\ all_empty a).
Proof.
  intros H. induction l as [|[k a] l IH]; simpl; intros Hl.
  { right. split; [reflexivity|]. now intros k a []. }
  destruct (Hl k a (or_introl eq_refl)) as [Hk Ha].
  rewrite (read_gone m i k cmd H Hk).
  destruct (view_bytes cmd k) eqn:Ek; cbn [bind].
  2:{ left. split; [reflexivity|]. eexists _, _. split; [left; reflexivity|]. left. discriminate. }
  destruct (read_all_gone m i cmd a H Ha) as [[E (b & Ib & Nb)]|[E N]]; rewrite E; cbn [bind].
  { left. split; [reflexivity|]. eexists _, _. split; [left; reflexivity|]. right. eauto. }
  destruct (IH (fun k' a' I => Hl k' a' (or_intror I))) as [[E' (k' & a' & Ia & Nb)]|[E' N']];
    rewrite E'; cbn [bind].
  - left. split; [reflexivity|]. exists k', a'. auto.
  - right. split; [reflexivity|]. intros k' a' [I|I]; [inversion I; subst; auto|auto].
Qed.

Lemma look_gone sg cfg cmd vi i m r :
  parse sg cfg cmd = Done (Value vi) -> nth_error (m_texts m) i = Some None ->
  vr_name r = in_text i (vi_name vi) -> vr_args r = map (map (in_text i)) (vi_args vi) ->
  vr_named r = map (fun kv => (in_text i (fst kv), map (in_text i) (snd kv))) (vi_named vi) ->
  (look m r = Fault UseAfterFree /\ some_text (resolve cmd vi)) \/
  (look m r = Done (resolve cmd vi) /\ ~ some_text (resolve cmd vi)).
Proof.
  intros P H N A K. destruct (parse_views_inside _ _ _ _ P) as (Hn & Ha & Hk).
  unfold look. rewrite N, A, K. rewrite (read_gone m i _ cmd H Hn).
  destruct (view_bytes cmd (vi_name vi)) as [|n0 n] eqn:En; cbn [bind].
  2:{ left. split; [reflexivity|]. left. simpl. rewrite En. discriminate. }
  destruct (read_args_gone m i cmd (vi_args vi) H Ha) as [[E (a & b & Ia & Ib & Nb)]|[E Na]];
    rewrite E; cbn [bind].
  { left. split; [reflexivity|]. right. left. exists a, b. auto. }
  destruct (read_named_gone m i cmd (vi_named vi) H Hk) as [[E' (k & a & Ia & Nb)]|[E' Nk]];
    rewrite E'; cbn [bind].
  - left. split; [reflexivity|]. right. right. exists k, a. auto.
  - right. split; [unfold resolve; now rewrite En|].
    intros [S|[(a & b & Ia & Ib & Nb)|(k & a & Ia & S)]].
    + simpl in S. now rewrite En in S.
    + simpl in Ia. apply Nb. apply (Na a Ia b Ib).
    + simpl in Ia. destruct (Nk k a Ia) as [-> Nn]. destruct S as [S|(b & Ib & Nb)]; [easy|].
      apply Nb, (Nn b Ib).
Qed.

(** * Values inside vectors and optionals *)

Lemma vector_from_first t from name input m v rest acc :
  from (fst (new_value m [v])) (snd (new_value m [v])) = Fault UseAfterFree ->
  vector_from t from name input m (v :: rest) acc = Fault UseAfterFree.
Proof. intros H. cbn [vector_from]. destruct (new_value m [v]) as [m1 tmp]. simpl in H. now rewrite H. Qed.

Lemma nested_value_faults t : ~ without_value t -> t <> TValue ->
  forall m r v vs, deref m r = Done (v :: vs) -> v_len (sv_view v) <> 0 ->
  fromString t m r = Fault UseAfterFree.
Proof.
  induction t as [T| | | |t IH|t IH]; intros W N m r v vs Hd Hl;
    try (exfalso; simpl in W; tauto).
  - cbn [fromString]. rewrite Hd. cbn [bind].
    destruct t as [T| | | |t|t]; try (exfalso; simpl in W; tauto).
    + cbn [vector_from]. unfold new_value. cbn [fromString bind take].
      rewrite deref_free; [reflexivity|]. simpl. rewrite app_length. simpl. lia.
    + apply vector_from_first. eapply IH; [exact W|discriminate|apply deref_new|exact Hl].
    + apply vector_from_first. eapply IH; [exact W|discriminate|apply deref_new|exact Hl].
  - cbn [fromString]. rewrite Hd. cbn [bind].
    apply Nat.eqb_neq in Hl as Hl'. rewrite Hl'.
    pose proof (deref_new m [v]) as D. destruct (new_value m [v]) as [m1 tmp] eqn:En. simpl in D.
    destruct t as [T| | | |t|t]; try (exfalso; simpl in W; tauto).
    + cbn [fromString bind take]. inversion En; subst.
      rewrite deref_free; [reflexivity|]. simpl. rewrite app_length. simpl. lia.
    + rewrite (IH W ltac:(discriminate) m1 tmp v [] D Hl). reflexivity.
    + rewrite (IH W ltac:(discriminate) m1 tmp v [] D Hl). reflexivity.
Qed.

(** * Types with views are not safe *)

(** A conversion of one sub-value to a type with a view inside keeps the view: printing the
    object reads the text. *)
Lemma keeps_view t : without_value t -> ~ self_contained t ->
  forall m r v, deref m r = Done [v] -> v_len (sv_view v) <> 0 ->
  exists m' c o, fromString t m r = Done (m', Value c) /\ take m' t c = Done o /\
    forall m2, read_view m2 v = Fault UseAfterFree -> toString m2 t o = Fault UseAfterFree.
Proof.
  induction t as [T| | | |t IH|t IH]; intros W N m r v Hd Hl;
    try (exfalso; simpl in *; tauto).
  - simpl. rewrite Hd. simpl. exists m, v, v. auto.
  - cbn [fromString]. rewrite Hd. cbn [bind vector_from].
    pose proof (deref_new m [v]) as D. destruct (new_value m [v]) as [m1 tmp] eqn:En. simpl in D.
    destruct (IH W N m1 tmp v D Hl) as (m2 & c & o & E & Tk & P). rewrite E. cbn [bind].
    rewrite (take_any _ m2) by exact W. rewrite Tk. cbn [bind].
    exists (free_value m2 tmp), [o], [o]. split; [reflexivity|]. split; [reflexivity|].
    intros m3 H3. simpl. now rewrite (P m3 H3).
  - cbn [fromString]. rewrite Hd. cbn [bind]. apply Nat.eqb_neq in Hl as Hl'. rewrite Hl'.
    pose proof (deref_new m [v]) as D. destruct (new_value m [v]) as [m1 tmp] eqn:En. simpl in D.
    destruct (IH W N m1 tmp v D Hl) as (m2 & c & o & E & Tk & P). rewrite E. cbn [bind].
    rewrite (take_any _ m2) by exact W. rewrite Tk. cbn [bind].
    exists (free_value m2 tmp), (Some o), (Some o). split; [reflexivity|]. split; [reflexivity|].
    intros m3 H3. simpl. exact (P m3 H3).
Qed.

Lemma without_value_dec t : without_value t \/ ~ without_value t.
Proof. induction t; simpl; tauto. Qed.
Lemma self_contained_dec t : self_contained t \/ ~ self_contained t.
Proof. induction t; simpl; tauto. Qed.

(** A self-contained object always stands for a value. *)
Lemma contained_denotes ts t : self_contained t -> forall o, exists c, denotes ts t o c.
Proof.
  induction t as [T| | | |t IH|t IH]; simpl; intros S o; try easy; eauto.
  - induction o as [|x o IHo]; [now exists []|].
    destruct IHo as (c & Hc). destruct (IH S x) as (y & Hy). exists (y :: c). now constructor.
  - destruct o as [x|]; [|now exists None]. destruct (IH S x) as (y & Hy). now exists (Some y).
Qed.

Lemma contained_holds ts vars : Forall self_contained (map x_type vars) ->
  exists rs, Forall2 (holds ts) vars rs.
Proof.
  induction vars as [|[n t o] vars IH]; simpl; intros H; inversion H; subst; [now exists []|].
  destruct IH as (rs & Hr); [assumption|].
  destruct (contained_denotes ts t H2 o) as (c & Hc).
  exists (Reg n t c :: rs). constructor; [now constructor|exact Hr].
Qed.

Lemma uncontained_object t : ~ self_contained t -> inhabited (obj t).
Proof.
  destruct t; simpl; intros H; try tauto; constructor.
  - exact (SView 0 (View 0 0)).
  - exact [].
  - exact [].
  - exact None.
Qed.

(** A variable that keeps views, set from a text that is then freed. *)
Definition set_text_cmd : bytes := lit "v x".
Definition get_text_cmd : bytes := lit "v".
Definition fatal_session : list op :=
  [ONew set_text_cmd; ONew get_text_cmd; OExecute 0; OFree 0; OExecute 1].

Lemma parse_set sg :
  parse sg default_cfg set_text_cmd = Done (Value (VInput (View 0 1) [[View 2 1]] [])).
Proof. destruct sg; reflexivity. Qed.
Lemma parse_get sg : parse sg default_cfg get_text_cmd = Done (Value (VInput (View 0 1) [] [])).
Proof. destruct sg; reflexivity. Qed.

Lemma fatal_proper sg : proper sg default_cfg [] fatal_session.
Proof.
  simpl. repeat split; eauto.
  - exists set_text_cmd, (Value (Input (lit "v") [[lit "x"]] [])). split; [reflexivity|].
    destruct sg; reflexivity.
  - exists set_text_cmd. reflexivity.
  - exists get_text_cmd, (Value (Input (lit "v") [] [])). split; [reflexivity|].
    destruct sg; reflexivity.
Qed.

Lemma fatal sg t o : ~ self_contained t ->
  session sg default_cfg (World (Mem [] []) [Var (lit "v") t o]) [] fatal_session =
  Fault UseAfterFree.
Proof.
  intros N. unfold fatal_session.
  set (v := SView 0 (View 2 1)).
  set (m0 := Mem [Some set_text_cmd; Some get_text_cmd] []).
  set (m1 := Mem (m_texts m0) [Some [v]]).
  (* what happens to the variable when it is set *)
  assert (K : fromString t m1 0 = Fault UseAfterFree \/
    exists m' c o', fromString t m1 0 = Done (m', Value c) /\ take m' t c = Done o' /\
      m_texts m' = m_texts m0 /\ (exists s, toString m' t o' = Done s) /\
      forall m2, read_view m2 v = Fault UseAfterFree -> toString m2 t o' = Fault UseAfterFree).
  { assert (D : deref m1 0 = Done [v]) by reflexivity.
    assert (Sh : Forall2 (shows (m_texts m1)) [v] [lit "x"]).
    { constructor; [|constructor].
      apply (shows_part _ 0 (lit "v ") (lit "x") []). reflexivity. }
    destruct (without_value_dec t) as [W|W].
    - right. destruct (keeps_view t W N m1 0 v D) as (m' & c & o' & E & Tk & P); [discriminate|].
      destruct (converts_ok t W m1 0 [v] [lit "x"] D Sh) as (m2 & e & E2 & X & Q).
      rewrite E in E2. injection E2 as <- <-. destruct Q as (o2 & y & Tk2 & Dn & _).
      rewrite Tk in Tk2. injection Tk2 as <-.
      exists m', c, o'. split; [exact E|]. split; [exact Tk|]. split; [exact (proj1 X)|].
      split; [|exact P]. eexists. apply toString_ok. rewrite (proj1 X). exact Dn.
    - assert (C : t = TValue \/ t <> TValue) by (destruct t; auto; right; discriminate).
      destruct C as [->|Nt].
      + right. exists m1, 0, [v]. split; [reflexivity|]. split; [reflexivity|].
        split; [reflexivity|]. split; [exists (lit "x"); reflexivity|].
        intros m2 H2. simpl. now rewrite H2.
      + left. apply (nested_value_faults t W Nt m1 0 v []); [exact D|discriminate]. }
  cbn [session step w_mem w_vars m_texts m_values app bind].
  assert (E1 : execute sg default_cfg (World m0 [Var (lit "v") t o]) 0 =
    (r <- invoke_variable m1 [0] (Var (lit "v") t o) ;;
     Done (World (free_value (fst (fst (snd r))) 0) [fst r],
           VResult (SView 0 (View 0 1)) [[v]] [] (snd (fst (snd r))) (snd (snd r))))).
  { unfold execute. cbn [w_mem m0 m_texts nth_error]. rewrite parse_set.
    transitivity (r <- (y <- invoke_variable m1 [0] (Var (lit "v") t o) ;;
                        Done (Some ([fst y], snd y))) ;;
      match r with
      | None => Done (World (free_value m1 0) [Var (lit "v") t o],
                      VResult (SView 0 (View 0 1)) [[v]] []
                        [lit "No function '" ++ c_str (lit "v") ++ lit "' is registered"] None)
      | Some (vars, (m, es, t)) =>
          Done (World (free_value m 0) vars, VResult (SView 0 (View 0 1)) [[v]] [] es t)
      end); [reflexivity|].
    destruct (invoke_variable _ _ _) as [[x [[m es] r]]|f]; reflexivity. }
  fold m0. rewrite E1. clear E1. unfold invoke_variable. cbn [x_type x_obj x_name].
  destruct K as [K|(m' & c & o' & K1 & K2 & K3 & (s & K4) & K5)].
  { rewrite K. reflexivity. }
  destruct m' as [tx vals]. cbn [m_texts] in K3. subst tx.
  rewrite K1. cbn [bind]. rewrite K2. cbn [bind]. rewrite K4.
  cbn [bind fst snd w_mem w_vars free_value alive m_texts m_values m0 nth_error set_text set_nth].
  assert (E2 : forall vals, execute sg default_cfg
    (World (Mem [None; Some get_text_cmd] vals) [Var (lit "v") t o']) 1 = Fault UseAfterFree).
  { intros l. unfold execute. cbn [w_mem m_texts nth_error]. rewrite parse_get.
    cbn [bind vi_name vi_args vi_named map new_values].
    match goal with |- context [read_view ?m ?u] => change (read_view m u) with (Done (lit "v")) end.
    cbn [bind on_variable x_name w_vars]. change (lit "v") with (["v"%char] : bytes). cbv iota.
    cbn [bytes_eqb]. change (bytes_eqb ["v"%char] ["v"%char]) with true. cbv iota.
    cbn [invoke_variable x_type x_obj]. rewrite K5 by reflexivity. reflexivity. }
  unfold alive, set_text, free_value.
  cbn [w_mem w_vars m_texts m_values nth_error set_nth bind].
  rewrite E2. reflexivity.
Qed.
