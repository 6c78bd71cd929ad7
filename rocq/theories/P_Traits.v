(** C69: what can be bound, and what is recorded about it. *)
From Coq Require Import Bool PeanoNat Lia List.
From Verif Require Import Traits TraitsSpec TraitsProofs.
Import ListNotations.

(** * The type traits *)

(** DecayT gives the type of the values, for every type. *)
Theorem C69_decay : forall t, wf t ->
  (exists d, DecayT t = Some d) /\ (forall d, DecayT t = Some d <-> underlies d t).
Proof.
  intros t W. split.
  - destruct (Decay_underlies t W) as (d & E & _). eauto.
  - intros d. now apply Decay_iff.
Qed.

(** It is std::decay except for arrays and functions (and references to them). *)
Theorem C69_decay_std : forall t d, wf t -> DecayT t = Some d ->
  (std_decay t d <->
   match d with Ty _ _ (SArr _ _) | Ty _ _ (SFun _ _ _ _) => False | _ => True end).
Proof.
  intros t d W E. destruct (wf_cases t W) as (c & v & s & N & Ht).
  rewrite (Decay_of t c v s N Ht) in E. injection E as <-. split.
  - intros (u & Nu & Hu & Hd).
    assert (u = Ty c v s) as ->.
    { destruct Ht as [ -> | [ -> | -> ] ], Hu as [H|[H|H]]; unfold lref, rref, bare in H; subst;
        try reflexivity; try (injection H; intros; subst); try reflexivity;
        try (now destruct N); now destruct Nu. }
    destruct s; cbn in *; try exact I; discriminate.
  - intros H. exists (Ty c v s). split; [exact N|]. split; [exact Ht|].
    destruct s; cbn in *; try reflexivity; easy.
Qed.

Theorem C69_remove_cv : forall t d, RemoveCvT t = Some d <-> qualified d t.
Proof.
  intros [c v s] d. rewrite RemoveCv_eq. split.
  - intros [= <-]. now exists s, c, v.
  - intros (s' & c' & v' & -> & [= -> -> ->]). reflexivity.
Qed.

Theorem C69_remove_reference : forall t u, wf t ->
  (RemoveReferenceT t = Some u <-> t = lref u \/ t = rref u \/ (~ is_ref t /\ t = u)).
Proof.
  intros t u W. destruct (is_ref_dec t) as [R|N].
  - destruct t as [c v []]; try easy; inversion W; subst; cbn; split.
    + intros [= ->]. now left.
    + intros [H|[H|[H _]]]; [now injection H as ->|discriminate|tauto].
    + intros [= ->]. right. now left.
    + intros [H|[H|[H _]]]; [discriminate|now injection H as ->|tauto].
  - rewrite (RemoveReference_none t N). split.
    + intros [= ->]. auto.
    + intros [->|[->|[_ ->]]]; [now destruct N|now destruct N|reflexivity].
Qed.

Theorem C69_remove_pointer : forall t u,
  RemovePointerT t = Some u <->
  (exists c v, t = Ty c v (SPtr u)) \/ ((forall c v x, t <> Ty c v (SPtr x)) /\ t = u).
Proof.
  intros [c v s] u. destruct (is_ptr_dec s) as [(x & ->)|N].
  - rewrite RemovePointer_ptr. split.
    + intros [= ->]. left. eauto.
    + intros [(c' & v' & [= _ _ ->])|[H _]]; [reflexivity|now destruct (H c v x)].
  - rewrite (RemovePointer_none c v s N). split.
    + intros [= <-]. right. split; [|reflexivity]. intros c' v' x [= _ _ ->]. now destruct (N x).
    + intros [(c' & v' & [= _ _ ->])|[_ <-]]; [now destruct (N u)|reflexivity].
Qed.

Theorem C69_is : forall t u,
  (IsSameV t u = true <-> t = u) /\
  (IsVoidV t = Some true <-> is_void t) /\
  (IsConstV t = true <-> is_const t) /\
  (IsMemberPointerV t = true <-> exists n x, t = bare (SMem n x)).
Proof.
  intros [c v s] u. split; [apply IsSame_eq|]. rewrite IsVoid_eq, IsConst_eq. split; [|split].
  - split.
    + intros [= H]. apply same_shape_eq in H. now subst.
    + destruct s; cbn; tauto.
  - reflexivity.
  - unfold IsMemberPointerV, matches. destruct s; cbn;
      try (split; [discriminate|intros (n' & x & H); discriminate]).
    destruct c, v; cbn; split; try discriminate; try (intros (n' & x & H); discriminate).
    + eauto.
    + reflexivity.
Qed.

(** move gives an rvalue of the type referred to; forward<T> gives back what T was
    deduced from. *)
Theorem C69_move : forall t u, wf t ->
  (t = lref u \/ t = rref u \/ (~ is_ref t /\ t = u)) -> move_type t = Some (rref u).
Proof.
  intros t u W H. unfold move_type.
  rewrite (proj2 (C69_remove_reference t u W) H). cbn [obind].
  assert (N : ~ is_ref u).
  { destruct H as [->|[->|[N ->]]]; [inversion W; auto|inversion W; auto|exact N]. }
  f_equal. destruct u as [c v []]; cbn in *; try reflexivity; now destruct N.
Qed.

Theorem C69_forward : forall u, wf u -> ~ is_ref u ->
  forward_type (lref u) = lref u /\ forward_type u = rref u.
Proof.
  intros u W N. split; [reflexivity|].
  destruct u as [c v []]; cbn in *; try reflexivity; now destruct N.
Qed.

(** * Functors *)

(** add, operator= and overloaded take exactly what can be called as it is, with
    parameters that the library can fill and a result that it can show; they record
    exactly its description. *)
Theorem C69_add : forall w F m, wf_functor w F ->
  (add w F = Accepted m <-> exists ps R, callable w F ps R /\ described w ps R m).
Proof. intros w F m. apply add_ok. Qed.

(** A const object, a volatile object and an rvalue-only function: bind takes exactly
    the pointers to member functions that can be called on the object. *)
Theorem C69_bind : forall w F C m, wf_functor w F -> ~ is_void C ->
  (bind w F C = Accepted m <-> exists ps R, callable_on w F C ps R /\ described w ps R m).
Proof. intros w F C m. apply bind_ok. Qed.

(** With a void pointer, bind ignores the object. *)
Theorem C69_bind_void : forall w F C m, wf_functor w F -> is_void C ->
  (bind w F C = Accepted m <->
   (is_const C -> const_function w F) /\ exists ps R, callable w F ps R /\ described w ps R m).
Proof. intros w F C m. apply bind_void_ok. Qed.

(** When the static_asserts fire. *)
Theorem C69_add_asserted : forall w F, wf_functor w F ->
  (add w F = Asserted <-> ~ function_like w F).
Proof. intros w F. apply add_asserted. Qed.

Theorem C69_bind_asserted : forall w F C, wf_functor w F ->
  (bind w F C = Asserted <-> function_like w F /\ is_const C /\ ~ const_function w F).
Proof. intros w F C. apply bind_asserted. Qed.

(** What FuncTraits finds out, for the pointers to functions and to member functions
    with any qualifiers and for the objects. *)
Theorem C69_func_traits : forall w F, wf_functor w F ->
  (function_like w F ->
   exists t, FuncTraits w F = Some (Some t) /\ (t_const t = true <-> const_function w F) /\
     forall R, declared_result w F = Some R -> underlies (t_return t) R) /\
  (~ function_like w F -> FuncTraits w F = Some None).
Proof.
  intros w F WF. split.
  - intros H. apply function_like_sees in H; [|exact WF]. destruct H as (R & ps & k & H).
    destruct (sees_ok w F R ps k WF H) as (W & P & r & U & E & Ed).
    exists (Traits r ps k). split; [exact E|]. split; [now apply (const_function_sees w F R ps k)|].
    intros R' ER. rewrite Ed in ER. injection ER as <-. exact U.
  - intros H. apply sees_not; [exact WF|]. intros R ps k HS. apply H.
    apply function_like_sees; [exact WF|]. eauto.
Qed.

(** noexcept plays no part. *)
Theorem C69_noexcept : forall w R ps m c v r C a b,
  add w (ptr (bare (SFun R ps false (FQ false false RefNone a)))) =
  add w (ptr (bare (SFun R ps false (FQ false false RefNone b)))) /\
  bind w (bare (SMem m (bare (SFun R ps false (FQ c v r a))))) C =
  bind w (bare (SMem m (bare (SFun R ps false (FQ c v r b))))) C.
Proof.
  intros. split.
  - destruct a, b; reflexivity.
  - destruct a, b, c, v, r; reflexivity.
Qed.

(** arity() counts the parameters that are not a leading Context. *)
Theorem C69_arity : forall w F m, wf_functor w F -> add w F = Accepted m ->
  exists ps R, callable w F ps R /\
    length (m_params m) + (if m_context m then 1 else 0) = length ps.
Proof.
  intros w F m WF H. apply C69_add in H; [|exact WF]. destruct H as (ps & R & HC & HP & _).
  exists ps, R. split; [exact HC|].
  assert (L : forall l l', Forall2 (from_input w) l l' -> length l = length l').
  { intros l l' HF. induction HF; cbn; congruence. }
  inversion HP as [p ps' ns' Hp HF|ps' ns' Hn HF]; subst; cbn; apply L in HF; lia.
Qed.

(** A function that may change the object is never bound to a constant one, and one
    that is not volatile not to a volatile one. *)
Theorem C69_const_correct : forall w m R ps q c v n md,
  wf_functor w (bare (SMem m (bare (SFun R ps false q)))) ->
  bind w (bare (SMem m (bare (SFun R ps false q)))) (Ty c v (SObj n)) = Accepted md ->
  (c = true -> q_const q = true) /\ (v = true -> q_volatile q = true) /\ derives w n m = true.
Proof.
  intros w m R ps q c v n md WF H. apply C69_bind in H; [|exact WF|easy].
  destruct H as (ps' & R' & HC & _). inversion HC; subst. auto.
Qed.

(** * variable *)

Section Variables.
Variable w : world.

Lemma lambda_class n o : callops w n = [o] -> wf_op o -> wf_functor w (bare (SObj n)).
Proof. intros E W. cbn. rewrite E. constructor; [exact W|constructor]. Qed.

Lemma add_lambda n ps R m : callops w n = [lambda ps R] -> Forall plain_param ps -> wf R ->
  add w (bare (SObj n)) = Accepted m <-> described w ps R m.
Proof.
  intros E P W. rewrite C69_add.
  2:{ apply (lambda_class n (lambda ps R) E). split; [exact P|]. split; [exact W|]. discriminate. }
  split.
  - intros (ps' & R' & HC & HD).
    inversion HC as [|n' o' E' Et Es Ed Hq|n' o' E' Et Es Ed]; subst; rewrite E in E'; injection E' as <-.
    + exact HD.
    + discriminate Es.
  - intros HD. exists ps, R. split; [|exact HD].
    exact (call_object w n (lambda ps R) E eq_refl eq_refl eq_refl ltac:(discriminate)).
Qed.

Lemma parameters_nil ctx ns : parameters w [] ctx ns <-> ctx = false /\ ns = [].
Proof.
  split.
  - intros H. inversion H as [|ps ns' _ H2]; subst. inversion H2. auto.
  - intros [-> ->]. constructor; [discriminate|constructor].
Qed.

Lemma from_input_value s nm : wf (bare s) -> ~ is_ref (bare s) ->
  from_input w (bare s) nm <->
  type_name w (bare s) = Some nm /\ exists how, from_string w (bare s) = Some how.
Proof.
  intros W N. unfold from_input. split.
  - intros (T & how & U & _ & En & Eh).
    rewrite (underlies_of T (bare s) false false s N (or_introl eq_refl) U) in *. eauto.
  - intros (En & how & Eh). exists (bare s), how. split.
    + apply (underlies_intro _ false false s N). now left.
    + split; [now constructor|auto].
Qed.

Lemma from_input_const s nm : ~ is_ref (bare s) ->
  from_input w (lref (Ty true false s)) nm <->
  type_name w (bare s) = Some nm /\ exists how, from_string w (bare s) = Some how.
Proof.
  intros N. unfold from_input. split.
  - intros (T & how & U & _ & En & Eh).
    rewrite (underlies_of T _ true false s N (or_intror (or_introl eq_refl)) U) in *. eauto.
  - intros (En & how & Eh). exists (bare s), how. split.
    + apply (underlies_intro _ true false s N). auto.
    + split; [constructor|auto].
Qed.

Lemma parameters_one p nm ctx ns : ~ underlies Context p ->
  (forall n, from_input w p n <-> n = nm) ->
  parameters w [p] ctx ns <-> ctx = false /\ ns = [nm].
Proof.
  intros NC HI. split.
  - intros H. inversion H as [p' ps ns' Hp HF|ps ns' Hn HF]; subst.
    + destruct NC. inversion Hp; subst; [apply (underlies_intro _ false false (SObj o_context))|
        apply (underlies_intro _ true false (SObj o_context))|apply (underlies_intro _ c v (SObj o_context))];
        cbn; auto.
    + inversion HF as [|x y l l' Hx Hl]; subst. inversion Hl; subst. apply HI in Hx. now subst.
  - intros [-> ->]. constructor.
    + intros p' [= <-]. exact NC.
    + constructor; [now apply HI|constructor].
Qed.

Lemma wf_bare c v s : wf (Ty c v s) -> wf (bare s).
Proof. intros H. inversion H; subst; now constructor. Qed.

Lemma plain_value c v s : wf (Ty c v s) -> (forall e n, s <> SArr e n) -> plain_param (bare s).
Proof.
  intros W N. split; [exact (wf_bare c v s W)|]. exists s. split; [reflexivity|]. intros n e. apply N.
Qed.

Lemma wf_const c v s : wf (Ty c v s) -> ~ is_ref (bare s) -> (forall r a d q, s <> SFun r a d q) ->
  wf (Ty true v s).
Proof.
  intros W N F. inversion W; subst; try (now constructor); try (now destruct N).
  now destruct (F r args d q).
Qed.

Lemma wf_const_ref c v s : wf (Ty c v s) -> ~ is_ref (bare s) -> s <> SVoid ->
  (forall r a d q, s <> SFun r a d q) -> wf (lref (Ty true v s)).
Proof.
  intros W N V F. constructor; [exact (wf_const c v s W N F)|exact N|]. destruct s; cbn; congruence.
Qed.

Lemma add_const_eq c v s : ~ is_ref (bare s) -> (forall r a d q, s <> SFun r a d q) ->
  add_const (Ty c v s) = Ty true v s.
Proof. intros N F. destruct s; cbn in *; try reflexivity; try tauto. now destruct (F r args dots q). Qed.

Lemma adjust_eq c v s : (forall e n, s <> SArr e n) -> (forall r a d q, s <> SFun r a d q) ->
  adjust (Ty c v s) = bare s.
Proof. intros A F. destruct s; cbn; try reflexivity; [now destruct (A s len)|now destruct (F r args dots q)]. Qed.

(** Types of variables: not void, arrays, functions or references, and not a Context. *)
Definition variable_type (s : shape) : Prop :=
  match s with
  | SVoid | SArr _ _ | SFun _ _ _ _ | SLRef _ | SRRef _ => False
  | SObj n => n <> o_context
  | _ => True
  end.

Lemma variable_parts s : variable_type s ->
  ~ is_ref (bare s) /\ s <> SVoid /\ (forall e n, s <> SArr e n) /\
  (forall r a d q, s <> SFun r a d q) /\ s <> SObj o_context.
Proof. destruct s; cbn; intros H; repeat split; try tauto; congruence. Qed.

Lemma not_context s c v : ~ is_ref (bare s) -> s <> SObj o_context ->
  forall t, t = Ty c v s \/ t = lref (Ty c v s) \/ t = rref (Ty c v s) -> ~ underlies Context t.
Proof.
  intros N NC t Ht U. pose proof (underlies_of Context t c v s N Ht U) as E.
  injection E as E. now destruct NC.
Qed.

Lemma described_get R m : described w [] R m <->
  exists rn, result w R rn /\ m = Meta false [] rn.
Proof.
  unfold described. rewrite parameters_nil. destruct m as [mc mp mr]. cbn. split.
  - intros [[-> ->] H]. eauto.
  - intros (rn & H & [= -> -> ->]). auto.
Qed.

Lemma described_set p R m : ~ underlies Context p ->
  described w [p] R m <->
  exists nm rn, from_input w p nm /\ result w R rn /\ m = Meta false [nm] rn.
Proof.
  intros NC. unfold described. destruct m as [mc mp mr]. cbn. split.
  - intros [HP HR]. inversion HP as [p' ps ns Hp HF|ps ns Hn HF]; subst.
    + destruct NC. inversion Hp; subst; [apply (underlies_intro _ false false (SObj o_context))|
        apply (underlies_intro _ true false (SObj o_context))|apply (underlies_intro _ c v (SObj o_context))];
        cbn; auto.
    + inversion HF as [|x y l l' Hx Hl]; subst. inversion Hl; subst. eauto.
  - intros (nm & rn & HI & HR & [= -> -> ->]). split; [|exact HR]. constructor.
    + intros p' [= <-]. exact NC.
    + auto.
Qed.

Lemma described_context p R m :
  described w [Context; p] R m <->
  exists nm rn, from_input w p nm /\ result w R rn /\ m = Meta true [nm] rn.
Proof.
  unfold described. destruct m as [mc mp mr]. cbn. split.
  - intros [HP HR]. inversion HP as [p' ps ns Hp HF|ps ns Hn HF]; subst.
    + inversion HF as [|x y l l' Hx Hl]; subst. inversion Hl; subst. eauto.
    + destruct (Hn Context eq_refl). apply (underlies_intro _ false false (SObj o_context)); cbn; auto.
  - intros (nm & rn & HI & HR & [= -> -> ->]). split; [|exact HR]. constructor; [|auto].
    now apply (pass_value ByValue (SObj o_context)).
Qed.

Lemma plain_context : plain_param Context.
Proof. split; [constructor|]. exists (SObj o_context). split; [reflexivity|discriminate]. Qed.

End Variables.

(** variable(T* ) can be bound exactly if T has a name, can be read from a text and
    shown as one, also if the variable is constant and only the error is ever
    reported (then the functor has a Context). *)
Theorem C69_variable : forall w c v s g st n1 n2 m1 m2,
  wf (Ty c v s) -> variable_type s ->
  variable (ptr (Ty c v s)) = Some (g, st) -> callops w n1 = [g] -> callops w n2 = [st] ->
  (add w (bare (SObj n1)) = Accepted m1 /\ add w (bare (SObj n2)) = Accepted m2 <->
   exists nm how rn, type_name w (bare s) = Some nm /\ from_string w (bare s) = Some how /\
     result w (lref (Ty true v s)) rn /\ m1 = Meta false [] rn /\ m2 = Meta c [nm] rn).
Proof.
  intros w c v s g st n1 n2 m1 m2 W VT E E1 E2.
  destruct (variable_parts s VT) as (N & V & A & F & NC).
  pose proof (wf_const_ref c v s W N V F) as WR.
  pose proof (plain_value c v s W A) as PV.
  assert (EV : g = lambda [] (lref (Ty true v s)) /\
               st = lambda (if c then [Context; bare s] else [bare s]) (lref (Ty true v s))).
  { revert E. unfold variable, ptr, bare. destruct c; cbn [deduce negb orb andb].
    - rewrite andb_true_r.
      assert (X : match Ty false v s with Ty _ _ SVoid => @None (callop * callop) | _ =>
                Some (lambda [] (lref (add_const (Ty false v s))),
                      lambda [Context; adjust (Ty false v s)] (lref (add_const (Ty false v s)))) end =
                Some (lambda [] (lref (Ty true v s)), lambda [Context; bare s] (lref (Ty true v s)))).
      { rewrite (add_const_eq false v s N F), (adjust_eq false v s A F). destruct s; try reflexivity. now destruct V. }
      rewrite X. intros [= <- <-]. auto.
    - assert (X : match Ty false v s with Ty _ _ (SVoid | SArr _ _ | SFun _ _ _ _) => @None (callop * callop) | _ =>
                Some (lambda [] (lref (add_const (Ty false v s))),
                      lambda [adjust (Ty false v s)] (lref (add_const (Ty false v s)))) end =
                Some (lambda [] (lref (Ty true v s)), lambda [bare s] (lref (Ty true v s)))).
      { rewrite (add_const_eq false v s N F), (adjust_eq false v s A F).
        destruct s; try reflexivity; [now destruct V|now destruct (A s len)|now destruct (F r args dots q)]. }
      rewrite X. intros [= <- <-]. auto. }
  destruct EV as [-> ->].
  rewrite (add_lambda w n1 [] _ m1 E1 ltac:(constructor) WR), described_get.
  assert (HS : add w (bare (SObj n2)) = Accepted m2 <->
               exists nm rn, from_input w (bare s) nm /\ result w (lref (Ty true v s)) rn /\ m2 = Meta c [nm] rn).
  { destruct c.
    - rewrite (add_lambda w n2 [Context; bare s] _ m2 E2); [apply described_context| |exact WR].
      constructor; [apply plain_context|]. constructor; [exact PV|constructor].
    - rewrite (add_lambda w n2 [bare s] _ m2 E2); [apply described_set| |exact WR].
      + apply (not_context s false false N NC). now left.
      + constructor; [exact PV|constructor]. }
  rewrite HS. clear HS. split.
  - intros [(rn & HR & ->) (nm & rn' & HI & HR' & ->)].
    apply (from_input_value w s nm (wf_bare c v s W) N) in HI. destruct HI as (En & how & Eh).
    exists nm, how, rn'. repeat split; auto.
    f_equal. apply (build_result_ok w _ (bare s)) in HR, HR'; auto;
      try (apply (underlies_intro _ true v s N); auto). congruence.
  - intros (nm & how & rn & En & Eh & HR & -> & ->). split.
    + eauto.
    + exists nm, rn. split; [|auto]. apply (from_input_value w s nm (wf_bare c v s W) N). eauto.
Qed.

(** Only a pointer makes a variable; never one to void, to an array or to a function
    that may be written. *)
Theorem C69_variable_pointer : forall A p, wf A -> variable A = Some p ->
  exists c v T, A = Ty c v (SPtr T) /\ ~ is_void T /\
    (~ is_const T -> match T with Ty _ _ (SArr _ _ | SFun _ _ _ _) => False | _ => True end).
Proof.
  intros A p W H. destruct A as [c v s]. destruct s; try discriminate. exists c, v, t.
  split; [reflexivity|]. destruct t as [c' v' s]. cbn in H. destruct c'; cbn in H.
  - rewrite andb_true_r in H. destruct s; try discriminate; cbn; split; try easy; intros HC; now destruct HC.
  - destruct s; try discriminate; cbn; split; easy.
Qed.

(** * property and bindProperty *)

Section Properties.
Variable w : world.

Lemma const_call_ok F n R ps : wf F -> wf_functor w F ->
  const_call w F n = Some (R, ps) <-> const_callable w F ps R /\ length ps = n.
Proof.
  intros W WF. split.
  - destruct F as [c v s]. destruct c; [easy|]. destruct v; [easy|]. destruct s; try discriminate; cbn.
    + destruct (callops w n0) as [|o [|o' l]] eqn:E; try discriminate.
      destruct (o_static o || q_const (o_quals o) && negb (refq_eqb (q_ref (o_quals o)) RefR)) eqn:Eq; [|discriminate].
      destruct (o_template o) eqn:Et; [discriminate|]. cbn.
      destruct (length (o_params o) =? n) eqn:El; [|discriminate]. apply Nat.eqb_eq in El. intros [= <- <-].
      split; [|exact El]. apply (cc_object w n0 o E Et).
      apply orb_true_iff in Eq. destruct Eq as [Eq|Eq]; [now left|right].
      apply andb_true_iff in Eq. destruct Eq as [H1 H2]. split; [exact H1|].
      now apply refR_neq, negb_true_iff.
    + destruct t as [tc tv ts]. destruct ts; try discriminate.
      destruct (length args =? n) eqn:El; [|discriminate]. apply Nat.eqb_eq in El. intros [= <- <-].
      split; [|exact El]. inversion W as [| |c v t Wt Nt| | | | |]; subst. inversion Wt; subst. constructor.
  - intros [H L]. destruct H as [R ps d q|k o E Et Ho].
    + cbn. rewrite (proj2 (Nat.eqb_eq _ _) L). reflexivity.
    + cbn. rewrite E, Et, (proj2 (Nat.eqb_eq _ _) L).
      assert (o_static o || q_const (o_quals o) && negb (refq_eqb (q_ref (o_quals o)) RefR) = true) as ->.
      { destruct Ho as [->|[-> H]]; [reflexivity|]. apply refR_neq in H. rewrite H. apply orb_true_r. }
      reflexivity.
Qed.

Lemma const_callable_wf F ps R : wf_functor w F -> const_callable w F ps R -> wf R.
Proof.
  intros WF H. destruct H as [R ps d q|n o E Et Ho]; cbn in WF.
  - apply WF.
  - rewrite E in WF. inversion WF as [|x l (P & W & Q) _]; subst. exact W.
Qed.

Lemma simpleInvoke_ok F C n R ps : wf F -> ~ is_ref F -> wf_functor w F ->
  simpleInvoke w F C n = Some (R, ps) <-> invocable w F C ps R /\ length ps = n.
Proof.
  intros W N WF. unfold simpleInvoke.
  assert (ED : DecayT (lref (add_const F)) = Some F).
  { destruct F as [c v s]. destruct c; [easy|]. destruct v; [easy|].
    destruct s; try (now destruct N); apply Decay_l. }
  rewrite ED. cbn [obind].
  destruct (IsMemberPointerV F) eqn:EM.
  - apply (C69_is F F) in EM. destruct EM as (m & x & ->). cbn.
    inversion W as [| | | | |c v k t Wt Nt| |]; subst. destruct x as [xc xv xs].
    split.
    + destruct xs; try discriminate. destruct C as [c v s]. destruct s; try discriminate.
      match goal with |- (if ?b then _ else _) = _ -> _ => destruct b eqn:Eb; [|discriminate] end.
      rewrite !andb_true_iff, negb_true_iff, refR_neq, Nat.eqb_eq in Eb.
      destruct Eb as [[[[[E1 E2] E3] E4] E5] E6]. intros [= <- <-]. split; [|exact E6].
      inversion Wt; subst. constructor; auto; intros ->; [exact E3|exact E4].
    + intros [H L]. inversion H as [m' k c v R' ps' d q H1 H2 H3 H4 H5|F' C' p ps' R' HC Hp]; subst.
      * rewrite H1, H2, Nat.eqb_refl. apply refR_neq in H5. rewrite H5.
        destruct c, v; cbn; rewrite ?H3, ?H4 by reflexivity; reflexivity.
      * inversion HC.
  - split.
    + destruct (const_call w F (S n)) as [[R' [|p ps']]|] eqn:EC; try discriminate.
      destruct (converts w p (ptr C)) eqn:Ep; [|discriminate]. intros [= -> ->].
      apply (const_call_ok F (S n) R (p :: ps) W WF) in EC. destruct EC as [HC L]. cbn in L.
      split; [now apply (inv_other w F C p)|lia].
    + intros [H L]. inversion H as [m' k c v R' ps' d q H1 H2 H3 H4 H5|F' C' p ps' R' HC Hp]; subst.
      * discriminate.
      * assert (EC : const_call w F (S (length ps)) = Some (R, p :: ps))
          by (apply const_call_ok; auto).
        rewrite EC, Hp. reflexivity.
Qed.

Lemma invocable_wf F C ps R : wf_functor w F -> invocable w F C ps R -> wf R.
Proof.
  intros WF H. destruct H as [m n c v R ps d q H1 H2 H3 H4 H5|F C p ps R HC Hp].
  - apply WF.
  - exact (const_callable_wf F (p :: ps) R WF HC).
Qed.

Lemma decay_nonvoid R T : wf R -> DecayT R = Some T ->
  exists s, T = bare s /\ underlies (bare s) R /\ (referable T = true <-> s <> SVoid).
Proof.
  intros W E. destruct (wf_cases R W) as (c & v & s & N & HR).
  rewrite (Decay_of R c v s N HR) in E. injection E as <-. exists s. split; [reflexivity|].
  split; [now apply (underlies_intro R c v s)|].
  destruct s; cbn in *; split; try congruence; tauto.
Qed.

(** The lambdas of a property, from what the getter returns and the setter takes. *)
Lemma property_lambdas R T p g s : wf R -> DecayT R = Some T ->
  (forall r a d q, ~ underlies (bare (SFun r a d q)) R) ->
  (if referable T && converts w p T
   then Some (lambda [] R, lambda [lref (add_const T)] R) else None) = Some (g, s) <->
  property_functors w R p g s.
Proof.
  intros W E NF. destruct (decay_nonvoid R T W E) as (sh & -> & U & HV).
  assert (F : forall r a d q, sh <> SFun r a d q) by (intros r a d q ->; now destruct (NF r a d q)).
  change (bare sh) with (Ty false false sh) at 3.
  rewrite (add_const_eq false false sh (proj1 U) F).
  unfold property_functors. split.
  - destruct (referable (bare sh)) eqn:Er; [|discriminate]. destruct (converts w p (bare sh)) eqn:Ec; [|discriminate].
    intros [= <- <-]. exists sh. split; [exact U|]. split; [now apply HV|]. auto.
  - intros (sh' & U' & V & Ec & -> & ->).
    pose proof (underlies_unique (bare sh') (bare sh) R W U' U) as Es. injection Es as ->.
    rewrite (proj2 HV V), Ec. reflexivity.
Qed.

Theorem C69_property : forall G S g s, wf G -> wf S -> wf_functor w G -> wf_functor w S ->
  (forall R r a d q, const_callable w G [] R -> ~ underlies (bare (SFun r a d q)) R) ->
  (property w G S = Some (g, s) <->
   exists R p R', const_callable w G [] R /\ const_callable w S [p] R' /\ property_functors w R p g s).
Proof.
  intros G S g s WG WS FG FS NF. unfold property. split.
  - destruct (const_call w G 0) as [[R ps]|] eqn:EG; [|discriminate]. cbn [obind fst snd].
    apply (const_call_ok G 0 R ps WG FG) in EG. destruct EG as [HG LG]. destruct ps; [|discriminate].
    destruct (DecayT R) as [T|] eqn:ED; [|discriminate]. cbn [obind fst snd].
    destruct (const_call w S 1) as [[R' ps']|] eqn:ES; [|discriminate]. cbn [obind fst snd].
    apply (const_call_ok S 1 R' ps' WS FS) in ES. destruct ES as [HS LS].
    destruct ps' as [|p []]; try discriminate. intros H.
    apply (property_lambdas R T p g s (const_callable_wf G [] R FG HG) ED) in H; [|intros; now apply (NF R)].
    eauto 6.
  - intros (R & p & R' & HG & HS & HP).
    assert (EG : const_call w G 0 = Some (R, [])) by (apply const_call_ok; auto).
    assert (ES : const_call w S 1 = Some (R', [p])) by (apply const_call_ok; auto).
    pose proof (const_callable_wf G [] R FG HG) as WR.
    rewrite EG. cbn [obind fst snd]. destruct (Decay_underlies R WR) as (T & ED & _).
    rewrite ED. cbn [obind]. rewrite ES. cbn [obind snd].
    apply (property_lambdas R T p g s WR ED); [intros; now apply (NF R)|exact HP].
Qed.

Theorem C69_bind_property : forall G S C g s, wf G -> wf S -> ~ is_ref G -> ~ is_ref S ->
  wf_functor w G -> wf_functor w S ->
  (forall R r a d q, invocable w G C [] R -> ~ underlies (bare (SFun r a d q)) R) ->
  (bindProperty w G S C = Some (g, s) <->
   exists R p R', invocable w G C [] R /\ invocable w S C [p] R' /\ property_functors w R p g s).
Proof.
  intros G S C g s WG WS RG RS FG FS NF. unfold bindProperty. split.
  - destruct (simpleInvoke w G C 0) as [[R ps]|] eqn:EG; [|discriminate]. cbn [obind fst snd].
    apply (simpleInvoke_ok G C 0 R ps WG RG FG) in EG. destruct EG as [HG LG]. destruct ps; [|discriminate].
    destruct (DecayT R) as [T|] eqn:ED; [|discriminate]. cbn [obind fst snd].
    destruct (simpleInvoke w S C 1) as [[R' ps']|] eqn:ES; [|discriminate]. cbn [obind fst snd].
    apply (simpleInvoke_ok S C 1 R' ps' WS RS FS) in ES. destruct ES as [HS LS].
    destruct ps' as [|p []]; try discriminate. intros H.
    apply (property_lambdas R T p g s (invocable_wf G C [] R FG HG) ED) in H; [|intros; now apply (NF R)].
    eauto 6.
  - intros (R & p & R' & HG & HS & HP).
    assert (EG : simpleInvoke w G C 0 = Some (R, [])) by (apply simpleInvoke_ok; auto).
    assert (ES : simpleInvoke w S C 1 = Some (R', [p])) by (apply simpleInvoke_ok; auto).
    pose proof (invocable_wf G C [] R FG HG) as WR.
    rewrite EG. cbn [obind fst snd]. destruct (Decay_underlies R WR) as (T & ED & _).
    rewrite ED. cbn [obind]. rewrite ES. cbn [obind snd].
    apply (property_lambdas R T p g s WR ED); [intros; now apply (NF R)|exact HP].
Qed.

(** Both functors of a property can be bound exactly if its values have a name and can
    be read from a text and shown as one. *)
Theorem C69_property_accepted : forall R p g s n1 n2 m1 m2 sh,
  wf R -> underlies (bare sh) R -> wf (bare sh) -> variable_type sh ->
  property_functors w R p g s -> callops w n1 = [g] -> callops w n2 = [s] ->
  (add w (bare (SObj n1)) = Accepted m1 /\ add w (bare (SObj n2)) = Accepted m2 <->
   exists nm how rn, type_name w (bare sh) = Some nm /\ from_string w (bare sh) = Some how /\
     result w R rn /\ m1 = Meta false [] rn /\ m2 = Meta false [nm] rn).
Proof.
  intros R p g s n1 n2 m1 m2 sh W U Ws VT (sh' & U' & V & _ & -> & ->) E1 E2.
  pose proof (underlies_unique _ _ R W U' U) as Es. injection Es as ->.
  destruct (variable_parts sh VT) as (N & _ & A & F & NC).
  pose proof (wf_const_ref false false sh Ws N V F) as WC.
  rewrite (add_lambda w n1 [] R m1 E1 ltac:(constructor) W), described_get.
  rewrite (add_lambda w n2 [lref (Ty true false sh)] R m2 E2).
  3: exact W.
  2:{ constructor; [|constructor]. split; [exact WC|]. eexists. split; [reflexivity|]. discriminate. }
  rewrite described_set by (apply (not_context sh true false N NC); auto).
  split.
  - intros [(rn & HR & ->) (nm & rn' & HI & HR' & ->)].
    apply (from_input_const w sh nm N) in HI. destruct HI as (En & how & Eh).
    exists nm, how, rn'. repeat split; auto. f_equal.
    apply (build_result_ok w R (bare sh)) in HR, HR'; auto. congruence.
  - intros (nm & how & rn & En & Eh & HR & -> & ->). split; [eauto|].
    exists nm, rn. split; [|auto]. apply (from_input_const w sh nm N). eauto.
Qed.

(** A read-only property: bound to an object, its values must be readable from a text
    although no value is ever set; otherwise a coil::Value is taken instead. *)
Theorem C69_read_property : forall G g s, wf G -> wf_functor w G ->
  (read_property w G = Some (g, s) <->
   exists R, const_callable w G [] R /\
     g = lambda [] R /\ s = lambda [Context; bare (SObj o_value)] R).
Proof.
  intros G g s WG FG. unfold read_property. split.
  - destruct (const_call w G 0) as [[R ps]|] eqn:EG; [|discriminate]. cbn [obind fst snd].
    apply (const_call_ok G 0 R ps WG FG) in EG. destruct EG as [HG LG]. destruct ps; [|discriminate].
    intros [= <- <-]. eauto.
  - intros (R & HG & -> & ->).
    assert (EG : const_call w G 0 = Some (R, [])) by (apply const_call_ok; auto).
    rewrite EG. reflexivity.
Qed.

Theorem C69_bind_read_property : forall G C g s, wf G -> ~ is_ref G -> wf_functor w G ->
  (forall R r a d q e n, invocable w G C [] R ->
     ~ underlies (bare (SFun r a d q)) R /\ ~ underlies (bare (SArr e n)) R) ->
  (bindReadProperty w G C = Some (g, s) <->
   exists R sh, invocable w G C [] R /\ underlies (bare sh) R /\ sh <> SVoid /\
     g = lambda [] R /\ s = lambda [Context; bare sh] R).
Proof.
  intros G C g s WG RG FG NF. unfold bindReadProperty. split.
  - destruct (simpleInvoke w G C 0) as [[R ps]|] eqn:EG; [|discriminate]. cbn [obind fst snd].
    apply (simpleInvoke_ok G C 0 R ps WG RG FG) in EG. destruct EG as [HG LG]. destruct ps; [|discriminate].
    destruct (DecayT R) as [T|] eqn:ED; [|discriminate]. cbn [obind fst snd].
    destruct (decay_nonvoid R T (invocable_wf G C [] R FG HG) ED) as (sh & -> & U & HV).
    assert (AD : adjust (bare sh) = bare sh).
    { apply (adjust_eq false false sh).
      - intros e n ->. now apply (proj2 (NF R (bare SVoid) [] false (FQ false false RefNone false) e n HG)).
      - intros r a d q ->. now apply (proj1 (NF R r a d q SVoid 0 HG)). }
    rewrite AD. destruct (referable (bare sh)) eqn:Er; [|discriminate]. intros [= <- <-].
    exists R, sh. split; [exact HG|]. split; [exact U|]. split; [now apply HV|]. auto.
  - intros (R & sh & HG & U & V & -> & ->).
    assert (EG : simpleInvoke w G C 0 = Some (R, [])) by (apply simpleInvoke_ok; auto).
    pose proof (invocable_wf G C [] R FG HG) as WR.
    rewrite EG. cbn [obind fst snd].
    destruct (Decay_underlies R WR) as (T & ED & UT). rewrite ED. cbn [obind].
    destruct (decay_nonvoid R T WR ED) as (sh' & -> & U' & HV).
    pose proof (underlies_unique _ _ R WR U U') as Es. injection Es as <-.
    rewrite (proj2 HV V).
    rewrite (adjust_eq false false sh : _ -> _ -> adjust (bare sh) = bare sh); [reflexivity| |].
    + intros e n ->. now apply (proj2 (NF R (bare SVoid) [] false (FQ false false RefNone false) e n HG)).
    + intros r a d q ->. now apply (proj1 (NF R r a d q SVoid 0 HG)).
Qed.

(** Either can be bound exactly if the result can be shown and what the second functor
    takes can be read. *)
Theorem C69_read_accepted : forall R T n1 n2 m1 m2, wf R -> wf (bare T) -> variable_type T ->
  callops w n1 = [lambda [] R] -> callops w n2 = [lambda [Context; bare T] R] ->
  (add w (bare (SObj n1)) = Accepted m1 /\ add w (bare (SObj n2)) = Accepted m2 <->
   exists nm how rn, type_name w (bare T) = Some nm /\ from_string w (bare T) = Some how /\
     result w R rn /\ m1 = Meta false [] rn /\ m2 = Meta true [nm] rn).
Proof.
  intros R T n1 n2 m1 m2 W WT VT E1 E2.
  destruct (variable_parts T VT) as (N & V & A & F & NC).
  destruct (wf_cases R W) as (c & v & s & Ns & HR0).
  rewrite (add_lambda w n1 [] R m1 E1 ltac:(constructor) W), described_get.
  rewrite (add_lambda w n2 [Context; bare T] R m2 E2).
  3: exact W.
  2:{ constructor; [apply plain_context|]. constructor; [exact (plain_value false false T WT A)|constructor]. }
  rewrite described_context. split.
  - intros [(rn & HR & ->) (nm & rn' & HI & HR' & ->)].
    apply (from_input_value w T nm WT N) in HI. destruct HI as (En & how & Eh).
    exists nm, how, rn'. repeat split; auto. f_equal.
    apply (build_result_ok w R (bare s)) in HR, HR'; auto; try (now apply (underlies_intro R c v s)). congruence.
  - intros (nm & how & rn & En & Eh & HR & -> & ->). split; [eauto|].
    exists nm, rn. split; [|auto]. apply (from_input_value w T nm WT N). eauto.
Qed.

End Properties.

(** * What does not hold *)

(** A program with the types of tests/compilation/Common.h: 3 float, 4 int, 10 Object,
    11 Functor, 12 FunctorWithContext, 13 a lambda, 14 a mutable lambda, 15 a generic
    lambda, 16 an object with an operator() &&, 17 a class that can be shown but not
    read.  Names are the numbers of the types; void is 99. *)
Definition plainq := FQ false false RefNone false.
Definition constq := FQ true false RefNone false.
Definition tfloat := bare (SObj 3).
Definition tint := bare (SObj 4).
Definition tvalue := bare (SObj o_value).
Definition tobject := bare (SObj 10).
Definition ex_world : world := {|
  callops n :=
    match n with
    | 11 => [Op false false tfloat [tfloat] false plainq]
    | 12 => [Op false false tfloat [Context; tfloat] false plainq]
    | 13 => [lambda [] tint]
    | 14 => [Op false false tint [] false plainq]
    | 15 => [Op true false tint [tint] false constq]
    | 16 => [Op false false tint [] false (FQ false false RefR false)]
    | 21 => [lambda [] (lref (Ty true false (SObj 3)))]
    | 22 => [lambda [tfloat] (lref (Ty true false (SObj 3)))]
    | 23 => [lambda [Context; tfloat] (lref (Ty true false (SObj 3)))]
    | 24 => [lambda [] (lref (Ty true false (SObj 17)))]
    | 25 => [lambda [Context; bare (SObj 17)] (lref (Ty true false (SObj 17)))]
    | _ => []
    end;
  derives n m := n =? m;
  is_class n := 10 <=? n;
  type_name t := match t with Ty false false (SObj (S n)) => Some (S n) | Ty false false SVoid => Some 99 | _ => None end;
  from_string t := match t with
                   | Ty false false (SObj 0) | Ty false false (SObj 17) => None
                   | Ty false false (SObj 2) => Some ByWrapper
                   | Ty false false (SObj _) => Some ByValue
                   | _ => None
                   end;
  to_string t := match t with Ty false false (SObj (S _)) => true | _ => false end;
  converts p t := match DecayT p with Some d => IsSameV d t | None => false end
|}.

Definition free (R : ty) (ps : list ty) : ty := ptr (bare (SFun R ps false plainq)).
Definition method (q : fquals) (R : ty) (ps : list ty) : ty := bare (SMem 10 (bare (SFun R ps false q))).
Definition object (n : nat) : ty := bare (SObj n).

(** The static_assert of add does not report everything that cannot be called: a
    pointer to a member function gets past it. *)
Theorem C69_assert_complete_refuted :
  ~ (forall w F, wf_functor w F -> (forall ps R, ~ callable w F ps R) -> add w F = Asserted).
Proof.
  intros H. specialize (H ex_world (method plainq tfloat [tfloat])).
  assert (E : add ex_world (method plainq tfloat [tfloat]) = Rejected) by reflexivity.
  rewrite E in H. discriminate H.
  - split; [|constructor]. constructor; [|constructor]. split; [constructor|].
    exists (SObj 3). split; [reflexivity|discriminate].
  - intros ps R HC. inversion HC.
Qed.

(** Nor does the one of bind report every object that the function must not be called
    on: volatile ones get past it. *)
Theorem C69_bind_assert_complete_refuted :
  ~ (forall w m R ps q c v n, wf_functor w (bare (SMem m (bare (SFun R ps false q)))) ->
       ~ ((c = true -> q_const q = true) /\ (v = true -> q_volatile q = true)) ->
       bind w (bare (SMem m (bare (SFun R ps false q)))) (Ty c v (SObj n)) = Asserted).
Proof.
  intros H. specialize (H ex_world 10 tfloat [] plainq false true 10).
  assert (E : bind ex_world (bare (SMem 10 (bare (SFun tfloat [] false plainq)))) (Ty false true (SObj 10)) = Rejected)
    by reflexivity.
  rewrite E in H. discriminate H.
  - split; constructor.
  - intros [_ HV]. discriminate (HV eq_refl).
Qed.

(** A functor without parameters that add takes need not do as a getter: a mutable
    lambda. *)
Theorem C69_getter_refuted :
  ~ (forall w G m, wf_functor w G -> add w G = Accepted m ->
       m_context m = false -> m_params m = [] -> read_property w G <> None).
Proof.
  intros H. apply (H ex_world (object 14) (Meta false [] 4)); try reflexivity.
  cbn. constructor; [|constructor]. repeat split; try constructor. discriminate.
Qed.

(** A constant variable that can be shown cannot always be bound: its type must be
    readable too. *)
Theorem C69_constant_shown_refuted :
  ~ (forall w s g st n1 n2, variable_type s -> wf (bare s) -> shown w (bare s) ->
       type_name w (bare s) <> None -> variable (ptr (Ty true false s)) = Some (g, st) ->
       callops w n1 = [g] -> callops w n2 = [st] ->
       exists m, add w (bare (SObj n2)) = Accepted m).
Proof.
  intros H.
  destruct (H ex_world (SObj 17) (lambda [] (lref (Ty true false (SObj 17))))
              (lambda [Context; bare (SObj 17)] (lref (Ty true false (SObj 17)))) 24 25) as (m & E);
    try reflexivity; try discriminate.
  - constructor.
  - now apply shown_own.
Qed.

(** A result that can be shown and whose values have a name: a pointer to a pointer is
    not enough, the name is sought after one step only. *)
Theorem C69_pointer_result_refuted :
  ~ (forall w n R, callops w n = [lambda [] R] -> wf R -> ~ is_ref R -> shown w R ->
       (forall k, k <> 0 -> type_name w (bare (SObj k)) <> None) ->
       exists m, add w (bare (SObj n)) = Accepted m).
Proof.
  intros H. set (R := ptr (ptr tint)).
  set (w := {| callops n := [lambda [] R]; derives := derives ex_world; is_class := is_class ex_world;
               type_name := type_name ex_world; from_string := from_string ex_world;
               to_string := to_string ex_world; converts := converts ex_world |}).
  destruct (H w 30 R) as (m & E); try reflexivity.
  - repeat constructor; easy.
  - easy.
  - apply shown_pointee; [exact I|]. apply shown_pointee; [exact I|]. now apply shown_own.
  - intros [|k] Hk; [easy|discriminate].
  - discriminate E.
Qed.

(** * Examples: tests/compilation *)

(** Valid.cpp:8-21. *)
Example C69_ex_valid :
  add ex_world (free tfloat [tfloat]) = Accepted (Meta false [3] 3) /\
  add ex_world (free tfloat [Context; tfloat]) = Accepted (Meta true [3] 3) /\
  add ex_world (object 11) = Accepted (Meta false [3] 3) /\
  add ex_world (object 12) = Accepted (Meta true [3] 3) /\
  bind ex_world (method plainq tfloat [tfloat]) tobject = Accepted (Meta false [3] 3) /\
  bind ex_world (method plainq tfloat [Context; tfloat]) tobject = Accepted (Meta true [3] 3) /\
  bind ex_world (method constq tfloat [tfloat]) (Ty true false (SObj 10)) = Accepted (Meta false [3] 3).
Proof. repeat split; reflexivity. Qed.

(** Valid.cpp:23-33, 65-71. *)
Example C69_ex_valid2 :
  add ex_world (free (bare SVoid) []) = Accepted (Meta false [] 99) /\
  add ex_world (free (bare SVoid) [Context]) = Accepted (Meta true [] 99) /\
  add ex_world (free (bare SVoid) [lref (Ty true false (SObj o_value))]) = Accepted (Meta false [2] 99) /\
  add ex_world (free (ptr (Ty true false (SObj 4))) []) = Accepted (Meta false [] 4).
Proof. repeat split; reflexivity. Qed.

(** DirectMemberFunctionAssignment.cpp, DirectVariableAssignment.cpp,
    MemberVariableOnVoid.cpp. *)
Example C69_ex_invalid :
  add ex_world (method plainq tfloat [tfloat]) = Rejected /\
  add ex_world (ptr tfloat) = Asserted /\
  variable (bare (SMem 10 tfloat)) = None.
Proof. repeat split; reflexivity. Qed.

(** Not in the tests: a const object, a generic lambda, an operator() &&, references
    that are not constant, coil::Value&&, a Context that is not the first. *)
Example C69_ex_rejected :
  bind ex_world (method plainq tfloat [tfloat]) (Ty true false (SObj 10)) = Asserted /\
  add ex_world (object 15) = Asserted /\
  add ex_world (object 16) = Rejected /\
  add ex_world (free tint [lref tint]) = Rejected /\
  add ex_world (free tint [rref tint]) = Accepted (Meta false [4] 4) /\
  add ex_world (free tint [rref tvalue]) = Rejected /\
  add ex_world (free tint [tint; Context]) = Rejected.
Proof. repeat split; reflexivity. Qed.

(** variable(&f) and variable(&c) for a float f and a float const c. *)
Example C69_ex_variable :
  variable (ptr tfloat) = Some (lambda [] (lref (Ty true false (SObj 3))), lambda [tfloat] (lref (Ty true false (SObj 3)))) /\
  add ex_world (object 21) = Accepted (Meta false [] 3) /\
  add ex_world (object 22) = Accepted (Meta false [3] 3) /\
  variable (ptr (Ty true false (SObj 3))) =
    Some (lambda [] (lref (Ty true false (SObj 3))), lambda [Context; tfloat] (lref (Ty true false (SObj 3)))) /\
  add ex_world (object 23) = Accepted (Meta true [3] 3).
Proof. repeat split; reflexivity. Qed.

(** Valid.cpp:92-104: a property from functions, and of an object. *)
Example C69_ex_property :
  property ex_world (free tfloat []) (free (bare SVoid) [tfloat]) =
    Some (lambda [] tfloat, lambda [lref (Ty true false (SObj 3))] tfloat) /\
  bindProperty ex_world (method constq tfloat []) (method plainq (bare SVoid) [tfloat]) tobject =
    Some (lambda [] tfloat, lambda [lref (Ty true false (SObj 3))] tfloat) /\
  bindProperty ex_world (method constq tfloat []) (method plainq (bare SVoid) [tfloat]) (Ty true false (SObj 10)) = None /\
  bindReadProperty ex_world (method constq tfloat []) (Ty true false (SObj 10)) =
    Some (lambda [] tfloat, lambda [Context; tfloat] tfloat) /\
  bindReadProperty ex_world (free tfloat [ptr tobject]) tobject =
    Some (lambda [] tfloat, lambda [Context; tfloat] tfloat).
Proof. repeat split; reflexivity. Qed.

(** The hypotheses are met. *)
Example C69_ex_wf : wf_functor ex_world (free tfloat [Context; tfloat]) /\
  wf_functor ex_world (object 12) /\ wf (lref (Ty true false (SPtr tint))) /\
  underlies (bare (SPtr tint)) (lref (Ty true false (SPtr tint))).
Proof.
  assert (P : forall n, plain_param (bare (SObj n))).
  { intros n. split; [constructor|]. exists (SObj n). split; [reflexivity|discriminate]. }
  assert (F : Forall plain_param [Context; tfloat]) by (constructor; [apply P|constructor; [apply P|constructor]]).
  assert (W : wf (Ty true false (SPtr tint))) by (constructor; [constructor|cbn; tauto]).
  split; [|split; [|split]].
  - cbn. split; [exact F|]. split; [constructor|]. now exists false.
  - cbn. constructor; [|constructor]. split; [exact F|]. split; [constructor|discriminate].
  - constructor; [exact W|cbn; tauto|cbn; tauto].
  - split; [cbn; tauto|]. exists (Ty true false (SPtr tint)). split; [|auto].
    now exists (SPtr tint), true, false.
Qed.

(** * Assumptions *)
Print Assumptions C69_decay.
Print Assumptions C69_decay_std.
Print Assumptions C69_remove_cv.
Print Assumptions C69_remove_reference.
Print Assumptions C69_remove_pointer.
Print Assumptions C69_is.
Print Assumptions C69_move.
Print Assumptions C69_forward.
Print Assumptions C69_add.
Print Assumptions C69_bind.
Print Assumptions C69_bind_void.
Print Assumptions C69_add_asserted.
Print Assumptions C69_bind_asserted.
Print Assumptions C69_func_traits.
Print Assumptions C69_noexcept.
Print Assumptions C69_arity.
Print Assumptions C69_const_correct.
Print Assumptions C69_variable.
Print Assumptions C69_variable_pointer.
Print Assumptions C69_property.
Print Assumptions C69_bind_property.
Print Assumptions C69_property_accepted.
Print Assumptions C69_read_property.
Print Assumptions C69_bind_read_property.
Print Assumptions C69_read_accepted.
Print Assumptions C69_assert_complete_refuted.
Print Assumptions C69_bind_assert_complete_refuted.
Print Assumptions C69_getter_refuted.
Print Assumptions C69_constant_shown_refuted.
Print Assumptions C69_pointer_result_refuted.
