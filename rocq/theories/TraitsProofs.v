(** Proofs about the compile-time code (Traits.v) against TraitsSpec.v. *)
From Coq Require Import Bool PeanoNat Lia List.
From Verif Require Import Traits TraitsSpec.
Import ListNotations.

(** * The type traits *)

Lemma RemoveCv_eq c v s : RemoveCvT (Ty c v s) = Some (bare s).
Proof. destruct c, v; reflexivity. Qed.

Lemma RemoveReference_l t : RemoveReferenceT (lref t) = Some t.
Proof. reflexivity. Qed.
Lemma RemoveReference_r t : RemoveReferenceT (rref t) = Some t.
Proof. reflexivity. Qed.
Lemma RemoveReference_none t : ~ is_ref t -> RemoveReferenceT t = Some t.
Proof. destruct t as [c v []]; cbn; try reflexivity; intros H; now destruct H. Qed.

Lemma RemovePointer_ptr c v t : RemovePointerT (Ty c v (SPtr t)) = Some t.
Proof. destruct c, v; reflexivity. Qed.
Lemma RemovePointer_none c v s :
  (forall t, s <> SPtr t) -> RemovePointerT (Ty c v s) = Some (Ty c v s).
Proof. intros H. destruct s; try (destruct c, v; reflexivity). now destruct (H t). Qed.

Lemma Decay_plain c v s : ~ is_ref (bare s) -> DecayT (Ty c v s) = Some (bare s).
Proof.
  intros H. unfold DecayT. rewrite RemoveReference_none by exact H. cbn [obind].
  apply RemoveCv_eq.
Qed.
Lemma Decay_l c v s : DecayT (lref (Ty c v s)) = Some (bare s).
Proof. unfold DecayT. rewrite RemoveReference_l. cbn [obind]. apply RemoveCv_eq. Qed.
Lemma Decay_r c v s : DecayT (rref (Ty c v s)) = Some (bare s).
Proof. unfold DecayT. rewrite RemoveReference_r. cbn [obind]. apply RemoveCv_eq. Qed.

Lemma is_ptr_dec s : {t | s = SPtr t} + {forall t, s <> SPtr t}.
Proof. destruct s; try (right; discriminate). left. now exists t. Qed.
Lemma is_ref_dec t : {is_ref t} + {~ is_ref t}.
Proof. destruct t as [c v []]; cbn; auto. Qed.

Lemma wf_cases t : wf t ->
  exists c v s, ~ is_ref (bare s) /\ (t = Ty c v s \/ t = lref (Ty c v s) \/ t = rref (Ty c v s)).
Proof.
  intros H. destruct H;
    try (do 3 eexists; split; [|left; reflexivity]; cbn; tauto).
  - destruct t as [c v s]. exists c, v, s. auto.
  - destruct t as [c v s]. exists c, v, s. auto.
Qed.

Lemma underlies_of d t c v s :
  ~ is_ref (bare s) ->
  t = Ty c v s \/ t = lref (Ty c v s) \/ t = rref (Ty c v s) ->
  underlies d t -> d = bare s.
Proof.
  intros N Ht (Nd & u & (s' & c' & v' & -> & ->) & Hu). unfold bare in *. cbn in N, Nd.
  destruct Ht as [ -> | [ -> | -> ] ], Hu as [E | [E | E]]; unfold lref, rref, bare in E;
    inversion E; subst; try reflexivity; try (now destruct Nd); now destruct N.
Qed.

Lemma underlies_intro t c v s :
  ~ is_ref (bare s) ->
  t = Ty c v s \/ t = lref (Ty c v s) \/ t = rref (Ty c v s) ->
  underlies (bare s) t.
Proof. intros N Ht. split; [exact N|]. exists (Ty c v s). split; [|exact Ht]. now exists s, c, v. Qed.

Lemma Decay_of t c v s :
  ~ is_ref (bare s) ->
  t = Ty c v s \/ t = lref (Ty c v s) \/ t = rref (Ty c v s) -> DecayT t = Some (bare s).
Proof.
  intros N [ -> | [ -> | -> ] ]; [now apply Decay_plain|apply Decay_l|apply Decay_r].
Qed.

Lemma Decay_underlies t : wf t -> exists d, DecayT t = Some d /\ underlies d t.
Proof.
  intros H. destruct (wf_cases t H) as (c & v & s & N & Ht).
  exists (bare s). split; [now apply (Decay_of t c v s)|now apply (underlies_intro t c v s)].
Qed.

Lemma underlies_unique d d' t : wf t -> underlies d t -> underlies d' t -> d = d'.
Proof.
  intros H H1 H2. destruct (wf_cases t H) as (c & v & s & N & Ht).
  rewrite (underlies_of d t c v s), (underlies_of d' t c v s); auto.
Qed.

Lemma Decay_iff t d : wf t -> DecayT t = Some d <-> underlies d t.
Proof.
  intros H. destruct (Decay_underlies t H) as (d' & E & U). rewrite E. split.
  - intros [= ->]. exact U.
  - intros U'. now rewrite (underlies_unique d d' t).
Qed.

(** * Equality of types *)

Lemma fquals_eqb_eq a b : fquals_eqb a b = true <-> a = b.
Proof.
  destruct a as [c v r n], b as [c' v' r' n']. unfold fquals_eqb. cbn.
  destruct c, c', v, v', r, r', n, n'; cbn; split; congruence.
Qed.

Fixpoint IsSame_eq (a b : ty) {struct a} : IsSameV a b = true <-> a = b
with same_shape_eq (a b : shape) {struct a} : same_shape a b = true <-> a = b.
Proof.
  - destruct a as [c v s], b as [c' v' s']. cbn [IsSameV].
    specialize (same_shape_eq s s').
    rewrite !andb_true_iff, !eqb_true_iff, same_shape_eq. split.
    + intros [[-> ->] ->]. reflexivity.
    + intros [= -> -> ->]. auto.
  - destruct a, b; cbn [same_shape]; try (split; [discriminate|congruence]).
    + tauto.
    + rewrite Nat.eqb_eq. split; congruence.
    + rewrite (IsSame_eq t t0). split; congruence.
    + rewrite andb_true_iff, Nat.eqb_eq, (same_shape_eq a b). split; [intros [-> ->]|intros [= -> ->]]; auto.
    + rewrite !andb_true_iff, (IsSame_eq r r0), eqb_true_iff, fquals_eqb_eq.
      assert (L : forall l l' : list ty,
        (fix same_list (l l' : list ty) {struct l} : bool :=
         match l, l' with
         | [], [] => true
         | t :: l, t' :: l' => IsSameV t t' && same_list l l'
         | _, _ => false
         end) l l' = true <-> l = l').
      { clear -IsSame_eq. fix L 1. intros l l'. destruct l as [|t l], l' as [|t' l'];
          try (split; [discriminate|congruence]); [tauto|].
        rewrite andb_true_iff, (IsSame_eq t t'), (L l l').
        split; [intros [-> ->]|intros [= -> ->]]; auto. }
      rewrite L. split; [intros [[[-> ->] ->] ->]|intros [= -> -> -> ->]]; auto.
    + rewrite andb_true_iff, Nat.eqb_eq, (IsSame_eq t t0). split; [intros [-> ->]|intros [= -> ->]]; auto.
    + rewrite (IsSame_eq t t0). split; congruence.
    + rewrite (IsSame_eq t t0). split; congruence.
Qed.

Lemma IsVoid_eq c v s : IsVoidV (Ty c v s) = Some (same_shape s SVoid).
Proof. unfold IsVoidV. rewrite RemoveCv_eq. reflexivity. Qed.

(** * The specializations of FuncTraitsImpl *)

Lemma member_row q : matching_rows member_rows q = [q_const q].
Proof. destruct q as [[] [] [] []]; reflexivity. Qed.
Lemma free_row ne : matching_rows free_rows (FQ false false RefNone ne) = [false].
Proof. destruct ne; reflexivity. Qed.

Lemma Base_eq k R Args : wf R ->
  exists r, underlies r R /\ BaseFuncTraits k R Args = Some (Traits r Args k).
Proof.
  intros H. destruct (Decay_underlies R H) as (d & E & U). exists d. split; [exact U|].
  unfold BaseFuncTraits. unfold DecayT in E. destruct (RemoveReferenceT R) as [u|]; [|discriminate].
  cbn [obind] in *. rewrite E. reflexivity.
Qed.

(** * The functor that is built *)

Section Functor.
Variable w : world.

Lemma takes_readable v c s : takes w v s = true <-> readable w (Ty c v s).
Proof.
  unfold takes, readable. destruct v, s; cbn; try tauto; try (split; [discriminate|tauto]).
  now rewrite negb_true_iff.
Qed.

Lemma shown_inv s : shown w (bare s) ->
  to_string w (bare s) = true \/ s = SPtr (Ty true false (SObj o_char)) \/
  exists c v s', s = SPtr (Ty c v s') /\ readable w (Ty c v s') /\ shown w (bare s').
Proof.
  intros H. inversion H; subst.
  - now left.
  - right; left. reflexivity.
  - right; right. now exists c, v, s0.
Qed.

Fixpoint prints_shown (s : shape) : prints w s = true <-> shown w (bare s).
Proof.
  destruct s; cbn [prints];
    try (rewrite orb_false_r; split; [apply shown_own|];
         intros H; destruct (shown_inv _ H) as [E|[E|(? & ? & ? & E & _)]]; [exact E|discriminate|discriminate]).
  destruct t as [c v s']. specialize (prints_shown s').
  rewrite orb_true_iff, orb_true_iff, !andb_true_iff, negb_true_iff, same_shape_eq, prints_shown,
    (takes_readable v c s').
  split.
  - intros [H|[[[-> ->] ->]|[H1 H2]]].
    + now apply shown_own.
    + apply shown_text.
    + now apply shown_pointee.
  - intros H. destruct (shown_inv _ H) as [E|[E|(? & ? & ? & E & A & B)]]; auto.
    + injection E as -> -> ->. auto.
    + injection E as -> -> ->. auto.
Qed.

Lemma param_ok_passable how p d :
  plain_param p -> underlies d p -> param_ok how p = true <-> passable how d p.
Proof.
  intros (W & s & -> & _) U.
  destruct (wf_cases _ W) as (c & v & s0 & N & Hp).
  rewrite (underlies_of d _ c v s0 N Hp U).
  destruct Hp as [E|[E|E]]; unfold lref, rref, bare in E.
  - injection E as <- <- ->. clear U W. rename s0 into s. unfold param_ok, bare. split.
    + intros _. now apply pass_value.
    + intros _. destruct s, how; cbn in N |- *; tauto.
  - injection E as ->. unfold param_ok, bare. cbn. rewrite andb_true_iff, negb_true_iff. split.
    + intros [-> ->]. apply pass_const.
    + intros H. inversion H as [h s' N'|h s'|s' c' v']; subst; auto.
      match goal with E : s0 = SLRef _ |- _ => rewrite E in N; now destruct N end.
  - injection E as ->. unfold param_ok, bare. destruct how; split; intros H; try reflexivity; try discriminate.
    + apply pass_move.
    + inversion H; subst.
      match goal with E : s0 = SRRef _ |- _ => rewrite E in N; now destruct N end.
Qed.

Lemma omap_Decay ps : Forall plain_param ps ->
  exists ds, omap DecayT ps = Some ds /\ Forall2 underlies ds ps.
Proof.
  induction 1 as [|p ps (W & _) H (ds & E & F)]; cbn [omap].
  - exists []. auto.
  - destruct (Decay_underlies p W) as (d & Ed & U). rewrite Ed. cbn [obind]. rewrite E. cbn [obind].
    exists (d :: ds). auto.
Qed.

Lemma user_arg_ok p d n : plain_param p -> underlies d p ->
  user_arg w p d = Some n <-> from_input w p n.
Proof.
  intros P U. unfold user_arg, from_input. split.
  - destruct (type_name w d) as [n'|] eqn:En; [|discriminate]. cbn [obind].
    destruct (from_string w d) as [how|] eqn:Eh; [|discriminate]. cbn [obind].
    destruct (param_ok how p) eqn:Ep; [|discriminate]. intros [= ->].
    exists d, how. split; [exact U|]. split; [now apply param_ok_passable|]. auto.
  - intros (T & how & UT & HP & En & Eh).
    assert (T = d) as -> by (apply (underlies_unique T d p); auto; apply P).
    rewrite En. cbn [obind]. rewrite Eh. cbn [obind].
    apply (param_ok_passable how p d P U) in HP. now rewrite HP.
Qed.

Lemma user_args_ok ps ds ns : Forall plain_param ps -> Forall2 underlies ds ps ->
  user_args w ps ds = Some ns <-> Forall2 (from_input w) ps ns.
Proof.
  intros P U. revert P ns. induction U as [|d p ds ps Ud U IH]; intros P ns; cbn [user_args].
  - split; [intros [= <-]; constructor|]. intros H. inversion H. reflexivity.
  - inversion P as [|p' ps' Pp Pps]; subst. specialize (IH Pps). split.
    + destruct (user_arg w p d) as [n|] eqn:E; [|discriminate]. cbn [obind].
      destruct (user_args w ps ds) as [ns'|] eqn:E'; [|discriminate]. intros [= <-].
      constructor; [now apply (user_arg_ok p d n)|]. now apply IH.
    + intros H. inversion H as [|p' n ps' ns' Hp Hps]; subst.
      apply (user_arg_ok p d n Pp Ud) in Hp. rewrite Hp. cbn [obind].
      apply IH in Hps. now rewrite Hps.
Qed.

Lemma Context_underlies p : wf p -> underlies Context p <-> DecayT p = Some Context.
Proof. intros W. symmetry. now apply Decay_iff. Qed.

Lemma passable_underlies how d p : plain_param p -> passable how d p -> underlies d p.
Proof.
  intros (W & s & -> & _) H. destruct H as [how s' N|how s'|s' c v].
  - apply (underlies_intro _ false false s' N). auto.
  - assert (N : ~ is_ref (bare s')) by (inversion W; assumption).
    apply (underlies_intro _ true false s' N). auto.
  - assert (N : ~ is_ref (bare s')) by (inversion W; assumption).
    apply (underlies_intro _ c v s' N). auto.
Qed.

(** The parameters as make_functor sees them. *)
Definition build_params (ps : list ty) : option (bool * list nat) :=
  a <-? ArgsTraits ps;
  let '(ctx, ds) := a in
  ns <-? user_args w (if ctx then tl ps else ps) ds;
  if (if ctx then match ps with p :: _ => param_ok ByValue p | [] => false end else true)
  then Some (ctx, ns) else None.

Lemma build_params_ok ps ctx ns : Forall plain_param ps ->
  build_params ps = Some (ctx, ns) <-> parameters w ps ctx ns.
Proof.
  intros P. unfold build_params, ArgsTraits.
  destruct (omap_Decay ps P) as (ds & E & U). rewrite E. cbn [obind].
  destruct U as [|d p ds ps Ud U].
  - cbn [obind user_args]. split.
    + intros [= <- <-]. constructor; [discriminate|constructor].
    + intros H. inversion H as [|ps' ns' _ H2]; subst. inversion H2. reflexivity.
  - inversion P as [|p' ps' Pp Pps]; subst.
    destruct (IsSameV d Context) eqn:Ed.
    + apply IsSame_eq in Ed. subst d. cbn [tl]. split.
      * destruct (user_args w ps ds) as [ns'|] eqn:Eu; [|discriminate]. cbn [obind].
        destruct (param_ok ByValue p) eqn:Ep; [|discriminate]. intros [= <- <-].
        constructor; [now apply param_ok_passable|]. now apply (user_args_ok ps ds ns').
      * intros H. inversion H as [p' ps' ns' Hp Hps|ps' ns' Hn Hps]; subst.
        -- apply (user_args_ok ps ds ns Pps U) in Hps. rewrite Hps. cbn [obind].
           apply (param_ok_passable ByValue p Context Pp Ud) in Hp. now rewrite Hp.
        -- now destruct (Hn p eq_refl).
    + assert (Nd : d <> Context) by (intros ->; rewrite (proj2 (IsSame_eq Context Context) eq_refl) in Ed; discriminate).
      split.
      * destruct (user_args w (p :: ps) (d :: ds)) as [ns'|] eqn:Eu; [|discriminate]. cbn [obind].
        intros [= <- <-]. constructor.
        -- intros p' [= <-] Uc. apply Nd. apply (underlies_unique d Context p); auto. apply Pp.
        -- apply (user_args_ok (p :: ps) (d :: ds) ns'); auto.
      * intros H. inversion H as [p' ps' ns' Hp Hps|ps' ns' Hn Hps]; subst.
        -- destruct Nd. apply (underlies_unique d Context p); auto; [apply Pp|].
           now apply (passable_underlies ByValue).
        -- apply (user_args_ok (p :: ps) (d :: ds) ns P (Forall2_cons _ _ Ud U)) in Hps.
           rewrite Hps. reflexivity.
Qed.

(** The result as make_functor and conclude see it. *)
Definition build_result (R r : ty) : option nat :=
  p <-? RemovePointerT r; d <-? DecayT p; rn <-? type_name w d;
  vd <-? IsVoidV r;
  let 'Ty _ _ s := r in
  if (vd || prints w s) && result_ok w R then Some rn else None.

Lemma result_ok_readable R : wf R -> ~ is_void R ->
  result_ok w R = true <-> (forall u, R = u \/ R = lref u \/ R = rref u -> readable w u).
Proof.
  intros W NV. destruct (wf_cases R W) as (c & v & s & N & HR).
  assert (G : result_ok w R = true <-> readable w (Ty c v s)).
  { destruct HR as [ -> | [ -> | -> ] ].
    - rewrite <- (takes_readable v c s).
      destruct s; cbn [result_ok same_shape]; rewrite ?orb_false_r; try tauto;
        try (now destruct NV); cbn in N; tauto.
    - exact (takes_readable v c s).
    - exact (takes_readable v c s). }
  rewrite G. split.
  - intros H u [<-|[E|E]].
    + destruct HR as [ -> | [ -> | -> ] ]; [exact H|exact I|exact I].
    + destruct HR as [HR|[HR|HR]]; rewrite HR in E; unfold lref, rref, bare in E;
        try discriminate E; injection E; intros; subst; try exact H. now destruct N.
    + destruct HR as [HR|[HR|HR]]; rewrite HR in E; unfold lref, rref, bare in E;
        try discriminate E; injection E; intros; subst; try exact H. now destruct N.
  - intros H. apply H. tauto.
Qed.

Lemma build_result_ok R r n : wf R -> underlies r R ->
  build_result R r = Some n <-> result w R n.
Proof.
  intros W U. destruct (wf_cases R W) as (c & v & s & N & HR).
  pose proof (underlies_of r R c v s N HR U) as ->.
  unfold build_result, bare. rewrite IsVoid_eq. cbn [obind].
  destruct (same_shape s SVoid) eqn:Es.
  - apply same_shape_eq in Es. subst s.
    assert (ER : R = Ty c v SVoid).
    { destruct HR as [E|[E|E]]; auto; subst R; inversion W; subst; now destruct H2. }
    subst R. rewrite (RemovePointer_none false false SVoid) by discriminate. cbn [obind].
    rewrite Decay_plain by (cbn; tauto). cbn [obind orb].
    assert (Ho : result_ok w (Ty c v SVoid) = true) by (cbn; apply orb_true_r). rewrite Ho.
    split.
    + destruct (type_name w (bare SVoid)) as [n'|] eqn:En; [|discriminate]. intros [= ->].
      now constructor.
    + intros H. inversion H as [c' v' n' Hn|R' T' U' n' HU HT]; subst.
      * rewrite Hn. reflexivity.
      * destruct HT. apply (underlies_unique T' (bare SVoid) (Ty c v SVoid) W); auto.
  - assert (NS : s <> SVoid) by (intros ->; rewrite (proj2 (same_shape_eq SVoid SVoid) eq_refl) in Es; discriminate).
    assert (NV : ~ is_void R).
    { destruct HR as [ -> | [ -> | -> ] ]; cbn; try tauto. destruct s; cbn in *; congruence. }
    pose proof (result_ok_readable R W NV) as HO.
    assert (NM : exists nm, (p <-? RemovePointerT (Ty false false s); DecayT p) = Some nm /\
                       (forall U', names_of (bare s) U' <-> U' = nm)).
    { destruct (is_ptr_dec s) as [(t & ->)|Hn].
      - rewrite RemovePointer_ptr. cbn [obind]. destruct t as [c' v' s'].
        assert (N' : ~ is_ref (bare s')).
        { destruct HR as [ -> | [ -> | -> ] ]; inversion W; subst; auto;
            match goal with H : wf (Ty c v (SPtr _)) |- _ => inversion H; subst; auto end. }
        rewrite Decay_plain by exact N'. exists (bare s'). split; [reflexivity|]. intros U'. split.
        + intros H. inversion H as [s0 Hs0|]; subst; auto. now destruct (Hs0 (Ty c' v' s')).
        + intros ->. constructor.
      - rewrite RemovePointer_none by exact Hn. cbn [obind]. rewrite Decay_plain by exact N.
        exists (bare s). split; [reflexivity|]. intros U'. split.
        + intros H. inversion H as [|c0 v0 s0]; subst; auto. now destruct (Hn (Ty c0 v0 s0)).
        + intros ->. now constructor. }
    destruct NM as (nm & E1 & E2). destruct (RemovePointerT (Ty false false s)) as [p|]; [|discriminate].
    cbn [obind] in *. rewrite E1. cbn [obind orb].
    split.
    + destruct (type_name w nm) as [n'|] eqn:En; [|discriminate]. cbn [obind].
      destruct (prints w s) eqn:Ep; [|discriminate]. destruct (result_ok w R) eqn:Er; [|discriminate].
      intros [= ->]. apply (result_value w R (bare s) nm n); auto.
      * intros [= ->]. now apply NS.
      * now apply HO.
      * now apply prints_shown.
      * now apply E2.
    + intros H. inversion H as [c' v' n' Hn|R' T' U' n' HU HT HR' HS HN Hn]; subst.
      * destruct NV. exact I.
      * pose proof (underlies_unique T' (bare s) R W HU U) as ->.
        apply E2 in HN. subst U'. rewrite Hn. cbn [obind].
        apply prints_shown in HS. apply HO in HR'. rewrite HS, HR'. reflexivity.
Qed.

(** make_functor and the conclusion drawn from it. *)
Lemma build_ok R r ps k F C m : wf R -> underlies r R -> Forall plain_param ps ->
  conclude w (Some R) (make_functor w (Traits r ps k) F C) = Accepted m <->
  described w ps R m /\ call_ok w F C = Some true.
Proof.
  intros W U P. unfold described.
  rewrite <- (build_params_ok ps (m_context m) (m_params m) P).
  rewrite <- (build_result_ok R r (m_return m) W U).
  unfold make_functor, build_params, build_result. cbn [t_args t_return].
  destruct (ArgsTraits ps) as [[ctx ds]|]; cbn [obind conclude]; [|split; [discriminate|intros [[? _] _]; discriminate]].
  destruct (user_args w (if ctx then tl ps else ps) ds) as [ns|]; cbn [obind conclude];
    [|split; [discriminate|intros [[? _] _]; discriminate]].
  destruct (if ctx then match ps with p :: _ => param_ok ByValue p | [] => false end else true);
    [|split; [discriminate|intros [[? _] _]; discriminate]].
  destruct (RemovePointerT r) as [p|]; cbn [obind conclude]; [|split; [discriminate|intros [[_ ?] _]; discriminate]].
  destruct (DecayT p) as [d|]; cbn [obind conclude]; [|split; [discriminate|intros [[_ ?] _]; discriminate]].
  destruct (type_name w d) as [rn|]; cbn [obind conclude]; [|split; [discriminate|intros [[_ ?] _]; discriminate]].
  destruct (call_ok w F C) as [[]|]; cbn [obind conclude];
    [|split; [discriminate|intros [_ ?]; discriminate]|split; [discriminate|intros [_ ?]; discriminate]].
  destruct (IsVoidV r) as [vd|]; cbn [obind conclude]; [|split; [discriminate|intros [[_ ?] _]; discriminate]].
  destruct r as [rc rv s]. destruct (vd || prints w s); cbn [andb conclude];
    [|split; [discriminate|intros [[_ ?] _]; discriminate]].
  destruct (result_ok w R); [|split; [discriminate|intros [[_ ?] _]; discriminate]].
  destruct m as [mc mp mr]. cbn. split.
  - intros [= -> -> ->]. auto.
  - intros [[[= -> ->] [= ->]] _]. reflexivity.
Qed.

(** * add and bind *)

(** The function a functor stands for, as FuncTraits sees it. *)
Inductive sees : ty -> ty -> list ty -> bool -> Prop :=
| sees_free R ps ne : sees (ptr (bare (SFun R ps false (FQ false false RefNone ne)))) R ps false
| sees_member m R ps q : sees (bare (SMem m (bare (SFun R ps false q)))) R ps (q_const q)
| sees_static n o : callops w n = [o] -> o_template o = false -> o_dots o = false ->
    o_static o = true -> sees (bare (SObj n)) (o_result o) (o_params o) false
| sees_object n o : callops w n = [o] -> o_template o = false -> o_dots o = false ->
    o_static o = false -> sees (bare (SObj n)) (o_result o) (o_params o) (q_const (o_quals o)).

Lemma Impl_member m R ps q : wf R ->
  exists r, underlies r R /\
    FuncTraitsImpl (bare (SMem m (bare (SFun R ps false q)))) = Some (Some (Traits r ps (q_const q))).
Proof.
  intros W. destruct (Base_eq (q_const q) R ps W) as (r & U & E). exists r. split; [exact U|].
  cbn [FuncTraitsImpl bare]. rewrite member_row, E. reflexivity.
Qed.
Lemma Impl_free R ps ne : wf R ->
  exists r, underlies r R /\
    FuncTraitsImpl (ptr (bare (SFun R ps false (FQ false false RefNone ne)))) =
    Some (Some (Traits r ps false)).
Proof.
  intros W. destruct (Base_eq false R ps W) as (r & U & E). exists r. split; [exact U|].
  cbn [FuncTraitsImpl bare ptr]. rewrite free_row, E. reflexivity.
Qed.

Lemma sees_ok F R ps k : wf_functor w F -> sees F R ps k ->
  wf R /\ Forall plain_param ps /\
  exists r, underlies r R /\ FuncTraits w F = Some (Some (Traits r ps k)) /\
    declared_result w F = Some R.
Proof.
  intros WF H. destruct H as [R' ps' ne|m R' ps' q|n o E Et Ed Es|n o E Et Ed Es]; cbn in WF.
  - destruct WF as (P & W & _). repeat split; auto.
    destruct (Impl_free R' ps' ne W) as (r & U & EF). exists r. auto.
  - destruct WF as (P & W). repeat split; auto.
    destruct (Impl_member m R' ps' q W) as (r & U & EF). exists r. auto.
  - rewrite E in WF. inversion WF as [|x l (P & W & Q) _]; subst. repeat split; auto.
    destruct (Q Es) as (ne & Eq).
    destruct (Impl_free (o_result o) (o_params o) ne W) as (r & U & EF). exists r. split; [exact U|].
    unfold FuncTraits, declared_result, address_of_call, bare. rewrite E, Et, Es, Ed, Eq. split; [exact EF|reflexivity].
  - rewrite E in WF. inversion WF as [|x l (P & W & Q) _]; subst. repeat split; auto.
    destruct (Impl_member n (o_result o) (o_params o) (o_quals o) W) as (r & U & EF).
    exists r. split; [exact U|].
    unfold FuncTraits, declared_result, address_of_call, bare. rewrite E, Et, Es, Ed. split; [exact EF|reflexivity].
Qed.

Lemma sees_not F : wf_functor w F -> (forall R ps k, ~ sees F R ps k) -> FuncTraits w F = Some None.
Proof.
  intros WF N. destruct F as [c v s]. destruct c; [easy|]. destruct v; [easy|].
  destruct s; try reflexivity.
  - (* a class *)
    unfold FuncTraits, address_of_call. destruct (callops w n) as [|o [|o' l]] eqn:E; try reflexivity.
    destruct (o_template o) eqn:Et; [reflexivity|].
    destruct (o_dots o) eqn:Ed.
    + destruct (o_static o); reflexivity.
    + destruct (o_static o) eqn:Es.
      * destruct (N _ _ _ (sees_static n o E Et Ed Es)).
      * destruct (N _ _ _ (sees_object n o E Et Ed Es)).
  - destruct t as [[] [] []]; try reflexivity. destruct dots; [reflexivity|].
    cbn in WF. destruct WF as (_ & _ & ne & ->). destruct (N _ _ _ (sees_free r args ne)).
  - destruct t as [[] [] []]; try reflexivity. destruct dots; [reflexivity|].
    destruct (N _ _ _ (sees_member cls r args q)).
Qed.

Lemma sees_dec F : wf_functor w F ->
  (exists R ps k, sees F R ps k) \/ (forall R ps k, ~ sees F R ps k).
Proof.
  intros WF. destruct F as [c v s].
  destruct c; [easy|]. destruct v; [easy|].
  destruct s; try (right; intros R ps k H; inversion H; fail).
  - destruct (callops w n) as [|o [|o' l]] eqn:E;
      try (right; intros R ps k H; inversion H; congruence).
    destruct (o_template o) eqn:Et; [right; intros R ps k H; inversion H; congruence|].
    destruct (o_dots o) eqn:Ed; [right; intros R ps k H; inversion H; congruence|].
    left. destruct (o_static o) eqn:Es.
    + exists (o_result o), (o_params o), false. now apply sees_static.
    + exists (o_result o), (o_params o), (q_const (o_quals o)). now apply sees_object.
  - destruct t as [[] [] []]; try (right; intros R ps k H; inversion H; fail).
    destruct dots; [right; intros R ps k H; inversion H|].
    cbn in WF. destruct WF as (_ & _ & ne & ->). left. exists r, args, false. constructor.
  - destruct t as [[] [] []]; try (right; intros R ps k H; inversion H; fail).
    destruct dots; [right; intros R ps k H; inversion H|].
    left. exists r, args, (q_const q). constructor.
Qed.

Lemma refR_neq q : refq_eqb q RefR = false <-> q <> RefR.
Proof. destruct q; cbn; split; congruence. Qed.

Lemma callable_sees F ps R : callable w F ps R <->
  (exists k, sees F R ps k) /\ call_ok w F (bare SVoid) = Some true.
Proof.
  split.
  - intros [R' ps' ne|n o E Et Es Ed Hq|n o E Et Es Ed].
    + split; [eexists; constructor|reflexivity].
    + split; [eexists; now apply sees_object|]. cbn. rewrite E, Es. cbn.
      apply refR_neq in Hq. now rewrite Hq.
    + split; [eexists; now apply sees_static|]. cbn. rewrite E, Es. reflexivity.
  - intros [(k & [R' ps' ne|m R' ps' q|n o E Et Ed Es|n o E Et Ed Es]) H]; cbn in H.
    + constructor.
    + discriminate.
    + now apply call_static.
    + rewrite E, Es in H. cbn in H. injection H as H. apply negb_true_iff, refR_neq in H.
      now apply call_object.
Qed.

Lemma callable_on_sees F C ps R : ~ is_void C ->
  callable_on w F C ps R <-> (exists k, sees F R ps k) /\ call_ok w F C = Some true.
Proof.
  intros NC. split.
  - intros [m n c v R' ps' q Hc Hd Hk Hv Hq]. split; [eexists; constructor|].
    unfold call_ok. rewrite IsVoid_eq. cbn. rewrite Hd, Hc. apply refR_neq in Hq. rewrite Hq.
    destruct c, v; cbn; rewrite ?Hk, ?Hv by reflexivity; reflexivity.
  - intros [(k & HS) H]. destruct C as [c v s]. unfold call_ok in H. rewrite IsVoid_eq in H. cbn [obind] in H.
    destruct (same_shape s SVoid) eqn:Es.
    { apply same_shape_eq in Es. subst s. now destruct NC. }
    destruct HS as [R' ps' ne|m R' ps' q|n o E Et Ed Es'|n o E Et Ed Es']; cbn in H; try discriminate.
    destruct s; try discriminate. injection H as H. rewrite !andb_true_iff, negb_true_iff in H.
    destruct H as [[[[H1 H2] H3] H4] H5]. apply refR_neq in H5.
    constructor; auto.
    + intros ->. exact H3.
    + intros ->. exact H4.
Qed.

Lemma sees_unique F R ps k R' ps' k' : sees F R ps k -> sees F R' ps' k' -> R = R' /\ ps = ps' /\ k = k'.
Proof.
  intros H H'. destruct H; inversion H'; subst; auto;
    repeat match goal with H : callops w ?n = _, H' : callops w ?n = _ |- _ => rewrite H in H'; injection H' as <- end;
    auto; congruence.
Qed.

Lemma add_ok F m : wf_functor w F ->
  add w F = Accepted m <-> exists ps R, callable w F ps R /\ described w ps R m.
Proof.
  intros WF. unfold add. destruct (sees_dec F WF) as [(R & ps & k & HS)|HN].
  - destruct (sees_ok F R ps k WF HS) as (W & P & r & U & E & Ed). rewrite E, Ed.
    rewrite (build_ok R r ps k F (bare SVoid) m W U P). split.
    + intros [H1 H2]. exists ps, R. split; [|exact H1]. apply callable_sees. split; [now exists k|exact H2].
    + intros (ps' & R' & H1 & H2). apply callable_sees in H1. destruct H1 as [(k' & HS') H1].
      destruct (sees_unique _ _ _ _ _ _ _ HS HS') as (-> & -> & _). auto.
  - rewrite (sees_not F WF HN). split; [discriminate|]. intros (ps & R & H & _).
    apply callable_sees in H. destruct H as [(k & H) _]. now destruct (HN R ps k).
Qed.

Lemma function_like_sees F : wf_functor w F ->
  function_like w F <-> exists R ps k, sees F R ps k.
Proof.
  intros WF. split.
  - intros H. destruct H as [R ps q|m R ps q|n o E Et Ed].
    + cbn in WF. destruct WF as (_ & _ & ne & ->). exists R, ps, false. constructor.
    + exists R, ps, (q_const q). constructor.
    + destruct (o_static o) eqn:Es.
      * exists (o_result o), (o_params o), false. now apply sees_static.
      * exists (o_result o), (o_params o), (q_const (o_quals o)). now apply sees_object.
  - intros (R & ps & k & [R' ps' ne|m R' ps' q|n o E Et Ed Es|n o E Et Ed Es]); econstructor; eauto.
Qed.

Lemma conclude_not_asserted R m : conclude w R m <> Asserted.
Proof. destruct R, m; cbn; try discriminate. destruct (result_ok w t); discriminate. Qed.

Lemma add_asserted F : wf_functor w F -> add w F = Asserted <-> ~ function_like w F.
Proof.
  intros WF. rewrite (function_like_sees F WF). unfold add.
  destruct (sees_dec F WF) as [(R & ps & k & HS)|HN].
  - destruct (sees_ok F R ps k WF HS) as (W & P & r & U & E & Ed). rewrite E. split.
    + intros H. now destruct (conclude_not_asserted _ _ H).
    + intros H. destruct H. eauto.
  - rewrite (sees_not F WF HN). split; [|reflexivity]. intros _ (R & ps & k & H). now destruct (HN R ps k).
Qed.

Lemma const_function_sees F R ps k : sees F R ps k -> (k = true <-> const_function w F).
Proof.
  intros H. split.
  - intros ->. inversion H; subst.
    + now constructor.
    + econstructor; eauto.
  - intros HC. destruct H as [R' ps' ne|m R' ps' q|n o E Et Ed Es|n o E Et Ed Es]; inversion HC; subst; auto.
    + rewrite E in H0. injection H0 as <-. congruence.
    + rewrite E in H0. injection H0 as <-. assumption.
Qed.

Lemma IsConst_eq c v s : IsConstV (Ty c v s) = c.
Proof. destruct c, v; reflexivity. Qed.

(** Is the object constant? *)
Definition is_const (t : ty) : Prop := match t with Ty c _ _ => c = true end.

Lemma bind_ok F C m : wf_functor w F -> ~ is_void C ->
  bind w F C = Accepted m <-> exists ps R, callable_on w F C ps R /\ described w ps R m.
Proof.
  intros WF NC. unfold bind. destruct (sees_dec F WF) as [(R & ps & k & HS)|HN].
  - destruct (sees_ok F R ps k WF HS) as (W & P & r & U & E & Ed). rewrite E, Ed. cbn [t_const].
    assert (G : callable_on w F C ps R -> negb (IsConstV C) || k = true).
    { intros H. destruct H as [m' n c v R' ps' q Hc Hd Hk Hv Hq]. inversion HS; subst.
      rewrite IsConst_eq. destruct c; [|reflexivity]. now rewrite Hk. }
    assert (B := build_ok R r ps k F C m W U P).
    split.
    + destruct (negb (IsConstV C) || k); [|discriminate]. intros H. apply B in H. destruct H as [H1 H2].
      exists ps, R. split; [|exact H1]. apply (callable_on_sees F C ps R NC). split; [now exists k|exact H2].
    + intros (ps' & R' & H1 & H2). pose proof H1 as H1'. apply (callable_on_sees F C ps' R' NC) in H1.
      destruct H1 as [(k' & HS') H1].
      destruct (sees_unique _ _ _ _ _ _ _ HS HS') as (<- & <- & _).
      rewrite (G H1'). apply B. auto.
  - rewrite (sees_not F WF HN). split; [discriminate|]. intros (ps & R & H & _).
    apply (callable_on_sees F C ps R NC) in H. destruct H as [(k & H) _]. now destruct (HN R ps k).
Qed.

Lemma bind_void_ok F C m : wf_functor w F -> is_void C ->
  bind w F C = Accepted m <->
  (is_const C -> const_function w F) /\ exists ps R, callable w F ps R /\ described w ps R m.
Proof.
  intros WF NC. unfold bind. destruct C as [c v s]. destruct s; try easy.
  assert (EC : forall G, call_ok w G (Ty c v SVoid) = call_ok w G (bare SVoid)).
  { intros G. unfold call_ok. rewrite !IsVoid_eq. reflexivity. }
  destruct (sees_dec F WF) as [(R & ps & k & HS)|HN].
  - destruct (sees_ok F R ps k WF HS) as (W & P & r & U & E & Ed). rewrite E, Ed. cbn [t_const].
    assert (B := build_ok R r ps k F (Ty c v SVoid) m W U P). rewrite EC in B.
    rewrite IsConst_eq. cbn [is_const]. rewrite <- (const_function_sees F R ps k HS).
    split.
    + destruct (negb c || k) eqn:Eb; [|discriminate]. intros H. apply B in H. destruct H as [H1 H2].
      split.
      * intros ->. exact Eb.
      * exists ps, R. split; [|exact H1]. apply callable_sees. split; [now exists k|exact H2].
    + intros [Hk (ps' & R' & H1 & H2)]. apply callable_sees in H1. destruct H1 as [(k' & HS') H1].
      destruct (sees_unique _ _ _ _ _ _ _ HS HS') as (<- & <- & _).
      assert (negb c || k = true) as -> by (destruct c; [now apply Hk|reflexivity]). apply B. auto.
  - rewrite (sees_not F WF HN). split; [discriminate|]. intros (_ & ps & R & H & _).
    apply callable_sees in H. destruct H as [(k & H) _]. now destruct (HN R ps k).
Qed.

Lemma bind_asserted F C : wf_functor w F ->
  bind w F C = Asserted <-> function_like w F /\ is_const C /\ ~ const_function w F.
Proof.
  intros WF. rewrite (function_like_sees F WF). unfold bind. destruct C as [c v s]. cbn [is_const].
  destruct (sees_dec F WF) as [(R & ps & k & HS)|HN].
  - destruct (sees_ok F R ps k WF HS) as (W & P & r & U & E & Ed). rewrite E, IsConst_eq. cbn [t_const].
    rewrite <- (const_function_sees F R ps k HS).
    split.
    + destruct (negb c || k) eqn:Eb; [intros H; now destruct (conclude_not_asserted _ _ H)|].
      apply orb_false_iff in Eb. destruct Eb as [Eb ->]. apply negb_false_iff in Eb. intros _.
      repeat split; eauto.
    + intros (_ & -> & Hk). destruct k; [now destruct Hk|reflexivity].
  - rewrite (sees_not F WF HN). split; [discriminate|]. intros ((R & ps & k & H) & _). now destruct (HN R ps k).
Qed.

End Functor.
