(** The execution functions of Exec.v agree with the specification of ExecSpec.v. *)
From Coq Require Import Ascii String NArith ZArith Bool PeanoNat Lia List.
Import ListNotations.
From Verif Require Import Util Base StringConv StringConvSpec StringConvProofs
  SerializerSpec Serializer SerializerProofs Lexer UMap Exec ExecSpec.

(** ** Messages *)

Lemma printf_zu_canonical n : canonical (Z.of_nat n) (printf_zu n).
Proof. unfold printf_zu, printf_u. apply dec_canonical. lia. Qed.

Lemma digit_range c d : digit c d -> (0 <= d < 10)%Z.
Proof. intros []. lia. Qed.

Lemma digit_det c d d' : digit c d -> digit c d' -> d = d'.
Proof.
  intros H H'. inversion H as [k Hk E]. inversion H' as [k' Hk' E']. subst.
  enough (k = k') by congruence.
  apply (f_equal nat_of_ascii) in E'. rewrite !nat_ascii_embedding in E' by lia. lia.
Qed.

Lemma digit_zero c : digit c 0 -> c = ascii_of_nat 48.
Proof. intros H. inversion H. now replace k with 0 by lia. Qed.

Lemma digit_inj c c' d : digit c d -> digit c' d -> c = c'.
Proof.
  intros H H'. inversion H as [k Hk E]. inversion H' as [k' Hk' E']. subst.
  f_equal. lia.
Qed.

Lemma digits_nonempty s z : digits s z -> s <> [].
Proof. intros [c d H|s' c z' d H1 H2]; [discriminate|]. now destruct s'. Qed.

Lemma digits_pos s z : digits s z -> hd_error s <> Some (ascii_of_nat 48) -> (0 < z)%Z.
Proof.
  induction 1 as [c d H|s c z d H1 IH H2]; intros N.
  - pose proof (digit_range _ _ H). destruct (Z.eq_dec d 0) as [->|]; [|lia].
    exfalso. apply N. simpl. now rewrite (digit_zero _ H).
  - pose proof (digits_nonempty _ _ H1). pose proof (digit_range _ _ H2).
    assert (0 < z)%Z; [|lia]. apply IH. now destruct s.
Qed.

Lemma digits_unique s z : digits s z -> hd_error s <> Some (ascii_of_nat 48) ->
  forall t, digits t z -> hd_error t <> Some (ascii_of_nat 48) -> s = t.
Proof.
  induction 1 as [c d H|s c z d H1 IH H2]; intros N t T Nt.
  - inversion T as [c' d' H'|s' c' z' d' H1' H2']; subst.
    + f_equal. eapply digit_inj; eauto.
    + pose proof (digit_range _ _ H). pose proof (digit_range _ _ H2').
      assert (0 < z')%Z; [|lia].
      apply (digits_pos s'); [exact H1'|]. pose proof (digits_nonempty _ _ H1'). now destruct s'.
  - pose proof (digits_nonempty _ _ H1). pose proof (digit_range _ _ H2).
    assert (Ns : hd_error s <> Some (ascii_of_nat 48)) by now destruct s.
    pose proof (digits_pos _ _ H1 Ns).
    inversion T as [c' d' H'|s' c' z' d' H1' H2' Es Ez]; subst.
    + pose proof (digit_range _ _ H'). lia.
    + pose proof (digit_range _ _ H2').
      change (10 * z' + d' = 10 * z + d)%Z in Ez.
      assert (z' = z) by lia. assert (d' = d) by lia. subst.
      f_equal; [|f_equal; eapply digit_inj; eauto].
      apply IH; auto. pose proof (digits_nonempty _ _ H1'). now destruct s'.
Qed.

Lemma canonical_unique z a b : (0 <= z)%Z -> canonical z a -> canonical z b -> a = b.
Proof.
  intros P A B.
  inversion A as [|c ds z0 H0 Hd Hc|z0 s0 H0 H1]; subst; [| |lia];
    (inversion B as [|c' ds' z0' H0' Hd' Hc'|z0' s0' H0' H1']; subst); try lia; try reflexivity.
  apply (digits_unique _ z); auto; simpl; congruence.
Qed.

Lemma canonical_zu n a : canonical (Z.of_nat n) a -> a = printf_zu n.
Proof. intros H. apply (canonical_unique (Z.of_nat n)); [lia|exact H|apply printf_zu_canonical]. Qed.

Fixpoint enum_tail (l : list nat) : bytes :=
  match l with
  | [] => []
  | [n] => lit " or " ++ printf_zu n
  | n :: r => lit ", " ++ printf_zu n ++ enum_tail r
  end.

Definition enum_text (l : list nat) : bytes :=
  match l with [] => [] | n :: r => printf_zu n ++ enum_tail r end.

Lemma enum_text_enumeration l : enumeration l (enum_text l).
Proof.
  destruct l as [|n l]; [constructor|]. revert n.
  induction l as [|m l IH]; intros n.
  - simpl. rewrite app_nil_r. constructor. apply printf_zu_canonical.
  - destruct l as [|k l].
    + simpl. constructor; apply printf_zu_canonical.
    + change (enum_text (n :: m :: k :: l))
        with (printf_zu n ++ lit ", " ++ enum_text (m :: k :: l)).
      constructor; [apply printf_zu_canonical|apply IH].
Qed.

Lemma enum_tail_no_nul l : no_nul (enum_tail l).
Proof.
  induction l as [|n l IH]; [intros []|]. destruct l as [|m l].
  - change (no_nul (lit " or " ++ printf_zu n)).
    apply no_nul_app; [now apply no_nul_lit|apply printf_zu_no_nul].
  - change (no_nul (lit ", " ++ printf_zu n ++ enum_tail (m :: l))).
    apply no_nul_app; [now apply no_nul_lit|].
    apply no_nul_app; [apply printf_zu_no_nul|apply IH].
Qed.

Lemma enumeration_det l t : enumeration l t -> t = enum_text l.
Proof.
  induction 1 as [|n a H|n m a b H H'|n m k l a r H _ IH]; [reflexivity| | |].
  - simpl. now rewrite app_nil_r, (canonical_zu _ _ H).
  - simpl. now rewrite (canonical_zu _ _ H), (canonical_zu _ _ H').
  - rewrite (canonical_zu _ _ H), IH. reflexivity.
Qed.

Lemma enum_text_no_nul l : no_nul (enum_text l).
Proof.
  destruct l; [intros []|]. apply no_nul_app; [apply printf_zu_no_nul|apply enum_tail_no_nul].
Qed.

(** ** Lists *)

Lemma replaced_set_nth {A} (x : A) i l : replaced x i l (set_nth l i x).
Proof.
  revert i. induction l as [|y l IH]; intros i.
  - destruct i; constructor.
  - destruct i; simpl; constructor. apply IH.
Qed.

Lemma replaced_det {A} (x : A) i l l' : replaced x i l l' -> l' = set_nth l i x.
Proof. induction 1; simpl; try reflexivity; congruence. Qed.

Lemma output_app a b : output_of (a ++ b) = output_of a ++ output_of b.
Proof.
  induction a as [|[]]; simpl; rewrite ?IHa; rewrite <- ?app_assoc; try reflexivity.
Qed.

Lemma errors_app a b : errors_of (a ++ b) = errors_of a ++ errors_of b.
Proof. induction a as [|[]]; simpl; rewrite ?IHa; reflexivity. Qed.

Lemma errors_in evs e : In e (errors_of evs) <-> In (Reported e) evs.
Proof.
  induction evs as [|[s|s|d] r IH]; simpl; [tauto| | |];
    rewrite IH; intuition congruence.
Qed.

Lemma has_error_errors evs b :
  has_error evs b <-> b = match errors_of evs with [] => false | _ => true end.
Proof.
  unfold has_error. split.
  - intros H. destruct (errors_of evs) as [|e r] eqn:E.
    + destruct b; [|reflexivity]. destruct H as [H _]. destruct (H eq_refl) as (e & I).
      apply errors_in in I. rewrite E in I. destruct I.
    + apply H. exists e. apply errors_in. rewrite E. now left.
  - intros ->. destruct (errors_of evs) as [|e r] eqn:E.
    + split; [discriminate|]. intros (e & I). apply errors_in in I. rewrite E in I. destruct I.
    + split; [|reflexivity]. intros _. exists e. apply errors_in. rewrite E. now left.
Qed.

(** ** Call contexts *)

(** The call context after the events [evs], with named arguments [nm]. *)
Definition ctx_of (name : bytes) (args : list value) (evs : list event)
           (nm : list (bytes * value)) : callctx :=
  CallCtx (Input name args nm) (Result no_input (errors_of evs) None (output_of evs)).

Lemma ctx_log n a evs nm t :
  cc_output (ctx_of n a evs nm) t = ctx_of n a (evs ++ [Logged t]) nm.
Proof.
  unfold cc_output, ctx_of; simpl. rewrite output_app, errors_app. simpl.
  now rewrite !app_nil_r.
Qed.

Lemma ctx_logline n a evs nm t :
  cc_output (cc_output (ctx_of n a evs nm) t) [newline] = ctx_of n a (evs ++ [LoggedLine t]) nm.
Proof.
  unfold cc_output, ctx_of; simpl. rewrite output_app, errors_app. simpl.
  now rewrite !app_nil_r, <- app_assoc.
Qed.

Lemma ctx_report n a evs nm e :
  cc_reportError (ctx_of n a evs nm) e = ctx_of n a (evs ++ [Reported e]) nm.
Proof.
  unfold cc_reportError, ctx_of; simpl. rewrite output_app, errors_app. simpl.
  now rewrite !app_nil_r.
Qed.

Lemma ctx_has n a evs nm : has_error evs (cc_hasErrors (ctx_of n a evs nm)).
Proof. apply has_error_errors. reflexivity. Qed.

Lemma ctx_put n a evs nm i nv :
  cc_put_named (ctx_of n a evs nm) i nv = ctx_of n a evs (set_nth nm i nv).
Proof. reflexivity. Qed.

(** ** Conversions *)


Fixpoint from_all (ps : list serializer) (args : list value) : expecteds ps :=
  match ps with
  | [] => tt
  | T :: r => match args with
              | v :: vs => (from_value T v, from_all r vs)
              | [] => (Error [], from_all r [])
              end
  end.

Fixpoint errs_of (ps : list serializer) : expecteds ps -> list bytes :=
  match ps with
  | [] => fun _ => []
  | T :: r => fun es => match fst es with
                        | Error e => e :: errs_of r (snd es)
                        | Value _ => errs_of r (snd es)
                        end
  end.

Lemma convert_from_all ps : forall i pre args,
  length pre = i -> length args = length ps ->
  convert ps i (pre ++ args) = Done (from_all ps args).
Proof.
  induction ps as [|T ps IH]; intros i pre args Hi Hl; [reflexivity|].
  destruct args as [|v args]; [discriminate|].
  specialize (IH (S i) (pre ++ [v]) args).
  rewrite <- app_assoc in IH. simpl in IH, Hl |- *.
  unfold at_. rewrite nth_error_app2 by lia. replace (i - length pre) with 0 by lia.
  simpl. rewrite IH; [reflexivity| |lia]. rewrite app_length. simpl. lia.
Qed.

Lemma any_failed_errs ps : forall es,
  any_failed ps es = match errs_of ps es with [] => false | _ => true end.
Proof.
  induction ps as [|T ps IH]; intros es; [reflexivity|].
  simpl. destruct (fst es); [apply IH|reflexivity].
Qed.

Lemma report_failed_errs ps : forall es c,
  report_failed ps es c = fold_left cc_reportError (errs_of ps es) c.
Proof.
  induction ps as [|T ps IH]; intros es c; [reflexivity|].
  simpl. destruct (fst es); simpl; apply IH.
Qed.

Lemma from_all_errors ps : forall args,
  length args = length ps -> conversion_errors ps args (errs_of ps (from_all ps args)).
Proof.
  induction ps as [|T ps IH]; intros [|v args] Hl; try discriminate; [constructor|].
  simpl. destruct (from_value T v) as [x|e] eqn:E.
  - eapply ce_good; [exact E|]. apply IH. simpl in Hl. lia.
  - eapply ce_bad; [exact E|]. apply IH. simpl in Hl. lia.
Qed.

Lemma conversion_errors_det ps args es :
  conversion_errors ps args es -> es = errs_of ps (from_all ps args).
Proof. induction 1; simpl; rewrite ?H; simpl; congruence. Qed.

Lemma conversion_errors_length ps args es :
  conversion_errors ps args es -> length args = length ps.
Proof. induction 1; simpl; congruence. Qed.

Lemma from_all_values ps : forall args,
  length args = length ps -> errs_of ps (from_all ps args) = [] ->
  exists vs, take_values ps (from_all ps args) = Done vs /\ converts ps args vs.
Proof.
  induction ps as [|T ps IH]; intros [|v args] Hl He; try discriminate.
  - exists tt. split; [reflexivity|constructor].
  - simpl in Hl, He |- *. destruct (from_value T v) as [x|e] eqn:E; [|discriminate].
    simpl in He. destruct (IH args) as (vs & H1 & H2); [lia|exact He|].
    exists (x, vs). rewrite H1. split; [reflexivity|]. now constructor.
Qed.

Lemma converts_from_all ps args vs :
  converts ps args vs ->
  errs_of ps (from_all ps args) = [] /\ take_values ps (from_all ps args) = Done vs.
Proof.
  induction 1 as [|T ps v args x xs H _ [IH1 IH2]]; [split; reflexivity|].
  simpl. rewrite H. simpl. rewrite IH2. auto.
Qed.

Lemma converts_length ps args vs : converts ps args vs -> length args = length ps.
Proof. induction 1; simpl; congruence. Qed.

Lemma fold_report n a es : forall evs nm,
  fold_left cc_reportError es (ctx_of n a evs nm) = ctx_of n a (evs ++ map Reported es) nm.
Proof.
  induction es as [|e es IH]; intros evs nm; simpl; [now rewrite app_nil_r|].
  rewrite ctx_report, IH, <- app_assoc. reflexivity.
Qed.

Lemma errors_reported es : errors_of (map Reported es) = es.
Proof. induction es; simpl; congruence. Qed.
Lemma output_reported es : output_of (map Reported es) = [].
Proof. induction es; simpl; congruence. Qed.

(** ** Results *)

Lemma rtext_shows r (x : rcarrier r) t : rtext r x = Done t -> shows r x t.
Proof.
  destruct r as [|T|T|nm]; simpl in *.
  - intros [= <-]. constructor.
  - intros [= <-]. constructor.
  - destruct x; intros [= <-]; constructor.
  - destruct x as [s|]; simpl; [|discriminate]. intros [= <-].
    constructor. apply before_nul_c_str.
Qed.

Lemma before_nul_det s t : before_nul s t -> t = c_str s.
Proof.
  intros [q Q|q r Q].
  - symmetry. now apply c_str_no_nul.
  - induction q as [|c q IH]; [reflexivity|]. simpl.
    destruct (N.eqb_spec (uchar c) 0) as [E|E].
    + exfalso. apply Q. left. unfold uchar in E.
      rewrite <- (ascii_N_embedding c), E. reflexivity.
    + f_equal. apply IH. intros I. apply Q. now right.
Qed.

Lemma shows_rtext r (x : rcarrier r) t : shows r x t -> rtext r x = Done t.
Proof.
  intros []; simpl; try reflexivity. now rewrite (before_nul_det _ _ H).
Qed.

Section Agree.
Context {W F : Type}.
Variable code : F -> functor W F.
Variable sg catching : bool.

Local Notation state := (state W F).
Local Notation runs := (runs code sg catching).
Local Notation answers := (answers code sg catching).
Local Notation executes := (executes code sg catching).
Local Notation nested_exec := (nested_exec code sg catching).
Local Notation exec_text := (exec_text code sg catching).
Local Notation exec_input := (exec_input code sg catching).
Local Notation execute_input := (execute_input code sg catching).
Local Notation execute_text := (execute_text code sg catching).
Local Notation execute_ctx := (execute_ctx code sg catching).

Lemma is_live_stored (s : state) sid : is_live s sid = true <-> stored s sid.
Proof.
  unfold is_live, stored. rewrite existsb_exists. split.
  - intros (n & I & H). apply existsb_exists in H. destruct H as ([i f] & J & E).
    apply Nat.eqb_eq in E. simpl in E. subst. eauto.
  - intros (n & f & I & J). exists n. split; [exact I|]. apply existsb_exists.
    exists (sid, f). split; [exact J|apply Nat.eqb_refl].
Qed.

Definition sound_nested (nested : nested_call W F) : Prop :=
  forall s cmd s' r, nested s cmd = Done (s', r) -> executes s cmd s' r.

(** A run of the model is a run of the specification. *)
Lemma run_sound (nested : nested_call W F) (N : sound_nested nested) R n a sid (p : prog W F R) :
  forall s evs nm s' c' fin,
  run_prog sg nested sid s (ctx_of n a evs nm) p = Done (s', c', fin) ->
  exists evs' nm', c' = ctx_of n a evs' nm' /\ runs R sid s evs nm p s' evs' nm' fin.
Proof.
  induction p as [r|x|t k IH|t k IH|e k IH|k IH|k IH|i nv k IH|k IH|w k IH|k IH|nme fs k IH
                 |nme k IH|k IH|l k IH|cmd k IH];
    intros s evs nm s' c' fin H; simpl in H.
  - injection H as <- <- <-. do 2 eexists. split; [reflexivity|constructor].
  - injection H as <- <- <-. do 2 eexists. split; [reflexivity|constructor].
  - rewrite ctx_log in H. apply IH in H. destruct H as (e1 & n1 & -> & H).
    do 2 eexists. split; [reflexivity|]. now constructor.
  - rewrite ctx_logline in H. apply IH in H. destruct H as (e1 & n1 & -> & H).
    do 2 eexists. split; [reflexivity|]. now constructor.
  - rewrite ctx_report in H. apply IH in H. destruct H as (e1 & n1 & -> & H).
    do 2 eexists. split; [reflexivity|]. now constructor.
  - apply IH in H. destruct H as (e1 & n1 & -> & H).
    do 2 eexists. split; [reflexivity|]. econstructor; [apply (ctx_has n a evs nm)|exact H].
  - apply IH in H. destruct H as (e1 & n1 & -> & H).
    do 2 eexists. split; [reflexivity|]. now constructor.
  - rewrite ctx_put in H. apply IH in H. destruct H as (e1 & n1 & -> & H).
    do 2 eexists. split; [reflexivity|]. econstructor; [apply replaced_set_nth|exact H].
  - apply IH in H. destruct H as (e1 & n1 & -> & H).
    do 2 eexists. split; [reflexivity|]. now constructor.
  - apply IH in H. destruct H as (e1 & n1 & -> & H).
    do 2 eexists. split; [reflexivity|]. destruct s. now constructor.
  - destruct (is_live s sid) eqn:L; [|discriminate].
    apply IH in H. destruct H as (e1 & n1 & -> & H).
    do 2 eexists. split; [reflexivity|]. constructor; [now apply is_live_stored|exact H].
  - destruct (add sg s nme fs) as [s1|] eqn:E; [|discriminate].
    apply IH in H. destruct H as (e1 & n1 & -> & H).
    do 2 eexists. split; [reflexivity|]. econstructor; eauto.
  - destruct (remove sg s nme) as [s1|] eqn:E; [|discriminate].
    apply IH in H. destruct H as (e1 & n1 & -> & H).
    do 2 eexists. split; [reflexivity|]. econstructor; eauto.
  - apply IH in H. destruct H as (e1 & n1 & -> & H).
    do 2 eexists. split; [reflexivity|]. now constructor.
  - apply IH in H. destruct H as (e1 & n1 & -> & H).
    do 2 eexists. split; [reflexivity|]. destruct s. now constructor.
  - destruct (nested s cmd) as [[s1 r]|] eqn:E; [|discriminate]. simpl in H.
    apply IH in H. destruct H as (e1 & n1 & -> & H).
    do 2 eexists. split; [reflexivity|]. econstructor; eauto.
Qed.

Lemma names_users ps : names (map PUser ps) = map tname ps.
Proof. induction ps; simpl; congruence. Qed.

Lemma user_declared (f : functor W F) : user_arguments (declared f) = map PUser (f_params f).
Proof.
  unfold declared. destruct (f_context f); [reflexivity|]. now destruct (f_params f).
Qed.

Lemma parameterTypes_names (f : functor W F) : parameterTypes f = map tname (f_params f).
Proof. unfold parameterTypes. rewrite user_declared. apply names_users. Qed.

Lemma arity_params (f : functor W F) : arity f = length (f_params f).
Proof. unfold arity. rewrite parameterTypes_names. apply map_length. Qed.

Lemma dispatch_none nested fs s c :
  none_accepts code fs (length (i_args (cc_input c))) ->
  dispatch code sg nested fs s c = Done None.
Proof.
  induction fs as [|f fs IH]; intros H; [reflexivity|]. simpl.
  assert (E : (arity (code (snd f)) =? length (i_args (cc_input c))) = false).
  { apply Nat.eqb_neq. rewrite arity_params. apply H. now left. }
  rewrite E. apply IH. intros g I. apply H. now right.
Qed.

Lemma dispatch_chosen nested fs s c f :
  chosen code fs (length (i_args (cc_input c))) f ->
  dispatch code sg nested fs s c =
  (x <- invokeTrampoline code sg nested f s c ;; Done (Some x)).
Proof.
  intros (before & after & -> & Ha & Hb).
  induction before as [|g before IH]; simpl; rewrite arity_params.
  - now rewrite Ha, Nat.eqb_refl.
  - destruct (Nat.eqb_spec (length (f_params (code (snd g)))) (length (i_args (cc_input c)))) as [E|_].
    + exfalso. apply (Hb g); [now left|exact E].
    + apply IH. intros h I. apply Hb. now right.
Qed.

Lemma chosen_or_none fs n : (exists f, chosen code fs n f) \/ none_accepts code fs n.
Proof.
  induction fs as [|f fs IH]; [right; intros g []|].
  destruct (Nat.eq_dec (length (f_params (code (snd f)))) n) as [E|E].
  - left. exists f, [], fs. repeat split; auto.
  - destruct IH as [(g & b & a & -> & Hg & Hb)|H].
    + left. exists g, (f :: b), a. repeat split; auto. intros h [<-|I]; auto.
    + right. intros g [<-|I]; auto.
Qed.

Lemma chosen_unique fs n f g : chosen code fs n f -> chosen code fs n g -> f = g.
Proof.
  intros (b & a & E & Hf & Hb) (b' & a' & E' & Hg & Hb'). subst fs. revert b' E' Hb'.
  induction b as [|x b IH]; intros [|y b'] E' Hb'; simpl in E'; injection E' as E1 E2.
  - congruence.
  - exfalso. subst y. apply (Hb' f); [now left|exact Hf].
  - exfalso. subst x. apply (Hb g); [now left|exact Hg].
  - apply (IH (fun z I => Hb z (or_intror I)) b'); auto. intros z I. apply Hb'. now right.
Qed.

Lemma trampoline nested f s n a nm :
  length a = length (f_params (code (snd f))) ->
  invokeTrampoline code sg nested f s (ctx_of n a [] nm) =
  invoke sg nested (fst f) (code (snd f)) s (ctx_of n a [] nm)
         (from_all (f_params (code (snd f))) a).
Proof.
  intros H. unfold invokeTrampoline. simpl.
  pose proof (convert_from_all _ 0 [] a eq_refl H) as C. simpl in C. now rewrite C.
Qed.

Lemma invoke_bad nested sid (f : functor W F) s n a nm es :
  conversion_errors (f_params f) a es -> es <> [] ->
  invoke sg nested sid f s (ctx_of n a [] nm) (from_all (f_params f) a) =
  Done (s, ctx_of n a (map Reported es) nm, inl tt).
Proof.
  intros C N. apply conversion_errors_det in C. unfold invoke.
  rewrite any_failed_errs, report_failed_errs, <- C. destruct es; [easy|].
  now rewrite fold_report.
Qed.

Lemma invoke_good nested sid (f : functor W F) s n a nm vs :
  converts (f_params f) a vs ->
  invoke sg nested sid f s (ctx_of n a [] nm) (from_all (f_params f) a) =
  (r <- run_prog sg nested sid s (ctx_of n a [] nm) (f_body f vs) ;;
   match r with
   | (s', c', inr x) => Done (s', c', inr x)
   | (s', c', inl v) =>
       returnValue <- rtext (f_result f) v ;;
       Done (s', if cc_hasErrors c' then c' else cc_return c' returnValue, inl tt)
   end).
Proof.
  intros C. apply converts_from_all in C. destruct C as [C1 C2]. unfold invoke.
  now rewrite any_failed_errs, C1, C2.
Qed.

Lemma expected_loop_tail fs : forall i n acc,
  0 < i -> i + length fs = n -> fs <> [] ->
  expected_loop code fs i n acc =
  acc ++ enum_tail (map (fun f => length (f_params (code (snd f)))) fs).
Proof.
  induction fs as [|f fs IH]; intros i n acc Hi Hn Hne; [easy|].
  simpl in Hn |- *. rewrite arity_params.
  assert (Z : (0 <? i) = true) by now apply Nat.ltb_lt. rewrite Z. simpl.
  destruct fs as [|g fs].
  - simpl in Hn. assert (E : (i =? n - 1) = true) by (apply Nat.eqb_eq; lia).
    rewrite E. simpl. now rewrite <- app_assoc.
  - simpl in Hn. assert (E : (i =? n - 1) = false) by (apply Nat.eqb_neq; lia).
    rewrite E. rewrite IH; [|lia|simpl; lia|discriminate].
    simpl. rewrite <- !app_assoc. reflexivity.
Qed.

Lemma expected_loop_text fs :
  expected_loop code fs 0 (length fs) [] =
  enum_text (map (fun f => length (f_params (code (snd f)))) fs).
Proof.
  destruct fs as [|f fs]; [reflexivity|]. simpl. rewrite arity_params.
  destruct fs as [|g fs].
  - simpl. now rewrite app_nil_r.
  - rewrite expected_loop_tail; [reflexivity|lia|simpl; lia|discriminate].
Qed.

Lemma wrong_arity name fs n :
  arity_message name (map (fun f => length (f_params (code (snd f)))) fs) n
                (wrongArityError code name fs n).
Proof.
  exists (c_str name), (enum_text (map (fun f => length (f_params (code (snd f)))) fs)), (printf_zu n).
  repeat split; [apply before_nul_c_str|apply enum_text_enumeration|apply printf_zu_canonical|].
  unfold wrongArityError. rewrite expected_loop_text, (c_str_no_nul (enum_text _)) by apply enum_text_no_nul.
  reflexivity.
Qed.

Definition exn_text (x : exn) : bytes :=
  match x with
  | StdException what => lit "Exception caught during execution: " ++ c_str what
  | OtherException => lit "Exception caught during execution"
  end.

Lemma exn_text_spec x : exception_message x (exn_text x).
Proof. destruct x; constructor. apply before_nul_c_str. Qed.

Lemma exn_text_det x m : exception_message x m -> m = exn_text x.
Proof. intros []; simpl; [|reflexivity]. now rewrite (before_nul_det _ _ H). Qed.

(** The four ways a command can go, as equations. *)
Lemma input_unnamed nested s inp :
  i_name inp = [] ->
  execute_input nested s inp =
  Done (s, inl (failure inp [lit "No function name is specified"])).
Proof. intros E. unfold execute_input, Exec.execute_input, execute_ctx. simpl. now rewrite E. Qed.

Lemma input_unknown nested s inp :
  i_name inp <> [] -> get sg s (i_name inp) = Done None ->
  execute_input nested s inp =
  Done (s, inl (failure inp [lit "No function '" ++ c_str (i_name inp) ++ lit "' is registered"])).
Proof.
  intros E G. unfold Exec.execute_input, Exec.execute_ctx. simpl.
  destruct (i_name inp) as [|c r] eqn:Q; [easy|]. rewrite G. reflexivity.
Qed.

Lemma input_arity nested s inp cmd :
  i_name inp <> [] -> get sg s (i_name inp) = Done (Some cmd) ->
  none_accepts code (c_functors cmd) (length (i_args inp)) ->
  execute_input nested s inp =
  Done (s, inl (failure inp [wrongArityError code (i_name inp) (c_functors cmd)
                               (length (i_args inp))])).
Proof.
  intros E G N. unfold Exec.execute_input, Exec.execute_ctx. simpl.
  destruct (i_name inp) as [|c r] eqn:Q; [easy|]. rewrite G. simpl.
  rewrite dispatch_none by exact N. reflexivity.
Qed.

Lemma input_chosen nested s inp cmd f :
  i_name inp <> [] -> get sg s (i_name inp) = Done (Some cmd) ->
  chosen code (c_functors cmd) (length (i_args inp)) f ->
  execute_input nested s inp =
  (o <- invoke sg nested (fst f) (code (snd f)) s (ctx_of (i_name inp) (i_args inp) [] (i_named inp))
               (from_all (f_params (code (snd f))) (i_args inp)) ;;
   match o with
   | (s', c', inl tt) =>
       Done (s', inl (Result (cc_input c') (r_errors (cc_result c')) (r_return (cc_result c'))
                             (r_output (cc_result c'))))
   | (s', c', inr x) =>
       if catching
       then Done (s', inl (Result (cc_input c') (r_errors (cc_result c') ++ [exn_text x])
                                  (r_return (cc_result c')) (r_output (cc_result c'))))
       else Done (s', inr x)
   end).
Proof.
  intros E G C. unfold Exec.execute_input, Exec.execute_ctx. simpl.
  destruct inp as [name args nm]. simpl in *.
  destruct name as [|ch r] eqn:Q; [easy|]. rewrite G. simpl. rewrite <- Q in *.
  change (CallCtx (Input name args nm) empty_result) with (ctx_of name args [] nm).
  rewrite (dispatch_chosen nested _ s (ctx_of name args [] nm) f C).
  rewrite trampoline by (destruct C as (? & ? & _ & C & _); simpl in C; now symmetry).
  destruct (invoke _ _ _ _ _ _ _) as [[[s' c'] [[]|x]]|]; simpl; try reflexivity.
  destruct catching; [|reflexivity]. destruct x; reflexivity.
Qed.

Lemma input_conversion nested s inp cmd f es :
  i_name inp <> [] -> get sg s (i_name inp) = Done (Some cmd) ->
  chosen code (c_functors cmd) (length (i_args inp)) f ->
  conversion_errors (f_params (code (snd f))) (i_args inp) es -> es <> [] ->
  execute_input nested s inp = Done (s, inl (failure inp es)).
Proof.
  intros E G C H N. rewrite (input_chosen nested s inp cmd f E G C).
  rewrite (invoke_bad _ _ _ _ _ _ _ es H N). simpl.
  rewrite errors_reported, output_reported. now destruct inp.
Qed.

Lemma answers_sound nested (N : sound_nested nested) s inp s' r :
  execute_input nested s inp = Done (s', r) -> answers s inp s' r.
Proof.
  intros H. destruct (i_name inp) as [|ch nr] eqn:Q.
  { rewrite input_unnamed in H by exact Q. injection H as <- <-. now constructor. }
  assert (E : i_name inp <> []) by now rewrite Q.
  destruct (get sg s (i_name inp)) as [[cmd|]|] eqn:G.
  - destruct (chosen_or_none (c_functors cmd) (length (i_args inp))) as [(f & C)|C].
    + assert (L : length (i_args inp) = length (f_params (code (snd f)))).
      { destruct C as (? & ? & _ & C & _). now symmetry. }
      destruct (errs_of _ (from_all (f_params (code (snd f))) (i_args inp))) as [|e es] eqn:B.
      * destruct (from_all_values _ _ L B) as (vs & _ & V).
        rewrite (input_chosen nested s inp cmd f E G C), (invoke_good _ _ _ _ _ _ _ vs V) in H.
        destruct (run_prog _ _ _ _ _ _) as [[[s1 c1] fin]|] eqn:P; [|discriminate].
        apply run_sound in P; [|exact N]. destruct P as (evs & nm & -> & P).
        destruct fin as [v|x]; simpl in H.
        -- destruct (rtext (f_result (code (snd f))) v) as [t|] eqn:T; [|discriminate].
           apply rtext_shows in T. simpl in H.
           assert (K : r = inl (Result (Input (i_name inp) (i_args inp) nm) (errors_of evs)
                         (match errors_of evs with [] => t | _ => None end) (output_of evs)) /\ s' = s1).
           { unfold cc_hasErrors in H. simpl in H.
             destruct (errors_of evs) eqn:Z; simpl in H; rewrite ?Z in H; injection H as <- <-; auto. }
           destruct K as [-> ->]. eapply answers_return; eauto.
        -- destruct catching eqn:K; injection H as <- <-.
           ++ eapply answers_caught; eauto. apply exn_text_spec.
           ++ eapply answers_thrown; eauto.
      * assert (CE : conversion_errors (f_params (code (snd f))) (i_args inp) (e :: es)).
        { rewrite <- B. now apply from_all_errors. }
        rewrite (input_conversion nested s inp cmd f _ E G C CE) in H by discriminate.
        injection H as <- <-. eapply answers_conversion; eauto. discriminate.
    + rewrite (input_arity nested s inp cmd E G C) in H. injection H as <- <-.
      eapply answers_arity; eauto. apply wrong_arity.
  - rewrite (input_unknown nested s inp E G) in H. injection H as <- <-.
    apply answers_unknown; auto. exists (c_str (i_name inp)).
    split; [apply before_nul_c_str|reflexivity].
  - exfalso. unfold Exec.execute_input, Exec.execute_ctx in H. simpl in H.
    rewrite Q in H. rewrite <- Q in H. rewrite G in H. discriminate.
Qed.

Lemma text_sound nested (N : sound_nested nested) s cmd s' r :
  execute_text nested s cmd = Done (s', r) -> executes s cmd s' r.
Proof.
  unfold Exec.execute_text. destruct (s_lexer s) as [lex|] eqn:L; [|discriminate].
  destruct (lex cmd) as [[inp|e]|] eqn:P; simpl; intros H; try discriminate.
  - eapply executes_parsed; eauto. now apply (answers_sound nested).
  - injection H as <- <-. eapply executes_syntax; eauto.
Qed.

Lemma nested_sound d : sound_nested (nested_exec d).
Proof.
  induction d as [|d IH]; [intros s cmd s' r H; discriminate|].
  intros s cmd s' r H. now apply (text_sound (nested_exec d)).
Qed.

Lemma exec_text_sound d s cmd s' r : exec_text d s cmd = Done (s', r) -> executes s cmd s' r.
Proof. apply text_sound, nested_sound. Qed.

Lemma exec_input_sound d s inp s' r : exec_input d s inp = Done (s', r) -> answers s inp s' r.
Proof. apply answers_sound, nested_sound. Qed.

(** ** Completeness: every specified execution is one of the model, for a large enough
    nesting bound, and larger bounds give the same result. *)

Definition extends (n1 n2 : nested_call W F) : Prop :=
  forall s cmd x, n1 s cmd = Done x -> n2 s cmd = Done x.

Lemma run_extends n1 n2 R sid (p : prog W F R) (X : extends n1 n2) : forall s c x,
  run_prog sg n1 sid s c p = Done x -> run_prog sg n2 sid s c p = Done x.
Proof.
  induction p as [r|y|t k IH|t k IH|e k IH|k IH|k IH|i nv k IH|k IH|w k IH|k IH|nme fs k IH
                 |nme k IH|k IH|l k IH|cmd k IH]; intros s c x H; simpl in *; auto.
  - destruct (is_live s sid); auto.
  - destruct (add sg s nme fs); simpl in *; auto.
  - destruct (remove sg s nme); simpl in *; auto.
  - destruct (n1 s cmd) as [[s1 r]|] eqn:E; [|discriminate].
    rewrite (X _ _ _ E). simpl in *. auto.
Qed.

Lemma dispatch_extends n1 n2 (X : extends n1 n2) fs s c y :
  dispatch code sg n1 fs s c = Done y -> dispatch code sg n2 fs s c = Done y.
Proof.
  induction fs as [|f fs IH]; simpl; [auto|].
  destruct (arity (code (snd f)) =? length (i_args (cc_input c))); [|apply IH].
  unfold invokeTrampoline. destruct (convert _ _ _) as [es|]; simpl; [|discriminate].
  unfold invoke. destruct (any_failed _ _); [auto|].
  destruct (take_values _ _) as [vs|]; simpl; [|discriminate].
  destruct (run_prog sg n1 _ _ _ _) as [z|] eqn:P; [|discriminate].
  rewrite (run_extends _ _ _ _ _ X _ _ _ P). auto.
Qed.

Lemma input_extends n1 n2 (X : extends n1 n2) s inp x :
  execute_input n1 s inp = Done x -> execute_input n2 s inp = Done x.
Proof.
  intros H. unfold Exec.execute_input, Exec.execute_ctx in *. simpl in *.
  destruct (i_name inp) as [|ch r]; [exact H|].
  destruct (get sg s (ch :: r)) as [[cmd|]|]; simpl in *; try exact H.
  destruct (dispatch code sg n1 _ _ _) as [o|] eqn:E; [|discriminate].
  rewrite (dispatch_extends n1 n2 X _ _ _ _ E). exact H.
Qed.

Lemma text_extends n1 n2 (X : extends n1 n2) s cmd x :
  execute_text n1 s cmd = Done x -> execute_text n2 s cmd = Done x.
Proof.
  unfold Exec.execute_text. destruct (s_lexer s); [|auto].
  destruct (l cmd) as [[]|]; simpl; auto. now apply input_extends.
Qed.

Lemma nested_extends d : forall e, extends (nested_exec d) (nested_exec (d + e)).
Proof.
  induction d as [|d IH]; intros e s cmd x H; [discriminate|]. simpl in *.
  eapply text_extends; [|exact H]. apply IH.
Qed.

Lemma exec_input_mono d d' s inp x :
  d <= d' -> exec_input d s inp = Done x -> exec_input d' s inp = Done x.
Proof.
  intros L. replace d' with (d + (d' - d)) by lia. apply input_extends, nested_extends.
Qed.

Lemma exec_text_mono d d' s cmd x :
  d <= d' -> exec_text d s cmd = Done x -> exec_text d' s cmd = Done x.
Proof.
  intros L. replace d' with (d + (d' - d)) by lia. apply text_extends, nested_extends.
Qed.

Lemma run_mono d d' R sid s c (p : prog W F R) x :
  d <= d' -> run_prog sg (nested_exec d) sid s c p = Done x ->
  run_prog sg (nested_exec d') sid s c p = Done x.
Proof.
  intros L. replace d' with (d + (d' - d)) by lia. apply run_extends, nested_extends.
Qed.

Scheme runs_mut := Minimality for ExecSpec.runs Sort Prop
  with answers_mut := Minimality for ExecSpec.answers Sort Prop
  with executes_mut := Minimality for ExecSpec.executes Sort Prop.
Combined Scheme exec_mut from runs_mut, answers_mut, executes_mut.

Lemma complete_all :
  (forall R sid s evs nm p s' evs' nm' fin, runs R sid s evs nm p s' evs' nm' fin ->
     exists d, forall n a,
       run_prog sg (nested_exec d) sid s (ctx_of n a evs nm) p = Done (s', ctx_of n a evs' nm', fin)) /\
  (forall s inp s' r, answers s inp s' r -> exists d, exec_input d s inp = Done (s', r)) /\
  (forall s cmd s' r, executes s cmd s' r -> exists d, exec_text d s cmd = Done (s', r)).
Proof.
  apply (exec_mut W F code sg catching).
  - intros. exists 0. reflexivity.
  - intros. exists 0. reflexivity.
  - intros R sid s evs nm t k s' evs' nm' fin _ (d & H). exists d. intros n a. simpl.
    now rewrite ctx_log.
  - intros R sid s evs nm t k s' evs' nm' fin _ (d & H). exists d. intros n a. simpl.
    now rewrite ctx_logline.
  - intros R sid s evs nm e k s' evs' nm' fin _ (d & H). exists d. intros n a. simpl.
    now rewrite ctx_report.
  - intros R sid s evs nm k b s' evs' nm' fin B _ (d & H). exists d. intros n a. simpl.
    apply has_error_errors in B. unfold cc_hasErrors. simpl. rewrite <- B. apply H.
  - intros R sid s evs nm k s' evs' nm' fin _ (d & H). exists d. intros n a. apply H.
  - intros R sid s evs nm i nv nm1 k s' evs' nm' fin Q _ (d & H). exists d. intros n a. simpl.
    rewrite ctx_put. rewrite (replaced_det _ _ _ _ Q) in H. apply H.
  - intros R sid s evs nm k s' evs' nm' fin _ (d & H). exists d. intros n a. apply H.
  - intros R sid l m n0 w0 evs nm w k s' evs' nm' fin _ (d & H). exists d. intros n a. apply H.
  - intros R sid s evs nm k s' evs' nm' fin S _ (d & H). exists d. intros n a. simpl.
    apply is_live_stored in S. rewrite S. apply H.
  - intros R sid s evs nm name fs k s1 s' evs' nm' fin A _ (d & H). exists d. intros n a. simpl.
    rewrite A. apply H.
  - intros R sid s evs nm name k s1 s' evs' nm' fin A _ (d & H). exists d. intros n a. simpl.
    rewrite A. apply H.
  - intros R sid s evs nm k s' evs' nm' fin _ (d & H). exists d. intros n a. apply H.
  - intros R sid l0 m n0 w evs nm l k s' evs' nm' fin _ (d & H). exists d. intros n a. apply H.
  - intros R sid s evs nm cmd k s1 r s' evs' nm' fin _ (d1 & H1) _ (d2 & H2).
    exists (S d1 + d2). intros n a. simpl.
    assert (E : execute_text (nested_exec (d1 + d2)) s cmd = Done (s1, r)).
    { apply (exec_text_mono d1 (d1 + d2)); [lia|exact H1]. }
    rewrite E. simpl. apply (run_mono d2 (S (d1 + d2))); [lia|]. apply H2.
  - intros s inp E. exists 0. now apply input_unnamed.
  - intros s inp msg E G (sh & B & ->). exists 0. rewrite (before_nul_det _ _ B).
    now apply input_unknown.
  - intros s inp cmd msg E G N (sh & li & n & B & L & C & ->). exists 0.
    unfold exec_input, Exec.exec_input. rewrite (input_arity _ s inp cmd E G N). repeat f_equal.
    apply enumeration_det in L. subst li. rewrite (before_nul_det _ _ B), (canonical_zu _ _ C).
    unfold wrongArityError. now rewrite expected_loop_text, (c_str_no_nul (enum_text _)) by apply enum_text_no_nul.
  - intros s inp cmd f es E G C CE N. exists 0. eapply input_conversion; eauto.
  - intros s inp cmd f vs s' evs nm v t E G C V _ (d & H) T. exists d. unfold exec_input, Exec.exec_input.
    rewrite (input_chosen _ s inp cmd f E G C), (invoke_good _ _ _ _ _ _ _ vs V), H. simpl.
    rewrite (shows_rtext _ _ _ T). unfold cc_hasErrors. simpl.
    destruct (errors_of evs) eqn:Z; simpl; now rewrite ?Z.
  - intros s inp cmd f vs s' evs nm x msg E G C V _ (d & H) K X. exists d. unfold exec_input, Exec.exec_input.
    rewrite (input_chosen _ s inp cmd f E G C), (invoke_good _ _ _ _ _ _ _ vs V), H. simpl.
    rewrite K, (exn_text_det _ _ X). reflexivity.
  - intros s inp cmd f vs s' evs nm x E G C V _ (d & H) K. exists d. unfold exec_input, Exec.exec_input.
    rewrite (input_chosen _ s inp cmd f E G C), (invoke_good _ _ _ _ _ _ _ vs V), H. simpl.
    rewrite K. reflexivity.
  - intros s cmd lex e L P. exists 0. unfold exec_text, Exec.exec_text, Exec.execute_text.
    rewrite L, P. reflexivity.
  - intros s cmd lex inp s' r L P _ (d & H). exists d.
    unfold exec_text, Exec.exec_text, Exec.execute_text. rewrite L, P. exact H.
Qed.

Lemma run_complete R sid s evs nm p s' evs' nm' fin :
  runs R sid s evs nm p s' evs' nm' fin ->
  exists d, forall n a,
    run_prog sg (nested_exec d) sid s (ctx_of n a evs nm) p = Done (s', ctx_of n a evs' nm', fin).
Proof. apply complete_all. Qed.

Lemma exec_input_complete s inp s' r :
  answers s inp s' r -> exists d, exec_input d s inp = Done (s', r).
Proof. apply complete_all. Qed.

Lemma exec_text_complete s cmd s' r :
  executes s cmd s' r -> exists d, exec_text d s cmd = Done (s', r).
Proof. apply complete_all. Qed.

Lemma answers_det s inp s1 r1 s2 r2 :
  answers s inp s1 r1 -> answers s inp s2 r2 -> s1 = s2 /\ r1 = r2.
Proof.
  intros A B. apply exec_input_complete in A. apply exec_input_complete in B.
  destruct A as (d1 & A), B as (d2 & B).
  apply (exec_input_mono d1 (d1 + d2)) in A; [|lia].
  apply (exec_input_mono d2 (d1 + d2)) in B; [|lia]. split; congruence.
Qed.

Lemma executes_det s cmd s1 r1 s2 r2 :
  executes s cmd s1 r1 -> executes s cmd s2 r2 -> s1 = s2 /\ r1 = r2.
Proof.
  intros A B. apply exec_text_complete in A. apply exec_text_complete in B.
  destruct A as (d1 & A), B as (d2 & B).
  apply (exec_text_mono d1 (d1 + d2)) in A; [|lia].
  apply (exec_text_mono d2 (d1 + d2)) in B; [|lia]. split; congruence.
Qed.
End Agree.
