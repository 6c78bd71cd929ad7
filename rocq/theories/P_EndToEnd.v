(** Properties C52-C54: sessions of commands, from the text to the handler, and lookups
    after arbitrary histories. *)
From Coq Require Import Ascii String NArith ZArith Bool PeanoNat Lia List.
Import ListNotations.
From Verif Require Import Util Base StringConv StringConvSpec StringConvProofs
  SerializerSpec Serializer SerializerProofs Lexer LexerSpec LexerProofs LexerMeta LexerMore
  UMap UMapSpec UMapProofs UMapMore UMapIter
  Exec ExecSpec ExecProofs ExecMore ExecKinds P_Lexer P_UMap P_Exec P_Exec2 P_Reentry.

(** * C52  Sessions of an ordinary application never fault *)

(** An ordinary application: handlers that do not use the Bindings object and return no
    C strings (a null one would be dereferenced, see C18). *)
Definition ordinary {W F} (code : F -> functor W F) : Prop :=
  forall f, (forall vs, only simple (f_body (code f) vs)) /\
            forall nm, f_result (code f) <> RCString nm.

Section C52.
Context {W F : Type}.
Variable code : F -> functor W F.
Variable sg catching : bool.
Hypothesis ord : ordinary code.

Lemma ordinary_input d s h inp : holds sg s h ->
  exists s' r, exec_input code sg catching d s inp = Done (s', r) /\
    holds sg s' h /\ s_lexer s' = s_lexer s.
Proof.
  intros H.
  assert (T : exists s' r, exec_input code sg catching d s inp = Done (s', r)).
  { unfold exec_input. destruct (i_name inp) as [|a b] eqn:En.
    { rewrite input_unnamed by exact En. eauto. }
    assert (Ne : i_name inp <> []) by congruence.
    assert (G := holds_get sg s h H (i_name inp)).
    destruct (ideal bytes_eqb h (i_name inp)) as [cmd|].
    2:{ rewrite (input_unknown _ _ _ _ _ _ Ne G). eauto. }
    destruct (chosen_or_none code (c_functors cmd) (length (i_args inp))) as [(f & C)|C].
    2:{ rewrite (input_arity _ _ _ _ _ _ _ Ne G C). eauto. }
    rewrite (input_chosen _ _ _ _ _ _ _ _ Ne G C).
    destruct C as (before & after & Cf & Cl & Cn).
    assert (I : In f (c_functors cmd)) by (rewrite Cf; apply in_or_app; right; now left).
    assert (CE := from_all_errors (f_params (code (snd f))) (i_args inp) (eq_sym Cl)).
    destruct (errs_of (f_params (code (snd f))) (from_all (f_params (code (snd f))) (i_args inp)))
      as [|e es] eqn:Ee.
    2:{ rewrite (invoke_bad _ _ _ _ _ _ _ _ _ CE) by discriminate. simpl. eauto. }
    destruct (from_all_values _ _ (eq_sym Cl) Ee) as (vs & _ & V).
    rewrite (invoke_good _ _ _ _ _ _ _ _ _ V).
    destruct (ord (snd f)) as [Os Oc].
    destruct (simple_done sg (nested_exec code sg catching d) _ (fst f) _ (Os vs) s
                (ctx_of (i_name inp) (i_args inp) [] (i_named inp)))
      as (s1 & c1 & fin & E); [eapply get_stored; eauto|].
    rewrite E. destruct fin as [v|x]; simpl.
    - assert (R : exists t, rtext (f_result (code (snd f))) v = Done t).
      { clear - Oc. destruct (f_result (code (snd f))) as [|T0|T0|nm]; simpl; eauto.
        - destruct v; simpl; eauto.
        - now elim (Oc nm). }
      destruct R as (t & ->). simpl. eauto.
    - destruct catching; eauto. }
  destruct T as (s' & r & T). exists s', r. split; [exact T|].
  assert (K : s_lexer s' = s_lexer s /\ s_commands s' = s_commands s).
  { destruct (C26_execution_is_one_run _ _ _ _ _ _ _ _ _ _ T)
      as [(-> & _)|(cmd & f & vs & evs & nm & fin & _ & _ & _ & R & _)]; [auto|].
    apply simple_registry in R; [|apply ord]. tauto. }
  destruct K as [K1 K2]. split; [|exact K1]. destruct H as [H1 H2]. split; [|exact H2].
  now rewrite K2.
Qed.

(** Every command text that the lexer does not fault on (C01) is executed to a result; the
    registry stays as it is. *)
Theorem C52_execution_safe : forall d s h lsg cfg cmd,
  holds sg s h -> s_lexer s = Some (parse_input lsg cfg) ->
  ~ ill_command (cfg_classes lsg cfg) cmd ->
  exists s' r, exec_text code sg catching d s cmd = Done (s', r) /\
    holds sg s' h /\ s_lexer s' = s_lexer s /\
    (catching = true -> exists r', r = inl r').
Proof.
  intros d s h lsg cfg cmd H L I.
  assert (P : exists x, parse_input lsg cfg cmd = Done x).
  { destruct (parse_input lsg cfg cmd) as [x|f] eqn:E; [eauto|]. exfalso. apply I.
    apply parse_input_fault_iff. eauto. }
  assert (T : exists s' r, exec_text code sg catching d s cmd = Done (s', r) /\
    holds sg s' h /\ s_lexer s' = s_lexer s).
  { unfold exec_text, execute_text. rewrite L. destruct P as ([inp|e] & ->); simpl.
    - destruct (ordinary_input d s h inp H) as (s' & r & E & A & B). rewrite L in B.
      exists s', r. auto.
    - eexists s, _. auto. }
  destruct T as (s' & r & E & A & B). exists s', r. repeat (split; [assumption|]).
  intros ->. destruct r as [r|x]; [eauto|]. exfalso.
  eapply C34_text_never_propagates_when_caught; eauto.
Qed.

(** A session: commands one after the other. *)
Fixpoint session (d : nat) (s : state W F) (cmds : list bytes)
  : outcome (state W F * list (result + exn)) :=
  match cmds with
  | [] => Done (s, [])
  | cmd :: cmds =>
      r <- exec_text code sg catching d s cmd ;;
      rs <- session d (fst r) cmds ;;
      Done (fst rs, snd r :: snd rs)
  end.

Theorem C52_session_safe : forall d cmds s h lsg cfg,
  holds sg s h -> s_lexer s = Some (parse_input lsg cfg) ->
  (forall cmd, In cmd cmds -> ~ ill_command (cfg_classes lsg cfg) cmd) ->
  exists s' rs, session d s cmds = Done (s', rs) /\ length rs = length cmds /\ holds sg s' h.
Proof.
  intros d cmds. induction cmds as [|cmd cmds IH]; intros s h lsg cfg H L I.
  - exists s, []. auto.
  - destruct (C52_execution_safe d s h lsg cfg cmd H L (I cmd (or_introl eq_refl)))
      as (s1 & r & E & H1 & L1 & _).
    destruct (IH s1 h lsg cfg H1) as (s' & rs & E' & Len & H').
    + congruence.
    + intros c Ic. apply I. now right.
    + exists s', (r :: rs). simpl. rewrite E. simpl. rewrite E'. simpl. auto.
Qed.
End C52.

(** From an empty registry: additions only. *)
Theorem C52_fresh_application_safe : forall W F (code : F -> functor W F) sg catching d w table cmds,
  ordinary code ->
  (forall cmd, In cmd cmds -> ~ ill_command (cfg_classes sg default_cfg) cmd) ->
  exists s s' rs,
    fold_left (fun o e => s <- o ;; add sg s (fst e) (snd e)) table (Done (fresh_bindings sg w)) = Done s /\
    session code sg catching d s cmds = Done (s', rs) /\ length rs = length cmds.
Proof.
  intros W F code sg catching d w table cmds O I.
  assert (T : forall (s0 : state W F) h, holds sg s0 h -> s_lexer s0 = Some (parse_input sg default_cfg) ->
    exists s h', fold_left (fun o e => s <- o ;; add sg s (fst e) (snd e)) table (Done s0) = Done s /\
      holds sg s h' /\ s_lexer s = Some (parse_input sg default_cfg)).
  { induction table as [|[n fs] t IH]; intros s0 h H L; [simpl; eauto|].
    destruct (C50_addition_seen sg s0 h n fs H) as (s1 & cmd & E & H1 & _).
    simpl. rewrite E. apply (IH s1 _ H1). apply add_lexer in E. congruence. }
  destruct (T (fresh_bindings sg w) []) as (s & h' & E & H & L);
    [apply C50_fresh_holds|reflexivity|].
  destruct (C52_session_safe code sg catching O d cmds s h' sg default_cfg H L I)
    as (s' & rs & E' & Len & _).
  eauto 8.
Qed.

(** The property handlers of C38 form an ordinary application. *)
Example C52_ex_ordinary : ordinary ex_prop_code.
Proof.
  intros f. split.
  - destruct f; intros vs; simpl; [auto|]. unfold clamp_setter.
    destruct (_ <? 0)%Z; simpl; auto 6.
  - destruct f; discriminate.
Qed.
Example C52_ex_not_ill : ~ ill_command (cfg_classes true default_cfg) (lit "p '25' k = (a b)").
Proof. intros H. apply parse_input_fault_iff in H. destruct H as (f & H). vm_compute in H. discriminate. Qed.

(** * C53  A rendered call reaches its handler with exactly the given values *)

(** A value of a parameter type. *)
Definition typed := {T : serializer & carrier T}.

Fixpoint values_of (ps : list serializer) : args_of ps -> list typed :=
  match ps return args_of ps -> list typed with
  | [] => fun _ => []
  | T :: ps => fun vs => existT _ T (fst vs) :: values_of ps (snd vs)
  end.

(** A call with texts: a text for each parameter, with the value it is converted to. *)
Definition accepted (a : bytes * typed) : Prop :=
  from_value (projT1 (snd a)) [fst a] = Value (projT2 (snd a)) /\ no_quotes (fst a).

Definition text_arg (a : bytes * typed) : warg := WPos [fst a].

Lemma positional_texts l : positional (map text_arg l) = map (fun a : bytes * typed => [fst a]) l /\
  named (map text_arg l) = [].
Proof. induction l as [|v l [IH1 IH2]]; simpl; [auto|]. now rewrite IH1. Qed.

Lemma converts_texts l : Forall accepted l ->
  forall ps, ps = map (fun a : bytes * typed => projT1 (snd a)) l ->
  exists vs, converts ps (map (fun a : bytes * typed => [fst a]) l) vs /\ values_of ps vs = map snd l.
Proof.
  induction 1 as [|v l [Hv _] _ IH]; intros ps ->; simpl.
  - exists tt. split; [constructor|reflexivity].
  - destruct (IH _ eq_refl) as (vs & C & E). exists (projT2 (snd v), vs). simpl. rewrite E.
    split; [now constructor|]. now destruct v as [t [T x]].
Qed.

(** Executing such a call calls the handler, if it is the first overload with that many
    parameters, with the values of the texts, and once. *)
Theorem C53_texts_delivered : forall W F (code : F -> functor W F) sg catching d
  (s s' : state (W * list (call code)) F) r name cmd f (l : list (bytes * typed)),
  (forall f vs, only no_nesting (f_body (code f) vs)) ->
  s_lexer s = Some (parse_input sg default_cfg) ->
  name <> [] -> no_quotes name -> get sg s name = Done (Some cmd) ->
  chosen code (c_functors cmd) (length l) f ->
  f_params (code (snd f)) = map (fun a => projT1 (snd a)) l -> Forall accepted l ->
  exec_text (traced code) sg catching d s (render name (map text_arg l)) = Done (s', r) ->
  exists vs, values_of _ vs = map snd l /\
    snd (s_world s') = snd (s_world s) ++ [existT _ (snd f) vs].
Proof.
  intros W F code sg catching d s s' r name cmd f l N L Ne Q G C P Hw E.
  unfold exec_text, execute_text in E. rewrite L in E.
  rewrite (C04_render_parse sg name (map text_arg l) Q) in E.
  2:{ apply Forall_forall. intros a Ia. apply in_map_iff in Ia. destruct Ia as (v & <- & Iv).
      rewrite Forall_forall in Hw. destruct (Hw v Iv) as [_ Hq].
      split; [now constructor|now left]. }
  destruct (positional_texts l) as [Pl Nl]. rewrite Pl, Nl in E. simpl bind in E.
  match type of E with execute_input _ _ _ _ _ ?i = _ => set (inp := i) in E end.
  destruct (converts_texts l Hw _ P) as (vs & V & Ev). exists vs. split; [exact Ev|].
  destruct (C26_one_handler_first_match W F code sg catching d s s' inp r N E) as [H _].
  eapply H; eauto. simpl. rewrite map_length. exact C.
Qed.

(** A value can be written down without quote characters and read back. *)
Definition writable (v : typed) : Prop :=
  from_value (projT1 v) [to_text (projT1 v) (projT2 v)] = Value (projT2 v) /\
  no_quotes (to_text (projT1 v) (projT2 v)).

Definition written (v : typed) : warg := WPos [to_text (projT1 v) (projT2 v)].

(** Rendering a call with values and executing the text calls the handler with exactly
    these values. *)
Theorem C53_rendered_call_delivered : forall W F (code : F -> functor W F) sg catching d
  (s s' : state (W * list (call code)) F) r name cmd f (l : list typed),
  (forall f vs, only no_nesting (f_body (code f) vs)) ->
  s_lexer s = Some (parse_input sg default_cfg) ->
  name <> [] -> no_quotes name -> get sg s name = Done (Some cmd) ->
  chosen code (c_functors cmd) (length l) f ->
  f_params (code (snd f)) = map (@projT1 _ _) l -> Forall writable l ->
  exec_text (traced code) sg catching d s (render name (map written l)) = Done (s', r) ->
  exists vs, values_of _ vs = l /\ snd (s_world s') = snd (s_world s) ++ [existT _ (snd f) vs].
Proof.
  intros W F code sg catching d s s' r name cmd f l N L Ne Q G C P Hw E.
  set (tt := fun v : typed => (to_text (projT1 v) (projT2 v), v)).
  assert (M : map written l = map text_arg (map tt l)) by now rewrite map_map.
  assert (S : map snd (map tt l) = l) by (rewrite map_map; simpl; apply map_id).
  rewrite M in E. rewrite <- S. eapply C53_texts_delivered; eauto.
  - now rewrite map_length.
  - now rewrite map_map.
  - apply Forall_map. exact Hw.
Qed.

(** Integers in range, booleans, and strings without quotes can be written. *)
Lemma digits_char s z : digits s z -> no_quotes s.
Proof.
  assert (D : forall c d, digit c d -> c <> dquote /\ c <> ascii_of_nat 39).
  { intros c d [k Hk]. do 10 (destruct k as [|k]; [split; discriminate|]). lia. }
  induction 1 as [c d H|s c z d _ IH H]; intros x Hx.
  - destruct Hx as [<-|[]]. eapply D; eauto.
  - apply in_app_iff in Hx. destruct Hx as [Hx|[<-|[]]]; [now apply IH|eapply D; eauto].
Qed.

Lemma canonical_no_quotes z s : canonical z s -> no_quotes s.
Proof.
  induction 1 as [|c ds z _ H _|z s _ _ IH].
  - intros c [<-|[]]. split; discriminate.
  - eapply digits_char; eauto.
  - intros c [<-|H]; [split; discriminate|now apply IH].
Qed.

Theorem C53_writable : 
  (forall p nm t z, in_range p t z -> writable (existT carrier (int_serializer p nm t) z)) /\
  (forall sg b, writable (existT carrier (bool_serializer sg) b)) /\
  (forall s, no_quotes s -> writable (existT carrier string_serializer s)).
Proof.
  split; [|split].
  - intros p nm t z H. split.
    + simpl. rewrite round_trip by exact H. reflexivity.
    + eapply canonical_no_quotes, toString_canonical, H.
  - intros sg b. split; [destruct sg, b; reflexivity|].
    destruct b; intros c H; simpl in H;
      repeat (destruct H as [<-|H]; [split; discriminate|]); now elim H.
  - intros s H. split; [reflexivity|exact H].
Qed.

Example C53_ex : 
  render (lit "sum") (map written [existT carrier i32 20%Z; existT carrier i32 (-3)%Z]) =
    lit """sum"" ""20"" ""-3""" /\
  ex_run """sum"" ""20"" ""-3""" =
    Some (40%Z, inl (Result (ex_input "sum" ["20"; "-3"]%string) [] (Some (lit "17")) [])).
Proof. split; vm_compute; reflexivity. Qed.

(** * C54  Lookups never invent a command *)

(** Whatever the history, also one in which the removal defect of C20 has damaged the
    chains: a value that a lookup or the iteration delivers was added under exactly that
    name, after the last clear. *)
Definition added {K V} (k : K) (v : V) (h : list (op K V)) : Prop :=
  exists before after, h = before ++ Add k v :: after /\ ~ In Clear after.

Lemma entries_added {K V} keqb (hash : K -> Z) : eq_ok keqb ->
  forall (h : list (op K V)) m, run keqb hash h = Done m ->
  forall e, In e (iterate m) -> added (fst e) (snd e) h.
Proof.
  intros Hk h. induction h as [|o h IH] using rev_ind; intros m E e I.
  - injection E as <-. easy.
  - unfold run in E.
    assert (Happ : forall st (m0 : umap K V) a b, run_from st m0 (a ++ b) =
      bind (run_from st m0 a) (fun m1 => run_from st m1 b)).
    { clear. intros st m0 a. revert m0. induction a as [|o a IH]; intros m0 b; cbn; [easy|].
      destruct (st m0 o); cbn; [apply IH|easy]. }
    rewrite Happ in E. destruct (run_from _ _ h) as [m0|] eqn:E0; simpl in E; [|discriminate].
    assert (Old : o <> Clear -> In e (iterate m0) -> added (fst e) (snd e) (h ++ [o])).
    { intros No I0. destruct (IH m0 E0 e I0) as (b & a & -> & Na).
      exists b, (a ++ [o]). split; [now rewrite <- app_assoc|].
      intros J. apply in_app_iff in J. destruct J as [J|[J|[]]]; [now apply Na|congruence]. }
    destruct o as [k v|k|]; simpl in E.
    + destruct (insertOrAssign keqb hash m0 k v) as [m1|] eqn:E1; [|discriminate].
      injection E as <-. destruct (insert_only keqb hash _ _ _ _ _ E1 I) as [I0|[Ev Ek]].
      * apply Old; [discriminate|exact I0].
      * exists h, []. split; [|easy]. destruct e as [ek ev]. simpl in *. subst ev.
        destruct Ek as [Ek|Ek]; [apply Hk in Ek; now subst ek|now injection Ek as ->].
    + destruct (erase keqb hash m0 k) as [m1|] eqn:E1; [|discriminate].
      injection E as <-. apply Old; [discriminate|]. eapply erase_only; eauto.
    + injection E as <-. easy.
Qed.

Theorem C54_lookup_never_invents : forall (K V : Type) keqb (hash : K -> Z), eq_ok keqb ->
  forall (h : list (op K V)) m k v, run keqb hash h = Done m ->
  find keqb hash m k = Done (Some v) -> added k v h.
Proof.
  intros K V keqb hash Hk h m k v E H. apply find_entry in H. destruct H as (k' & Ek & I).
  apply Hk in Ek. subst k'. exact (entries_added keqb hash Hk h m E _ I).
Qed.

Theorem C54_iteration_never_invents : forall (K V : Type) keqb (hash : K -> Z), eq_ok keqb ->
  forall (h : list (op K V)) m k v, run keqb hash h = Done m ->
  In (k, v) (iterate m) -> added k v h.
Proof.
  intros K V keqb hash Hk h m k v E I. exact (entries_added keqb hash Hk h m E _ I).
Qed.

(** For the registry, also through executions: a command found after any session was
    registered by the application or by a handler. *)
Theorem C54_registry_never_invents : forall W F sg (s : state W F) (h : list (op bytes (command F))) name cmd,
  run bytes_eqb (hash_view sg) h = Done (s_commands s) ->
  get sg s name = Done (Some cmd) -> added name cmd h.
Proof.
  intros W F sg s h name cmd E G. eapply C54_lookup_never_invents; eauto. apply names_ok.
Qed.

(** In the history of C20_registered_command_lost the chains are damaged, and lookups of
    other names still deliver what was added. *)
Example C54_ex : exists m,
  nrun true [A "a" 1; A "b" 2; A "e" 3; A "i" 4; R "a"; R "b"; A "f" 5; R "i"; A "m" 6; R "f"] = Done m /\
  nfind true m "m" = Done (Some 6) /\ nfind true m "e" = Done None.
Proof. eexists. split; [vm_compute; reflexivity|]. split; vm_compute; reflexivity. Qed.

(** * Assumptions *)
Print Assumptions C52_execution_safe.
Print Assumptions C52_session_safe.
Print Assumptions C52_fresh_application_safe.
Print Assumptions C53_texts_delivered.
Print Assumptions C53_rendered_call_delivered.
Print Assumptions C53_writable.
Print Assumptions C54_lookup_never_invents.
Print Assumptions C54_iteration_never_invents.
Print Assumptions C54_registry_never_invents.
