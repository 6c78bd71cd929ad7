(** Property C73: texts, views and the objects that outlive them. *)
From Coq Require Import Ascii String NArith ZArith Bool PeanoNat Lia List.
Import ListNotations.
From Verif Require Import Util Base Lexer LexerMore StringConv Serializer UMap Exec ExecSpec
  TextLife TextLifeSpec TextLifeProofs.

Local Notation length := List.length.

Definition ex_int : serializer := int_serializer (Platform true Long64) (Naming false true) CInt.

(** * C73  Variables whose types contain no views are registers whatever happens to the texts *)

(** Any number of variables of self-contained types: in every session that executes texts
    that exist, no command faults, every answer is that of a register, and at the end the
    variables hold what the registers hold; whether texts are kept, overwritten or freed in
    between does not matter. *)
Theorem C73_registers : forall sg cfg w kept ops,
  Forall self_contained (map x_type (w_vars w)) ->
  proper sg cfg (m_texts (w_mem w)) ops ->
  exists rs w' kept' obs rs',
    Forall2 (holds (m_texts (w_mem w))) (w_vars w) rs /\
    session sg cfg w kept ops = Done (w', kept', obs) /\
    serves sg cfg (m_texts (w_mem w)) rs ops obs rs' /\
    m_texts (w_mem w') = final_texts (m_texts (w_mem w)) ops /\
    Forall2 (holds (m_texts (w_mem w'))) (w_vars w') rs'.
Proof.
  intros sg cfg w kept ops S P. destruct (contained_holds (m_texts (w_mem w)) _ S) as (rs & H).
  destruct (session_ok sg cfg ops w kept rs H (or_introl S) P) as (w' & k' & obs & rs' & R).
  exists rs, w', k', obs, rs'. auto.
Qed.

(** With views inside, and Value itself, the same holds as long as no text is changed or
    freed. *)
Theorem C73_registers_texts_kept : forall sg cfg w kept ops rs,
  Forall value_only_outermost (map x_type (w_vars w)) ->
  Forall2 (holds (m_texts (w_mem w))) (w_vars w) rs ->
  proper sg cfg (m_texts (w_mem w)) ops -> texts_kept ops ->
  exists w' kept' obs rs',
    session sg cfg w kept ops = Done (w', kept', obs) /\
    serves sg cfg (m_texts (w_mem w)) rs ops obs rs' /\
    m_texts (w_mem w') = final_texts (m_texts (w_mem w)) ops /\
    Forall2 (holds (m_texts (w_mem w'))) (w_vars w') rs'.
Proof. intros. apply session_ok; auto. Qed.

(** The full statement, for all types. *)
Definition C73_full_statement : Prop :=
  forall t sg o ops, proper sg default_cfg [] ops ->
  exists r, session sg default_cfg (World (Mem [] []) [Var (lit "v") t o]) [] ops = Done r.

(** The types for which it holds are exactly the self-contained ones.  For every other type
    setting the variable, freeing the text and reading the variable reads freed memory. *)
Theorem C73_safe_iff_self_contained : forall t sg,
  (forall o ops, proper sg default_cfg [] ops ->
     exists r, session sg default_cfg (World (Mem [] []) [Var (lit "v") t o]) [] ops = Done r) <->
  self_contained t.
Proof.
  intros t sg. split.
  - intros H. destruct (self_contained_dec t) as [S|S]; [exact S|exfalso].
    destruct (uncontained_object t S) as [o].
    destruct (H o fatal_session (fatal_proper sg)) as (r & E).
    rewrite fatal in E by exact S. discriminate.
  - intros S o ops P.
    destruct (C73_registers sg default_cfg (World (Mem [] []) [Var (lit "v") t o]) [] ops)
      as (rs & w' & k' & obs & rs' & _ & E & _); simpl; auto. eauto.
Qed.

Theorem C73_full_statement_refuted : ~ C73_full_statement.
Proof.
  intros H. apply (proj1 (C73_safe_iff_self_contained TView true)).
  intros o ops P. now apply H.
Qed.

(** One register of type StringView, asked with a known input. *)
Definition view_value (g : reg) : option bytes :=
  match g with Reg _ TView c => Some c | _ => None end.

Lemma replies_view sg cfg cmd inp n a b es t :
  parse_input sg cfg cmd = Done (Value inp) -> i_name inp = n ->
  replies sg cfg cmd [Reg n TView a] b es t -> n <> [] ->
  exists a', b = [Reg n TView a'] /\ register string_serializer n a (i_args inp) a' es t.
Proof.
  intros P N R Ne. remember [Reg n TView a] as rs eqn:Ers.
  destruct R as [rs e P'|rs inp' P' N'|rs inp' msg P' Ne' N' U|inp' rs1 ty a0 a' rs2 es t P' Ne' N' Rg];
    rewrite P in P'; try discriminate; injection P' as <-.
  - congruence.
  - exfalso. apply N'. rewrite Ers, N. now left.
  - destruct rs1 as [|g rs1]; cbn [app] in Ers; [|destruct rs1; discriminate].
    assert (Et : ty = TView) by congruence. subst ty.
    assert (Ea : view_value (Reg (i_name inp) TView a0) = view_value (Reg n TView a)) by congruence.
    injection Ea as ->. assert (rs2 = []) by congruence. subst rs2. rewrite N in *.
    exists a'. split; [reflexivity|exact Rg].
Qed.

Lemma serves_new_inv sg cfg ts rs b ops obs rs' :
  serves sg cfg ts rs (ONew b :: ops) obs rs' -> serves sg cfg (ts ++ [Some b]) rs ops obs rs'.
Proof. now inversion 1. Qed.
Lemma serves_edit_inv sg cfg ts rs i b ops obs rs' :
  serves sg cfg ts rs (OEdit i b :: ops) obs rs' ->
  serves sg cfg (set_nth ts i (Some b)) rs ops obs rs'.
Proof. now inversion 1. Qed.
Lemma serves_execute_inv sg cfg ts rs i ops a obs rs' :
  serves sg cfg ts rs (OExecute i :: ops) (a :: obs) rs' ->
  exists cmd rs1, exists_text ts i cmd /\
    replies sg cfg cmd rs rs1 (match a with SAnswer es _ => es | _ => [] end)
                              (match a with SAnswer _ t => t | _ => None end) /\
    serves sg cfg ts rs1 ops obs rs'.
Proof. inversion 1; subst. eauto 6. Qed.

(** Overwriting the text is worse: nothing faults, and the variable has a value nobody gave
    it.  The session is proper, ends, and no register answers like this. *)
Definition ex_overwrite : list op :=
  [ONew (lit "v abc"); ONew (lit "v"); OExecute 0; OEdit 0 (lit "v xyz"); OExecute 1].

Theorem C73_overwritten_text_refuted : forall sg o,
  proper sg default_cfg [] ex_overwrite /\
  exists w' k', session sg default_cfg (World (Mem [] []) [Var (lit "v") TView o]) [] ex_overwrite =
    Done (w', k', [SAnswer [] (Some (lit "abc")); SAnswer [] (Some (lit "xyz"))]) /\
  forall c rs', ~ serves sg default_cfg [] [Reg (lit "v") TView c] ex_overwrite
    [SAnswer [] (Some (lit "abc")); SAnswer [] (Some (lit "xyz"))] rs'.
Proof.
  intros sg o.
  assert (P1 : parse_input sg default_cfg (lit "v abc") = Done (Value (Input (lit "v") [[lit "abc"]] [])))
    by (destruct sg; reflexivity).
  assert (P2 : parse_input sg default_cfg (lit "v") = Done (Value (Input (lit "v") [] [])))
    by (destruct sg; reflexivity).
  split.
  - simpl. repeat split; eauto.
    + exists (lit "v abc"). eexists. split; [reflexivity|exact P1].
    + exists (lit "v abc"). reflexivity.
    + exists (lit "v"). eexists. split; [reflexivity|exact P2].
  - eexists _, _. split; [destruct sg; reflexivity|].
    intros c rs' H.
    apply serves_new_inv in H. apply serves_new_inv in H. cbn [app] in H.
    destruct (serves_execute_inv _ _ _ _ _ _ _ _ _ H) as (cmd1 & rs1 & X1 & R1 & H1).
    apply serves_edit_inv in H1. cbn [set_nth] in H1.
    destruct (serves_execute_inv _ _ _ _ _ _ _ _ _ H1) as (cmd2 & rs2 & X2 & R2 & _).
    injection X1 as <-. injection X2 as <-.
    destruct (replies_view _ _ _ _ _ _ _ _ _ P1 eq_refl R1) as (a1 & -> & Q1); [discriminate|].
    destruct (replies_view _ _ _ _ _ _ _ _ _ P2 eq_refl R2) as (a2 & -> & Q2); [discriminate|].
    clear - Q1 Q2. cbn [i_args] in Q1, Q2.
    assert (A : a1 = lit "abc").
    { inversion Q1 as [|x v y E E1 E2 E3 E4| |]; subst.
      now destruct E. }
    inversion Q2 as [x E1 E2 E3 E4| | |]. subst a1. subst. discriminate.
Qed.

(** * Conversions *)

(** The conversion of any Value whose views show something, to any type except a vector or
    optional of Values, gives what the conversion of the shown bytes gives: the same error,
    or an object standing for the same value.  It creates nothing that outlives it. *)
Theorem C73_conversion : forall t m r vs bs,
  value_only_outermost t -> deref m r = Done vs -> Forall2 (shows (m_texts m)) vs bs ->
  exists m' e, fromString t m r = Done (m', e) /\ m_texts m' = m_texts m /\
    match e with
    | Error d => from_value (by_value t) bs = Error d
    | Value c => exists o y, take m' t c = Done o /\ denotes (m_texts m) t o y /\
                             from_value (by_value t) bs = Value y
    end.
Proof.
  intros t m r vs bs Ok Hd Hs. destruct (converts_outermost t Ok m r vs bs Hd Hs) as (m' & e & E & X & Q).
  exists m', e. split; [exact E|]. split; [exact (proj1 X)|exact Q].
Qed.

(** An object that stands for a value prints as that value. *)
Theorem C73_printing : forall t m o c,
  denotes (m_texts m) t o c -> toString m t o = Done (to_text (by_value t) c).
Proof. intros t m o c H. now apply toString_ok. Qed.

(** Vectors and optionals of Values: every conversion of an input whose first sub-value is
    not empty reads the temporary Value after its destruction, whatever the texts. *)
Theorem C73_nested_value_refuted : forall t m r v vs,
  ~ value_only_outermost t -> deref m r = Done (v :: vs) -> v_len (sv_view v) <> 0 ->
  fromString t m r = Fault UseAfterFree.
Proof.
  intros t m r v vs N Hd Hl. apply (nested_value_faults t) with (v := v) (vs := vs); auto;
    intros H; apply N; [now right|now left].
Qed.

(** * Old results *)

(** The input of a result can be looked at as long as the text is as it was.  Once the text
    is freed, looking at it reads freed memory, unless everything in it is empty.  Errors,
    output and return value belong to the result. *)
Theorem C73_result_input : forall sg cfg w i cmd inp w' r,
  exists_text (m_texts (w_mem w)) i cmd -> parse_input sg cfg cmd = Done (Value inp) ->
  execute sg cfg w i = Done (w', r) ->
  forall m,
  (exists_text (m_texts m) i cmd -> look m r = Done inp) /\
  (nth_error (m_texts m) i = Some None ->
   (some_text inp -> look m r = Fault UseAfterFree) /\ (~ some_text inp -> look m r = Done inp)).
Proof.
  intros sg cfg w i cmd inp w' r He Hp E m.
  destruct (parse_input_cases _ _ _ _ Hp) as [(e & H & _)|(vi & H & P)]; [discriminate|].
  injection H as ->. destruct (execute_views _ _ _ _ _ _ _ _ He P E) as (V1 & V2 & V3). split.
  - intros Hm. now apply (look_kept sg cfg cmd vi i).
  - intros Hm. destruct (look_gone sg cfg cmd vi i m r P Hm V1 V2 V3) as [[L S]|[L S]]; tauto.
Qed.

(** * Examples *)

Definition ex_session : list op :=
  [ONew (lit "n 5"); ONew (lit "l (a,b)"); OExecute 0; OExecute 1; OFree 0; OEdit 1 (lit "l (c"); OExecute 1;
   ONew (lit "n"); ONew (lit "l"); OExecute 2; OExecute 3; ONew (lit "n x"); OExecute 4].
Definition ex_vars : list var :=
  [Var (lit "n") (TScalar ex_int) 0%Z; Var (lit "l") (TVector TString) ([] : list bytes)].

Example C73_ex_types : Forall self_contained (map x_type ex_vars).
Proof. repeat constructor. Qed.
Example C73_ex_proper : proper true default_cfg [] ex_session.
Proof. simpl. repeat split; try exact I;
  first [solve [eexists; reflexivity] | eexists _, _; split; [reflexivity|vm_compute; reflexivity]]. Qed.
Example C73_ex_session :
  match session true default_cfg (World (Mem [] []) ex_vars) [] ex_session with
  | Done (_, _, obs) => Some obs
  | Fault _ => None
  end = Some [SAnswer [] (Some (lit "5")); SAnswer [] (Some (lit "[a, b]"));
              SAnswer [lit "Syntax error: Token '(' doesn't have a corresponding opening/closing token"] None;
              SAnswer [] (Some (lit "5")); SAnswer [] (Some (lit "[a, b]"));
              SAnswer [lit "Unable to convert 'x' to type 'int'"] None].
Proof. vm_compute. reflexivity. Qed.

(** A StringView variable in a session that keeps its texts. *)
Definition ex_kept : list op :=
  [ONew (lit "v abc"); ONew (lit "v"); OExecute 0; OExecute 1; ONew (lit "v (x,y)"); OExecute 2].
Definition ex_view_var : var := Var (lit "v") TView (SView 0 (View 0 0)).
Example C73_ex_kept :
  Forall value_only_outermost (map x_type [ex_view_var]) /\
  Forall2 (holds []) [ex_view_var] [Reg (lit "v") TView ([] : bytes)] /\
  proper true default_cfg [] ex_kept /\ texts_kept ex_kept /\
  match session true default_cfg (World (Mem [] []) [ex_view_var]) [] ex_kept with
  | Done (_, _, obs) => Some obs
  | Fault _ => None
  end = Some [SAnswer [] (Some (lit "abc")); SAnswer [] (Some (lit "abc"));
              SAnswer [lit "Unable to convert 'x y' to type 'string': Expected 1 subvalues, got 2"] None].
Proof.
  split; [constructor; [right; exact I|constructor]|].
  split; [constructor; [constructor; constructor|constructor]|].
  split; [simpl; repeat split; try exact I;
  first [solve [eexists; reflexivity] | eexists _, _; split; [reflexivity|vm_compute; reflexivity]]|].
  split; [exact I|]. vm_compute. reflexivity.
Qed.

(** Setting and reading it after its text is gone; setting a vector of Values. *)
Example C73_ex_view : ~ self_contained (TVector (TOptional TView)) /\
  session true default_cfg (World (Mem [] []) [Var (lit "v") (TVector (TOptional TView)) ([] : list (option sview))])
    [] fatal_session = Fault UseAfterFree.
Proof. split; [simpl; auto|reflexivity]. Qed.
Example C73_ex_nested : ~ value_only_outermost (TVector TValue) /\
  deref (Mem [Some (lit "v x")] [Some [SView 0 (View 2 1)]]) 0 = Done [SView 0 (View 2 1)].
Proof. split; [|reflexivity]. intros [H|H]; [discriminate|exact H]. Qed.

(** Looking at a result before and after its text is freed. *)
Example C73_ex_look :
  session true default_cfg (World (Mem [] []) ex_vars) []
    [ONew (lit "n 5 k=(1,2)"); OExecute 0; OLook 0; OFree 0; OLook 0] = Fault UseAfterFree /\
  match session true default_cfg (World (Mem [] []) ex_vars) []
    [ONew (lit "n 5 k=(1,2)"); OExecute 0; OLook 0] with
  | Done (_, _, obs) => Some obs
  | Fault _ => None
  end = Some [SAnswer [] (Some (lit "5"));
              SInput (Input (lit "n") [[lit "5"]] [(lit "k", [lit "1"; lit "2"])])].
Proof. split; vm_compute; reflexivity. Qed.

(** * Assumptions *)
Print Assumptions C73_registers.
Print Assumptions C73_registers_texts_kept.
Print Assumptions C73_safe_iff_self_contained.
Print Assumptions C73_full_statement_refuted.
Print Assumptions C73_overwritten_text_refuted.
Print Assumptions C73_conversion.
Print Assumptions C73_printing.
Print Assumptions C73_nested_value_refuted.
Print Assumptions C73_result_input.
