(** Property C78: the example about named arguments. *)
From Coq Require Import Ascii String NArith ZArith Bool PeanoNat Lia List.
Import ListNotations.
From Verif Require Import Util Base StringConv StringConvSpec StringConvProofs SerializerSpec Serializer
  SerializerProofs Lexer LexerSpec LexerMeta LexerProofs UMap Exec ExecSpec ExecProofs P_Exec P_Exec2 P_Lexer P_Reentry
  FloatConv FloatConvSpec FloatSerializer Enums EnumsSpec EnumsProofs EnumsRead P_Enums
  UserTypes UserTypesSpec FloatFixed UserTypesProofs P_Float PrintfProofs NamedExample NamedExampleSpec NamedExampleProofs.

Local Notation length := List.length.

(** * C78  The example about named arguments *)

(** ** The parts of a command text *)

Definition tok_bytes (t : stok) : bytes :=
  match t with SStr w => w | SGrp w => w | SAssign => [] end.

Lemma lexes_bytes C s r : lexes C s r -> forall ts t c, r = inl ts -> In t ts -> In c (tok_bytes t) -> In c s.
Proof.
  induction 1 as [ws A|ws c0 w rest r A B D E L IH|ws c0 rest r A B L IH|ws q body q' rest r A B D E L IH
    |ws q body q' rest r A B D E L IH|ws q body A B D|ws q body A B D]; intros ts t c Er I J; try discriminate Er.
  - injection Er as <-. destruct I.
  - destruct r as [ts'|]; [|discriminate Er]. injection Er as <-. apply in_or_app. right.
    destruct I as [<-|I].
    + assert (In c (c0 :: w)) by (destruct (existsb (sep C) w); exact J).
      destruct H as [->|H]; [now left|right]. apply in_or_app. now left.
    + right. apply in_or_app. right. now apply (IH ts' t c).
  - destruct r as [ts'|]; [|discriminate Er]. injection Er as <-. apply in_or_app. right.
    destruct I as [<-|I]; [destruct J|]. right. now apply (IH ts' t c).
  - destruct r as [ts'|]; [|discriminate Er]. injection Er as <-. apply in_or_app. right. right. apply in_or_app.
    destruct I as [<-|I]; [now left|]. right. right. now apply (IH ts' t c).
  - destruct r as [ts'|]; [|discriminate Er]. injection Er as <-. apply in_or_app. right. right. apply in_or_app.
    destruct I as [<-|I]; [now left|]. right. right. now apply (IH ts' t c).
Qed.

Lemma splits_bytes C w items : splits C w items -> forall s c, In s items -> In c s -> In c w.
Proof.
  induction 1 as [ws A|ws s0 rest t items A R E T S IH]; intros s c I J; [destruct I|].
  apply in_or_app. right. apply in_or_app. destruct I as [<-|I]; [left|right; now apply (IH s)].
  inversion T; subst; try exact J. right. apply in_or_app. now left.
Qed.

Lemma val_bytes C t v : val_of C t v -> forall s c, In s v -> In c s -> In c (tok_bytes t).
Proof.
  intros [w|w items S] s c I J; [destruct I as [<-|[]]; exact J|]. exact (splits_bytes C w items S s c I J).
Qed.

Lemma args_bytes ts args st : LexerSpec.args_of ts args st ->
  forall t, In (APos t) args \/ (exists k, In (ANamed k t) args) -> In t ts.
Proof.
  induction 1 as [|t ts args st A B H IH|k w t ts args st A B H IH| | |]; intros u [I|(k' & I)]; try destruct I.
  - injection H0 as <-. now left.
  - right. apply IH. now left.
  - discriminate H0.
  - right. apply IH. right. now exists k'.
  - discriminate H0.
  - right. right. right. apply IH. now left.
  - injection H0 as <- <-. right. right. now left.
  - right. right. right. apply IH. right. now exists k'.
Qed.

Lemma input_bytes C args pos named : input_of C args pos named ->
  (forall v, In v pos -> exists t, In (APos t) args /\ val_of C t v) /\
  (forall k v, In (k, v) named -> exists t, In (ANamed k t) args /\ val_of C t v).
Proof.
  induction 1 as [|t v args pos named V H [IH1 IH2]|k t v args pos named V H [IH1 IH2]].
  - split; intros; easy.
  - split.
    + intros x [<-|I]; [exists t; split; [now left|exact V]|]. destruct (IH1 x I) as (u & J & K). exists u. split; [now right|exact K].
    + intros k x I. destruct (IH2 k x I) as (u & J & K). exists u. split; [now right|exact K].
  - split.
    + intros x I. destruct (IH1 x I) as (u & J & K). exists u. split; [now right|exact K].
    + intros k' x [[= <- <-]|I]; [exists t; split; [now left|exact V]|]. destruct (IH2 k' x I) as (u & J & K). exists u. split; [now right|exact K].
Qed.

(** The arguments of a text without NUL have none. *)
Lemma command_no_nul C line name pos named : LexerSpec.command C line (inl (SInput name pos named)) -> no_nul line ->
  (forall v, In v pos -> value_no_nul v) /\ named_no_nul named.
Proof.
  intros H N. inversion H as [s L E| | | |s n ts args po na L A I E1 E2]; subst.
  - split; [intros v []|intros k v []].
  - destruct (input_bytes _ _ _ _ I) as [P Q].
    assert (K : forall t v, In t ts -> val_of C t v -> value_no_nul v).
    { intros t v J V x Jx Z. apply N. apply (lexes_bytes C line _ L _ t _ eq_refl); [now right|].
      exact (val_bytes C t v V x _ Jx Z). }
    split.
    + intros v J. destruct (P v J) as (t & T & V). apply (K t v); [|exact V]. apply (args_bytes _ _ _ A). now left.
    + intros k v J. destruct (Q k v J) as (t & T & V). apply (K t v); [|exact V]. apply (args_bytes _ _ _ A). right. now exists k.
Qed.

(** ** Registration *)

Lemma register_seen {W F} sg l : forall (s : state W F) h, holds sg s h -> NoDup (map fst l) ->
  exists s', NamedExample.register sg s l = Done s' /\ s_lexer s' = s_lexer s /\ s_world s' = s_world s /\
    (forall n fs, In (n, fs) l -> exists cmd, get sg s' n = Done (Some cmd) /\ map snd (c_functors cmd) = fs) /\
    (forall n, ~ In n (map fst l) -> get sg s' n = get sg s n).
Proof.
  induction l as [|[n fs] l IH]; intros s h H D.
  - exists s. cbn. repeat split; easy.
  - cbn [map fst] in D. apply NoDup_cons_iff in D. destruct D as [D1 D2].
    destruct (C50_addition_seen sg s h n fs H) as (s1 & cmd & E & H1 & M & G & O).
    destruct (IH s1 _ H1 D2) as (s' & E' & L' & W' & B' & O').
    exists s'. cbn [NamedExample.register]. rewrite E. cbn [bind]. rewrite E'.
    split; [reflexivity|]. unfold add in E.
    destruct (insertOrAssign _ _ _ _ _) as [m|] eqn:Q; [|discriminate E]. injection E as <-.
    split; [exact L'|]. split; [exact W'|]. split.
    + intros n' fs' [[= <- <-]|I]; [|now apply B'].
      exists cmd. split; [|exact M]. rewrite O' by assumption. exact G.
    + intros n' N. cbn [map fst In] in N. rewrite O' by tauto. apply O. intros ->. apply N. now left.
Qed.

(** A state in which the commands of the example are registered, and no others. *)
Definition ready (sg : bool) (s : state (list item) fn) : Prop :=
  s_lexer s = Some (parse_input sg default_cfg) /\
  (forall n fs, In (n, fs) commands -> exists cmd, get sg s n = Done (Some cmd) /\ map snd (c_functors cmd) = fs) /\
  (forall n, ~ In n (map fst commands) -> get sg s n = Done None).

Lemma ready_world sg s w : ready sg s -> ready sg (set_world s w).
Proof. intros (A & B & C). split; [exact A|]. split; [exact B|exact C]. Qed.

Lemma started sg : exists s, start sg = Done s /\ ready sg s /\ s_world s = initial_items.
Proof.
  destruct (register_seen sg commands (fresh_bindings sg initial_items) [] (C50_fresh_holds _ _)) as (s & E & L & Hw & B & O).
  { vm_compute. repeat constructor; cbn; intuition discriminate. }
  exists s. split; [exact E|]. split; [|exact Hw]. split; [exact L|]. split; [exact B|].
  intros n N. rewrite O by exact N. rewrite (holds_get sg _ [] (C50_fresh_holds _ _)). reflexivity.
Qed.

Lemma single sg s name f : ready sg s -> In (name, [f]) commands ->
  exists n sid, get sg s name = Done (Some (Command n [(sid, f)])).
Proof.
  intros (_ & B & _) I. destruct (B _ _ I) as ([n fs] & G & M). cbn [c_functors] in M.
  destruct fs as [|[sid g] [|? ?]]; try discriminate. cbn in M. injection M as ->. eauto.
Qed.

Lemma commands_named name f : In (name, [f]) commands -> name <> [].
Proof. intros I ->. cbn in I. repeat (destruct I as [I|I]; [discriminate I|]). destruct I. Qed.

Section Named.
Variables (p : platform) (nm : naming) (uf : bool) (size_t : ctype).
Variables source_name type_name save_name : bytes.
Hypothesis Ns : no_nul source_name.
Hypothesis Nt : no_nul type_name.
Hypothesis Nv : no_nul save_name.
Hypothesis Us : is_unsigned size_t = true.
Variables sg catching : bool.
Variable d : nat.

Local Notation code := (code p nm uf size_t source_name type_name save_name).
Local Notation exec := (exec_input code sg catching d).
Local Notation does := (does p nm uf size_t source_name type_name save_name).
Local Notation proper := (proper p size_t).
Local Notation run := (run_prog sg (nested_exec code sg catching d)).

Lemma run_one s name f named (body : unit -> prog (list item) fn unit) s' es out :
  ready sg s -> In (name, [f]) commands -> code f = Functor true [] RVoid body ->
  (forall sid, run sid s (ctx (Input name [] named) [] []) (body tt) = Done (s', ctx (Input name [] named) es out, inl tt)) ->
  exec s (Input name [] named) = Done (s', inl (Result (Input name [] named) es None out)).
Proof.
  intros R I Ef Run. destruct (single _ _ _ _ R I) as (n & sid & G).
  assert (Ne := commands_named _ _ I).
  unfold exec_input, execute_input, execute_ctx. cbn [cc_input i_name].
  destruct name as [|c0 r0]; [easy|]. rewrite G. cbn [bind c_functors dispatch].
  rewrite arity_params. cbn [snd]. rewrite Ef. cbn [f_params cc_input i_args length Nat.eqb].
  unfold invokeTrampoline. cbn [snd fst cc_input i_args]. rewrite Ef. cbn [f_params convert bind].
  unfold invoke. cbn [f_params any_failed take_values bind f_body f_result].
  change (CallCtx (Input (c0 :: r0) [] named) empty_result) with (ctx (Input (c0 :: r0) [] named) [] []).
  rewrite Run. cbn [bind rtext]. destruct (cc_hasErrors _); reflexivity.
Qed.

Lemma add_command : In (lit "inventory.add", [FAdd]) commands.
Proof. right. now left. Qed.

(** inventory.add with two arguments. *)
Lemma run_add s v w named : ready sg s ->
  exists sid, exec s (Input (lit "inventory.add") [v; w] named) =
  (o <- invoke sg (nested_exec code sg catching d) sid (code FAdd) s (ctx (Input (lit "inventory.add") [v; w] named) [] [])
          (from_value (size_ser p nm size_t) v, (from_value string_serializer w, tt)) ;;
   match o with
   | (s', c', inl tt) =>
       Done (s', inl (Result (cc_input c') (r_errors (cc_result c')) (r_return (cc_result c'))
                             (r_output (cc_result c'))))
   | (s', c', inr x) =>
       if catching
       then Done (s', inl (Result (cc_input c') (r_errors (cc_result c') ++ [exn_text x])
                                  (r_return (cc_result c')) (r_output (cc_result c'))))
       else Done (s', inr x)
   end).
Proof.
  intros R. destruct (single _ _ _ _ R add_command) as (n & sid & G). exists sid.
  refine (input_chosen _ _ _ _ s (Input (lit "inventory.add") [v; w] named) _ (sid, FAdd) _ G _).
  - exact (commands_named _ _ add_command).
  - exists [], []. cbn [c_functors app snd i_args length NamedExample.code f_params]. repeat split; easy.
Qed.

Lemma run_add_fails s v w named r1 r2 es : ready sg s ->
  from_value (size_ser p nm size_t) v = r1 -> from_value string_serializer w = r2 ->
  match r1, r2 with
  | Value _, Value _ => False
  | Value _, Error e | Error e, Value _ => es = [e]
  | Error e, Error e' => es = [e; e']
  end ->
  exec s (Input (lit "inventory.add") [v; w] named) =
  Done (s, inl (Result (Input (lit "inventory.add") [v; w] named) es None [])).
Proof.
  intros R E1 E2 H. destruct (run_add s v w named R) as (sid & ->). rewrite E1, E2.
  unfold invoke. cbn [NamedExample.code f_params any_failed fst snd report_failed].
  destruct r1, r2; try contradiction; subst es; reflexivity.
Qed.

Lemma run_add_body s v w named x y s' es out : ready sg s ->
  from_value (size_ser p nm size_t) v = Value x -> from_value string_serializer w = Value y ->
  (forall sid, run sid s (ctx (Input (lit "inventory.add") [v; w] named) [] []) (add_ p nm size_t type_name x y) =
     Done (s', ctx (Input (lit "inventory.add") [v; w] named) es out, inl tt)) ->
  exec s (Input (lit "inventory.add") [v; w] named) =
  Done (s', inl (Result (Input (lit "inventory.add") [v; w] named) es None out)).
Proof.
  intros R E1 E2 H. destruct (run_add s v w named R) as (sid & ->). rewrite E1, E2.
  unfold invoke. cbn [NamedExample.code f_params any_failed fst snd take_values bind f_body f_result].
  rewrite H. cbn [bind rtext]. destruct (cc_hasErrors _); reflexivity.
Qed.

(** ** What the commands do *)

Lemma parameters_command name n : parameters name n -> exists f, In (name, [f]) commands /\ length (f_params (code f)) = n.
Proof.
  intros [[-> ->]|[I ->]]; [exists FAdd; split; [exact add_command|reflexivity]|].
  cbn in I. repeat (destruct I as [I|I]; [|]); [exists FList|exists FPrintArgs|exists FPrintFloats|exists FSaveGame|exists FRequired|destruct I];
    subst name; (split; [|reflexivity]); unfold commands; cbn [In]; tauto.
Qed.

Lemma command_parameters name : In name (map fst commands) -> exists n, parameters name n.
Proof.
  intros I. cbn in I. unfold parameters. cbn.
  repeat (destruct I as [I|I]; [subst name; (exists 0; now intuition) || (exists 2; now left)|]). destruct I.
Qed.

Lemma arity_message_unique name l n a b : arity_message name l n a -> arity_message name l n b -> a = b.
Proof.
  intros (x & y & z & X & Y & Z & ->) (x' & y' & z' & X' & Y' & Z' & ->).
  now rewrite (before_nul_det _ _ X), (before_nul_det _ _ X'), (C31_enumeration_unique _ _ _ Y Y'),
    (canonical_unique _ _ _ (Nat2Z.is_nonneg _) Z Z').
Qed.

Lemma unknown_message_unique name a b : unknown_message name a -> unknown_message name b -> a = b.
Proof. intros (x & X & ->) (y & Y & ->). now rewrite (before_nul_det _ _ X), (before_nul_det _ _ Y). Qed.

Lemma missing_message_unique key a b : missing_message key a -> missing_message key b -> a = b.
Proof. intros (x & X & ->) (y & Y & ->). now rewrite (before_nul_det _ _ X), (before_nul_det _ _ Y). Qed.

Lemma header_lines head : table_head head -> head = header ++ newline :: ruler ++ [newline].
Proof. intros (a & b & A & B & ->). cbn [map] in A, B. apply tab5 in A, B. now subst. Qed.

Lemma world_same (s : state (list item) fn) : set_world s (s_world s) = s.
Proof. now destruct s. Qed.

Local Notation sizes := (size_implements p nm size_t).
Local Notation sources := (enum_example_implements p nm _ (source_enum source_name Ns)).
Local Notation types := (enum_example_implements p nm _ (type_enum type_name Nt)).
Local Notation saves := (enum_example_implements p nm _ (save_enum save_name Nv)).
Local Notation floats := (float_implements uf).

Lemma list_run sid s inp n a sc t e1 e2 e3 e4 : Forall proper (s_world s) -> named_no_nul (i_named inp) ->
  lookup text_kind (i_named inp) (lit "name") false None n e1 ->
  lookup (size_kind p nm size_t) (i_named inp) (lit "min_amount") false None a e2 ->
  lookup (source_kind p source_name) (i_named inp) (lit "source") false None sc e3 ->
  lookup (type_kind p type_name) (i_named inp) (lit "type") false None t e4 ->
  forall r head, item_lines source_name type_name (wanted n a sc t) (s_world s) r -> table_head head ->
  run sid s (ctx inp [] []) (list_ p nm size_t source_name type_name) =
  Done (s, ctx inp (e1 ++ e2 ++ e3 ++ e4) (match e1 ++ e2 ++ e3 ++ e4 with [] => head ++ r | _ => [] end), inl tt).
Proof.
  intros P N L1 L2 L3 L4 r head Hr Hh. unfold list_.
  rewrite (lookup_run _ _ _ _ _ _ _ _ _ _ _ _ _ _ _ text_implements N L1).
  rewrite (lookup_run _ _ _ _ _ _ _ _ _ _ _ _ _ _ _ sizes N L2).
  rewrite (lookup_run _ _ _ _ _ _ _ _ _ _ _ _ _ _ _ sources N L3).
  rewrite (lookup_run _ _ _ _ _ _ _ _ _ _ _ _ _ _ _ types N L4).
  cbn [run_prog]. rewrite <- !app_assoc. cbn [app].
  unfold cc_hasErrors. cbn [ctx cc_result r_errors]. destruct (e1 ++ e2 ++ e3 ++ e4) as [|e es]; [|reflexivity].
  cbn [run_prog]. rewrite !ctx_line.
  rewrite (list_items_run p size_t source_name type_name Ns Nt Us sg _ sid n a sc t _ r _ _ _ _ _ P Hr).
  cbn [run_prog]. rewrite (header_lines head Hh). cbn [app]. rewrite <- !app_assoc. reflexivity.
Qed.

Lemma add_run sid s inp x y a t e1 e2 : named_no_nul (i_named inp) ->
  lookup (size_kind p nm size_t) (i_named inp) (lit "amount") false (Some 1%Z) a e1 ->
  lookup (type_kind p type_name) (i_named inp) (lit "type") false (Some 2%Z) t e2 ->
  run sid s (ctx inp [] []) (add_ p nm size_t type_name x y) =
  Done (match a, t with Some a, Some t => set_world s (s_world s ++ [Item x y a 3 t]) | _, _ => s end,
        ctx inp (e1 ++ e2) [], inl tt).
Proof.
  intros N L1 L2. unfold add_.
  rewrite (lookup_run _ _ _ _ _ _ _ _ _ _ _ _ _ _ _ sizes N L1).
  rewrite (lookup_run _ _ _ _ _ _ _ _ _ _ _ _ _ _ _ types N L2).
  destruct a, t; reflexivity.
Qed.

Lemma zero_in : value_in binary32 (Fin false 0 (-149)).
Proof. cbn. repeat split; cbn; try lia. Qed.

Lemma save_run sid s inp t x e1 e2 : named_no_nul (i_named inp) ->
  lookup (save_kind p save_name) (i_named inp) (lit "type") true None t e1 ->
  lookup (float_kind uf) (i_named inp) (lit "delay") false (Some (Fin false 0 (-149))) x e2 ->
  run sid s (ctx inp [] []) (save_game p nm uf save_name) =
  Done (s, ctx inp (e1 ++ e2) (match t, x with Some t, Some x => 
     (lit "Saving game with type " ++ enum_name_text p (SaveGameType save_name) t ++ lit " and delay " ++ printf_f x ++ lit " ms") ++ [newline]
     | _, _ => [] end), inl tt).
Proof.
  intros N L1 L2. unfold save_game.
  rewrite (lookup_run _ _ _ _ _ _ _ _ _ _ _ _ _ _ _ saves N L1).
  rewrite (lookup_run _ _ _ _ _ _ _ _ _ _ _ _ _ _ _ floats N L2).
  destruct t, x; cbn [run_prog]; rewrite ?ctx_line; reflexivity.
Qed.

Lemma lookup_value_of {A} (K : kind A) named key required default x es :
  lookup K named key required default (Some x) es ->
  es = [] /\ (default = Some x \/ exists v, denotes_value K v x).
Proof. inversion 1; subst; split; auto. right. eauto. Qed.

Lemma lookup_errors {A} (K : kind A) named key required default r e :
  lookup K named key required default r e -> e <> [] -> r = None.
Proof. intros L. apply (lookup_some K named key required default r e L). Qed.

Lemma enum_value e v x : example_enum e -> denotes_value (enum_kind p e) v x -> in_range p CInt x.
Proof.
  intros H (s & _ & [R|[_ R]]).
  - rewrite (example_under e H) in R. inversion R; subst; assumption.
  - destruct R as ((m & (I & _) & _) & _). apply first_name_In in I. apply (example_values e m x H) in I. unfold in_range. destruct p as [[|] [|]]; cbn; lia.
Qed.

Lemma float_value v x : denotes_value (float_kind uf) v x -> value_in binary32 x.
Proof.
  intros (s & _ & D). apply C58_exact in D; [|exact binary32_sane]. exact (C58_result_in_format binary32 uf s x binary32_sane D).
Qed.

Lemma size_value v x : denotes_value (size_kind p nm size_t) v x -> in_range p size_t x.
Proof. intros (s & _ & D). cbn in D. inversion D; subst; assumption. Qed.

Lemma exec_does s name pos named items' es out :
  ready sg s -> Forall proper (s_world s) -> (forall v, In v pos -> value_no_nul v) -> named_no_nul named ->
  does (s_world s) name pos named items' es out ->
  exec s (Input name pos named) = Done (set_world s items', inl (Result (Input name pos named) es None out)).
Proof.
  intros R P Np Nn H.
  destruct H as [n a sc t head r -> -> L1 L2 L3 L4 Hh Hr|n a sc t e1 e2 e3 e4 -> -> L1 L2 L3 L4 Ne
    |v w id n a t -> -> Dv Dw L1 L2|v w id n a t e1 e2 -> -> Dv Dw L1 L2 Ne|v w e1 e2 -> -> D1 D2 Ne
    |r -> -> Hr|r -> -> Hr|t x m dl -> -> L1 L2 Cm Sd|t x e1 e2 -> -> L1 L2 Ne
    |e -> -> No Me|v e1 r1 -> -> Fv Av No|v w e1 r1 e2 r2 -> -> Fv Av Fw Aw
    |n e Pn Ln Me|e Ne No Me|Ee].
  - rewrite world_same. apply (run_one s _ FList named (fun _ => list_ p nm size_t source_name type_name)); [exact R|now left|reflexivity|].
    intros sid. exact (list_run sid s (Input (lit "inventory.list") [] named) n a sc t _ _ _ _ P Nn L1 L2 L3 L4 r head Hr Hh).
  - rewrite world_same. apply (run_one s _ FList named (fun _ => list_ p nm size_t source_name type_name)); [exact R|now left|reflexivity|].
    intros sid.
    destruct (item_lines_total p size_t source_name type_name Ns Nt Us (wanted n a sc t) (s_world s)) as (r & Hr); [|exact P|].
    { intros i. destruct (does_item_match n a sc t i) eqn:E; [left; now apply does_item_match_iff|right].
      intros Q. apply does_item_match_iff in Q. congruence. }
    rewrite (list_run sid s (Input (lit "inventory.list") [] named) n a sc t e1 e2 e3 e4 P Nn L1 L2 L3 L4 r (header ++ newline :: ruler ++ [newline]) Hr).
    + destruct (e1 ++ e2 ++ e3 ++ e4); [easy|reflexivity].
    + exists header, ruler. cbn [map]. split; [now apply tab5|]. split; [now apply tab5|reflexivity].
  - apply (proj1 sizes) in Dv. apply (proj1 text_implements) in Dw.
    apply (run_add_body s v w named id n); [exact R|exact Dv|exact Dw|]. intros sid.
    exact (add_run sid s (Input (lit "inventory.add") [v; w] named) id n (Some a) (Some t) [] [] Nn L1 L2).
  - apply (proj1 sizes) in Dv. apply (proj1 text_implements) in Dw. rewrite world_same.
    apply (run_add_body s v w named id n); [exact R|exact Dv|exact Dw|]. intros sid.
    refine (eq_trans (add_run sid s (Input (lit "inventory.add") [v; w] named) id n a t e1 e2 Nn L1 L2) _).
    destruct e1 as [|e e1].
    + rewrite (lookup_errors _ _ _ _ _ _ _ L2 Ne). destruct a; reflexivity.
    + rewrite (lookup_errors _ _ _ _ _ _ _ L1) by discriminate. reflexivity.
  - rewrite world_same.
    assert (Nv' : value_no_nul v) by (apply Np; now left). assert (Nw : value_no_nul w) by (apply Np; right; now left).
    destruct D1 as [((x & D1) & ->)|(e & D1 & ->)], D2 as [((y & D2) & ->)|(e' & D2 & ->)].
    + now elim Ne.
    + apply (proj1 sizes) in D1. apply (proj2 text_implements) in D2; [|exact Nw].
      now apply (run_add_fails s v w named _ _ _ R D1 D2).
    + apply (proj2 sizes) in D1; [|exact Nv']. apply (proj1 text_implements) in D2.
      now apply (run_add_fails s v w named _ _ _ R D1 D2).
    + apply (proj2 sizes) in D1; [|exact Nv']. apply (proj2 text_implements) in D2; [|exact Nw].
      now apply (run_add_fails s v w named _ _ _ R D1 D2).
  - rewrite world_same. apply (run_one s _ FPrintArgs named (fun _ => GetNamed print_args)); [exact R|do 2 right; now left|reflexivity|].
    intros sid. cbn [run_prog]. exact (print_args_run _ _ _ _ _ _ _ _ _ Hr).
  - rewrite world_same. apply (run_one s _ FPrintFloats named (fun _ => GetNamed (print_floats uf))); [exact R|do 3 right; now left|reflexivity|].
    intros sid. cbn [run_prog]. exact (print_floats_run _ _ _ _ _ _ _ _ _ _ Hr).
  - rewrite world_same. apply (run_one s _ FSaveGame named (fun _ => save_game p nm uf save_name)); [exact R|do 4 right; now left|reflexivity|].
    intros sid. rewrite (save_run sid s (Input (lit "save_game") [] named) _ _ _ _ Nn L1 L2). cbn [app].
    assert (Rt : in_range p CInt t).
    { destruct (lookup_value_of _ _ _ _ _ _ _ L1) as (_ & [E|(v & D)]); [discriminate E|]. exact (enum_value _ _ _ (save_enum save_name Nv) D). }
    assert (Vx : value_in binary32 x).
    { destruct (lookup_value_of _ _ _ _ _ _ _ L2) as (_ & [E|(v & D)]); [injection E as <-; exact zero_in|exact (float_value _ _ D)]. }
    destruct (example_name p _ t (save_enum save_name Nv) Rt) as [_ Cn]. rewrite (called_det _ _ _ _ Cm Cn).
    apply (shows_fixed_iff x dl Vx) in Sd. rewrite Sd. cbn [app]. now rewrite <- !app_assoc.
  - rewrite world_same. apply (run_one s _ FSaveGame named (fun _ => save_game p nm uf save_name)); [exact R|do 4 right; now left|reflexivity|].
    intros sid. rewrite (save_run sid s (Input (lit "save_game") [] named) _ _ _ _ Nn L1 L2).
    destruct e1 as [|e e1].
    + rewrite (lookup_errors _ _ _ _ _ _ _ L2 Ne). destruct t; reflexivity.
    + rewrite (lookup_errors _ _ _ _ _ _ _ L1) by discriminate. reflexivity.
  - rewrite world_same. apply (run_one s _ FRequired named (fun _ => required_and_optional p nm)); [exact R|do 5 right; now left|reflexivity|].
    intros sid. unfold required_and_optional. rewrite any_run. cbn [i_named].
    rewrite (proj2 (find_named_none named (lit "required")) No). cbn [run_prog app].
    rewrite (missing_message_unique _ _ _ Me (ex_intro _ _ (conj (before_nul_c_str (lit "required")) eq_refl))). reflexivity.
  - rewrite world_same. apply (run_one s _ FRequired named (fun _ => required_and_optional p nm)); [exact R|do 5 right; now left|reflexivity|].
    intros sid. unfold required_and_optional. rewrite any_run. cbn [i_named].
    rewrite (proj2 (find_named_some named (lit "required") v) Fv).
    rewrite (show_any_run p nm sg _ sid (lit "Required") v e1 r1 _ s _ [] [] (Nn _ _ (first_named_in _ _ _ Fv)) Av).
    rewrite any_run. cbn [i_named]. rewrite (proj2 (find_named_none named (lit "optional")) No). reflexivity.
  - rewrite world_same. apply (run_one s _ FRequired named (fun _ => required_and_optional p nm)); [exact R|do 5 right; now left|reflexivity|].
    intros sid. unfold required_and_optional. rewrite any_run. cbn [i_named].
    rewrite (proj2 (find_named_some named (lit "required") v) Fv).
    rewrite (show_any_run p nm sg _ sid (lit "Required") v e1 r1 _ s _ [] [] (Nn _ _ (first_named_in _ _ _ Fv)) Av).
    rewrite any_run. cbn [i_named]. rewrite (proj2 (find_named_some named (lit "optional") w) Fw).
    rewrite (show_any_run p nm sg _ sid (lit "Optional") w e2 r2 _ s _ _ _ (Nn _ _ (first_named_in _ _ _ Fw)) Aw). reflexivity.
  - rewrite world_same. destruct (parameters_command name n Pn) as (f & I & Lf).
    destruct (single _ _ _ _ R I) as (n' & sid & G).
    destruct (C31_wrong_arity_message _ _ code sg catching d s (Input name pos named) _ (commands_named _ _ I) G)
      as (msg & A & E).
    { intros g [<-|[]]. cbn [snd i_args]. rewrite Lf. auto. }
    cbn [c_functors map snd i_name i_args] in A. rewrite Lf in A.
    rewrite (arity_message_unique _ _ _ _ _ Me A). exact E.
  - rewrite world_same.
    destruct (C30_unknown_name _ _ code sg catching d s (Input name pos named) Ne) as (msg & U & E).
    { destruct R as (_ & _ & O). apply O. intros I. destruct (command_parameters name I) as (n & K). now elim (No n). }
    cbn [i_name] in U. rewrite (unknown_message_unique _ _ _ Me U). exact E.
  - subst name. rewrite world_same. now apply (C30_no_name _ _ code sg catching d s (Input [] pos named)).
Qed.

(** ** Every command has an answer *)

Lemma arg_lines_total : forall named, exists r, arg_lines named r.
Proof.
  induction named as [|[key v] named (r & IH)]; [exists []; constructor|].
  eexists. eapply arg_lines_cons; [apply before_nul_c_str|apply value_str_joined|apply before_nul_c_str|exact IH].
Qed.

Lemma float_lines_total : forall named, exists r, float_lines uf named r.
Proof.
  induction named as [|[key v] named (r & IH)]; [exists []; constructor|].
  destruct (from_value (float_ser uf) v) as [x|e] eqn:E.
  - apply (proj1 floats) in E. eexists. eapply float_lines_yes; [exact E|apply before_nul_c_str| |exact IH].
    apply shows_fixed_iff; [exact (float_value _ _ E)|reflexivity].
  - exists r. apply float_lines_no; [|exact IH]. intros x D. apply (proj1 floats) in D. congruence.
Qed.

Lemma printf_d_canonical v : canonical v (printf_d v).
Proof.
  unfold printf_d. destruct (Z.ltb_spec v 0) as [H|H]; [|now apply dec_canonical].
  rewrite <- (Z.opp_involutive v) at 1. change (ascii_of_N 45) with (ascii_of_nat 45).
  apply canonical_neg; [lia|apply dec_canonical; lia].
Qed.

Lemma any_shown_total title v : value_no_nul v -> exists es r, any_shown p nm title v es r.
Proof.
  intros N. destruct (from_value (bool_ser p) v) as [b|e] eqn:B.
  - apply (proj1 (bool_implements p nm _)) in B. eexists _, _. exact (any_bool p nm title v b B).
  - destruct (from_value (int_ser p nm) v) as [z|e'] eqn:I.
    + apply (proj1 (integer_implements p nm CInt)) in I. eexists _, _. eapply any_int; [|exact I|].
      * intros b D. apply (proj1 (bool_implements p nm (char_signed p))) in D. unfold bool_ser in B. congruence.
      * apply printf_d_canonical.
    + apply (proj2 (bool_implements p nm _)) in B; [|exact N].
      apply (proj2 (integer_implements p nm CInt)) in I; [|exact N]. eexists _, _. exact (any_none p nm title v e e' B I).
Qed.

Lemma missing_total key : exists e, missing_message key e.
Proof. eexists. exists (c_str key). split; [apply before_nul_c_str|reflexivity]. Qed.

Lemma parameters_dec name : (exists n, parameters name n) \/ (forall n, ~ parameters name n).
Proof.
  assert (D : forall a b : bytes, {a = b} + {a <> b}) by (apply list_eq_dec, ascii_dec).
  destruct (in_dec D name (map fst commands)) as [I|I]; [left; now apply command_parameters|right].
  intros n Pn. apply I. destruct (parameters_command name n Pn) as (f & J & _). apply (in_map fst) in J. exact J.
Qed.

Lemma does_total items name pos named : Forall proper items -> (forall v, In v pos -> value_no_nul v) -> named_no_nul named ->
  exists items' es out, does items name pos named items' es out.
Proof.
  intros P Np Nn. destruct name as [|c0 n0]; [eexists _, _, _; now apply does_nothing|].
  set (name := c0 :: n0). destruct (parameters_dec name) as [(n & Pn)|No].
  2:{ eexists _, _, _. apply does_unknown; [discriminate|exact No|]. exists (c_str name). split; [apply before_nul_c_str|reflexivity]. }
  destruct (Nat.eq_dec (length pos) n) as [Ln|Ln].
  2:{ eexists _, _, _. apply (does_count _ _ _ _ _ _ _ _ _ _ _ n); [exact Pn|exact Ln|].
      exists (c_str name), (printf_zu n), (printf_zu (length pos)).
      split; [apply before_nul_c_str|]. split; [apply enum_one, printf_zu_canonical|]. split; [apply printf_zu_canonical|reflexivity]. }
  destruct Pn as [[E ->]|[I ->]].
  - destruct pos as [|v [|w [|? ?]]]; try discriminate Ln.
    assert (Nv' : value_no_nul v) by (apply Np; now left). assert (Nw : value_no_nul w) by (apply Np; right; now left).
    destruct (lookup_total (size_ser p nm size_t) (size_kind p nm size_t) named (lit "amount") false (Some 1%Z) sizes Nn) as (a & e1 & L1).
    destruct (lookup_total (enum_serializer p nm (Type_ type_name)) (type_kind p type_name) named (lit "type") false (Some 2%Z) types Nn) as (t & e2 & L2).
    destruct (implements_cases (size_ser p nm size_t) (size_kind p nm size_t) v sizes Nv') as [(x & D1)|(e & D1)], (implements_cases string_serializer text_kind w text_implements Nw) as [(y & D2)|(e' & D2)].
    + destruct (e1 ++ e2) as [|e es] eqn:Q.
      * apply app_eq_nil in Q. destruct Q as [-> ->].
        assert (a <> None) as Ha by (apply (lookup_some _ _ _ _ _ _ _ L1); [reflexivity|right; discriminate]).
        assert (t <> None) as Ht by (apply (lookup_some _ _ _ _ _ _ _ L2); [reflexivity|right; discriminate]).
        destruct a as [a|]; [|easy]. destruct t as [t|]; [|easy]. eexists _, _, _. eapply does_add; eauto.
      * eexists _, _, _. eapply (does_add_errors _ _ _ _ _ _ _ _ _ _ _ v w x y a t e1 e2); eauto. now rewrite Q.
    + eexists _, _, _. apply (does_add_arguments _ _ _ _ _ _ _ _ _ _ _ v w [] [e']); eauto. discriminate.
    + eexists _, _, _. apply (does_add_arguments _ _ _ _ _ _ _ _ _ _ _ v w [e] []); eauto. discriminate.
    + eexists _, _, _. apply (does_add_arguments _ _ _ _ _ _ _ _ _ _ _ v w [e] [e']); eauto. discriminate.
  - destruct pos; [|discriminate Ln]. cbn [map In] in I. destruct I as [E|[E|[E|[E|[E|[]]]]]]; symmetry in E.
    + destruct (lookup_total string_serializer text_kind named (lit "name") false None text_implements Nn) as (n & e1 & L1).
      destruct (lookup_total (size_ser p nm size_t) (size_kind p nm size_t) named (lit "min_amount") false None sizes Nn) as (a & e2 & L2).
      destruct (lookup_total (enum_serializer p nm (Source source_name)) (source_kind p source_name) named (lit "source") false None sources Nn) as (sc & e3 & L3).
      destruct (lookup_total (enum_serializer p nm (Type_ type_name)) (type_kind p type_name) named (lit "type") false None types Nn) as (t & e4 & L4).
      destruct (e1 ++ e2 ++ e3 ++ e4) as [|e es] eqn:Q.
      * apply app_eq_nil in Q. destruct Q as [-> Q]. apply app_eq_nil in Q. destruct Q as [-> Q].
        apply app_eq_nil in Q. destruct Q as [-> ->].
        destruct (item_lines_total p size_t source_name type_name Ns Nt Us (wanted n a sc t) items) as (r & Hr); [|exact P|].
        { intros i. destruct (does_item_match n a sc t i) eqn:X; [left; now apply does_item_match_iff|right].
          intros Z. apply does_item_match_iff in Z. congruence. }
        eexists _, _, _. eapply does_list; eauto.
        exists header, ruler. cbn [map]. split; [now apply tab5|]. split; [now apply tab5|reflexivity].
      * eexists _, _, _. eapply (does_list_errors _ _ _ _ _ _ _ _ _ _ _ n a sc t e1 e2 e3 e4); eauto. now rewrite Q.
    + destruct (arg_lines_total named) as (r & Hr). eexists _, _, _. exact (does_print_args _ _ _ _ _ _ _ _ _ _ _ r E eq_refl Hr).
    + destruct (float_lines_total named) as (r & Hr). eexists _, _, _. exact (does_print_floats _ _ _ _ _ _ _ _ _ _ _ r E eq_refl Hr).
    + destruct (lookup_total (enum_serializer p nm (SaveGameType save_name)) (save_kind p save_name) named (lit "type") true None saves Nn) as (t & e1 & L1).
      destruct (lookup_total (float_ser uf) (float_kind uf) named (lit "delay") false (Some (Fin false 0 (-149))) floats Nn) as (x & e2 & L2).
      destruct (e1 ++ e2) as [|e es] eqn:Q.
      * apply app_eq_nil in Q. destruct Q as [-> ->].
        assert (t <> None) as Ht by (apply (lookup_some _ _ _ _ _ _ _ L1); [reflexivity|now left]).
        assert (x <> None) as Hx by (apply (lookup_some _ _ _ _ _ _ _ L2); [reflexivity|right; discriminate]).
        destruct t as [t|]; [|easy]. destruct x as [x|]; [|easy].
        assert (Rt : in_range p CInt t).
        { destruct (lookup_value_of _ _ _ _ _ _ _ L1) as (_ & [F|(v & D)]); [discriminate F|]. exact (enum_value _ _ _ (save_enum save_name Nv) D). }
        assert (Vx : value_in binary32 x).
        { destruct (lookup_value_of _ _ _ _ _ _ _ L2) as (_ & [F|(v & D)]); [injection F as <-; exact zero_in|exact (float_value _ _ D)]. }
        destruct (example_name p _ t (save_enum save_name Nv) Rt) as [_ Cn].
        eexists _, _, _. eapply does_save; eauto. apply (shows_fixed_iff x _ Vx). reflexivity.
      * eexists _, _, _. eapply (does_save_errors _ _ _ _ _ _ _ _ _ _ _ t x e1 e2); eauto. now rewrite Q.
    + destruct (C35_cases (lit "required") named) as [(v & Fv)|No].
      2:{ destruct (missing_total (lit "required")) as (e & Me). eexists _, _, _. exact (does_required_missing _ _ _ _ _ _ _ _ _ _ _ e E eq_refl No Me). }
      destruct (any_shown_total (lit "Required") v (Nn _ _ (first_named_in _ _ _ Fv))) as (e1 & r1 & Av).
      destruct (C35_cases (lit "optional") named) as [(w & Fw)|No].
      * destruct (any_shown_total (lit "Optional") w (Nn _ _ (first_named_in _ _ _ Fw))) as (e2 & r2 & Aw).
        eexists _, _, _. eapply does_both; eauto.
      * eexists _, _, _. eapply does_required; eauto.
Qed.

(** What a command may add to the inventory. *)
Lemma does_items items name pos named items' es out : does items name pos named items' es out ->
  items' = items \/ es = [] /\ name = lit "inventory.add" /\
  exists i, items' = items ++ [i] /\ proper i /\ it_source i = 3%Z.
Proof.
  destruct 1; auto. right. split; [reflexivity|]. split; [assumption|]. eexists. split; [reflexivity|]. split; [|reflexivity].
  split; [exact (size_value _ _ H1)|]. cbn [it_amount it_source it_type].
  assert (small : forall z, (0 <= z <= 3)%Z -> in_range p CInt z /\ in_range p size_t z).
  { intros z Z. split; unfold in_range; [destruct p as [[|] [|]]; cbn; lia|].
    destruct size_t; try discriminate Us; destruct p as [[|] [|]]; cbn; lia. }
  split; [|split; [apply small; lia|]].
  - destruct (lookup_value_of _ _ _ _ _ _ _ H3) as (_ & [F|(u & D)]); [injection F as <-; apply small; lia|exact (size_value _ _ D)].
  - destruct (lookup_value_of _ _ _ _ _ _ _ H4) as (_ & [F|(u & D)]); [injection F as <-; apply small; lia|].
    exact (enum_value _ _ _ (type_enum type_name Nt) D).
Qed.

Lemma does_proper items name pos named items' es out : does items name pos named items' es out -> Forall proper items -> Forall proper items'.
Proof.
  intros D P. destruct (does_items _ _ _ _ _ _ _ D) as [->|(_ & _ & i & -> & I & _)]; [exact P|].
  apply Forall_app. split; [exact P|now constructor].
Qed.

Lemma does_unique s name pos named i e o i' e' o' : ready sg s -> Forall proper (s_world s) ->
  (forall v, In v pos -> value_no_nul v) -> named_no_nul named ->
  does (s_world s) name pos named i e o -> does (s_world s) name pos named i' e' o' -> i = i' /\ e = e' /\ o = o'.
Proof.
  intros R P A B D D'. assert (E := eq_trans (eq_sym (exec_does s name pos named _ _ _ R P A B D)) (exec_does s name pos named _ _ _ R P A B D')).
  injection E as E1 E2 E3. auto.
Qed.

(** ** Command texts *)
Local Notation C := (cfg_classes sg default_cfg).
Local Notation answers := (answers_text p nm uf size_t source_name type_name save_name C).
Local Notation dialogue := (dialogue p nm uf size_t source_name type_name save_name C).
Local Notation session := (session p nm uf size_t source_name type_name save_name sg catching d).

Lemma exec_answers s line items' es out : ready sg s -> Forall proper (s_world s) -> no_nul line ->
  answers (s_world s) line items' es out ->
  exists inp, exec_text code sg catching d s line = Done (set_world s items', inl (Result inp es None out)).
Proof.
  intros R P N [e H|name pos named i e o H D].
  - exists no_input. rewrite world_same. destruct R as (L & _). unfold exec_text, execute_text. rewrite L.
    rewrite (proj2 (C07_error_iff_malformed sg default_cfg line (message e))); [reflexivity|eauto].
  - exists (Input name pos named). destruct (command_no_nul _ _ _ _ _ H N) as [A B].
    assert (Hp := H). apply C07_value_iff_wellformed in Hp. assert (L := proj1 R).
    unfold exec_text, execute_text. rewrite L, Hp. cbn [bind].
    exact (exec_does s name pos named _ _ _ R P A B D).
Qed.

Lemma answers_total items line : Forall proper items -> no_nul line ->
  (exists items' es out, answers items line items' es out) \/ ill_command C line.
Proof.
  intros P N. destruct (C07_diagnosis_total sg default_cfg line) as [([[name pos named]|e] & H)|I]; [left|left|now right].
  - destruct (command_no_nul _ _ _ _ _ H N) as [A B].
    destruct (does_total items name pos named P A B) as (i & e & o & D). exists i, e, o. eapply answers_command; eauto.
  - eexists _, _, _. exact (answers_syntax _ _ _ _ _ _ _ _ items line e H).
Qed.

Lemma answers_items items line items' es out : answers items line items' es out ->
  items' = items \/ es = [] /\ exists i, items' = items ++ [i] /\ proper i /\ it_source i = 3%Z.
Proof.
  intros [e H|name pos named i e o H D]; [now left|].
  destruct (does_items _ _ _ _ _ _ _ D) as [->|(-> & _ & K)]; [now left|right]. split; [reflexivity|exact K].
Qed.

Lemma answers_proper items line items' es out : answers items line items' es out -> Forall proper items -> Forall proper items'.
Proof. intros [e H|name pos named i e o H D]; [auto|exact (does_proper _ _ _ _ _ _ _ D)]. Qed.

Definition reply (r : result) : list bytes * bytes := (r_errors r, r_output r).

Lemma session_dialogue lines : Forall no_nul lines -> forall s items' rs, ready sg s -> Forall proper (s_world s) ->
  dialogue (s_world s) lines items' rs ->
  exists s' xs, session s lines = Done (s', xs) /\ s_world s' = items' /\ map reply xs = rs /\
    Forall (fun x => r_return x = None) xs.
Proof.
  induction 1 as [|line lines N _ IH]; intros s items' rs R P H.
  - inversion H; subst. exists s, []. repeat split; constructor.
  - inversion H as [|? ? ? i1 e o i2 rs' A D]; subst.
    destruct (exec_answers s line i1 e o R P N A) as (inp & E).
    destruct (IH (set_world s i1) items' rs' (ready_world _ _ _ R) (answers_proper _ _ _ _ _ A P) D) as (s' & xs & E' & Hw & M & F).
    cbn [NamedExample.session]. rewrite E. cbn [bind snd fst]. rewrite E'. cbn [bind fst snd].
    eexists s', (_ :: xs). split; [reflexivity|]. split; [exact Hw|]. split; [cbn [map]; now rewrite M|now constructor].
Qed.

Lemma dialogue_total lines : Forall no_nul lines -> forall items, Forall proper items ->
  (exists items' rs, dialogue items lines items' rs) \/ exists line, In line lines /\ ill_command C line.
Proof.
  induction 1 as [|line lines N _ IH]; intros items P; [left; exists items, []; constructor|].
  destruct (answers_total items line P N) as [(i & e & o & A)|I]; [|right; exists line; split; [now left|exact I]].
  destruct (IH i (answers_proper _ _ _ _ _ A P)) as [(i' & rs & D)|(l & J & I)].
  - left. eexists _, _. econstructor; eauto.
  - right. exists l. split; [now right|exact I].
Qed.

Lemma dialogue_items items lines items' rs : dialogue items lines items' rs ->
  exists added, items' = items ++ added /\ Forall (fun i => proper i /\ it_source i = 3%Z) added /\
    length added <= length (filter (fun r => match fst r with [] => true | _ => false end) rs).
Proof.
  induction 1 as [items|items line lines i e o i' rs A D (l & -> & F & Ln)].
  - exists []. rewrite app_nil_r. repeat split; [constructor|cbn; lia].
  - destruct (answers_items _ _ _ _ _ A) as [->|(-> & x & -> & Px & Sx)].
    + exists l. split; [reflexivity|]. split; [exact F|]. cbn [filter fst]. destruct e; cbn [length]; lia.
    + exists (x :: l). rewrite <- app_assoc. split; [reflexivity|]. split; [constructor; auto|]. cbn [filter fst length]. lia.
Qed.

Lemma session_ill line : ill_command C line -> forall lines s, Forall no_nul lines -> ready sg s -> Forall proper (s_world s) ->
  In line lines -> exists f, session s lines = Fault f.
Proof.
  intros I. induction lines as [|l lines IH]; intros s N R P J; [destruct J|].
  inversion N as [|? ? N1 N2]; subst. cbn [NamedExample.session].
  destruct (answers_total (s_world s) l P N1) as [(i & e & o & A)|Il].
  - destruct (exec_answers s l i e o R P N1 A) as (inp & E). rewrite E. cbn [bind snd fst].
    destruct J as [->|J].
    + exfalso. destruct A as [? H|? ? ? ? ? ? H _]; exact (C07_diagnosis_exclusive sg default_cfg line _ H I).
    + destruct (IH (set_world s i) N2 (ready_world _ _ _ R) (answers_proper _ _ _ _ _ A P) J) as (f & F). exists f.
      rewrite F. reflexivity.
  - apply parse_input_fault_iff in Il. destruct Il as (f & Il). exists f. unfold exec_text, execute_text.
    destruct R as (L & _). rewrite L, Il. reflexivity.
Qed.

Lemma initial_proper : size_type size_t -> Forall proper initial_items.
Proof.
  intros Z. unfold initial_items. repeat apply Forall_cons; [..|apply Forall_nil];
    (unfold NamedExampleSpec.proper, in_range; cbn [it_id it_amount it_source it_type];
     destruct Z as [->|[->| ->]]; destruct p as [[|] [|]]; repeat split; vm_compute; discriminate).
Qed.
End Named.

Lemma size_type_unsigned t : size_type t -> is_unsigned t = true.
Proof. now intros [->|[->| ->]]. Qed.

(** ** Theorems *)

(** The example answers exactly what NamedExampleSpec.v describes, for all texts without NUL.
    The names of the enumeration types are arbitrary. *)
Theorem C78_session_iff : forall p nm uf size_t source_name type_name save_name sg catching d lines items rs,
  size_type size_t -> no_nul source_name -> no_nul type_name -> no_nul save_name ->
  Forall no_nul lines ->
  (dialogue p nm uf size_t source_name type_name save_name (cfg_classes sg default_cfg) initial_items lines items rs <->
   exists s s' xs, start sg = Done s /\
     session p nm uf size_t source_name type_name save_name sg catching d s lines = Done (s', xs) /\
     s_world s' = items /\ map reply xs = rs /\ Forall (fun x => r_return x = None) xs).
Proof.
  intros p nm uf size_t sn tn vn sg catching d lines items rs Z Ns Nt Nv N. assert (Us := size_type_unsigned _ Z).
  destruct (started sg) as (s & E & R & Hw).
  assert (P := initial_proper p size_t (size_type_unsigned _ Z) Z). split.
  - intros D. rewrite <- Hw in D, P.
    destruct (session_dialogue p nm uf size_t sn tn vn Ns Nt Nv Us sg catching d lines N s items rs R P D) as (s' & xs & H).
    exists s, s', xs. split; [exact E|exact H].
  - intros (s0 & s' & xs & E0 & H & Hi & M & _). rewrite E in E0. injection E0 as <-.
    destruct (dialogue_total p nm uf size_t sn tn vn Ns Nt Nv Us sg lines N initial_items P) as [(i & rs' & D)|(line & I & Ill)].
    + assert (D' := D). rewrite <- Hw in D, P.
      destruct (session_dialogue p nm uf size_t sn tn vn Ns Nt Nv Us sg catching d lines N s i rs' R P D) as (s1 & xs1 & H1 & W1 & M1 & _).
      rewrite H in H1. injection H1 as <- <-. subst. exact D'.
    + exfalso. rewrite <- Hw in P.
      destruct (session_ill p nm uf size_t sn tn vn Ns Nt Nv Us sg catching d line Ill lines s N R P I) as (f & F).
      rewrite F in H. discriminate H.
Qed.

(** There is no answer only if a text is one of those C01 is about; no handler of the example
    fails. *)
Theorem C78_session_total : forall p nm uf size_t source_name type_name save_name sg lines,
  size_type size_t -> no_nul source_name -> no_nul type_name -> no_nul save_name ->
  Forall no_nul lines ->
  (exists items rs, dialogue p nm uf size_t source_name type_name save_name (cfg_classes sg default_cfg)
     initial_items lines items rs) \/
  exists line, In line lines /\ ill_command (cfg_classes sg default_cfg) line.
Proof.
  intros p nm uf size_t sn tn vn sg lines Z Ns Nt Nv N.
  exact (dialogue_total p nm uf size_t sn tn vn Ns Nt Nv (size_type_unsigned _ Z) sg lines N initial_items (initial_proper p size_t (size_type_unsigned _ Z) Z)).
Qed.

Theorem C78_session_unique : forall p nm uf size_t source_name type_name save_name sg lines items rs items' rs',
  size_type size_t -> no_nul source_name -> no_nul type_name -> no_nul save_name ->
  Forall no_nul lines ->
  dialogue p nm uf size_t source_name type_name save_name (cfg_classes sg default_cfg) initial_items lines items rs ->
  dialogue p nm uf size_t source_name type_name save_name (cfg_classes sg default_cfg) initial_items lines items' rs' ->
  items = items' /\ rs = rs'.
Proof.
  intros p nm uf size_t sn tn vn sg lines items rs items' rs' Z Ns Nt Nv N A B.
  apply (C78_session_iff p nm uf size_t sn tn vn sg true 0 lines items rs Z Ns Nt Nv N) in A.
  apply (C78_session_iff p nm uf size_t sn tn vn sg true 0 lines items' rs' Z Ns Nt Nv N) in B.
  destruct A as (s & s' & xs & E & H & <- & <- & _). destruct B as (s1 & s1' & xs1 & E1 & H1 & <- & <- & _).
  rewrite E in E1. injection E1 as <-. rewrite H in H1. injection H1 as <- <-. auto.
Qed.

(** The inventory only grows, at the end, by items of the source Debug, by one at most for every
    command that reports no error.  All values fit their types. *)
Theorem C78_inventory_grows : forall p nm uf size_t source_name type_name save_name sg catching d lines s s' xs,
  size_type size_t -> no_nul source_name -> no_nul type_name -> no_nul save_name ->
  Forall no_nul lines -> start sg = Done s ->
  session p nm uf size_t source_name type_name save_name sg catching d s lines = Done (s', xs) ->
  exists added, s_world s' = initial_items ++ added /\
    Forall (fun i => proper p size_t i /\ first_name (Source source_name) (it_source i) (lit "Debug")) added /\
    length added <= length (filter (fun r => match r_errors r with [] => true | _ => false end) xs).
Proof.
  intros p nm uf size_t sn tn vn sg catching d lines s s' xs Z Ns Nt Nv N E H.
  destruct (C78_session_total p nm uf size_t sn tn vn sg lines Z Ns Nt Nv N) as [(items & rs & D)|(line & I & Ill)].
  - assert (D' := D). apply (C78_session_iff p nm uf size_t sn tn vn sg catching d lines items rs Z Ns Nt Nv N) in D'.
    destruct D' as (s1 & s1' & xs1 & E1 & H1 & Hi & M & _). rewrite E in E1. injection E1 as <-.
    rewrite H in H1. injection H1 as <- <-.
    destruct (dialogue_items p nm uf size_t sn tn vn Nt (size_type_unsigned _ Z) sg _ _ _ _ D) as (added & A & F & Ln).
    exists added. split; [congruence|]. split.
    + revert F. apply Forall_impl. intros i [Pi Si]. split; [exact Pi|]. rewrite Si.
      exists [(lit "None", 0%Z); (lit "Loot", 1%Z); (lit "Reward", 2%Z)], []. split; [reflexivity|].
      cbn. intuition discriminate.
    + subst rs. replace (length (filter (fun r => match r_errors r with [] => true | _ => false end) xs))
        with (length (filter (fun r : list bytes * bytes => match fst r with [] => true | _ => false end) (map reply xs))); [exact Ln|].
      clear. induction xs as [|x xs IH]; [reflexivity|]. cbn [map filter reply fst]. destruct (r_errors x); cbn [length]; now rewrite IH.
  - exfalso. destruct (started sg) as (s0 & E0 & R & Hw). rewrite E in E0. injection E0 as <-.
    assert (P := initial_proper p size_t (size_type_unsigned _ Z) Z). rewrite <- Hw in P.
    destruct (session_ill p nm uf size_t sn tn vn Ns Nt Nv (size_type_unsigned _ Z) sg catching d line Ill lines s N R P I) as (f & F).
    rewrite F in H. discriminate H.
Qed.

(** The conversion from and to the names of the three enumerations never fails to terminate or
    leaves their table (magic_enum's), whatever text or int is given. *)
Theorem C78_enums_safe : forall p nm n e,
  no_nul n -> In e [Source n; Type_ n; SaveGameType n] ->
  (forall v, exists r, fromString p nm e v = Done r) /\
  (forall v, in_range p CInt v -> exists t, enum_name p e v = Done t /\ called e v t).
Proof.
  intros p nm n e N I. assert (X : example_enum e).
  { exists n. split; [exact N|]. destruct I as [<-|[<-|[<-|[]]]]; auto. }
  split.
  - intros v. destruct v as [|s [|? ?]]; [now eexists| |now eexists].
    destruct (fromString p nm e [s]) as [r|f] eqn:E; [now exists r|]. exfalso.
    assert (F : exists f, fromString p nm e [s] = Fault f) by now exists f.
    apply (C75_read_fault_iff p nm e s (example_declarable p e X)) in F. destruct F as (x & _ & C). apply C. left. now apply example_fixed.
  - intros v R. destruct (example_name p e v X R) as [E C]. eauto.
Qed.

(** An int given to required_and_optional is shown as a number unless it is 0 or 1: these are
    shown as false and true. *)
Theorem C78_required_integer : forall p nm uf size_t source_name type_name save_name sg catching d s z,
  size_type size_t -> no_nul source_name -> no_nul type_name -> no_nul save_name ->
  start sg = Done s -> in_range p CInt z ->
  forall t, canonical z t ->
  let inp := Input (lit "required_and_optional") [] [(lit "required", [t])] in
  exec_input (code p nm uf size_t source_name type_name save_name) sg catching d s inp =
  Done (s, inl (Result inp [] None (lit "Required: " ++
    (if (z =? 0)%Z then lit "false" else if (z =? 1)%Z then lit "true" else t) ++ [nl]))).
Proof.
  intros p nm uf size_t sn tn vn sg catching d s z Z Ns Nt Nv E R t T inp.
  destruct (started sg) as (s0 & E0 & Rd & Hw). rewrite E in E0. injection E0 as <-.
  assert (Et := canonical_d z t T).
  assert (Head : exists c r, t = c :: r /\ (nat_of_ascii c = 45 \/ 48 <= nat_of_ascii c <= 57) /\ no_nul t).
  { assert (K : forall ds z, StringConvSpec.digits ds z -> exists c r, ds = c :: r /\ (nat_of_ascii c = 45 \/ 48 <= nat_of_ascii c <= 57) /\ no_nul ds).
    { intros ds x D. assert (D' := digits_no_nul _ _ D). destruct (digits_head _ _ D) as (c & r & -> & I).
      exists c, r. split; [reflexivity|]. split; [right|exact D']. apply isdigit_digit in I. inversion I as [k Hk Hc Hv]. rewrite nat_ascii_embedding by lia. lia. }
    subst t. unfold printf_d. destruct (Z.ltb_spec z 0) as [H|H].
    - destruct (K _ _ (proj1 (dec_spec (- z) ltac:(lia)))) as (c & r & Q & _ & N).
      exists (ascii_of_N 45), (dec (- z)). split; [reflexivity|]. split; [now left|].
      intros [J|J]; [discriminate J|now apply N].
    - exact (K _ _ (proj1 (dec_spec z H))). }
  destruct Head as (c & r & Ht & Hc & Nul).
  assert (First : first_named (lit "required") [(lit "required", [t])] [t]).
  { exists [], []. split; [reflexivity|]. intros ? []. }
  assert (No : no_named (lit "optional") [(lit "required", [t])]).
  { intros x [<-|[]]. discriminate. }
  assert (A : any_shown p nm (lit "Required") [t] [] (lit "Required: " ++
    (if (z =? 0)%Z then lit "false" else if (z =? 1)%Z then lit "true" else t) ++ [nl])).
  { assert (Sp : forall w, nat_of_ascii (hd "0"%char w) > 100 -> ~ spells t w).
    { intros w Hw' S'. rewrite Ht in S'. inversion S' as [|? l ? w' [Q|Q]]; subst; cbn [hd] in Hw'; [subst|]; lia. }
    assert (Nb : forall b : bool, t <> (if b then lit "1" else lit "0") -> ~ denotes_value bool_kind [t] b).
    { intros b Q (x & [= <-] & [W|W]); [contradiction|]. revert W. apply Sp. destruct b; cbn; lia. }
    destruct (Z.eqb_spec z 0) as [H0|H0].
    - assert (t = lit "0") as -> by (subst; reflexivity).
      apply (any_bool p nm (lit "Required") _ false). exists (lit "0"). split; [reflexivity|now left].
    - destruct (Z.eqb_spec z 1) as [H1|H1].
      + assert (t = lit "1") as -> by (subst; reflexivity).
        apply (any_bool p nm (lit "Required") _ true). exists (lit "1"). split; [reflexivity|now left].
      + apply (any_int p nm (lit "Required") [t] z t); [|exists t; split; [reflexivity|]|exact T].
        * assert (U : denotes t z) by (rewrite Et; apply printf_d_denotes).
          intros b. apply Nb. intros Q. destruct b; rewrite Q in U;
            [apply H1, (denotes_det _ _ _ U (printf_d_denotes 1))|apply H0, (denotes_det _ _ _ U (printf_d_denotes 0))].
        * apply number_plain; [rewrite Et; apply printf_d_denotes|exact R|discriminate]. }
  rewrite <- (world_same s) at 2.
  apply (exec_does p nm uf size_t sn tn vn Ns Nt Nv (size_type_unsigned _ Z) sg catching d s); [exact Rd| | | |].
  - rewrite Hw. exact (initial_proper p size_t (size_type_unsigned _ Z) Z).
  - intros v [].
  - intros k v [[= <- <-]|[]] x [<-|[]]. exact Nul.
  - exact (does_required _ _ _ _ _ _ _ _ _ _ _ [t] [] _ eq_refl eq_refl First A No).
Qed.

(** ** Examples *)

Definition shown_session (r : outcome (state (list item) fn * list result)) : option (list item * list (list bytes * bytes)) :=
  match r with Done (s, xs) => Some (s_world s, map reply xs) | Fault _ => None end.
Definition ex_run (lines : list bytes) :=
  shown_session (s <- start true ;;
    session (Platform true Long64) (Naming false true) true CULong (lit "Source") (lit "Type") (lit "SaveGameType") true true 0 s lines).

Definition ex_replies lines := match ex_run lines with Some (_, rs) => rs | None => [] end.
Definition ex_row (cells : list string) : bytes := tl (concat (map (fun c => tab :: lit c) cells)) ++ [nl].
Definition ex_table (rows : list (list string)) : bytes :=
  concat (map ex_row (["ID"; "Name"; "Amount"; "Source"; "Type"] :: ["--"; "----"; "------"; "------"; "----"] :: rows)%string).

(** Commands of the example itself, NamedExample.cpp:187-219. *)
Example C78_ex_list :
  ex_replies (map lit ["inventory.list"; "inventory.list name = if"; "inventory.list min_amount=2 source=reward";
                       "inventory.list source=reward type=weapon"]%string) =
  [([], ex_table ([["0"; "coin"; "7000"; "Loot"; "Currency"]; ["1"; "gems"; "40"; "Reward"; "Currency"];
     ["2"; "sword"; "1"; "Loot"; "Weapon"]; ["3"; "machete"; "1"; "Reward"; "Weapon"]; ["4"; "katana"; "1"; "Loot"; "Weapon"];
     ["5"; "rifle"; "1"; "Loot"; "Weapon"]; ["6"; "knife"; "2"; "Reward"; "Weapon"]; ["7"; "key"; "1"; "Loot"; "Key"]]%string));
   ([], ex_table ([["5"; "rifle"; "1"; "Loot"; "Weapon"]; ["6"; "knife"; "2"; "Reward"; "Weapon"]]%string));
   ([], ex_table ([["1"; "gems"; "40"; "Reward"; "Currency"]; ["6"; "knife"; "2"; "Reward"; "Weapon"]]%string));
   ([], ex_table ([["3"; "machete"; "1"; "Reward"; "Weapon"]; ["6"; "knife"; "2"; "Reward"; "Weapon"]]%string))].
Proof. vm_compute. reflexivity. Qed.

(** The type 7 has no name. *)
Example C78_ex_add :
  ex_run (map lit ["inventory.add 8 pistol"; "inventory.add 9 dollar type=Currency amount=10"; "inventory.add -9 unicorn type=Something";
                   "inventory.add 1"; "inventory.add 9 dollar type=Something amount=x"; "inventory.add 11 x type=7";
                   "inventory.list source=debug"]%string) =
  Some (initial_items ++ [Item 8 (lit "pistol") 1 3 2; Item 9 (lit "dollar") 10 3 3; Item 11 (lit "x") 1 3 7],
   [([], []); ([], []); ([lit "Unable to convert '-9' to type 'unsigned long'"], []);
    ([lit "Wrong number of arguments to 'inventory.add': expected 2, got 1"], []);
    ([lit "Unable to convert 'x' to type 'unsigned long'";
      lit "Unable to convert 'Something' to type 'Type': Possible values are ['None', 'Key', 'Weapon', 'Currency']"], []);
    ([], []);
    ([], ex_table ([["8"; "pistol"; "1"; "Debug"; "Weapon"]; ["9"; "dollar"; "10"; "Debug"; "Currency"]; ["11"; "x"; "1"; "Debug"; ""]]%string))]).
Proof. vm_compute. reflexivity. Qed.

Example C78_ex_other :
  ex_replies (map lit ["print_args arg1 = value1 arg2 = 0.1"; "print_floats arg1 = value1 arg2 = 0.1 arg3 = true arg4 = 3.1415";
                       "save_game type=Memory delay=150"; "save_game type=Memori delay=none"; "save_game"; "quit"; ""; "'"]%string) =
  [([], lit "arg1: value1" ++ [nl] ++ lit "arg2: 0.1" ++ [nl]); ([], lit "arg2: 0.100000" ++ [nl] ++ lit "arg4: 3.141500" ++ [nl]);
   ([], lit "Saving game with type Memory and delay 150.000000 ms" ++ [nl]);
   ([lit "Unable to convert 'Memori' to type 'SaveGameType': Possible values are ['Disk', 'Memory']";
     lit "Unable to convert 'none' to type 'float'"], []);
   ([lit "Missing named argument 'type'"], []); ([lit "No function 'quit' is registered"], []);
   ([lit "No function name is specified"], []);
   ([lit "Syntax error: Token ''' doesn't have a corresponding opening/closing quote"], [])].
Proof. vm_compute. reflexivity. Qed.

Example C78_ex_required :
  ex_replies (map lit ["required_and_optional"; "required_and_optional required=3.14"; "required_and_optional required=true optional=1.5";
                       "required_and_optional required=10"; "required_and_optional required=1 optional=False"]%string) =
  [([lit "Missing named argument 'required'"], []);
   ([lit "Unable to convert '3.14' to type 'bool'"; lit "Unable to convert '3.14' to type 'int'"], []);
   ([lit "Unable to convert '1.5' to type 'bool'"; lit "Unable to convert '1.5' to type 'int'"], lit "Required: true" ++ [nl]);
   ([], lit "Required: 10" ++ [nl]); ([], lit "Required: true" ++ [nl] ++ lit "Optional: false" ++ [nl])].
Proof. vm_compute. reflexivity. Qed.

(** The hypotheses are met. *)
Example C78_ex_dialogue : exists items rs,
  dialogue (Platform true Long64) (Naming false true) true CULong (lit "Source") (lit "Type") (lit "SaveGameType")
    (cfg_classes true default_cfg) initial_items [lit "inventory.add 8 pistol"; lit "inventory.list"] items rs /\
  items = initial_items ++ [Item 8 (lit "pistol") 1 3 2].
Proof.
  destruct (started true) as (s & E & _ & _).
  destruct (session (Platform true Long64) (Naming false true) true CULong (lit "Source") (lit "Type") (lit "SaveGameType") true true 0 s
    [lit "inventory.add 8 pistol"; lit "inventory.list"]) as [[s' xs]|f] eqn:S.
  - exists (s_world s'), (map reply xs). split.
    + apply (C78_session_iff _ _ _ _ _ _ _ true true 0); try (now apply no_nul_lit).
      * right; now left.
      * repeat constructor; now apply no_nul_lit.
      * exists s, s', xs. split; [exact E|]. split; [exact S|]. split; [reflexivity|]. split; [reflexivity|].
        assert (K : match (s <- start true ;; session (Platform true Long64) (Naming false true) true CULong (lit "Source") (lit "Type") (lit "SaveGameType") true true 0 s
            [lit "inventory.add 8 pistol"; lit "inventory.list"]) with Done (_, xs) => map r_return xs | _ => [] end = [None; None]) by (vm_compute; reflexivity).
        rewrite E in K. cbn [bind] in K. rewrite S in K. destruct xs as [|a [|b [|? ?]]]; try discriminate K.
        injection K as Ka Kb. repeat constructor; assumption.
    + assert (K : match (s <- start true ;; session (Platform true Long64) (Naming false true) true CULong (lit "Source") (lit "Type") (lit "SaveGameType") true true 0 s
            [lit "inventory.add 8 pistol"; lit "inventory.list"]) with Done (s, _) => s_world s | _ => [] end =
            initial_items ++ [Item 8 (lit "pistol") 1 3 2]) by (vm_compute; reflexivity).
      rewrite E in K. cbn [bind] in K. rewrite S in K. exact K.
  - exfalso. assert (K : match (s <- start true ;; session (Platform true Long64) (Naming false true) true CULong (lit "Source") (lit "Type") (lit "SaveGameType") true true 0 s
            [lit "inventory.add 8 pistol"; lit "inventory.list"]) with Done _ => true | _ => false end = true) by (vm_compute; reflexivity).
    rewrite E in K. cbn [bind] in K. rewrite S in K. discriminate K.
Qed.

(** * Assumptions *)
Print Assumptions C78_session_iff.
Print Assumptions C78_session_total.
Print Assumptions C78_session_unique.
Print Assumptions C78_inventory_grows.
Print Assumptions C78_enums_safe.
Print Assumptions C78_required_integer.
