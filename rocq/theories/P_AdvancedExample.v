(** C82: the commands of examples/advanced, and when they have undefined behaviour. *)
From Coq Require Import Ascii String NArith ZArith Bool PeanoNat Lia List.
Import ListNotations.
From Verif Require Import Util Base LexerSpec StringConv StringConvSpec StringConvProofs SerializerSpec Serializer
  SerializerProofs Lexer LexerMeta LexerProofs P_Lexer UMap UMapSpec UMapMore P_UMap Exec ExecSpec ExecProofs ExecKinds P_Exec P_Exec2 P_Reentry
  P_Serializer FloatConv FloatConvSpec FloatSerializer UserTypes UserTypesSpec P_UserTypes PrintfProofs
  NamedExample NamedExampleSpec NamedExampleProofs P_NamedExample AdvancedExample AdvancedExampleSpec
  AdvancedExampleProofs.

Local Notation length := List.length.

(** ** The registry of the example *)

Definition overloads (m : meaning) : list fn :=
  match m with
  | Renames => [FRename] | Creates => [FCreate] | Lists => [FList] | Angle => [FAngleGet; FAngleSet]
  | TheEntity id => [FEntityGet id; FEntitySet id]
  | TheId id => [FIdGet id; FIdSet id]
  | TheMember m id => [FMemberGet m id; FMemberSet m id]
  end.

Definition world_of (sc : scene) : world := World (entities sc) (the_angle sc) (count sc) (gone sc) None.

Definition shows (sg : bool) (defs : list (bytes * meaning)) (s : state world fn) : Prop :=
  (forall n m a b, defs = a ++ (n, m) :: b -> ~ In n (map fst a) -> binds sg s n (overloads m)) /\
  (forall n, ~ In n (map fst defs) -> Exec.get sg s n = Done None).

Definition only_creator (defs : list (bytes * meaning)) : Prop :=
  forall n, In (n, Creates) defs -> n = lit "entities.create_entity_variable".

Definition reflects (sg : bool) (sc : scene) (s : state world fn) : Prop :=
  s_lexer s = Some (parse_input sg default_cfg) /\ orderly sg s /\ s_world s = world_of sc /\
  shows sg (defined sc) s /\ only_creator (defined sc).

Lemma shows_add sg defs s name m s1 : orderly sg s -> shows sg defs s ->
  add sg s name (overloads m) = Done s1 ->
  orderly sg s1 /\ shows sg ((name, m) :: defs) s1 /\ s_lexer s1 = s_lexer s /\ s_world s1 = s_world s.
Proof.
  intros O (B & No) E. destruct (orderly_add sg s name (overloads m) O) as (s1' & cmd & E1 & O1 & L & Hw & _ & G & M & _ & Ot).
  rewrite E in E1. injection E1 as <-. split; [exact O1|]. split; [|now split]. split.
  - intros n m' a b Eq Na. destruct a as [|[n0 m0] a]; cbn in Eq; injection Eq; intros; subst.
    + exists cmd. now split.
    + cbn in Na. assert (N : n <> n0) by (intros ->; apply Na; now left).
      destruct (B n m' a b eq_refl) as (c & Gc & Mc); [tauto|]. exists c. split; [|exact Mc]. now rewrite Ot.
  - cbn. intros n N. rewrite Ot by (intros ->; apply N; now left). apply No. tauto.
Qed.

Lemma world_kept (s : state world fn) w : s_world s = w -> set_world s w = s.
Proof. intros <-. now destruct s. Qed.

Lemma reflects_world sg sc s sc' : reflects sg sc s -> defined sc' = defined sc -> reflects sg sc' (set_world s (world_of sc')).
Proof.
  intros (L & O & Hw & B & K) E. split; [exact L|]. split; [exact O|]. split; [reflexivity|]. rewrite E. split; [exact B|exact K].
Qed.

Lemma started sg : exists s, start sg = Done s /\ reflects sg first_scene s.
Proof.
  unfold start, register, commands.
  set (s0 := fresh_bindings sg _).
  assert (O0 : orderly sg s0) by apply fresh_orderly.
  assert (B0 : shows sg [] s0).
  { split; [intros n m [|? ?] b E; discriminate E|]. intros n _. unfold s0.
    rewrite (holds_get sg _ [] (C50_fresh_holds sg _)). reflexivity. }
  destruct (orderly_add sg s0 (lit "entities.rename") (overloads Renames) O0) as (s1 & _ & E1 & _).
  destruct (shows_add sg _ s0 _ Renames s1 O0 B0 E1) as (O1 & B1 & L1 & W1).
  destruct (orderly_add sg s1 (lit "entities.create_entity_variable") (overloads Creates) O1) as (s2 & _ & E2 & _).
  destruct (shows_add sg _ s1 _ Creates s2 O1 B1 E2) as (O2 & B2 & L2 & W2).
  destruct (orderly_add sg s2 (lit "entities.list") (overloads Lists) O2) as (s3 & _ & E3 & _).
  destruct (shows_add sg _ s2 _ Lists s3 O2 B2 E3) as (O3 & B3 & L3 & W3).
  destruct (orderly_add sg s3 (lit "direction") (overloads Angle) O3) as (s4 & _ & E4 & _).
  destruct (shows_add sg _ s3 _ Angle s4 O3 B3 E4) as (O4 & B4 & L4 & W4).
  cbn [overloads] in *. rewrite E1. cbn [bind]. rewrite E2. cbn [bind]. rewrite E3. cbn [bind]. rewrite E4. cbn [bind].
  exists s4. split; [reflexivity|]. split; [rewrite L4, L3, L2, L1; reflexivity|]. split; [exact O4|].
  split; [rewrite W4, W3, W2, W1; reflexivity|]. split; [exact B4|].
  intros n I. cbn [first_scene defined In] in I. repeat (destruct I as [I|I]; [congruence|]). destruct I.
Qed.

Section Advanced.
Variables (uf : bool) (tname : bytes).
Variables sg catching : bool.
Variable d : nat.

Local Notation code := (code uf tname).
Local Notation exec := (exec_input code sg catching d).
Local Notation does := (does uf).
Local Notation run := (run_prog sg (nested_exec code sg catching d)).
Local Notation reflects := (reflects sg).
Local Notation binds := (binds sg).

Lemma reflects_binds sc s n m : reflects sc s -> means sc n m -> binds s n (overloads m).
Proof. intros (_ & _ & _ & (B & _) & _) (a & b & E & N). exact (B n m a b E N). Qed.

Lemma converts_length ps args vs : converts ps args vs -> length ps = length args.
Proof. induction 1; cbn; congruence. Qed.

(** Commands with one function object, and variables. *)
Lemma exec_single s name f pos nd vs s' es out (v : rcarrier (f_result (code f))) txt : orderly sg s ->
  name <> [] -> binds s name [f] -> converts (f_params (code f)) pos vs ->
  (forall sid, is_live s sid = true -> run sid s (ctx (Input name pos nd) [] []) (f_body (code f) vs) =
     Done (s', ctx (Input name pos nd) es out, inl v)) ->
  rtext (f_result (code f)) v = Done txt ->
  exec s (Input name pos nd) =
  Done (s', inl (Result (Input name pos nd) es (match es with [] => txt | _ => None end) out)).
Proof.
  intros O Ne B Cv R T. destruct (binds_one _ _ _ _ B) as (c & sid & G).
  apply (exec_body code sg catching d s name pos nd _ (sid, f) vs s' es out v txt Ne G); try assumption.
  - apply chosen_head. exact (converts_length _ _ _ Cv).
  - apply (R sid). apply (live_found sg s name _ (sid, f) O G). now left.
Qed.

Lemma exec_getter s name f g nd s' es out (v : rcarrier (f_result (code f))) txt (body : args_of (f_params (code f)) -> _) vs : orderly sg s ->
  name <> [] -> binds s name [f; g] -> converts (f_params (code f)) [] vs -> body = f_body (code f) ->
  (forall sid, is_live s sid = true -> run sid s (ctx (Input name [] nd) [] []) (body vs) =
     Done (s', ctx (Input name [] nd) es out, inl v)) ->
  rtext (f_result (code f)) v = Done txt ->
  exec s (Input name [] nd) =
  Done (s', inl (Result (Input name [] nd) es (match es with [] => txt | _ => None end) out)).
Proof.
  intros O Ne B Cv -> R T. destruct (binds_two _ _ _ _ _ B) as (c & i & j & G).
  apply (exec_body code sg catching d s name [] nd _ (i, f) vs s' es out v txt Ne G); try assumption.
  - apply chosen_head. exact (converts_length _ _ _ Cv).
  - apply (R i). apply (live_found sg s name _ (i, f) O G). now left.
Qed.

Lemma exec_setter s name f g w nd s' es out (v : rcarrier (f_result (code g))) txt (body : args_of (f_params (code g)) -> _) vs : orderly sg s ->
  name <> [] -> binds s name [f; g] -> f_params (code f) = [] -> converts (f_params (code g)) [w] vs -> body = f_body (code g) ->
  (forall sid, is_live s sid = true -> run sid s (ctx (Input name [w] nd) [] []) (body vs) =
     Done (s', ctx (Input name [w] nd) es out, inl v)) ->
  rtext (f_result (code g)) v = Done txt ->
  exec s (Input name [w] nd) =
  Done (s', inl (Result (Input name [w] nd) es (match es with [] => txt | _ => None end) out)).
Proof.
  intros O Ne B Z Cv -> R T. destruct (binds_two _ _ _ _ _ B) as (c & i & j & G).
  apply (exec_body code sg catching d s name [w] nd _ (j, g) vs s' es out v txt Ne G); try assumption.
  - apply chosen_next; [cbn [snd]; now rewrite Z|exact (converts_length _ _ _ Cv)].
  - apply (R j). apply (live_found sg s name _ (j, g) O G). right. now left.
Qed.

Lemma conv_text1 t : converts [string_serializer] [[t]] (t, tt).
Proof. constructor; [apply text_implements; now exists t|constructor]. Qed.
Lemma conv_text2 t u : converts [string_serializer; string_serializer] [[t]; [u]] (t, (u, tt)).
Proof. constructor; [apply text_implements; now exists t|apply conv_text1]. Qed.
Lemma conv_value v : converts [value_serializer] [v] (v, tt).
Proof. constructor; [reflexivity|constructor]. Qed.

(** ** Handlers *)

Lemma get_run {R} sid s c id (bad : R) k sc : is_live s sid = true -> s_world s = world_of sc ->
  run sid s c (get_ id bad k) =
  if existsb (Nat.eqb (v_text id)) (gone sc)
  then Done (set_world s (set_wrong UseAfterFree (world_of sc)), c, inl bad)
  else run sid s c (k (find_entity (entities sc) (v_bytes id))).
Proof.
  intros L Hw. unfold get_. cbn [run_prog]. rewrite L, Hw. cbn [w_dead w_entities world_of].
  destruct (existsb _ _); [|reflexivity]. unfold undefined. cbn [run_prog]. now rewrite Hw.
Qed.

Lemma text_run sid s c id f sc a e b : is_live s sid = true -> s_world s = world_of sc -> there sc id ->
  located (entities sc) (v_bytes id) a e b ->
  run sid s c (get_text id f) = Done (s, c, inl (f e)).
Proof.
  intros L Hw T Lo. unfold get_text. rewrite (get_run _ _ _ _ _ _ sc L Hw). apply there_iff in T. rewrite T.
  rewrite (find_located _ _ _ _ _ Lo). cbn [deref run_prog]. rewrite Hw. cbn [w_entities world_of].
  rewrite (located_nth _ _ _ _ _ Lo). reflexivity.
Qed.

Lemma text_wrong sid s c id f sc : is_live s sid = true -> s_world s = world_of sc ->
  In (v_text id) (gone sc) ->
  run sid s c (get_text id f) = Done (set_world s (set_wrong UseAfterFree (world_of sc)), c, inl []).
Proof.
  intros L Hw T. unfold get_text. rewrite (get_run _ _ _ _ _ _ sc L Hw). apply gone_iff in T. now rewrite T.
Qed.

Lemma text_null sid s c id f sc : is_live s sid = true -> s_world s = world_of sc ->
  there sc id -> missing (entities sc) (v_bytes id) ->
  run sid s c (get_text id f) = Done (set_world s (set_wrong NullDeref (world_of sc)), c, inl []).
Proof.
  intros L Hw T M. unfold get_text. rewrite (get_run _ _ _ _ _ _ sc L Hw). apply there_iff in T. rewrite T.
  apply find_missing in M. rewrite M. cbn [deref]. unfold undefined. cbn [run_prog]. now rewrite Hw.
Qed.

Lemma entity_run sid s c id sc : is_live s sid = true -> s_world s = world_of sc -> there sc id ->
  run sid s c (get_entity id) =
  Done (s, c, inl (match find_entity (entities sc) (v_bytes id) with None => None | Some i => nth_error (entities sc) i end)).
Proof.
  intros L Hw T. unfold get_entity. rewrite (get_run _ _ _ _ _ _ sc L Hw). apply there_iff in T. rewrite T.
  destruct (find_entity _ _); [|reflexivity]. cbn [run_prog]. now rewrite Hw.
Qed.
Lemma entity_wrong sid s c id sc : is_live s sid = true -> s_world s = world_of sc ->
  In (v_text id) (gone sc) ->
  run sid s c (get_entity id) = Done (set_world s (set_wrong UseAfterFree (world_of sc)), c, inl None).
Proof.
  intros L Hw T. unfold get_entity. rewrite (get_run _ _ _ _ _ _ sc L Hw). apply gone_iff in T. now rewrite T.
Qed.

Lemma lines_run sid s inp l : forall es out,
  run sid s (ctx inp es out) (list_lines l) =
  Done (s, ctx inp es (out ++ concat (map (fun e => (c_str (en_id e) ++ tab :: entity_line e) ++ [newline]) l)), inl tt).
Proof.
  induction l as [|e l IH]; intros es out; cbn [list_lines run_prog map concat]; [now rewrite app_nil_r|].
  rewrite ctx_line, IH. now rewrite <- app_assoc.
Qed.

(** The four additions of create. *)
Lemma create_run s name c0 sid sc var id inp : reflects sc s -> name <> [] -> means sc name Creates ->
  Exec.get sg s name = Done (Some (Command c0 [(sid, FCreate)])) -> var <> name ->
  exists s', run sid s (ctx inp [] []) (create var id) = Done (s', ctx inp [] [], inl tt) /\
    reflects (with_commands (new_commands var (View (count sc) id)) sc) s'.
Proof.
  intros R Ne M G Nv. destruct R as (L & O & Hw & B & K).
  assert (Nm : name = lit "entities.create_entity_variable").
  { apply K. destruct M as (a & b & -> & _). apply in_or_app. right. now left. }
  assert (Sx := suffixed_other var). rewrite <- Nm in Sx.
  set (v := View (count sc) id).
  destruct (orderly_add sg s var (overloads (TheEntity v)) O) as (s1 & _ & E1 & _ & _ & _ & _ & _ & _ & _ & Ot1).
  destruct (shows_add sg _ s _ _ s1 O B E1) as (O1 & B1 & L1 & W1).
  destruct (orderly_add sg s1 (var ++ lit ".id") (overloads (TheId v)) O1) as (s2 & _ & E2 & _ & _ & _ & _ & _ & _ & _ & Ot2).
  destruct (shows_add sg _ s1 _ _ s2 O1 B1 E2) as (O2 & B2 & L2 & W2).
  destruct (orderly_add sg s2 (var ++ lit ".name") (overloads (TheMember MName v)) O2) as (s3 & _ & E3 & _ & _ & _ & _ & _ & _ & _ & Ot3).
  destruct (shows_add sg _ s2 _ _ s3 O2 B2 E3) as (O3 & B3 & L3 & W3).
  destruct (orderly_add sg s3 (var ++ lit ".payload") (overloads (TheMember MPayload v)) O3) as (s4 & _ & E4 & _).
  destruct (shows_add sg _ s3 _ _ s4 O3 B3 E4) as (O4 & B4 & L4 & W4).
  assert (G1 : Exec.get sg s1 name = Done (Some (Command c0 [(sid, FCreate)]))) by (rewrite Ot1 by congruence; exact G).
  assert (G2 : Exec.get sg s2 name = Done (Some (Command c0 [(sid, FCreate)]))).
  { rewrite Ot2; [exact G1|]. intros E. symmetry in E. revert E. apply Sx. now left. }
  assert (G3 : Exec.get sg s3 name = Done (Some (Command c0 [(sid, FCreate)]))).
  { rewrite Ot3; [exact G2|]. intros E. symmetry in E. revert E. apply Sx. right. now left. }
  assert (V : forall s' : state world fn, orderly sg s' -> Exec.get sg s' name = Done (Some (Command c0 [(sid, FCreate)])) -> is_live s' sid = true).
  { intros s' Os Gs. apply (live_found sg s' name _ (sid, FCreate) Os Gs). now left. }
  exists s4. cbn [overloads] in *. unfold create. cbn [run_prog]. rewrite Hw. cbn [w_now world_of]. fold v.
  rewrite (V s O G), E1. cbn [bind]. rewrite (V s1 O1 G1), E2. cbn [bind].
  rewrite (V s2 O2 G2), E3. cbn [bind]. rewrite (V s3 O3 G3), E4. cbn [bind].
  split; [reflexivity|]. split; [congruence|]. split; [exact O4|]. split; [rewrite W4, W3, W2, W1; exact Hw|].
  split; [exact B4|]. intros n I. cbn [with_commands defined new_commands app In] in I.
  repeat (destruct I as [I|I]; [discriminate I|]). now apply K.
Qed.

(** A command that replaces itself. *)
Lemma create_self s name c0 sid sc id inp : reflects sc s ->
  Exec.get sg s name = Done (Some (Command c0 [(sid, FCreate)])) ->
  run sid s (ctx inp [] []) (create name id) = Fault UseAfterFree.
Proof.
  intros (L & O & Hw & B & K) G. unfold create. cbn [run_prog]. rewrite Hw. cbn [w_now world_of].
  assert (V := live_found sg s name _ (sid, FCreate) O G (or_introl eq_refl)). cbn [fst] in V. rewrite V.
  destruct (orderly_add sg s name [FEntityGet (View (count sc) id); FEntitySet (View (count sc) id)] O) as (s1 & _ & E1 & _).
  rewrite E1. cbn [bind].
  assert (D := replaced_dead sg s name _ (sid, FCreate) _ s1 O G (or_introl eq_refl) E1). cbn [fst] in D. now rewrite D.
Qed.

(** ** What the commands do *)

Lemma same_scene sc s : reflects sc s -> set_world s (world_of sc) = s.
Proof. intros R. apply world_kept. apply R. Qed.

Lemma complaints_errors pos es : (forall v, In v pos -> value_no_nul v) -> complaints pos es ->
  forall ps, ps = repeat string_serializer (length pos) -> conversion_errors ps pos es.
Proof.
  intros N H. induction H as [|t r es H IH|v e r es Cv H IH]; intros ps ->; cbn [length repeat].
  - constructor.
  - eapply ce_good; [apply text_implements; now exists t|]. apply IH; [|reflexivity]. intros v I. apply N. now right.
  - eapply ce_bad; [apply text_implements; [apply N; now left|exact Cv]|]. apply IH; [|reflexivity].
    intros v' I. apply N. now right.
Qed.

Lemma takes_arities m l : takes m l -> map (fun f => length (f_params (code f))) (overloads m) = l.
Proof. now intros []. Qed.

Lemma wants_chosen sc s name m n : reflects sc s -> means sc name m -> wants_texts m n ->
  exists cmd g, Exec.get sg s name = Done (Some cmd) /\ chosen code (c_functors cmd) n g /\
    f_params (code (snd g)) = repeat string_serializer n.
Proof.
  intros R M H. assert (B := reflects_binds _ _ _ _ R M). destruct H; cbn [overloads] in B.
  - destruct (binds_one _ _ _ _ B) as (c & sid & G). eexists _, _. split; [exact G|]. split; [now apply chosen_head|reflexivity].
  - destruct (binds_one _ _ _ _ B) as (c & sid & G). eexists _, _. split; [exact G|]. split; [now apply chosen_head|reflexivity].
  - destruct (binds_two _ _ _ _ _ B) as (c & i & j & G). eexists _, (j, FAngleSet). split; [exact G|].
    split; [now apply chosen_next|reflexivity].
  - destruct (binds_two _ _ _ _ _ B) as (c & i & j & G). eexists _, (j, FMemberSet m id). split; [exact G|].
    split; [now apply chosen_next|reflexivity].
Qed.

Lemma exec_does sc s name pos nd sc' es ret out : reflects sc s -> (forall v, In v pos -> value_no_nul v) ->
  does sc name pos sc' es ret out ->
  exists s', exec s (Input name pos nd) = Done (s', inl (Result (Input name pos nd) es ret out)) /\ reflects sc' s'.
Proof.
  intros R Np H. assert (R0 := R). destruct R as (L & O & Hw & Bs & K).
  assert (Up : forall x, reflects sc' (set_world s (world_of sc')) -> exec s (Input name pos nd) = Done (set_world s (world_of sc'), x) ->
    x = inl (Result (Input name pos nd) es ret out) ->
    exists s', exec s (Input name pos nd) = Done (s', inl (Result (Input name pos nd) es ret out)) /\ reflects sc' s').
  { intros x Rx Ex ->. eexists. split; [exact Ex|exact Rx]. }
  destruct H as [id t a e b Ne M -> Lo|id t Ne M -> Mi|var id Ne M -> Nv|head rows Ne M -> Hh Hr|Ne M ->|t x Ne M -> A|t e Ne M -> A
    |id a e b sh Ne M -> T Lo Sh|id Ne M -> T Mi|id v Ne M -> T|id a e b Ne M -> T Lo|id v a e b Ne M -> T Lo
    |m id a e b t Ne M -> T Lo Ht|m id a e b t e' Ne M -> T Lo Ht
    |m es Ne M Wt Cs Nes|m l e Ne M Tk Nl Am|e Ne M Um| ->];
    try (assert (B := reflects_binds _ _ _ _ R0 M); cbn [overloads] in B);
    try (assert (Rs := same_scene _ _ R0)).
  - (* rename *)
    eapply Up; [now apply (reflects_world sg sc)| |reflexivity].
    apply (exec_single s name FRename [[id]; [t]] nd _ _ [] [] tt None O Ne B (conv_text2 id t)); [|reflexivity].
    intros sid V. cbn [AdvancedExample.code f_body fst snd]. unfold rename. cbn [run_prog]. rewrite V, Hw.
    cbn [w_entities world_of]. rewrite (find_located _ _ _ _ _ Lo). cbn [run_prog].
    rewrite (located_change _ _ _ _ _ _ Lo). reflexivity.
  - exists s. split; [|exact R0].
    apply (exec_single s name FRename [[id]; [t]] nd _ s [lit "Failed to find entity '" ++ id ++ lit "'"] [] tt None O Ne B (conv_text2 id t)); [|reflexivity].
    intros sid V. cbn [AdvancedExample.code f_body fst snd]. unfold rename. cbn [run_prog]. rewrite V, Hw.
    cbn [w_entities world_of]. apply find_missing in Mi. rewrite Mi. cbn [run_prog]. now rewrite ctx_report.
  - (* create *)
    destruct (binds_one _ _ _ _ B) as (c & sid & G).
    destruct (create_run s name c sid sc var id (Input name [[var]; [id]] nd) R0 Ne M G Nv) as (s' & E & R').
    exists s'. split; [|exact R'].
    apply (exec_body code sg catching d s name [[var]; [id]] nd _ (sid, FCreate) (var, (id, tt)) s' [] [] tt None Ne G);
      [now apply chosen_head|exact (conv_text2 var id)|exact E|reflexivity].
  - (* list *)
    exists s. split; [|exact R0].
    apply (exec_single s name FList [] nd tt s [] (head ++ rows) tt None O Ne B converts_nil); [|reflexivity].
    intros sid V. cbn [AdvancedExample.code f_body]. unfold list_. cbn [run_prog]. rewrite !ctx_line. rewrite V, Hw.
    cbn [w_entities world_of]. rewrite lines_run. apply head_iff in Hh. apply rows_iff in Hr. subst head rows.
    reflexivity.
  - exists s. split; [|exact R0].
    apply (exec_getter s name FAngleGet FAngleSet nd s [] [] (angle_text (the_angle sc)) (Some (angle_text (the_angle sc))) _ tt O Ne B converts_nil eq_refl); [|reflexivity].
    intros sid V. cbn [AdvancedExample.code string_get f_body]. unfold angle_shown. cbn [run_prog]. now rewrite V, Hw.
  - eapply Up; [now apply (reflects_world sg sc)| |reflexivity].
    apply (exec_setter s name FAngleGet FAngleSet [t] nd (set_world s (world_of (with_angle x sc))) [] [] (angle_text x) (Some (angle_text x)) _ _ O Ne B eq_refl (conv_text1 t) eq_refl); [|reflexivity].
    intros sid V. cbn [AdvancedExample.code f_body fst snd]. unfold angle_set. apply C76_angle_accept_iff in A. rewrite A.
    unfold angle_shown. cbn [run_prog]. rewrite V, Hw. reflexivity.
  - exists s. split; [|exact R0].
    apply (exec_setter s name FAngleGet FAngleSet [t] nd s [e] [] (angle_text (the_angle sc)) (Some (angle_text (the_angle sc))) _ _ O Ne B eq_refl (conv_text1 t) eq_refl); [|reflexivity].
    intros sid V. cbn [AdvancedExample.code f_body fst snd]. unfold angle_set.
    apply C76_angle_error_iff in A; [|apply (Np [t] (or_introl eq_refl)); now left]. rewrite A.
    unfold angle_shown. cbn [run_prog]. rewrite ctx_report, V, Hw. reflexivity.
  - (* the entity *)
    exists s. split; [|exact R0]. rewrite (before_nul_det _ _ Sh).
    apply (exec_getter s name (FEntityGet id) (FEntitySet id) nd s [] [] (Some e) (Some (lit "EntityId{" ++ c_str (en_id e) ++ lit "}")) _ tt O Ne B converts_nil eq_refl); [|reflexivity].
    intros sid V. cbn [AdvancedExample.code f_body]. rewrite (entity_run sid s _ id sc V Hw T).
    now rewrite (find_located _ _ _ _ _ Lo), (located_nth _ _ _ _ _ Lo).
  - exists s. split; [|exact R0].
    apply (exec_getter s name (FEntityGet id) (FEntitySet id) nd s [] [] None (Some (lit "null")) _ tt O Ne B converts_nil eq_refl); [|reflexivity].
    intros sid V. cbn [AdvancedExample.code f_body]. rewrite (entity_run sid s _ id sc V Hw T).
    apply find_missing in Mi. now rewrite Mi.
  - exists s. split; [|exact R0].
    set (r := match find_entity (entities sc) (v_bytes id) with None => None | Some i => nth_error (entities sc) i end).
    assert (X : exists txt, rtext (f_result (code (FEntitySet id))) r = Done txt) by (destruct r; eexists; reflexivity).
    destruct X as (txt & X).
    apply (exec_setter s name (FEntityGet id) (FEntitySet id) v nd s [lit "This property is read-only"] [] r txt _ _ O Ne B eq_refl (conv_value v) eq_refl); [|exact X].
    intros sid V. cbn [AdvancedExample.code read_only f_body run_prog]. rewrite ctx_report. exact (entity_run sid s _ id sc V Hw T).
  - (* the id *)
    exists s. split; [|exact R0].
    apply (exec_getter s name (FIdGet id) (FIdSet id) nd s [] [] (v_bytes id) (Some (v_bytes id)) _ tt O Ne B converts_nil eq_refl); [|reflexivity].
    intros sid V. cbn [AdvancedExample.code string_get f_body]. rewrite (text_run sid s _ id en_id sc _ _ _ V Hw T Lo).
    destruct Lo as (_ & <- & _). reflexivity.
  - exists s. split; [|exact R0].
    apply (exec_setter s name (FIdGet id) (FIdSet id) v nd s [lit "This property is read-only"] [] (en_id e) (Some (en_id e)) _ _ O Ne B eq_refl (conv_value v) eq_refl); [|reflexivity].
    intros sid V. cbn [AdvancedExample.code read_only f_body run_prog]. rewrite ctx_report. exact (text_run sid s _ id en_id sc _ _ _ V Hw T Lo).
  - (* the members *)
    exists s. split; [|exact R0].
    apply (exec_getter s name (FMemberGet m id) (FMemberSet m id) nd s [] [] t (Some t) _ tt O Ne B converts_nil eq_refl); [|reflexivity].
    intros sid V. cbn [AdvancedExample.code string_get f_body]. rewrite (text_run sid s _ id (read m) sc _ _ _ V Hw T Lo).
    now destruct Ht.
  - eapply Up; [now apply (reflects_world sg sc)| |reflexivity].
    set (sc1 := with_entities (a ++ e' :: b) sc).
    apply (exec_setter s name (FMemberGet m id) (FMemberSet m id) [t] nd (set_world s (world_of sc1)) [] [] t (Some t) _ _ O Ne B eq_refl (conv_text1 t) eq_refl); [|reflexivity].
    intros sid V. cbn [AdvancedExample.code f_body fst snd].
    assert (We : e' = write m t e) by now destruct Ht.
    assert (Wi : en_id e' = en_id e) by now destruct Ht.
    assert (Wt : read m e' = t) by now destruct Ht.
    assert (Te := T). apply there_iff in T.
    unfold get_. cbn [andThen run_prog].
    rewrite V, Hw. cbn [w_dead w_entities world_of]. rewrite T.
    rewrite (find_located _ _ _ _ _ Lo). cbn [deref andThen run_prog]. rewrite Hw. cbn [w_entities world_of].
    rewrite (located_nth _ _ _ _ _ Lo). cbn [andThen run_prog]. rewrite Hw. cbn [w_entities world_of].
    rewrite (located_change _ _ _ _ _ _ Lo), <- We.
    change (set_entities (a ++ e' :: b) (world_of sc)) with (world_of sc1).
    rewrite (text_run sid (set_world s (world_of sc1)) _ id (read m) sc1 a e' b V eq_refl Te); [now rewrite Wt|].
    destruct Lo as (_ & Li & Lf). split; [reflexivity|]. split; [congruence|exact Lf].
  - (* arguments *)
    exists s. split; [|exact R0].
    destruct (wants_chosen sc s name m (length pos) R0 M Wt) as (cmd & g & G & Ch & P).
    exact (input_conversion code sg catching _ s (Input name pos nd) cmd g es Ne G Ch (complaints_errors pos es Np Cs _ P) Nes).
  - exists s. split; [|exact R0].
    assert (Bm := reflects_binds _ _ _ _ R0 M). destruct Bm as (cmd & G & Mc). apply takes_arities in Tk.
    assert (Ar : map (fun f => length (f_params (code (snd f)))) (c_functors cmd) = l)
      by (rewrite <- Tk, <- Mc, map_map; reflexivity).
    destruct (C31_wrong_arity_message _ _ code sg catching d s (Input name pos nd) cmd Ne G) as (msg & Am' & E).
    { intros f If Ef. apply Nl. rewrite <- Ar. apply in_map_iff. exists f. split; [exact Ef|exact If]. }
    rewrite Ar in Am'. cbn [i_name i_args] in Am'. rewrite (arity_message_unique _ _ _ _ _ Am Am'). exact E.
  - exists s. split; [|exact R0].
    destruct (C30_unknown_name _ _ code sg catching d s (Input name pos nd) Ne) as (msg & U & E).
    { apply Bs. exact M. }
    cbn [i_name] in U. rewrite (unknown_message_unique _ _ _ Um U). exact E.
  - exists s. split; [|exact R0]. now apply (C30_no_name _ _ code sg catching d s (Input [] pos nd)).
Qed.

(** Undefined behaviour ends the execution or is noted. *)
Definition ends (f : fault) (o : outcome (state world fn * (result + exn))) : Prop :=
  o = Fault f \/ exists s' r, o = Done (s', inl r) /\ w_wrong (s_world s') = Some f.

Lemma exec_wrong sc s name pos nd f : reflects sc s -> goes_wrong sc name pos f ->
  ends f (exec s (Input name pos nd)).
Proof.
  intros R H. assert (R0 := R). destruct R as (L & O & Hw & Bs & K).
  destruct H as [id Ne M ->|m id b Ne M Rd Go|m id Ne M Rd T Mi];
    assert (B := reflects_binds _ _ _ _ R0 M).
  - left. cbn [overloads] in B. destruct (binds_one _ _ _ _ B) as (c & sid & G).
    apply (exec_fault code sg catching d s name [[name]; [id]] nd _ (sid, FCreate) (name, (id, tt)) UseAfterFree Ne G);
      [now apply chosen_head|exact (conv_text2 name id)|].
    exact (create_self s name c sid sc id _ R0 G).
  - right. set (s1 := set_world s (set_wrong UseAfterFree (world_of sc))).
    assert (W1 : w_wrong (s_world s1) = Some UseAfterFree) by reflexivity.
    destruct Rd as [id pos Lp|id pos Lp|m id|m id t]; cbn [overloads] in B.
    + destruct pos as [|v [|? ?]]; [| |cbn in Lp; lia]; eexists s1, _; (split; [|exact W1]).
      * apply (exec_getter s name (FEntityGet id) (FEntitySet id) nd s1 [] [] None (Some (lit "null")) _ tt O Ne B converts_nil eq_refl); [|reflexivity].
        intros sid V. cbn [AdvancedExample.code f_body]. exact (entity_wrong sid s _ id sc V Hw Go).
      * apply (exec_setter s name (FEntityGet id) (FEntitySet id) v nd s1 [lit "This property is read-only"] [] None (Some (lit "null")) _ _ O Ne B eq_refl (conv_value v) eq_refl); [|reflexivity].
        intros sid V. cbn [AdvancedExample.code read_only f_body run_prog]. rewrite ctx_report. exact (entity_wrong sid s _ id sc V Hw Go).
    + destruct pos as [|v [|? ?]]; [| |cbn in Lp; lia]; eexists s1, _; (split; [|exact W1]).
      * apply (exec_getter s name (FIdGet id) (FIdSet id) nd s1 [] [] [] (Some []) _ tt O Ne B converts_nil eq_refl); [|reflexivity].
        intros sid V. cbn [AdvancedExample.code string_get f_body]. exact (text_wrong sid s _ id en_id sc V Hw Go).
      * apply (exec_setter s name (FIdGet id) (FIdSet id) v nd s1 [lit "This property is read-only"] [] [] (Some []) _ _ O Ne B eq_refl (conv_value v) eq_refl); [|reflexivity].
        intros sid V. cbn [AdvancedExample.code read_only f_body run_prog]. rewrite ctx_report. exact (text_wrong sid s _ id en_id sc V Hw Go).
    + eexists s1, _; (split; [|exact W1]).
      apply (exec_getter s name (FMemberGet m id) (FMemberSet m id) nd s1 [] [] [] (Some []) _ tt O Ne B converts_nil eq_refl); [|reflexivity].
      intros sid V. cbn [AdvancedExample.code string_get f_body]. exact (text_wrong sid s _ id (read m) sc V Hw Go).
    + eexists s1, _; (split; [|exact W1]).
      apply (exec_setter s name (FMemberGet m id) (FMemberSet m id) [t] nd s1 [] [] [] (Some []) _ _ O Ne B eq_refl (conv_text1 t) eq_refl); [|reflexivity].
      intros sid V. cbn [AdvancedExample.code f_body fst snd]. apply gone_iff in Go.
      unfold get_text, get_, undefined. cbn [andThen run_prog]. rewrite V, Hw. cbn [w_dead w_entities world_of].
      rewrite Go. cbn [andThen run_prog]. rewrite Hw. fold s1. change (is_live s1 sid) with (is_live s sid). rewrite V.
      cbn [s_world s1 set_world set_wrong w_dead world_of]. rewrite Go. reflexivity.
  - right. set (s1 := set_world s (set_wrong NullDeref (world_of sc))).
    assert (W1 : w_wrong (s_world s1) = Some NullDeref) by reflexivity.
    inversion Rd as [id' pos' Lp E1 E2 E3 E4|id' pos' Lp E1 E2 E3|m' id' E1 E2 E3|m' id' t E1 E2 E3]; subst; cbn [overloads] in B.
    + destruct pos as [|v [|? ?]]; [| |cbn in Lp; lia]; eexists s1, _; (split; [|exact W1]).
      * apply (exec_getter s name (FIdGet id) (FIdSet id) nd s1 [] [] [] (Some []) _ tt O Ne B converts_nil eq_refl); [|reflexivity].
        intros sid V. cbn [AdvancedExample.code string_get f_body]. exact (text_null sid s _ id en_id sc V Hw T Mi).
      * apply (exec_setter s name (FIdGet id) (FIdSet id) v nd s1 [lit "This property is read-only"] [] [] (Some []) _ _ O Ne B eq_refl (conv_value v) eq_refl); [|reflexivity].
        intros sid V. cbn [AdvancedExample.code read_only f_body run_prog]. rewrite ctx_report. exact (text_null sid s _ id en_id sc V Hw T Mi).
    + eexists s1, _; (split; [|exact W1]).
      apply (exec_getter s name (FMemberGet m' id) (FMemberSet m' id) nd s1 [] [] [] (Some []) _ tt O Ne B converts_nil eq_refl); [|reflexivity].
      intros sid V. cbn [AdvancedExample.code string_get f_body]. exact (text_null sid s _ id (read m') sc V Hw T Mi).
    + eexists s1, _; (split; [|exact W1]).
      apply (exec_setter s name (FMemberGet m' id) (FMemberSet m' id) [t] nd s1 [] [] [] (Some []) _ _ O Ne B eq_refl (conv_text1 t) eq_refl); [|reflexivity].
      intros sid V. cbn [AdvancedExample.code f_body fst snd]. apply there_iff in T. apply find_missing in Mi.
      unfold get_text, get_, undefined. cbn [andThen run_prog]. rewrite V, Hw. cbn [w_dead w_entities world_of].
      rewrite T, Mi. cbn [deref andThen run_prog]. unfold undefined. cbn [andThen run_prog]. rewrite Hw. fold s1. change (is_live s1 sid) with (is_live s sid). rewrite V.
      cbn [s_world s1 set_world set_wrong w_dead w_entities world_of]. rewrite T, Mi. reflexivity.
Qed.

(** ** Every command is described *)

Lemma text_cases v : value_no_nul v -> (exists t, v = [t]) \/ exists e, complaint text_kind v e.
Proof.
  intros N. destruct (implements_cases _ _ v text_implements N) as [(x & t & E & _)|H]; [left; now exists t|now right].
Qed.

Lemma complaints_cases pos : (forall v, In v pos -> value_no_nul v) ->
  (exists ts, pos = map (fun t => [t]) ts) \/ exists es, complaints pos es /\ es <> [].
Proof.
  induction pos as [|v pos IH]; intros N; [left; now exists []|].
  assert (Nv := N v (or_introl eq_refl)). destruct (IH (fun x I => N x (or_intror I))) as [(ts & ->)|(es & H & Ne)].
  - destruct (text_cases v Nv) as [(t & ->)|(e & Cv)]; [left; now exists (t :: ts)|right].
    exists [e]. split; [|discriminate]. apply complaints_bad; [exact Cv|].
    clear. induction ts; cbn; constructor; assumption.
  - right. destruct (text_cases v Nv) as [(t & ->)|(e & Cv)].
    + exists es. split; [now constructor|exact Ne].
    + exists (e :: es). split; [now constructor|discriminate].
Qed.

Definition described (sc : scene) (name : bytes) (pos : list (list bytes)) : Prop :=
  (exists sc' es ret out, does sc name pos sc' es ret out) \/ exists f, goes_wrong sc name pos f.

Lemma described_arity sc name pos m : name <> [] -> means sc name m ->
  ~ In (length pos) (map (fun f => length (f_params (code f))) (overloads m)) -> described sc name pos.
Proof.
  intros Ne M N. left. set (fs := map (fun f => (0, f)) (overloads m)).
  assert (A := wrong_arity code name fs (length pos)). unfold fs in A. rewrite map_map in A. cbn [snd] in A.
  eexists sc, [_], None, []. eapply does_count; [exact Ne|exact M| |exact N|exact A].
  destruct m; constructor.
Qed.

Lemma read_cases sc id : In (v_text id) (gone sc) \/ there sc id.
Proof.
  destruct (existsb (Nat.eqb (v_text id)) (gone sc)) eqn:E; [left; now apply gone_iff|right; now apply there_iff].
Qed.

Lemma does_total sc name pos : (forall v, In v pos -> value_no_nul v) -> described sc name pos.
Proof.
  intros N. destruct (bytes_eqb_spec name []) as [->|Ne].
  { left. eexists _, _, _, _. now apply does_nothing. }
  destruct (means_or_not sc name) as [(m & M)|No].
  2: { left. eexists sc, [_], None, []. apply does_unknown; [exact Ne|exact No|].
       exists (c_str name). split; [apply before_nul_c_str|reflexivity]. }
  assert (Bad : wants_texts m (length pos) -> (exists es, complaints pos es /\ es <> []) -> described sc name pos).
  { intros Wt (es & Cs & Nes). left. exists sc, es, None, []. eapply does_arguments; eauto. }
  assert (Ar := described_arity sc name pos m Ne M).
  destruct m as [| | | |id|id|mb id]; cbn [overloads map AdvancedExample.code f_params length string_get read_only] in Ar.
  - destruct pos as [|v [|w [|? ?]]]; try (apply Ar; cbn; lia).
    destruct (complaints_cases [v; w] N) as [(ts & E)|Cs]; [|apply Bad; [constructor|exact Cs]].
    destruct ts as [|t [|u [|? ?]]]; try discriminate E. injection E as -> ->. left.
    destruct (located_or_missing (entities sc) t) as [(a & e & b & Lo)|Mi]; eexists _, _, _, _.
    + eapply does_rename; eauto.
    + eapply does_rename_unknown; eauto.
  - destruct pos as [|v [|w [|? ?]]]; try (apply Ar; cbn; lia).
    destruct (complaints_cases [v; w] N) as [(ts & E)|Cs]; [|apply Bad; [constructor|exact Cs]].
    destruct ts as [|t [|u [|? ?]]]; try discriminate E. injection E as -> ->.
    destruct (bytes_eqb_spec t name) as [->|Nt].
    + right. exists UseAfterFree. eapply wrong_self; eauto.
    + left. eexists _, _, _, _. eapply does_create; eauto.
  - destruct pos; [|apply Ar; cbn; lia]. left. destruct (rows_total (entities sc)) as (r & Hr).
    eexists sc, [], None, _. eapply does_list; [exact Ne|exact M|reflexivity|now apply head_iff|exact Hr].
  - destruct pos as [|v [|? ?]]; try (apply Ar; cbn; lia).
    + left. eexists _, _, _, _. now apply does_show_angle.
    + destruct (complaints_cases [v] N) as [(ts & E)|Cs]; [|apply Bad; [constructor|exact Cs]].
      destruct ts as [|t [|? ?]]; try discriminate E. injection E as ->. left.
      destruct (angle_convert uf t) as [x|e] eqn:A; eexists _, _, _, _.
      * apply C76_angle_accept_iff in A. eapply does_turn; eauto.
      * apply C76_angle_error_iff in A; [|apply (N [t] (or_introl eq_refl)); now left]. eapply does_not_turn; eauto.
  - assert (P : pos = [] \/ (exists v, pos = [v]) \/ 1 < length pos).
    { destruct pos as [|v [|? ?]]; [now left|right; left; now exists v|right; right; cbn; lia]. }
    destruct (le_lt_dec (length pos) 1) as [Lp|Lp]; [|apply Ar; cbn; lia].
    destruct (read_cases sc id) as [Go|T].
    { right. exists UseAfterFree. eapply wrong_gone; [exact Ne|exact M|now apply reads_entity|exact Go]. }
    left. destruct P as [->|[(v & ->)|P]]; [| |lia].
    + destruct (located_or_missing (entities sc) (v_bytes id)) as [(a & e & b & Lo)|Mi].
      * eexists sc, [], _, []. eapply does_show_entity; eauto using before_nul_c_str.
      * eexists sc, [], _, []. eapply does_show_nothing; eauto.
    + eexists sc, _, _, []. eapply does_keep_entity; eauto.
  - destruct (le_lt_dec (length pos) 1) as [Lp|Lp]; [|apply Ar; cbn; lia].
    destruct (read_cases sc id) as [Go|T].
    { right. exists UseAfterFree. eapply wrong_gone; [exact Ne|exact M|now apply reads_the_id|exact Go]. }
    destruct (located_or_missing (entities sc) (v_bytes id)) as [(a & e & b & Lo)|Mi].
    + left. destruct pos as [|v [|? ?]]; [| |cbn in Lp; lia]; eexists sc, _, _, [].
      * eapply does_show_id; eauto.
      * eapply does_keep_id; eauto.
    + right. exists NullDeref. eapply wrong_null; [exact Ne|exact M|now apply reads_the_id|exact T|exact Mi].
  - assert (P : reads_id (TheMember mb id) id pos true \/ length pos = 1 /\ (exists es, complaints pos es /\ es <> []) \/ 1 < length pos).
    { destruct pos as [|v [|? ?]]; [left; constructor| |right; right; cbn; lia].
      destruct (complaints_cases [v] N) as [(ts & E)|Cs]; [left|right; left; now split].
      destruct ts as [|t [|? ?]]; try discriminate E. injection E as ->. constructor. }
    destruct P as [Rd|[(L1 & Cs)|P]]; [|apply Bad; [rewrite L1; constructor|exact Cs]|apply Ar; cbn; lia].
    destruct (read_cases sc id) as [Go|T].
    { right. exists UseAfterFree. eapply wrong_gone; [exact Ne|exact M|exact Rd|exact Go]. }
    destruct (located_or_missing (entities sc) (v_bytes id)) as [(a & e & b & Lo)|Mi].
    + left. inversion Rd as [| |m' id' E1 E2 E3|m' id' t E1 E2 E3]; subst.
      * assert (X : exists t, holds_text e mb t) by (destruct mb; eexists; constructor). destruct X as (t & Ht).
        eexists sc, _, _, []. eapply does_show_member; eauto.
      * assert (X : exists e', updated e t mb e') by (destruct mb; eexists; constructor). destruct X as (e' & Ht).
        eexists _, _, _, []. eapply does_set_member; eauto.
    + right. exists NullDeref. eapply wrong_null; [exact Ne|exact M|exact Rd|exact T|exact Mi].
Qed.

(** ** Command texts *)
Local Notation C := (cfg_classes sg default_cfg).
Local Notation answers := (answers_text uf C).
Local Notation breaks := (breaks_text C).
Local Notation dialogue := (dialogue uf C).
Local Notation disaster := (disaster uf C).
Local Notation session := (session uf tname sg catching d).

Lemma exec_answers sc s line sc' es ret out : reflects sc s -> no_nul line -> answers sc line sc' es ret out ->
  exists inp s', exec_text code sg catching d s line = Done (s', inl (Result inp es ret out)) /\ reflects sc' s'.
Proof.
  intros R N [e H|name pos nd sc1 es1 ret1 out1 H D].
  - exists no_input, s. split; [|exact R]. unfold exec_text, execute_text. rewrite (proj1 R).
    rewrite (proj2 (C07_error_iff_malformed sg default_cfg line (message e))); [reflexivity|eauto].
  - exists (Input name pos nd). destruct (command_no_nul _ _ _ _ _ H N) as [A _].
    destruct (exec_does sc s name pos nd _ _ _ _ R A D) as (s' & E & R'). exists s'. split; [|exact R'].
    apply C07_value_iff_wellformed in H. unfold exec_text, execute_text. rewrite (proj1 R), H. cbn [bind]. exact E.
Qed.

Lemma exec_breaks sc s line f : reflects sc s -> breaks sc line f -> ends f (exec_text code sg catching d s line).
Proof.
  intros R (name & pos & nd & H & G). apply C07_value_iff_wellformed in H.
  unfold exec_text, execute_text. rewrite (proj1 R), H. cbn [bind]. exact (exec_wrong sc s name pos nd f R G).
Qed.

Lemma answers_total sc line : no_nul line ->
  (exists sc' es ret out, answers sc line sc' es ret out) \/ (exists f, breaks sc line f) \/ ill_command C line.
Proof.
  intros N. destruct (C07_diagnosis_total sg default_cfg line) as [([[name pos nd]|e] & H)|I]; [| |auto].
  - destruct (command_no_nul _ _ _ _ _ H N) as [A _].
    destruct (does_total sc name pos A) as [(sc' & es & ret & out & D)|(f & G)].
    + left. exists sc', es, ret, out. eapply answers_command; eauto.
    + right. left. exists f, name, pos, nd. now split.
  - left. eexists _, _, _, _. exact (answers_syntax uf _ sc line e H).
Qed.

Definition reply (r : result) : list bytes * option bytes * bytes := (r_errors r, r_return r, r_output r).

Lemma reflects_counted sc s : reflects sc s -> reflects (counted sc) (set_world s (next_text (s_world s))).
Proof.
  intros R. assert (Hw : s_world s = world_of sc) by apply R. rewrite Hw.
  exact (reflects_world sg sc s (counted sc) R eq_refl).
Qed.
Lemma reflects_free sc s n : reflects sc s -> n < count sc -> reflects (without n sc) (set_world s (free_text n (s_world s))).
Proof.
  intros R L. assert (Hw : s_world s = world_of sc) by apply R. rewrite Hw. unfold free_text. cbn [w_now world_of].
  apply Nat.ltb_lt in L. rewrite L. exact (reflects_world sg sc s (without n sc) R eq_refl).
Qed.
Lemma reflects_free_none sc s n : reflects sc s -> count sc <= n -> reflects sc (set_world s (free_text n (s_world s))).
Proof.
  intros R L. assert (Hw : s_world s = world_of sc) by apply R. rewrite Hw. unfold free_text. cbn [w_now world_of].
  apply Nat.ltb_ge in L. rewrite L. now rewrite (same_scene _ _ R).
Qed.

Lemma session_dialogue sc steps sc' rs : dialogue sc steps sc' rs -> forall s, Forall no_nul (texts steps) -> reflects sc s ->
  exists s' xs, session s steps = Done (s', xs) /\ reflects sc' s' /\ map reply xs = rs.
Proof.
  induction 1 as [sc|sc line steps sc1 es ret out sc2 rs A D IH|sc n steps sc1 rs L D IH|sc n steps sc1 rs L D IH];
    intros s N R.
  - exists s, []. repeat split; apply R.
  - cbn [texts] in N. inversion N as [|? ? N1 N2]; subst.
    destruct (exec_answers sc s line sc1 es ret out R N1 A) as (inp & s1 & E & R1).
    assert (Wn : w_wrong (s_world s1) = None) by (rewrite (proj1 (proj2 (proj2 R1))); reflexivity).
    destruct (IH _ N2 (reflects_counted _ _ R1)) as (s' & xs & E' & R' & M).
    cbn [AdvancedExample.session]. rewrite E. cbn [bind fst snd]. rewrite Wn.
    rewrite E'. cbn [bind fst snd]. eexists s', (_ :: xs). split; [reflexivity|]. split; [exact R'|]. cbn [map]. now rewrite M.
  - destruct (IH _ N (reflects_free _ _ _ R L)) as (s' & xs & H). exists s', xs. exact H.
  - destruct (IH _ N (reflects_free_none _ _ _ R L)) as (s' & xs & H). exists s', xs. exact H.
Qed.

Lemma session_disaster sc steps f : disaster sc steps f -> forall s, Forall no_nul (texts steps) -> reflects sc s ->
  session s steps = Fault f.
Proof.
  induction 1 as [sc line steps f B|sc line steps sc1 es ret out f A D IH|sc n steps f L D IH|sc n steps f L D IH];
    intros s N R.
  - cbn [AdvancedExample.session]. destruct (exec_breaks sc s line f R B) as [E|(s1 & r & E & W)]; rewrite E; [reflexivity|].
    cbn [bind fst snd]. now rewrite W.
  - cbn [texts] in N. inversion N as [|? ? N1 N2]; subst.
    destruct (exec_answers sc s line sc1 es ret out R N1 A) as (inp & s1 & E & R1).
    assert (Wn : w_wrong (s_world s1) = None) by (rewrite (proj1 (proj2 (proj2 R1))); reflexivity).
    cbn [AdvancedExample.session]. rewrite E. cbn [bind fst snd]. rewrite Wn.
    now rewrite (IH _ N2 (reflects_counted _ _ R1)).
  - exact (IH _ N (reflects_free _ _ _ R L)).
  - exact (IH _ N (reflects_free_none _ _ _ R L)).
Qed.

(** The texts before one that C01 is about. *)
Definition stuck (sc : scene) (steps : list step) : Prop :=
  exists a line b sc' rs, steps = a ++ Run line :: b /\ dialogue sc a sc' rs /\ ill_command C line.

Lemma total steps : forall sc, Forall no_nul (texts steps) ->
  (exists sc' rs, dialogue sc steps sc' rs) \/ (exists f, disaster sc steps f) \/ stuck sc steps.
Proof.
  induction steps as [|[line|n] steps IH]; intros sc N.
  - left. exists sc, []. constructor.
  - cbn [texts] in N. inversion N as [|? ? N1 N2]; subst.
    destruct (answers_total sc line N1) as [(sc1 & es & ret & out & A)|[(f & B)|I]].
    + destruct (IH (counted sc1) N2) as [(sc' & rs & D)|[(f & D)|(a & l & b & sc' & rs & -> & D & I)]].
      * left. eexists _, _. econstructor; eauto.
      * right. left. exists f. eapply disaster_run; eauto.
      * right. right. exists (Run line :: a), l, b. eexists sc', _. split; [reflexivity|]. split; [|exact I].
        econstructor; eauto.
    + right. left. exists f. now apply disaster_here.
    + right. right. exists [], line, steps, sc, []. split; [reflexivity|]. split; [constructor|exact I].
  - cbn [texts] in N. destruct (le_lt_dec (count sc) n) as [L|L].
    + destruct (IH sc N) as [(sc' & rs & D)|[(f & D)|(a & l & b & sc' & rs & -> & D & I)]].
      * left. eexists _, _. eapply dialogue_free_none; eauto.
      * right. left. exists f. eapply disaster_free_none; eauto.
      * right. right. exists (Free n :: a), l, b, sc', rs. split; [reflexivity|]. split; [|exact I].
        eapply dialogue_free_none; eauto.
    + destruct (IH (without n sc) N) as [(sc' & rs & D)|[(f & D)|(a & l & b & sc' & rs & -> & D & I)]].
      * left. eexists _, _. eapply dialogue_free; eauto.
      * right. left. exists f. eapply disaster_free; eauto.
      * right. right. exists (Free n :: a), l, b, sc', rs. split; [reflexivity|]. split; [|exact I].
        eapply dialogue_free; eauto.
Qed.

Lemma texts_app a b : texts (a ++ b) = texts a ++ texts b.
Proof. induction a as [|[l|n] a IH]; cbn; [reflexivity|now rewrite IH|exact IH]. Qed.

Lemma session_app a b : forall s, session s (a ++ b) =
  (q <- session s a ;; r <- session (fst q) b ;; Done (fst r, snd q ++ snd r)).
Proof.
  induction a as [|[l|n] a IH]; intros s; cbn [app AdvancedExample.session bind fst snd].
  - destruct (session s b) as [[? ?]|]; reflexivity.
  - destruct (exec_text code sg catching d s l) as [[s1 [r|x]]|]; cbn [bind fst snd]; [|reflexivity|reflexivity].
    destruct (w_wrong (s_world s1)); [reflexivity|]. rewrite IH.
    destruct (session (set_world s1 _) a) as [[s2 xs]|]; cbn [bind fst snd]; [|reflexivity].
    destruct (session s2 b) as [[s3 ys]|]; reflexivity.
  - apply IH.
Qed.

Lemma session_stuck sc steps s : stuck sc steps -> Forall no_nul (texts steps) -> reflects sc s ->
  exists f, session s steps = Fault f.
Proof.
  intros (a & line & b & sc' & rs & -> & D & I) N R. rewrite texts_app, Forall_app in N.
  destruct (session_dialogue _ _ _ _ D s (proj1 N) R) as (s' & xs & E & R' & _).
  rewrite session_app, E. cbn [bind fst snd AdvancedExample.session].
  apply parse_input_fault_iff in I. destruct I as (f & I). exists f. unfold exec_text, execute_text.
  rewrite (proj1 R'), I. reflexivity.
Qed.

(** ** When nothing goes wrong *)

Definition view_of (m : meaning) : option view :=
  match m with TheEntity id | TheId id | TheMember _ id => Some id | _ => None end.

Lemma reads_view m id pos b : reads_id m id pos b -> view_of m = Some id.
Proof. now intros []. Qed.

Lemma located_ids l id a e b e' : located l id a e b -> en_id e' = en_id e -> map en_id (a ++ e' :: b) = map en_id l.
Proof. intros (-> & _ & _) E. rewrite !map_app. cbn [map]. now rewrite E. Qed.

Lemma does_keeps sc name pos sc' es ret out : does sc name pos sc' es ret out ->
  map en_id (entities sc') = map en_id (entities sc) /\ count sc' = count sc /\ gone sc' = gone sc /\
  (defined sc' = defined sc \/
   exists var id, means sc name Creates /\ pos = [[var]; [id]] /\
     defined sc' = new_commands var (View (count sc) id) ++ defined sc).
Proof.
  intros H; destruct H; cbn [with_entities with_angle with_commands entities count gone defined];
    (split; [|split; [reflexivity|split; [reflexivity|]]]); try reflexivity; try (left; reflexivity).
  - eapply located_ids; eauto.
  - right. exists var, id. auto.
  - eapply located_ids; [eassumption|]. match goal with H : updated _ _ _ _ |- _ => now destruct H end.
Qed.

Lemma dialogue_ids sc steps sc' rs : dialogue sc steps sc' rs -> map en_id (entities sc') = map en_id (entities sc).
Proof.
  induction 1 as [sc|sc line steps sc1 es ret out sc2 rs A D IH|sc n steps sc1 rs L D IH|sc n steps sc1 rs L D IH];
    try reflexivity; try exact IH.
  rewrite IH. cbn [counted entities]. destruct A as [|? ? ? ? ? ? ? ? D1]; [reflexivity|]. now apply does_keeps in D1.
Qed.

Section Safe.
Variable all : list bytes.
Variable ids : list bytes.
Hypothesis Ok : forall line var id, In line all -> creates C line var id ->
  var <> lit "entities.create_entity_variable" /\ In id ids.

Definition fine (sc : scene) : Prop :=
  map en_id (entities sc) = ids /\ only_creator (defined sc) /\
  (forall n m id, In (n, m) (defined sc) -> view_of m = Some id ->
     In (v_bytes id) ids /\ exists line var, nth_error all (v_text id) = Some line /\ creates C line var (v_bytes id)) /\
  (forall n, In n (gone sc) -> forall line var id, nth_error all n = Some line -> ~ creates C line var id).

Lemma fine_means sc name m id : fine sc -> means sc name m -> view_of m = Some id ->
  there sc id /\ ~ missing (entities sc) (v_bytes id).
Proof.
  intros (I & _ & V & G) (a & b & E & _) Vm.
  destruct (V name m id) as (J & line & var & Nl & Cr); [rewrite E; apply in_or_app; right; now left|exact Vm|]. split.
  - intros K. exact (G _ K _ _ _ Nl Cr).
  - intros Mi. apply Mi. now rewrite I.
Qed.

Lemma fine_no_wrong sc name pos nd line f : fine sc -> In line all ->
  LexerSpec.command C line (inl (SInput name pos nd)) -> ~ goes_wrong sc name pos f.
Proof.
  intros F I Cm [id Ne M ->|m id b Ne M Rd Go|m id Ne M Rd T Mi].
  - assert (E : name = lit "entities.create_entity_variable").
    { destruct F as (_ & K & _). apply K. destruct M as (a & b & -> & _). apply in_or_app. right. now left. }
    subst name. destruct (Ok line (lit "entities.create_entity_variable") id I) as (N & _); [now exists nd|]. now apply N.
  - exact (proj1 (fine_means sc name m id F M (reads_view _ _ _ _ Rd)) Go).
  - exact (proj2 (fine_means sc name m id F M (reads_view _ _ _ _ Rd)) Mi).
Qed.

Lemma fine_does sc name pos nd line sc' es ret out : fine sc -> nth_error all (count sc) = Some line ->
  LexerSpec.command C line (inl (SInput name pos nd)) -> does sc name pos sc' es ret out -> fine sc'.
Proof.
  intros F Nl Cm D. assert (F0 := F). destruct F as (I & K & V & G).
  destruct (does_keeps _ _ _ _ _ _ _ D) as (I' & _ & G' & [E|(var & id & M & -> & E)]).
  - unfold fine. rewrite I', G', E. exact F0.
  - assert (En : name = lit "entities.create_entity_variable").
    { apply K. destruct M as (a & b & -> & _). apply in_or_app. right. now left. }
    subst name. assert (Cr : creates C line var id) by now exists nd.
    destruct (Ok line var id (nth_error_In _ _ Nl) Cr) as (_ & J).
    split; [congruence|]. split; [|split].
    + intros n In0. rewrite E in In0. apply in_app_or in In0. destruct In0 as [In0|In0]; [|now apply K].
      cbn [new_commands In] in In0. repeat (destruct In0 as [In0|In0]; [discriminate In0|]). destruct In0.
    + intros n m v In0 Vm. rewrite E in In0. apply in_app_or in In0. destruct In0 as [In0|In0]; [|now apply (V n m v)].
      assert (v = View (count sc) id) as ->.
      { cbn [new_commands In] in In0. repeat (destruct In0 as [In0|In0]; [injection In0 as <- <-; cbn in Vm; congruence|]). destruct In0. }
      split; [exact J|]. exists line, var. now split.
    + now rewrite G'.
Qed.

Lemma fine_no_disaster sc steps f : disaster sc steps f -> forall pre, all = pre ++ texts steps -> count sc = length pre ->
  (forall n line var id, In (Free n) steps -> nth_error all n = Some line -> ~ creates C line var id) ->
  fine sc -> False.
Proof.
  induction 1 as [sc line steps f B|sc line steps sc1 es ret out f A D IH|sc n steps f L D IH|sc n steps f L D IH];
    intros pre E Cn Fr F; cbn [texts] in E.
  - destruct B as (name & pos & nd & Cm & G).
    eapply fine_no_wrong; [exact F| |exact Cm|exact G]. rewrite E. apply in_or_app. right. now left.
  - assert (Nl : nth_error all (count sc) = Some line) by (rewrite E, Cn, nth_error_app2, Nat.sub_diag by lia; reflexivity).
    assert (F1 : fine sc1 /\ count sc1 = count sc).
    { destruct A as [e H|name pos nd sc1 es ret out Cm Dn]; [now split|]. split; [eapply fine_does; eauto|].
      now apply does_keeps in Dn. }
    destruct F1 as (F1 & C1). apply (IH (pre ++ [line])).
    + now rewrite <- app_assoc.
    + cbn [counted count]. rewrite C1, Cn, app_length. cbn. lia.
    + intros n l var id J. apply Fr. now right.
    + exact F1.
  - apply (IH pre E Cn).
    + intros n' l var id J. apply Fr. now right.
    + destruct F as (I & K & V & G). split; [exact I|]. split; [exact K|]. split; [exact V|].
      cbn [without gone]. intros n' [<-|J] l var id; [apply Fr; now left|now apply G].
  - apply (IH pre E Cn); [|exact F]. intros n' l var id J. apply Fr. now right.
Qed.
End Safe.
End Advanced.

(** ** Theorems *)

(** The example answers what AdvancedExampleSpec.v describes: errors, results and output of every
    text, the entities and the angle afterwards.  All sessions of texts without NUL, any of which
    may be destroyed in between. *)
Theorem C82_session_iff : forall uf tname sg catching d steps l x rs,
  Forall no_nul (texts steps) ->
  ((exists sc, dialogue uf (cfg_classes sg default_cfg) first_scene steps sc rs /\ entities sc = l /\ the_angle sc = x) <->
   exists s s' xs, start sg = Done s /\ session uf tname sg catching d s steps = Done (s', xs) /\
     map reply xs = rs /\ w_entities (s_world s') = l /\ w_angle (s_world s') = x).
Proof.
  intros uf tname sg catching d steps l x rs N. destruct (started sg) as (s & E & R). split.
  - intros (sc & D & <- & <-).
    destruct (session_dialogue uf tname sg catching d _ _ _ _ D s N R) as (s' & xs & H & (_ & _ & Hw & _) & M).
    exists s, s', xs. now rewrite Hw.
  - intros (s0 & s' & xs & E0 & H & M & Hl & Hx). rewrite E in E0. injection E0 as <-.
    destruct (total uf tname sg steps first_scene N) as [(sc & rs' & D)|[(f & D)|St]].
    + destruct (session_dialogue uf tname sg catching d _ _ _ _ D s N R) as (s1 & xs1 & H1 & (_ & _ & Hw & _) & M1).
      rewrite H in H1. injection H1 as <- <-. rewrite Hw in Hl, Hx. exists sc. split; [congruence|now split].
    + exfalso. rewrite (session_disaster uf tname sg catching d _ _ _ D s N R) in H. discriminate H.
    + exfalso. destruct (session_stuck uf tname sg catching d _ _ s St N R) as (f & F). rewrite F in H. discriminate H.
Qed.

(** Its undefined behaviour is the one described: a text that replaces the running command, one
    that uses a variable whose text is gone, and one that dereferences the null pointer for an
    unknown entity.  There is no other, except that of texts C01 is about. *)
Theorem C82_disaster : forall uf tname sg catching d steps s f,
  Forall no_nul (texts steps) -> start sg = Done s ->
  (disaster uf (cfg_classes sg default_cfg) first_scene steps f ->
   session uf tname sg catching d s steps = Fault f) /\
  (session uf tname sg catching d s steps = Fault f ->
   disaster uf (cfg_classes sg default_cfg) first_scene steps f \/
   exists a line b sc rs, steps = a ++ Run line :: b /\
     dialogue uf (cfg_classes sg default_cfg) first_scene a sc rs /\ ill_command (cfg_classes sg default_cfg) line).
Proof.
  intros uf tname sg catching d steps s f N E. destruct (started sg) as (s0 & E0 & R). rewrite E in E0. injection E0 as <-.
  split.
  - intros D. exact (session_disaster uf tname sg catching d _ _ _ D s N R).
  - intros H. destruct (total uf tname sg steps first_scene N) as [(sc & rs & D)|[(f' & D)|St]].
    + exfalso. destruct (session_dialogue uf tname sg catching d _ _ _ _ D s N R) as (s1 & xs1 & H1 & _). congruence.
    + left. assert (H1 := session_disaster uf tname sg catching d _ _ _ D s N R). rewrite H in H1. injection H1 as ->. exact D.
    + right. exact St.
Qed.

(** The description leaves nothing open and is not contradictory. *)
Theorem C82_described : forall uf sg steps,
  Forall no_nul (texts steps) ->
  ((exists sc rs, dialogue uf (cfg_classes sg default_cfg) first_scene steps sc rs) \/
   (exists f, disaster uf (cfg_classes sg default_cfg) first_scene steps f) \/
   (exists a line b sc rs, steps = a ++ Run line :: b /\
     dialogue uf (cfg_classes sg default_cfg) first_scene a sc rs /\ ill_command (cfg_classes sg default_cfg) line)) /\
  (forall sc rs sc' rs', dialogue uf (cfg_classes sg default_cfg) first_scene steps sc rs ->
     dialogue uf (cfg_classes sg default_cfg) first_scene steps sc' rs' ->
     rs = rs' /\ entities sc = entities sc' /\ the_angle sc = the_angle sc') /\
  (forall f f', disaster uf (cfg_classes sg default_cfg) first_scene steps f ->
     disaster uf (cfg_classes sg default_cfg) first_scene steps f' -> f = f') /\
  (forall sc rs f, dialogue uf (cfg_classes sg default_cfg) first_scene steps sc rs ->
     ~ disaster uf (cfg_classes sg default_cfg) first_scene steps f).
Proof.
  intros uf sg steps N. destruct (started sg) as (s & E & R).
  split; [exact (total uf [] sg steps first_scene N)|]. split; [|split].
  - intros sc rs sc' rs' D D'.
    destruct (session_dialogue uf [] sg true 0 _ _ _ _ D s N R) as (s1 & xs1 & H1 & (_ & _ & Hw1 & _) & M1).
    destruct (session_dialogue uf [] sg true 0 _ _ _ _ D' s N R) as (s2 & xs2 & H2 & (_ & _ & Hw2 & _) & M2).
    rewrite H1 in H2. injection H2 as <- <-. rewrite Hw1 in Hw2. injection Hw2 as A B. split; [congruence|auto].
  - intros f f' D D'. assert (H := session_disaster uf [] sg true 0 _ _ _ D s N R).
    rewrite (session_disaster uf [] sg true 0 _ _ _ D' s N R) in H. now injection H.
  - intros sc rs f D D'. destruct (session_dialogue uf [] sg true 0 _ _ _ _ D s N R) as (s1 & xs1 & H1 & _).
    rewrite (session_disaster uf [] sg true 0 _ _ _ D' s N R) in H1. discriminate H1.
Qed.

(** A session has no undefined behaviour if variables are created for existing entities only,
    never under the name of the command that creates them, and the texts that create them are
    kept (the texts of the example are literals).  Then only texts C01 is about can stop it. *)
Theorem C82_safe : forall uf tname sg catching d steps s,
  Forall no_nul (texts steps) -> start sg = Done s ->
  (forall line var id, In line (texts steps) -> creates (cfg_classes sg default_cfg) line var id ->
     var <> lit "entities.create_entity_variable" /\ In id [lit "player"; lit "npc1"; lit "npc2"]) ->
  (forall n line var id, In (Free n) steps -> nth_error (texts steps) n = Some line ->
     ~ creates (cfg_classes sg default_cfg) line var id) ->
  (forall line, In line (texts steps) -> ~ ill_command (cfg_classes sg default_cfg) line) ->
  exists s' xs, session uf tname sg catching d s steps = Done (s', xs) /\ length xs = length (texts steps).
Proof.
  intros uf tname sg catching d steps s N E Ok Fr Wl. destruct (started sg) as (s0 & E0 & R). rewrite E in E0. injection E0 as <-.
  destruct (total uf tname sg steps first_scene N) as [(sc & rs & D)|[(f & D)|(a & line & b & sc & rs & Es & _ & I)]].
  - destruct (session_dialogue uf tname sg catching d _ _ _ _ D s N R) as (s' & xs & H & _ & M). exists s', xs.
    split; [exact H|]. rewrite <- (map_length reply), M. clear - D. induction D; cbn; congruence.
  - exfalso. apply (fine_no_disaster uf sg (texts steps) [lit "player"; lit "npc1"; lit "npc2"] Ok _ _ _ D []); try reflexivity.
    + exact Fr.
    + split; [reflexivity|]. split; [|split].
      * intros n J. cbn [first_scene defined In] in J. repeat (destruct J as [J|J]; [congruence|]). destruct J.
      * intros n m id J Vm. cbn [first_scene defined In] in J.
        repeat (destruct J as [J|J]; [injection J as <- <-; discriminate Vm|]). destruct J.
      * intros n [].
  - exfalso. apply (Wl line); [|exact I]. rewrite Es, texts_app. apply in_or_app. right. now left.
Qed.

(** No command adds, removes or reorders entities. *)
Theorem C82_entities_stay : forall uf tname sg catching d steps s s' xs,
  Forall no_nul (texts steps) -> start sg = Done s ->
  session uf tname sg catching d s steps = Done (s', xs) ->
  map en_id (w_entities (s_world s')) = [lit "player"; lit "npc1"; lit "npc2"].
Proof.
  intros uf tname sg catching d steps s s' xs N E H.
  destruct (proj2 (C82_session_iff uf tname sg catching d steps (w_entities (s_world s')) (w_angle (s_world s')) (map reply xs) N)) as (sc & D & El & _).
  - exists s, s', xs. repeat split; auto.
  - rewrite <- El. exact (dialogue_ids uf sg _ _ _ _ D).
Qed.

(** ** Examples *)

Definition ex_session (steps : list step) : outcome (list (list bytes * option bytes * bytes) * list entity) :=
  s <- start true ;;
  r <- session false (lit "6Entity") true true 3 s steps ;;
  Done (map reply (snd r), w_entities (s_world (fst r))).

Definition ex_line (t : string) : step := Run (lit t).
Definition ex_table (rows : list (list string)) : bytes :=
  concat (map (fun r => tl (concat (map (fun c => tab :: lit c) r)) ++ [nl])
    (["ID"; "Name"; "Payload"] :: ["--"; "----"; "-------"] :: rows)%string).

(** The commands of AdvancedExample.cpp:158-177. *)
Definition ex_steps : list step := map ex_line
  ["entities.list"; "entities.rename npc1 'Enemy'"; "entities.list"; "entities.list";
   "entities.create_entity_variable player_entity player"; "player_entity"; "player_entity.id";
   "player_entity.name"; "player_entity.payload"; "player_entity.payload 'I am a modified player'";
   "entities.list"; "direction 30"; "direction 60d"; "direction 3.1415926535r"]%string.

Definition ex_npc2 := ["npc2"; "NPC 2"; "A strong NPC"]%string.
Example C82_ex_run : ex_session ex_steps =
  Done ([([], None, ex_table [["player"; "Player"; "I am a player"]; ["npc1"; "NPC 1"; "A pretty weak NPC"]; ex_npc2]%string);
         ([], None, []);
         ([], None, ex_table [["player"; "Player"; "I am a player"]; ["npc1"; "Enemy"; "A pretty weak NPC"]; ex_npc2]%string);
         ([], None, ex_table [["player"; "Player"; "I am a player"]; ["npc1"; "Enemy"; "A pretty weak NPC"]; ex_npc2]%string);
         ([], None, []);
         ([], Some (lit "EntityId{player}"), []);
         ([], Some (lit "player"), []);
         ([], Some (lit "Player"), []);
         ([], Some (lit "I am a player"), []);
         ([], Some (lit "I am a modified player"), []);
         ([], None, ex_table [["player"; "Player"; "I am a modified player"]; ["npc1"; "Enemy"; "A pretty weak NPC"]; ex_npc2]%string);
         ([], Some (lit "30 degrees"), []);
         ([], Some (lit "60 degrees"), []);
         ([], Some (lit "180 degrees"), [])],
        [Entity (lit "player") (lit "Player") (lit "I am a modified player");
         Entity (lit "npc1") (lit "Enemy") (lit "A pretty weak NPC");
         Entity (lit "npc2") (lit "NPC 2") (lit "A strong NPC")]).
Proof. vm_compute. reflexivity. Qed.

(** The conditions of C82_safe hold for it. *)
Definition ex_creates (line : bytes) : option (bytes * bytes) :=
  match parse_input true default_cfg line with
  | Done (Value (Input name [[var]; [id]] _)) =>
      if bytes_eqb name (lit "entities.create_entity_variable") then Some (var, id) else None
  | _ => None
  end.
Lemma ex_creates_iff line var id : creates (cfg_classes true default_cfg) line var id -> ex_creates line = Some (var, id).
Proof.
  intros (nd & H). apply C07_value_iff_wellformed in H. unfold ex_creates. rewrite H. now rewrite bytes_eqb_refl.
Qed.

Example C82_ex_safe : exists s s' xs, start true = Done s /\
  session false (lit "6Entity") true true 3 s ex_steps = Done (s', xs) /\ length xs = 14.
Proof.
  destruct (started true) as (s & E & _). exists s.
  assert (Cr : map ex_creates (texts ex_steps) =
    repeat None 4 ++ Some (lit "player_entity", lit "player") :: repeat None 9) by (vm_compute; reflexivity).
  destruct (C82_safe false (lit "6Entity") true true 3 ex_steps s) as (s' & xs & H & L); [|exact E| | | |].
  - repeat constructor; vm_compute; intuition discriminate.
  - intros line var id I H. apply ex_creates_iff in H. apply (in_map ex_creates) in I. rewrite Cr, H in I.
    cbn [repeat app In] in I. repeat (destruct I as [I|I]; [try discriminate I|]); [|destruct I].
    injection I as <- <-. split; [discriminate|now left].
  - intros n line var id I. cbn in I. repeat (destruct I as [I|I]; [discriminate I|]). destruct I.
  - intros line I H. apply parse_input_fault_iff in H. destruct H as (f & H).
    assert (K : forallb (fun l => match parse_input true default_cfg l with Done _ => true | _ => false end) (texts ex_steps) = true)
      by (vm_compute; reflexivity).
    rewrite forallb_forall in K. specialize (K line I). rewrite H in K. discriminate K.
  - exists s', xs. split; [exact E|]. split; [exact H|exact L].
Qed.

(** Errors. *)
Example C82_ex_errors : ex_session (map ex_line
  ["entities.rename nobody x"; "entities.rename (a b) ()"; "entities.rename npc1"; "nothing";
   "entities.create_entity_variable v npc2"; "v 1"; "v.id 1"; "v.name new"; "direction x"; "direction 1 2";
   "entities.create_entity_variable w nobody"; "w"]%string) =
  Done ([([lit "Failed to find entity 'nobody'"], None, []);
         ([lit "Unable to convert 'a b' to type 'string': Expected 1 subvalues, got 2";
           lit "Unable to convert '' to type 'string': Expected 1 subvalues, got 0"], None, []);
         ([lit "Wrong number of arguments to 'entities.rename': expected 2, got 1"], None, []);
         ([lit "No function 'nothing' is registered"], None, []);
         ([], None, []);
         ([lit "This property is read-only"], None, []);
         ([lit "This property is read-only"], None, []);
         ([], Some (lit "new"), []);
         ([lit "Unable to convert 'x' to type 'float'"], None, []);
         ([lit "Wrong number of arguments to 'direction': expected 0 or 1, got 2"], None, []);
         ([], None, []);
         ([], Some (lit "null"), [])],
        [Entity (lit "player") (lit "Player") (lit "I am a player");
         Entity (lit "npc1") (lit "NPC 1") (lit "A pretty weak NPC");
         Entity (lit "npc2") (lit "new") (lit "A strong NPC")]).
Proof. vm_compute. reflexivity. Qed.

(** A command that replaces itself. *)
Example C82_ex_self : ex_session
  [ex_line "entities.create_entity_variable entities.create_entity_variable player"] = Fault UseAfterFree.
Proof. vm_compute. reflexivity. Qed.
(** An entity that does not exist. *)
Example C82_ex_null : ex_session
  [ex_line "entities.create_entity_variable v nobody"; ex_line "v.name"] = Fault NullDeref.
Proof. vm_compute. reflexivity. Qed.
(** A text that does not live as long as the variable: the second step does no harm, the third does. *)
Example C82_ex_gone : ex_session
  [ex_line "entities.create_entity_variable v player"; ex_line "v"; Free 1; ex_line "v"; Free 0; ex_line "v"] = Fault UseAfterFree.
Proof. vm_compute. reflexivity. Qed.
Example C82_ex_kept : ex_session
  [ex_line "entities.create_entity_variable v player"; ex_line "v"; Free 1; ex_line "v"] =
  Done ([([], None, []); ([], Some (lit "EntityId{player}"), []); ([], Some (lit "EntityId{player}"), [])], initial_entities).
Proof. vm_compute. reflexivity. Qed.

(** * Assumptions *)
Print Assumptions C82_session_iff.
Print Assumptions C82_disaster.
Print Assumptions C82_described.
Print Assumptions C82_safe.
Print Assumptions C82_entities_stay.
