(** Property C74: commands registered through ScopedDebugCommands. *)
From Coq Require Import Ascii String NArith ZArith Bool PeanoNat Lia List.
Import ListNotations.
From Verif Require Import Util Base SerializerProofs UMap UMapSpec UMapProofs UMapMore
  Scoped ScopedSpec ScopedProofs.

Local Notation length := List.length.

(** * C74  Scoped commands live as long as their object *)

(** Full statement, safety: if objects are neither moved nor used after their destruction,
    executing commands never uses a destroyed object, and no operation fails. *)
Definition C74_full_statement : Prop := forall sg xs,
  sensible_from [] xs -> no_moves xs ->
  exists w rs, session sg (lib_erase sg) start xs = Done (w, rs) /\ answered [] xs rs.

(** The names registered by the objects of a session. *)
Definition all_names (xs : list Scoped.op) : list bytes :=
  flat_map (fun x => match x with
                     | OCreate cmds => map fst cmds
                     | OAdd _ n _ => [n]
                     | OBind n _ => [n]
                     | _ => []
                     end) xs.

Definition obj (s : string) : Scoped.op := OCreate [(lit s, 0)].

(** Nine objects with one command each.  The defect of UnorderedMap::erase (C20) makes the
    command of the third one unreachable for a while, so that its destruction does not remove
    it; when the map grows the command is back. *)
Definition resurrection : list Scoped.op :=
  [obj "a"; obj "b"; obj "e"; obj "i"; ODestroy 0; ODestroy 1; obj "f"; ODestroy 3; obj "m";
   ODestroy 4; ODestroy 2; obj "c"; obj "d"; obj "g"; OExecute (lit "e")].

(** False: the handler of a destroyed object runs although every name was registered by one
    object only. *)
Theorem C74_destroyed_object_used_refuted : forall sg,
  sensible_from [] resurrection /\ no_moves resurrection /\ NoDup (all_names resurrection) /\
  ~ dangling_from [] resurrection /\
  session sg (lib_erase sg) start resurrection = Fault UseAfterFree.
Proof.
  intros sg.
  assert (Se : sensible_from [] resurrection).
  { unfold resurrection, sensible_from, sensible, alive, obj, created.
    repeat split; try lia; intros H; cbn [In] in H; intuition discriminate. }
  assert (Nm : no_moves resurrection).
  { intros x H. cbn [In resurrection] in H. unfold obj in H. intuition (subst; reflexivity). }
  split; [exact Se|]. split; [exact Nm|]. split.
  { unfold all_names, resurrection, obj. cbn [flat_map map fst app].
    repeat constructor; cbn [In]; intuition discriminate. }
  split; [now apply no_moves_no_dangling|]. destruct sg; vm_compute; reflexivity.
Qed.

Theorem C74_full_statement_fails : ~ C74_full_statement.
Proof.
  intros H. destruct (C74_destroyed_object_used_refuted true) as (Se & Nm & _ & _ & E).
  destruct (H true resurrection Se Nm) as (w & rs & E' & _). congruence.
Qed.

(** Sessions whose removals do not run into that defect: every execution is answered as the
    specification says, and a destroyed object is used exactly if the session executes a
    command whose object is gone. *)
Theorem C74_sessions_partial : forall sg xs,
  sensible_from [] xs -> harmless_session sg xs ->
  (exists w rs, session sg (lib_erase sg) start xs = Done (w, rs) /\ answered [] xs rs /\
     ~ dangling_from [] xs) \/
  (session sg (lib_erase sg) start xs = Fault UseAfterFree /\ dangling_from [] xs).
Proof.
  intros sg xs Se Hh.
  destruct (session_from_start sg (lib_erase sg) _ (harmless_prefix sg) (lib_faithful sg) xs Se Hh)
    as [(w & rs & E & _ & A & N)|H]; [left; eauto|now right].
Qed.

(** ... which never happens if objects are not moved. *)
Theorem C74_no_moves_safe_partial : forall sg xs,
  sensible_from [] xs -> harmless_session sg xs -> no_moves xs ->
  exists w rs, session sg (lib_erase sg) start xs = Done (w, rs) /\ answered [] xs rs.
Proof.
  intros sg xs Se Hh Nm.
  destruct (C74_sessions_partial sg xs Se Hh) as [(w & rs & E & A & _)|[_ D]]; [eauto|].
  now destruct (no_moves_no_dangling xs Se Nm).
Qed.

(** Once all objects are destroyed, moved or not, none of their commands is registered. *)
Theorem C74_nothing_left_partial : forall sg xs w rs,
  sensible_from [] xs -> harmless_session sg xs ->
  session sg (lib_erase sg) start xs = Done (w, rs) ->
  (forall o, ~ alive (rev xs) o) ->
  forall n, execute sg w n = Done NotFound \/ exists a, execute sg w n = Done (Ran (App a)).
Proof.
  intros sg xs w rs Se Hh E Dead n.
  destruct (session_from_start sg (lib_erase sg) _ (harmless_prefix sg) (lib_faithful sg) xs Se Hh)
    as [(w' & rs' & E' & Af & _ & _)|[E' _]]; [|congruence].
  rewrite E in E'. injection E' as <- <-.
  assert (Sp := sensible_past_rev xs Se).
  destruct (execute_spec sg (lib_erase sg) _ (lib_faithful sg) (rev xs) w n Af Hh
              (served_created (rev xs) Sp n)) as [(a & -> & R & _)|[_ (o & f & G & _)]].
  - destruct a as [|[a|o f]]; [now left|right; eauto|]. exfalso.
    destruct (served_listed (rev xs) Sp n o f R) as (p & A & _). now apply (Dead p).
  - exfalso. destruct (served_listed (rev xs) Sp n o f G) as (p & A & _). now apply (Dead p).
Qed.

(** With the repaired erase (see C20) this holds for all sessions. *)
Theorem C74_repaired : forall sg xs, sensible_from [] xs ->
  ((exists w rs, session sg (fixed_erase sg) start xs = Done (w, rs) /\ answered [] xs rs /\
      ~ dangling_from [] xs) \/
   (session sg (fixed_erase sg) start xs = Fault UseAfterFree /\ dangling_from [] xs)) /\
  (no_moves xs ->
     exists w rs, session sg (fixed_erase sg) start xs = Done (w, rs) /\ answered [] xs rs).
Proof.
  intros sg xs Se.
  assert (G := session_from_start sg (fixed_erase sg) (fun _ => True) (fun _ _ _ => I)
                 (fixed_faithful_scoped sg) xs Se I).
  split.
  - destruct G as [(w & rs & E & _ & A & N)|H]; [left; eauto|now right].
  - intros Nm. destruct G as [(w & rs & E & _ & A & _)|[_ D]]; [eauto|].
    now destruct (no_moves_no_dangling xs Se Nm).
Qed.

(** The answer to an execution is determined by the specification. *)
Theorem C74_answers_unique : forall h xs rs rs',
  answered h xs rs -> answered h xs rs' -> rs = rs'.
Proof.
  intros h xs rs rs' A. revert rs'. induction A as [h|h n a xs rs R A IH|h x xs rs N A IH]; intros rs' B.
  - now inversion B.
  - inversion B as [|h0 n0 b xs0 rs0 R' B'|h0 x0 xs0 rs0 N' B']; subst; [|now destruct (N' n)].
    rewrite (IH _ B'). f_equal. destruct a as [|t], b as [|u]; simpl in *.
    + reflexivity.
    + now destruct (R u).
    + now destruct (R' t).
    + f_equal. eapply serves_unique; eassumption.
  - inversion B as [|h0 n0 b xs0 rs0 R' B'|h0 x0 xs0 rs0 N' B']; subst; [now destruct (N n0)|auto].
Qed.

(** Moving an object leaves its commands behind: they refer to the object moved from. *)
Theorem C74_moved_object_refuted : forall sg,
  let xs := [OCreate subsystem_commands; OMoveConstruct 0; ODestroy 0;
             OExecute (lit "subsystem.time")] in
  sensible_from [] xs /\ harmless_session sg xs /\
  session sg (lib_erase sg) start xs = Fault UseAfterFree.
Proof.
  intros sg xs. split.
  { unfold xs, sensible_from, sensible, alive, created.
    repeat split; try lia; intros H; cbn [In] in H; intuition discriminate. }
  split; [destruct sg; vm_compute; repeat (split; [exact I|]); exact I|].
  destruct sg; vm_compute; reflexivity.
Qed.

(** Replacing an object by a new one of the same kind, as std::unique_ptr does (the new one is
    constructed first): the commands of the new object are gone, for every set of commands. *)
Theorem C74_successor_loses_commands_refuted : forall sg cmds n,
  let xs := [OCreate cmds; OCreate cmds; ODestroy 0] in
  harmless_session sg xs -> In n (map fst cmds) ->
  sensible_from [] xs /\ alive (rev xs) 1 /\ In n (listed (rev xs) 1) /\
  exists w, session sg (lib_erase sg) start (xs ++ [OExecute n]) = Done (w, [NotFound]).
Proof.
  intros sg cmds n xs Hh I0.
  assert (Se : sensible_from [] xs).
  { unfold xs, sensible_from, sensible, alive, created.
    repeat split; try lia; intros H; cbn [In] in H; intuition discriminate. }
  assert (Se' : sensible_from [] (xs ++ [OExecute n])).
  { unfold xs, sensible_from, sensible, alive, created. cbn [app].
    repeat split; try lia; intros H; cbn [In] in H; intuition discriminate. }
  split; [exact Se|]. split.
  { unfold alive. cbn [xs rev app created In]. split; [lia|]. intuition discriminate. }
  split; [exact I0|].
  assert (Hh' : harmless_session sg (xs ++ [OExecute n])).
  { revert Hh. unfold harmless_session, xs. cbn [rev app registry_history events]. now rewrite app_nil_r. }
  assert (Nm : no_moves (xs ++ [OExecute n])).
  { intros x H. cbn [xs app In] in H. intuition (subst; reflexivity). }
  destruct (C74_no_moves_safe_partial sg _ Se' Hh' Nm) as (w & rs & E & A).
  exists w. rewrite E. f_equal. f_equal.
  apply (C74_answers_unique [] (xs ++ [OExecute n])); [exact A|].
  cbn [xs app]. repeat (apply answered_other; [discriminate|]).
  apply answered_execute; [|constructor].
  cbn [right_answer]. intros t [G|[_ K]]; [exact G|]. apply K. cbn [takes_away listed Nat.eqb].
  exact I0.
Qed.

(** EncapsulationExample::run with arbitrary commands: nothing fails, and each command is
    answered according to the three stages. *)
Theorem C74_example_commands : forall sg ns, exists w sub rs,
  example_commands sg (lib_erase sg) ns = Done (w, sub, rs) /\ length rs = length ns /\
  forall i n, nth_error ns i = Some n -> exists a, nth_error rs i = Some a /\
    example_answer (firstn i ns) n a.
Proof.
  intros sg ns. destruct (commands_from_start sg ns) as (h & w & sub & rs & E & _ & L & A). eauto 6.
Qed.

(** The function ends without a fault exactly if the last Subsystem has been destroyed by
    then; otherwise its destructor dereferences the null g_globalBindings. *)
Theorem C74_example_end : forall sg ns,
  (stage_after ns = Absent -> exists rs, run_example sg (lib_erase sg) ns = Done rs) /\
  (stage_after ns <> Absent -> run_example sg (lib_erase sg) ns = Fault NullDeref).
Proof.
  intros sg ns. destruct (run_example_end sg ns) as [A B]. split; [|exact B].
  intros E. destruct (A E) as (w & rs & _ & R). eauto.
Qed.

(** The commands of the example itself (147-158). *)
Definition example_script : list bytes :=
  [create_name; lit "subsystem.time"; lit "subsystem.do_some_work"; destroy_name;
   lit "subsystem.data"; lit "subsystem.do_some_work"].

Example C74_ex_run : forall sg,
  run_example sg (lib_erase sg) example_script =
  Done [Ran (App 0); Ran (Member 0 0); Ran (Member 0 3); Ran (App 1); NotFound; NotFound].
Proof. intros sg. destruct sg; vm_compute; reflexivity. Qed.

(** Creating the Subsystem twice, and leaving it alive. *)
Example C74_ex_twice : forall sg,
  run_example sg (lib_erase sg) [create_name; create_name; lit "subsystem.time"; destroy_name] =
    Done [Ran (App 0); Ran (App 0); NotFound; Ran (App 1)] /\
  run_example sg (lib_erase sg) [create_name] = Fault NullDeref.
Proof. intros sg. destruct sg; vm_compute; now split. Qed.

Example C74_ex_stages :
  stage_after example_script = Absent /\
  stage_after [create_name; create_name] = Hidden /\
  stage_after [create_name; create_name; create_name; lit "x"] = Hidden.
Proof. vm_compute. repeat split. Qed.

(** A session that meets the hypotheses of the theorems, with two objects that share a name,
    a command of the application and a command added later. *)
Definition ex_session : list Scoped.op :=
  [OBind (lit "help") 7; OCreate [(lit "x", 0); (lit "y", 1)]; OCreate [(lit "y", 5)];
   OAdd 0 (lit "z") 2; OExecute (lit "y"); ODestroy 0; OExecute (lit "z"); OExecute (lit "y");
   OExecute (lit "help"); ODestroy 1].

Example C74_ex_hypotheses : forall sg,
  sensible_from [] ex_session /\ harmless_session sg ex_session /\ no_moves ex_session /\
  forall o, ~ alive (rev ex_session) o.
Proof.
  intros sg. split.
  { unfold ex_session, sensible_from, sensible, alive, created.
    repeat split; try lia; intros H; cbn [In] in H; intuition discriminate. }
  split; [destruct sg; vm_compute; repeat (split; [intuition discriminate|]); exact I|]. split.
  { intros x H. cbn [In ex_session] in H. intuition (subst; reflexivity). }
  intros o [L N]. cbn [ex_session rev app created] in L. apply N. cbn [ex_session rev app In].
  destruct o as [|[|o]]; [| |lia]; tauto.
Qed.

Example C74_ex_session : forall sg,
  exists w, session sg (lib_erase sg) start ex_session =
    Done (w, [Ran (Member 1 5); NotFound; NotFound; Ran (App 7)]).
Proof. intros sg. destruct sg; eexists; vm_compute; reflexivity. Qed.

(** * Assumptions *)
Print Assumptions C74_destroyed_object_used_refuted.
Print Assumptions C74_full_statement_fails.
Print Assumptions C74_sessions_partial.
Print Assumptions C74_no_moves_safe_partial.
Print Assumptions C74_nothing_left_partial.
Print Assumptions C74_repaired.
Print Assumptions C74_answers_unique.
Print Assumptions C74_moved_object_refuted.
Print Assumptions C74_successor_loses_commands_refuted.
Print Assumptions C74_example_commands.
Print Assumptions C74_example_end.
