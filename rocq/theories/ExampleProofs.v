(** Lemmas about programs that register their commands once and then execute texts. *)
From Coq Require Import Ascii String NArith ZArith Bool PeanoNat Lia List.
Import ListNotations.
From Verif Require Import Util Base LexerSpec StringConv StringConvSpec StringConvProofs SerializerSpec Serializer
  SerializerProofs Lexer LexerMeta LexerProofs P_Lexer UMap UMapSpec UMapMore P_UMap Exec ExecSpec ExecProofs ExecKinds P_Exec P_Exec2 P_Reentry
  P_Serializer PrintfProofs NamedExample NamedExampleSpec NamedExampleProofs P_NamedExample AdvancedExampleProofs
  ExampleSession ExampleSpec.

Local Notation length := List.length.

Definition fits (T : serializer) (P : parameter) : Prop :=
  (forall v, (exists x, from_value T v = Value x) <-> exists y, p_ok P v y) /\
  (forall v e, value_no_nul v -> (from_value T v = Error e <-> p_bad P v e)).

Lemma implements_fits T (K : kind (carrier T)) : implements T K -> fits T (single K).
Proof.
  intros [A E]. split; [|exact E]. intros v. cbn. split; intros (x & H); exists x; now apply A.
Qed.
Lemma anything_fits : fits value_serializer anything.
Proof. split; [|now split]. intros v. cbn. split; intros _; now exists v. Qed.

Lemma problems_errors Ts Ps : Forall2 fits Ts Ps -> forall pos es, (forall v, In v pos -> value_no_nul v) ->
  problems Ps pos es -> conversion_errors Ts pos es.
Proof.
  induction 1 as [|T P Ts Ps H Hs IH]; intros pos es N D; inversion D; subst.
  - constructor.
  - destruct (proj2 (proj1 H v)) as (y & E); [eauto|]. econstructor; [exact E|]. apply IH; [|assumption].
    intros u I. apply N. now right.
  - apply ce_bad; [apply H; [apply N; now left|assumption]|]. apply IH; [|assumption].
    intros u I. apply N. now right.
Qed.

Definition accepted (Ps : list parameter) (pos : list (list bytes)) : Prop :=
  Forall2 (fun P v => exists y, p_ok P v y) Ps pos.

Lemma problems_total Ts Ps : Forall2 fits Ts Ps -> forall pos, (forall v, In v pos -> value_no_nul v) ->
  length pos = length Ps -> accepted Ps pos \/ exists es, problems Ps pos es /\ es <> [].
Proof.
  induction 1 as [|T P Ts Ps H Hs IH]; intros [|v pos] N L; try discriminate L; [left; constructor|].
  injection L as L. destruct (IH pos (fun u I => N u (or_intror I)) L) as [A|(es & D & Ne)].
  - destruct (from_value T v) as [x|e] eqn:E.
    + left. constructor; [|exact A]. apply H. now exists x.
    + right. exists [e]. split; [|discriminate]. apply problems_bad; [apply H; [apply N; now left|exact E]|].
      clear - A. induction A as [|P v Ps pos (y & H) A IH]; [constructor|econstructor; eauto].
  - right. destruct (from_value T v) as [x|e] eqn:E.
    + destruct (proj1 (proj1 H v)) as (y & O); [now exists x|]. exists es. split; [|exact Ne]. econstructor; eauto.
    + exists (e :: es). split; [|discriminate]. apply problems_bad; [apply H; [apply N; now left|exact E]|exact D].
Qed.

Lemma fits_length Ts Ps : Forall2 fits Ts Ps -> length Ts = length Ps.
Proof. induction 1; cbn; congruence. Qed.

(** * Registration *)

Section Registry.
Context {W F : Type}.
Variable sg : bool.

Definition offers (registry : list (bytes * list F)) (s : state W F) : Prop :=
  orderly sg s /\ (forall n fs, In (n, fs) registry -> binds sg s n fs) /\
  (forall n, ~ In n (map fst registry) -> Exec.get sg s n = Done None).

Lemma register_app l l' : forall s : state W F, register sg s (l ++ l') = (s1 <- register sg s l ;; register sg s1 l').
Proof.
  induction l as [|[n fs] l IH]; intros s; cbn [app register]; [reflexivity|].
  destruct (add sg s n fs); cbn [bind]; [apply IH|reflexivity].
Qed.

Lemma registered (w : W) (registry : list (bytes * list F)) : NoDup (map fst registry) ->
  exists s, register sg (fresh_bindings sg w) registry = Done s /\ offers registry s /\
    s_lexer s = Some (parse_input sg default_cfg) /\ s_world s = w.
Proof.
  induction registry as [|[n fs] l IH] using rev_ind; intros N.
  - eexists. split; [reflexivity|]. split; [|now split]. split; [apply fresh_orderly|]. split; [intros ? ? []|].
    intros n _. rewrite (holds_get sg _ [] (C50_fresh_holds sg _)). reflexivity.
  - rewrite map_app in N. assert (Nd : NoDup (map fst l) /\ ~ In n (map fst l)).
    { apply NoDup_remove in N. now rewrite app_nil_r in N. }
    destruct (IH (proj1 Nd)) as (s & E & (O & B & No) & L & Hw).
    destruct (orderly_add sg s n fs O) as (s1 & cmd & E1 & O1 & L1 & W1 & _ & G & M & _ & Ot).
    exists s1. rewrite register_app, E. cbn [bind register]. rewrite E1. cbn [bind].
    split; [reflexivity|]. split; [|split; congruence]. split; [exact O1|]. split.
    + intros n' fs' I. apply in_app_or in I. destruct I as [I|[I|[]]].
      * assert (n' <> n) by (intros ->; apply Nd; apply (in_map fst) in I; exact I).
        destruct (B n' fs' I) as (c & Gc & Mc). exists c. split; [|exact Mc]. now rewrite Ot.
      * injection I as <- <-. now exists cmd.
    + intros n' I. rewrite map_app, in_app_iff in I. cbn in I. rewrite Ot by (intros ->; apply I; right; now left).
      apply No. tauto.
Qed.
End Registry.

(** * Sessions *)

Section Program.
Context {W F S : Type}.
Variable code : F -> functor W F.
Variable wrong_in : W -> option fault.
Variables sg catching : bool.
Variable d : nat.
Variable registry : list (bytes * list F).
Variable table : list (bytes * list (list parameter)).
Variable acts : S -> bytes -> list (list bytes) -> list (bytes * list bytes) ->
                S -> list bytes -> option bytes -> bytes -> Prop.
Variable goes_wrong : S -> bytes -> list (list bytes) -> list (bytes * list bytes) -> fault -> Prop.
Variable good : S -> Prop.
Variable emb : S -> W.

Local Notation exec := (exec_input code sg catching d).
Local Notation C := (cfg_classes sg default_cfg).
Local Notation does := (does table acts).
Local Notation answers := (answers_text table acts C).
Local Notation breaks := (breaks_text goes_wrong C).
Local Notation dialogue := (dialogue table acts C).
Local Notation disaster := (disaster table acts goes_wrong C).
Local Notation session := (session code wrong_in sg catching d).

Definition serves (sc : S) (s : state W F) : Prop :=
  s_lexer s = Some (parse_input sg default_cfg) /\ offers sg registry s /\ s_world s = emb sc /\ good sc.

Definition ends (f : fault) (o : outcome (state W F * (result + exn))) : Prop :=
  o = Fault f \/ (exists s' r, o = Done (s', inl r) /\ wrong_in (s_world s') = Some f) \/
  f = AssertFailed /\ exists s' x, o = Done (s', inr x).

Definition agree (r : bytes * list F) (t : bytes * list (list parameter)) : Prop :=
  fst r = fst t /\ fst t <> [] /\ NoDup (map (@length _) (snd t)) /\
  Forall2 (fun f Ps => Forall2 fits (f_params (code f)) Ps) (snd r) (snd t).

(** What has to be shown about an example. *)
Record implemented : Prop := Implemented {
  im_fine : forall sc, wrong_in (emb sc) = None;
  im_table : Forall2 agree registry table;
  im_distinct : NoDup (map fst registry);
  im_acts : forall sc s name pos nd sc' es ret out, serves sc s ->
    (forall v, In v pos -> value_no_nul v) -> named_no_nul nd ->
    acts sc name pos nd sc' es ret out ->
    exists inp s', exec s (Input name pos nd) = Done (s', inl (Result inp es ret out)) /\ serves sc' s';
  im_wrong : forall sc s name pos nd f, serves sc s -> goes_wrong sc name pos nd f ->
    ends f (exec s (Input name pos nd));
  im_total : forall sc name pos nd overloads Ps, good sc ->
    (forall v, In v pos -> value_no_nul v) -> named_no_nul nd ->
    In (name, overloads) table -> In Ps overloads -> accepted Ps pos ->
    (exists sc' es ret out, acts sc name pos nd sc' es ret out) \/ exists f, goes_wrong sc name pos nd f
}.

Hypothesis I : implemented.

Lemma names_same : map fst registry = map fst table.
Proof.
  assert (T := im_table I). clear I. induction T as [|r t rs ts (H & _) Hs IH]; cbn; [reflexivity|].
  now rewrite H, IH.
Qed.

Lemma table_entry name overloads : In (name, overloads) table ->
  exists fs, In (name, fs) registry /\ name <> [] /\ NoDup (map (@length _) overloads) /\
    Forall2 (fun f Ps => Forall2 fits (f_params (code f)) Ps) fs overloads.
Proof.
  assert (T := im_table I). clear I. induction T as [|[n fs] [n' os] rs ts (H & Ne & Nd & H2) Hs IH]; [intros []|].
  cbn in H, Ne, Nd, H2. subst n'. intros [E|J].
  - injection E as <- <-. exists fs. split; [now left|auto].
  - destruct (IH J) as (fs' & K & K'). exists fs'. split; [now right|exact K'].
Qed.

Lemma chosen_overload fs overloads Ps : Forall2 (fun f Ps => Forall2 fits (f_params (code f)) Ps) fs overloads ->
  NoDup (map (@length _) overloads) -> In Ps overloads ->
  forall gs, map snd gs = fs ->
  exists g, chosen code gs (length Ps) g /\ In (snd g) fs /\ Forall2 fits (f_params (code (snd g))) Ps.
Proof.
  induction 1 as [|f Qs fs os H Hs IH]; intros N J gs E; [destruct J|].
  destruct gs as [|g gs]; [discriminate E|]. cbn in E. injection E as Ef Eg. subst f.
  cbn in N. inversion N as [|? ? N1 N2]; subst. destruct J as [->|J].
  - exists g. split; [apply chosen_head; now apply fits_length|]. split; [now left|exact H].
  - destruct (IH N2 J gs eq_refl) as (g' & (a & b & E & L & O) & In' & Fi). exists g'. split; [|split; [now right|exact Fi]].
    exists (g :: a), b. split; [now rewrite E|]. split; [exact L|]. intros x [<-|K]; [|now apply O].
    rewrite (fits_length _ _ H). intros K. apply N1. rewrite K. now apply in_map.
Qed.

Lemma serves_binds sc s n fs : serves sc s -> In (n, fs) registry -> binds sg s n fs.
Proof. intros (_ & (_ & B & _) & _). apply B. Qed.

Lemma exec_does sc s name pos nd sc' es ret out : serves sc s ->
  (forall v, In v pos -> value_no_nul v) -> named_no_nul nd -> does sc name pos nd sc' es ret out ->
  exists inp s', exec s (Input name pos nd) = Done (s', inl (Result inp es ret out)) /\ serves sc' s'.
Proof.
  intros R Np Nn [sc1 es1 ret1 out1 A|os Ps es1 T J P Ne|os e T N A|e Ne N U|E].
  - exact (im_acts I _ _ _ _ _ _ _ _ _ R Np Nn A).
  - exists (Input name pos nd), s. split; [|exact R]. destruct (table_entry name os T) as (fs & K & Nm & Nd & H).
    destruct (serves_binds _ _ _ _ R K) as (cmd & G & M).
    destruct (chosen_overload fs os Ps H Nd J (c_functors cmd) M) as (g & Ch & _ & Fi).
    assert (Lp : length pos = length Ps) by (clear - P; induction P; cbn; congruence).
    rewrite <- Lp in Ch.
    exact (input_conversion code sg catching _ s (Input name pos nd) cmd g es1 Nm G Ch (problems_errors _ _ Fi pos es1 Np P) Ne).
  - exists (Input name pos nd), s. split; [|exact R]. destruct (table_entry name os T) as (fs & K & Nm & Nd & H).
    destruct (serves_binds _ _ _ _ R K) as (cmd & G & M).
    assert (Ar : map (fun f => length (f_params (code (snd f)))) (c_functors cmd) = map (@length _) os).
    { rewrite <- (map_map snd (fun f => length (f_params (code f)))), M. clear - H.
      induction H as [|f Qs fs os H Hs IH]; cbn; [reflexivity|]. rewrite (fits_length _ _ H). congruence. }
    destruct (C31_wrong_arity_message _ _ code sg catching d s (Input name pos nd) cmd Nm G) as (msg & Am' & E).
    { intros f If Ef. apply N. rewrite <- Ar. apply in_map_iff. exists f. split; [exact Ef|exact If]. }
    rewrite Ar in Am'. cbn [i_name i_args] in Am'. rewrite (arity_message_unique _ _ _ _ _ A Am'). exact E.
  - exists (Input name pos nd), s. split; [|exact R].
    destruct (C30_unknown_name _ _ code sg catching d s (Input name pos nd) Ne) as (msg & U' & E).
    { destruct R as (_ & (_ & _ & No) & _). apply No. now rewrite names_same. }
    cbn [i_name] in U'. rewrite (unknown_message_unique _ _ _ U U'). exact E.
  - exists (Input name pos nd), s. split; [|exact R]. subst name.
    now apply (C30_no_name _ _ code sg catching d s (Input [] pos nd)).
Qed.

Lemma length_or_not (os : list (list parameter)) n : (exists Ps, In Ps os /\ length Ps = n) \/ ~ In n (map (@length _) os).
Proof.
  destruct (in_dec Nat.eq_dec n (map (@length _) os)) as [J|J]; [left|now right].
  apply in_map_iff in J. destruct J as (Ps & E & J). now exists Ps.
Qed.

Lemma does_total sc name pos nd : good sc -> (forall v, In v pos -> value_no_nul v) -> named_no_nul nd ->
  (exists sc' es ret out, does sc name pos nd sc' es ret out) \/ exists f, goes_wrong sc name pos nd f.
Proof.
  intros G Np Nn. destruct (bytes_eqb_spec name []) as [->|Ne].
  { left. eexists _, _, _, _. now apply does_nothing. }
  assert (T : (exists os, In (name, os) table) \/ ~ In name (map fst table)).
  { destruct (in_dec (list_eq_dec ascii_dec) name (map fst table)) as [J|J]; [left|now right].
    apply in_map_iff in J. destruct J as ([n os] & E & J). cbn in E. subst n. now exists os. }
  destruct T as [(os & T)|N].
  2: { left. eexists _, _, _, _. apply does_unknown; [exact Ne|exact N|].
       exists (c_str name). split; [apply before_nul_c_str|reflexivity]. }
  destruct (table_entry name os T) as (fs & K & Nm & Nd & H).
  destruct (length_or_not os (length pos)) as [(Ps & J & L)|N].
  - destruct (chosen_overload fs os Ps H Nd J (map (fun f => (0, f)) fs)) as (g & _ & _ & Fi);
      [rewrite map_map; cbn; apply map_id|].
    destruct (problems_total _ _ Fi pos Np (eq_sym L)) as [A|(es & P & Nes)].
    + destruct (im_total I sc name pos nd os Ps G Np Nn T J A) as [(sc' & es & ret & out & Ac)|(f & Wr)].
      * left. exists sc', es, ret, out. now apply does_acts.
      * right. now exists f.
    + left. eexists _, _, _, _. eapply does_arguments; eauto.
  - left. assert (A := wrong_arity code name (map (fun f => (0, f)) fs) (length pos)).
    rewrite map_map in A. cbn [snd] in A.
    assert (Ar : map (fun f => length (f_params (code f))) fs = map (@length _) os).
    { clear - H. induction H as [|f Qs fs os H Hs IH]; cbn; [reflexivity|]. rewrite (fits_length _ _ H). congruence. }
    rewrite Ar in A. eexists _, _, _, _. eapply does_count; eauto.
Qed.

Lemma exec_answers sc s line sc' es ret out : serves sc s -> no_nul line -> answers sc line sc' es ret out ->
  exists inp s', exec_text code sg catching d s line = Done (s', inl (Result inp es ret out)) /\ serves sc' s'.
Proof.
  intros R N [e H|name pos nd sc1 es1 ret1 out1 H D].
  - exists no_input, s. split; [|exact R]. unfold exec_text, execute_text. rewrite (proj1 R).
    rewrite (proj2 (C07_error_iff_malformed sg default_cfg line (message e))); [reflexivity|eauto].
  - destruct (command_no_nul _ _ _ _ _ H N) as [A B].
    destruct (exec_does sc s name pos nd _ _ _ _ R A B D) as (inp & s' & E & R'). exists inp, s'. split; [|exact R'].
    apply C07_value_iff_wellformed in H. unfold exec_text, execute_text. rewrite (proj1 R), H. cbn [bind]. exact E.
Qed.

Lemma exec_breaks sc s line f : serves sc s -> breaks sc line f -> ends f (exec_text code sg catching d s line).
Proof.
  intros R (name & pos & nd & H & G). apply C07_value_iff_wellformed in H.
  unfold exec_text, execute_text. rewrite (proj1 R), H. cbn [bind]. exact (im_wrong I sc s name pos nd f R G).
Qed.

Lemma answers_total sc line : good sc -> no_nul line ->
  (exists sc' es ret out, answers sc line sc' es ret out) \/ (exists f, breaks sc line f) \/ ill_command C line.
Proof.
  intros Gd N. destruct (C07_diagnosis_total sg default_cfg line) as [([[name pos nd]|e] & H)|Il]; [| |auto].
  - destruct (command_no_nul _ _ _ _ _ H N) as [A B].
    destruct (does_total sc name pos nd Gd A B) as [(sc' & es & ret & out & D)|(f & G)].
    + left. exists sc', es, ret, out. eapply answers_command; eauto.
    + right. left. exists f, name, pos, nd. now split.
  - left. eexists _, _, _, _. exact (answers_syntax _ _ _ sc line e H).
Qed.

Definition reply (r : result) : list bytes * option bytes * bytes := (r_errors r, r_return r, r_output r).

Lemma session_dialogue sc lines sc' rs : dialogue sc lines sc' rs -> forall s, Forall no_nul lines -> serves sc s ->
  exists s' xs, session s lines = Done (s', xs) /\ serves sc' s' /\ map reply xs = rs.
Proof.
  induction 1 as [sc|sc line lines sc1 es ret out sc2 rs A D IH]; intros s N R.
  - exists s, []. repeat split; apply R.
  - inversion N as [|? ? N1 N2]; subst.
    destruct (exec_answers sc s line sc1 es ret out R N1 A) as (inp & s1 & E & R1).
    assert (Wn : wrong_in (s_world s1) = None) by (rewrite (proj1 (proj2 (proj2 R1))); apply (im_fine I)).
    destruct (IH _ N2 R1) as (s' & xs & E' & R' & M).
    cbn [ExampleSession.session]. rewrite E. cbn [bind fst snd]. rewrite Wn.
    rewrite E'. cbn [bind fst snd]. eexists s', (_ :: xs). split; [reflexivity|]. split; [exact R'|]. cbn [map]. now rewrite M.
Qed.

Lemma session_disaster sc lines f : disaster sc lines f -> forall s, Forall no_nul lines -> serves sc s ->
  session s lines = Fault f.
Proof.
  induction 1 as [sc line lines f B|sc line lines sc1 es ret out f A D IH]; intros s N R.
  - cbn [ExampleSession.session].
    destruct (exec_breaks sc s line f R B) as [E|[(s1 & r & E & Hw)|(-> & s1 & x & E)]]; rewrite E; [reflexivity| |reflexivity].
    cbn [bind fst snd]. now rewrite Hw.
  - inversion N as [|? ? N1 N2]; subst.
    destruct (exec_answers sc s line sc1 es ret out R N1 A) as (inp & s1 & E & R1).
    assert (Wn : wrong_in (s_world s1) = None) by (rewrite (proj1 (proj2 (proj2 R1))); apply (im_fine I)).
    cbn [ExampleSession.session]. rewrite E. cbn [bind fst snd]. rewrite Wn. now rewrite (IH _ N2 R1).
Qed.

Lemma session_app a b : forall s, session s (a ++ b) =
  (q <- session s a ;; r <- session (fst q) b ;; Done (fst r, snd q ++ snd r)).
Proof.
  induction a as [|l a IH]; intros s; cbn [app ExampleSession.session bind fst snd].
  - destruct (session s b) as [[? ?]|]; reflexivity.
  - destruct (exec_text code sg catching d s l) as [[s1 [r|x]]|]; cbn [bind fst snd]; [|reflexivity|reflexivity].
    destruct (wrong_in (s_world s1)); [reflexivity|]. rewrite IH.
    destruct (session s1 a) as [[s2 xs]|]; cbn [bind fst snd]; [|reflexivity].
    destruct (session s2 b) as [[s3 ys]|]; reflexivity.
Qed.

Lemma session_stuck sc lines s : stuck table acts C sc lines -> Forall no_nul lines -> serves sc s ->
  exists f, session s lines = Fault f.
Proof.
  intros (a & line & b & sc' & rs & -> & D & Il) N R. rewrite Forall_app in N.
  destruct (session_dialogue _ _ _ _ D s (proj1 N) R) as (s' & xs & E & R' & _).
  rewrite session_app, E. cbn [bind fst snd ExampleSession.session].
  apply parse_input_fault_iff in Il. destruct Il as (f & Il). exists f. unfold exec_text, execute_text.
  rewrite (proj1 R'), Il. reflexivity.
Qed.

(** Every session is a dialogue, ends badly, or comes to a text that C01 is about. *)
Lemma total lines : forall sc s, serves sc s -> Forall no_nul lines ->
  (exists sc' rs, dialogue sc lines sc' rs) \/ (exists f, disaster sc lines f) \/ stuck table acts C sc lines.
Proof.
  induction lines as [|line lines IH]; intros sc s R N.
  - left. exists sc, []. constructor.
  - inversion N as [|? ? N1 N2]; subst.
    assert (G : good sc) by apply R.
    destruct (answers_total sc line G N1) as [(sc1 & es & ret & out & A)|[(f & B)|Il]].
    + destruct (exec_answers sc s line sc1 es ret out R N1 A) as (inp & s1 & _ & R1).
      destruct (IH sc1 s1 R1 N2) as [(sc' & rs & D)|[(f & D)|(a & l & b & sc' & rs & -> & D & Il)]].
      * left. eexists _, _. econstructor; eauto.
      * right. left. exists f. eapply disaster_later; eauto.
      * right. right. exists (line :: a), l, b. eexists sc', _. split; [reflexivity|]. split; [|exact Il].
        econstructor; eauto.
    + right. left. exists f. now apply disaster_here.
    + right. right. exists [], line, lines, sc, []. split; [reflexivity|]. split; [constructor|exact Il].
Qed.

Lemma started sc : good sc -> exists s, register sg (fresh_bindings sg (emb sc)) registry = Done s /\ serves sc s.
Proof.
  intros G. destruct (registered sg (emb sc) registry (im_distinct I)) as (s & E & O & L & Hw).
  exists s. split; [exact E|]. split; [exact L|]. split; [exact O|]. now split.
Qed.

Lemma session_iff sc s lines w rs : serves sc s -> Forall no_nul lines ->
  ((exists sc', dialogue sc lines sc' rs /\ emb sc' = w) <->
   exists s' xs, session s lines = Done (s', xs) /\ map reply xs = rs /\ s_world s' = w).
Proof.
  intros R N. split.
  - intros (sc' & D & <-). destruct (session_dialogue _ _ _ _ D s N R) as (s' & xs & H & (_ & _ & Hw & _) & M).
    exists s', xs. now repeat split.
  - intros (s' & xs & H & M & Hw). destruct (total lines sc s R N) as [(sc' & rs' & D)|[(f & D)|St]].
    + destruct (session_dialogue _ _ _ _ D s N R) as (s1 & xs1 & H1 & (_ & _ & Hw1 & _) & M1).
      rewrite H in H1. injection H1 as <- <-. exists sc'. split; congruence.
    + exfalso. rewrite (session_disaster _ _ _ D s N R) in H. discriminate H.
    + exfalso. destruct (session_stuck _ _ s St N R) as (f & E). rewrite E in H. discriminate H.
Qed.

Lemma fault_iff sc s lines f : serves sc s -> Forall no_nul lines ->
  (disaster sc lines f -> session s lines = Fault f) /\
  (session s lines = Fault f -> disaster sc lines f \/ stuck table acts C sc lines).
Proof.
  intros R N. split; [intros D; exact (session_disaster _ _ _ D s N R)|].
  intros H. destruct (total lines sc s R N) as [(sc' & rs & D)|[(f' & D)|St]].
  - exfalso. destruct (session_dialogue _ _ _ _ D s N R) as (s1 & xs1 & H1 & _). congruence.
  - left. assert (H1 := session_disaster _ _ _ D s N R). rewrite H in H1. injection H1 as ->. exact D.
  - now right.
Qed.

Lemma not_both sc s lines : serves sc s -> Forall no_nul lines ->
  (forall sc1 rs1 sc2 rs2, dialogue sc lines sc1 rs1 -> dialogue sc lines sc2 rs2 -> rs1 = rs2 /\ emb sc1 = emb sc2) /\
  (forall f f', disaster sc lines f -> disaster sc lines f' -> f = f') /\
  (forall sc' rs f, dialogue sc lines sc' rs -> ~ disaster sc lines f).
Proof.
  intros R N. split; [|split].
  - intros sc1 rs1 sc2 rs2 D D'.
    destruct (session_dialogue _ _ _ _ D s N R) as (s1 & xs1 & H1 & (_ & _ & Hw1 & _) & M1).
    destruct (session_dialogue _ _ _ _ D' s N R) as (s2 & xs2 & H2 & (_ & _ & Hw2 & _) & M2).
    rewrite H1 in H2. injection H2 as <- <-. split; congruence.
  - intros f f' D D'. assert (H := session_disaster _ _ _ D s N R).
    rewrite (session_disaster _ _ _ D' s N R) in H. now injection H.
  - intros sc' rs f D D'. destruct (session_dialogue _ _ _ _ D s N R) as (s1 & xs1 & H1 & _).
    rewrite (session_disaster _ _ _ D' s N R) in H1. discriminate H1.
Qed.

(** ** Showing [im_acts] and [im_wrong] *)

(** [f] is the overload taken. *)
Definition taken (fs : list F) (f : F) : Prop :=
  exists a b, fs = a ++ f :: b /\ forall g, In g a -> length (f_params (code g)) <> length (f_params (code f)).

Lemma found sc s name fs f pos vs : serves sc s -> In (name, fs) registry -> taken fs f ->
  converts (f_params (code f)) pos vs ->
  exists cmd sid, Exec.get sg s name = Done (Some cmd) /\ chosen code (c_functors cmd) (length pos) (sid, f) /\
    is_live s sid = true.
Proof.
  intros R J (a & b & -> & Na) Cv. destruct (serves_binds _ _ _ _ R J) as (cmd & Gt & M).
  assert (X : exists ga g gb, c_functors cmd = ga ++ g :: gb /\ map snd ga = a /\ snd g = f).
  { clear - M. revert M. generalize (c_functors cmd). induction a as [|x a IH]; intros [|g l] M; try discriminate M.
    - cbn in M. injection M as E _. now exists [], g, l.
    - cbn in M. injection M as E M. destruct (IH l M) as (ga & g' & gb & -> & Ea & Ef).
      exists (g :: ga), g', gb. cbn. repeat split; congruence. }
  destruct X as (ga & [sid f'] & gb & E & Ea & Ef). cbn in Ef. subst f'. exists cmd, sid. split; [exact Gt|]. split.
  - exists ga, gb. split; [exact E|]. cbn [snd]. split; [symmetry; exact (ExecProofs.converts_length _ _ _ Cv)|].
    intros g K. rewrite (ExecProofs.converts_length _ _ _ Cv). apply Na. rewrite <- Ea. now apply in_map.
  - apply (live_found sg s name cmd (sid, f)); [apply R|exact Gt|]. rewrite E. apply in_or_app. right. now left.
Qed.

Lemma run_done sc s name fs f pos nd vs s' es out (v : rcarrier (f_result (code f))) txt : serves sc s -> name <> [] ->
  In (name, fs) registry -> taken fs f -> converts (f_params (code f)) pos vs ->
  (forall sid, is_live s sid = true ->
     run_prog sg (nested_exec code sg catching d) sid s (ctx (Input name pos nd) [] []) (f_body (code f) vs) =
     Done (s', ctx (Input name pos nd) es out, inl v)) ->
  rtext (f_result (code f)) v = Done txt ->
  exec s (Input name pos nd) =
    Done (s', inl (Result (Input name pos nd) es (match es with [] => txt | _ => None end) out)).
Proof.
  intros R Ne J Ch Cv H T. destruct (found sc s name fs f pos vs R J Ch Cv) as (cmd & sid & Gt & C & L).
  exact (exec_body code sg catching d s name pos nd cmd (sid, f) vs s' es out v txt Ne Gt C Cv (H sid L) T).
Qed.

Lemma run_acts sc s name fs f pos nd vs sc' es out (v : rcarrier (f_result (code f))) txt : serves sc s -> name <> [] ->
  In (name, fs) registry -> taken fs f -> converts (f_params (code f)) pos vs -> good sc' ->
  (forall sid, is_live s sid = true ->
     run_prog sg (nested_exec code sg catching d) sid s (ctx (Input name pos nd) [] []) (f_body (code f) vs) =
     Done (set_world s (emb sc'), ctx (Input name pos nd) es out, inl v)) ->
  rtext (f_result (code f)) v = Done txt ->
  exists inp s', exec s (Input name pos nd) =
    Done (s', inl (Result inp es (match es with [] => txt | _ => None end) out)) /\ serves sc' s'.
Proof.
  intros R Ne J Ch Cv G H T. exists (Input name pos nd), (set_world s (emb sc')).
  split; [|split; [apply R|split; [exact (proj1 (proj2 R))|now split]]].
  exact (run_done sc s name fs f pos nd vs _ es out v txt R Ne J Ch Cv H T).
Qed.

(** A handler that throws. *)
Lemma run_throws sc s name fs f pos nd vs s' es out x : serves sc s -> name <> [] ->
  In (name, fs) registry -> taken fs f -> converts (f_params (code f)) pos vs ->
  (forall sid, is_live s sid = true ->
     run_prog sg (nested_exec code sg catching d) sid s (ctx (Input name pos nd) [] []) (f_body (code f) vs) =
     Done (s', ctx (Input name pos nd) es out, inr x)) ->
  exec s (Input name pos nd) =
    Done (s', if catching then inl (Result (Input name pos nd) (es ++ [exn_text x]) None out) else inr x).
Proof.
  intros R Ne J Ch Cv H. destruct (found sc s name fs f pos vs R J Ch Cv) as (cmd & sid & Gt & C & L).
  unfold exec_input. rewrite (input_chosen code sg catching _ s (Input name pos nd) cmd (sid, f) Ne Gt C).
  cbn [i_name i_args i_named fst snd]. rewrite (invoke_good sg _ _ _ _ _ _ _ vs Cv).
  change (ctx_of name pos [] nd) with (ctx (Input name pos nd) [] []). rewrite (H sid L). cbn [bind].
  destruct catching; reflexivity.
Qed.
End Program.
