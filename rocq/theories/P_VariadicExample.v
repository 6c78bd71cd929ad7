(** C84: the commands of examples/variadic. *)
From Coq Require Import Ascii String NArith ZArith Bool PeanoNat Lia List.
Import ListNotations.
From Verif Require Import Util Base LexerSpec StringConv StringConvSpec StringConvProofs SerializerSpec Serializer
  SerializerProofs Lexer LexerMeta LexerProofs LexerMore P_Lexer P_StringConv UMap Exec ExecSpec ExecProofs P_Exec P_Serializer
  MessagesProofs NamedExample NamedExampleSpec NamedExampleProofs P_NamedExample FloatOps FloatOpsSpec FloatOpsProofs
  ExampleSession ExampleSpec ExampleProofs VariadicExample VariadicExampleSpec.

Local Notation length := List.length.

(** ** Lists *)

Lemma find_index_some f l i : find_index f l = Some i ->
  exists a e b, l = a ++ e :: b /\ length a = i /\ f e = true /\ forall x, In x a -> f x = false.
Proof.
  revert i. induction l as [|e l IH]; intros i H; [discriminate H|]. cbn [find_index] in H. destruct (f e) eqn:F.
  - injection H as <-. exists [], e, l. repeat split; [assumption|intros ? []].
  - destruct (find_index f l) as [j|]; [|discriminate H]. injection H as <-.
    destruct (IH j eq_refl) as (a & e' & b & -> & <- & F' & N). exists (e :: a), e', b. repeat split; [assumption|].
    intros x [<-|I]; [exact F|now apply N].
Qed.
Lemma find_index_none f l : find_index f l = None -> forall x, In x l -> f x = false.
Proof.
  induction l as [|e l IH]; intros H x [].
  - subst. cbn [find_index] in H. now destruct (f x).
  - cbn [find_index] in H. destruct (f e); [discriminate H|]. destruct (find_index f l); [discriminate H|]. now apply IH.
Qed.
Lemma find_index_first f a e b : f e = true -> (forall x, In x a -> f x = false) -> find_index f (a ++ e :: b) = Some (length a).
Proof.
  intros F. induction a as [|x a IH]; intros N; cbn [app find_index length]; [now rewrite F|].
  rewrite N by now left. rewrite IH; [reflexivity|]. intros y I. apply N. now right.
Qed.
Lemma find_index_nobody f l : (forall x, In x l -> f x = false) -> find_index f l = None.
Proof.
  intros N. destruct (find_index f l) as [i|] eqn:E; [|reflexivity]. apply find_index_some in E.
  destruct E as (a & e & b & -> & _ & F & _). rewrite N in F; [discriminate F|]. apply in_or_app. right. now left.
Qed.
Lemma change_at a e b g : change (a ++ e :: b) (length a) g = a ++ g e :: b.
Proof. induction a as [|x a IH]; cbn [app change length]; [reflexivity|]. now rewrite IH. Qed.

Section Variadic.
Variables (p : platform) (nm : naming) (size_t : ctype).
Variables sg catching : bool.
Variable d : nat.
Hypothesis Us : size_type size_t.

Local Notation code := (code p nm size_t).
Local Notation table := (table p nm size_t).
Local Notation acts := (acts p nm size_t).
Local Notation means := (means p nm size_t).
Local Notation is_number := (is_number p nm size_t).
Local Notation good := (proper p size_t).
Local Notation world_of := (fun l : list entity => l).
Local Notation serves := (serves sg commands good world_of).
Local Notation run := (run_prog sg (nested_exec code sg catching d)).
Local Notation Si := (size_implements p nm size_t).
Local Notation exec := (exec_input code sg catching d).

Lemma size_nonneg n : in_range p size_t n -> (0 <= n)%Z.
Proof. intros H. now apply (size_range p size_t Us) in H. Qed.

Lemma number_unique v a b : denotes_value (size_kind p nm size_t) v a -> denotes_value (size_kind p nm size_t) v b -> a = b.
Proof. intros A B. apply (proj1 Si) in A, B. rewrite A in B. now injection B. Qed.

Lemma number_or_not v : is_number v \/ ~ is_number v.
Proof.
  destruct (from_value (size_ser p nm size_t) v) as [x|e] eqn:E.
  - left. exists x. now apply (proj1 Si).
  - right. intros (x & H). apply (proj1 Si) in H. rewrite E in H. discriminate H.
Qed.

Lemma number_error v : ~ is_number v -> exists e, from_value (size_ser p nm size_t) v = Error e.
Proof.
  intros N. destruct (from_value (size_ser p nm size_t) v) as [x|e] eqn:E; [|now exists e].
  elim N. exists x. now apply (proj1 Si).
Qed.

(** Who is meant, as the program finds out. *)
Definition meant (v : value) (e : entity) : bool :=
  match from_value (size_ser p nm size_t) v with
  | Value id => Z.eqb (e_id e) id
  | Error _ => match v with [s] => bytes_eqb (e_name e) s | _ => false end
  end.

Lemma meant_iff v e : meant v e = true <-> means v e.
Proof.
  unfold meant, VariadicExampleSpec.means. destruct (from_value (size_ser p nm size_t) v) as [id|er] eqn:E.
  - assert (D := proj1 (proj1 Si v id) E). rewrite Z.eqb_eq. split; [intros ->; now left|].
    intros [H|[N _]]; [exact (number_unique _ _ _ H D)|]. elim N. now exists id.
  - assert (N : ~ is_number v) by (intros (x & H); apply (proj1 Si) in H; rewrite E in H; discriminate H). split.
    + intros H. right. split; [exact N|]. destruct v as [|s [|]]; try discriminate H. apply bytes_eqb_eq in H. now rewrite H.
    + intros [H|[_ ->]]; [elim N; now exists (e_id e)|]. now apply bytes_eqb_eq.
Qed.
Lemma meant_false v e : meant v e = false <-> ~ means v e.
Proof. rewrite <- meant_iff. now destruct (meant v e). Qed.

Lemma means_text v e : means v e -> exists s, v = [s].
Proof. intros [(s & -> & _)|[_ ->]]; eauto. Qed.

Lemma rename_one s n st inp es out sid :
  run sid st (ctx inp es out) (rename p nm size_t [s] n) =
  run sid st (ctx inp es out) (assign [s] n (find_index (meant [s]) (s_world st))).
Proof.
  unfold rename, meant. cbn [run_prog]. unfold getById, getByName.
  destruct (from_value (size_ser p nm size_t) [s]) as [id|e]; reflexivity.
Qed.

Lemma text_fits : fits string_serializer text_param.
Proof. exact (implements_fits _ _ text_implements). Qed.
Lemma size_fits : fits (size_ser p nm size_t) (size_param p nm size_t).
Proof. exact (implements_fits _ _ Si). Qed.

Lemma agreed : Forall2 (agree code) commands table.
Proof.
  assert (Ft := text_fits). assert (Fs := size_fits). assert (Fa := anything_fits).
  repeat apply Forall2_cons; try apply Forall2_nil; (split; [reflexivity|]); (split; [discriminate|]);
    (split; [cbn; repeat constructor; cbn; intuition discriminate|]); cbn [snd];
    repeat first [assumption|apply Forall2_cons|apply Forall2_nil].
Qed.

Lemma size_value v n : denotes_value (size_kind p nm size_t) v n -> in_range p size_t n.
Proof. intros (w & _ & V). inversion V; subst; assumption. Qed.

Local Notation taken := (taken code).
Lemma only_one (f : fn) : taken [f] f.
Proof. exists [], []. split; [reflexivity|intros ? []]. Qed.

Lemma list_run l : forall t st inp es out sid, good l -> entity_lines l t ->
  run sid st (ctx inp es out) (list_lines l) = Done (st, ctx inp es (out ++ t), inl tt).
Proof.
  induction l as [|e l IH]; intros t st inp es out sid G H; inversion H; subst.
  - cbn [list_lines run_prog]. now rewrite app_nil_r.
  - cbn [list_lines run_prog]. rewrite ctx_line. erewrite IH; [|intros x I; apply G; now right|eassumption].
    rewrite (canonical_unique _ _ _ (size_nonneg _ (G e (or_introl eq_refl))) H2 (dec_canonical _ (size_nonneg _ (G e (or_introl eq_refl))))).
    rewrite (before_nul_det _ _ H3). unfold printf_u, nl, newline. rewrite <- !app_assoc. reflexivity.
Qed.

Lemma renamed_good a e b n : good (a ++ e :: b) -> good (a ++ Entity (e_id e) n :: b).
Proof.
  intros G x I. apply in_app_or in I. destruct I as [I|[<-|I]].
  - apply G, in_or_app. now left.
  - cbn [e_id]. apply G, in_or_app. right. now left.
  - apply G, in_or_app. right. now right.
Qed.

Lemma exec_acts l s name pos nd l' es ret out : serves l s -> (forall v, In v pos -> value_no_nul v) ->
  acts l name pos nd l' es ret out ->
  exists inp s', exec s (Input name pos nd) = Done (s', inl (Result inp es ret out)) /\ serves l' s'.
Proof.
  intros R N A. assert (Hw := proj1 (proj2 (proj2 R))). assert (G := proj2 (proj2 (proj2 R))). cbn beta in Hw, G.
  assert (Kp : set_world s l = s) by (rewrite <- Hw; now destruct s).
  destruct A as [nd v n a e b El M Fi|nd w n Nb|nd v n e1 e2 L C1 C2|nd t T|nd v n id V].
  - destruct (means_text _ _ M) as (w & ->).
    apply (run_acts code sg catching d commands good world_of l s _ [FRename] FRename [[w]; [n]] nd ([w], (n, tt)) _ [] _ tt None R);
      try discriminate; [cbn; tauto|apply only_one|repeat constructor|subst l; now apply renamed_good| |reflexivity].
    intros sid _. cbn [VariadicExample.code f_body fst snd]. rewrite rename_one, Hw, El.
    rewrite find_index_first; [|now apply meant_iff|intros x I; apply meant_false; now apply Fi].
    cbn [assign run_prog]. rewrite Hw, El, change_at. reflexivity.
  - apply (run_acts code sg catching d commands good world_of l s _ [FRename] FRename [[w]; [n]] nd ([w], (n, tt)) l [lit "Failed to find entity '" ++ w ++ lit "'"] _ tt None R);
      try discriminate; [cbn; tauto|apply only_one|repeat constructor|exact G| |reflexivity].
    intros sid _. cbn [VariadicExample.code f_body fst snd]. rewrite rename_one, Hw.
    rewrite find_index_nobody by (intros x I; apply meant_false; now apply Nb).
    cbn [assign run_prog]. rewrite ctx_report, Kp. unfold value_str. cbn [str_loop app lit list_ascii_of_string]. reflexivity.
  - assert (Vn : value_no_nul v) by (apply N; now left).
    apply (run_acts code sg catching d commands good world_of l s _ [FRename] FRename [v; [n]] nd (v, (n, tt)) l [lit "Unknown type of 'entity'"; e1; e2] _ tt None R);
      try discriminate; [cbn; tauto|apply only_one|repeat constructor|exact G| |reflexivity].
    intros sid _. cbn [VariadicExample.code f_body fst snd]. unfold rename. cbn [run_prog].
    apply (proj2 Si v e1 Vn) in C1. apply (proj2 text_implements v e2 Vn) in C2. rewrite C1, C2.
    cbn [run_prog]. rewrite !ctx_report, Kp. reflexivity.
  - apply (run_acts code sg catching d commands good world_of l s _ [FList] FList [] nd tt l [] _ tt None R); try discriminate;
      [cbn; tauto|apply only_one|constructor|exact G| |reflexivity].
    intros sid _. cbn [VariadicExample.code f_body]. unfold list_. cbn [run_prog]. rewrite ctx_line, Hw.
    rewrite (list_run l t) by assumption. rewrite Kp. reflexivity.
  - assert (V' := proj2 (proj1 Si v id) V).
    apply (run_acts code sg catching d commands good world_of l s _ [FAdd] FAdd [v; [n]] nd (id, (n, tt)) (l ++ [Entity id n]) [] _ tt None R);
      try discriminate; [cbn; tauto|apply only_one|apply converts_cons; [exact V'|repeat constructor]| | |reflexivity].
    + intros x I. apply in_app_or in I. destruct I as [I|[<-|[]]]; [now apply G|exact (size_value _ _ V)].
    + intros sid _. cbn [VariadicExample.code f_body fst snd]. unfold add. cbn [run_prog]. rewrite Hw. reflexivity.
Qed.

Lemma lines_total l : good l -> exists t, entity_lines l t.
Proof.
  induction l as [|e l IH]; intros G; [exists []; constructor|]. destruct IH as (t & T); [intros x I; apply G; now right|].
  eexists. constructor; [apply dec_canonical, size_nonneg, G; now left|apply before_nul_c_str|exact T].
Qed.

Lemma acts_total l name pos nd overloads Ps : good l -> (forall v, In v pos -> value_no_nul v) ->
  In (name, overloads) table -> In Ps overloads -> accepted Ps pos ->
  exists l' es ret out, acts l name pos nd l' es ret out.
Proof.
  intros G N J I A. cbn in J. repeat (destruct J as [J|J]; [injection J as <- <-|]); [..|destruct J]; destruct I as [<-|[]].
  - inversion A as [|? v ? ? (x & O) A']; subst. inversion A' as [|? w ? ? (y & O') A'']; subst. inversion A''; subst. clear A A' A''.
    cbn in O'. destruct O' as (n & -> & _). assert (Vn : value_no_nul v) by (apply N; now left).
    destruct (Nat.eq_dec (length v) 1) as [L|L].
    + destruct v as [|s [|]]; try discriminate L. destruct (find_index (meant [s]) l) as [i|] eqn:E.
      * apply find_index_some in E. destruct E as (a & e & b & -> & _ & F & Fa). eexists _, _, _, _.
        eapply acts_rename; [reflexivity|now apply meant_iff|]. intros z Iz. apply meant_false. now apply Fa.
      * eexists _, _, _, _. apply acts_not_found. intros z Iz. apply meant_false. now apply (find_index_none _ _ E).
    + destruct (implements_cases _ _ v Si Vn) as [(z & s & E & _)|(e1 & C1)]; [subst v; elim L; reflexivity|].
      destruct (implements_cases _ _ v text_implements Vn) as [(z & s & E & _)|(e2 & C2)]; [subst v; elim L; reflexivity|].
      eexists _, _, _, _. exact (acts_no_type p nm size_t l nd v n e1 e2 L C1 C2).
  - inversion A; subst. destruct (lines_total l G) as (t & T). eexists _, _, _, _. apply acts_list. exact T.
  - inversion A as [|? v ? ? (x & O) A']; subst. inversion A' as [|? w ? ? (y & O') A'']; subst. inversion A''; subst.
    cbn in O'. destruct O' as (n & -> & _). eexists _, _, _, _. eapply acts_add. exact O.
Qed.

Lemma is_implemented : implemented code (fun _ => None) sg catching d commands table acts never good world_of.
Proof.
  split.
  - reflexivity.
  - exact agreed.
  - cbn. repeat constructor; cbn; intuition discriminate.
  - intros. now apply exec_acts with (l := sc).
  - intros ? ? ? ? ? ? ? [].
  - intros. left. now apply acts_total with (overloads := overloads) (Ps := Ps).
Qed.
End Variadic.

(** * C84 *)

(** The ids that texts add, in order. *)
Inductive additions (C : classes) (number : list bytes -> Z -> Prop) : list bytes -> list Z -> Prop :=
| additions_nil : additions C number [] []
| additions_one : forall line v n nd id lines ids,
    LexerSpec.command C line (inl (SInput (lit "entities.add") [v; [n]] nd)) -> number v id ->
    additions C number lines ids -> additions C number (line :: lines) (id :: ids)
| additions_none : forall line lines ids,
    (forall v n nd id, LexerSpec.command C line (inl (SInput (lit "entities.add") [v; [n]] nd)) -> ~ number v id) ->
    additions C number lines ids -> additions C number (line :: lines) ids.

Section Theorems.
(** The platform, the names of the integer types, the type that std::size_t is, whether char is
    signed, whether exceptions are caught, and how deep commands may nest. *)
Variables (p : platform) (nm : naming) (size_t : ctype).
Variables sg catching : bool.
Variable d : nat.
Hypothesis Us : size_type size_t.

Local Notation table := (table p nm size_t).
Local Notation acts := (acts p nm size_t).
Local Notation means := (means p nm size_t).
Local Notation is_number := (is_number p nm size_t).
Local Notation C := (cfg_classes sg default_cfg).
Local Notation answers := (answers_text table acts C).
Local Notation dialogue := (dialogue table acts C).
Local Notation stuck := (stuck table acts C).
Local Notation session := (VariadicExample.run p nm size_t sg catching d).
Local Notation good := (proper p size_t).
Local Notation I := (is_implemented p nm size_t sg catching d Us).
Local Notation number := (denotes_value (size_kind p nm size_t)).

Lemma begun : exists s, start sg = Done s /\ serves sg commands good (fun l => l) [] s.
Proof. exact (started _ _ sg catching d _ _ _ _ _ _ I [] (fun e (X : In e []) => match X with end)). Qed.

Lemma no_disaster l lines f : ~ disaster table acts never C l lines f.
Proof. intros D. induction D as [? ? ? ? (n & pos & nd & _ & [])|]; assumption. Qed.

Theorem C84_session_iff : forall lines rs l, Forall no_nul lines ->
  (dialogue [] lines l rs <->
   exists s s' xs, start sg = Done s /\ session s lines = Done (s', xs) /\ map reply xs = rs /\ s_world s' = l).
Proof.
  intros lines rs l N. destruct begun as (s & E & R).
  destruct (session_iff _ _ sg catching d _ _ _ _ _ _ I [] s lines l rs R N) as [A B]. split.
  - intros D. destruct A as (s' & xs & H); [now exists l|]. now exists s, s', xs.
  - intros (s0 & s' & xs & E0 & H). rewrite E in E0. injection E0 as <-. destruct B as (l' & D & X); [now exists s', xs|].
    now subst l'.
Qed.

(** No undefined behaviour but that of C01, and no exceptions. *)
Theorem C84_no_fault : forall lines s, Forall no_nul lines -> start sg = Done s ->
  ((exists f, session s lines = Fault f) <-> stuck [] lines).
Proof.
  intros lines s N E. destruct begun as (s0 & E0 & R). rewrite E in E0. injection E0 as <-. split.
  - intros (f & F). destruct (fault_iff _ _ sg catching d _ _ _ _ _ _ I [] s lines f R N) as [_ B].
    destruct (B F) as [D|D]; [elim (no_disaster _ _ _ D)|exact D].
  - intros D. exact (session_stuck _ _ sg catching d _ _ _ _ _ _ I [] lines s D N R).
Qed.

Theorem C84_described : forall lines, Forall no_nul lines ->
  ((exists l rs, dialogue [] lines l rs) \/ stuck [] lines) /\
  (forall l rs l' rs', dialogue [] lines l rs -> dialogue [] lines l' rs' -> rs = rs' /\ l = l').
Proof.
  intros lines N. destruct begun as (s & E & R). split.
  - destruct (total _ _ sg catching d _ _ _ _ _ _ I lines [] s R N) as [H|[(f & H)|H]]; [now left| |now right].
    elim (no_disaster _ _ _ H).
  - exact (proj1 (not_both _ _ sg catching d _ _ _ _ _ _ I [] s lines R N)).
Qed.

(** ** The ids *)

Lemma does_cases l name pos nd l' es ret out : does table acts l name pos nd l' es ret out ->
  acts l name pos nd l' es ret out \/ l' = l /\ es <> [] /\ (forall v n id, name = lit "entities.add" -> pos = [v; [n]] -> ~ number v id).
Proof.
  intros [l1 e1 r1 o1 A|os Ps e1 J K P Ne|os e1 J Nl M|e1 Nn Nt U|En]; [now left|right..];
    (split; [reflexivity|]); (split; [assumption||discriminate|]).
  - intros v n id -> -> Nu. cbn in J. destruct J as [J|[J|[J|[]]]]; try discriminate J. injection J as <-. destruct K as [<-|[]].
    inversion P; subst.
    + match goal with H : problems _ _ _ |- _ => inversion H; subst end.
      * match goal with H : problems [] _ _ |- _ => inversion H; subst end. now elim Ne.
      * match goal with H : p_bad text_param _ _ |- _ => cbn in H; inversion H; subst end; [|now match goal with H : length _ <> 1 |- _ => elim H end].
        match goal with H : [_] = [_] |- _ => injection H as <- end.
        match goal with H : forall x, ~ k_word text_kind _ x |- _ => now elim (H n) end.
    + match goal with H : p_bad (size_param _ _ _) _ _ |- _ => cbn in H; inversion H; subst end.
      * destruct Nu as (w & X & Y). injection X as <-. match goal with H : forall x, ~ k_word _ _ x |- _ => now elim (H id) end.
      * destruct Nu as (w & -> & _). match goal with H : length [_] <> 1 |- _ => now elim H end.
  - intros v n id -> -> _. cbn in J. destruct J as [J|[J|[J|[]]]]; try discriminate J. injection J as <-. apply Nl. now left.
  - intros v n id -> -> _. apply Nt. cbn. tauto.
  - intros v n id -> -> _. discriminate En.
Qed.

Lemma answers_ids l line l' es ret out : answers l line l' es ret out ->
  forall ids, additions C number [line] ids -> map e_id l' = map e_id l ++ ids.
Proof.
  intros A ids Ad. inversion Ad as [|? v n nd id lines ids' K Nu Ad' E1 E2|? lines ids' No Ad' E1 E2]; subst; inversion Ad'; subst.
  - destruct A as [e K'|name pos nd' l' es ret out K' D]; [assert (X := command_det _ _ _ _ _ K K'); discriminate X|].
    assert (X := command_det _ _ _ _ _ K K'). injection X as <- <- <-.
    apply does_cases in D. destruct D as [D|(_ & _ & D)]; [|now elim (D v n id)].
    inversion D; subst. rewrite map_app. cbn [map e_id].
    rewrite (number_unique p nm size_t _ _ _ Nu ltac:(eassumption)). reflexivity.
  - rewrite app_nil_r. destruct A as [e K'|name pos nd' l' es ret out K' D]; [reflexivity|].
    apply does_cases in D. destruct D as [D|(-> & _ & D)]; [|reflexivity].
    destruct D as [nd v n a e b -> M Fi|nd w n Nb|nd v n e1 e2 L C1 C2|nd t T|nd v n id V]; try reflexivity.
    + rewrite !map_app. reflexivity.
    + elim (No v n nd id K' V).
Qed.

Lemma additions_cons line lines ids : additions C number (line :: lines) ids ->
  exists a b, ids = a ++ b /\ additions C number [line] a /\ additions C number lines b.
Proof.
  inversion 1; subst.
  - eexists [_], _. repeat split; [|eassumption]. econstructor; [eassumption|eassumption|constructor].
  - exists [], ids. repeat split; [|assumption]. now apply additions_none; [|constructor].
Qed.

(** The ids are those that were added, in this order, whatever is renamed. *)
Theorem C84_ids : forall lines l rs ids, dialogue [] lines l rs -> additions C number lines ids -> map e_id l = ids.
Proof.
  enough (G : forall l0 lines l rs, dialogue l0 lines l rs -> forall ids, additions C number lines ids ->
    map e_id l = map e_id l0 ++ ids) by (intros lines l rs ids D Ad; exact (G [] lines l rs D ids Ad)).
  intros l0 lines l rs D.
  induction D as [l|l line lines l' es ret out l'' rs A D IH]; intros ids Ad.
  - inversion Ad. now rewrite app_nil_r.
  - apply additions_cons in Ad. destruct Ad as (a & b & -> & Aa & Ab).
    rewrite (IH b Ab), (answers_ids _ _ _ _ _ _ A a Aa), app_assoc. reflexivity.
Qed.

(** ** Names *)

(** A name that is no number renames the first entity called so; there is at most one other result. *)
Theorem C84_by_name : forall l s n nd, ~ is_number [s] -> forall l' es ret out,
  acts l (lit "entities.rename") [[s]; [n]] nd l' es ret out ->
  ret = None /\ out = [] /\
  ((exists a e b, l = a ++ e :: b /\ e_name e = s /\ (forall x, In x a -> e_name x <> s) /\
     l' = a ++ Entity (e_id e) n :: b /\ es = []) \/
   (forall x, In x l -> e_name x <> s) /\ l' = l /\ es = [lit "Failed to find entity '" ++ s ++ lit "'"]).
Proof.
  intros l s n nd Nn l' es ret out A. inversion A; subst; (split; [reflexivity|]); (split; [reflexivity|]).
  - left. exists a, e, b. split; [reflexivity|]. assert (M : means [s] e) by assumption.
    destruct M as [M|[_ M]]; [elim Nn; eexists; exact M|]. injection M as <-. split; [reflexivity|]. split; [|split; reflexivity].
    intros x Ix Ex. match goal with H : forall x, In x a -> ~ _ |- _ => apply (H x Ix) end. right. split; [exact Nn|now rewrite Ex].
  - right. split; [|split; reflexivity]. intros x Ix Ex.
    match goal with H : forall x, In x l' -> ~ _ |- _ => apply (H x Ix) end. right. split; [exact Nn|now rewrite Ex].
  - match goal with H : length [_] <> 1 |- _ => now elim H end.
Qed.

(** A number changes no entity with another id, whatever the entity is called. *)
Theorem C84_number_name : forall l s id w nd l' es ret out j e, number [s] id ->
  acts l (lit "entities.rename") [[s]; w] nd l' es ret out -> nth_error l j = Some e -> e_id e <> id ->
  nth_error l' j = Some e.
Proof.
  intros l s id w nd l' es ret out j e Nu A E Ne. inversion A; subst; try assumption.
  assert (M : means [s] e0) by assumption. destruct M as [M|[M _]]; [|elim M; now exists id].
  assert (X := number_unique p nm size_t _ _ _ M Nu).
  destruct (Nat.lt_trichotomy j (length a)) as [L|[L|L]].
  - rewrite nth_error_app1 in * by exact L. exact E.
  - subst j. rewrite nth_error_app2, Nat.sub_diag in E by lia. cbn in E. injection E as <-. now elim Ne.
  - rewrite nth_error_app2 in * by lia. destruct (j - length a) eqn:J; [lia|]. exact E.
Qed.

(** That every entity can be renamed by its name is false: a name that is a number means an id. *)
Definition renamed_by_name : Prop := forall l e w n nd l' es ret out, In e l ->
  e_name e = w -> acts l (lit "entities.rename") [[w]; [n]] nd l' es ret out -> es = [].
Theorem C84_by_name_refuted : ~ renamed_by_name.
Proof.
  intros H. assert (R : in_range p size_t 7) by (apply (size_range p size_t Us); assert (B := size_max_bounds p size_t Us); lia).
  assert (Nu : number [lit "7"] 7%Z).
  { apply (proj1 (size_implements p nm size_t)). unfold size_ser, int_serializer, arith_serializer. cbn [from_value].
    unfold arithmeticFromString. cbn [length Nat.eqb negb]. cbv beta iota. rewrite (C11_canonical_accepted p size_t (lit "7") 7%Z); [reflexivity| |exact R].
    exact (dec_canonical 7 ltac:(lia)). }
  assert (A : acts [Entity 1 (lit "7")] (lit "entities.rename") [[lit "7"]; [lit "x"]] [] [Entity 1 (lit "7")]
                [lit "Failed to find entity '" ++ lit "7" ++ lit "'"] None []).
  { apply acts_not_found. intros x [<-|[]] [M|[M _]]; [|elim M; now exists 7%Z].
    discriminate (number_unique p nm size_t _ _ _ M Nu). }
  discriminate (H _ (Entity 1 (lit "7")) _ _ _ _ _ _ _ (in_eq _ _) eq_refl A).
Qed.

(** ** Entities with the same id *)

(** [line] renames by name. *)
Definition by_name (line : bytes) : Prop := exists v n nd,
  LexerSpec.command C line (inl (SInput (lit "entities.rename") [v; n] nd)) /\ ~ is_number v.

Lemma shadowed_step l line l' es ret out i j x y : answers l line l' es ret out -> ~ by_name line ->
  i < j -> nth_error l i = Some x -> nth_error l j = Some y -> e_id x = e_id y ->
  (exists x', nth_error l' i = Some x' /\ e_id x' = e_id y) /\ nth_error l' j = Some y.
Proof.
  intros A Nb L Hx Hy E. destruct A as [er K|name pos nd l' es ret out K D]; [split; [now exists x|assumption]|].
  apply does_cases in D. destruct D as [D|(-> & _ & _)]; [|split; [now exists x|assumption]].
  destruct D as [nd v n a e b El M Fi|nd w n Nm|nd v n e1 e2 Le C1 C2|nd t T|nd v n id V]; try (split; [now exists x|assumption]).
  - destruct (number_or_not p nm size_t v) as [(id & Nu)|Nn]; [|elim Nb; now exists v, [n], nd].
    assert (Me : e_id e = id) by (destruct M as [M|[M _]]; [exact (number_unique p nm size_t _ _ _ M Nu)|elim M; now exists id]).
    assert (Lj : j <> length a).
    { intros ->. rewrite El, nth_error_app2, Nat.sub_diag in Hy by lia. cbn in Hy. injection Hy as ->.
      apply (Fi x); [rewrite El, nth_error_app1 in Hx by exact L; now apply nth_error_In in Hx|].
      left. now rewrite E, Me. }
    split.
    + destruct (Nat.lt_trichotomy i (length a)) as [Li|[Li|Li]].
      * exists x. split; [|exact E]. rewrite El in Hx. rewrite nth_error_app1 in * by exact Li. exact Hx.
      * subst i. rewrite El, nth_error_app2, Nat.sub_diag in Hx by lia. cbn in Hx. injection Hx as ->.
        exists (Entity (e_id x) n). split; [|exact E]. rewrite nth_error_app2, Nat.sub_diag by lia. reflexivity.
      * exists x. split; [|exact E]. rewrite El in Hx. rewrite nth_error_app2 in * by lia.
        destruct (i - length a) eqn:J; [lia|]. exact Hx.
    + rewrite El in Hy. destruct (Nat.lt_trichotomy j (length a)) as [Li|[Li|Li]]; [|contradiction|].
      * rewrite nth_error_app1 in * by exact Li. exact Hy.
      * rewrite nth_error_app2 in * by lia. destruct (j - length a) eqn:J; [lia|]. exact Hy.
  - split; [exists x; split; [|exact E]|]; rewrite nth_error_app1; try assumption; apply nth_error_Some; congruence.
Qed.

(** Of entities with the same id only the first can be renamed by number. *)
Theorem C84_shadowed : forall l lines l' rs i j x y, dialogue l lines l' rs ->
  (forall line, In line lines -> ~ by_name line) ->
  i < j -> nth_error l i = Some x -> nth_error l j = Some y -> e_id x = e_id y -> nth_error l' j = Some y.
Proof.
  intros l lines l' rs i j x y D. revert x. induction D as [l|l line lines l' es ret out l'' rs A D IH]; intros x Nb L Hx Hy E; [exact Hy|].
  destruct (shadowed_step _ _ _ _ _ _ _ _ _ _ A (Nb _ (or_introl eq_refl)) L Hx Hy E) as ((x' & Hx' & E') & Hy').
  apply (IH x'); try assumption. intros k Ik. apply Nb. now right.
Qed.

(** ** The listing *)

Definition names_fine (l : list entity) : Prop := forall e, In e l -> no_nul (e_name e).

Lemma answers_names l line l' es ret out : answers l line l' es ret out -> no_nul line -> names_fine l -> names_fine l'.
Proof.
  intros A N F. destruct A as [er K|name pos nd l' es ret out K D]; [exact F|].
  destruct (command_no_nul _ _ _ _ _ K N) as [P _]. apply does_cases in D. destruct D as [D|(-> & _ & _)]; [|exact F].
  destruct D as [nd v n a e b El M Fi|nd w n Nm|nd v n e1 e2 Le C1 C2|nd t T|nd v n id V]; try exact F.
  - intros y Iy. apply in_app_or in Iy. destruct Iy as [Iy|[<-|Iy]].
    + apply F. rewrite El. apply in_or_app. now left.
    + cbn. apply (P [n]); [right; now left|now left].
    + apply F. rewrite El. apply in_or_app. right. now right.
  - intros y Iy. apply in_app_or in Iy. destruct Iy as [Iy|[<-|[]]]; [now apply F|].
    cbn. apply (P [n]); [right; now left|now left].
Qed.

Lemma dialogue_app l a b l'' rs : dialogue l (a ++ b) l'' rs ->
  exists l' r1 r2, dialogue l a l' r1 /\ dialogue l' b l'' r2 /\ rs = r1 ++ r2.
Proof.
  revert l rs. induction a as [|line a IH]; intros l rs D; [exists l, [], rs; split; [constructor|now split]|].
  inversion D as [|? ? ? l' es ret out ? rs' A D']; subst. apply IH in D'. destruct D' as (l1 & r1 & r2 & H1 & H2 & ->).
  exists l1, ((es, ret, out) :: r1), r2. split; [econstructor; eassumption|]. now split.
Qed.

(** The list shows every entity in full, in order. *)
Theorem C84_listing : forall lines l rs, Forall no_nul lines -> dialogue [] (lines ++ [lit "entities.list"]) l rs ->
  exists rs' ts, rs = rs' ++ [([], None, lit "Entities:" ++ nl :: List.concat ts)] /\
    Forall2 (fun e t => exists a, canonical (e_id e) a /\ t = a ++ lit ": " ++ e_name e ++ [nl]) l ts.
Proof.
  intros lines l rs N D. apply dialogue_app in D. destruct D as (l1 & r1 & r2 & D1 & D2 & ->).
  assert (F : names_fine l1).
  { assert (F0 : names_fine []) by intros ? []. revert F0 N. clear D2. induction D1 as [l0|l0 line lines l' es ret out l'' rs A D IH]; intros F0 N; [exact F0|].
    inversion N; subst. apply IH; [|assumption]. eapply answers_names; eassumption. }
  inversion D2 as [|? ? ? l2 es ret out ? rs A D]; subst. inversion D; subst.
  assert (K : LexerSpec.command C (lit "entities.list") (inl (SInput (lit "entities.list") [] []))).
  { apply C07_value_iff_wellformed. destruct sg; now vm_compute. }
  destruct A as [er K'|name pos nd l2 es ret out K' Dd]; [assert (X := command_det _ _ _ _ _ K K'); discriminate X|].
  assert (X := command_det _ _ _ _ _ K K'). injection X as <- <- <-.
  assert (T : l2 = l1 /\ es = [] /\ ret = None /\ exists t, entity_lines l1 t /\ out = lit "Entities:" ++ nl :: t).
  { destruct Dd as [l2 e1 r2 o1 A|os Ps e1 J Ik P Ne|os e1 J Nl M|e1 Nn Nt U|En].
    - inversion A; subst. repeat split. eexists. split; [eassumption|reflexivity].
    - exfalso. cbn in J. destruct J as [J|[J|[J|[]]]]; try discriminate J. injection J as <-. destruct Ik as [<-|[]]. inversion P; subst. now elim Ne.
    - exfalso. cbn in J. destruct J as [J|[J|[J|[]]]]; try discriminate J. injection J as <-. apply Nl. now left.
    - exfalso. apply Nt. cbn. tauto.
    - discriminate En. }
  destruct T as (-> & -> & -> & t & T & ->). exists r1.
  assert (Q : exists ts, t = List.concat ts /\ Forall2 (fun e t => exists a, canonical (e_id e) a /\ t = a ++ lit ": " ++ e_name e ++ [nl]) l1 ts).
  { clear - T F. induction T as [|e l1 a b r Ca Bn T IH]; [exists []; split; [reflexivity|constructor]|].
    destruct IH as (ts & -> & Fs); [intros y Iy; apply F; now right|]. exists ((a ++ lit ": " ++ e_name e ++ [nl]) :: ts). split.
    - assert (No := F e (or_introl eq_refl)). rewrite (before_nul_det _ _ Bn). rewrite <- (before_nul_det _ _ (no_nul_before _ No)).
      cbn [List.concat]. rewrite <- !app_assoc. reflexivity.
    - constructor; [now exists a|exact Fs]. }
  destruct Q as (ts & -> & Fs). exists ts. split; [reflexivity|exact Fs].
Qed.
End Theorems.

(** ** Examples *)

Definition ex_session (l : list string) : outcome (list (list bytes * option bytes * bytes) * list entity) :=
  s <- start true ;;
  r <- VariadicExample.run ex_platform ex_naming CULong true true 3 s (map lit l) ;;
  Done (map reply (snd r), s_world (fst r)).

(** The commands of VariadicExample.cpp:91-98. *)
Example C84_ex_run : ex_session
  ["entities.add 0 entity0"; "entities.add 1 entity1"; "entities.add 2 entity2"; "entities.list";
   "entities.rename 0 player0"; "entities.rename entity1 player1"; "entities.rename 3 player3"; "entities.list"]%string =
  Done ([([], None, []); ([], None, []); ([], None, []);
         ([], None, lit "Entities:" ++ nl :: lit "0: entity0" ++ nl :: lit "1: entity1" ++ nl :: lit "2: entity2" ++ [nl]);
         ([], None, []); ([], None, []);
         ([lit "Failed to find entity '3'"], None, []);
         ([], None, lit "Entities:" ++ nl :: lit "0: player0" ++ nl :: lit "1: player1" ++ nl :: lit "2: entity2" ++ [nl])],
        [Entity 0 (lit "player0"); Entity 1 (lit "player1"); Entity 2 (lit "entity2")]).
Proof. vm_compute. reflexivity. Qed.

Example C84_ex_errors : ex_session
  ["entities.add 1 7"; "entities.rename 7 x"; "entities.rename (a b) x"; "entities.rename () x"; "entities.add x (a b)";
   "entities.rename 1 (a b)"; "entities.add 1"; "entities.rename 99999999999999999999 x"; "entities.rename '' ''"]%string =
  Done ([([], None, []);
         ([lit "Failed to find entity '7'"], None, []);
         ([lit "Unknown type of 'entity'"; lit "Unable to convert 'a b' to type 'unsigned long': Expected 1 subvalues, got 2";
           lit "Unable to convert 'a b' to type 'string': Expected 1 subvalues, got 2"], None, []);
         ([lit "Unknown type of 'entity'"; lit "Unable to convert '' to type 'unsigned long': Expected 1 subvalues, got 0";
           lit "Unable to convert '' to type 'string': Expected 1 subvalues, got 0"], None, []);
         ([lit "Unable to convert 'x' to type 'unsigned long'"; lit "Unable to convert 'a b' to type 'string': Expected 1 subvalues, got 2"], None, []);
         ([lit "Unable to convert 'a b' to type 'string': Expected 1 subvalues, got 2"], None, []);
         ([lit "Wrong number of arguments to 'entities.add': expected 2, got 1"], None, []);
         ([lit "Failed to find entity '99999999999999999999'"], None, []);
         ([lit "Failed to find entity ''"], None, [])],
        [Entity 1 (lit "7")]).
Proof. vm_compute. reflexivity. Qed.

(** Two entities with the same id. *)
Example C84_ex_shadowed : ex_session
  ["entities.add 1 a"; "entities.add 1 a"; "entities.rename 1 b"; "entities.rename 1 c"; "entities.rename a d"]%string =
  Done (repeat ([], None, []) 5, [Entity 1 (lit "c"); Entity 1 (lit "d")]).
Proof. vm_compute. reflexivity. Qed.

Local Notation ex_classes := (cfg_classes true default_cfg).
Local Notation ex_number := (denotes_value (size_kind ex_platform ex_naming CULong)).

Lemma ex_is v (z : Z) : from_value (size_ser ex_platform ex_naming CULong) v = Value z -> ex_number v z.
Proof. apply (proj1 (size_implements ex_platform ex_naming CULong)). Qed.
Lemma ex_command line name pos nd : parse_input true default_cfg line = Done (Value (Input name pos nd)) ->
  LexerSpec.command ex_classes line (inl (SInput name pos nd)).
Proof. intros H. now apply C07_value_iff_wellformed. Qed.
Lemma ex_only line name pos nd i : parse_input true default_cfg line = Done (Value (Input name pos nd)) ->
  LexerSpec.command ex_classes line (inl i) -> i = SInput name pos nd.
Proof. intros H K. apply ex_command in H. assert (X := command_det _ _ _ _ _ K H). now injection X. Qed.

(** A session and the ids it adds. *)
Definition ex_texts : list bytes :=
  map lit ["entities.add 5 a"; "entities.add x b"; "entities.rename a 6"; "entities.add 5 c"; "entities.rename 5 d"]%string.
Example C84_ex_dialogue : exists rs,
  dialogue (table ex_platform ex_naming CULong) (acts ex_platform ex_naming CULong) ex_classes [] ex_texts
    [Entity 5 (lit "d"); Entity 5 (lit "c")] rs.
Proof.
  exists [([], None, []); ([lit "Unable to convert 'x' to type 'unsigned long'"], None, []); ([], None, []); ([], None, []); ([], None, [])].
  apply (C84_session_iff ex_platform ex_naming CULong true true 3 ltac:(now right; left)).
  - unfold ex_texts. cbn [map]. repeat constructor; vm_compute; intuition discriminate.
  - destruct (begun ex_platform ex_naming CULong true true 3 ltac:(now right; left)) as (s & E & _). exists s.
    assert (X : ex_session ["entities.add 5 a"; "entities.add x b"; "entities.rename a 6"; "entities.add 5 c"; "entities.rename 5 d"]%string =
      Done ([([], None, []); ([lit "Unable to convert 'x' to type 'unsigned long'"], None, []); ([], None, []); ([], None, []); ([], None, [])],
        [Entity 5 (lit "d"); Entity 5 (lit "c")])) by (vm_compute; reflexivity).
    unfold ex_session in X. rewrite E in X. cbn [bind] in X. fold ex_texts in X.
    destruct (VariadicExample.run ex_platform ex_naming CULong true true 3 s ex_texts) as [[s' xs]|f]; [|discriminate X].
    cbn [bind fst snd] in X. injection X as X1 X2. exists s', xs. split; [exact E|]. split; [reflexivity|]. split; assumption.
Qed.

Example C84_ex_ids : exists l rs,
  dialogue (table ex_platform ex_naming CULong) (acts ex_platform ex_naming CULong) ex_classes [] ex_texts l rs /\ map e_id l = [5; 5]%Z.
Proof.
  destruct C84_ex_dialogue as (rs & D). exists [Entity 5 (lit "d"); Entity 5 (lit "c")], rs. split; [exact D|].
  apply (C84_ids ex_platform ex_naming CULong true ex_texts _ rs [5; 5]%Z D). unfold ex_texts. cbn [map].
  eapply additions_one; [apply ex_command; now vm_compute|apply ex_is; now vm_compute|].
  apply additions_none.
  { intros v n nd id K Nu. eapply ex_only in K; [|now vm_compute]. injection K as -> -> ->.
    apply (proj1 (size_implements ex_platform ex_naming CULong)) in Nu. vm_compute in Nu. discriminate Nu. }
  apply additions_none.
  { intros v n nd id K Nu. eapply ex_only in K; [|now vm_compute]. discriminate K. }
  eapply additions_one; [apply ex_command; now vm_compute|apply ex_is; now vm_compute|].
  apply additions_none; [|constructor].
  intros v n nd id K Nu. eapply ex_only in K; [|now vm_compute]. discriminate K.
Qed.

(** The hypotheses of C84_by_name and C84_shadowed. *)
Example C84_ex_no_number : ~ is_number ex_platform ex_naming CULong [lit "entity1"].
Proof. intros (x & H). apply (proj1 (size_implements ex_platform ex_naming CULong)) in H. vm_compute in H. discriminate H. Qed.
Example C84_ex_by_number : ~ by_name ex_platform ex_naming CULong true (lit "entities.rename 5 d").
Proof.
  intros (v & n & nd & K & N). eapply ex_only in K; [|now vm_compute]. injection K as -> -> ->. apply N.
  exists 5%Z. apply ex_is. now vm_compute.
Qed.

(** * Assumptions *)
Print Assumptions C84_session_iff.
Print Assumptions C84_no_fault.
Print Assumptions C84_described.
Print Assumptions C84_ids.
Print Assumptions C84_by_name.
Print Assumptions C84_number_name.
Print Assumptions C84_by_name_refuted.
Print Assumptions C84_shadowed.
Print Assumptions C84_listing.
