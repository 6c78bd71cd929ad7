(** C86: the commands of examples/variables. *)
From Coq Require Import Ascii String NArith ZArith QArith Bool PeanoNat Lia List.
Import ListNotations.
From Verif Require Import Util Base LexerSpec StringConv StringConvSpec StringConvProofs SerializerSpec Serializer
  SerializerProofs Lexer LexerMeta LexerProofs LexerMore P_Lexer UMap Exec ExecSpec ExecProofs P_Exec
  P_Serializer FloatConv FloatConvSpec FloatSerializer FloatConvProofs P_Float
  Enums EnumsSpec EnumsProofs EnumsRead P_Enums UserTypes UserTypesSpec UserTypesProofs FloatOps FloatOpsSpec FloatOpsProofs FloatTextSpec P_FloatText
  NamedExample NamedExampleSpec NamedExampleProofs P_NamedExample
  ExampleSession ExampleSpec ExampleHistory ExampleProofs ExampleMore VariablesExample VariablesExampleSpec.

Local Notation length := List.length.
Local Open Scope nat_scope.

(** ** The enumeration *)

Section Enumeration.
Variable p : platform.
Variable nm : naming.
Variable type_name : bytes.
Hypothesis Nt : no_nul type_name.
Local Notation e := (types type_name).

Lemma types_declarable : declarable p e.
Proof.
  assert (K : declarable p (types [])) by (apply declarable_b_ok; destruct p as [[|] [|]]; vm_compute; reflexivity).
  destruct K as (_ & A & B). split; [exact Nt|]. split; [exact A|exact B].
Qed.

Lemma types_implements : implements (enum_serializer p nm e) (enum_kind p e).
Proof. apply enum_implements; [exact types_declarable|reflexivity]. Qed.

Lemma types_values m v : In (m, v) (e_decl e) -> (0 <= v <= 2)%Z.
Proof. intros H. cbn in H. repeat (destruct H as [H|H]; [injection H as _ <-; lia|]); destruct H. Qed.

Lemma types_name v : in_range p CInt v -> called e v (enum_name_text p e v).
Proof.
  intros R. assert (De := types_declarable).
  assert (U : under_range p (e_under e) v) by exact R.
  assert (Co : values_compile p e false = true) by (destruct p as [[|] [|]]; reflexivity).
  assert (Vis : forall w m, first_name e w m -> visible e w m).
  { intros w m Fn. split; [exact Fn|]. assert (B := types_values m w (first_name_In _ _ _ Fn)). lia. }
  assert (V0 : visible e 0 (lit "Type1")) by (apply Vis; eexists [], _; split; [reflexivity|intros m []]).
  destruct (C75_print_from_zero p e v _ De Co V0) as (t & T).
  { intros w m (Fn & _). assert (B := types_values m w (first_name_In _ _ _ Fn)). lia. }
  { exact U. }
  assert (Q := T). unfold toString in Q. unfold enum_name_text. rewrite Q.
  apply (C75_print_iff p e v t De Co U) in T. destruct T as (_ & [V|(N & ->)]); [left; apply V|].
  right. split; [|reflexivity]. intros m J.
  assert (X : exists m', first_name e v m').
  { clear - J. unfold first_name. induction (e_decl e) as [|[m' w] l IH]; [destruct J|].
    destruct (Z.eq_dec w v) as [->|D]; [exists m', [], l; split; [reflexivity|intros ? []]|].
    destruct J as [[= _ E]|J]; [congruence|]. destruct (IH J) as (m1 & a & b & -> & N).
    exists m1, ((m', w) :: a), b. split; [reflexivity|]. intros x [[= _ E]|K]; [congruence|now apply (N x)]. }
  destruct X as (m' & Fn). apply N. exists m'. now apply Vis.
Qed.

(** A text that denotes a value denotes an int. *)
Lemma types_range v z : denotes_value (enum_kind p e) v z -> in_range p CInt z.
Proof.
  intros (s & _ & [N|(_ & Ca)]).
  - inversion N; subst; assumption.
  - destruct Ca as ((m & (Fn & _) & _) & _). assert (B := types_values _ _ (first_name_In _ _ _ Fn)). destruct p as [[|] [|]]; cbv -[Z.le]; lia.
Qed.
End Enumeration.

Section Variables_.
Variables (p : platform) (nm : naming) (uf : bool).
Variable type_name : bytes.
Variables sg catching : bool.
Variable d : nat.
Hypothesis Nt : no_nul type_name.

Local Notation code := (code p nm uf type_name).
Local Notation table := (table p uf type_name).
Local Notation acts := (acts p uf type_name).
Local Notation good := (proper p).
Local Notation types := (types type_name).
Local Notation world_of := (fun sc => World (scale sc) (city sc) (type sc) (god sc)).
Local Notation serves := (serves sg commands good world_of).
Local Notation run := (run_prog sg (nested_exec code sg catching d)).
Local Notation exec := (exec_input code sg catching d).
Local Notation Fi := (float_implements uf).
Local Notation Ti := text_implements.
Local Notation Ei := (types_implements p nm type_name Nt).
Local Notation Bi := (bool_implements p nm (char_signed p)).

Lemma agreed : Forall2 (agree code) commands table.
Proof.
  assert (A := implements_fits _ _ Fi). assert (B := implements_fits _ _ Ti).
  assert (D := implements_fits _ _ Ei). assert (E := implements_fits _ _ Bi).
  repeat apply Forall2_cons; try apply Forall2_nil; (split; [reflexivity|]); (split; [discriminate|]);
    (split; [cbn; repeat constructor; cbn; intuition discriminate|]); cbn [snd];
    repeat first [assumption|apply Forall2_cons|apply Forall2_nil].
Qed.

Lemma one_value T (K : kind (carrier T)) v x : implements T K -> denotes_value K v x -> converts [T] [v] (x, tt).
Proof. intros [A _] H. apply converts_cons; [now apply A|constructor]. Qed.

Local Notation taken := (taken code).
Lemma only_one (f : fn) : taken [f] f.
Proof. exists [], []. split; [reflexivity|intros ? []]. Qed.
Lemma the_first (f g : fn) : taken [f; g] f.
Proof. exists [], [g]. split; [reflexivity|intros ? []]. Qed.
Lemma the_second (f g : fn) : length (f_params (code f)) <> length (f_params (code g)) -> taken [f; g] g.
Proof. intros H. exists [f], []. split; [reflexivity|]. now intros ? [<-|[]]. Qed.

Lemma scale_text x t : value_in binary32 x -> shows millionth x t -> rtext (RValue (float_ser uf)) x = Done (Some t).
Proof. intros H S. apply C87_float_iff in S; [|exact H]. now rewrite <- S. Qed.
Lemma float_in v x : denotes_value (float_kind uf) v x -> value_in binary32 x.
Proof. intros (w & _ & V). exact (value_in_conversion uf w x V). Qed.
Lemma bool_text b : rtext (RValue (bool_ser p)) b = Done (Some (truth b)).
Proof. now destruct b. Qed.
Lemma type_text z t : in_range p CInt z -> called types z t ->
  rtext (RValue (enum_serializer p nm (Type_ type_name))) z = Done (Some t).
Proof.
  intros R H. rewrite (called_det _ _ _ _ H (types_name p type_name Nt z R)). reflexivity.
Qed.

Ltac steps := intros sid _; cbn [VariablesExample.code half nth variable variable_get variable_set toggle toggler setter f_body fst run_prog
  s_world set_world set_scale set_city set_type set_god w_scale w_city w_type w_god].

Lemma exec_acts sc s name pos nd sc' es ret out : serves sc s -> acts sc name pos nd sc' es ret out ->
  exists inp s', exec s (Input name pos nd) = Done (s', inl (Result inp es ret out)) /\ serves sc' s'.
Proof.
  intros R A. assert (Hw := proj1 (proj2 (proj2 R))). assert (G := proj2 (proj2 (proj2 R))). cbn beta in Hw, G.
  assert (Kp : set_world s (world_of sc) = s) by (rewrite <- Hw; now destruct s).
  destruct A as [nd t St|nd v x t V St|nd|nd t|nd t Ct|nd v z t V Ct|nd|nd|name nd v b Hn V|nd a b c Sa Sb Sc].
  - apply (run_acts code sg catching d commands good world_of sc s _ [FScale false; FScale true] (FScale false) [] nd tt sc [] [] (scale sc) (Some t) R);
      try discriminate; [cbn; tauto|apply the_first|constructor|exact G| |exact (scale_text _ t (proj1 G) St)].
    steps. now rewrite Hw, Kp.
  - apply (run_acts code sg catching d commands good world_of sc s _ [FScale false; FScale true] (FScale true) [v] nd (x, tt)
             (Settings x (city sc) (type sc) (god sc)) [] [] x (Some t) R);
      try discriminate; [cbn; tauto|apply the_second; discriminate|exact (one_value _ _ _ _ Fi V)| | |exact (scale_text x t (float_in v x V) St)].
    + split; [exact (float_in v x V)|exact (proj2 G)].
    + steps. now rewrite Hw.
  - apply (run_acts code sg catching d commands good world_of sc s _ [FCity false; FCity true] (FCity false) [] nd tt sc [] [] (city sc) _ R);
      try discriminate; [cbn; tauto|apply the_first|constructor|exact G| |reflexivity].
    steps. now rewrite Hw, Kp.
  - apply (run_acts code sg catching d commands good world_of sc s _ [FCity false; FCity true] (FCity true) [[t]] nd (t, tt)
             (Settings (scale sc) t (type sc) (god sc)) [] [] t (Some t) R);
      try discriminate; [cbn; tauto|apply the_second; discriminate|repeat constructor|exact G| |reflexivity].
    steps. now rewrite Hw.
  - apply (run_acts code sg catching d commands good world_of sc s _ [FType false; FType true] (FType false) [] nd tt sc [] [] (type sc) (Some t) R);
      try discriminate; [cbn; tauto|apply the_first|constructor|exact G| |exact (type_text _ t (proj2 G) Ct)].
    steps. now rewrite Hw, Kp.
  - assert (Rz := types_range p type_name v z V).
    apply (run_acts code sg catching d commands good world_of sc s _ [FType false; FType true] (FType true) [v] nd (z, tt)
             (Settings (scale sc) (city sc) z (god sc)) [] [] z (Some t) R);
      try discriminate; [cbn; tauto|apply the_second; discriminate|exact (one_value _ _ _ _ Ei V)|exact (conj (proj1 G) Rz)| |exact (type_text _ t Rz Ct)].
    steps. now rewrite Hw.
  - apply (run_acts code sg catching d commands good world_of sc s _ [FGodVar false; FGodVar true] (FGodVar false) [] nd tt sc [] [] (god sc) _ R);
      try discriminate; [cbn; tauto|apply the_first|constructor|exact G| |apply bool_text].
    steps. now rewrite Hw, Kp.
  - apply (run_acts code sg catching d commands good world_of sc s _ [FToggle false; FToggle true] (FToggle false) [] nd tt
             (Settings (scale sc) (city sc) (type sc) (negb (god sc))) [] [] (negb (god sc)) _ R);
      try discriminate; [cbn; tauto|apply the_first|constructor|exact G| |apply bool_text].
    steps. now rewrite Hw.
  - destruct Hn as [-> | ->].
    + apply (run_acts code sg catching d commands good world_of sc s _ [FGodVar false; FGodVar true] (FGodVar true) [v] nd (b, tt)
               (Settings (scale sc) (city sc) (type sc) b) [] [] b _ R);
        try discriminate; [cbn; tauto|apply the_second; discriminate|exact (one_value _ _ _ _ Bi V)|exact G| |apply bool_text].
      steps. now rewrite Hw.
    + apply (run_acts code sg catching d commands good world_of sc s _ [FToggle false; FToggle true] (FToggle true) [v] nd (b, tt)
               (Settings (scale sc) (city sc) (type sc) b) [] [] b _ R);
        try discriminate; [cbn; tauto|apply the_second; discriminate|exact (one_value _ _ _ _ Bi V)|exact G| |apply bool_text].
      steps. now rewrite Hw.
  - apply (run_acts code sg catching d commands good world_of sc s _ [FPrint] FPrint [] nd tt sc [] _ tt None R);
      try discriminate; [cbn; tauto|apply only_one|constructor|exact G| |reflexivity].
    intros sid _. cbn [VariablesExample.code f_body]. unfold print_variables. cbn [run_prog]. rewrite ctx_line, Hw, Kp.
    cbn [w_scale w_city w_type]. apply shows_fixed_iff in Sa; [|exact (proj1 G)]. rewrite Sa, (before_nul_det _ _ Sb).
    rewrite (called_det _ _ _ _ Sc (types_name p type_name Nt _ (proj2 G))).
    unfold nl, newline. rewrite <- !app_assoc. reflexivity.
Qed.

Lemma accepted_nil pos : accepted [] pos -> pos = [].
Proof. now inversion 1. Qed.
Lemma accepted_one P pos : accepted [P] pos -> exists v x, pos = [v] /\ p_ok P v x.
Proof. intros H. inversion H as [|? v ? ? (x & O) H']; subst. inversion H'; subst. now exists v, x. Qed.

Lemma acts_total sc name pos nd overloads Ps : good sc -> In (name, overloads) table -> In Ps overloads -> accepted Ps pos ->
  exists sc' es ret out, acts sc name pos nd sc' es ret out.
Proof.
  intros G J K A. assert (Cn := types_name p type_name Nt).
  cbn in J. repeat (destruct J as [J|J]; [injection J as <- <-|]); [..|destruct J].
  - destruct K as [<-|[<-|[]]].
    + apply accepted_nil in A. subst pos. eexists _, _, _, _. apply acts_scale, C87_float_iff; [apply G|reflexivity].
    + apply accepted_one in A. destruct A as (v & x & -> & V). eexists _, _, _, _. eapply acts_set_scale; [exact V|]. apply C87_float_iff; [exact (float_in v x V)|reflexivity].
  - destruct K as [<-|[<-|[]]].
    + apply accepted_nil in A. subst pos. eexists _, _, _, _. apply acts_city.
    + apply accepted_one in A. destruct A as (v & x & -> & (s & -> & _)). eexists _, _, _, _. eapply acts_set_city.
  - destruct K as [<-|[<-|[]]].
    + apply accepted_nil in A. subst pos. eexists _, _, _, _. apply acts_type, Cn, G.
    + apply accepted_one in A. destruct A as (v & z & -> & V). cbn in z, V. eexists _, _, _, _.
      eapply acts_set_type; [exact V|]. apply Cn. exact (types_range p type_name v z V).
  - destruct K as [<-|[<-|[]]].
    + apply accepted_nil in A. subst pos. eexists _, _, _, _. apply acts_god.
    + apply accepted_one in A. destruct A as (v & x & -> & V). eexists _, _, _, _. eapply acts_set_god; [now left|exact V].
  - destruct K as [<-|[<-|[]]].
    + apply accepted_nil in A. subst pos. eexists _, _, _, _. apply acts_toggle.
    + apply accepted_one in A. destruct A as (v & x & -> & V). eexists _, _, _, _. eapply acts_set_god; [now right|exact V].
  - destruct K as [<-|[]]. apply accepted_nil in A. subst pos. eexists _, _, _, _. eapply acts_print; [|apply before_nul_c_str|apply Cn, G].
    apply shows_fixed_iff; [apply G|reflexivity].
Qed.

Lemma is_implemented : implemented code (fun _ => None) sg catching d commands table acts never good world_of.
Proof.
  split.
  - reflexivity.
  - exact agreed.
  - cbn. repeat constructor; cbn; intuition discriminate.
  - intros. now apply exec_acts with (sc := sc).
  - intros ? ? ? ? ? ? ? [].
  - intros. left. now apply acts_total with (overloads := overloads) (Ps := Ps).
Qed.

Lemma first_good : good first_settings.
Proof. split; [repeat split; cbn; lia|]. destruct p as [[|] [|]]; cbv -[Z.le]; lia. Qed.
End Variables_.

(** * C86 *)

Section Theorems.
(** The platform, the names of the integer types, what strtof makes of tiny values, the name of the
    enumeration, whether char is signed, whether exceptions are caught, and how deep commands may
    nest. *)
Variables (p : platform) (nm : naming) (uf : bool).
Variable type_name : bytes.
Variables sg catching : bool.
Variable d : nat.
Hypothesis Nt : no_nul type_name.

Local Notation table := (table p uf type_name).
Local Notation acts := (acts p uf type_name).
Local Notation types := (types type_name).
Local Notation C := (cfg_classes sg default_cfg).
Local Notation answers := (answers_text table acts C).
Local Notation dialogue := (dialogue table acts C).
Local Notation stuck := (stuck table acts C).
Local Notation session := (VariablesExample.run p nm uf type_name sg catching d).
Local Notation I := (is_implemented p nm uf type_name sg catching d Nt).

Lemma begun : exists s, start sg = Done s /\
  serves sg commands (proper p) (fun sc => World (scale sc) (city sc) (type sc) (god sc)) first_settings s.
Proof. exact (started _ _ sg catching d _ _ _ _ _ _ I first_settings (first_good p)). Qed.

Lemma no_disaster sc lines f : ~ disaster table acts never C sc lines f.
Proof. intros D. induction D as [? ? ? ? (n & pos & nd & _ & [])|]; assumption. Qed.

Theorem C86_session_iff : forall lines rs sc, Forall no_nul lines ->
  (dialogue first_settings lines sc rs <->
   exists s s' xs, start sg = Done s /\ session s lines = Done (s', xs) /\ map reply xs = rs /\
     s_world s' = World (scale sc) (city sc) (type sc) (god sc)).
Proof.
  intros lines rs sc N. destruct begun as (s & E & R).
  destruct (session_iff _ _ sg catching d _ _ _ _ _ _ I first_settings s lines
              (World (scale sc) (city sc) (type sc) (god sc)) rs R N) as [A B]. split.
  - intros D. destruct A as (s' & xs & H); [now exists sc|]. now exists s, s', xs.
  - intros (s0 & s' & xs & E0 & H). rewrite E in E0. injection E0 as <-. destruct B as (sc' & D & X); [now exists s', xs|].
    destruct sc, sc'. cbn in X. injection X as <- <- <- <-. exact D.
Qed.

(** No undefined behaviour but that of C01, and no exceptions. *)
Theorem C86_no_fault : forall lines s, Forall no_nul lines -> start sg = Done s ->
  ((exists f, session s lines = Fault f) <-> stuck first_settings lines).
Proof.
  intros lines s N E. destruct begun as (s0 & E0 & R). rewrite E in E0. injection E0 as <-. split.
  - intros (f & F). destruct (fault_iff _ _ sg catching d _ _ _ _ _ _ I first_settings s lines f R N) as [_ B].
    destruct (B F) as [D|D]; [elim (no_disaster _ _ _ D)|exact D].
  - intros D. exact (session_stuck _ _ sg catching d _ _ _ _ _ _ I first_settings lines s D N R).
Qed.

Theorem C86_described : forall lines, Forall no_nul lines ->
  ((exists sc rs, dialogue first_settings lines sc rs) \/ stuck first_settings lines) /\
  (forall sc rs sc' rs', dialogue first_settings lines sc rs -> dialogue first_settings lines sc' rs' -> rs = rs' /\ sc = sc').
Proof.
  intros lines N. destruct begun as (s & E & R). split.
  - destruct (total _ _ sg catching d _ _ _ _ _ _ I lines first_settings s R N) as [H|[(f & H)|H]]; [now left| |now right].
    elim (no_disaster _ _ _ H).
  - intros sc rs sc' rs' H H'.
    destruct (proj1 (not_both _ _ sg catching d _ _ _ _ _ _ I first_settings s lines R N) _ _ _ _ H H') as [-> X].
    split; [reflexivity|]. destruct sc, sc'. cbn in X. now injection X as -> -> -> ->.
Qed.

(** ** Four independent variables *)

(** What changes them. *)
Definition assigns {A} (name : bytes) (K : kind A) (n : bytes) (pos : list (list bytes)) (_ b : A) : Prop :=
  n = name /\ exists v, pos = [v] /\ denotes_value K v b.
Definition moves_god (n : bytes) (pos : list (list bytes)) (a b : bool) : Prop :=
  n = lit "god_toggle" /\ pos = [] /\ b = negb a \/
  assigns (lit "god_var") bool_kind n pos a b \/ assigns (lit "god_toggle") bool_kind n pos a b.
Local Notation moves_scale := (assigns (lit "time_scale") (float_kind uf)).
Local Notation moves_city := (assigns (lit "city") text_kind).
Local Notation moves_type := (assigns (lit "type") (enum_kind p types)).

Lemma table_fine : well_formed table.
Proof.
  split; [|split].
  - cbn. repeat constructor; cbn; intuition discriminate.
  - cbn. intuition discriminate.
  - repeat apply Forall_cons; try apply Forall_nil; cbn [snd]; (split; [cbn; repeat constructor; cbn; intuition discriminate|]);
      repeat constructor; apply single_exclusive.
Qed.

Lemma assigns_fit {A} name (K : kind A) n pos a b : In (name, [[]; [single K]]) table -> assigns name K n pos a b -> fitting table n pos.
Proof.
  intros J (-> & v & -> & V). exists [[]; [single K]], [single K]. split; [exact J|]. split; [right; now left|].
  constructor; [now exists b|constructor].
Qed.
Lemma god_fit n pos a b : moves_god n pos a b -> fitting table n pos.
Proof.
  intros [(-> & -> & _)|[H|H]].
  - exists [[]; [single bool_kind]], []. split; [cbn; tauto|]. split; [now left|constructor].
  - revert H. apply assigns_fit. cbn. tauto.
  - revert H. apply assigns_fit. cbn. tauto.
Qed.

Ltac part := intros sc0 name pos nd sc1 es ret out A; destruct A; cbn [scale city type god];
  first [left; split; [reflexivity|eexists; split; [reflexivity|eassumption]]
        |left; split; [reflexivity|eexists; split; [reflexivity|eexists; split; reflexivity]]
        |right; split; [reflexivity|intros b' (En & v' & Ep & _); first [discriminate En|discriminate Ep|
           match goal with H : _ \/ _ |- _ => destruct H as [H|H]; rewrite H in En; discriminate En end]]].

(** Every variable has the value that was last assigned to it, and god_toggle negates. *)
Theorem C86_variables : forall lines sc rs, dialogue first_settings lines sc rs ->
  history C moves_scale (scale first_settings) lines (scale sc) /\
  history C moves_city (city first_settings) lines (city sc) /\
  history C moves_type (type first_settings) lines (type sc) /\
  history C moves_god (god first_settings) lines (god sc).
Proof.
  intros lines sc rs D. split; [|split; [|split]].
  - apply (fun A B => dialogue_history table acts sg table_fine scale moves_scale A B first_settings lines sc rs D); [|part].
    intros n pos a b. apply assigns_fit. cbn. tauto.
  - apply (fun A B => dialogue_history table acts sg table_fine city moves_city A B first_settings lines sc rs D); [|part].
    intros n pos a b. apply assigns_fit. cbn. tauto.
  - apply (fun A B => dialogue_history table acts sg table_fine type moves_type A B first_settings lines sc rs D); [|part].
    intros n pos a b. apply assigns_fit. cbn. tauto.
  - apply (fun A B => dialogue_history table acts sg table_fine god moves_god A B first_settings lines sc rs D); [exact god_fit|].
    intros sc0 name pos nd sc' es ret out A. destruct A; cbn [god].
    8: { left. left. auto. }
    8: { left. right. match goal with H : _ \/ _ |- _ => destruct H as [-> | ->] end; [left|right]; (split; [reflexivity|]); now exists v. }
    all: right; split; [reflexivity|]; intros b' [(En & Ep & _)|[(En & v' & Ep & _)|(En & v' & Ep & _)]]; discriminate.
Qed.

Lemma assigns_det {T} {A} name (K : kind A) (f : T) n pos a b b' :
  (forall v x y, denotes_value K v x -> denotes_value K v y -> x = y) -> assigns name K n pos a b -> assigns name K n pos a b' -> b = b'.
Proof. intros U (_ & v & -> & V) (_ & w & E & W). injection E as <-. exact (U v b b' V W). Qed.
Lemma implements_unique T (K : kind (carrier T)) : implements T K -> forall v x y, denotes_value K v x -> denotes_value K v y -> x = y.
Proof. intros [A _] v x y X Y. apply A in X, Y. rewrite X in Y. now injection Y. Qed.

(** These values are determined by the texts. *)
Theorem C86_unique : forall lines,
  (forall a x y, history C moves_scale a lines x -> history C moves_scale a lines y -> x = y) /\
  (forall a x y, history C moves_city a lines x -> history C moves_city a lines y -> x = y) /\
  (forall a x y, history C moves_type a lines x -> history C moves_type a lines y -> x = y) /\
  (forall a x y, history C moves_god a lines x -> history C moves_god a lines y -> x = y).
Proof.
  intros lines. split; [|split; [|split]]; intros a x y; apply history_unique.
  - intros n pos a' b b'. apply (assigns_det _ _ tt). exact (implements_unique _ _ (float_implements uf)).
  - intros n pos a' b b'. apply (assigns_det _ _ tt). exact (implements_unique _ _ text_implements).
  - intros n pos a' b b'. apply (assigns_det _ _ tt). exact (implements_unique _ _ (types_implements p nm type_name Nt)).
  - assert (U := implements_unique _ _ (bool_implements p nm (char_signed p))).
    intros n pos a' b b' H H'.
    destruct H as [(-> & -> & ->)|[(-> & v & -> & V)|(-> & v & -> & V)]], H' as [(En & Ep & ->)|[(En & w & Ep & W)|(En & w & Ep & W)]];
      try discriminate; try reflexivity; injection Ep as <-; exact (U v b b' V W).
Qed.

(** ** Names of types *)

Lemma same_letter_letter c m : same_letter c m -> letter m -> letter c.
Proof. intros [x|x y H E|x y H E] L; [exact L|left; exact H|right; left; exact H]. Qed.
Lemma same_letter_digit c m : same_letter c m -> 48 <= nat_of_ascii m <= 57 -> c = m.
Proof. intros [x|x y H E|x y H E] L; [reflexivity|lia..]. Qed.
Lemma same_word_identifier s m : same_word s m -> identifier m -> identifier s.
Proof.
  intros W (c & r & -> & L & F). inversion W as [|x y l l' S W']; subst. exists x, l. split; [reflexivity|].
  split; [exact (same_letter_letter _ _ S L)|]. clear -W' F. induction W' as [|x y l l' S W IH]; [constructor|].
  inversion F as [|? ? D F']; subst. constructor; [|now apply IH]. destruct D as [D|D]; [left; exact (same_letter_letter _ _ S D)|].
  right. now rewrite (same_letter_digit _ _ S D).
Qed.

Lemma type_first m z : In (m, z) (e_decl types) -> first_name types z m.
Proof.
  intros J. cbn in J. repeat (destruct J as [J|J]; [injection J as <- <-|]); [..|destruct J].
  - exists [], [(lit "Type2", 1%Z); (lit "Type3", 2%Z)]. split; [reflexivity|intros m' []].
  - exists [(lit "Type1", 0%Z)], [(lit "Type3", 2%Z)]. split; [reflexivity|]. cbn. intuition discriminate.
  - exists [(lit "Type1", 0%Z); (lit "Type2", 1%Z)], []. split; [reflexivity|]. cbn. intuition discriminate.
Qed.

(** The names end in different digits. *)
Lemma type_word m z : In (m, z) (e_decl types) -> exists c, m = lit "Type" ++ [c] /\ Z.of_nat (nat_of_ascii c) = (z + 49)%Z.
Proof.
  intros J. cbn in J. repeat (destruct J as [J|J]; [injection J as <- <-; eexists; split; [reflexivity|reflexivity]|]). destruct J.
Qed.
Lemma type_word_unique s m z m' z' : In (m, z) (e_decl types) -> In (m', z') (e_decl types) ->
  same_word s m -> same_word s m' -> z = z'.
Proof.
  intros J J' W W'. assert (B := types_values type_name m z J). assert (B' := types_values type_name m' z' J').
  destruct (type_word _ _ J) as (c & -> & E), (type_word _ _ J') as (c' & -> & E').
  apply Forall2_app_inv_r in W, W'. destruct W as (a & b & W1 & W2 & ->), W' as (a' & b' & W1' & W2' & X).
  inversion W2 as [|x ? ? ? S N]; subst. inversion N; subst. inversion W2' as [|x' ? ? ? S' N']; subst. inversion N'; subst.
  apply app_inj_tail in X. destruct X as [_ <-].
  apply same_letter_digit in S, S'; [|lia|lia]. subst. lia.
Qed.

(** The name of a type, in upper or lower case, sets it, and the answer is the name as declared. *)
Theorem C86_type_names : forall sc nd s m z, In (m, z) (e_decl types) -> same_word s m ->
  acts sc (lit "type") [[s]] nd (Settings (scale sc) (city sc) z (god sc)) [] (Some m) [].
Proof.
  intros sc nd s m z J W. assert (Fn := type_first m z J). assert (B := types_values type_name m z J).
  apply acts_set_type; [|now left]. exists s. split; [reflexivity|]. right. split.
  - intros (x & N). revert N. apply identifier_no_integer.
    apply (same_word_identifier s m W). exact (proj1 (proj1 (proj2 (types_declarable p type_name Nt)) m z J)).
  - split; [exists m; split; [split; [exact Fn|lia]|exact W]|].
    intros w m' (V & _) W'. apply first_name_In in V. rewrite (type_word_unique s m z m' w J V W W'). lia.
Qed.

(** So does any int, which need not be one of the types; its answer is then the empty text. *)
Theorem C86_type_numbers : forall sc nd s z, denotes s z -> in_range p CInt z ->
  exists t, acts sc (lit "type") [[s]] nd (Settings (scale sc) (city sc) z (god sc)) [] (Some t) [] /\
    ((0 <= z <= 2)%Z /\ In (t, z) (e_decl types) \/ ~ (0 <= z <= 2)%Z /\ t = []).
Proof.
  intros sc nd s z D R. exists (enum_name_text p types z). assert (Cn := types_name p type_name Nt z R). split.
  - apply acts_set_type; [|exact Cn]. exists s. split; [reflexivity|]. left. now constructor.
  - destruct Cn as [Fn|[No Et]].
    + left. apply first_name_In in Fn. split; [exact (types_values _ _ _ Fn)|exact Fn].
    + right. split; [|exact Et]. intros B. cbn in No.
      assert (z = 0 \/ z = 1 \/ z = 2)%Z as [-> |[-> | ->]] by lia; eapply No; eauto.
Qed.

(** That type is always one of the three is false. *)
Theorem C86_declared_refuted : exists lines sc rs, dialogue first_settings lines sc rs /\ forall m, ~ In (m, type sc) (e_decl types).
Proof.
  assert (K : LexerSpec.command C (lit "type 7") (inl (SInput (lit "type") [[lit "7"]] []))).
  { apply C07_value_iff_wellformed. destruct sg; now vm_compute. }
  destruct (C86_type_numbers first_settings [] (lit "7") 7) as (t & A & _).
  { apply canonical_denotes. exact (dec_canonical 7 ltac:(lia)). }
  { destruct p as [[|] [|]]; cbv -[Z.le]; lia. }
  eexists [lit "type 7"], _, _. split; [econstructor; [eapply answers_command; [exact K|apply does_acts; exact A]|constructor]|].
  cbn. intuition discriminate.
Qed.

(** ** The toggle *)

Lemma answers_acts sc line name pos nd sc' es ret out : LexerSpec.command C line (inl (SInput name pos nd)) ->
  fitting table name pos -> answers sc line sc' es ret out -> acts sc name pos nd sc' es ret out.
Proof.
  intros K F A. destruct A as [e K'|name' pos' nd' sc' es ret out K' D]; [discriminate (command_det _ _ _ _ _ K K')|].
  assert (X := command_det _ _ _ _ _ K K'). injection X as <- <- <-.
  destruct (does_cases table acts table_fine _ _ _ _ _ _ _ _ D) as [H|(_ & _ & _ & _ & H)]; [exact H|contradiction].
Qed.

Theorem C86_toggles : forall n sc sc' rs, dialogue sc (repeat (lit "god_toggle") n) sc' rs ->
  sc' = Settings (scale sc) (city sc) (type sc) (xorb (god sc) (Nat.odd n)) /\
  rs = map (fun i => ([], Some (truth (xorb (god sc) (Nat.odd i))), [])) (seq 1 n).
Proof.
  assert (K : LexerSpec.command C (lit "god_toggle") (inl (SInput (lit "god_toggle") [] []))).
  { apply C07_value_iff_wellformed. destruct sg; now vm_compute. }
  assert (F : fitting table (lit "god_toggle") []).
  { exists [[]; [single bool_kind]], []. split; [cbn; tauto|]. split; [now left|constructor]. }
  induction n as [|n IH]; intros sc sc' rs D.
  - inversion D; subst. split; [|reflexivity]. rewrite xorb_false_r. now destruct sc'.
  - cbn [repeat] in D. inversion D as [|? ? ? sc1 es ret out ? rs' A D' E1]; subst.
    apply (answers_acts _ _ _ _ _ _ _ _ _ K F) in A.
    assert (X : sc1 = Settings (scale sc) (city sc) (type sc) (negb (god sc)) /\ es = [] /\ ret = Some (truth (negb (god sc))) /\ out = []).
    { inversion A; subst; auto. }
    destruct X as (-> & -> & -> & ->). apply IH in D'. cbn [scale city type god] in D'. destruct D' as [-> ->].
    assert (O : forall i, xorb (negb (god sc)) (Nat.odd i) = xorb (god sc) (Nat.odd (S i))).
    { intros i. rewrite Nat.odd_succ, <- Nat.negb_odd. now destruct (god sc), (Nat.odd i). }
    split; [now rewrite O|]. cbn [seq map]. apply f_equal2; [now destruct (god sc)|].
    rewrite <- (seq_shift n 1), map_map. apply map_ext. intros i. now rewrite O.
Qed.
End Theorems.

(** ** Examples *)

Definition ex_session (l : list string) : outcome (list (list bytes * option bytes * bytes) * world) :=
  s <- start true ;;
  r <- VariablesExample.run ex_platform ex_naming true (lit "Type") true true 3 s (map lit l) ;;
  Done (map reply (snd r), s_world (fst r)).

(** The commands of VariablesExample.cpp:61-83. *)
Example C86_ex_run : ex_session
  ["time_scale"; "city"; "type"; "print_variables"; "time_scale 2.0"; "city Berlin"; "type Type3"; "print_variables";
   "time_scale 2.0 3.0"; "city Porto Athens"; "type UnknownType"; "print_variables";
   "god_var"; "god_toggle"; "god_toggle false"; "god_toggle 1"]%string =
  Done ([([], Some (lit "1"), []); ([], Some (lit "Moscow"), []); ([], Some (lit "Type2"), []);
         ([], None, lit "Time scale: 1.000000, city: Moscow, type: Type2" ++ [nl]);
         ([], Some (lit "2"), []); ([], Some (lit "Berlin"), []); ([], Some (lit "Type3"), []);
         ([], None, lit "Time scale: 2.000000, city: Berlin, type: Type3" ++ [nl]);
         ([lit "Wrong number of arguments to 'time_scale': expected 0 or 1, got 2"], None, []);
         ([lit "Wrong number of arguments to 'city': expected 0 or 1, got 2"], None, []);
         ([lit "Unable to convert 'UnknownType' to type 'Type': Possible values are ['Type1', 'Type2', 'Type3']"], None, []);
         ([], None, lit "Time scale: 2.000000, city: Berlin, type: Type3" ++ [nl]);
         ([], Some (lit "false"), []); ([], Some (lit "true"), []); ([], Some (lit "false"), []); ([], Some (lit "true"), [])],
        World (Fin false (2 ^ 23) (-22)) (lit "Berlin") 2 true).
Proof. vm_compute. reflexivity. Qed.

Example C86_ex_more : ex_session
  ["type tYPE1"; "type 7"; "type -1"; "type 2147483648"; "print_variables"; "time_scale (1 2)"; "time_scale 1e39"; "city ''";
   "god_toggle yes"; "god_var TRUE"; "god_toggle"; "godtoggle"; "print_variables 1"]%string =
  Done ([([], Some (lit "Type1"), []); ([], Some [], []); ([], Some [], []);
         ([lit "Unable to convert '2147483648' to type 'Type': Possible values are ['Type1', 'Type2', 'Type3']"], None, []);
         ([], None, lit "Time scale: 1.000000, city: Moscow, type: " ++ [nl]);
         ([lit "Unable to convert '1 2' to type 'float': Expected 1 subvalues, got 2"], None, []);
         ([lit "Unable to convert '1e39' to type 'float'"], None, []);
         ([], Some [], []);
         ([lit "Unable to convert 'yes' to type 'bool'"], None, []);
         ([], Some (lit "true"), []); ([], Some (lit "false"), []);
         ([lit "No function 'godtoggle' is registered"], None, []);
         ([lit "Wrong number of arguments to 'print_variables': expected 0, got 1"], None, [])],
        World (Fin false (2 ^ 23) (-23)) [] (-1) false).
Proof. vm_compute. reflexivity. Qed.

Lemma ex_done l r w s : ex_session l = Done (r, w) -> start true = Done s ->
  exists s' xs, VariablesExample.run ex_platform ex_naming true (lit "Type") true true 3 s (map lit l) = Done (s', xs) /\
    map reply xs = r /\ s_world s' = w.
Proof.
  intros X E. unfold ex_session in X. rewrite E in X. cbn [bind] in X.
  destruct (VariablesExample.run ex_platform ex_naming true (lit "Type") true true 3 s (map lit l)) as [[s' xs]|f]; [|discriminate X].
  cbn [bind fst snd] in X. injection X as <- <-. clear E. exists s', xs. split; [reflexivity|split; reflexivity].
Qed.

Local Notation ex_classes := (cfg_classes true default_cfg).
Lemma ex_command line name pos nd : parse_input true default_cfg line = Done (Value (Input name pos nd)) ->
  LexerSpec.command ex_classes line (inl (SInput name pos nd)).
Proof. intros H. now apply C07_value_iff_wellformed. Qed.

(** A dialogue with it, and how its variables develop. *)
Definition ex_texts : list bytes := map lit ["city Berlin"; "type TYPE3"; "city a b"; "god_toggle"; "time_scale x"]%string.
Definition ex_end : settings := Settings (Fin false (2 ^ 23) (-23)) (lit "Berlin") 2 true.
Local Notation ex_dialogue := (dialogue (table ex_platform true (lit "Type")) (acts ex_platform true (lit "Type")) ex_classes).
Lemma ex_no_nul : no_nul (lit "Type").
Proof. vm_compute. intuition discriminate. Qed.

Definition ex_replies : list (list bytes * option bytes * bytes) :=
  [([], Some (lit "Berlin"), []); ([], Some (lit "Type3"), []);
   ([lit "Wrong number of arguments to 'city': expected 0 or 1, got 2"], None, []);
   ([], Some (lit "true"), []); ([lit "Unable to convert 'x' to type 'float'"], None, [])].
Lemma ex_computed : ex_session ["city Berlin"; "type TYPE3"; "city a b"; "god_toggle"; "time_scale x"]%string =
  Done (ex_replies, World (scale ex_end) (city ex_end) (type ex_end) (god ex_end)).
Proof. vm_compute. reflexivity. Qed.
Example C86_ex_dialogue : ex_dialogue first_settings ex_texts ex_end ex_replies.
Proof.
  apply (C86_session_iff ex_platform ex_naming true (lit "Type") true true 3 ex_no_nul).
  - unfold ex_texts. cbn [map]. repeat constructor; vm_compute; intuition discriminate.
  - destruct (begun ex_platform ex_naming true (lit "Type") true true 3 ex_no_nul) as (s & E & _). exists s.
    destruct (ex_done _ _ _ s ex_computed E) as (s' & xs & H). exists s', xs. split; [exact E|exact H].
Qed.

(** The only value that the city can have after these texts. *)
Example C86_ex_city : forall b, history ex_classes (assigns (lit "city") text_kind) (lit "Moscow") ex_texts b -> b = lit "Berlin".
Proof.
  intros b H. assert (D := C86_ex_dialogue).
  destruct (C86_variables ex_platform true (lit "Type") true ex_texts ex_end _ D) as (_ & Hc & _).
  destruct (C86_unique ex_platform ex_naming true (lit "Type") true ex_no_nul ex_texts) as (_ & U & _).
  exact (U _ _ _ H Hc).
Qed.

Example C86_ex_type : acts ex_platform true (lit "Type") first_settings (lit "type") [[lit "tYpE3"]] []
  (Settings (Fin false (2 ^ 23) (-23)) (lit "Moscow") 2 false) [] (Some (lit "Type3")) [].
Proof.
  refine (C86_type_names ex_platform true (lit "Type") ex_no_nul first_settings [] (lit "tYpE3") (lit "Type3") 2 _ _).
  - cbn. tauto.
  - repeat (apply Forall2_cons; [first [exact (same_refl _)|
      apply same_upper; [split; apply Nat.leb_le; reflexivity|reflexivity]|apply same_lower; [split; apply Nat.leb_le; reflexivity|reflexivity]]|]).
    apply Forall2_nil.
Qed.
Example C86_ex_number : denotes (lit "12") 12%Z /\ in_range ex_platform CInt 12.
Proof. split; [apply canonical_denotes; exact (dec_canonical 12 ltac:(lia))|cbv -[Z.le]; lia]. Qed.

Example C86_ex_toggles : exists sc rs, ex_dialogue first_settings (repeat (lit "god_toggle") 3) sc rs /\ god sc = true.
Proof.
  destruct (C86_described ex_platform ex_naming true (lit "Type") true true 3 ex_no_nul (repeat (lit "god_toggle") 3)) as [[(sc & rs & D)|S] _].
  - cbn [repeat]. repeat constructor; vm_compute; intuition discriminate.
  - exists sc, rs. split; [exact D|]. destruct (C86_toggles ex_platform true (lit "Type") true 3 _ _ _ D) as [-> _]. reflexivity.
  - exfalso. destruct (begun ex_platform ex_naming true (lit "Type") true true 3 ex_no_nul) as (s & E & _).
    apply (C86_no_fault ex_platform ex_naming true (lit "Type") true true 3 ex_no_nul _ s) in S; [|cbn [repeat]; repeat constructor; vm_compute; intuition discriminate|exact E].
    destruct S as (f & F).
    assert (X : exists r w, ex_session ["god_toggle"; "god_toggle"; "god_toggle"]%string = Done (r, w)) by (clear; eexists _, _; vm_compute; reflexivity).
    destruct X as (r & w & X). destruct (ex_done _ _ _ s X E) as (s' & xs & H & _). cbn [map] in H. cbn [repeat] in F. rewrite F in H. discriminate H.
Qed.

(** * Assumptions *)
Print Assumptions C86_session_iff.
Print Assumptions C86_no_fault.
Print Assumptions C86_described.
Print Assumptions C86_variables.
Print Assumptions C86_unique.
Print Assumptions C86_type_names.
Print Assumptions C86_type_numbers.
Print Assumptions C86_declared_refuted.
Print Assumptions C86_toggles.
