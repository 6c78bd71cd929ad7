(** C89: the commands of examples/basic. *)
From Coq Require Import Ascii String NArith ZArith QArith Bool PeanoNat Lia List.
Import ListNotations.
From Verif Require Import Util Base LexerSpec StringConv StringConvSpec StringConvProofs SerializerSpec Serializer
  SerializerProofs Lexer LexerMeta LexerProofs LexerMore P_Lexer P_StringConv P_Serializer UMap Exec ExecSpec ExecProofs P_Exec
  FloatConv FloatConvSpec FloatSerializer FloatConvProofs FloatOps FloatOpsSpec FloatOpsProofs FloatSum FloatSumSpec FloatSumProofs
  FloatTextSpec P_FloatText UserTypes UserTypesProofs NamedExample NamedExampleSpec NamedExampleProofs
  ExampleSession ExampleSpec ExampleProofs ExampleMore BasicExample BasicExampleSpec.
From Verif Require P_PropertiesExample.

Local Notation length := List.length.
Local Open Scope nat_scope.

Lemma times_repeat t n : times t (Z.of_nat n) (List.concat (repeat t n)).
Proof.
  induction n as [|n IH]; [constructor|]. cbn [repeat List.concat]. replace (Z.of_nat (S n)) with (Z.of_nat n + 1)%Z by lia.
  constructor; [lia|exact IH].
Qed.
Lemma times_total t n : (0 <= n)%Z -> times t n (List.concat (repeat t (Z.to_nat n))).
Proof. intros L. rewrite <- (Z2Nat.id n L) at 1. apply times_repeat. Qed.
Lemma times_det t n s : times t n s -> (0 <= n)%Z /\ s = List.concat (repeat t (Z.to_nat n)).
Proof.
  induction 1 as [|n s L H [_ ->]]; [now split|]. split; [lia|]. replace (Z.to_nat (n + 1)) with (S (Z.to_nat n)) by lia. reflexivity.
Qed.

Section Basic.
Variables (p : platform) (nm : naming) (uf : bool) (size_t : ctype) (nan_sign : bool).
Variables sg catching : bool.
Variable d : nat.
Hypothesis Us : size_type size_t.

Local Notation code := (code p nm uf size_t nan_sign).
Local Notation table := (table p nm uf size_t).
Local Notation acts := (acts p nm uf size_t nan_sign).
Local Notation goes_wrong := (goes_wrong p nm).
Local Notation good := (fun _ : bytes => True).
Local Notation world_of := (fun t : bytes => World t None).
Local Notation serves := (serves sg commands good world_of).
Local Notation run := (run_prog sg (nested_exec code sg catching d)).
Local Notation exec := (exec_input code sg catching d).
Local Notation Fi := (float_implements uf).
Local Notation Ii := (integer_implements p nm CInt).
Local Notation Si := (size_implements p nm size_t).
Local Notation Bi := (bool_implements p nm (char_signed p)).
Local Notation ints := (denotes_value (integer_kind p nm CInt)).
Local Notation sizes := (denotes_value (size_kind p nm size_t)).
Local Notation floats := (denotes_value (float_kind uf)).
Local Notation bools := (denotes_value bool_kind).

Lemma agreed : Forall2 (agree code) commands table.
Proof.
  assert (Ff : fits (float_ser uf) (float_param uf)) by exact (implements_fits _ _ Fi).
  assert (Fz : fits (int_ser p nm) (int_param p nm)) by exact (implements_fits _ _ Ii).
  assert (Fs : fits (size_ser p nm size_t) (size_param p nm size_t)) by exact (implements_fits _ _ Si).
  assert (Fb : fits (bool_ser p) bool_param) by exact (implements_fits _ _ Bi).
  assert (Ft : fits string_serializer text_param) by exact (implements_fits _ _ text_implements).
  repeat apply Forall2_cons; try apply Forall2_nil; (split; [reflexivity|]); (split; [discriminate|]);
    (split; [cbn; repeat constructor; cbn; intuition discriminate|]); cbn [snd];
    repeat first [assumption|apply Forall2_cons|apply Forall2_nil].
Qed.

Lemma int_one v (z : Z) : ints v z -> converts [int_ser p nm] [v] ((z, tt) : args_of [int_ser p nm]).
Proof. intros H. apply converts_cons; [now apply (proj1 Ii)|constructor]. Qed.
Lemma bool_one v (b : bool) : bools v b -> converts [bool_ser p] [v] ((b, tt) : args_of [bool_ser p]).
Proof. intros H. apply converts_cons; [now apply (proj1 Bi)|constructor]. Qed.
Lemma text_one t : converts [string_serializer] [[t]] ((t, tt) : args_of [string_serializer]).
Proof. apply converts_cons; [reflexivity|constructor]. Qed.
Lemma text_two t t' : converts [string_serializer; string_serializer] [[t]; [t']]
  ((t, (t', tt)) : args_of [string_serializer; string_serializer]).
Proof. apply converts_cons; [reflexivity|apply text_one]. Qed.
Lemma text_size t v (n : Z) : sizes v n -> converts [string_serializer; size_ser p nm size_t] [[t]; v]
  ((t, (n, tt)) : args_of [string_serializer; size_ser p nm size_t]).
Proof. intros H. apply converts_cons; [reflexivity|]. apply converts_cons; [now apply (proj1 Si)|constructor]. Qed.
Lemma float_two v w (x y : fval) : floats v x -> floats w y -> converts [float_ser uf; float_ser uf] [v; w]
  ((x, (y, tt)) : args_of [float_ser uf; float_ser uf]).
Proof. intros H K. apply converts_cons; [now apply (proj1 Fi)|]. apply converts_cons; [now apply (proj1 Fi)|constructor]. Qed.

Lemma int_range z : in_range p CInt z <-> (- 2 ^ 31 <= z < 2 ^ 31)%Z.
Proof. unfold in_range. cbn. lia. Qed.

Local Notation taken := (taken code).
Lemma only_one (f : fn) : taken [f] f.
Proof. exists [], []. split; [reflexivity|intros ? []]. Qed.

Lemma log_times_run t n : forall s inp es out sid,
  run sid s (ctx inp es out) (log_times t n) = run sid s (ctx inp es (out ++ List.concat (repeat t n))) (Ret tt).
Proof.
  induction n as [|n IH]; intros s inp es out sid; cbn [log_times repeat List.concat].
  - now rewrite app_nil_r.
  - cbn [run_prog]. change (cc_output (ctx inp es out) t) with (ctx inp es (out ++ t)). rewrite IH, <- app_assoc. reflexivity.
Qed.

Lemma truth_text b : rtext (RValue (bool_ser p)) b = Done (Some (truth b)).
Proof. now destruct b. Qed.
Lemma int_text z t : canonical z t -> rtext (RValue (int_ser p nm)) z = Done (Some t).
Proof.
  intros C. rewrite (P_PropertiesExample.canonical_same _ _ _ C (P_PropertiesExample.printf_d_canonical z)). reflexivity.
Qed.

Ltac acting fs f vs sc out r txt :=
  match goal with R : serves ?sc0 ?s, nd : list (bytes * list bytes) |- exists inp s', exec_input _ _ _ _ _ (Input ?n ?pos _) = _ /\ _ =>
    apply (run_acts code sg catching d commands good world_of sc0 s n fs f pos nd vs sc [] out r txt R);
      try discriminate; [cbn; tauto|apply only_one| |exact Logic.I| |]
  end.

Lemma exec_acts sc s name pos nd sc' es ret out : serves sc s -> acts sc name pos nd sc' es ret out ->
  exists inp s', exec s (Input name pos nd) = Done (s', inl (Result inp es ret out)) /\ serves sc' s'.
Proof.
  intros R A. assert (Hw := proj1 (proj2 (proj2 R))). cbn beta in Hw.
  assert (Kp : set_world s (World sc None) = s) by (rewrite <- Hw; now destruct s).
  destruct A as [nd|nd|nd t v n o V T|nd t b B|nd v b V|nd v w x y z t V W Sm Sh|nd t t'|name pre nd v z t Sp V Cz|name k nd v z t Sk V Rg Cz].
  - acting [FHello] FHello tt (sc ++ greeting) (@nil byte) tt (@None bytes); [constructor| |reflexivity].
    intros sid _. cbn [BasicExample.code f_body]. unfold hello. cbn [run_prog]. rewrite Hw. reflexivity.
  - acting [FHelloWithContext] FHelloWithContext tt sc long_greeting tt (@None bytes); [constructor| |reflexivity].
    intros sid _. cbn [BasicExample.code f_body]. unfold helloWithContext. cbn [run_prog]. rewrite Kp. reflexivity.
  - destruct (times_det _ _ _ T) as [Ln ->].
    acting [FPrintRepeated] FPrintRepeated (t, (n, tt)) sc (List.concat (repeat t (Z.to_nat n))) tt (@None bytes);
      [exact (text_size t v n V)| |reflexivity].
    intros sid _. cbn [BasicExample.code f_body fst snd]. unfold printRepeated. rewrite log_times_run. cbn [run_prog app]. now rewrite Kp.
  - acting [FPrintQuoted] FPrintQuoted (t, tt) sc (lit "'" ++ b ++ lit "'" ++ [nl]) tt (@None bytes); [exact (text_one t)| |reflexivity].
    intros sid _. cbn [BasicExample.code f_body fst]. unfold printQuoted. cbn [run_prog].
    rewrite ctx_line, Kp, (before_nul_det _ _ B), <- !app_assoc. reflexivity.
  - acting [FInvert] FInvert (b, tt) sc (@nil byte) (negb b) (Some (truth (negb b))); [exact (bool_one v b V)| |apply truth_text].
    intros sid _. cbn [BasicExample.code f_body fst]. unfold invert. cbn [run_prog]. now rewrite Kp.
  - apply fadd_sum in Sm. subst z. apply C87_float_iff in Sh; [|apply fadd_in]. subst t.
    acting [FAdd] FAdd (x, (y, tt)) sc (@nil byte) (fadd nan_sign x y) (Some (toStringF (fadd nan_sign x y))); [exact (float_two v w x y V W)| |reflexivity].
    intros sid _. cbn [BasicExample.code f_body fst snd]. unfold add. cbn [run_prog]. now rewrite Kp.
  - acting [FConcat] FConcat (t, (t', tt)) sc (@nil byte) (t ++ t') (Some (t ++ t')); [exact (text_two t t')| |reflexivity].
    intros sid _. cbn [BasicExample.code f_body fst snd]. unfold concat. cbn [run_prog]. now rewrite Kp.
  - rewrite (P_PropertiesExample.canonical_same _ _ _ Cz (P_PropertiesExample.printf_d_canonical z)). destruct Sp.
    + acting [FPlain] FPlain (z, tt) sc (@nil byte) (lit "I am a function: " ++ printf_d z) (Some (lit "I am a function: " ++ printf_d z));
        [exact (int_one v z V)| |reflexivity].
      intros sid _. cbn [BasicExample.code f_body fst]. unfold introduce. cbn [run_prog]. now rewrite Kp.
    + acting [FLambda] FLambda (z, tt) sc (@nil byte) (lit "I am a lambda: " ++ printf_d z) (Some (lit "I am a lambda: " ++ printf_d z));
        [exact (int_one v z V)| |reflexivity].
      intros sid _. cbn [BasicExample.code f_body fst]. unfold introduce. cbn [run_prog]. now rewrite Kp.
    + acting [FCustom] FCustom (z, tt) sc (@nil byte) (lit "I am a custom functor: " ++ printf_d z) (Some (lit "I am a custom functor: " ++ printf_d z));
        [exact (int_one v z V)| |reflexivity].
      intros sid _. cbn [BasicExample.code f_body fst]. unfold introduce. cbn [run_prog]. now rewrite Kp.
    + acting [FStd] FStd (z, tt) sc (@nil byte) (lit "I am a std::function: " ++ printf_d z) (Some (lit "I am a std::function: " ++ printf_d z));
        [exact (int_one v z V)| |reflexivity].
      intros sid _. cbn [BasicExample.code f_body fst]. unfold introduce. cbn [run_prog]. now rewrite Kp.
  - apply int_range in Rg. assert (Sc : scale k z = (Ret (z * k)%Z : prog world fn Z)).
    { unfold scale. destruct (Z.leb_spec (- 2 ^ 31) (z * k)); [|lia]. destruct (Z.ltb_spec (z * k) (2 ^ 31)); [reflexivity|lia]. }
    destruct Sk.
    + acting [FScale 2] (FScale 2) (z, tt) sc (@nil byte) (z * 2)%Z (Some t); [exact (int_one v z V)| |exact (int_text _ t Cz)].
      intros sid _. cbn [BasicExample.code f_body fst]. rewrite Sc. cbn [run_prog]. now rewrite Kp.
    + acting [FScale 10] (FScale 10) (z, tt) sc (@nil byte) (z * 10)%Z (Some t); [exact (int_one v z V)| |exact (int_text _ t Cz)].
      intros sid _. cbn [BasicExample.code f_body fst]. rewrite Sc. cbn [run_prog]. now rewrite Kp.
Qed.

Lemma exec_wrong sc s name pos nd f : serves sc s -> goes_wrong sc name pos nd f ->
  ends w_wrong f (exec s (Input name pos nd)).
Proof.
  intros R A. assert (Hw := proj1 (proj2 (proj2 R))). cbn beta in Hw. destruct A as [name k nd v z Sk V Rg].
  assert (Sc : scale k z = (GetState (fun w => PutState (World (w_stdout w) (Some Overflow)) (Ret 0%Z)) : prog world fn Z)).
  { unfold scale. destruct (Z.leb_spec (- 2 ^ 31) (z * k)) as [L|L]; [|reflexivity]. destruct (Z.ltb_spec (z * k) (2 ^ 31)); [|reflexivity].
    elim Rg. now apply int_range. }
  right. left. exists (set_world s (World sc (Some Overflow))). destruct Sk; eexists; (split; [|reflexivity]).
  - apply (run_done code sg catching d commands good world_of sc s _ [FScale 2] (FScale 2) [v] nd (z, tt)
             (set_world s (World sc (Some Overflow))) [] [] 0%Z (Some (lit "0")) R);
      try discriminate; [cbn; tauto|apply only_one|exact (int_one v z V)| |reflexivity].
    intros sid _. cbn [BasicExample.code f_body fst]. rewrite Sc. cbn [run_prog]. rewrite Hw. reflexivity.
  - apply (run_done code sg catching d commands good world_of sc s _ [FScale 10] (FScale 10) [v] nd (z, tt)
             (set_world s (World sc (Some Overflow))) [] [] 0%Z (Some (lit "0")) R);
      try discriminate; [cbn; tauto|apply only_one|exact (int_one v z V)| |reflexivity].
    intros sid _. cbn [BasicExample.code f_body fst]. rewrite Sc. cbn [run_prog]. rewrite Hw. reflexivity.
Qed.

Lemma accepted_nil pos : accepted [] pos -> pos = [].
Proof. intros H. now inversion H. Qed.
Lemma accepted_cons P Ps pos : accepted (P :: Ps) pos -> exists v x vs, pos = v :: vs /\ p_ok P v x /\ accepted Ps vs.
Proof. intros H. inversion H as [|? v ? vs (x & O) H']; subst. now exists v, x, vs. Qed.

Lemma speaker_total sc name pre nd v z : speaker name pre -> ints v z -> exists es ret out, acts sc name [v] nd sc es ret out.
Proof. intros S V. eexists _, _, _. eapply acts_speak; [exact S|exact V|apply P_PropertiesExample.printf_d_canonical]. Qed.
Lemma scaler_total sc name k nd v z : scaler name k -> ints v z ->
  (exists es ret out, acts sc name [v] nd sc es ret out) \/ exists f, goes_wrong sc name [v] nd f.
Proof.
  intros S V. assert (H : in_range p CInt (z * k) \/ ~ in_range p CInt (z * k)) by (rewrite int_range; lia). destruct H as [H|H].
  - left. eexists _, _, _. eapply acts_scale; [exact S|exact V|exact H|apply P_PropertiesExample.printf_d_canonical].
  - right. eexists. eapply wrong_scale; eassumption.
Qed.

Lemma size_nonneg v n : sizes v n -> (0 <= n)%Z.
Proof. intros (w & _ & V). assert (Rg : in_range p size_t n) by (inversion V; subst; assumption). now apply (size_range p size_t Us) in Rg. Qed.

Lemma acts_total sc name pos nd overloads Ps : In (name, overloads) table -> In Ps overloads -> accepted Ps pos ->
  (exists sc' es ret out, acts sc name pos nd sc' es ret out) \/ exists f, goes_wrong sc name pos nd f.
Proof.
  assert (W : forall sc name pos nd, (exists es ret out, acts sc name pos nd sc es ret out) ->
    exists sc' es ret out, acts sc name pos nd sc' es ret out) by (intros; eauto).
  assert (W2 : forall sc name pos nd, (exists es ret out, acts sc name pos nd sc es ret out) \/ (exists f, goes_wrong sc name pos nd f) ->
    (exists sc' es ret out, acts sc name pos nd sc' es ret out) \/ exists f, goes_wrong sc name pos nd f) by (intros ? ? ? ? [H|H]; eauto).
  intros J K A. cbn in J. repeat (destruct J as [J|J]; [injection J as <- <-|]); [..|destruct J];
    cbn in K; repeat (destruct K as [<-|K]); try destruct K;
    repeat (let v := fresh "v" in let x := fresh "x" in let V := fresh "V" in
            apply accepted_cons in A; destruct A as (v & x & ? & -> & V & A); cbn in x, V); apply accepted_nil in A; subst;
    repeat match goal with V : denotes_value text_kind _ _ |- _ => destruct V as (? & -> & <-) end.
  - left. eexists _, _, _, _. apply acts_hello.
  - left. eexists _, _, _, _. apply acts_hello_context.
  - left. eexists _, _, _, _. eapply acts_repeated; [eassumption|].
    apply times_total. eapply size_nonneg; eassumption.
  - left. eexists _, _, _, _. apply acts_quoted. apply before_nul_c_str.
  - left. eexists _, _, _, _. eapply acts_invert. eassumption.
  - left. eexists _, _, _, _. eapply acts_add; [eassumption|eassumption|apply fadd_sum; reflexivity|apply C87_float_iff; [apply fadd_in|reflexivity]].
  - left. eexists _, _, _, _. apply acts_concat.
  - left. apply W. eapply speaker_total; [constructor|eassumption].
  - left. apply W. eapply speaker_total; [constructor|eassumption].
  - left. apply W. eapply speaker_total; [constructor|eassumption].
  - left. apply W. eapply speaker_total; [constructor|eassumption].
  - apply W2. eapply scaler_total; [constructor|eassumption].
  - apply W2. eapply scaler_total; [constructor|eassumption].
Qed.

Lemma is_implemented : implemented code w_wrong sg catching d commands table acts goes_wrong good world_of.
Proof.
  split.
  - reflexivity.
  - exact agreed.
  - cbn. repeat constructor; cbn; intuition discriminate.
  - intros. now apply exec_acts with (sc := sc).
  - intros. now apply exec_wrong with (sc := sc).
  - intros. now apply acts_total with (overloads := overloads) (Ps := Ps).
Qed.

Lemma formed : well_formed table.
Proof.
  split; [|split].
  - cbn. repeat constructor; cbn; intuition discriminate.
  - cbn. intuition discriminate.
  - repeat constructor; cbn; try (intuition discriminate); apply single_exclusive.
Qed.
End Basic.

(** * C89 *)
Section Theorems.
(** The platform, the names of the integer types, what strtof makes of tiny values, the type that
    std::size_t is, the sign of NaN after an invalid operation, whether char is signed, whether
    exceptions are caught, and how deep commands may nest. *)
Variables (p : platform) (nm : naming) (uf : bool) (size_t : ctype) (nan_sign : bool).
Variables sg catching : bool.
Variable d : nat.
Hypothesis Us : size_type size_t.

Local Notation table := (table p nm uf size_t).
Local Notation acts := (acts p nm uf size_t nan_sign).
Local Notation goes_wrong := (goes_wrong p nm).
Local Notation C := (cfg_classes sg default_cfg).
Local Notation answers := (answers_text table acts C).
Local Notation dialogue := (dialogue table acts C []).
Local Notation disaster := (disaster table acts goes_wrong C []).
Local Notation stuck := (stuck table acts C []).
Local Notation session := (BasicExample.run p nm uf size_t nan_sign sg catching d).
Local Notation I := (is_implemented p nm uf size_t nan_sign sg catching d Us).
Local Notation ints := (denotes_value (integer_kind p nm CInt)).
Local Notation floats := (denotes_value (float_kind uf)).
Local Notation bools := (denotes_value bool_kind).

Lemma begun : exists s, start sg = Done s /\ serves sg commands (fun _ => True) (fun t => World t None) [] s.
Proof. exact (started _ _ sg catching d _ _ _ _ _ _ I [] Logic.I). Qed.

(** The replies, and what is written to std::cout. *)
Theorem C89_session_iff : forall lines t rs, Forall no_nul lines ->
  (dialogue lines t rs <->
   exists s s' xs, start sg = Done s /\ session s lines = Done (s', xs) /\ map reply xs = rs /\ s_world s' = World t None).
Proof.
  intros lines t rs N. destruct begun as (s & E & R).
  destruct (session_iff _ _ sg catching d _ _ _ _ _ _ I [] s lines (World t None) rs R N) as [A B]. split.
  - intros D. destruct A as (s' & xs & H); [now exists t|]. now exists s, s', xs.
  - intros (s0 & s' & xs & E0 & H). rewrite E in E0. injection E0 as <-.
    destruct B as (t' & D & X); [now exists s', xs|]. injection X as <-. exact D.
Qed.

(** The program ends badly only by the overflow of a product, or by what C01 is about. *)
Theorem C89_disaster : forall lines s f, Forall no_nul lines -> start sg = Done s ->
  (disaster lines f -> session s lines = Fault f) /\
  (session s lines = Fault f -> disaster lines f \/ stuck lines).
Proof.
  intros lines s f N E. destruct begun as (s0 & E0 & R). rewrite E in E0. injection E0 as <-.
  exact (fault_iff _ _ sg catching d _ _ _ _ _ _ I [] s lines f R N).
Qed.

Theorem C89_described : forall lines, Forall no_nul lines ->
  ((exists t rs, dialogue lines t rs) \/ (exists f, disaster lines f) \/ stuck lines) /\
  (forall t rs t' rs', dialogue lines t rs -> dialogue lines t' rs' -> rs = rs' /\ t = t') /\
  (forall t rs f, dialogue lines t rs -> ~ disaster lines f).
Proof.
  intros lines N. destruct begun as (s & E & R).
  destruct (not_both _ _ sg catching d _ _ _ _ _ _ I [] s lines R N) as (A & _ & D). split; [|split].
  - exact (total _ _ sg catching d _ _ _ _ _ _ I lines [] s R N).
  - intros t rs t' rs' H H'. destruct (A _ _ _ _ H H') as [X Y]. split; [exact X|now injection Y].
  - intros t rs f H. exact (D _ _ _ H).
Qed.

(** ** Integers that can be scaled *)

(** An integer is scaled exactly, or the program is undefined; just when, in numbers. *)
Theorem C89_scale : forall sc nd v z, ints v z ->
  ((exists t, canonical (2 * z) t /\ acts sc (lit "scaler1.scale") [v] nd sc [] (Some t) []) <-> (- 1073741824 <= z <= 1073741823)%Z) /\
  ((exists f, goes_wrong sc (lit "scaler1.scale") [v] nd f) <-> ~ (- 1073741824 <= z <= 1073741823)%Z) /\
  ((exists t, canonical (10 * z) t /\ acts sc (lit "scaler2.scale") [v] nd sc [] (Some t) []) <-> (- 214748364 <= z <= 214748364)%Z) /\
  ((exists f, goes_wrong sc (lit "scaler2.scale") [v] nd f) <-> ~ (- 214748364 <= z <= 214748364)%Z).
Proof.
  intros sc nd v z V.
  assert (U : forall z', ints v z' -> z' = z).
  { intros z' V'. apply (proj1 (integer_implements p nm CInt)) in V, V'. congruence. }
  assert (Y : forall name k, scaler name k -> (exists t, canonical (k * z) t /\ acts sc name [v] nd sc [] (Some t) []) <-> in_range p CInt (z * k)).
  { intros name k S. split.
    - intros (t & Ct & A). destruct S; inversion A; subst;
        try (match goal with H : speaker _ _ |- _ => inversion H end);
        match goal with H : scaler _ _ |- _ => inversion H; subst end;
        match goal with H : ints v ?z' |- _ => rewrite <- (U z' H) end; assumption.
    - intros R. exists (printf_d (z * k)). split; [rewrite Z.mul_comm; apply P_PropertiesExample.printf_d_canonical|].
      eapply acts_scale; [exact S|exact V|exact R|apply P_PropertiesExample.printf_d_canonical]. }
  assert (X : forall name k, scaler name k -> (exists f, goes_wrong sc name [v] nd f) <-> ~ in_range p CInt (z * k)).
  { intros name k S. split.
    - intros (f & A). destruct S; inversion A; subst;
        match goal with H : scaler _ _ |- _ => inversion H; subst end;
        match goal with H : ints v ?z' |- _ => rewrite <- (U z' H) end; assumption.
    - intros R. exists Overflow. eapply wrong_scale; eassumption. }
  rewrite (Y _ _ scaler1), (Y _ _ scaler2), (X _ _ scaler1), (X _ _ scaler2), !int_range. lia.
Qed.

(** ** std::cout *)

Lemma hello_acts sc name pos nd sc' es ret out : acts sc name pos nd sc' es ret out ->
  sc' = sc /\ ~ (name = lit "hello" /\ pos = []) \/ sc' = sc ++ greeting /\ name = lit "hello" /\ pos = [].
Proof.
  intros [ | | | | | | | | ]; try (left; split; [reflexivity|]; intros [X Y]; discriminate X || discriminate Y).
  right. now repeat split.
Qed.

Lemma answers_hello sc line sc' es ret out : answers sc line sc' es ret out ->
  sc' = sc /\ (forall nd, ~ LexerSpec.command C line (inl (SInput (lit "hello") [] nd))) \/
  sc' = sc ++ greeting /\ exists nd, LexerSpec.command C line (inl (SInput (lit "hello") [] nd)).
Proof.
  intros [e K|name pos nd sc1 es1 r1 o1 K D].
  - left. split; [reflexivity|]. intros nd K'. assert (X := command_det _ _ _ _ _ K K'). discriminate X.
  - apply (does_cases table acts (formed p nm uf size_t)) in D. destruct D as [A|(-> & _ & _ & _ & Nf)].
    + apply hello_acts in A. destruct A as [[-> Nh]|(-> & -> & ->)]; [left; split; [reflexivity|]|right; split; [reflexivity|now exists nd]].
      intros nd' K'. assert (X := command_det _ _ _ _ _ K K'). injection X as -> -> _. now apply Nh.
    + left. split; [reflexivity|]. intros nd' K'. assert (X := command_det _ _ _ _ _ K K'). injection X as -> -> _.
      apply Nf. exists [[]], []. split; [cbn; now left|]. split; [now left|constructor].
Qed.

(** std::cout gets one greeting for every text that says hello and nothing else. *)
Theorem C89_stdout : forall lines t rs, dialogue lines t rs ->
  exists n, hellos C lines n /\ times greeting (Z.of_nat n) t.
Proof.
  enough (G : forall sc lines t rs, ExampleSpec.dialogue table acts C sc lines t rs ->
    exists n, hellos C lines n /\ t = sc ++ List.concat (repeat greeting n)).
  { intros lines t rs D. destruct (G _ _ _ _ D) as (n & H & ->). exists n. split; [exact H|]. apply times_repeat. }
  intros sc lines t rs D. induction D as [sc|sc line lines sc' es ret out sc'' rs A D (n & H & E)].
  - exists 0. split; [constructor|]. now rewrite app_nil_r.
  - apply answers_hello in A. destruct A as [[-> No]|[-> (nd & K)]].
    + exists n. split; [now apply hellos_other|exact E].
    + exists (S n). split; [now apply hellos_one with (nd := nd)|]. rewrite E, <- app_assoc. reflexivity.
Qed.

(** ** Function objects *)

(** All four kinds of function objects accept the same integers and answer with the same number. *)
Theorem C89_speakers : forall sc nd v name pre name' pre' t, speaker name pre -> speaker name' pre' ->
  acts sc name [v] nd sc [] (Some (pre ++ t)) [] -> acts sc name' [v] nd sc [] (Some (pre' ++ t)) [].
Proof.
  intros sc nd v name pre name' pre' t S S' A.
  enough (H : exists z, ints v z /\ canonical z t) by (destruct H as (z & V & Ct); eapply acts_speak; eassumption).
  inversion A; subst; try (inversion S; fail); try (match goal with H : scaler _ _ |- _ => inversion H; subst; inversion S end).
  match goal with H : speaker name ?q |- _ => assert (q = pre) as -> by (inversion S; subst; inversion H; reflexivity) end.
  match goal with H : pre ++ _ = pre ++ _ |- _ => apply app_inv_head in H; subst end. eexists. split; eassumption.
Qed.

(** ** Results as arguments *)

(** What invert answers is a boolean again, and inverting it gives the first value. *)
Theorem C89_invert : forall sc nd v b, bools v b ->
  exists t, acts sc (lit "invert") [v] nd sc [] (Some t) [] /\
  exists t', acts sc (lit "invert") [[t]] nd sc [] (Some t') [] /\ bools [t'] b.
Proof.
  intros sc nd v b V. exists (truth (negb b)). split; [now apply acts_invert|].
  assert (T : forall c, bools [truth c] c).
  { intros c. exists (truth c). split; [reflexivity|]. right.
    destruct c; repeat (constructor; [first [now left|constructor]|]); constructor. }
  exists (truth b). split; [|apply T]. rewrite <- (negb_involutive b) at 2. apply acts_invert, T.
Qed.

(** Addition commutes, but when both are NaN the sign is that of the first. *)
Theorem C89_add_commutes : forall sc nd v w x y t, floats v x -> floats w y -> (not_a_number x -> ~ not_a_number y) ->
  (acts sc (lit "add") [v; w] nd sc [] (Some t) [] <-> acts sc (lit "add") [w; v] nd sc [] (Some t) []).
Proof.
  assert (U : forall v x x', floats v x -> floats v x' -> x = x').
  { intros v x x' V V'. apply (proj1 (float_implements uf)) in V, V'. congruence. }
  assert (G : forall sc nd v w x y t, floats v x -> floats w y -> (not_a_number x -> ~ not_a_number y) ->
    acts sc (lit "add") [v; w] nd sc [] (Some t) [] -> acts sc (lit "add") [w; v] nd sc [] (Some t) []).
  { intros sc nd v w x y t V W N A. inversion A as [| | | | |nd0 v0 w0 x0 y0 z t0 V0 W0 Sm Sh| | |]; subst.
    rewrite (U _ _ _ V0 V), (U _ _ _ W0 W) in Sm. eapply acts_add; [exact W|exact V| |exact Sh].
    apply fadd_sum. rewrite <- fadd_comm by exact N. now apply fadd_sum. }
  intros sc nd v w x y t V W N. split; [now apply (G sc nd v w x y)|]. apply (G sc nd w v y x); [exact W|exact V|]. intros Ny Nx. now apply N.
Qed.

(** Adding zero changes nothing but the other zero. *)
Theorem C89_add_zero : forall sc nd v w x s e t, floats v x -> floats w (Fin s 0 e) -> ~ zero x ->
  (acts sc (lit "add") [v; w] nd sc [] (Some t) [] <-> shows millionth x t).
Proof.
  intros sc nd v w x s e t V W Nz.
  assert (U : forall v x x', floats v x -> floats v x' -> x = x').
  { intros v0 x0 x' H H'. apply (proj1 (float_implements uf)) in H, H'. congruence. }
  assert (Vx : value_in binary32 x) by (destruct V as (q & _ & H); exact (value_in_conversion uf q x H)).
  assert (E := fadd_zero nan_sign x s e Vx Nz). split.
  - intros A. inversion A as [| | | | |nd0 v0 w0 x0 y0 z t0 V0 W0 Sm Sh| | |]; subst.
    rewrite (U _ _ _ V0 V), (U _ _ _ W0 W) in Sm. apply fadd_sum in Sm. now rewrite <- E, Sm.
  - intros Sh. eapply acts_add; [exact V|exact W|apply fadd_sum; exact E|exact Sh].
Qed.
End Theorems.

(** ** Examples *)

Definition ex_session (l : list string) : outcome (list (list bytes * option bytes * bytes) * world) :=
  s <- start true ;;
  r <- BasicExample.run ex_platform ex_naming true CULong true true true 3 s (map lit l) ;;
  Done (map reply (snd r), s_world (fst r)).

(** The commands of BasicExample.cpp:112-152. *)
Definition ex_commands : list string :=
  ["hello"; "hello_with_context"; "print_quoted coil"; "print_repeated hi 10"; "print_quoted 'I have spaces'";
   "print_repeated ""I also have spaces "" 5"; "invert true"; "invert True"; "invert 0"; "invert FALSE";
   "add 3.14 2.72"; "concat abc 123"; "plain_function 101"; "lambda 102"; "custom_functor 103"; "std_function 104";
   "scaler1.scale 10"; "scaler2.scale 10"; "hello 1 2"; "add 3.14"; "add one two"]%string.
Definition ex_replies : list (list bytes * option bytes * bytes) :=
  [([], None, []); ([], None, long_greeting); ([], None, lit "'coil'" ++ [nl]); ([], None, lit "hihihihihihihihihihi");
   ([], None, lit "'I have spaces'" ++ [nl]);
   ([], None, lit "I also have spaces I also have spaces I also have spaces I also have spaces I also have spaces ");
   ([], Some (lit "false"), []); ([], Some (lit "false"), []); ([], Some (lit "true"), []); ([], Some (lit "true"), []);
   ([], Some (lit "5.86"), []); ([], Some (lit "abc123"), []);
   ([], Some (lit "I am a function: 101"), []); ([], Some (lit "I am a lambda: 102"), []);
   ([], Some (lit "I am a custom functor: 103"), []); ([], Some (lit "I am a std::function: 104"), []);
   ([], Some (lit "20"), []); ([], Some (lit "100"), []);
   ([lit "Wrong number of arguments to 'hello': expected 0, got 2"], None, []);
   ([lit "Wrong number of arguments to 'add': expected 2, got 1"], None, []);
   ([lit "Unable to convert 'one' to type 'float'"; lit "Unable to convert 'two' to type 'float'"], None, [])].
Example C89_ex_run : ex_session ex_commands = Done (ex_replies, World greeting None).
Proof. vm_compute. reflexivity. Qed.

Example C89_ex_more : ex_session
  ["hello"; "hello x=1"; "scaler1.scale 1073741823"; "scaler1.scale -1073741824"; "scaler2.scale -214748364"; "lambda -7";
   "print_repeated a 0"; "print_repeated '' 3"; "add 1e38 1e-30"; "add 1 1e-38"; "add inf -inf"; "add -0 -0"; "add -0 0"; "add 3e38 3e38";
   "concat '' ''"; "invert 2"; "Hello"]%string =
  Done ([([], None, []); ([], None, []); ([], Some (lit "2147483646"), []); ([], Some (lit "-2147483648"), []);
         ([], Some (lit "-2147483640"), []); ([], Some (lit "I am a lambda: -7"), []);
         ([], None, []); ([], None, []); ([], Some (lit "1e+38"), []); ([lit "Unable to convert '1e-38' to type 'float'"], None, []); ([], Some (lit "-nan"), []);
         ([], Some (lit "0"), []); ([], Some (lit "0"), []); ([], Some (lit "inf"), []);
         ([], Some [], []); ([lit "Unable to convert '2' to type 'bool'"], None, []);
         ([lit "No function 'Hello' is registered"], None, [])],
        World (greeting ++ greeting) None).
Proof. vm_compute. reflexivity. Qed.

(** Undefined behaviour. *)
Example C89_ex_overflow : ex_session ["hello"; "scaler1.scale 1073741824"; "hello"]%string = Fault Overflow /\
  ex_session ["scaler2.scale -214748365"]%string = Fault Overflow.
Proof. split; vm_compute; reflexivity. Qed.

Lemma ran {A B C D E} (st : outcome A) (go : A -> outcome (B * C)) (f : C -> D) (g : B -> E) s r w :
  (s0 <- st ;; x <- go s0 ;; Done (f (snd x), g (fst x))) = Done (r, w) -> st = Done s ->
  exists s' xs, go s = Done (s', xs) /\ f xs = r /\ g s' = w.
Proof.
  intros X ->. cbn [bind] in X. destruct (go s) as [[s' xs]|?]; [|discriminate X]. cbn [bind fst snd] in X.
  injection X as <- <-. now exists s', xs.
Qed.
Lemma ex_done l r w s : ex_session l = Done (r, w) -> start true = Done s ->
  exists s' xs, BasicExample.run ex_platform ex_naming true CULong true true true 3 s (map lit l) = Done (s', xs) /\
    map reply xs = r /\ s_world s' = w.
Proof.
  exact (ran (start true) (fun s => BasicExample.run ex_platform ex_naming true CULong true true true 3 s (map lit l))
             (map reply) s_world s r w).
Qed.

Local Notation ex_classes := (cfg_classes true default_cfg).
Local Notation ex_table := (table ex_platform ex_naming true CULong).
Local Notation ex_acts := (acts ex_platform ex_naming true CULong true).
Lemma ex_size : size_type CULong.
Proof. right. now left. Qed.
Example C89_ex_dialogue : dialogue ex_table ex_acts ex_classes [] (map lit ex_commands) greeting ex_replies.
Proof.
  apply (C89_session_iff ex_platform ex_naming true CULong true true true 3 ex_size).
  - unfold ex_commands. cbn [map]. repeat constructor; vm_compute; intuition discriminate.
  - destruct (begun ex_platform ex_naming true CULong true true true 3 ex_size) as (s & E & _). exists s.
    destruct (ex_done _ _ _ s C89_ex_run E) as (s' & xs & H). exists s', xs. split; [exact E|exact H].
Qed.

Example C89_ex_int : denotes_value (integer_kind ex_platform ex_naming CInt) [lit "12"] 12%Z.
Proof. apply (proj1 (integer_implements ex_platform ex_naming CInt)). vm_compute. reflexivity. Qed.
Example C89_ex_bool : denotes_value bool_kind [lit "True"] true.
Proof. apply (proj1 (bool_implements ex_platform ex_naming true)). vm_compute. reflexivity. Qed.
Example C89_ex_float : denotes_value (float_kind true) [lit "1"] (Fin false (2 ^ 23) (-23)) /\
  denotes_value (float_kind true) [lit "-0"] (Fin true 0 (-149)) /\ ~ zero (Fin false (2 ^ 23) (-23)).
Proof.
  split; [|split].
  - apply (proj1 (float_implements true)). vm_compute. reflexivity.
  - apply (proj1 (float_implements true)). vm_compute. reflexivity.
  - intros (s & e & X). discriminate X.
Qed.
Example C89_ex_speaks : ex_acts [] (lit "lambda") [[lit "12"]] [] [] [] (Some (lit "I am a lambda: " ++ lit "12")) [] ->
  ex_acts [] (lit "std_function") [[lit "12"]] [] [] [] (Some (lit "I am a std::function: " ++ lit "12")) [].
Proof. apply (C89_speakers ex_platform ex_naming true CULong true); constructor. Qed.

(** * Assumptions *)
Print Assumptions C89_session_iff.
Print Assumptions C89_disaster.
Print Assumptions C89_described.
Print Assumptions C89_scale.
Print Assumptions C89_stdout.
Print Assumptions C89_speakers.
Print Assumptions C89_invert.
Print Assumptions C89_add_commutes.
Print Assumptions C89_add_zero.
