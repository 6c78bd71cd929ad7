(** C88: the commands of examples/overloading. *)
From Coq Require Import Ascii String NArith ZArith QArith Bool PeanoNat Lia List.
Import ListNotations.
From Verif Require Import Util Base LexerSpec StringConv StringConvSpec StringConvProofs SerializerSpec Serializer
  SerializerProofs Lexer LexerMeta LexerProofs LexerMore P_Lexer UMap Exec ExecSpec ExecProofs P_Exec
  FloatConv FloatConvSpec FloatSerializer FloatConvProofs UserTypes UserTypesSpec UserTypesProofs
  NamedExample NamedExampleSpec NamedExampleProofs
  ExampleSession ExampleSpec ExampleProofs ExampleMore OverloadingExample OverloadingExampleSpec.

Local Notation length := List.length.
Local Open Scope nat_scope.

Section Overloading.
Variables (p : platform) (nm : naming) (uf : bool).
Variables sg catching : bool.
Variable d : nat.

Local Notation code := (code p nm uf).
Local Notation table := (table p nm uf).
Local Notation acts := (acts p nm uf).
Local Notation good := (fun _ : unit => True).
Local Notation world_of := (fun u : unit => u).
Local Notation serves := (serves sg commands good world_of).
Local Notation run := (run_prog sg (nested_exec code sg catching d)).
Local Notation exec := (exec_input code sg catching d).
Local Notation Fi := (float_implements uf).
Local Notation Ii := (integer_implements p nm CInt).
Local Notation Bi := (bool_implements p nm (char_signed p)).
Local Notation ints := (denotes_value (integer_kind p nm CInt)).
Local Notation floats := (denotes_value (float_kind uf)).
Local Notation bools := (denotes_value bool_kind).

Lemma agreed : Forall2 (agree code) commands table.
Proof.
  assert (Ff : fits (float_ser uf) (float_param uf)) by exact (implements_fits _ _ Fi).
  assert (Fz : fits (int_ser p nm) (int_param p nm)) by exact (implements_fits _ _ Ii).
  assert (Fb : fits (bool_ser p) bool_param) by exact (implements_fits _ _ Bi).
  assert (Ft : fits string_serializer text_param) by exact (implements_fits _ _ text_implements).
  repeat apply Forall2_cons; try apply Forall2_nil; (split; [reflexivity|]); (split; [discriminate|]);
    (split; [cbn; repeat constructor; cbn; intuition discriminate|]); cbn [snd];
    repeat first [assumption|apply Forall2_cons|apply Forall2_nil].
Qed.

Lemma int_one v (z : Z) : ints v z -> converts [int_ser p nm] [v] ((z, tt) : args_of [int_ser p nm]).
Proof. intros H. apply converts_cons; [now apply (proj1 Ii)|constructor]. Qed.
Lemma int_float v w (z : Z) (x : fval) : ints v z -> floats w x ->
  converts [int_ser p nm; float_ser uf] [v; w] ((z, (x, tt)) : args_of [int_ser p nm; float_ser uf]).
Proof. intros H K. apply converts_cons; [now apply (proj1 Ii)|]. apply converts_cons; [now apply (proj1 Fi)|constructor]. Qed.
Lemma text_one t : converts [string_serializer] [[t]] ((t, tt) : args_of [string_serializer]).
Proof. apply converts_cons; [reflexivity|constructor]. Qed.
Lemma text_float t w (x : fval) : floats w x ->
  converts [string_serializer; float_ser uf] [[t]; w] ((t, (x, tt)) : args_of [string_serializer; float_ser uf]).
Proof. intros K. apply converts_cons; [reflexivity|]. apply converts_cons; [now apply (proj1 Fi)|constructor]. Qed.
Lemma text_float_bool t w v (x : fval) (b : bool) : floats w x -> bools v b ->
  converts [string_serializer; float_ser uf; bool_ser p] [[t]; w; v]
    ((t, (x, (b, tt))) : args_of [string_serializer; float_ser uf; bool_ser p]).
Proof.
  intros K B. apply converts_cons; [reflexivity|]. apply converts_cons; [now apply (proj1 Fi)|].
  apply converts_cons; [now apply (proj1 Bi)|constructor].
Qed.

Local Notation taken := (taken code).

Lemma taken_after a f b :
  forallb (fun g => negb (Nat.eqb (length (f_params (code g))) (length (f_params (code f))))) a = true -> taken (a ++ f :: b) f.
Proof.
  intros H. exists a, b. split; [reflexivity|]. intros g Ig. rewrite forallb_forall in H. specialize (H g Ig).
  apply negb_true_iff, Nat.eqb_neq in H. exact H.
Qed.

Local Notation funcs := [FFunc1; FFunc2; FFunc3].
Local Notation mixed := [FLambda; FFunc2; FObjectFunc1 (lit "object_one"); FObjectFunc2 (lit "object_two")].
Local Notation explosions := [FCreateExplosion; FCreateExplosionRadius].

Lemma exec_acts u s name pos nd u' es ret out : serves u s -> acts u name pos nd u' es ret out ->
  exists inp s', exec s (Input name pos nd) = Done (s', inl (Result inp es ret out)) /\ serves u' s'.
Proof.
  intros R A. assert (Hw := proj1 (proj2 (proj2 R))). cbn beta in Hw.
  assert (Kp : set_world s u = s) by (rewrite <- Hw; now destruct s).
  destruct A as [nd|name nd v z Hn V|nd v z w x V W|nd|nd t w x W|nd t w x v b W V|nd t b B|nd t b w x r W B Sh].
  - apply (run_acts code sg catching d commands good world_of u s _ funcs FFunc1 [] nd tt u [] [] (lit "func1") (Some (lit "func1")) R);
      try discriminate; [cbn; now left|exact (taken_after [] FFunc1 _ eq_refl)|constructor|exact Logic.I| |reflexivity].
    intros sid _. cbn [OverloadingExample.code f_body run_prog]. now rewrite Kp.
  - destruct Hn as [-> | ->].
    + apply (run_acts code sg catching d commands good world_of u s _ funcs FFunc2 [v] nd (z, tt) u [] [] (lit "func2") (Some (lit "func2")) R);
        try discriminate; [cbn; now left|exact (taken_after [FFunc1] FFunc2 _ eq_refl)|exact (int_one v z V)|exact Logic.I| |reflexivity].
      intros sid _. cbn [OverloadingExample.code f_body run_prog]. now rewrite Kp.
    + apply (run_acts code sg catching d commands good world_of u s _ mixed FFunc2 [v] nd (z, tt) u [] [] (lit "func2") (Some (lit "func2")) R);
        try discriminate; [cbn; right; now left|exact (taken_after [FLambda] FFunc2 _ eq_refl)|exact (int_one v z V)|exact Logic.I| |reflexivity].
      intros sid _. cbn [OverloadingExample.code f_body run_prog]. now rewrite Kp.
  - apply (run_acts code sg catching d commands good world_of u s _ funcs FFunc3 [v; w] nd (z, (x, tt)) u [] [] (lit "func3") (Some (lit "func3")) R);
      try discriminate; [cbn; now left|exact (taken_after [FFunc1; FFunc2] FFunc3 _ eq_refl)|exact (int_float v w z x V W)|exact Logic.I| |reflexivity].
    intros sid _. cbn [OverloadingExample.code f_body run_prog]. now rewrite Kp.
  - apply (run_acts code sg catching d commands good world_of u s _ mixed FLambda [] nd tt u [] [] (Some (lit "lambda1")) (Some (lit "lambda1")) R);
      try discriminate; [cbn; right; now left|exact (taken_after [] FLambda _ eq_refl)|constructor|exact Logic.I| |reflexivity].
    intros sid _. cbn [OverloadingExample.code f_body run_prog]. now rewrite Kp.
  - apply (run_acts code sg catching d commands good world_of u s _ mixed (FObjectFunc1 (lit "object_one")) [[t]; w] nd (t, (x, tt)) u [] []
             (lit "Object::func1 from object_one") (Some (lit "Object::func1 from object_one")) R);
      try discriminate; [cbn; right; now left|exact (taken_after [FLambda; FFunc2] (FObjectFunc1 (lit "object_one")) _ eq_refl)
        |exact (text_float t w x W)|exact Logic.I| |reflexivity].
    intros sid _. cbn [OverloadingExample.code f_body run_prog]. now rewrite Kp.
  - apply (run_acts code sg catching d commands good world_of u s _ mixed (FObjectFunc2 (lit "object_two")) [[t]; w; v] nd (t, (x, (b, tt))) u [] []
             (lit "Object::func2 from object_two") (Some (lit "Object::func2 from object_two")) R);
      try discriminate; [cbn; right; now left|exact (taken_after [FLambda; FFunc2; FObjectFunc1 (lit "object_one")] (FObjectFunc2 (lit "object_two")) _ eq_refl)
        |exact (text_float_bool t w v x b W V)|exact Logic.I| |reflexivity].
    intros sid _. cbn [OverloadingExample.code f_body run_prog]. now rewrite Kp.
  - apply (run_acts code sg catching d commands good world_of u s _ explosions FCreateExplosion [[t]] nd (t, tt) u [] _ tt None R);
      try discriminate; [cbn; right; right; now left|exact (taken_after [] FCreateExplosion _ eq_refl)|exact (text_one t)|exact Logic.I| |reflexivity].
    intros sid _. cbn [OverloadingExample.code f_body fst]. unfold createExplosion. cbn [run_prog].
    rewrite ctx_line, Kp, (before_nul_det _ _ B), <- !app_assoc. reflexivity.
  - apply (run_acts code sg catching d commands good world_of u s _ explosions FCreateExplosionRadius [[t]; w] nd (t, (x, tt)) u [] _ tt None R);
      try discriminate; [cbn; right; right; now left|exact (taken_after [FCreateExplosion] FCreateExplosionRadius _ eq_refl)
        |exact (text_float t w x W)|exact Logic.I| |reflexivity].
    intros sid _. cbn [OverloadingExample.code f_body fst snd]. unfold createExplosionRadius. cbn [run_prog].
    assert (Vx : value_in binary32 x) by (destruct W as (q & _ & H); exact (value_in_conversion uf q x H)).
    apply shows_fixed_iff in Sh; [|exact Vx]. subst r.
    rewrite ctx_line, Kp, (before_nul_det _ _ B), <- !app_assoc. reflexivity.
Qed.

Lemma accepted_nil pos : accepted [] pos -> pos = [].
Proof. intros H. now inversion H. Qed.
Lemma accepted_cons P Ps pos : accepted (P :: Ps) pos -> exists v x vs, pos = v :: vs /\ p_ok P v x /\ accepted Ps vs.
Proof. intros H. inversion H as [|? v ? vs (x & O) H']; subst. now exists v, x, vs. Qed.

Lemma acts_total u name pos nd overloads Ps : In (name, overloads) table -> In Ps overloads -> accepted Ps pos ->
  exists es ret out, acts u name pos nd u es ret out.
Proof.
  intros J K A. cbn in J. repeat (destruct J as [J|J]; [injection J as <- <-|]); [..|destruct J];
    cbn in K; repeat (destruct K as [<-|K]); try destruct K;
    repeat (let v := fresh "v" in let x := fresh "x" in let V := fresh "V" in
            apply accepted_cons in A; destruct A as (v & x & ? & -> & V & A); cbn in x, V); apply accepted_nil in A; subst;
    repeat match goal with V : denotes_value text_kind _ _ |- _ => destruct V as (? & -> & ?) end;
    eexists _, _, _.
  - apply acts_func1.
  - eapply acts_func2; [now left|eassumption].
  - eapply acts_func3; eassumption.
  - apply acts_lambda.
  - eapply acts_func2; [now right|eassumption].
  - eapply acts_method1; eassumption.
  - eapply acts_method2; eassumption.
  - apply acts_create. apply before_nul_c_str.
  - eapply acts_create_radius; [eassumption|apply before_nul_c_str|].
    apply shows_fixed_iff; [|reflexivity].
    match goal with V : denotes_value _ _ x1 |- _ => destruct V as (q & _ & Hq); exact (value_in_conversion uf q _ Hq) end.
Qed.

Lemma is_implemented : implemented code (fun _ => None) sg catching d commands table acts never good world_of.
Proof.
  split.
  - reflexivity.
  - exact agreed.
  - cbn. repeat constructor; cbn; intuition discriminate.
  - intros. now apply exec_acts with (u := sc).
  - intros. contradiction.
  - intros. left. destruct (acts_total sc name pos nd overloads Ps) as (es & ret & out & Ha); [assumption..|]. now exists sc, es, ret, out.
Qed.

Lemma formed : well_formed table.
Proof.
  split; [|split].
  - cbn. repeat constructor; cbn; intuition discriminate.
  - cbn. intuition discriminate.
  - repeat constructor; cbn; try (intuition discriminate); apply single_exclusive.
Qed.
End Overloading.

(** * C88 *)
Section Theorems.
(** The platform, the names of the integer types, what strtof makes of tiny values, whether char is
    signed, whether exceptions are caught, and how deep commands may nest. *)
Variables (p : platform) (nm : naming) (uf : bool).
Variables sg catching : bool.
Variable d : nat.

Local Notation table := (table p nm uf).
Local Notation acts := (acts p nm uf).
Local Notation C := (cfg_classes sg default_cfg).
Local Notation answers := (answers_text table acts C tt).
Local Notation dialogue := (dialogue table acts C tt).
Local Notation stuck := (stuck table acts C tt).
Local Notation session := (OverloadingExample.run p nm uf sg catching d).
Local Notation I := (is_implemented p nm uf sg catching d).

Lemma begun : exists s, start sg = Done s /\ serves sg commands (fun _ => True) (fun u : unit => u) tt s.
Proof. exact (started _ _ sg catching d _ _ _ _ _ _ I tt Logic.I). Qed.

Lemma no_disaster u lines f : ~ disaster table acts never C u lines f.
Proof. intros D. induction D as [? ? ? ? (n & pos & nd & _ & [])|]; assumption. Qed.

Theorem C88_session_iff : forall lines rs, Forall no_nul lines ->
  (dialogue lines tt rs <->
   exists s s' xs, start sg = Done s /\ session s lines = Done (s', xs) /\ map reply xs = rs).
Proof.
  intros lines rs N. destruct begun as (s & E & R).
  destruct (session_iff _ _ sg catching d _ _ _ _ _ _ I tt s lines tt rs R N) as [A B]. split.
  - intros D. destruct A as (s' & xs & H & M & _); [now exists tt|]. now exists s, s', xs.
  - intros (s0 & s' & xs & E0 & H & M). rewrite E in E0. injection E0 as <-.
    destruct B as ([] & D & _); [|exact D]. exists s', xs. split; [exact H|]. split; [exact M|now destruct (s_world s')].
Qed.

(** No undefined behaviour but that of C01, and no exceptions. *)
Theorem C88_no_fault : forall lines s, Forall no_nul lines -> start sg = Done s ->
  ((exists f, session s lines = Fault f) <-> stuck lines).
Proof.
  intros lines s N E. destruct begun as (s0 & E0 & R). rewrite E in E0. injection E0 as <-. split.
  - intros (f & F). destruct (fault_iff _ _ sg catching d _ _ _ _ _ _ I tt s lines f R N) as [_ B].
    destruct (B F) as [D|D]; [elim (no_disaster _ _ _ D)|exact D].
  - intros D. exact (session_stuck _ _ sg catching d _ _ _ _ _ _ I tt lines s D N R).
Qed.

Theorem C88_described : forall lines, Forall no_nul lines ->
  ((exists rs, dialogue lines tt rs) \/ stuck lines) /\
  (forall rs rs', dialogue lines tt rs -> dialogue lines tt rs' -> rs = rs').
Proof.
  intros lines N. destruct begun as (s & E & R). split.
  - destruct (total _ _ sg catching d _ _ _ _ _ _ I lines tt s R N) as [([] & rs & H)|[(f & H)|H]];
      [left; now exists rs|elim (no_disaster _ _ _ H)|now right].
  - intros rs rs' H H'. exact (proj1 (proj1 (not_both _ _ sg catching d _ _ _ _ _ _ I tt s lines R N) _ _ _ _ H H')).
Qed.

(** Every text is answered as if it were the only one. *)
Theorem C88_stateless : forall lines rs, dialogue lines tt rs <->
  Forall2 (fun line r => answers line tt (fst (fst r)) (snd (fst r)) (snd r)) lines rs.
Proof.
  intros lines rs. split.
  - intros D. remember tt as u eqn:Eu in D at 1. clear Eu. remember tt as u' eqn:Eu in D. clear Eu.
    induction D as [u|u line lines u1 es ret out u2 rs A D IH]; constructor; [|exact IH]. destruct u, u1. exact A.
  - intros H. induction H as [|line [[es ret] out] lines rs A H IH]; [constructor|]. econstructor; [exact A|exact IH].
Qed.

(** ** Which function is called *)

Lemma answered line name pos nd es ret out : LexerSpec.command C line (inl (SInput name pos nd)) ->
  answers line tt es ret out -> does table acts tt name pos nd tt es ret out.
Proof.
  intros K A. destruct A as [e K'|name' pos' nd' u es ret out K' D]; [assert (X := command_det _ _ _ _ _ K K'); discriminate X|].
  assert (X := command_det _ _ _ _ _ K K'). injection X as <- <- <-. now destruct u.
Qed.

Lemma acts_fitting u name pos nd u' es ret out : acts u name pos nd u' es ret out -> es = [] /\ fitting table name pos.
Proof.
  assert (T : forall t, p_ok text_param [t] t) by (intros t; now exists t).
  intros [nd'|name' nd' v z Hn V|nd' v z w x V W|nd'|nd' t w x W|nd' t w x v b W V|nd' t b B|nd' t b w x r W B Sh]; (split; [reflexivity|]).
  - eexists _, []. split; [cbn; now left|]. split; [cbn; tauto|constructor].
  - destruct Hn as [-> | ->]; (eexists _, [int_param p nm]; split; [cbn; eauto|]; split; [cbn; tauto|]; repeat constructor; now exists z).
  - eexists _, [int_param p nm; float_param uf]. split; [cbn; now left|]. split; [cbn; tauto|]. repeat constructor; [now exists z|now exists x].
  - eexists _, []. split; [cbn; right; now left|]. split; [cbn; tauto|constructor].
  - eexists _, [text_param; float_param uf]. split; [cbn; right; now left|]. split; [cbn; tauto|]. repeat constructor; [exists t; apply T|now exists x].
  - eexists _, [text_param; float_param uf; bool_param]. split; [cbn; right; now left|]. split; [cbn; tauto|].
    repeat constructor; [exists t; apply T|now exists x|now exists b].
  - eexists _, [text_param]. split; [cbn; right; right; now left|]. split; [cbn; tauto|]. repeat constructor. exists t; apply T.
  - eexists _, [text_param; float_param uf]. split; [cbn; right; right; now left|]. split; [cbn; tauto|].
    repeat constructor; [exists t; apply T|now exists x].
Qed.

(** The number of arguments decides alone which function is called. *)
Theorem C88_by_count : forall line name pos nd es ret out,
  LexerSpec.command C line (inl (SInput name pos nd)) -> answers line tt es ret out ->
  name = lit "func" \/ name = lit "mixed_func" ->
  out = [] /\ (es = [] -> exists t, nth_function name (length pos) t /\ ret = Some t) /\ (es <> [] -> ret = None) /\
  (es = [] <-> fitting table name pos).
Proof.
  intros line name pos nd es ret out K A Hn. apply (answered line name pos nd es ret out K) in A.
  apply (does_cases table acts (formed p nm uf)) in A. destruct A as [A|(_ & Ne & -> & -> & Nf)].
  - destruct (acts_fitting _ _ _ _ _ _ _ _ A) as [-> F].
    assert (X : out = [] /\ exists t, nth_function name (length pos) t /\ ret = Some t).
    { destruct A as [nd'|name nd' v z Hm V|nd' v z w x V W|nd'|nd' t w x W|nd' t w x v b W V|nd' t b B|nd' t b w x r W B Sh];
        try (destruct Hn; discriminate); (split; [reflexivity|]); eexists; (split; [|reflexivity]); try constructor.
      destruct Hm as [-> | ->]; constructor. }
    destruct X as [-> X]. split; [reflexivity|]. split; [intros _; exact X|]. split; [now intros []|]. now split.
  - split; [reflexivity|]. split; [now intros ->|]. split; [reflexivity|]. split; [now intros ->|now intros F].
Qed.

(** The arguments are converted to the types of that function only: there is no second attempt with
    another one, and its messages are all that is reported. *)
Theorem C88_no_second_choice : forall line name pos nd es ret out overloads Ps,
  LexerSpec.command C line (inl (SInput name pos nd)) -> answers line tt es ret out ->
  In (name, overloads) table -> In Ps overloads -> length Ps = length pos -> problems Ps pos es.
Proof.
  intros line name pos nd es ret out overloads Ps K A J Q L. apply (answered line name pos nd es ret out K) in A.
  destruct (formed p nm uf) as (Nn & Nb & Fo). rewrite Forall_forall in Fo.
  assert (Same : forall os Ps', In (name, os) table -> In Ps' os -> length Ps' = length pos -> Ps' = Ps).
  { intros os Ps' J' Q' L'. assert (X := same_image fst table _ _ Nn J J' eq_refl). injection X as <-.
    destruct (Fo _ J) as [Nd _]. exact (same_image _ overloads _ _ Nd Q' Q (eq_trans L' (eq_sym L))). }
  destruct A as [u e1 r1 o1 A|os Ps' e1 J' Q' P Ne|os e1 J' Nl M|e1 Ne Nt U|En].
  - destruct (acts_fitting _ _ _ _ _ _ _ _ A) as [-> (os & Ps' & J' & Q' & Ac)].
    rewrite <- (Same os Ps' J' Q' (accepted_length _ _ Ac)). clear - Ac.
    induction Ac as [|P v Ps vs (x & O) Ac IH]; [constructor|]. now apply problems_fine with (x := x).
  - now rewrite <- (Same os Ps' J' Q' (problems_length _ _ _ P)).
  - exfalso. assert (X := same_image fst table _ _ Nn J J' eq_refl). injection X as <-. apply Nl. rewrite <- L. now apply in_map.
  - exfalso. apply Nt. apply (in_map fst) in J. exact J.
  - exfalso. apply Nb. apply (in_map fst) in J. cbn [fst] in J. now rewrite En in J.
Qed.

(** With any other number of arguments the numbers that are possible are listed. *)
Theorem C88_wrong_count : forall line name pos nd es ret out overloads,
  LexerSpec.command C line (inl (SInput name pos nd)) -> answers line tt es ret out ->
  In (name, overloads) table -> ~ In (length pos) (map (@length _) overloads) ->
  ret = None /\ out = [] /\ exists e, es = [e] /\ arity_message name (map (@length _) overloads) (length pos) e.
Proof.
  intros line name pos nd es ret out overloads K A J Nl. apply (answered line name pos nd es ret out K) in A.
  destruct (formed p nm uf) as (Nn & Nb & _).
  destruct A as [u e1 r1 o1 A|os Ps' e1 J' Q' P Ne|os e1 J' Nl' M|e1 Ne Nt U|En].
  - exfalso. destruct (acts_fitting _ _ _ _ _ _ _ _ A) as [_ (os & Ps' & J' & Q' & Ac)].
    assert (X := same_image fst table _ _ Nn J J' eq_refl). injection X as <-. apply Nl. rewrite <- (accepted_length _ _ Ac). now apply in_map.
  - exfalso. assert (X := same_image fst table _ _ Nn J J' eq_refl). injection X as <-. apply Nl. rewrite <- (problems_length _ _ _ P). now apply in_map.
  - assert (X := same_image fst table _ _ Nn J J' eq_refl). injection X as <-. split; [reflexivity|]. split; [reflexivity|]. now exists e1.
  - exfalso. apply Nt. apply (in_map fst) in J. exact J.
  - exfalso. apply Nb. apply (in_map fst) in J. cbn [fst] in J. now rewrite En in J.
Qed.
End Theorems.

(** ** Examples *)

Definition ex_session (l : list string) : outcome (list (list bytes * option bytes * bytes)) :=
  s <- start true ;;
  r <- OverloadingExample.run ex_platform ex_naming true true true 3 s (map lit l) ;;
  Done (map reply (snd r)).

(** The commands of OverloadingExample.cpp:83-97. *)
Example C88_ex_run : ex_session
  ["func"; "func 42"; "func 42 3.14"; "mixed_func"; "mixed_func 42"; "mixed_func foo 3.14"; "mixed_func foo 3.14 true";
   "explosions.create small"; "explosions.create small 1.5"; "func 1 2 3 4"; "mixed_func 1 2 3 4"]%string =
  Done [([], Some (lit "func1"), []); ([], Some (lit "func2"), []); ([], Some (lit "func3"), []);
        ([], Some (lit "lambda1"), []); ([], Some (lit "func2"), []);
        ([], Some (lit "Object::func1 from object_one"), []); ([], Some (lit "Object::func2 from object_two"), []);
        ([], None, lit "Creating an explosion 'small' with the default radius" ++ [nl]);
        ([], None, lit "Creating an explosion 'small' with the radius 1.500000" ++ [nl]);
        ([lit "Wrong number of arguments to 'func': expected 0, 1 or 2, got 4"], None, []);
        ([lit "Wrong number of arguments to 'mixed_func': expected 0, 1, 2 or 3, got 4"], None, [])].
Proof. vm_compute. reflexivity. Qed.

(** [mixed_func] with a text and nothing else does not become the function with a text. *)
Example C88_ex_more : ex_session
  ["mixed_func foo"; "mixed_func 42 bar"; "func x y"; "explosions.create"; "explosions.create 1 2 3"; "explosions.create 'a b' nan";
   "func (1 2)"; "explosions.create (1 2) x"; "Func"; "func 'unclosed"]%string =
  Done [([lit "Unable to convert 'foo' to type 'int'"], None, []);
        ([lit "Unable to convert 'bar' to type 'float'"], None, []);
        ([lit "Unable to convert 'x' to type 'int'"; lit "Unable to convert 'y' to type 'float'"], None, []);
        ([lit "Wrong number of arguments to 'explosions.create': expected 1 or 2, got 0"], None, []);
        ([lit "Wrong number of arguments to 'explosions.create': expected 1 or 2, got 3"], None, []);
        ([], None, lit "Creating an explosion 'a b' with the radius nan" ++ [nl]);
        ([lit "Unable to convert '1 2' to type 'int': Expected 1 subvalues, got 2"], None, []);
        ([lit "Unable to convert '1 2' to type 'string': Expected 1 subvalues, got 2"; lit "Unable to convert 'x' to type 'float'"], None, []);
        ([lit "No function 'Func' is registered"], None, []);
        ([lit "Syntax error: Token ''' doesn't have a corresponding opening/closing quote"], None, [])].
Proof. vm_compute. reflexivity. Qed.

Lemma ex_done l r s : ex_session l = Done r -> start true = Done s ->
  exists s' xs, OverloadingExample.run ex_platform ex_naming true true true 3 s (map lit l) = Done (s', xs) /\ map reply xs = r.
Proof.
  intros X E. unfold ex_session in X. rewrite E in X. cbn [bind] in X.
  destruct (OverloadingExample.run ex_platform ex_naming true true true 3 s (map lit l)) as [[s' xs]|f]; [|discriminate X].
  cbn [bind fst snd] in X. injection X as <-. clear E. exists s', xs. split; reflexivity.
Qed.

Local Notation ex_classes := (cfg_classes true default_cfg).
Local Notation ex_table := (table ex_platform ex_naming true).
Local Notation ex_acts := (acts ex_platform ex_naming true).
Lemma ex_command line name pos nd : parse_input true default_cfg line = Done (Value (Input name pos nd)) ->
  LexerSpec.command ex_classes line (inl (SInput name pos nd)).
Proof. intros H. now apply C07_value_iff_wellformed. Qed.

Lemma ex_one line r : no_nul (lit line) -> ex_session [line] = Done [r] ->
  answers_text ex_table ex_acts ex_classes tt (lit line) tt (fst (fst r)) (snd (fst r)) (snd r).
Proof.
  intros N X. assert (D : dialogue ex_table ex_acts ex_classes tt [lit line] tt [r]).
  { apply (C88_session_iff ex_platform ex_naming true true true 3); [constructor; [exact N|constructor]|].
    destruct (begun ex_platform ex_naming true true true 3) as (s & E & _). exists s.
    destruct (ex_done [line] [r] s X E) as (s' & xs & H). exists s', xs. split; [exact E|exact H]. }
  apply C88_stateless in D. inversion D; subst. assumption.
Qed.

(** Texts that the last three theorems are about. *)
Example C88_ex_by_count : answers_text ex_table ex_acts ex_classes tt (lit "mixed_func foo 3.14") tt [] (Some (lit "Object::func1 from object_one")) [] /\
  LexerSpec.command ex_classes (lit "mixed_func foo 3.14") (inl (SInput (lit "mixed_func") [[lit "foo"]; [lit "3.14"]] [])) /\
  fitting ex_table (lit "mixed_func") [[lit "foo"]; [lit "3.14"]].
Proof.
  assert (A : answers_text ex_table ex_acts ex_classes tt (lit "mixed_func foo 3.14") tt [] (Some (lit "Object::func1 from object_one")) []).
  { apply (ex_one "mixed_func foo 3.14" ([], Some (lit "Object::func1 from object_one"), [])); [vm_compute; intuition discriminate|vm_compute; reflexivity]. }
  assert (K : LexerSpec.command ex_classes (lit "mixed_func foo 3.14") (inl (SInput (lit "mixed_func") [[lit "foo"]; [lit "3.14"]] []))).
  { apply ex_command. vm_compute. reflexivity. }
  split; [exact A|]. split; [exact K|].
  exact (proj1 (proj2 (proj2 (proj2 (C88_by_count _ _ _ _ _ _ _ _ _ _ _ K A (or_intror eq_refl))))) eq_refl).
Qed.

Example C88_ex_no_second_choice : exists es, LexerSpec.command ex_classes (lit "mixed_func foo") (inl (SInput (lit "mixed_func") [[lit "foo"]] [])) /\
  answers_text ex_table ex_acts ex_classes tt (lit "mixed_func foo") tt es None [] /\ es <> [] /\
  problems [int_param ex_platform ex_naming] [[lit "foo"]] es.
Proof.
  exists [lit "Unable to convert 'foo' to type 'int'"].
  assert (K : LexerSpec.command ex_classes (lit "mixed_func foo") (inl (SInput (lit "mixed_func") [[lit "foo"]] []))).
  { apply ex_command. vm_compute. reflexivity. }
  assert (A : answers_text ex_table ex_acts ex_classes tt (lit "mixed_func foo") tt [lit "Unable to convert 'foo' to type 'int'"] None []).
  { apply (ex_one "mixed_func foo" ([lit "Unable to convert 'foo' to type 'int'"], None, [])); [vm_compute; intuition discriminate|vm_compute; reflexivity]. }
  split; [exact K|]. split; [exact A|]. split; [discriminate|].
  eapply (C88_no_second_choice ex_platform ex_naming true true); [exact K|exact A|right; left; reflexivity|right; left; reflexivity|reflexivity].
Qed.

Example C88_ex_wrong_count : LexerSpec.command ex_classes (lit "func 1 2 3 4") (inl (SInput (lit "func") [[lit "1"]; [lit "2"]; [lit "3"]; [lit "4"]] [])) /\
  ~ In 4 (map (@length _) [[]; [int_param ex_platform ex_naming]; [int_param ex_platform ex_naming; float_param true]]).
Proof. split; [apply ex_command; vm_compute; reflexivity|cbn; intuition discriminate]. Qed.

(** * Assumptions *)
Print Assumptions C88_session_iff.
Print Assumptions C88_no_fault.
Print Assumptions C88_described.
Print Assumptions C88_stateless.
Print Assumptions C88_by_count.
Print Assumptions C88_no_second_choice.
Print Assumptions C88_wrong_count.
