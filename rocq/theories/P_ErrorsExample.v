(** C85: the commands of examples/errors. *)
From Coq Require Import Ascii String NArith ZArith QArith Qabs Bool PeanoNat Lqa Lia List.
Import ListNotations.
From Verif Require Import Util Base LexerSpec StringConv StringConvSpec StringConvProofs SerializerSpec Serializer
  SerializerProofs Lexer LexerMeta LexerProofs LexerMore P_Lexer P_StringConv UMap Exec ExecSpec ExecProofs P_Exec P_Exec2
  P_Serializer FloatConv FloatConvSpec FloatSerializer FloatArith FloatRound FloatConvProofs FloatRoundTrip FloatFixed FloatOps FloatOpsSpec FloatOpsProofs P_Float FloatTextSpec P_FloatText
  Enums EnumsSpec UserTypes UserTypesProofs NamedExample NamedExampleSpec NamedExampleProofs P_NamedExample
  ExampleSession ExampleSpec ExampleProofs ErrorsExample ErrorsExampleSpec.
From Verif Require P_PropertiesExample.

Local Notation length := List.length.
Local Open Scope nat_scope.

Lemma below_zero_iff x : value_in binary32 x -> (below_zero x = true <-> less_than_zero x).
Proof.
  intros V. unfold less_than_zero. destruct x as [neg m e|neg|neg]; cbn [below_zero].
  - destruct V as ((M & _) & _). assert (P := pow2_pos e). split.
    + intros H. apply andb_prop in H. destruct H as [-> H]. apply negb_true_iff, Z.eqb_neq in H. left.
      exists (- (inject_Z m * 2 ^ e))%Q. split; [constructor; reflexivity|].
      assert (D := dyadic_pos m e ltac:(lia)). unfold dyadic in D. lra.
    + intros [(q & S & L)|X]; [|discriminate X].
      assert (Nn : (0 <= inject_Z m * 2 ^ e)%Q).
      { apply Qmult_le_0_compat; [change 0%Q with (inject_Z 0); now apply inject_le|lra]. }
      inversion S as [m' e' q' E|m' e' q' E]; subst; [lra|]. cbn [andb]. apply negb_true_iff, Z.eqb_neq. intros ->.
      change (inject_Z 0) with 0%Q in E. lra.
  - split; [intros ->; now right|]. intros [(q & S & _)|X]; [inversion S|now injection X].
  - split; [discriminate|]. intros [(q & S & _)|X]; [inversion S|discriminate X].
Qed.

Section Errors.
Variables (p : platform) (nm : naming) (uf : bool).
Variable sqrtf : fval -> fval.
Variables sg catching : bool.
Variable d : nat.
Hypothesis Sq : sqrt_type sqrtf.

Local Notation code := (code p nm uf sqrtf).
Local Notation table := (table uf).
Local Notation acts := (acts p nm uf sqrtf catching).
Local Notation goes_wrong := (goes_wrong uf catching).
Local Notation good := (fun _ : unit => True).
Local Notation world_of := (fun u : unit => u).
Local Notation serves := (serves sg commands good world_of).
Local Notation run := (run_prog sg (nested_exec code sg catching d)).
Local Notation exec := (exec_input code sg catching d).
Local Notation floats := (float_kind uf).
Local Notation ints := (integer_kind p nm CInt).
Local Notation Fi := (float_implements uf).
Local Notation Ii := (integer_implements p nm CInt).
Local Notation Bi := (bool_implements p nm (char_signed p)).

Lemma float_value v x : denotes_value floats v x -> value_in binary32 x.
Proof. intros (s & _ & H). exact (value_in_conversion uf s x H). Qed.
Lemma text_of x t : value_in binary32 x -> shows millionth x t -> rtext (RValue (float_ser uf)) x = Done (Some t).
Proof. intros H S. apply C87_float_iff in S; [|exact H]. now rewrite <- S. Qed.
Lemma below v x : denotes_value floats v x -> less_than_zero x -> below_zero x = true.
Proof. intros V. now apply below_zero_iff, (float_value v). Qed.
Lemma not_below v x : denotes_value floats v x -> ~ less_than_zero x -> below_zero x = false.
Proof. intros V N. apply not_true_iff_false. intros B. apply N. apply below_zero_iff; [exact (float_value v x V)|exact B]. Qed.

Lemma float_fits : fits (float_ser uf) (float_param uf).
Proof. exact (implements_fits _ _ Fi). Qed.

Lemma agreed : Forall2 (agree code) commands table.
Proof.
  assert (Ff := float_fits). assert (Fa := anything_fits).
  repeat apply Forall2_cons; try apply Forall2_nil; (split; [reflexivity|]); (split; [discriminate|]);
    (split; [cbn; repeat constructor; cbn; intuition discriminate|]); cbn [snd];
    repeat first [assumption|apply Forall2_cons|apply Forall2_nil].
Qed.

Lemma float_one v (x : fval) : denotes_value floats v x -> converts [float_ser uf] [v] ((x, tt) : args_of [float_ser uf]).
Proof. intros H. apply converts_cons; [now apply (proj1 Fi)|constructor]. Qed.

Local Notation taken := (taken code).
Lemma only_one (f : fn) : taken [f] f.
Proof. exists [], []. split; [reflexivity|intros ? []]. Qed.

Lemma is_not T (K : kind (carrier T)) v : implements T K -> ~ is K v -> exists e, from_value T v = Error e.
Proof.
  intros [A _] N. destruct (from_value T v) as [x|e] eqn:E; [|now exists e]. elim N. exists x. now apply A.
Qed.

Lemma exec_acts u s name pos nd u' es ret out : serves u s -> (forall v, In v pos -> value_no_nul v) -> named_no_nul nd ->
  acts u name pos nd u' es ret out ->
  exists inp s', exec s (Input name pos nd) = Done (s', inl (Result inp es ret out)) /\ serves u' s'.
Proof.
  intros R N Nn A. assert (Hw := proj1 (proj2 (proj2 R))). cbn beta in Hw.
  assert (Kp : set_world s u = s) by (rewrite <- Hw; now destruct s).
  destruct A as [name nd v x tx Hn V L Sh|nd v x V L|nd v x e V L Ec Ex|nd v x tx V Sh|nd v e Ce|nd v (b & B)|nd v Nb (z & Z)|nd v Nb Ni (x & X)
                |nd v e1 e2 e3 C1 C2 C3|nd e No Me|nd v r es Fa Lk Ne|nd v x r es Fa Lf Lk Ne|nd v x r w t g Fa Lf Lk J B Sh a Ha].
  - assert (Bz := not_below _ _ V L). destruct Hn as [-> | ->].
    + apply (run_acts code sg catching d commands good world_of u s _ [FSqrtContext] FSqrtContext [v] nd (x, tt) u [] []
               (sqrtf x) (Some tx) R);
        try discriminate; [cbn; tauto|apply only_one|exact (float_one v x V)|exact Logic.I| |exact (text_of _ _ (Sq x (float_value v x V)) Sh)].
      intros sid _. cbn [ErrorsExample.code f_body fst]. unfold sqrt_context. rewrite Bz. cbn [run_prog]. now rewrite Kp.
    + apply (run_acts code sg catching d commands good world_of u s _ [FSqrtExcept] FSqrtExcept [v] nd (x, tt) u [] []
               (sqrtf x) (Some tx) R);
        try discriminate; [cbn; tauto|apply only_one|exact (float_one v x V)|exact Logic.I| |exact (text_of _ _ (Sq x (float_value v x V)) Sh)].
      intros sid _. cbn [ErrorsExample.code f_body fst]. unfold sqrt_except. rewrite Bz. cbn [run_prog]. now rewrite Kp.
  - assert (Bz := below _ _ V L).
    apply (run_acts code sg catching d commands good world_of u s _ [FSqrtContext] FSqrtContext [v] nd (x, tt) u [non_negative] []
             zero_float (Some (toStringF zero_float)) R);
      try discriminate; [cbn; tauto|apply only_one|exact (float_one v x V)|exact Logic.I| |reflexivity].
    intros sid _. cbn [ErrorsExample.code f_body fst]. unfold sqrt_context. rewrite Bz. cbn [run_prog]. now rewrite ctx_report, Kp.
  - assert (Bz := below _ _ V L). exists (Input (lit "sqrt_except") [v] nd), s. split; [|exact R]. rewrite (exn_text_det _ _ Ex).
    rewrite (run_throws code sg catching d commands good world_of u s _ [FSqrtExcept] FSqrtExcept [v] nd (x, tt) s [] [] (StdException non_negative) R);
      try discriminate; [rewrite Ec; reflexivity|cbn; tauto|apply only_one|exact (float_one v x V)|].
    intros sid _. cbn [ErrorsExample.code f_body fst]. unfold sqrt_except. rewrite Bz. reflexivity.
  - apply (run_acts code sg catching d commands good world_of u s _ [FGetFloat] FGetFloat [v] nd (v, tt) u [] [] x (Some tx) R);
      try discriminate; [cbn; tauto|apply only_one|repeat constructor|exact Logic.I| |exact (text_of _ _ (float_value v x V) Sh)].
    intros sid _. cbn [ErrorsExample.code f_body fst]. unfold get_float. apply (proj1 Fi) in V. rewrite V. cbn [run_prog]. now rewrite Kp.
  - apply (run_acts code sg catching d commands good world_of u s _ [FGetFloat] FGetFloat [v] nd (v, tt) u [e] [] zero_float
             (Some (toStringF zero_float)) R);
      try discriminate; [cbn; tauto|apply only_one|repeat constructor|exact Logic.I| |reflexivity].
    intros sid _. cbn [ErrorsExample.code f_body fst]. unfold get_float.
    apply (proj2 Fi v e (N v (or_introl eq_refl))) in Ce. rewrite Ce. cbn [run_prog]. now rewrite ctx_report, Kp.
  - apply (run_acts code sg catching d commands good world_of u s _ [FGetTypeName] FGetTypeName [v] nd (v, tt) u [] [] (lit "bool")
             (Some (lit "bool")) R);
      try discriminate; [cbn; tauto|apply only_one|repeat constructor|exact Logic.I| |reflexivity].
    intros sid _. cbn [ErrorsExample.code f_body fst]. unfold get_type_name, bool_ser. apply (proj1 Bi) in B. rewrite B. cbn [run_prog]. now rewrite Kp.
  - apply (run_acts code sg catching d commands good world_of u s _ [FGetTypeName] FGetTypeName [v] nd (v, tt) u [] [] (lit "int")
             (Some (lit "int")) R);
      try discriminate; [cbn; tauto|apply only_one|repeat constructor|exact Logic.I| |reflexivity].
    intros sid _. cbn [ErrorsExample.code f_body fst]. unfold get_type_name, bool_ser, int_ser.
    destruct (is_not _ _ v Bi Nb) as (e & ->). apply (proj1 Ii) in Z. rewrite Z. cbn [run_prog]. now rewrite Kp.
  - apply (run_acts code sg catching d commands good world_of u s _ [FGetTypeName] FGetTypeName [v] nd (v, tt) u [] [] (lit "float")
             (Some (lit "float")) R);
      try discriminate; [cbn; tauto|apply only_one|repeat constructor|exact Logic.I| |reflexivity].
    intros sid _. cbn [ErrorsExample.code f_body fst]. unfold get_type_name, bool_ser, int_ser.
    destruct (is_not _ _ v Bi Nb) as (e & ->). destruct (is_not _ _ v Ii Ni) as (e' & ->).
    apply (proj1 Fi) in X. rewrite X. cbn [run_prog]. now rewrite Kp.
  - apply (run_acts code sg catching d commands good world_of u s _ [FGetTypeName] FGetTypeName [v] nd (v, tt) u
             [lit "Unknown type"; e1; e2; e3] [] [] (Some []) R);
      try discriminate; [cbn; tauto|apply only_one|repeat constructor|exact Logic.I| |reflexivity].
    assert (Vn := N v (or_introl eq_refl)).
    intros sid _. cbn [ErrorsExample.code f_body fst]. unfold get_type_name, bool_ser, int_ser.
    apply (proj2 Bi v e1 Vn) in C1. apply (proj2 Ii v e2 Vn) in C2. apply (proj2 Fi v e3 Vn) in C3. rewrite C1, C2, C3.
    cbn [run_prog]. now rewrite !ctx_report, Kp.
  - apply (run_acts code sg catching d commands good world_of u s _ [FTestNamedArgs] FTestNamedArgs [] nd tt u [e] [] tt None R);
      try discriminate; [cbn; tauto|apply only_one|constructor|exact Logic.I| |reflexivity].
    intros sid _. cbn [ErrorsExample.code f_body]. unfold test_named_args. rewrite any_run. cbn [i_named].
    apply find_named_none in No. rewrite No. cbn [run_prog app]. rewrite Kp.
    destruct Me as (sh & B & ->). now rewrite (before_nul_det _ _ B).
  - assert (Er : r = None) by (inversion Lk; subst; try reflexivity; now elim Ne). subst r.
    destruct es as [|e0 es]; [now elim Ne|].
    apply (run_acts code sg catching d commands good world_of u s _ [FTestNamedArgs] FTestNamedArgs [] nd tt u (e0 :: es) [] tt None R);
      try discriminate; [cbn; tauto|apply only_one|constructor|exact Logic.I| |reflexivity].
    intros sid _. cbn [ErrorsExample.code f_body]. unfold test_named_args. rewrite any_run. cbn [i_named].
    apply find_named_some in Fa. rewrite Fa.
    rewrite (lookup_run _ _ _ (float_ser uf) floats _ _ _ None (e0 :: es)); [|exact Fi|exact Nn|exact Lk]. cbn [run_prog app]. now rewrite Kp.
  - destruct es as [|e0 es]; [now elim Ne|].
    apply (run_acts code sg catching d commands good world_of u s _ [FTestNamedArgs] FTestNamedArgs [] nd tt u (e0 :: es) [] tt None R);
      try discriminate; [cbn; tauto|apply only_one|constructor|exact Logic.I| |reflexivity].
    intros sid _. cbn [ErrorsExample.code f_body]. unfold test_named_args. rewrite any_run. cbn [i_named].
    apply find_named_some in Fa. rewrite Fa.
    rewrite (lookup_run _ _ _ (float_ser uf) floats _ _ _ (Some x) []); [|exact Fi|exact Nn|exact Lf].
    rewrite (lookup_run _ _ _ (int_ser p nm) ints _ _ _ r (e0 :: es)); [|exact Ii|exact Nn|exact Lk]. cbn [run_prog app]. now rewrite Kp.
  - assert (Gx : value_in binary32 x) by (inversion Lf; subst; eapply float_value; eassumption).
    apply (C87_general_iff binary32) in Sh; [|exact Gx]. subst g.
    apply (run_acts code sg catching d commands good world_of u s _ [FTestNamedArgs] FTestNamedArgs [] nd tt u []
             (t ++ lit ", " ++ printf_g x ++ a) tt None R);
      try discriminate; [cbn; tauto|apply only_one|constructor|exact Logic.I| |reflexivity].
    intros sid _. cbn [ErrorsExample.code f_body]. unfold test_named_args. rewrite any_run. cbn [i_named].
    apply find_named_some in Fa. rewrite Fa.
    rewrite (lookup_run _ _ _ (float_ser uf) floats _ _ _ (Some x) []); [|exact Fi|exact Nn|exact Lf].
    rewrite (lookup_run _ _ _ (int_ser p nm) ints _ _ _ r []); [|exact Ii|exact Nn|exact Lk].
    apply (joined_det _ _ _ _ (value_str_joined v)) in J. subst w. rewrite (before_nul_det _ _ B).
    cbn [run_prog app]. change (cc_hasErrors (ctx (Input (lit "test_named_args") [] nd) [] [])) with false. cbn iota.
    destruct r as [z|].
    + destruct Ha as (b & Cb & ->). rewrite (P_PropertiesExample.canonical_same _ _ _ Cb (P_PropertiesExample.printf_d_canonical z)).
      cbn [run_prog]. rewrite Kp. unfold cc_output, ctx. cbn. rewrite <- !app_assoc. reflexivity.
    + subst a. cbn [run_prog]. rewrite Kp. unfold cc_output, ctx. cbn. rewrite app_nil_r. reflexivity.
Qed.

Lemma exec_wrong u s name pos nd f : serves u s -> goes_wrong u name pos nd f ->
  ends (fun _ => None) f (exec s (Input name pos nd)).
Proof.
  intros R [nd' v x V L Ec]. assert (Bz := below _ _ V L). right. right. split; [reflexivity|]. eexists s, _.
  rewrite (run_throws code sg catching d commands good world_of u s _ [FSqrtExcept] FSqrtExcept [v] nd' (x, tt) s [] [] (StdException non_negative) R);
    try discriminate; [rewrite Ec; reflexivity|cbn; tauto|apply only_one|exact (float_one v x V)|].
  intros sid _. cbn [ErrorsExample.code f_body fst]. unfold sqrt_except. rewrite Bz. reflexivity.
Qed.

Lemma less_or_not v x : denotes_value floats v x -> less_than_zero x \/ ~ less_than_zero x.
Proof.
  intros V. destruct (below_zero x) eqn:B.
  - left. apply below_zero_iff; [exact (float_value v x V)|exact B].
  - right. intros L. rewrite (below v x V L) in B. discriminate B.
Qed.

Lemma type_total u v nd : value_no_nul v -> exists es ret, acts u (lit "get_type_name") [v] nd u es ret [].
Proof.
  intros Vn. destruct (from_value (bool_serializer (char_signed p)) v) as [b|e1] eqn:E1.
  { eexists _, _. apply acts_is_bool. exists b. now apply (proj1 Bi). }
  assert (Nb : ~ is bool_kind v) by (intros (b & H); apply (proj1 Bi) in H; rewrite E1 in H; discriminate H).
  apply (proj2 Bi v e1 Vn) in E1. destruct (from_value (int_serializer p nm CInt) v) as [z|e2] eqn:E2.
  { eexists _, _. apply acts_is_int; [exact Nb|]. exists z. now apply (proj1 Ii). }
  assert (Ni : ~ is ints v) by (intros (z & H); apply (proj1 Ii) in H; rewrite E2 in H; discriminate H).
  apply (proj2 Ii v e2 Vn) in E2. destruct (from_value (float_ser uf) v) as [x|e3] eqn:E3.
  { eexists _, _. apply acts_is_float; [exact Nb|exact Ni|]. exists x. now apply (proj1 Fi). }
  apply (proj2 Fi v e3 Vn) in E3. eexists _, _. exact (acts_no_type p nm uf sqrtf catching u nd v e1 e2 e3 E1 E2 E3).
Qed.

Lemma named_total u nd : named_no_nul nd -> exists es out, acts u (lit "test_named_args") [] nd u es None out.
Proof.
  intros Nn. destruct (find_named nd (lit "any_arg")) as [v|] eqn:Fa.
  2: { apply find_named_none in Fa. eexists _, _. eapply acts_named_missing; [exact Fa|]. eexists. split; [apply before_nul_c_str|reflexivity]. }
  apply find_named_some in Fa.
  destruct (lookup_total (float_ser uf) floats nd (lit "float_arg") true None Fi Nn) as (r & es & Lf).
  destruct es as [|e es]; [|eexists _, _; eapply acts_named_float; [exact Fa|exact Lf|discriminate]].
  destruct r as [x|]; [|inversion Lf].
  destruct (lookup_total (int_ser p nm) ints nd (lit "int_arg") false None Ii Nn) as (r & es & Lk).
  destruct es as [|e es]; [|eexists _, _; eapply acts_named_int; [exact Fa|exact Lf|exact Lk|discriminate]].
  exists []. destruct r as [z|]; eexists;
    (eapply acts_named; [exact Fa|exact Lf|exact Lk|apply value_str_joined|apply before_nul_c_str|apply (C87_general_iff binary32); [inversion Lf; subst; eapply float_value; eassumption|reflexivity]|]).
  - eexists. split; [apply P_PropertiesExample.printf_d_canonical|reflexivity].
  - reflexivity.
Qed.

Lemma accepted_one P pos : accepted [P] pos -> exists v x, pos = [v] /\ p_ok P v x.
Proof. intros H. inversion H as [|? v ? ? (x & O) H']; subst. inversion H'; subst. now exists v, x. Qed.

Lemma acts_total u name pos nd overloads Ps : (forall v, In v pos -> value_no_nul v) -> named_no_nul nd ->
  In (name, overloads) table -> In Ps overloads -> accepted Ps pos ->
  (exists u' es ret out, acts u name pos nd u' es ret out) \/ exists f, goes_wrong u name pos nd f.
Proof.
  intros N Nn J K A. cbn in J. repeat (destruct J as [J|J]; [injection J as <- <-|]); [..|destruct J]; destruct K as [<-|[]].
  - apply accepted_one in A. destruct A as (v & x & -> & V). cbn in x, V. left.
    destruct (less_or_not v x V) as [L|L]; eexists _, _, _, _; [now apply acts_context with (x := x)|].
    apply acts_sqrt with (x := x); [now left|exact V|exact L|]. apply C87_float_iff; [exact (Sq x (float_value v x V))|reflexivity].
  - apply accepted_one in A. destruct A as (v & x & -> & V). cbn in x, V. destruct (less_or_not v x V) as [L|L].
    + destruct (Bool.bool_dec catching true) as [Ec|Ec].
      * left. eexists _, _, _, _. eapply acts_except; [exact V|exact L|exact Ec|apply exn_text_spec].
      * right. eexists. eapply wrong_except; [exact V|exact L|now destruct catching].
    + left. eexists _, _, _, _. apply acts_sqrt with (x := x); [now right|exact V|exact L|]. apply C87_float_iff; [exact (Sq x (float_value v x V))|reflexivity].
  - apply accepted_one in A. destruct A as (v & x & -> & _). left.
    destruct (implements_cases _ _ v Fi (N v (or_introl eq_refl))) as [(y & Y)|(e & Ce)]; eexists _, _, _, _.
    + eapply acts_float; [exact Y|]. apply C87_float_iff; [exact (float_value v y Y)|reflexivity].
    + eapply acts_no_float. exact Ce.
  - apply accepted_one in A. destruct A as (v & x & -> & _). left.
    destruct (type_total u v nd (N v (or_introl eq_refl))) as (es & ret & H). now exists u, es, ret, [].
  - inversion A; subst. left. destruct (named_total u nd Nn) as (es & out & H). now exists u, es, None, out.
Qed.

Lemma is_implemented : implemented code (fun _ => None) sg catching d commands table acts goes_wrong good world_of.
Proof.
  split.
  - reflexivity.
  - exact agreed.
  - cbn. repeat constructor; cbn; intuition discriminate.
  - intros. now apply exec_acts with (u := sc).
  - intros. now apply exec_wrong with (u := sc).
  - intros. now apply acts_total with (overloads := overloads) (Ps := Ps).
Qed.
End Errors.

(** * Integers are floats *)

Lemma int_is_float p uf s z : number p (UInt CInt) s z -> exists x, conversion binary32 uf s x.
Proof.
  intros H. inversion H as [| |t s' z' D R _|t s' z' U]; subst; [|discriminate U]. clear H.
  assert (B : (- 2 ^ 31 <= z <= 2 ^ 31)%Z) by (unfold in_range in R; cbn in R; lia). clear R.
  destruct D as [ws sn f ds n Bl S Di]. assert (Ln := digits_nonneg _ _ Di).
  assert (Bn : (n <= 2 ^ 31)%Z) by (destruct S; lia). clear B.
  set (q := (inject_Z n * 10 ^ (0 - Z.of_nat (length (@nil byte))))%Q).
  assert (Q : (q == inject_Z n)%Q) by (unfold q; cbn [length Z.of_nat Z.sub Z.add Z.opp]; change (10 ^ 0)%Q with 1%Q; ring).
  assert (T : exists neg, float_text (ws ++ sn ++ ds) neg (Number q)).
  { assert (U : unsigned_text ds (Number q)).
    { apply unsigned_decimal. unfold q. rewrite <- (app_nil_r ds).
      apply (decimal_text_intro ds [] [] [] n 0%Z); [constructor|now rewrite app_nil_r|constructor]. }
    destruct S; eexists; (apply float_text_intro; [exact Bl| |exact U]); [left|right; left|right; right]; split; reflexivity. }
  destruct T as (neg & T).
  assert (Nl : ~ too_large binary32 q).
  { unfold too_large. rewrite Q. intros L. assert (I := inject_le n (2 ^ 31) Bn).
    assert (X : (inject_Z (2 ^ 31) < (inject_Z (2 ^ prec binary32) - (1 # 2)) * 2 ^ emax binary32)%Q) by reflexivity. lra. }
  destruct (Z.eq_dec n 0) as [E0|E0].
  - exists (Fin neg 0 (-149)). assert (Z0 : (q == inject_Z 0 * 2 ^ (-149))%Q) by (rewrite Q, E0; reflexivity).
    apply (conversion_number binary32 uf _ neg q); [exact T|exact Nl| |].
    + apply nearest_exact; [exact binary32_sane|repeat split; cbn; lia|exact Z0].
    + intros _ [_ X]. now apply X.
  - assert (P1 : (1 <= inject_Z n)%Q) by (change 1%Q with (inject_Z 1); apply inject_le; lia).
    destruct (nearest_exists binary32 q binary32_sane) as (m & e & N); [rewrite Q; lra|exact Nl|].
    exists (Fin neg m e). apply (conversion_number binary32 uf _ neg q); [exact T|exact Nl|exact N|].
    intros _ [Ts _]. destruct N as [(Rm & Re & Sub) N]. specialize (Sub Ts).
    destruct (N (2 ^ 23)%Z (-23)%Z) as [A _]; [repeat split; cbn; lia|].
    assert (One : (inject_Z (2 ^ 23) * 2 ^ (-23) == 1)%Q) by reflexivity. rewrite One, Q in A. rewrite Sub in A. cbn [emin binary32] in A.
    assert (Lm : (inject_Z m * 2 ^ (-149) < 1)%Q).
    { assert (I := inject_le m (2 ^ 23) ltac:(cbn in Ts; lia)).
      apply Qle_lt_trans with (inject_Z (2 ^ 23) * 2 ^ (-149))%Q; [|reflexivity]. apply Qmult_le_compat_r; [exact I|discriminate]. }
    rewrite !Qabs_pos in A by lra. lra.
Qed.

Lemma complains {A} (K : kind A) v e : complaint K v e -> ~ is K v.
Proof.
  intros [s h e' -> N _ _|dd e' L _ _] (x & s' & E & W); [injection E as <-; exact (N x W)|]. subst v. now apply L.
Qed.

(** * C85 *)

Section Theorems.
(** The platform, the names of the integer types, what strtof makes of tiny values, std::sqrt,
    whether char is signed, whether exceptions are caught, and how deep commands may nest. *)
Variables (p : platform) (nm : naming) (uf : bool).
Variable sqrtf : fval -> fval.
Variables sg catching : bool.
Variable d : nat.
(** std::sqrt of a float is a float. *)
Hypothesis Sq : sqrt_type sqrtf.

Local Notation table := (table uf).
Local Notation acts := (acts p nm uf sqrtf catching).
Local Notation goes_wrong := (goes_wrong uf catching).
Local Notation C := (cfg_classes sg default_cfg).
Local Notation answers := (answers_text table acts C tt).
Local Notation breaks := (breaks_text goes_wrong C tt).
Local Notation dialogue := (dialogue table acts C tt).
Local Notation disaster := (disaster table acts goes_wrong C tt).
Local Notation stuck := (stuck table acts C tt).
Local Notation session := (ErrorsExample.run p nm uf sqrtf sg catching d).
Local Notation I := (is_implemented p nm uf sqrtf sg catching d Sq).
Local Notation floats := (float_kind uf).
Local Notation ints := (integer_kind p nm CInt).

Lemma begun : exists s, start sg = Done s /\ serves sg commands (fun _ => True) (fun u : unit => u) tt s.
Proof. exact (started _ _ sg catching d _ _ _ _ _ _ I tt Logic.I). Qed.

Theorem C85_session_iff : forall lines rs, Forall no_nul lines ->
  (dialogue lines tt rs <->
   exists s s' xs, start sg = Done s /\ session s lines = Done (s', xs) /\ map reply xs = rs).
Proof.
  intros lines rs N. destruct begun as (s & E & R).
  destruct (session_iff _ _ sg catching d _ _ _ _ _ _ I tt s lines tt rs R N) as [A B]. split.
  - intros D. destruct A as (s' & xs & H & M & _); [now exists tt|]. now exists s, s', xs.
  - intros (s0 & s' & xs & E0 & H & M). rewrite E in E0. injection E0 as <-.
    destruct B as ([] & D & _); [|exact D]. exists s', xs. split; [exact H|]. split; [exact M|now destruct (s_world s')].
Qed.

(** The program ends badly only by an exception that is not caught, or by what C01 is about. *)
Theorem C85_disaster : forall lines s f, Forall no_nul lines -> start sg = Done s ->
  (disaster lines f -> session s lines = Fault f) /\
  (session s lines = Fault f -> disaster lines f \/ stuck lines).
Proof.
  intros lines s f N E. destruct begun as (s0 & E0 & R). rewrite E in E0. injection E0 as <-.
  exact (fault_iff _ _ sg catching d _ _ _ _ _ _ I tt s lines f R N).
Qed.

Theorem C85_described : forall lines, Forall no_nul lines ->
  ((exists rs, dialogue lines tt rs) \/ (exists f, disaster lines f) \/ stuck lines) /\
  (forall rs rs', dialogue lines tt rs -> dialogue lines tt rs' -> rs = rs') /\
  (forall rs f, dialogue lines tt rs -> ~ disaster lines f).
Proof.
  intros lines N. destruct begun as (s & E & R).
  destruct (not_both _ _ sg catching d _ _ _ _ _ _ I tt s lines R N) as (A & _ & D). split; [|split].
  - destruct (total _ _ sg catching d _ _ _ _ _ _ I lines tt s R N) as [([] & rs & H)|[H|H]]; [left; now exists rs|auto|auto].
  - intros rs rs' H H'. exact (proj1 (A _ _ _ _ H H')).
  - intros rs f H. exact (D _ _ _ H).
Qed.

(** With exceptions caught, only C01 is left. *)
Theorem C85_safe : forall lines s f, catching = true -> Forall no_nul lines -> start sg = Done s ->
  session s lines = Fault f -> exists line, In line lines /\ ill_command C line.
Proof.
  intros lines s f Ec N E H. destruct (proj2 (C85_disaster lines s f N E) H) as [D|(a & line & b & u & rs & -> & _ & Il)].
  - exfalso. clear - D Ec. induction D as [u line lines f (n & pos & nd & _ & W)|]; [|assumption]. destruct W. congruence.
  - exists line. split; [|exact Il]. apply in_or_app. right. now left.
Qed.

(** Every text is answered as if it were the only one. *)
Theorem C85_stateless : forall lines rs, dialogue lines tt rs <->
  Forall2 (fun line r => answers line tt (fst (fst r)) (snd (fst r)) (snd r)) lines rs.
Proof.
  intros lines rs. split.
  - intros D. remember tt as u eqn:Eu in D at 1. clear Eu. remember tt as u' eqn:Eu in D. clear Eu.
    induction D as [u|u line lines u1 es ret out u2 rs A D IH]; constructor; [|exact IH]. destruct u, u1. exact A.
  - intros H. induction H as [|line [[es ret] out] lines rs A H IH]; [constructor|]. econstructor; [exact A|exact IH].
Qed.

(** The two ways of reporting an error: the same results, and the same errors but for the words
    before them. *)
Theorem C85_sqrt : forall v nd es ret out, acts tt (lit "sqrt_context") [v] nd tt es ret out ->
  es = [] /\ ret <> None /\ acts tt (lit "sqrt_except") [v] nd tt [] ret out \/
  es = [non_negative] /\ ret = None /\
    (catching = true -> acts tt (lit "sqrt_except") [v] nd tt [lit "Exception caught during execution: " ++ non_negative] None out) /\
    (catching = false -> goes_wrong tt (lit "sqrt_except") [v] nd AssertFailed).
Proof.
  intros v nd es ret out A. inversion A; subst; [left|right].
  - split; [reflexivity|]. split; [discriminate|]. eapply acts_sqrt; [now right|eassumption..].
  - split; [reflexivity|]. split; [reflexivity|]. split; intros Ec.
    + eapply acts_except; [eassumption|eassumption|exact Ec|]. constructor. constructor. vm_compute. intuition discriminate.
    + eapply wrong_except; eassumption.
Qed.

(** Zero is not refused, with a minus sign neither. *)
Theorem C85_sqrt_zero : forall s nd neg e t, conversion binary32 uf s (Fin neg 0 e) ->
  shows millionth (sqrtf (Fin neg 0 e)) t -> acts tt (lit "sqrt_context") [[s]] nd tt [] (Some t) [].
Proof.
  intros s nd neg e t H Sh. apply acts_sqrt with (x := Fin neg 0 e); [now left|now exists s| |exact Sh].
  intros L. apply below_zero_iff in L; [|exact (value_in_conversion uf s _ H)]. cbn in L. now rewrite andb_false_r in L.
Qed.

Lemma type_answers line v nd es ret out : LexerSpec.command C line (inl (SInput (lit "get_type_name") [v] nd)) ->
  answers line tt es ret out -> acts tt (lit "get_type_name") [v] nd tt es ret out.
Proof.
  intros K A. destruct A as [e K'|name pos nd' u es ret out K' D]; [assert (X := command_det _ _ _ _ _ K K'); discriminate X|].
  assert (X := command_det _ _ _ _ _ K K'). injection X as <- <- <-. destruct u.
  destruct D as [u e1 r1 o1 A|os Ps e1 J L P Ne|os e1 J Nl M|e1 Nn Nt U|En]; [destruct u; exact A|exfalso..].
  - cbn in J. repeat (destruct J as [J|J]; [first [discriminate J|injection J as <-]|]); [|destruct J].
    destruct L as [<-|[]]. inversion P as [|? ? ? ? ? ? ? P'|? ? ? ? ? ? B]; subst; [|destruct B].
    inversion P'; subst. now apply Ne.
  - cbn in J. repeat (destruct J as [J|J]; [first [discriminate J|injection J as <-]|]); [|destruct J]. apply Nl. now left.
  - apply Nt. cbn. tauto.
  - discriminate En.
Qed.

(** What get_type_name answers; all integers are floats, so three types leave four answers. *)
Theorem C85_type_name : forall line v nd es ret out,
  LexerSpec.command C line (inl (SInput (lit "get_type_name") [v] nd)) -> answers line tt es ret out ->
  out = [] /\
  (ret = Some (lit "bool") <-> is bool_kind v) /\
  (ret = Some (lit "int") <-> is ints v /\ ~ is bool_kind v) /\
  (ret = Some (lit "float") <-> is floats v /\ ~ is ints v /\ ~ is bool_kind v) /\
  (ret = None <-> ~ is bool_kind v /\ ~ is floats v) /\
  (ret <> None /\ es = [] \/ ret = None /\ length es = 4).
Proof.
  intros line v nd es ret out K A. assert (Sub : is ints v -> is floats v).
  { intros (z & s & -> & W). destruct (int_is_float p uf s z W) as (x & X). now exists x, s. }
  apply (type_answers line v nd es ret out K) in A.
  inversion A; subst; try (match goal with H : _ \/ _ |- _ => destruct H; discriminate end);
    try (match goal with H1 : complaint _ v _, H2 : complaint _ v _, H3 : complaint _ v _ |- _ =>
           apply complains in H1; apply complains in H2; apply complains in H3 end);
    (split; [reflexivity|]); repeat split; try discriminate; try tauto; try (intros; exfalso; tauto);
    try (left; split; [discriminate|reflexivity]); try (right; split; reflexivity).
Qed.

(** The number 0 and the number 1 are taken for bool, every other integer for int. *)
Theorem C85_integers : forall line z t nd es ret out, canonical z t -> in_range p CInt z ->
  LexerSpec.command C line (inl (SInput (lit "get_type_name") [[t]] nd)) -> answers line tt es ret out ->
  ret = Some (if (z =? 0)%Z || (z =? 1)%Z then lit "bool" else lit "int").
Proof.
  intros line z t nd es ret out T R K A.
  destruct (C85_type_name line [t] nd es ret out K A) as (_ & B & Ii & _).
  assert (Et := P_PropertiesExample.canonical_same _ _ _ T (P_PropertiesExample.printf_d_canonical z)).
  assert (U : denotes t z) by (rewrite Et; apply printf_d_denotes).
  destruct (Z.eqb_spec z 0) as [H0|H0]; cbn [orb].
  { apply B. exists false, t. split; [reflexivity|]. left. rewrite Et, H0. reflexivity. }
  destruct (Z.eqb_spec z 1) as [H1|H1].
  { apply B. exists true, t. split; [reflexivity|]. left. rewrite Et, H1. reflexivity. }
  apply Ii. split; [exists z, t; split; [reflexivity|]; apply number_plain; [exact U|exact R|discriminate]|].
  assert (Hc : exists c r, t = c :: r /\ (nat_of_ascii c = 45 \/ 48 <= nat_of_ascii c <= 57)).
  { assert (G : forall ds n, StringConvSpec.digits ds n -> exists c r, ds = c :: r /\ (nat_of_ascii c = 45 \/ 48 <= nat_of_ascii c <= 57)).
    { intros ds n D. destruct (digits_head _ _ D) as (c & r & -> & J). exists c, r. split; [reflexivity|]. right.
      apply isdigit_digit in J. inversion J as [k Hk Hc Hv]. rewrite nat_ascii_embedding by lia. lia. }
    rewrite Et. unfold printf_d. destruct (Z.ltb_spec z 0) as [H|H].
    - exists (ascii_of_N 45), (dec (- z)). split; [reflexivity|now left].
    - exact (G _ _ (proj1 (dec_spec z H))). }
  destruct Hc as (c & r & Ht & Hc).
  intros (b & s & E & W). injection E as <-. destruct W as [W|W].
  - rewrite W in U. destruct b; [apply H1, (denotes_det _ _ _ U (printf_d_denotes 1))|apply H0, (denotes_det _ _ _ U (printf_d_denotes 0))].
  - rewrite Ht in W. destruct b; cbn in W; inversion W as [|? l ? w' [Q|Q]]; subst; cbn in Hc; [lia| |lia|]; cbn in Q; lia.
Qed.

(** test_named_args reports at most one error, and writes something just when there is none. *)
Theorem C85_named : forall nd es ret out, acts tt (lit "test_named_args") [] nd tt es ret out ->
  ret = None /\ (es = [] /\ out <> [] \/ (exists e, es = [e]) /\ out = []).
Proof.
  intros nd es ret out A.
  inversion A; subst; try (match goal with H : _ \/ _ |- _ => destruct H; discriminate end); (split; [reflexivity|]).
  - right. split; [eexists; reflexivity|reflexivity].
  - right. split; [|reflexivity]. match goal with H : lookup _ _ _ _ _ _ es |- _ => inversion H; subst end;
      try (now match goal with H : [] <> [] |- _ => elim H end); eexists; reflexivity.
  - right. split; [|reflexivity]. match goal with H : lookup _ _ _ _ _ _ es |- _ => inversion H; subst end;
      try (now match goal with H : [] <> [] |- _ => elim H end); eexists; reflexivity.
  - left. split; [reflexivity|]. intros X. apply app_eq_nil in X. destruct X as [_ X]. discriminate X.
Qed.
End Theorems.

(** ** Examples *)

Definition ex_sqrt (x : fval) : fval :=
  match x with
  | Fin false m e =>
      let '(m, e) := if Z.even e then (m, e) else (2 * m, e - 1)%Z in
      rounded false (inject_Z (Z.sqrt (m * 2 ^ 120)) * 2 ^ (e / 2 - 60))
  | Fin true m e => if (m =? 0)%Z then x else NaN true
  | Inf false => x
  | Inf true => NaN true
  | NaN _ => x
  end.

Lemma ex_sqrt_type : sqrt_type ex_sqrt.
Proof.
  intros x V. destruct x as [[|] m e|[|]|s]; cbn [ex_sqrt]; try exact Logic.I.
  - destruct (Z.eqb_spec m 0); [exact V|exact Logic.I].
  - destruct (Z.even e); apply rounded_in, Qmult_le_0_compat;
      solve [change 0%Q with (inject_Z 0); apply inject_le, Z.sqrt_nonneg|apply Qlt_le_weak, pow2_pos].
Qed.

Definition ex_session (catching : bool) (l : list string) : outcome (list (list bytes * option bytes * bytes)) :=
  s <- start true ;;
  r <- ErrorsExample.run ex_platform ex_naming false ex_sqrt true catching 3 s (map lit l) ;;
  Done (map reply (snd r)).

(** The commands of ErrorsExample.cpp:94-126. *)
Example C85_ex_run : ex_session true
  ["foo arg"; "foo.bar arg"; "ns.foo arg="; "foo = 1"; ".foo"; "sqrt_context 9.8596"; "sqrt_context -1";
   "sqrt_except 9.8596"; "sqrt_except -1"; "get_float 0.1"; "get_float true"; "get_type_name true"; "get_type_name 3.14";
   "get_type_name string"; "test_named_args"; "test_named_args any_arg=something";
   "test_named_args any_arg=something float_arg=non-float"; "test_named_args any_arg=something float_arg=3.14";
   "test_named_args any_arg=something float_arg=3.14 int_arg=non-int"; "test_named_args any_arg=something float_arg=3.14 int_arg=42";
   "test_named_args any_arg=(foo, bar) float_arg=3.14 int_arg=42"]%string =
  Done
  [([lit "No function 'foo' is registered"], None, []);
   ([lit "No function 'foo.bar' is registered"], None, []);
   ([lit "Syntax error: Expected an argument value, found end of string"], None, []);
   ([lit "Syntax error: Unexpected token '=': no name for the named argument is provided"],
    None, []);
   ([lit "No function '.foo' is registered"], None, []);
   ([], Some (lit "3.14"), []);
   ([lit "Value should be non-negative!"], None, []);
   ([], Some (lit "3.14"), []);
   ([lit "Exception caught during execution: Value should be non-negative!"], None, []);
   ([], Some (lit "0.1"), []);
   ([lit "Unable to convert 'true' to type 'float'"], None, []);
   ([], Some (lit "bool"), []);
   ([], Some (lit "float"), []);
   ([lit "Unknown type";
     lit "Unable to convert 'string' to type 'bool'";
     lit "Unable to convert 'string' to type 'int'";
     lit "Unable to convert 'string' to type 'float'"],
    None, []);
   ([lit "Missing named argument 'any_arg'"], None, []);
   ([lit "Missing named argument 'float_arg'"], None, []);
   ([lit "Unable to convert 'non-float' to type 'float'"], None, []);
   ([], None, lit "something, 3.14");
   ([lit "Unable to convert 'non-int' to type 'int'"], None, []);
   ([], None, lit "something, 3.14, 42");
   ([], None, lit "foo bar, 3.14, 42")].
Proof. vm_compute. reflexivity. Qed.

(** Nobody catches the exception. *)
Example C85_ex_uncaught : ex_session false ["sqrt_except 4"]%string = Done [([], Some (lit "2"), [])] /\
  ex_session false ["sqrt_context -4"; "sqrt_except -4"]%string = Fault AssertFailed.
Proof. split; vm_compute; reflexivity. Qed.

Example C85_ex_types : ex_session true
  ["get_type_name 0"; "get_type_name 1"; "get_type_name 2"; "get_type_name -1"; "get_type_name 2147483648"; "get_type_name nan";
   "get_type_name 01"; "get_type_name ()"; "sqrt_context -0"; "sqrt_context nan"; "sqrt_context -inf"; "sqrt_except x"]%string =
  Done [([], Some (lit "bool"), []); ([], Some (lit "bool"), []); ([], Some (lit "int"), []); ([], Some (lit "int"), []);
        ([], Some (lit "float"), []); ([], Some (lit "float"), []); ([], Some (lit "int"), []);
        ([lit "Unknown type"; lit "Unable to convert '' to type 'bool': Expected 1 subvalues, got 0";
          lit "Unable to convert '' to type 'int': Expected 1 subvalues, got 0";
          lit "Unable to convert '' to type 'float': Expected 1 subvalues, got 0"], None, []);
        ([], Some (lit "0"), []); ([], Some (lit "nan"), []); ([lit "Value should be non-negative!"], None, []);
        ([lit "Unable to convert 'x' to type 'float'"], None, [])].
Proof. vm_compute. reflexivity. Qed.

Local Notation ex_classes := (cfg_classes true default_cfg).
Lemma ex_command line name pos nd : parse_input true default_cfg line = Done (Value (Input name pos nd)) ->
  LexerSpec.command ex_classes line (inl (SInput name pos nd)).
Proof. intros H. now apply C07_value_iff_wellformed. Qed.

Local Notation ex_answers := (answers_text (table false) (acts ex_platform ex_naming false ex_sqrt true) ex_classes tt).

(** A session as a dialogue, and C85_stateless, C85_type_name and C85_integers applied to it. *)
Example C85_ex_dialogue : ex_answers (lit "get_type_name -12") tt [] (Some (lit "int")) [] /\
  is (integer_kind ex_platform ex_naming CInt) [lit "-12"] /\ ~ is bool_kind [lit "-12"].
Proof.
  assert (A : ex_answers (lit "get_type_name -12") tt [] (Some (lit "int")) []).
  { assert (D : dialogue (table false) (acts ex_platform ex_naming false ex_sqrt true) ex_classes tt [lit "get_type_name -12"] tt
                  [([], Some (lit "int"), [])]).
    { apply (C85_session_iff ex_platform ex_naming false ex_sqrt true true 3 ex_sqrt_type).
      - repeat constructor; vm_compute; intuition discriminate.
      - destruct (begun ex_platform ex_naming false ex_sqrt true true 3 ex_sqrt_type) as (s & E & _). exists s.
        assert (X : ex_session true ["get_type_name -12"]%string = Done [([], Some (lit "int"), [])]) by (vm_compute; reflexivity).
        unfold ex_session in X. rewrite E in X. cbn [bind map] in X.
        destruct (ErrorsExample.run ex_platform ex_naming false ex_sqrt true true 3 s [lit "get_type_name -12"]) as [[s' xs]|f]; [|discriminate X].
        cbn [bind fst snd] in X. injection X as X. exists s', xs. split; [exact E|]. split; [reflexivity|exact X]. }
    apply C85_stateless in D. inversion D as [|? ? ? ? A]; subst. exact A. }
  split; [exact A|].
  apply (C85_type_name ex_platform ex_naming false ex_sqrt true true (lit "get_type_name -12") [lit "-12"] [] [] (Some (lit "int")) []);
    [apply ex_command; now vm_compute|exact A|reflexivity].
Qed.

Example C85_ex_integers : forall es ret out, ex_answers (lit "get_type_name -12") tt es ret out -> ret = Some (lit "int").
Proof.
  intros es ret out A.
  apply (C85_integers ex_platform ex_naming false ex_sqrt true true (lit "get_type_name -12") (-12) (lit "-12") [] es ret out);
    [exact (P_PropertiesExample.printf_d_canonical (-12))|cbv; split; discriminate|apply ex_command; now vm_compute|exact A].
Qed.

Lemma ex_float s x : floatFromString binary32 false s = Some x -> conversion binary32 false s x.
Proof. apply C58_exact. exact binary32_sane. Qed.

(** The two cases of C85_sqrt, and a negative zero. *)
Example C85_ex_sqrt : forall c,
  acts ex_platform ex_naming false ex_sqrt c tt (lit "sqrt_except") [[lit "4"]] [] tt [] (Some (lit "2")) [] /\
  (c = true -> acts ex_platform ex_naming false ex_sqrt c tt (lit "sqrt_except") [[lit "-4"]] [] tt
     [lit "Exception caught during execution: Value should be non-negative!"] None []) /\
  (c = false -> goes_wrong false c tt (lit "sqrt_except") [[lit "-4"]] [] AssertFailed).
Proof.
  intros c.
  assert (P : acts ex_platform ex_naming false ex_sqrt c tt (lit "sqrt_context") [[lit "4"]] [] tt [] (Some (lit "2")) []).
  { apply (acts_sqrt ex_platform ex_naming false ex_sqrt c tt (lit "sqrt_context") [] [lit "4"] (Fin false 8388608 (-21))).
    - now left.
    - exists (lit "4"). split; [reflexivity|]. apply ex_float. now vm_compute.
    - intros L. apply below_zero_iff in L; [discriminate L|repeat split; cbn; lia].
    - apply C87_float_iff; [apply ex_sqrt_type; repeat split; cbn; lia|now vm_compute]. }
  assert (M : acts ex_platform ex_naming false ex_sqrt c tt (lit "sqrt_context") [[lit "-4"]] [] tt [non_negative] None []).
  { apply (acts_context ex_platform ex_naming false ex_sqrt c tt [] [lit "-4"] (Fin true 8388608 (-21))).
    - exists (lit "-4"). split; [reflexivity|]. apply ex_float. now vm_compute.
    - apply below_zero_iff; [repeat split; cbn; lia|reflexivity]. }
  apply C85_sqrt in P, M. destruct P as [(_ & _ & P)|(X & _)]; [|discriminate X].
  destruct M as [(X & _)|(_ & _ & M)]; [discriminate X|]. split; [exact P|exact M].
Qed.
Example C85_ex_zero : conversion binary32 false (lit "-0") (Fin true 0 (-149)).
Proof. apply ex_float. now vm_compute. Qed.

(** C85_named with an error and without. *)
Example C85_ex_named : exists e out,
  acts ex_platform ex_naming false ex_sqrt true tt (lit "test_named_args") [] [] tt [e] None [] /\
  acts ex_platform ex_naming false ex_sqrt true tt (lit "test_named_args") []
    [(lit "any_arg", [lit "a"; lit "b"]); (lit "float_arg", [lit "4"])] tt [] None out /\ out = lit "a b, 4".
Proof.
  eexists _, _. split; [|split].
  - apply acts_named_missing; [intros x []|]. eexists. split; [apply before_nul_c_str|reflexivity].
  - apply (acts_named ex_platform ex_naming false ex_sqrt true tt _ [lit "a"; lit "b"] (Fin false 8388608 (-21)) None
             (value_str [lit "a"; lit "b"]) (c_str (value_str [lit "a"; lit "b"])) (lit "4")) with (a := []).
    + now apply find_named_some.
    + eapply lookup_value with (v := [lit "4"]); [now apply find_named_some|]. exists (lit "4"). split; [reflexivity|]. apply ex_float. now vm_compute.
    + apply lookup_default. now apply find_named_none.
    + apply value_str_joined.
    + apply before_nul_c_str.
    + apply (C87_general_iff binary32); [repeat split; cbn; lia|now vm_compute].
    + reflexivity.
  - vm_compute. reflexivity.
Qed.

(** C85_safe: such a text is met. *)
Example C85_ex_ill : ex_session true ["sqrt_except -1"; "f (a ')"]%string = Fault AssertFailed /\ ill_command ex_classes (lit "f (a ')").
Proof. split; [vm_compute; reflexivity|exact C01_ex_ill]. Qed.

(** * Assumptions *)
Print Assumptions C85_session_iff.
Print Assumptions C85_disaster.
Print Assumptions C85_described.
Print Assumptions C85_safe.
Print Assumptions C85_stateless.
Print Assumptions C85_sqrt.
Print Assumptions C85_sqrt_zero.
Print Assumptions C85_type_name.
Print Assumptions C85_integers.
Print Assumptions C85_named.
