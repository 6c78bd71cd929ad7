(** Properties C35-C39 and C50: named arguments, variables, properties, metadata, and
    handlers that use the Bindings object that runs them. *)
From Coq Require Import Ascii String NArith ZArith Bool PeanoNat Lia List.
Import ListNotations.
From Verif Require Import Util Base StringConv StringConvSpec StringConvProofs
  SerializerSpec Serializer SerializerProofs Lexer UMap UMapSpec UMapProofs UMapMore UMapIter
  Exec ExecSpec ExecProofs ExecMore ExecKinds P_Exec.

(** * C35  Named arguments: first match wins, defaults and errors as specified *)

Lemma find_named_some l key v : find_named l key = Some v <-> first_named key l v.
Proof.
  induction l as [|[k w] l IH]; simpl.
  - split; [discriminate|]. intros (b & a & E & _). now destruct b.
  - destruct (bytes_eqb_spec k key) as [->|N].
    + split.
      * intros [= ->]. exists [], l. split; [reflexivity|]. easy.
      * intros (b & a & E & H). destruct b as [|x b]; [now injection E as -> _|].
        injection E as <- _. exfalso. apply (H (key, w)); [now left|reflexivity].
    + rewrite IH. split.
      * intros (b & a & -> & H). exists ((k, w) :: b), a. split; [reflexivity|].
        intros x [<-|I]; [exact N|auto].
      * intros (b & a & E & H). destruct b as [|x b]; [now injection E as -> _ _|].
        injection E as <- E. exists b, a. split; [exact E|]. intros y I. apply H. now right.
Qed.

Lemma find_named_none l key : find_named l key = None <-> no_named key l.
Proof.
  induction l as [|[k w] l IH]; simpl.
  - split; [intros _ x []|reflexivity].
  - destruct (bytes_eqb_spec k key) as [->|N].
    + split; [discriminate|]. intros H. exfalso. apply (H (key, w)); [now left|reflexivity].
    + rewrite IH. split; intros H x I.
      * destruct I as [<-|I]; [exact N|now apply H].
      * apply H. now right.
Qed.

(** NamedArgs::get finds the value of the first argument with that key, and only reports
    a missing key if there is none. *)
Theorem C35_get_first_match : forall l key,
  (forall v, named_get l key = inl v <-> first_named key l v) /\
  (forall e, named_get l key = inr e <->
     no_named key l /\ exists msg, e = MissingKey msg /\ missing_message key msg).
Proof.
  intros l key. unfold named_get. split.
  - intros v. rewrite <- find_named_some. destruct (find_named l key); split; congruence.
  - intros e. rewrite <- find_named_none. destruct (find_named l key); split.
    + discriminate.
    + intros [E _]. discriminate.
    + intros [= <-]. split; [reflexivity|]. eexists. split; [reflexivity|].
      exists (c_str key). split; [apply before_nul_c_str|reflexivity].
    + intros (_ & msg & -> & shown & B & ->). now rewrite (before_nul_det _ _ B).
Qed.

Theorem C35_get_typed : forall T l key,
  (forall x, named_get_as T l key = inl x <->
     exists v, first_named key l v /\ from_value T v = Value x) /\
  (forall msg, named_get_as T l key = inr (TypeMismatch msg) <->
     exists v, first_named key l v /\ from_value T v = Error msg) /\
  (forall msg, named_get_as T l key = inr (MissingKey msg) <->
     no_named key l /\ missing_message key msg).
Proof.
  intros T l key. destruct (C35_get_first_match l key) as [G M]. unfold named_get_as.
  destruct (named_get l key) as [v|e] eqn:E.
  - assert (F := proj1 (G v) eq_refl).
    assert (U : forall w, first_named key l w -> w = v).
    { intros w Fw. apply G in Fw. congruence. }
    destruct (from_value T v) as [y|m] eqn:C.
    + split; [|split]; intros z; split.
      * intros [= <-]. eauto.
      * intros (w & Fw & Cw). apply U in Fw. subst w. congruence.
      * discriminate.
      * intros (w & Fw & Cw). apply U in Fw. subst w. congruence.
      * discriminate.
      * intros [N _]. apply find_named_none in N. apply find_named_some in F. congruence.
    + split; [|split]; intros z; split.
      * discriminate.
      * intros (w & Fw & Cw). apply U in Fw. subst w. congruence.
      * intros [= <-]. eauto.
      * intros (w & Fw & Cw). apply U in Fw. subst w. congruence.
      * discriminate.
      * intros [N _]. apply find_named_none in N. apply find_named_some in F. congruence.
  - destruct (proj1 (M e) eq_refl) as (N & msg & -> & MM).
    assert (U : forall w, ~ first_named key l w).
    { intros w Fw. apply find_named_some in Fw. apply find_named_none in N. congruence. }
    split; [|split]; intros z; split.
    + discriminate.
    + intros (w & Fw & _). now apply U in Fw.
    + discriminate.
    + intros (w & Fw & _). now apply U in Fw.
    + intros [= <-]. auto.
    + intros (_ & shown & B & ->). destruct MM as (sh & B' & ->).
      rewrite (before_nul_det _ _ B), (before_nul_det _ _ B'). reflexivity.
Qed.

Section C35.
Context {W F R : Type}.
Variable code : F -> functor W F.
Variable sg catching : bool.
Variables (sid : nat) (s : state W F) (evs : list event) (nm : list (bytes * value)).
Local Notation behaves p q :=
  (forall s' evs' nm' fin, runs code sg catching R sid s evs nm p s' evs' nm' fin <->
     runs code sg catching R sid s (fst q) nm (snd q) s' evs' nm' fin).

(** An untyped lookup inside a handler continues with the value of the first match and
    reports nothing; without a match it continues without a value, reporting the missing
    key exactly if the argument is required. *)
Theorem C35_lookup : forall key required (k : option value -> prog W F R),
  (forall v, first_named key nm v -> behaves (getOrReport key required k) (evs, k (Some v))) /\
  (no_named key nm -> required = false -> behaves (getOrReport key required k) (evs, k None)) /\
  (no_named key nm -> required = true ->
     exists msg, missing_message key msg /\
     behaves (getOrReport key required k) (evs ++ [Reported msg], k None)).
Proof.
  intros key required k. destruct (C35_get_first_match nm key) as [G M].
  split; [|split].
  - intros v Fv s' evs' nm' fin. rewrite run_step_iff. simpl.
    apply G in Fv. now rewrite Fv.
  - intros N -> s' evs' nm' fin. rewrite run_step_iff. simpl.
    destruct (named_get nm key) as [v|e] eqn:E; [|reflexivity].
    exfalso. destruct (G v) as [G1 _]. apply find_named_none in N.
    specialize (G1 eq_refl). apply find_named_some in G1. congruence.
  - intros N ->. destruct (named_get nm key) as [v|e] eqn:E.
    { exfalso. destruct (G v) as [G1 _]. apply find_named_none in N.
      specialize (G1 eq_refl). apply find_named_some in G1. congruence. }
    destruct (proj1 (M e) eq_refl) as (_ & msg & -> & MM). exists msg. split; [exact MM|].
    intros s' evs' nm' fin. rewrite run_step_iff. simpl. rewrite E. simpl.
    rewrite run_step_iff. reflexivity.
Qed.

(** A typed lookup: value, default, missing-key error or conversion error. *)
Theorem C35_typed_lookup : forall T key required default (k : option (carrier T) -> prog W F R),
  let p := getOrReport_as T key required default k in
  (forall v x, first_named key nm v -> from_value T v = Value x -> behaves p (evs, k (Some x))) /\
  (forall v e, first_named key nm v -> from_value T v = Error e ->
     behaves p (evs ++ [Reported e], k None)) /\
  (no_named key nm -> required = false -> behaves p (evs, k default)) /\
  (no_named key nm -> required = true ->
     exists msg, missing_message key msg /\ behaves p (evs ++ [Reported msg], k None)).
Proof.
  intros T key required default k p. destruct (C35_get_typed T nm key) as (G & TM & MK).
  assert (S : forall s' evs' nm' fin,
    runs code sg catching R sid s evs nm p s' evs' nm' fin <->
    runs code sg catching R sid s evs nm
      (match named_get_as T nm key with
       | inl x => k (Some x)
       | inr e => if negb required && match e with MissingKey _ => true | _ => false end
                  then k default else ReportError (named_message e) (k None)
       end) s' evs' nm' fin).
  { intros. unfold p, getOrReport_as. rewrite run_step_iff. reflexivity. }
  split; [|split; [|split]].
  - intros v x Fv Cv s' evs' nm' fin. rewrite S.
    rewrite (proj2 (G x)) by eauto. reflexivity.
  - intros v e Fv Cv s' evs' nm' fin. rewrite S.
    rewrite (proj2 (TM e)) by eauto. rewrite andb_false_r. rewrite run_step_iff. reflexivity.
  - intros N -> s' evs' nm' fin. rewrite S.
    destruct (C35_get_first_match nm key) as [G0 M0].
    destruct (named_get_as T nm key) as [x|[msg|msg]] eqn:E.
    + exfalso. destruct (proj1 (G x) eq_refl) as (v & Fv & _).
      apply find_named_none in N. apply find_named_some in Fv. congruence.
    + reflexivity.
    + exfalso. destruct (proj1 (TM msg) eq_refl) as (v & Fv & _).
      apply find_named_none in N. apply find_named_some in Fv. congruence.
  - intros N ->. destruct (named_get_as T nm key) as [x|[msg|msg]] eqn:E.
    + exfalso. destruct (proj1 (G x) eq_refl) as (v & Fv & _).
      apply find_named_none in N. apply find_named_some in Fv. congruence.
    + exists msg. split; [now apply MK|]. intros s' evs' nm' fin. rewrite S. simpl.
      rewrite run_step_iff. reflexivity.
    + exfalso. destruct (proj1 (TM msg) eq_refl) as (v & Fv & _).
      apply find_named_none in N. apply find_named_some in Fv. congruence.
Qed.
End C35.

(** Every list of named arguments falls in one of the cases. *)
Theorem C35_cases : forall key l, (exists v, first_named key l v) \/ no_named key l.
Proof.
  intros key l. destruct (find_named l key) as [v|] eqn:E.
  - left. exists v. now apply find_named_some.
  - right. now apply find_named_none.
Qed.

Example C35_ex_first : first_named (lit "k")
  [(lit "a", [lit "0"]); (lit "k", [lit "1"]); (lit "k", [lit "2"])] [lit "1"].
Proof. apply find_named_some. reflexivity. Qed.
Example C35_ex_missing : named_get [(lit "a", [lit "0"])] (lit "k") =
  inr (MissingKey (lit "Missing named argument 'k'")).
Proof. reflexivity. Qed.
Example C35_ex_mismatch : named_get_as i32 [(lit "k", [lit "x"])] (lit "k") =
  inr (TypeMismatch (lit "Unable to convert 'x' to type 'int'")).
Proof. reflexivity. Qed.

(** * C36  A bound variable behaves like a register *)

(** The command [name] consists of exactly these overloads. *)
Definition bound {W F} (code : F -> functor W F) sg (s : state W F) name (fs : list (functor W F))
  : Prop :=
  exists cmd, get sg s name = Done (Some cmd) /\ map (fun f => code (snd f)) (c_functors cmd) = fs.

Lemma set_world_same {W F} (s : state W F) : set_world s (s_world s) = s.
Proof. now destruct s. Qed.

Lemma bound_two {W F} (code : F -> functor W F) sg s name f g :
  bound code sg s name [f; g] ->
  exists n a b, get sg s name = Done (Some (Command n [a; b])) /\
    code (snd a) = f /\ code (snd b) = g.
Proof.
  intros ([n fs] & G & E). simpl in E.
  destruct fs as [|a [|b [|c fs]]]; try discriminate. injection E as <- <-. eauto 10.
Qed.

Lemma two_arities {W F} (code : F -> functor W F) name a b args :
  length (f_params (code (snd a))) = 0 -> length (f_params (code (snd b))) = 1 ->
  forall x y (l : list value), args = x :: y :: l ->
  none_accepts code [a; b] (length args) /\
  arity_message name [0; 1] (length args) (wrongArityError code name [a; b] (length args)).
Proof.
  intros A B x y l ->. split.
  - intros g [<-|[<-|[]]]; simpl; lia.
  - rewrite <- A at 1. rewrite <- B. apply (wrong_arity code name [a; b]).
Qed.

Section C36.
Context {W F : Type}.
Variable code : F -> functor W F.
Variable sg catching : bool.

(** The execution of a command with an overload of no parameter and one of one parameter,
    neither of which executes commands. *)
Lemma two_overloads d s inp n (a b : nat * F) :
  i_name inp <> [] -> get sg s (i_name inp) = Done (Some (Command n [a; b])) ->
  length (f_params (code (snd a))) = 0 -> length (f_params (code (snd b))) = 1 ->
  exec_input code sg catching d s inp =
  match i_args inp with
  | [] => r <- invokeTrampoline code sg (nested_exec code sg catching d) a s (CallCtx inp empty_result) ;;
          (let '(s', c', o) := r in
           match o with
           | inl _ => Done (s', inl (Result (cc_input c') (r_errors (cc_result c'))
                                            (r_return (cc_result c')) (r_output (cc_result c'))))
           | inr x => if catching
                      then Done (s', inl (Result (cc_input c') (r_errors (cc_result c') ++ [exn_text x])
                                            (r_return (cc_result c')) (r_output (cc_result c'))))
                      else Done (s', inr x)
           end)
  | [_] => r <- invokeTrampoline code sg (nested_exec code sg catching d) b s (CallCtx inp empty_result) ;;
          (let '(s', c', o) := r in
           match o with
           | inl _ => Done (s', inl (Result (cc_input c') (r_errors (cc_result c'))
                                            (r_return (cc_result c')) (r_output (cc_result c'))))
           | inr x => if catching
                      then Done (s', inl (Result (cc_input c') (r_errors (cc_result c') ++ [exn_text x])
                                            (r_return (cc_result c')) (r_output (cc_result c'))))
                      else Done (s', inr x)
           end)
  | _ => Done (s, inl (failure inp [wrongArityError code (i_name inp) [a; b] (length (i_args inp))]))
  end.
Proof.
  intros Ne G A B. unfold exec_input, execute_input, execute_ctx. simpl cc_input.
  destruct (i_name inp) as [|c0 n0] eqn:En; [easy|]. rewrite G. simpl bind. simpl c_functors.
  unfold dispatch. rewrite !arity_params, A, B. simpl cc_input.
  destruct (i_args inp) as [|x [|y l]] eqn:Ea; simpl length.
  - rewrite Nat.eqb_refl.
    destruct (invokeTrampoline _ _ _ a _ _) as [[[s' c'] [[]|x]]|]; simpl; try reflexivity.
    destruct catching; [|reflexivity]. now destruct x.
  - simpl Nat.eqb. cbv iota.
    destruct (invokeTrampoline _ _ _ b _ _) as [[[s' c'] [[]|e]]|]; simpl; try reflexivity.
    destruct catching; [|reflexivity]. now destruct e.
  - reflexivity.
Qed.

(** One command. *)
Lemma variable_step d s inp T rd wr :
  bound code sg s (i_name inp) (variable T rd wr) -> i_name inp <> [] ->
  (forall x w, rd (wr x w) = x) ->
  exists w' es t,
    exec_input code sg catching d s inp = Done (set_world s w', inl (Result inp es t [])) /\
    register T (i_name inp) (rd (s_world s)) (i_args inp) (rd w') es t /\
    (w' = s_world s \/ exists x, w' = wr x (s_world s)).
Proof.
  intros Bd Ne Law. apply bound_two in Bd. destruct Bd as (n & a & b & G & A & B).
  rewrite (two_overloads _ _ _ _ _ _ Ne G) by (rewrite ?A, ?B; reflexivity).
  destruct (i_args inp) as [|v [|v' l]] eqn:Ea.
  - exists (s_world s), [], (Some (to_text T (rd (s_world s)))).
    split; [|split; [constructor|now left]].
    unfold invokeTrampoline. rewrite A. simpl. now rewrite set_world_same.
  - unfold invokeTrampoline. rewrite B. simpl. rewrite Ea. simpl.
    destruct (from_value T v) as [x|e] eqn:C.
    + exists (wr x (s_world s)), [], (Some (to_text T x)). rewrite Law.
      split; [|split; [now constructor|right; eauto]].
      unfold invoke. simpl. now rewrite Law.
    + exists (s_world s), [e], None.
      split; [|split; [now constructor|now left]].
      unfold invoke. simpl. now rewrite set_world_same.
  - destruct (two_arities code (i_name inp) a b (i_args inp)) with (x := v) (y := v') (l := l)
      as [N M]; try (rewrite ?A, ?B; reflexivity); [exact Ea|].
    rewrite Ea in M. eexists (s_world s), _, None.
    split; [|split; [constructor; exact M|now left]].
    rewrite set_world_same. reflexivity.
Qed.

(** Executing a list of commands, collecting the results. *)
Fixpoint exec_all (d : nat) (s : state W F) (h : list input)
  : outcome (state W F * list (result + exn)) :=
  match h with
  | [] => Done (s, [])
  | inp :: h =>
      r <- exec_input code sg catching d s inp ;;
      rs <- exec_all d (fst r) h ;;
      Done (fst rs, snd r :: snd rs)
  end.

(** A named variable of the application. *)
Record var := Var {
  v_name : bytes;
  v_type : serializer;
  v_rd : W -> carrier v_type;
  v_wr : carrier v_type -> W -> W
}.

(** Reading gives what was written; different variables are independent. *)
Definition lawful (vars : list var) : Prop :=
  NoDup (map v_name vars) /\
  (forall v, In v vars -> v_name v <> [] /\ forall x w, v_rd v (v_wr v x w) = x) /\
  (forall v u x w, In v vars -> In u vars -> v_name v <> v_name u ->
     v_rd v (v_wr u x w) = v_rd v w).

(** The results of a history, one by one: what [register] prescribes for the value the
    variable has at that point. *)
Fixpoint results_ok (vars : list var) (w : W) (h : list input) (rs : list (result + exn)) : Prop :=
  match h, rs with
  | [], [] => True
  | inp :: h, r :: rs =>
      exists v w' es t, In v vars /\ v_name v = i_name inp /\
        register (v_type v) (v_name v) (v_rd v w) (i_args inp) (v_rd v w') es t /\
        (forall u, In u vars -> v_name u <> i_name inp -> v_rd u w' = v_rd u w) /\
        r = inl (Result inp es t []) /\ results_ok vars w' h rs
  | _, _ => False
  end.
End C36.
Arguments exec_all {W F} _ _ _ _ _ _.
Arguments Var {W} _ _ _ _.
Arguments v_name {W} _.
Arguments v_type {W} _.
Arguments v_rd {W} _ _.
Arguments v_wr {W} _ _ _.
Arguments lawful {W} _.
Arguments results_ok {W} _ _ _ _.

Lemma register_latest T name inp x y es t :
  i_name inp = name -> register T name x (i_args inp) y es t -> latest T name x [inp] = y.
Proof.
  intros E H. simpl. rewrite E, bytes_eqb_refl. remember (i_args inp) as args eqn:Ea.
  destruct H; try reflexivity; now rewrite H.
Qed.

(** Any history of commands sent to any number of bound variables runs without a fault;
    every command answers as a register does; afterwards each variable has the value of the
    last convertible assignment to it, and the registry is as before. *)
Theorem C36_variables_are_registers :
  forall W F (code : F -> functor W F) sg catching (vars : list (var (W := W))) d h s,
  lawful vars ->
  (forall v, In v vars -> bound code sg s (v_name v) (variable (v_type v) (v_rd v) (v_wr v))) ->
  (forall inp, In inp h -> exists v, In v vars /\ v_name v = i_name inp) ->
  exists w' rs, exec_all code sg catching d s h = Done (set_world s w', rs) /\
    results_ok vars (s_world s) h rs /\
    (forall v, In v vars -> v_rd v w' = latest (v_type v) (v_name v) (v_rd v (s_world s)) h).
Proof.
  intros W F code sg catching vars d h. induction h as [|inp h IH]; intros s L B H.
  - exists (s_world s), []. rewrite set_world_same. simpl. auto.
  - destruct (H inp (or_introl eq_refl)) as (v & Iv & Ev).
    destruct L as (ND & L1 & L2) eqn:EL. destruct (L1 v Iv) as [Ne Law].
    assert (Bv := B v Iv). rewrite Ev in Bv, Ne.
    destruct (variable_step code sg catching d s inp _ _ _ Bv Ne Law) as (w1 & es & t & E & R & Ch).
    assert (Fr : forall u, In u vars -> v_name u <> i_name inp -> v_rd u w1 = v_rd u (s_world s)).
    { intros u Iu Nu. destruct Ch as [->|(x & ->)]; [reflexivity|].
      apply L2; auto. now rewrite Ev. }
    destruct (IH (set_world s w1)) as (w' & rs & E' & RO & La).
    + exact L.
    + intros u Iu. destruct (B u Iu) as (cmd & G & M). exists cmd. split; [exact G|exact M].
    + intros i Ii. apply H. now right.
    + exists w', (inl (Result inp es t []) :: rs). split; [|split].
      * simpl. rewrite E. simpl. rewrite E'. reflexivity.
      * simpl. exists v, w1, es, t. split; [exact Iv|]. split; [exact Ev|].
        split; [now rewrite Ev|]. split; [exact Fr|]. split; [reflexivity|exact RO].
      * intros u Iu. rewrite (La u Iu). simpl s_world. simpl latest.
        destruct (bytes_eqb_spec (i_name inp) (v_name u)) as [Eu|Nu].
        -- assert (u = v).
           { clear - ND Iu Iv Eu Ev. rewrite <- Ev in Eu. clear Ev.
             induction vars as [|y l IHl]; [easy|]. inversion ND as [|? ? N1 N2]; subst.
             destruct Iu as [->|Iu], Iv as [->|Iv]; auto.
             - exfalso. apply N1. rewrite <- Eu. now apply in_map.
             - exfalso. apply N1. rewrite Eu. now apply in_map. }
           subst u. f_equal.
           rewrite <- Ev in R.
           assert (Q' := register_latest (v_type v) (v_name v) inp _ _ _ _ (eq_sym Ev) R).
           simpl in Q'. rewrite <- Ev, bytes_eqb_refl in Q'. symmetry. exact Q'.
        -- rewrite Fr; auto.
Qed.

(** One bound variable, one command, from its text. *)
Theorem C36_one_command : forall W F (code : F -> functor W F) sg catching d s inp T rd wr,
  bound code sg s (i_name inp) (variable T rd wr) -> i_name inp <> [] ->
  (forall x w, rd (wr x w) = x) ->
  exists w' es t,
    exec_input code sg catching d s inp = Done (set_world s w', inl (Result inp es t [])) /\
    register T (i_name inp) (rd (s_world s)) (i_args inp) (rd w') es t.
Proof.
  intros. destruct (variable_step code sg catching d s inp T rd wr) as (w' & es & t & E & R & _);
    auto. eauto 6.
Qed.

(** "var" is such a variable; a history of commands sent to it. *)
Definition ex_var : var (W := Z) := Var (lit "var") i32 (fun w => w) (fun x _ => x).
Example C36_ex_lawful : lawful [ex_var].
Proof.
  split; [repeat constructor; auto|]. split.
  - intros v [<-|[]]. split; [discriminate|reflexivity].
  - intros v u x w [<-|[]] [<-|[]] H. now elim H.
Qed.
Example C36_ex_bound : bound ex_code true ex_state (lit "var") (variable i32 (fun w => w) (fun x _ => x)).
Proof. exists (Command (lit "var") [(8, XGet); (9, XSet)]). split; [vm_compute|]; reflexivity. Qed.
Example C36_ex_history :
  match exec_all ex_code true true 0 ex_state
    [ex_input "var" []; ex_input "var" ["7"]%string; ex_input "var" ["x"]%string;
     ex_input "var" ["1"; "2"]%string; ex_input "var" []] with
  | Done (s, rs) => Some (s_world s, map (fun r => match r with
                                      | inl r => (r_errors r, r_return r) | inr _ => ([], None) end) rs)
  | Fault _ => None
  end =
  Some (7%Z, [([], Some (lit "40")); ([], Some (lit "7"));
           ([lit "Unable to convert 'x' to type 'int'"], None);
           ([lit "Wrong number of arguments to 'var': expected 0 or 1, got 2"], None);
           ([], Some (lit "7"))]).
Proof. vm_compute. reflexivity. Qed.

(** * C37  Read-only variables and properties never change *)

Section C37.
Context {W F : Type}.
Variable code : F -> functor W F.
Variable sg catching : bool.

(** A getter that only reads the state: a function of the state. *)
Lemma observing_value R (p : prog W F R) : only observing p ->
  forall s, exists fin, forall nested sid c, run_prog sg nested sid s c p = Done (s, c, fin).
Proof.
  induction p as [r|x|t p IH|t p IH|e p IH|p IH|p IH|i nv p IH|p IH|w p IH|p IH|nme fs p IH
                 |nme p IH|p IH|l p IH|cmd p IH]; simpl; intros O s;
    try (destruct O; discriminate); eauto. destruct O. eauto.
Qed.

(** What a command sent to a read-only variable or property may answer: its value if there
    are no arguments; otherwise errors and no value. *)
Definition read_only_answer (T : serializer) (val : carrier T + exn) (inp : input)
  (r : result + exn) : Prop :=
  (i_args inp = [] ->
     match val with
     | inl x => r = inl (Result inp [] (Some (to_text T x)) [])
     | inr e => if catching
                then exists msg, exception_message e msg /\ r = inl (Result inp [msg] None [])
                else r = inr e
     end) /\
  (i_args inp <> [] ->
     match r with
     | inl r => r_input r = inp /\ r_errors r <> [] /\ r_return r = None
     | inr e => catching = false /\ val = inr e
     end).

Lemma read_only_step d s inp T (getter : prog W F (carrier T)) U msg :
  bound code sg s (i_name inp)
    [Functor false [] (RValue T) (fun _ => getter);
     Functor true [U] (RValue T) (fun _ => ReportError msg getter)] ->
  i_name inp <> [] -> only observing getter ->
  exists r, exec_input code sg catching d s inp = Done (s, r) /\
    (forall nested sid c, exists val,
       run_prog sg nested sid s c getter = Done (s, c, val) /\ read_only_answer T val inp r) /\
    (forall v x, i_args inp = [v] -> from_value U v = Value x ->
       match r with inl r => exists es, r_errors r = msg :: es | inr _ => True end).
Proof.
  intros Bd Ne O. apply bound_two in Bd. destruct Bd as (n & a & b & G & A & B).
  rewrite (two_overloads code sg catching _ _ _ _ _ _ Ne G) by (rewrite ?A, ?B; reflexivity).
  destruct (observing_value _ _ O s) as (val & V).
  unfold read_only_answer.
  destruct (i_args inp) as [|v [|v' l]] eqn:Ea.
  - unfold invokeTrampoline. rewrite A. simpl. unfold invoke. simpl. rewrite V.
    destruct val as [x|e]; simpl.
    + eexists. split; [reflexivity|]. split; [|discriminate].
      intros. exists (inl x). split; [apply V|]. split; [|easy]. reflexivity.
    + assert (M := exn_text_spec e). destruct catching; eexists; (split; [reflexivity|]);
        (split; [|discriminate]); intros; exists (inr e); (split; [apply V|]); (split; [|easy]).
      * intros _. eexists. split; [exact M|]. reflexivity.
      * reflexivity.
  - unfold invokeTrampoline. rewrite B. simpl. rewrite Ea. simpl.
    destruct (from_value U v) as [x|e] eqn:C; unfold invoke; simpl.
    + rewrite V. destruct val as [y|e]; simpl.
      * eexists. split; [reflexivity|]. split.
        -- intros. exists (inl y). split; [apply V|]. split; [easy|]. simpl. easy.
        -- simpl. eauto.
      * destruct catching; eexists; (split; [reflexivity|]); split; simpl; eauto;
          intros; exists (inr e); (split; [apply V|]); (split; [easy|]); easy.
    + eexists. split; [reflexivity|]. split.
      * intros. exists val. split; [apply V|]. split; [easy|]. simpl. easy.
      * intros v0 x0 [= <-] C0. congruence.
  - eexists. split; [reflexivity|]. split; [|discriminate].
    intros. exists val. split; [apply V|]. split; [easy|]. simpl. easy.
Qed.

(** Any command sent to a read-only variable succeeds without changing anything; it answers
    with the value if there are no arguments, otherwise with errors and no value, and the
    error for a convertible value says so. *)
Theorem C37_const_variable : forall d s inp T rd,
  bound code sg s (i_name inp) (const_variable T rd) -> i_name inp <> [] ->
  exists r, exec_input code sg catching d s inp = Done (s, inl r) /\
    (i_args inp = [] -> r = Result inp [] (Some (to_text T (rd (s_world s)))) []) /\
    (i_args inp <> [] -> r_errors r <> [] /\ r_return r = None) /\
    (forall v x, i_args inp = [v] -> from_value T v = Value x ->
       r_errors r = [lit "This variable is read-only"]).
Proof.
  intros d s inp T rd Bd Ne. apply bound_two in Bd. destruct Bd as (n & a & b & G & A & B).
  rewrite (two_overloads code sg catching _ _ _ _ _ _ Ne G) by (rewrite ?A, ?B; reflexivity).
  destruct (i_args inp) as [|v [|v' l]] eqn:Ea.
  - unfold invokeTrampoline. rewrite A. simpl. eexists. split; [reflexivity|].
    split; [reflexivity|]. split; [easy|discriminate].
  - unfold invokeTrampoline. rewrite B. simpl. rewrite Ea. simpl.
    destruct (from_value T v) as [x|e] eqn:C; unfold invoke; simpl.
    + eexists. split; [reflexivity|]. split; [easy|]. split; [easy|]. reflexivity.
    + eexists. split; [reflexivity|]. split; [easy|]. split; [easy|].
      intros v0 x0 [= <-] C0. congruence.
  - eexists. split; [reflexivity|]. split; [easy|]. split; [easy|]. easy.
Qed.

(** Same for read-only properties, free or bound to an object, whose getter only reads the
    state: [val] is what it returns or throws. *)
Theorem C37_const_property : forall d s inp T getter ps,
  In ps [const_property T getter; const_bound_property T getter] ->
  bound code sg s (i_name inp) ps -> i_name inp <> [] -> only observing getter ->
  exists r, exec_input code sg catching d s inp = Done (s, r) /\
    forall sid, exists val,
      runs code sg catching _ sid s [] (i_named inp) getter s [] (i_named inp) val /\
      read_only_answer T val inp r.
Proof.
  intros d s inp T getter ps Ip Bd Ne O.
  assert (Q : forall U, bound code sg s (i_name inp)
    [Functor false [] (RValue T) (fun _ => getter);
     Functor true [U] (RValue T) (fun _ => ReportError (lit "This property is read-only") getter)] ->
    exists r, exec_input code sg catching d s inp = Done (s, r) /\
    forall sid, exists val,
      runs code sg catching _ sid s [] (i_named inp) getter s [] (i_named inp) val /\
      read_only_answer T val inp r).
  { intros U B. destruct (read_only_step d s inp T getter _ _ B Ne O) as (r & E & V & _).
    exists r. split; [exact E|]. intros sid.
    destruct (observing_runs code sg catching _ sid getter O s) as (val & Rn). exists val.
    split; [apply Rn|].
    destruct (run_complete _ _ _ _ _ _ _ _ _ _ _ _ _ (Rn [] [])) as (d0 & D0).
    specialize (D0 [] []). simpl in D0.
    destruct (V (nested_exec code sg catching d0) sid (ctx_of [] [] [] [])) as (val' & E' & A).
    rewrite E' in D0. injection D0 as -> . exact A. }
  destruct Ip as [<-|[<-|[]]]; eapply Q; exact Bd.
Qed.

(** Histories: any list of commands sent to read-only variables and properties leaves the
    whole state unchanged. *)
Theorem C37_history : forall d s h,
  (forall inp, In inp h -> i_name inp <> [] /\ exists T,
     (exists rd, bound code sg s (i_name inp) (const_variable T rd)) \/
     (exists getter, only observing getter /\
        (bound code sg s (i_name inp) (const_property T getter) \/
         bound code sg s (i_name inp) (const_bound_property T getter)))) ->
  exists rs, exec_all code sg catching d s h = Done (s, rs).
Proof.
  intros d s h. induction h as [|inp h IH]; intros H; [now exists []|].
  destruct IH as (rs & IH); [intros; apply H; now right|].
  assert (E : exists r, exec_input code sg catching d s inp = Done (s, r)).
  { destruct (H inp (or_introl eq_refl)) as (Ne & T & [(rd & B)|(g & O & [B|B])]).
    - destruct (C37_const_variable d s inp T rd B Ne) as (r & E & _). eauto.
    - destruct (C37_const_property d s inp T g _ (or_introl eq_refl) B Ne O) as (r & E & _). eauto.
    - destruct (C37_const_property d s inp T g _ (or_intror (or_introl eq_refl)) B Ne O)
        as (r & E & _). eauto. }
  destruct E as (r & E). exists (r :: rs). simpl. rewrite E. simpl. rewrite IH. reflexivity.
Qed.
End C37.

Example C37_ex_bound : bound ex_code true ex_state (lit "root") (const_variable i32 (fun w => w)).
Proof. exists (Command (lit "root") [(10, XGet); (11, XRoot)]). split; [vm_compute|]; reflexivity. Qed.
Example C37_ex_write : ex_run "root 3" = Some (40%Z,
  inl (Result (ex_input "root" ["3"]%string) [lit "This variable is read-only"] None [])).
Proof. vm_compute. reflexivity. Qed.

(** * C38  Properties go through getter and setter *)

(** How the end of a handler returning a value of type [T] shows in the result. *)
Definition finished (T : serializer) (catching : bool) (inp : input) (evs : list event)
  (nm : list (bytes * value)) (fin : carrier T + exn) (r : result + exn) : Prop :=
  match fin with
  | inl x => r = inl (Result (Input (i_name inp) (i_args inp) nm) (errors_of evs)
                        (match errors_of evs with [] => Some (to_text T x) | _ => None end)
                        (output_of evs))
  | inr e => if catching
             then exists msg, exception_message e msg /\
                    r = inl (Result (Input (i_name inp) (i_args inp) nm) (errors_of evs ++ [msg])
                               None (output_of evs))
             else r = inr e
  end.

Section C38.
Context {W F : Type}.
Variable code : F -> functor W F.
Variable sg catching : bool.

Lemma shows_value_inv T (v : carrier T) t : shows (RValue T) v t -> t = Some (to_text T v).
Proof.
  intros H.
  exact (match H in shows r v0 t0 return
           match r return rcarrier r -> Prop with
           | RValue T => fun v => t0 = Some (to_text T v)
           | _ => fun _ => True
           end v0 with
         | shows_value T x => eq_refl
         | _ => I
         end).
Qed.

(** An execution that selects the overload [g]. *)
Lemma one_overload s inp cmd f c ps T body s' r :
  code (snd f) = Functor c ps (RValue T) body ->
  i_name inp <> [] -> get sg s (i_name inp) = Done (Some cmd) ->
  chosen code (c_functors cmd) (length (i_args inp)) f ->
  (exists d, exec_input code sg catching d s inp = Done (s', r)) <->
  (exists es, es <> [] /\ conversion_errors ps (i_args inp) es /\ s' = s /\
     r = inl (failure inp es)) \/
  (exists vs evs nm fin, converts ps (i_args inp) vs /\
     runs code sg catching _ (fst f) s [] (i_named inp) (body vs) s' evs nm fin /\
     finished T catching inp evs nm fin r).
Proof.
  intros Ef Ne G C. split.
  - intros (d & H). apply exec_input_sound in H.
    assert (Q : forall g, g = code (snd f) -> answers code sg catching s inp s' r ->
      (exists es, es <> [] /\ conversion_errors (f_params g) (i_args inp) es /\ s' = s /\
         r = inl (failure inp es)) \/
      (exists vs evs nm fin, converts (f_params g) (i_args inp) vs /\
         runs code sg catching _ (fst f) s [] (i_named inp) (f_body g vs) s' evs nm fin /\
         match fin with
         | inl v => exists t, shows (f_result g) v t /\
             r = inl (Result (Input (i_name inp) (i_args inp) nm) (errors_of evs)
                        (match errors_of evs with [] => t | _ => None end) (output_of evs))
         | inr e => if catching
             then exists msg, exception_message e msg /\
                    r = inl (Result (Input (i_name inp) (i_args inp) nm) (errors_of evs ++ [msg])
                               None (output_of evs))
             else r = inr e
         end)).
    { intros g -> A. destruct A as [s inp E|s inp msg _ G0|s inp cmd0 msg _ G0 N
        |s inp cmd0 f0 es _ G0 C0 Es Ee|s inp cmd0 f0 vs s' evs nm v t _ G0 C0 V R Sh
        |s inp cmd0 f0 vs s' evs nm x msg _ G0 C0 V R Ec M|s inp cmd0 f0 vs s' evs nm x _ G0 C0 V R Ec].
      - easy.
      - congruence.
      - exfalso. rewrite G in G0. injection G0 as <-.
        destruct C as (b & a & Ec & L & _). apply (N f); [|exact L].
        rewrite Ec. apply in_app_iff. right. now left.
      - rewrite G in G0. injection G0 as <-. assert (f0 = f) by (eapply chosen_unique; eauto).
        subst f0. left. exists es. auto.
      - rewrite G in G0. injection G0 as <-. assert (f0 = f) by (eapply chosen_unique; eauto).
        subst f0. right. exists vs, evs, nm, (inl v). eauto.
      - rewrite G in G0. injection G0 as <-. assert (f0 = f) by (eapply chosen_unique; eauto).
        subst f0. right. exists vs, evs, nm, (inr x). split; [exact V|]. split; [exact R|].
        rewrite Ec. eauto.
      - rewrite G in G0. injection G0 as <-. assert (f0 = f) by (eapply chosen_unique; eauto).
        subst f0. right. exists vs, evs, nm, (inr x). split; [exact V|]. split; [exact R|].
        rewrite Ec. eauto. }
    destruct (Q _ (eq_sym Ef) H) as [E|(vs & evs & nm & fin & V & R & Fi)]; [now left|].
    right. exists vs, evs, nm, fin. split; [exact V|]. split; [exact R|]. unfold finished.
    destruct fin as [v|e]; [|exact Fi]. destruct Fi as (t & Sh & ->).
    simpl in Sh. now rewrite (shows_value_inv _ _ _ Sh).
  - intros [(es & N & CE & -> & ->)|(vs & evs & nm & fin & V & R & Fi)].
    + exists 0. unfold exec_input. apply (input_conversion _ _ _ _ _ _ _ _ _ Ne G C).
      * now rewrite Ef.
      * exact N.
    + apply exec_input_complete.
      assert (Q : forall g, g = code (snd f) -> forall (vs : args_of (f_params g)) fin,
        converts (f_params g) (i_args inp) vs ->
        runs code sg catching _ (fst f) s [] (i_named inp) (f_body g vs) s' evs nm fin ->
        match fin with
        | inl v => exists t, shows (f_result g) v t /\
             r = inl (Result (Input (i_name inp) (i_args inp) nm) (errors_of evs)
                        (match errors_of evs with [] => t | _ => None end) (output_of evs))
        | inr e => if catching
             then exists msg, exception_message e msg /\
                    r = inl (Result (Input (i_name inp) (i_args inp) nm) (errors_of evs ++ [msg])
                               None (output_of evs))
             else r = inr e
        end -> answers code sg catching s inp s' r).
      { clear vs fin V R Fi. intros g -> vs fin V R Fi. destruct fin as [v|e].
        - destruct Fi as (t & Sh & ->). eapply answers_return; eauto.
        - destruct catching eqn:Ec.
          + destruct Fi as (msg & M & ->). eapply answers_caught; eauto.
          + subst r. eapply answers_thrown; eauto. }
      apply (Q _ (eq_sym Ef) vs fin V R). destruct fin as [v|e]; [|exact Fi].
      exists (Some (to_text T v)). split; [constructor|exact Fi].
Qed.

Section Property.
Variables (s : state W F) (inp : input) (n : bytes) (a b : nat * F).
Variables (T : serializer) (getter : prog W F (carrier T)) (setter : carrier T -> prog W F unit).
Hypothesis named : i_name inp <> [].
Hypothesis registered : get sg s (i_name inp) = Done (Some (Command n [a; b])).
Hypothesis is_property : [code (snd a); code (snd b)] = property T getter setter.

(** Reading a property is one run of the getter, whose value is printed. *)
Theorem C38_read : i_args inp = [] -> forall s' r,
  (exists d, exec_input code sg catching d s inp = Done (s', r)) <->
  exists evs nm fin,
    runs code sg catching _ (fst a) s [] (i_named inp) getter s' evs nm fin /\
    finished T catching inp evs nm fin r.
Proof.
  intros Ea s' r. injection is_property as A B.
  rewrite (one_overload s inp _ a _ _ _ _ s' r A named registered).
  - rewrite Ea. split.
    + intros [(es & N & CE & _)|(vs & evs & nm & fin & _ & R & Fi)].
      * exfalso. apply N. now inversion CE.
      * eauto.
    + intros (evs & nm & fin & R & Fi). right. exists tt, evs, nm, fin.
      split; [constructor|]. auto.
  - exists [], [b]. rewrite A, Ea. split; [reflexivity|]. split; [reflexivity|]. easy.
Qed.

(** Writing a property is one run of the setter with the converted value, followed, unless
    it throws, by one run of the getter, whose value is printed. *)
Theorem C38_write : forall v x, i_args inp = [v] -> from_value T v = Value x -> forall s' r,
  (exists d, exec_input code sg catching d s inp = Done (s', r)) <->
  exists s1 evs1 nm1 fin1,
    runs code sg catching _ (fst b) s [] (i_named inp) (setter x) s1 evs1 nm1 fin1 /\
    match fin1 with
    | inl tt => exists evs nm fin,
        runs code sg catching _ (fst b) s1 evs1 nm1 getter s' evs nm fin /\
    finished T catching inp evs nm fin r
    | inr e => s' = s1 /\ finished T catching inp evs1 nm1 (inr e) r
    end.
Proof.
  intros v x Ea Ev s' r. injection is_property as A B.
  rewrite (one_overload s inp _ b _ _ _ _ s' r B named registered).
  - rewrite Ea. split.
    + intros [(es & N & CE & _)|(vs & evs & nm & fin & V & R & Fi)].
      * exfalso. inversion CE as [|T0 ps v0 vs y es0 _ CE0|T0 ps v0 vs e es0 Ee]; subst.
        -- apply N. now inversion CE0.
        -- congruence.
      * assert (fst vs = x).
        { apply converts_from_all in V. destruct V as [_ V]. simpl in V. rewrite Ev in V.
          simpl in V. now injection V as <-. }
        subst x. apply runs_andThen in R.
        destruct R as [(s1 & e1 & n1 & [] & R1 & R2)|(e & R & ->)].
        -- exists s1, e1, n1, (inl tt). eauto 6.
        -- exists s', evs, nm, (inr e). eauto.
    + intros (s1 & e1 & n1 & [[]|e] & R1 & H).
      * destruct H as (evs & nm & fin & R2 & Fi). right. exists (x, tt), evs, nm, fin.
        split; [repeat constructor; exact Ev|]. split; [|exact Fi].
        apply runs_andThen. left. eauto 8.
      * destruct H as (-> & Fi). right. exists (x, tt), e1, n1, (inr e).
        split; [repeat constructor; exact Ev|]. split; [|exact Fi].
        apply runs_andThen. right. eauto.
  - exists [a], []. rewrite B, Ea. split; [reflexivity|]. split; [reflexivity|].
    intros g [<-|[]]. now rewrite A.
Qed.

(** A value that does not convert runs neither; neither do two arguments or more. *)
Theorem C38_write_rejected : forall d,
  (forall v e, i_args inp = [v] -> from_value T v = Error e ->
     exec_input code sg catching d s inp = Done (s, inl (failure inp [e]))) /\
  (forall v w l, i_args inp = v :: w :: l ->
     exists msg, exec_input code sg catching d s inp = Done (s, inl (failure inp [msg]))).
Proof.
  intros d. injection is_property as A B.
  assert (Q := two_overloads code sg catching d s inp n a b named registered).
  rewrite A, B in Q. specialize (Q eq_refl eq_refl). rewrite Q. split.
  - intros v e Ea Ev. rewrite Ea. unfold invokeTrampoline. rewrite B. simpl. rewrite Ea. simpl.
    rewrite Ev. reflexivity.
  - intros v w l Ea. rewrite Ea. eauto.
Qed.
End Property.
End C38.

(** A property whose setter clamps, and refuses negative values. *)
Inductive ex_prop := PGet | PSet.
Definition clamp_getter : prog Z ex_prop (carrier i32) := GetState (fun w => Ret (w : carrier i32)).
Definition clamp_setter (x : carrier i32) : prog Z ex_prop unit :=
  if (x <? 0)%Z then PutState 77%Z (Throw (StdException (lit "negative")))
  else PutState (Z.min x 10) (Ret tt).
Definition ex_prop_code (f : ex_prop) : functor Z ex_prop :=
  match f with
  | PGet => Functor false [] (RValue i32) (fun _ => clamp_getter)
  | PSet => Functor false [i32] (RValue i32)
      (fun vs => andThen (clamp_setter (fst vs)) (fun _ => clamp_getter))
  end.
Definition ex_prop_run (cmd : string) :=
  match add true (fresh_bindings true 3%Z) (lit "p") [PGet; PSet] with
  | Done s => shown (exec_text ex_prop_code true true 0 s (lit cmd))
  | Fault _ => None
  end.
Example C38_ex_is_property : [ex_prop_code PGet; ex_prop_code PSet] = property i32 clamp_getter clamp_setter.
Proof. reflexivity. Qed.
Example C38_ex_registered : forall s, add true (fresh_bindings true 3%Z) (lit "p") [PGet; PSet] = Done s ->
  get true s (lit "p") = Done (Some (Command (lit "p") [(0, PGet); (1, PSet)])).
Proof. intros s [= <-]. reflexivity. Qed.
Example C38_ex_write : ex_prop_run "p 25" =
  Some (10%Z, inl (Result (ex_input "p" ["25"]%string) [] (Some (lit "10")) [])).
Proof. vm_compute. reflexivity. Qed.
Example C38_ex_throw : ex_prop_run "p -1" =
  Some (77%Z, inl (Result (ex_input "p" ["-1"]%string)
                     [lit "Exception caught during execution: negative"] None [])).
Proof. vm_compute. reflexivity. Qed.
Example C38_ex_read : ex_prop_run "p" =
  Some (3%Z, inl (Result (ex_input "p" []) [] (Some (lit "3")) [])).
Proof. vm_compute. reflexivity. Qed.

(** * C39  Handler metadata matches its signature *)

(** The signature of a handler in C++: an optional Context, then its parameters. *)
Definition signature {W F} (f : functor W F) (ps : list param) : Prop :=
  (f_context f = true /\ exists us, ps = PContext :: us /\ us = map PUser (f_params f)) \/
  (f_context f = false /\ ps = map PUser (f_params f)).

Theorem C39_metadata : forall W F (f : functor W F),
  signature f (declared f) /\
  length (parameterTypes f) = arity f /\ arity f = length (f_params f) /\
  forall i, nth_error (parameterTypes f) i = option_map tname (nth_error (f_params f) i).
Proof.
  intros W F f. split; [|split; [|split]].
  - unfold signature, declared. destruct (f_context f); simpl; eauto.
  - reflexivity.
  - apply arity_params.
  - intros i. rewrite parameterTypes_names. rewrite nth_error_map. now destruct (nth_error _ i).
Qed.

(** The Context does not count, the other parameters do, in order. *)
Theorem C39_context_not_counted : forall W F ps r (b1 b2 : args_of ps -> prog W F (rcarrier r)),
  parameterTypes (Functor true ps r b1) = parameterTypes (Functor false ps r b2) /\
  arity (Functor true ps r b1) = arity (Functor false ps r b2).
Proof. intros. unfold arity. rewrite !parameterTypes_names. auto. Qed.

(** If a command has a single overload, executing it with as many arguments as arity()
    says, each convertible to the parameter at its position, calls it with the converted
    values (the log records calls, see C26). *)
Theorem C39_reaches_handler : forall W F (code : F -> functor W F) sg catching d
  (s s' : state (W * list (call code)) F) inp r n f,
  (forall f vs, only no_nesting (f_body (code f) vs)) ->
  i_name inp <> [] -> get sg s (i_name inp) = Done (Some (Command n [f])) ->
  length (i_args inp) = arity (code (snd f)) ->
  (forall i T v, nth_error (f_params (code (snd f))) i = Some T -> nth_error (i_args inp) i = Some v ->
     exists x, from_value T v = Value x) ->
  exec_input (traced code) sg catching d s inp = Done (s', r) ->
  exists vs, converts (f_params (code (snd f))) (i_args inp) vs /\
    snd (s_world s') = snd (s_world s) ++ [existT _ (snd f) vs].
Proof.
  intros W F code sg catching d s s' inp r n f N Ne G L Cv E. rewrite arity_params in L.
  assert (V : exists vs, converts (f_params (code (snd f))) (i_args inp) vs).
  { clear - L Cv. revert L Cv. generalize (i_args inp) as args.
    induction (f_params (code (snd f))) as [|T ps IH]; intros [|v args] L Cv; try discriminate.
    - exists tt. constructor.
    - destruct (Cv 0 T v eq_refl eq_refl) as (x & Ex).
      destruct (IH args) as (vs & V); [simpl in L; lia| |].
      + intros i. apply (Cv (S i)).
      + exists (x, vs). now constructor. }
  destruct V as (vs & V). exists vs. split; [exact V|].
  destruct (C26_one_handler_first_match W F code sg catching d s s' inp r N E) as [H _].
  eapply H; eauto. exists [], []. split; [reflexivity|]. split; [now symmetry|]. easy.
Qed.

(** The return type is shown by the name of its type without pointer; char const* is char. *)
Inductive result_named : rtype -> bytes -> Prop :=
| result_void : result_named RVoid (lit "void")
| result_value : forall T, result_named (RValue T) (tname T)
| result_pointer : forall T n, result_named (RValue T) n -> result_named (RPointer T) n
| result_cstring : forall nm, result_named (RCString nm) (lit "char").

Theorem C39_return_type : forall W F (f : functor W F) n,
  returnType f = n <-> result_named (f_result f) n.
Proof.
  intros W F [c ps r b] n. unfold returnType. cbn [f_result]. split.
  - intros <-. destruct r as [|T|T|[[] []]]; cbn [rname]; repeat constructor.
  - intros H. destruct H as [|T|T n H|[[] []]]; try reflexivity. now inversion H.
Qed.

Example C39_ex_pointer : returnType (Functor (W := unit) (F := unit) false [] (RPointer string_serializer) (fun _ => Ret None)) = lit "string".
Proof. reflexivity. Qed.
Example C39_ex : parameterTypes (ex_code XHello) = [lit "string"] /\ arity (ex_code XHello) = 1 /\
  parameterTypes (ex_code XSum) = [lit "int"; lit "int"] /\ returnType (ex_code XSum) = lit "int".
Proof. repeat split. Qed.

(** * Assumptions *)
Print Assumptions C35_get_first_match.
Print Assumptions C35_get_typed.
Print Assumptions C35_lookup.
Print Assumptions C35_typed_lookup.
Print Assumptions C35_cases.
Print Assumptions C36_variables_are_registers.
Print Assumptions C36_one_command.
Print Assumptions C37_const_variable.
Print Assumptions C37_const_property.
Print Assumptions C37_history.
Print Assumptions C38_read.
Print Assumptions C38_write.
Print Assumptions C38_write_rejected.
Print Assumptions C39_metadata.
Print Assumptions C39_context_not_counted.
Print Assumptions C39_reaches_handler.
Print Assumptions C39_return_type.
