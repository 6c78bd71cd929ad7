(** C66: how converted arguments reach the functor. *)
From Coq Require Import Bool PeanoNat Lia List Permutation.
From Verif Require Import Base ArgPass ArgPassSpec ArgPassProofs ArgPassCalls ArgPassInvoke.
Import ListNotations.

Section C66.
Context {V E S : Type}.
Variable moved torn : V -> V.
Variable show : V -> S.
Variable raises : list (event V) -> bool.
Variable order : nat -> nat -> list nat.
Variable dorder : nat -> list nat -> list nat.
Variable func : list V -> list V * @ending V.
Variable ctx : option (ptype * V).
Variable ps : list ptype.
Variable convs : list (@conversion V E).

Local Notation call O :=
  (invoke moved torn show raises order dorder func (all_params ctx ps) (option_map snd ctx) convs (St O [])).
Local Notation given vs := (seen (option_map snd ctx) vs).

Hypothesis Horder : any_order order.
Hypothesis Hdorder : any_dorder dorder.
Hypothesis Hsane : sane_functor func (all_params ctx ps).
Hypothesis Hparams : Forall accepted (all_params ctx ps).
Hypothesis Hconvs : List.length convs = List.length ps.

(** Whatever throws, whatever the orders of evaluation and destruction, whatever
    the functor does with its parameters: no dead object is used, every object is
    destroyed exactly once, no other object changes, and T(T const&) is not
    called. *)
Theorem C66_safe : forall O, exists st r, call O = Done (st, r) /\
  tidy O (objs st) /\ copies (log st) = 0.
Proof.
  intros O. destruct (invoke_ok moved torn show raises order dorder Horder Hdorder func ctx ps Hsane Hparams
                        convs (St O []) Hconvs) as (st & r & E1 & T & C & _).
  exists st, r. auto.
Qed.

(** The functor is entered at most once, only if all conversions gave values, and
    it sees exactly these values in the order of its parameters. *)
Theorem C66_sees_values : forall O st r, call O = Done (st, r) ->
  calls (log st) = [] \/ exists vs, all_values convs = Some vs /\ calls (log st) = [given vs].
Proof.
  intros O st r H. destruct (invoke_ok moved torn show raises order dorder Horder Hdorder func ctx ps Hsane Hparams
                        convs (St O []) Hconvs) as (st' & r' & E1 & _ & _ & X).
  rewrite H in E1. injection E1 as <- <-. cbn [log calls] in X. destruct r as [[es|s]|].
  - left. tauto.
  - destruct X as (vs & A & B & _). right. eauto.
  - destruct X as [[_ A]|(vs & A & _ & [B|B])]; [now left|now left|right; eauto].
Qed.

(** A call that ends without exception reports the errors of the conversions from
    left to right, or, if there is none, returns the text of what the functor
    returned; a reference to one of its parameters still refers to that parameter
    when it is turned into text. *)
Theorem C66_answer : forall O st a, call O = Done (st, Ok a) ->
  ~ a_conversion_throws convs /\
  match a with
  | Reported es => es = all_errors convs /\ es <> []
  | Returned s => all_errors convs = [] /\
      exists vs, all_values convs = Some vs /\
        answer_text show (all_params ctx ps) (given vs) (fst (func (given vs))) (snd (func (given vs))) = Some s
  end.
Proof.
  intros O st a H. destruct (invoke_ok moved torn show raises order dorder Horder Hdorder func ctx ps Hsane Hparams
                        convs (St O []) Hconvs) as (st' & r' & E1 & _ & _ & X).
  rewrite H in E1. injection E1 as <- <-. destruct a as [es|s].
  - destruct X as (A & B & C & _). repeat split; assumption.
  - destruct X as (vs & A & _ & _ & B).
    assert (G : ~ In CThrows convs /\ all_errors convs = []).
    { clear -A. revert vs A. induction convs as [|[v|e|] l IH]; intros vs A; cbn in A.
      - split; [intros []|reflexivity].
      - destruct (all_values l) as [ws|]; [|discriminate]. destruct (IH ws eq_refl) as [G1 G2].
        split; [|assumption]. intros [G|G]; [discriminate|contradiction].
      - discriminate.
      - discriminate. }
    destruct G as [G1 G2]. split; [exact G1|]. split; [assumption|]. eauto.
Qed.

(** An exception leaves the call only if a conversion, a constructor, the functor
    or toString threw. *)
Theorem C66_exceptions : forall O st, call O = Done (st, Thrown) ->
  a_conversion_throws convs \/
  exists vs, all_values convs = Some vs /\
    ((exists l, raises l = true) \/ snd (func (given vs)) = FThrows).
Proof.
  intros O st H. destruct (invoke_ok moved torn show raises order dorder Horder Hdorder func ctx ps Hsane Hparams
                        convs (St O []) Hconvs) as (st' & r' & E1 & _ & _ & X).
  rewrite H in E1. injection E1 as <- <-. destruct X as [[A _]|(vs & A & B & _)]; [now left|right; eauto].
Qed.

(** An answered call moves each argument taken by value three times, a Context
    taken by value twice, and an argument taken by reference not at all. *)
Theorem C66_moves : forall O st a, call O = Done (st, Ok a) ->
  moves (log st) = match a with Returned _ => expected_moves ctx ps | Reported _ => 0 end.
Proof.
  intros O st a H. destruct (invoke_ok moved torn show raises order dorder Horder Hdorder func ctx ps Hsane Hparams
                        convs (St O []) Hconvs) as (st' & r' & E1 & _ & _ & X).
  rewrite H in E1. injection E1 as <- <-. cbn [log moves] in X. destruct a as [es|s].
  - destruct X as (_ & _ & _ & _ & X). exact X.
  - destruct X as (vs & _ & _ & X & _). lia.
Qed.
End C66.

(** A functor can be bound exactly if none of its parameters is a T&. *)
Theorem C66_accepted_types : forall ctx ps,
  compiles ctx ps = true <->
  (forall p, In p (match ctx with Some c => c :: ps | None => ps end) -> accepted p).
Proof.
  intros ctx ps. unfold compiles. rewrite andb_true_iff, forallb_forall. split.
  - intros [H1 H2] p Hp. destruct ctx as [c|].
    + destruct Hp as [<-|Hp].
      * apply (compiles_param_iff (Prvalue, false)); auto.
      * apply (compiles_param_iff expected_value); auto.
    + apply (compiles_param_iff expected_value); auto.
  - intros H. split.
    + destruct ctx as [c|]; [|reflexivity]. apply (compiles_param_iff (Prvalue, false)); [now right|].
      apply H. now left.
    + intros p Hp. apply (compiles_param_iff expected_value); [now left|]. apply H.
      destruct ctx; [now right|assumption].
Qed.

Lemma all_values_no_error : forall V E (convs : list (@conversion V E)) vs,
  all_values convs = Some vs -> all_errors convs = [].
Proof.
  induction convs as [|[v|e|] l IH]; intros vs Hv; cbn in *; try discriminate; [reflexivity|].
  destruct (all_values l); [|discriminate]. eauto.
Qed.

(** If no constructor and no toString throws, the answer, or that there is an
    exception, does not depend on the orders. *)
Theorem C66_order_irrelevant :
  forall (V E S : Type) (moved torn : V -> V) (show : V -> S) order1 dorder1 order2 dorder2
         (func : list V -> list V * @ending V) ctx ps (convs : list (@conversion V E)) O st1 st2 r1 r2,
  any_order order1 -> any_dorder dorder1 -> any_order order2 -> any_dorder dorder2 ->
  sane_functor func (all_params ctx ps) -> Forall accepted (all_params ctx ps) ->
  List.length convs = List.length ps ->
  invoke moved torn show (fun _ => false) order1 dorder1 func (all_params ctx ps) (option_map snd ctx)
    convs (St O []) = Done (st1, r1) ->
  invoke moved torn show (fun _ => false) order2 dorder2 func (all_params ctx ps) (option_map snd ctx)
    convs (St O []) = Done (st2, r2) ->
  r1 = r2.
Proof.
  intros V E S moved torn show o1 d1 o2 d2 func ctx ps convs O st1 st2 r1 r2 Ho1 Hd1 Ho2 Hd2 Hs Hp Hc E1 E2.
  assert (Hno : forall o d o' d' st st' a, any_order o -> any_dorder d -> any_order o' -> any_dorder d' ->
    invoke moved torn show (fun _ => false) o d func (all_params ctx ps) (option_map snd ctx)
      convs (St O []) = Done (st, Ok a) ->
    invoke moved torn show (fun _ => false) o' d' func (all_params ctx ps) (option_map snd ctx)
      convs (St O []) = Done (st', Thrown) -> False).
  { intros o d o' d' st st' a Go Gd Go' Gd' A B.
    destruct (C66_answer _ _ _ _ _ _ _ _ _ _ Go Gd Hs Hp Hc O st a A) as [HnT X].
    destruct (C66_exceptions _ _ _ _ _ _ _ _ _ _ Go' Gd' Hs Hp Hc O st' B) as [HT|(vs & Hv & [[l Hl]|Hl])];
      [contradiction|discriminate|].
    destruct a as [es|s].
    - destruct X as [-> Hne]. apply Hne. eapply all_values_no_error; eassumption.
    - destruct X as (_ & vs' & Hv' & X). rewrite Hv in Hv'. injection Hv' as <-.
      rewrite Hl in X. discriminate. }
  destruct r1 as [a1|], r2 as [a2|]; [| | |reflexivity].
  - destruct (C66_answer _ _ _ _ _ _ _ _ _ _ Ho1 Hd1 Hs Hp Hc O st1 a1 E1) as [_ X1].
    destruct (C66_answer _ _ _ _ _ _ _ _ _ _ Ho2 Hd2 Hs Hp Hc O st2 a2 E2) as [_ X2].
    destruct a1 as [e1|s1], a2 as [e2|s2].
    + destruct X1 as [-> _], X2 as [-> _]. reflexivity.
    + destruct X1 as [-> X1], X2 as [X2 _]. contradiction.
    + destruct X2 as [-> X2], X1 as [X1 _]. contradiction.
    + destruct X1 as (_ & vs1 & V1 & T1), X2 as (_ & vs2 & V2 & T2).
      rewrite V1 in V2. injection V2 as <-. rewrite T1 in T2. injection T2 as ->. reflexivity.
  - exfalso. exact (Hno _ _ _ _ _ _ _ Ho1 Hd1 Ho2 Hd2 E1 E2).
  - exfalso. exact (Hno _ _ _ _ _ _ _ Ho2 Hd2 Ho1 Hd1 E2 E1).
Qed.

(** ** Concrete cases *)
(** Values are numbers, 0 is a moved-from one, a text is the number itself. *)
Definition ex_order (level n : nat) : list nat := if Nat.even level then rev (seq 0 n) else seq 0 n.
Definition ex_dorder (level : nat) (os : list nat) : list nat := if Nat.even level then rev os else os.
Lemma ex_order_ok : any_order ex_order.
Proof.
  intros level n. unfold ex_order. destruct (Nat.even level); [|apply Permutation_refl].
  apply Permutation_sym, Permutation_rev.
Qed.
Lemma ex_dorder_ok : any_dorder ex_dorder.
Proof.
  intros level os. unfold ex_dorder. destruct (Nat.even level); [|apply Permutation_refl].
  apply Permutation_sym, Permutation_rev.
Qed.

(** [](Context, T, T const&, T&& t) -> T& { return t += 1; } *)
Definition ex_params : list ptype := [PT NoRef false; PT LRef true; PT RRef false].
Definition ex_ctx : option (ptype * nat) := Some (PT NoRef false, 77).
Definition ex_func (vs : list nat) : list nat * @ending nat :=
  (map Datatypes.S vs, RetRef 3).
Lemma ex_sane : sane_functor ex_func (all_params ex_ctx ex_params).
Proof.
  intros vs Hvs. cbn in *. split; [now rewrite map_length|]. intros i Hi. injection Hi as <-.
  exists (PT RRef false). split; [reflexivity|discriminate].
Qed.
Lemma ex_accepted : Forall accepted (all_params ex_ctx ex_params).
Proof. repeat constructor; discriminate. Qed.

Definition ex_call (raises : list (event nat) -> bool) (convs : list (@conversion nat nat)) :=
  invoke (fun _ => 0) (fun _ => 0) (fun v => v) raises ex_order ex_dorder ex_func
    (all_params ex_ctx ex_params) (option_map snd ex_ctx) convs (St [Some 5] []).

(** The reference the functor returned is read after its own parameters have died:
    it names the object inside the Expected, which still lives. *)
Example ex_all_values : exists st,
  ex_call (fun _ => false) [CValue 1; CValue 2; CValue 3] = Done (st, Ok (Returned (Some 4))) /\
  calls (log st) = [[77; 1; 2; 3]] /\ moves (log st) = 5 /\ copies (log st) = 0 /\
  objs st = [Some 5] ++ repeat None 9.
Proof. eexists. split; [vm_compute; reflexivity|]. vm_compute. repeat split. Qed.
Example ex_errors : exists st,
  ex_call (fun _ => false) [CError 11; CValue 2; CError 13] = Done (st, Ok (Reported [11; 13])) /\
  objs st = [Some 5; None].
Proof. eexists. split; [vm_compute; reflexivity|]. reflexivity. Qed.
(** The third move throws: the parameters made so far are destroyed and the functor
    is not entered. *)
Example ex_move_throws : exists st,
  ex_call (fun l => moves l =? 3) [CValue 1; CValue 2; CValue 3] = Done (st, Thrown) /\
  calls (log st) = [] /\ objs st = [Some 5] ++ repeat None 6.
Proof. eexists. split; [vm_compute; reflexivity|]. split; reflexivity. Qed.
Example ex_conversion_throws : exists st,
  ex_call (fun _ => false) [CThrows; CError 1; CValue 3] = Done (st, Thrown) /\ objs st = [Some 5; None].
Proof. eexists. split; [vm_compute; reflexivity|]. reflexivity. Qed.

(** A functor that returns a reference to a parameter it holds by value is not
    sane: the reference dangles. *)
Example ex_insane_dangles :
  invoke (E := nat) (fun _ => 0) (fun _ => 0) (fun v => v) (fun _ => false) ex_order ex_dorder
    (fun vs => (vs, RetRef 0)) [PT NoRef false] None [CValue 1] (St [] [])
  = Fault UseAfterFree.
Proof. vm_compute. reflexivity. Qed.

(** tests/compilation/Valid.cpp:33-36 and tests/runtime/BindingsTests.cpp:269-389: Value,
    Value const, Value const&; T, T const&, T&&. *)
Example ex_compiles :
  forallb (fun p => compiles None [p])
    [PT NoRef false; PT NoRef true; PT LRef true; PT RRef false; PT RRef true] = true /\
  compiles None [PT LRef false] = false /\ compiles (Some (PT LRef false)) [] = false.
Proof. vm_compute. repeat split. Qed.

(** * Assumptions *)
Print Assumptions C66_safe.
Print Assumptions C66_sees_values.
Print Assumptions C66_answer.
Print Assumptions C66_exceptions.
Print Assumptions C66_moves.
Print Assumptions C66_accepted_types.
Print Assumptions C66_order_irrelevant.
