(** What the work of an execution is compared with. *)
From Coq Require Import Ascii String NArith ZArith Bool PeanoNat List.
Import ListNotations.
From Verif Require Import Util Base Lexer StringConv Serializer UMap UMapCost Exec ExecSpec ExecCost.

(** All that is counted, apart from the lexer. *)
Definition steps (w : own) : nat :=
  hashes (lookup w) + matches (lookup w) + arities w + conversions w + calls w + prints w +
  reports w + listed w.

(** The most executions a handler starts. *)
Fixpoint starts_at_most {W F R} (b : nat) (p : prog W F R) : Prop :=
  match p with
  | Ret _ | Throw _ => True
  | Log _ k | LogLine _ k | ReportError _ k | PutNamed _ _ k | PutState _ k | Touch k
  | DoAdd _ _ k | DoRemove _ k | DoClear k | DoSetLexer _ k => starts_at_most b k
  | HasErrors k => forall x, starts_at_most b (k x)
  | GetNamed k => forall x, starts_at_most b (k x)
  | GetState k => forall x, starts_at_most b (k x)
  | DoExecute _ k => match b with O => False | S b => forall r, starts_at_most b (k r) end
  end.

(** 1 + b + b^2 + ... + b^d. *)
Fixpoint geometric (b d : nat) : nat :=
  match d with O => 1 | S d => 1 + b * geometric b d end.

(** What holds of the work of every execution, however it ends: one lookup, one call and
    one printed result at most; only overloads whose arity was compared are listed; an
    error for each argument converted, or one error. *)
Definition sane (w : own) : Prop :=
  hashes (lookup w) <= 1 /\ visits (lookup w) = 0 /\ relinks (lookup w) = 0 /\
  resets (lookup w) = 0 /\ calls w <= 1 /\ prints w <= calls w /\
  (listed w = 0 \/ (listed w <= arities w /\ calls w = 0 /\ conversions w = 0)) /\
  (reports w <= 1 \/ (reports w <= conversions w /\ calls w = 0)) /\
  (arities w = 0 -> conversions w = 0 /\ calls w = 0) /\
  (hashes (lookup w) = 0 -> arities w = 0).

(** Does printing the result of this type call a serializer? *)
Definition printed (r : rtype) : nat := match r with RVoid => 0 | _ => 1 end.

(** The work [w] of executing the parsed command [inp] in state [s], by how it goes. *)
Section Spec.
Context {W F : Type}.
Variable code : F -> functor W F.
Variable sg catching : bool.
Local Notation state := (Exec.state W F).

Inductive costs (s : state) (inp : input) : own -> Prop :=
| costs_unnamed :
    i_name inp = [] -> costs s inp (Own 0 no_work 0 0 0 0 1 0)
| costs_unknown : forall l,
    i_name inp <> [] ->
    find_w bytes_eqb (hash_view sg) (s_commands s) (i_name inp) = (l, Done None) ->
    costs s inp (Own 0 l 0 0 0 0 1 0)
| costs_arity : forall l cmd,
    i_name inp <> [] ->
    find_w bytes_eqb (hash_view sg) (s_commands s) (i_name inp) = (l, Done (Some cmd)) ->
    none_accepts code (c_functors cmd) (length (i_args inp)) ->
    costs s inp (Own 0 l (length (c_functors cmd)) 0 0 0 1 (length (c_functors cmd)))
| costs_conversion : forall l cmd before f after es,
    i_name inp <> [] ->
    find_w bytes_eqb (hash_view sg) (s_commands s) (i_name inp) = (l, Done (Some cmd)) ->
    c_functors cmd = before ++ f :: after ->
    none_accepts code before (length (i_args inp)) ->
    conversion_errors (f_params (code (snd f))) (i_args inp) es -> es <> [] ->
    costs s inp (Own 0 l (S (length before)) (length (i_args inp)) 0 0 (length es) 0)
| costs_call : forall l cmd before f after vs s' evs nm fin,
    i_name inp <> [] ->
    find_w bytes_eqb (hash_view sg) (s_commands s) (i_name inp) = (l, Done (Some cmd)) ->
    c_functors cmd = before ++ f :: after ->
    none_accepts code before (length (i_args inp)) ->
    converts (f_params (code (snd f))) (i_args inp) vs ->
    runs code sg catching _ (fst f) s [] (i_named inp) (f_body (code (snd f)) vs) s' evs nm fin ->
    costs s inp (Own 0 l (S (length before)) (length (i_args inp)) 1
      (match fin with inl _ => printed (f_result (code (snd f))) | inr _ => 0 end)
      (match fin with inl _ => 0 | inr _ => if catching then 1 else 0 end) 0).
End Spec.
