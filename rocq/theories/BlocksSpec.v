(** Specification of the ledger of blocks (C80): what each object owns, and what it means
    that nothing leaks and nothing is freed twice. *)
From Coq Require Import Bool PeanoNat List Permutation.
Import ListNotations.
From Verif Require Import Base Lexer Exec Blocks.

(** The blocks that an object has to free. *)
Definition own_str (s : str) : list nat := match s with SNull => [] | SAt b _ _ => [b] end.
Definition own_vec {A} (own : A -> list nat) (v : vec A) : list nat :=
  match v with VNull => [] | VAt b _ l => b :: flat_map own l end.
Definition own_nothing {A} (x : A) : list nat := [].
Definition own_value {V} (v : vec V) : list nat := own_vec own_nothing v.
Definition own_named {V} (kv : V * vec V) : list nat := own_value (snd kv).
Definition own_input {V} (i : binput V) : list nat :=
  own_vec own_value (bi_args i) ++ own_vec own_named (bi_named i).
Definition own_option (o : option str) : list nat :=
  match o with None => [] | Some s => own_str s end.
Definition own_result (r : bresult) : list nat :=
  own_input (br_input r) ++ own_vec own_str (br_errors r) ++ own_option (br_return r) ++
  own_str (br_output r).
Definition own_ctx (c : bctx) : list nat := own_input (bc_input c) ++ own_result (bc_result c).

(** What parse gives owns. *)
Definition own_parsed {V} (r : binput V + str) : list nat :=
  match r with inl i => own_input i | inr e => own_str e end.

(** A ledger: no address twice, and the next address is new. *)
Definition ledger (h : heap) : Prop :=
  NoDup (h_live h) /\ forall a, In a (h_live h) -> a < h_next h.

(** The blocks in use are those of before and [l]. *)
Definition gained (h h' : heap) (l : list nat) : Prop :=
  Permutation (h_live h') (l ++ h_live h).

(** What parse gives shows. *)
Definition plain_input (i : binput view) : vinput :=
  VInput (bi_name i) (map items (items (bi_args i)))
         (map (fun kv => (fst kv, items (snd kv))) (items (bi_named i))).
Definition plain_parsed (r : binput view + str) : expected vinput :=
  match r with inl i => Value (plain_input i) | inr e => Error (str_text e) end.

(** The requests made between two moments. *)
Definition some_failed (fails : nat -> bool) (h h' : heap) : Prop :=
  exists n, h_asked h <= n < h_asked h' /\ fails n = true.
Definition none_failed (fails : nat -> bool) (h h' : heap) : Prop :=
  forall n, h_asked h <= n < h_asked h' -> fails n = false.

(** A lexer whose parse answers as [lex] does, or throws std::bad_alloc, and keeps the ledger
    in order. *)
Definition shows_input (r : binput bytes + str) (e : expected input) : Prop :=
  match r, e with
  | inl i, Value inp => see_input i = inp
  | inr s, Error t => exists b c, s = SAt b c t
  | _, _ => False
  end.
Definition keeps_books (fails : nat -> bool) (what : bytes) (lex : lexer)
           (parse : bytes -> M (binput bytes + str)) : Prop :=
  forall cmd h, ledger h ->
  match parse cmd h with
  | Done (h', inl r) =>
      ledger h' /\ gained h h' (own_parsed r) /\ (exists e, lex cmd = Done e /\ shows_input r e) /\
      h_asked h <= h_asked h'
  | Done (h', inr x) =>
      ledger h' /\ gained h h' [] /\ x = StdException what /\ some_failed fails h h'
  | Fault f => lex cmd = Fault f
  end.

(** Handlers that install only such lexers. *)
Fixpoint installs {W F R} (ok : lexer -> Prop) (p : prog W F R) : Prop :=
  match p with
  | Ret _ | Throw _ => True
  | Log _ k | LogLine _ k | ReportError _ k | PutNamed _ _ k | PutState _ k | Touch k
  | DoAdd _ _ k | DoRemove _ k | DoClear k => installs ok k
  | HasErrors k => forall b, installs ok (k b)
  | GetNamed k => forall l, installs ok (k l)
  | GetState k => forall w, installs ok (k w)
  | DoSetLexer l k => (forall lex, l = Some lex -> ok lex) /\ installs ok k
  | DoExecute _ k => forall r, installs ok (k r)
  end.

(** The lexer that is installed, if there is one, is of that kind. *)
Definition lexed {W F} (ok : lexer -> Prop) (s : state W F) : Prop :=
  forall lex, s_lexer s = Some lex -> ok lex.
