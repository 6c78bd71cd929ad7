(** Parsing and execution with the memory they own: every block that the library asks
    operator new for is in a ledger, any request may fail, and objects are destroyed where C++
    destroys them, also when an exception passes.  src/String.cpp, src/Buffer.cpp,
    src/DefaultLexer.cpp, src/Coil.cpp:240-316, Vector.h, Expected.h, FunctorCaller.h. *)
From Coq Require Import Ascii String NArith ZArith Bool PeanoNat List.
Import ListNotations.
From Verif Require Import Util Base Lexer StringConv Serializer UMap Exec ExecThrow.

Local Notation length := List.length.

(** The blocks in use, the address of the next block and the number of requests so far. *)
Record heap := Heap { h_live : list nat; h_next : nat; h_asked : nat }.

(** A computation that may throw. *)
Definition M (A : Type) := heap -> outcome (heap * (A + exn)).
Definition ret {A} (x : A) : M A := fun h => Done (h, inl x).
Definition lift {A} (o : outcome A) : M A := fun h => x <- o ;; Done (h, inl x).
Definition follow {A B} (m : M A) (k : A -> M B) : M B := fun h =>
  r <- m h ;;
  match r with (h', inl x) => k x h' | (h', inr e) => Done (h', inr e) end.
Notation "x <~ m ;; k" := (follow m (fun x => k))
  (at level 61, m at next level, right associativity).

(** Destructors do not throw. *)
Definition dtor := heap -> outcome heap.
Definition trivial : dtor := fun h => Done h.
Definition both (d e : dtor) : dtor := fun h => h' <- d h ;; e h'.
Definition run (d : dtor) : M unit := fun h => h' <- d h ;; Done (h', inl tt).

(** Leaving a scope by an exception: [d] destroys what the scope holds. *)
Definition unwind {A} (d : dtor) (m : M A) : M A := fun h =>
  r <- m h ;;
  match r with
  | (h', inl x) => Done (h', inl x)
  | (h', inr e) => h'' <- d h' ;; Done (h'', inr e)
  end.

Fixpoint drop (l : list nat) (a : nat) : option (list nat) :=
  match l with
  | [] => None
  | x :: r => if x =? a then Some r else option_map (cons x) (drop r a)
  end.

(** delete[] of a block, src/Buffer.cpp:27; a block that is not in use is a fault. *)
Definition release (b : nat) : dtor := fun h =>
  match drop (h_live h) b with
  | Some l => Done (Heap l (h_next h) (h_asked h))
  | None => Fault UseAfterFree
  end.

(** Reading or writing inside a block. *)
Definition touch (b : nat) : M unit := fun h =>
  if existsb (Nat.eqb b) (h_live h) then Done (h, inl tt) else Fault UseAfterFree.

(** What a Vector has to know about its elements: their destructor, and what a move leaves
    behind. *)
Record kind (A : Type) := Kind { k_destroy : A -> dtor; k_moved : A -> A }.
Arguments Kind {A} _ _.
Arguments k_destroy {A} _ _.
Arguments k_moved {A} _ _.

(** String: its buffer (include/coil/detail/Buffer.h:82-91) has no block, or one with a
    capacity; the text is that without the final NUL.  A moved-from String has no block. *)
Inductive str := SNull | SAt (b cap : nat) (text : bytes).
Definition str_text (s : str) : bytes := match s with SNull => [] | SAt _ _ t => t end.
Definition str_cap (s : str) : nat := match s with SNull => 0 | SAt _ c _ => c end.

(** Vector, Vector.h:14-61: no block, or one with a capacity and the constructed elements. *)
Inductive vec (A : Type) := VNull | VAt (b cap : nat) (l : list A).
Arguments VNull {A}.
Arguments VAt {A} _ _ _.
Definition items {A} (v : vec A) : list A := match v with VNull => [] | VAt _ _ l => l end.
Definition vec_cap {A} (v : vec A) : nat := match v with VNull => 0 | VAt _ c _ => c end.

(** Buffer::~Buffer, src/Buffer.cpp:22-29. *)
Definition str_destroy (s : str) : dtor :=
  match s with SNull => trivial | SAt b _ _ => release b end.
Definition str_kind : kind str := Kind str_destroy (fun _ => SNull).

(** Elements are destroyed from the last one on, Vector.h:154-159. *)
Fixpoint destroy_items {A} (d : A -> dtor) (l : list A) : dtor :=
  match l with [] => trivial | x :: r => both (destroy_items d r) (d x) end.

(** Vector::~Vector, Vector.h:90-94, then the Buffer. *)
Definition vec_destroy {A} (K : kind A) (v : vec A) : dtor :=
  match v with
  | VNull => trivial
  | VAt b _ l => both (destroy_items (k_destroy K) l) (release b)
  end.

(** Value and NamedValue (Value.h:15-43) hold a Vector of views. *)
Definition view_kind {V : Type} : kind V := Kind (fun _ => trivial) (fun v => v).
Definition value_kind {V : Type} : kind (vec V) := Kind (vec_destroy view_kind) (fun _ => VNull).
Definition named_kind {V : Type} : kind (V * vec V) :=
  Kind (fun kv => vec_destroy view_kind (snd kv)) (fun kv => (fst kv, VNull)).

(** ExecutionInput, ExecutionInput.h:9-14; members are destroyed in reverse order. *)
Record binput (V : Type) := BInput {
  bi_name : V;
  bi_args : vec (vec V);
  bi_named : vec (V * vec V)
}.
Arguments BInput {V} _ _ _.
Arguments bi_name {V} _.
Arguments bi_args {V} _.
Arguments bi_named {V} _.
Definition input_destroy {V} (i : binput V) : dtor :=
  both (vec_destroy named_kind (bi_named i)) (vec_destroy value_kind (bi_args i)).

Section Blocks.
(** Which requests of memory fail, and what std::bad_alloc says. *)
Variable fails : nat -> bool.
Variable what : bytes.

(** new char[n] for n > 0, src/Buffer.cpp:5. *)
Definition new_block : M nat := fun h =>
  if fails (h_asked h)
  then Done (Heap (h_live h) (h_next h) (S (h_asked h)), inr (bad what))
  else Done (Heap (h_next h :: h_live h) (S (h_next h)) (S (h_asked h)), inl (h_next h)).

(** String::reserve, src/String.cpp:39-55; [n] without the NUL.  The old block goes with the
    local buffer. *)
Definition str_reserve (s : str) (n : nat) : M str :=
  if str_cap s <? n + 1 then
    b <~ new_block ;;
    match s with
    | SNull => ret (SAt b (n + 1) [])
    | SAt b0 _ t => _ <~ touch b0 ;; _ <~ run (release b0) ;; ret (SAt b (n + 1) t)
    end
  else ret s.

(** String::append, src/String.cpp:96-105. *)
Definition str_append (s : str) (t : bytes) : M str :=
  s' <~ str_reserve s (length (str_text s) + length t) ;;
  match s' with
  | SNull => lift (Fault NullDeref)
  | SAt b c u => _ <~ touch b ;; ret (SAt b c (u ++ t))
  end.

(** String(char const*, size_t), src/String.cpp:12-20, and with it the other constructors. *)
Definition str_make (t : bytes) : M str := str_append SNull t.

(** Reading the text of a String: cStr, src/String.cpp:57-60. *)
Definition str_read (s : str) : M bytes :=
  match s with
  | SNull => lift (Fault NullDeref)
  | SAt b _ t => _ <~ touch b ;; ret t
  end.

(** The copy constructor, src/Buffer.cpp:10-15; that of a moved-from Buffer asserts. *)
Definition str_copy (s : str) : M str :=
  match s with
  | SNull => lift (Fault AssertFailed)
  | SAt b c t => b' <~ new_block ;; _ <~ touch b ;; ret (SAt b' c t)
  end.

(** sprintf and vsprintf, src/Coil.cpp:596-621: an empty String is resized to the
    length of the text, which vsnprintf then writes. *)
Definition b_sprintf (t : bytes) : M str :=
  s <~ str_make [] ;; unwind (str_destroy s) (str_append s t).

(** operator+(String lhs, String const& rhs), src/String.cpp:183-186: += gives a reference, so
    that the result is a copy. *)
Definition str_plus (lhs rhs : str) : M str :=
  l <~ unwind (str_destroy lhs) (t <~ str_read rhs ;; str_append lhs t) ;;
  c <~ unwind (str_destroy l) (str_copy l) ;;
  _ <~ run (str_destroy l) ;;
  ret c.

(** Vector::grow, Vector.h:262-278. *)
Definition vec_grow {A} (K : kind A) (v : vec A) (n : nat) : M (vec A) :=
  b <~ new_block ;;
  match v with
  | VNull => ret (VAt b n [])
  | VAt b0 _ l =>
      _ <~ touch b0 ;;
      _ <~ run (destroy_items (k_destroy K) (map (k_moved K) l)) ;;
      _ <~ run (release b0) ;;
      ret (VAt b n l)
  end.

(** Vector::pushBack, Vector.h:129-144.  The parameter belongs to the call: it is destroyed
    with or without an exception. *)
Definition vec_push {A} (K : kind A) (v : vec A) (x : A) : M (vec A) :=
  let nextSize := S (length (items v)) in
  v' <~ unwind (k_destroy K x)
          (if vec_cap v <? nextSize
           then let c := length (items v) * 3 / 2 in
                vec_grow K v (if c <? nextSize then nextSize else c)
           else ret v) ;;
  match v' with
  | VNull => lift (Fault NullDeref)
  | VAt b c l =>
      _ <~ lift (assert_ (nextSize <=? c)) ;;
      _ <~ touch b ;;
      _ <~ run (k_destroy K (k_moved K x)) ;;
      ret (VAt b c (l ++ [x]))
  end.

(** Vector::operator[], Vector.h:233-245. *)
Definition vec_at {A} (v : vec A) (i : nat) : M A :=
  match v, nth_error (items v) i with
  | VAt b _ _, Some x => _ <~ touch b ;; ret x
  | _, _ => lift (Fault OutOfBounds)
  end.

(** ** The lexer *)
Section BlocksLexer.
Variable sg : bool.
Variable cfg : lexer_cfg.

(** src/DefaultLexer.cpp:91-124, as [Lexer.splitGroup_loop]. *)
Fixpoint b_splitGroup_loop (cmd : bytes) (v : view) (fuel i : nat) (result : vec view)
  : M (vec view) :=
  match fuel with
  | O => lift (Fault Diverges)
  | S fuel' =>
      if i <? v_len v then
        i <~ lift (scan (isGroupSeparator sg cfg) cmd v (v_len v) i) ;;
        if v_len v <=? i then ret result
        else
          let stringBegin := i in
          i <~ lift (scan_item sg cfg cmd v (v_len v) i false) ;;
          let stringEnd := i in
          cb <~ lift (view_at cmd v stringBegin) ;;
          quoted <~ lift (if isQuote sg cfg cb then
                            ce <- view_at cmd v (stringEnd - 1) ;; Done (isQuote sg cfg ce)
                          else Done false) ;;
          let b := if quoted : bool then S stringBegin else stringBegin in
          let e := if quoted : bool then stringEnd - 1 else stringEnd in
          len <~ lift (size_sub e b) ;;
          sub <~ lift (substr v b len) ;;
          result' <~ unwind (vec_destroy view_kind result) (vec_push view_kind result sub) ;;
          b_splitGroup_loop cmd v fuel' (S i) result'
      else ret result
  end.

Definition b_splitGroup (cmd : bytes) (v : view) : M (vec view) :=
  b_splitGroup_loop cmd v (S (v_len v)) 0 VNull.

(** createValue, src/DefaultLexer.cpp:126-132; Value(StringView), src/Coil.cpp:429-432. *)
Definition b_createValue (cmd : bytes) (t : token) : M (vec view) :=
  match t_type t with
  | TGroupString => b_splitGroup cmd (t_value t)
  | _ => vec_push view_kind VNull (t_value t)
  end.

(** return makeUnexpected(...): the message is made, then the locals are destroyed. *)
Definition b_fail {A} (locals : dtor) (m : M str) : M (A + str) :=
  e <~ unwind locals m ;;
  _ <~ run locals ;;
  ret (inr e).

(** src/DefaultLexer.cpp:134-193, as [Lexer.tokenize_loop]. *)
Fixpoint b_tokenize_loop (cmd : bytes) (v : view) (fuel i : nat) (tokens : vec token)
  : M (vec token + str) :=
  let locals := vec_destroy view_kind tokens in
  let push t := unwind locals (vec_push view_kind tokens t) in
  match fuel with
  | O => lift (Fault Diverges)
  | S fuel' =>
      if i <? v_len v then
        i <~ lift (scan (fun c => char_type_eqb (getCharType sg cfg c) CSpace) cmd v (v_len v) i) ;;
        if v_len v <=? i then ret (inl tokens)
        else
          let tokenBegin := i in
          c <~ lift (view_at cmd v i) ;;
          match getCharType sg cfg c with
          | CString =>
              r <~ lift (scan_word sg cfg cmd v (v_len v) (S i) TString) ;;
              len <~ lift (size_sub (fst r) tokenBegin) ;;
              sub <~ lift (substr v tokenBegin len) ;;
              tokens' <~ push (Token (snd r) sub) ;;
              b_tokenize_loop cmd v fuel' (fst r) tokens'
          | CAssignment =>
              sub <~ lift (substr v i 1) ;;
              tokens' <~ push (Token TAssignment sub) ;;
              b_tokenize_loop cmd v fuel' (S i) tokens'
          | CQuote =>
              i <~ lift (scan (fun c => negb (char_type_eqb (getCharType sg cfg c) CQuote)) cmd v
                              (v_len v) (S i)) ;;
              if v_len v <=? i then
                q <~ lift (view_at cmd v tokenBegin) ;;
                b_fail locals (b_sprintf (err_unclosed_quote q))
              else
                len <~ lift (size_sub i (tokenBegin + 1)) ;;
                sub <~ lift (substr v (tokenBegin + 1) len) ;;
                tokens' <~ push (Token TString sub) ;;
                b_tokenize_loop cmd v fuel' (S i) tokens'
          | CGroup =>
              i <~ lift (scan (fun c => negb (char_type_eqb (getCharType sg cfg c) CGroup)) cmd v
                              (v_len v) (S i)) ;;
              if v_len v <=? i then
                q <~ lift (view_at cmd v tokenBegin) ;;
                b_fail locals (b_sprintf (err_unclosed_group q))
              else
                len <~ lift (size_sub i (tokenBegin + 1)) ;;
                sub <~ lift (substr v (tokenBegin + 1) len) ;;
                tokens' <~ push (Token TGroupString sub) ;;
                b_tokenize_loop cmd v fuel' (S i) tokens'
          | CSpace => b_fail locals (str_make (lit "Internal error"))
          end
      else ret (inl tokens)
  end.

Definition b_tokenize (cmd : bytes) : M (vec token + str) :=
  b_tokenize_loop cmd (whole cmd) (S (length cmd)) 0 VNull.

(** The locals of parse(Vector<Token>), src/DefaultLexer.cpp:197-232. *)
Record bstate := BState {
  b_primary : option nat;
  b_secondary : option nat;
  b_nextSecondary : bool;
  b_args : vec (vec view);
  b_named : vec (view * vec view)
}.
Definition bstate_destroy (st : bstate) : dtor :=
  both (vec_destroy named_kind (b_named st)) (vec_destroy value_kind (b_args st)).

(** addCurrentTokens, src/DefaultLexer.cpp:234-250. *)
Definition b_addCurrentTokens (cmd : bytes) (tokens : vec token) (st : bstate) : M bstate :=
  match b_primary st with
  | None => ret st
  | Some p =>
      pt <~ vec_at tokens p ;;
      match b_secondary st with
      | Some s =>
          sec <~ vec_at tokens s ;;
          v <~ b_createValue cmd sec ;;
          named <~ vec_push named_kind (b_named st) (t_value pt, v) ;;
          ret (BState None None (b_nextSecondary st) (b_args st) named)
      | None =>
          v <~ b_createValue cmd pt ;;
          args <~ vec_push value_kind (b_args st) v ;;
          ret (BState None None (b_nextSecondary st) args (b_named st))
      end
  end.

(** One iteration, src/DefaultLexer.cpp:252-286.  An exception or an error leaves the
    function, and destroys its input. *)
Definition b_arg_step (cmd : bytes) (tokens : vec token) (i : nat) (t : token) (st : bstate)
  : M (bstate + str) :=
  let fail text := b_fail (bstate_destroy st) (str_make text) in
  match t_type t with
  | TAssignment =>
      match b_primary st with
      | None => fail err_no_name
      | Some _ =>
          if b_nextSecondary st then fail err_found_assign
          else ret (inl (BState (b_primary st) (b_secondary st) true (b_args st) (b_named st)))
      end
  | TString | TGroupString =>
      if b_nextSecondary st then
        match b_primary st with
        | None => fail (lit "Internal error")
        | Some _ =>
            st' <~ unwind (bstate_destroy st)
                     (b_addCurrentTokens cmd tokens
                        (BState (b_primary st) (Some i) (b_nextSecondary st) (b_args st)
                                (b_named st))) ;;
            ret (inl (BState (b_primary st') (b_secondary st') false (b_args st') (b_named st')))
        end
      else
        st' <~ unwind (bstate_destroy st)
                 (match b_primary st with
                  | Some _ => b_addCurrentTokens cmd tokens st
                  | None => ret st
                  end) ;;
        ret (inl (BState (Some i) (b_secondary st') false (b_args st') (b_named st')))
  end.

Fixpoint b_arg_loop (cmd : bytes) (tokens : vec token) (rest : list token) (i : nat) (st : bstate)
  : M (bstate + str) :=
  match rest with
  | [] => ret (inl st)
  | t :: rest' =>
      r <~ b_arg_step cmd tokens i t st ;;
      match r with
      | inr e => ret (inr e)
      | inl st' => b_arg_loop cmd tokens rest' (S i) st'
      end
  end.

(** parse(Vector<Token>), src/DefaultLexer.cpp:195-294; its parameter is destroyed by
    [b_parse]. *)
Definition b_parse_tokens (cmd : bytes) (tokens : vec token) : M (binput view + str) :=
  match items tokens with
  | [] => ret (inl (BInput (View 0 0) VNull VNull))
  | _ :: rest =>
      first <~ vec_at tokens 0 ;;
      match t_type first with
      | TString =>
          r <~ b_arg_loop cmd tokens rest 1 (BState None None false VNull VNull) ;;
          match r with
          | inr e => ret (inr e)
          | inl st =>
              if b_nextSecondary st then b_fail (bstate_destroy st) (str_make err_found_end)
              else
                st' <~ unwind (bstate_destroy st) (b_addCurrentTokens cmd tokens st) ;;
                ret (inl (BInput (t_value first) (b_args st') (b_named st')))
          end
      | _ => e <~ b_sprintf (err_first_token (view_bytes cmd (t_value first))) ;; ret (inr e)
      end
  end.

(** parse(StringView), src/DefaultLexer.cpp:45-52. *)
Definition b_parse (cmd : bytes) : M (binput view + str) :=
  r <~ b_tokenize cmd ;;
  match r with
  | inr e => ret (inr e)
  | inl tokens =>
      o <~ unwind (vec_destroy view_kind tokens) (b_parse_tokens cmd tokens) ;;
      _ <~ run (vec_destroy view_kind tokens) ;;
      ret o
  end.
End BlocksLexer.

(** Expected::~Expected of what parse returns, Expected.h:95-99, 275-282: the member that is there. *)
Definition parsed_destroy {V} (r : binput V + str) : dtor :=
  match r with inl i => input_destroy i | inr e => str_destroy e end.

(** The same objects, views written as the bytes they show. *)
Definition vec_map {A B} (f : A -> B) (v : vec A) : vec B :=
  match v with VNull => VNull | VAt b c l => VAt b c (map f l) end.
Definition input_map {V U} (f : V -> U) (i : binput V) : binput U :=
  BInput (f (bi_name i)) (vec_map (vec_map f) (bi_args i))
         (vec_map (fun kv => (f (fst kv), vec_map f (snd kv))) (bi_named i)).

(** The default lexer as Bindings::execute uses it. *)
Definition b_default (sg : bool) (cfg : lexer_cfg) (cmd : bytes) : M (binput bytes + str) :=
  r <~ b_parse sg cfg cmd ;;
  ret (match r with inl i => inl (input_map (view_bytes cmd) i) | inr e => inr e end).

(** ** Execution *)

(** ExecutionResult, ExecutionResult.h:10-16, and CallContext, CallContext.h:13-23. *)
Record bresult := BResult {
  br_input : binput bytes;
  br_errors : vec str;
  br_return : option str;
  br_output : str
}.
Record bctx := BCtx { bc_input : binput bytes; bc_result : bresult }.

Definition option_destroy (o : option str) : dtor :=
  match o with None => trivial | Some s => str_destroy s end.
Definition result_destroy (r : bresult) : dtor :=
  both (str_destroy (br_output r))
    (both (option_destroy (br_return r))
       (both (vec_destroy str_kind (br_errors r)) (input_destroy (br_input r)))).
Definition ctx_destroy (c : bctx) : dtor :=
  both (result_destroy (bc_result c)) (input_destroy (bc_input c)).

(** A default-constructed ExecutionInput, ExecutionInput.h:9-14. *)
Definition b_no_input : binput bytes := BInput [] VNull VNull.

Definition with_errors (c : bctx) (e : vec str) : bctx :=
  let r := bc_result c in BCtx (bc_input c) (BResult (br_input r) e (br_return r) (br_output r)).
Definition with_output (c : bctx) (o : str) : bctx :=
  let r := bc_result c in BCtx (bc_input c) (BResult (br_input r) (br_errors r) (br_return r) o).
Definition with_return (c : bctx) (v : option str) : bctx :=
  let r := bc_result c in BCtx (bc_input c) (BResult (br_input r) (br_errors r) v (br_output r)).
Definition with_named (c : bctx) (n : vec (bytes * vec bytes)) : bctx :=
  let i := bc_input c in BCtx (BInput (bi_name i) (bi_args i) n) (bc_result c).

(** What the outside sees of these objects. *)
Definition see_value (v : vec bytes) : value := items v.
Definition see_input (i : binput bytes) : input :=
  Input (bi_name i) (map see_value (items (bi_args i)))
        (map (fun kv => (fst kv, see_value (snd kv))) (items (bi_named i))).
Definition see_result (r : bresult) : result :=
  Result (see_input (br_input r)) (map str_text (items (br_errors r)))
         (option_map str_text (br_return r)) (str_text (br_output r)).
Definition see_ctx (c : bctx) : callctx := CallCtx (see_input (bc_input c)) (see_result (bc_result c)).

(** CallContext::reportError, src/Coil.cpp:136-139, of the message that [m] makes. *)
Definition b_report (m : M str) (c : bctx) : M bctx :=
  e <~ m ;; es <~ vec_push str_kind (br_errors (bc_result c)) e ;; ret (with_errors c es).

(** Context::log, src/Coil.cpp:339-342, with the String that the handler passes. *)
Definition b_log (t : bytes) (c : bctx) : M bctx :=
  s <~ str_make t ;;
  out <~ unwind (str_destroy s) (u <~ str_read s ;; str_append (br_output (bc_result c)) u) ;;
  _ <~ run (str_destroy s) ;;
  ret (with_output c out).

(** Context::logline, src/Coil.cpp:344-349: the room for both additions is reserved first. *)
Definition b_logline (t : bytes) (c : bctx) : M bctx :=
  let o := br_output (bc_result c) in
  s <~ str_make t ;;
  o <~ unwind (str_destroy s) (str_reserve o (length (str_text o) + length (str_text s) + 1)) ;;
  o <~ unwind (str_destroy s) (u <~ str_read s ;; str_append o u) ;;
  o <~ unwind (str_destroy s) (str_append o [newline]) ;;
  _ <~ run (str_destroy s) ;;
  ret (with_output c o).

(** A Value that a handler makes from texts, src/Coil.cpp:428-434. *)
Fixpoint b_fill (v : vec bytes) (ts : list bytes) : M (vec bytes) :=
  match ts with
  | [] => ret v
  | t :: r => v' <~ unwind (vec_destroy view_kind v) (vec_push view_kind v t) ;; b_fill v' r
  end.

(** Assignment of a new NamedValue through a pointer into the vector of named arguments: the
    vectors are exchanged (src/Buffer.cpp:40-44), the temporary takes the old one with it. *)
Definition b_put (i : nat) (nv : bytes * value) (c : bctx) : M bctx :=
  v <~ b_fill VNull (snd nv) ;;
  match bi_named (bc_input c) with
  | VAt b cap l =>
      match nth_error l i with
      | Some old =>
          _ <~ touch b ;;
          _ <~ run (vec_destroy view_kind (snd old)) ;;
          ret (with_named c (VAt b cap (set_nth l i (fst nv, v))))
      | None => _ <~ run (vec_destroy view_kind v) ;; ret c
      end
  | VNull => _ <~ run (vec_destroy view_kind v) ;; ret c
  end.

Section BlocksExec.
Context {W F : Type}.
Variable code : F -> functor W F.
Variables sg catching : bool.
(** Lexer::parse, Lexer.h:15, of an installed lexer. *)
Variable lexes : lexer -> bytes -> M (binput bytes + str).

Local Notation state := (state W F).

Definition b_nested := state -> bytes -> heap -> outcome (heap * (state * (bresult + exn))).

(** Running a handler, as [Exec.run_prog].  A result of a nested execute is destroyed once the
    handler has seen it.  Registration is not in the ledger (it is in C67). *)
Fixpoint b_run {R} (nested : b_nested) (sid : nat) (s : state) (c : bctx) (p : prog W F R)
         (h : heap) : outcome (heap * (state * bctx * (R + exn))) :=
  match p with
  | Ret r => Done (h, (s, c, inl r))
  | Throw x => Done (h, (s, c, inr x))
  | Log t k =>
      a <- b_log t c h ;;
      match a with
      | (h, inr x) => Done (h, (s, c, inr x))
      | (h, inl c) => b_run nested sid s c k h
      end
  | LogLine t k =>
      a <- b_logline t c h ;;
      match a with
      | (h, inr x) => Done (h, (s, c, inr x))
      | (h, inl c) => b_run nested sid s c k h
      end
  | ReportError e k =>
      a <- b_report (str_make e) c h ;;
      match a with
      | (h, inr x) => Done (h, (s, c, inr x))
      | (h, inl c) => b_run nested sid s c k h
      end
  | HasErrors k => b_run nested sid s c (k (cc_hasErrors (see_ctx c))) h
  | GetNamed k => b_run nested sid s c (k (i_named (see_input (bc_input c)))) h
  | PutNamed i nv k =>
      a <- b_put i nv c h ;;
      match a with
      | (h, inr x) => Done (h, (s, c, inr x))
      | (h, inl c) => b_run nested sid s c k h
      end
  | GetState k => b_run nested sid s c (k (s_world s)) h
  | PutState w k => b_run nested sid (set_world s w) c k h
  | Touch k => if is_live s sid then b_run nested sid s c k h else Fault UseAfterFree
  | DoAdd n fs k => s' <- add sg s n fs ;; b_run nested sid s' c k h
  | DoRemove n k => s' <- remove sg s n ;; b_run nested sid s' c k h
  | DoClear k => b_run nested sid (clear_all s) c k h
  | DoSetLexer lx k => b_run nested sid (set_lexer s lx) c k h
  | DoExecute cmd k =>
      a <- nested s cmd h ;;
      match a with
      | (h, (s', inr x)) => b_run nested sid s' c (k (inr x)) h
      | (h, (s', inl r)) =>
          h <- result_destroy r h ;; b_run nested sid s' c (k (inl (see_result r))) h
      end
  end.

(** The pack Expected<UserArgs, String>..., FunctorCaller.h:26: errors own a String, values belong to the user. *)
Fixpoint bexpecteds (ps : list serializer) : Type :=
  match ps with [] => unit | T :: r => ((carrier T + str) * bexpecteds r)%type end.
Definition bexpected_destroy {A} (e : A + str) : dtor :=
  match e with inl _ => trivial | inr s => str_destroy s end.
Fixpoint bexpecteds_destroy (ps : list serializer) : bexpecteds ps -> dtor :=
  match ps with
  | [] => fun _ => trivial
  | T :: r => fun es => both (bexpecteds_destroy r (snd es)) (bexpected_destroy (fst es))
  end.

(** TypeSerializer<UserArgs>::fromString(arguments[UserIndices])..., FunctorCaller.h:39-43, one
    after the other.  A failing conversion makes its message by sprintf. *)
Fixpoint b_convert (ps : list serializer) (i : nat) (args : vec (vec bytes)) : M (bexpecteds ps) :=
  match ps with
  | [] => ret tt
  | T :: r =>
      v <~ vec_at args i ;;
      e <~ match from_value T (see_value v) with
           | Value x => ret (inl x)
           | Error t => s <~ b_sprintf t ;; ret (inr s)
           end ;;
      es <~ unwind (bexpected_destroy e) (b_convert r (S i) args) ;;
      ret ((e, es) : bexpecteds (T :: r))
  end.

Fixpoint b_any_failed (ps : list serializer) : bexpecteds ps -> bool :=
  match ps with
  | [] => fun _ => false
  | T :: r => fun es => match fst es with inr _ => true | inl _ => b_any_failed r (snd es) end
  end.

(** (reportError(context, expectedArgs), ...), FunctorCaller.h:18-23, 30: the messages are
    copied.  The errors that were reported before an exception stay reported. *)
Fixpoint b_report_failed (ps : list serializer)
  : bexpecteds ps -> bctx -> heap -> outcome (heap * (bctx * (unit + exn))) :=
  match ps with
  | [] => fun _ c h => Done (h, (c, inl tt))
  | T :: r => fun es c h =>
      match fst es with
      | inl _ => b_report_failed r (snd es) c h
      | inr s =>
          a <- b_report (str_copy s) c h ;;
          match a with
          | (h, inr x) => Done (h, (c, inr x))
          | (h, inl c) => b_report_failed r (snd es) c h
          end
      end
  end.

Fixpoint b_take_values (ps : list serializer) : bexpecteds ps -> outcome (args_of ps) :=
  match ps with
  | [] => fun _ => Done tt
  | T :: r => fun es =>
      match fst es with
      | inr _ => Fault AssertFailed
      | inl x => xs <- b_take_values r (snd es) ;; Done (x, xs)
      end
  end.

(** TypeSerializer<R>::toString of the result, FunctionWrapper.h:66-87. *)
Definition b_text (r : rtype) (v : rcarrier r) : M (option str) :=
  t <~ lift (rtext r v) ;;
  match t with
  | None => ret None
  | Some t => s <~ b_sprintf t ;; ret (Some s)
  end.

(** detail::invoke, FunctorCaller.h:25-37.  The parameters expectedArgs are destroyed at the
    end, also when an exception passes. *)
Definition b_invoke (nested : b_nested) (sid : nat) (f : functor W F) (s : state) (c : bctx)
           (es : bexpecteds (f_params f)) (h : heap)
  : outcome (heap * (state * bctx * (unit + exn))) :=
  if b_any_failed (f_params f) es then
    a <- b_report_failed (f_params f) es c h ;;
    match a with
    | (h, (c, o)) => h <- bexpecteds_destroy (f_params f) es h ;; Done (h, (s, c, o))
    end
  else
    vs <- b_take_values (f_params f) es ;;
    a <- b_run nested sid s c (f_body f vs) h ;;
    match a with
    | (h, (s, c, inr x)) => h <- bexpecteds_destroy (f_params f) es h ;; Done (h, (s, c, inr x))
    | (h, (s, c, inl v)) =>
        a <- b_text (f_result f) v h ;;
        match a with
        | (h, inr x) => h <- bexpecteds_destroy (f_params f) es h ;; Done (h, (s, c, inr x))
        | (h, inl rv) =>
            (* the assignment exchanges, the local returnValue takes the other one with it *)
            let out := cc_hasErrors (see_ctx c) in
            h <- option_destroy (if out then rv else br_return (bc_result c)) h ;;
            h <- bexpecteds_destroy (f_params f) es h ;;
            Done (h, (s, if out then c else with_return c rv, inl tt))
        end
    end.

(** invokeTrampoline, src/Coil.cpp:169-172, AnyFunctor.h:40-50, FunctorCaller.h:39-43. *)
Definition b_invokeTrampoline (nested : b_nested) (cl : nat * F) (s : state) (c : bctx) (h : heap)
  : outcome (heap * (state * bctx * (unit + exn))) :=
  let f := code (snd cl) in
  a <- b_convert (f_params f) 0 (bi_args (bc_input c)) h ;;
  match a with
  | (h, inr x) => Done (h, (s, c, inr x))
  | (h, inl es) => b_invoke nested (fst cl) f s c es h
  end.

(** The search loop of execute, src/Coil.cpp:283-285. *)
Fixpoint b_dispatch (nested : b_nested) (fs : list (nat * F)) (s : state) (c : bctx) (h : heap)
  : outcome (option (heap * (state * bctx * (unit + exn)))) :=
  match fs with
  | [] => Done None
  | f :: r =>
      if arity (code (snd f)) =? length (items (bi_args (bc_input c)))
      then x <- b_invokeTrampoline nested f s c h ;; Done (Some x)
      else b_dispatch nested r s c h
  end.

(** The loop building expectedStr, src/Coil.cpp:303-311. *)
Fixpoint b_expected_loop (fs : list (nat * F)) (i n : nat) (acc : str) : M str :=
  match fs with
  | [] => ret acc
  | f :: r =>
      acc <~ (if (0 <? i) && negb (i =? n - 1)
              then unwind (str_destroy acc) (str_append acc (lit ", ")) else ret acc) ;;
      acc <~ (if (0 <? i) && (i =? n - 1)
              then unwind (str_destroy acc) (str_append acc (lit " or ")) else ret acc) ;;
      num <~ unwind (str_destroy acc) (b_sprintf (printf_zu (arity (code (snd f))))) ;;
      acc <~ unwind (both (str_destroy num) (str_destroy acc))
               (t <~ str_read num ;; str_append acc t) ;;
      _ <~ run (str_destroy num) ;;
      b_expected_loop r (S i) n acc
  end.

(** src/Coil.cpp:300-315. *)
Definition b_wrongArity (name : bytes) (fs : list (nat * F)) (n : nat) : M str :=
  e <~ str_make [] ;;
  e <~ unwind (str_destroy e) (str_reserve e (length fs * 3)) ;;
  e <~ b_expected_loop fs 0 (length fs) e ;;
  m <~ unwind (str_destroy e)
         (t <~ str_read e ;;
          b_sprintf (lit "Wrong number of arguments to '" ++ c_str name ++ lit "': expected " ++
                     c_str t ++ lit ", got " ++ printf_zu n)) ;;
  _ <~ run (str_destroy e) ;;
  ret m.

(** Bindings::execute(CallContext&), src/Coil.cpp:261-316. *)
Definition b_execute_ctx (nested : b_nested) (s : state) (c : bctx) (h : heap)
  : outcome (heap * (state * bctx * (unit + exn))) :=
  let report s c m h :=
    a <- b_report m c h ;;
    match a with
    | (h, inr x) => Done (h, (s, c, inr x))
    | (h, inl c) => Done (h, (s, c, inl tt))
    end in
  let name := bi_name (bc_input c) in
  match name with
  | [] => report s c (str_make (lit "No function name is specified")) h
  | _ =>
      it <- get sg s name ;;
      match it with
      | None => report s c (b_sprintf (lit "No function '" ++ c_str name ++ lit "' is registered")) h
      | Some cmd =>
          let fs := c_functors cmd in
          o <- b_dispatch nested fs s c h ;;
          match o with
          | Some (h, (s, c, inl tt)) => Done (h, (s, c, inl tt))
          | Some (h, (s, c, inr x)) =>
              if catching then
                match x with
                | StdException text =>
                    report s c (b_sprintf (lit "Exception caught during execution: " ++ c_str text)) h
                | OtherException => report s c (str_make (lit "Exception caught during execution")) h
                end
              else Done (h, (s, c, inr x))
          | None => report s c (b_wrongArity name fs (length (items (bi_args (bc_input c))))) h
          end
      end
  end.

(** Bindings::execute(ExecutionInput), src/Coil.cpp:240-246.  The input is moved into the
    context, and from there into the result. *)
Definition b_execute_input (nested : b_nested) (s : state) (inp : binput bytes) (h : heap)
  : outcome (heap * (state * (bresult + exn))) :=
  a <- unwind (input_destroy inp) (str_make []) h ;;
  match a with
  | (h, inr x) => Done (h, (s, inr x))
  | (h, inl out) =>
      a <- b_execute_ctx nested s (BCtx inp (BResult b_no_input VNull None out)) h ;;
      match a with
      | (h, (s, c, inr x)) => h <- ctx_destroy c h ;; Done (h, (s, inr x))
      | (h, (s, c, inl _)) =>
          let r := bc_result c in
          h <- input_destroy (br_input r) h ;;
          Done (h, (s, inl (BResult (bc_input c) (br_errors r) (br_return r) (br_output r))))
      end
  end.

(** The answer to a syntax error, src/Coil.cpp:251-256; [e] is destroyed with the local that
    holds it. *)
Definition b_syntax (e : str) : M bresult :=
  out <~ unwind (str_destroy e) (str_make []) ;;
  es <~ unwind (both (str_destroy out) (str_destroy e))
          (l <~ str_make (lit "Syntax error: ") ;;
           m <~ str_plus l e ;;
           vec_push str_kind VNull m) ;;
  _ <~ run (str_destroy e) ;;
  ret (BResult b_no_input es None out).

(** Bindings::execute(StringView), src/Coil.cpp:248-259. *)
Definition b_execute_text (nested : b_nested) (s : state) (cmd : bytes) (h : heap)
  : outcome (heap * (state * (bresult + exn))) :=
  match s_lexer s with
  | None => Fault NullDeref
  | Some lex =>
      a <- lexes lex cmd h ;;
      match a with
      | (h, inr x) => Done (h, (s, inr x))
      | (h, inl (inr e)) =>
          a <- b_syntax e h ;; match a with (h, o) => Done (h, (s, o)) end
      | (h, inl (inl inp)) => b_execute_input nested s inp h
      end
  end.

(** The recursion through handlers, as in [Exec.nested_exec]. *)
Fixpoint b_nested_exec (depth : nat) : b_nested :=
  match depth with
  | O => fun _ _ _ => Fault Diverges
  | S d => b_execute_text (b_nested_exec d)
  end.

Definition b_exec_text (depth : nat) := b_execute_text (b_nested_exec depth).
Definition b_exec_input (depth : nat) := b_execute_input (b_nested_exec depth).

(** An application that executes commands one after the other, lets each result go and
    survives the exceptions. *)
Fixpoint b_session (depth : nat) (s : state) (cmds : list bytes) (h : heap)
  : outcome (heap * state) :=
  match cmds with
  | [] => Done (h, s)
  | cmd :: r =>
      a <- b_exec_text depth s cmd h ;;
      match a with
      | (h, (s, inr _)) => b_session depth s r h
      | (h, (s, inl q)) => h <- result_destroy q h ;; b_session depth s r h
      end
  end.
End BlocksExec.
End Blocks.
