(** The container tests of the project run on the model:
    /repo/tests/runtime/UnorderedMapTests.cpp, StringTests.cpp, VectorTests.cpp,
    BufferTests.cpp, OptionalTests.cpp, ExpectedTests.cpp, UniquePtrTests.cpp.

    These are checks of the transcription, not properties.  The counters of
    constructor calls in the tests named ...Stats are not part of the model
    (what they protect, that every object is destroyed once, is C40, C45-C47);
    of comparisons of addresses the ones that the model can express are kept.
    size_t is cut to 1024 values, more than any of these tests needs. *)
From Coq Require Import Ascii String NArith ZArith QArith Bool PeanoNat List.
From Verif Require Import Util Base UMap Mem StringMem VectorMem Lifetimes.
Import ListNotations.
Local Open Scope nat_scope.

Definition W0 : nat := 1024.

(** ** UnorderedMapTests.cpp *)

(** Hash<int> of the test, lines 5-18. *)
Definition hash_int (value : Z) : Z :=
  let w z := (z mod 2 ^ 64)%Z in
  let mix r := w (Z.lxor (Z.shiftr r 16) r * 73244475)%Z in
  let r := mix (mix (w value)) in
  Z.lxor (Z.shiftr r 16) r.

Notation imap := (umap Z Z).
Definition m_find (m : imap) (k : Z) := find Z.eqb hash_int m k.
Definition m_insert (m : imap) (k v : Z) := insertOrAssign Z.eqb hash_int m k v.
Definition m_erase (m : imap) (k : Z) := erase Z.eqb hash_int m k.
Definition upto (n : nat) : list Z := map Z.of_nat (seq 0 n).
Definition val (k : Z) : Z := (2 * k + 1)%Z.

(** [m] finds [val k] under the keys [ks], and every entry it iterates over is
    of this form. *)
Definition holds (m : imap) (ks : list Z) : bool :=
  forallb (fun k => match m_find m k with Done (Some v) => (v =? val k)%Z | _ => false end) ks
  && forallb (fun p => (snd p =? val (fst p))%Z) (iterate m).

Definition absent (m : imap) (k : Z) : bool :=
  match m_find m k with Done None => true | _ => false end.

(** TestEmpty, lines 21-26. *)
Example umap_TestEmpty : size (empty_map : imap) = 0.
Proof. reflexivity. Qed.

(** TestInsert, lines 28-50: the checks are made after each insertion. *)
Fixpoint insert_checked (m : imap) (ks : list Z) (i : nat) : outcome (imap * bool) :=
  match ks with
  | [] => Done (m, true)
  | k :: r => m' <- m_insert m k (val k) ;;
              rest <- insert_checked m' r (S i) ;;
              Done (fst rest, (size m' =? S i) && holds m' (upto (S i)) && snd rest)
  end.

Definition filled (n : nat) : outcome imap :=
  r <- insert_checked empty_map (upto n) 0 ;; Done (fst r).

Example umap_TestInsert :
  match insert_checked empty_map (upto 100) 0 with Done (_, ok) => ok | _ => false end = true.
Proof. vm_compute. reflexivity. Qed.

(** TestAssign, lines 52-66. *)
Example umap_TestAssign :
  (m <- m_insert empty_map 314 42 ;; m <- m_insert m 314 0 ;;
   v <- m_find m 314 ;; Done (size m, v)) = Done (1, Some 0%Z).
Proof. vm_compute. reflexivity. Qed.

(** TestAccessors, lines 68-143. *)
Example umap_TestAccessors :
  (m <- m_insert empty_map 1 42 ;; m <- m_insert m 2 314 ;;
   a <- m_find m 1 ;; b <- m_find m 2 ;; c <- m_find m 3 ;;
   Done (size m, a, b, c, iterate m))
  = Done (2, Some 42%Z, Some 314%Z, None, [(1, 42); (2, 314)]%Z).
Proof. vm_compute. reflexivity. Qed.

(** TestErase, lines 145-174: the keys are erased in the order of insertion, with
    the checks after each. *)
Fixpoint erase_checked (m : imap) (ks : list Z) (n : nat) : outcome bool :=
  match ks with
  | [] => Done (size m =? 0)
  | k :: r => m' <- m_erase m k ;;
              rest <- erase_checked m' r n ;;
              Done ((size m =? S (List.length r)) && (size m' =? List.length r)
                    && absent m' k && holds m' r && rest)
  end.

Example umap_TestErase :
  (m <- filled 100 ;; erase_checked m (upto 100) 100) = Done true.
Proof. vm_compute. reflexivity. Qed.

(** TestEraseFromSameBucket, lines 176-188. *)
Example umap_TestEraseFromSameBucket :
  (m <- filled 3 ;; m2 <- m_erase m 2 ;; m3 <- m_erase m2 0 ;;
   Done (size m, size m2, size m3)) = Done (3, 2, 1).
Proof. vm_compute. reflexivity. Qed.

(** TestEraseNonExistent, lines 190-206. *)
Example umap_TestEraseNonExistent :
  (m <- filled 100 ;; m' <- m_erase m 100 ;;
   Done (size m, holds m [], size m', holds m' [])) = Done (100, true, 100, true).
Proof. vm_compute. reflexivity. Qed.

(** TestClear, lines 208-220. *)
Example umap_TestClear :
  (m <- filled 100 ;; Done (size m, size (clear m))) = Done (100, 0).
Proof. vm_compute. reflexivity. Qed.

(** ** StringTests.cpp *)

(** A C string literal. *)
Definition clit (s : string) : bytes := lit s ++ [NUL].

(** testCommon, lines 8-22, with the length and the text of the string: not null,
    terminated at length(), end() = begin() + length(). *)
Definition str_common (w : world) (i : nat) : outcome (nat * bytes) :=
  s <- var w i ;;
  _ <- assert_ (match m_ptr s with Null => false | _ => true end) ;;
  t <- load_value (w_mem w) (m_ptr s) (str_length s) ;;
  _ <- assert_ (Ascii.eqb t NUL) ;;
  n <- strlen (w_mem w) (m_ptr s) ;;
  b <- view_bytes_from (w_mem w) (m_ptr s) 0 n ;;
  Done (str_length s, b).

Definition string_test (os : list sop) (i : nat) : outcome (nat * bytes) :=
  w <- sruns W0 start os ;; str_common w i.

(** TestDefaultConstructed, TestConstructedFromCString,
    TestConstructedFromCStringAndLength, lines 24-52; String() is String(""). *)
Example string_TestDefaultConstructed :
  string_test [SMakeC 0 (clit "")] 0 = Done (0, []).
Proof. vm_compute. reflexivity. Qed.

Example string_TestConstructedFromCString :
  string_test [SMakeC 0 (clit "Null-terminated C string")] 0
  = Done (24, lit "Null-terminated C string").
Proof. vm_compute. reflexivity. Qed.

Example string_TestConstructedFromCStringAndLength :
  string_test [SMake 0 (clit "Some string") 4] 0 = Done (4, lit "Some").
Proof. vm_compute. reflexivity. Qed.

(** TestConstructedFromStringView, lines 54-67. *)
Example string_TestConstructedFromStringView :
  (v <- view_make (Ext (clit "A string literal")) 16 ;;
   v <- view_substr W0 v 2 6 ;;
   hs <- str_make_view W0 empty_heap v ;;
   sv <- str_view (snd hs) ;;
   e <- view_eq (fst hs) sv v ;;
   t <- str_common (World (fst hs) (put (fun _ => None) 0 (Some (snd hs)))) 0 ;;
   Done (e, t)) = Done (true, (6, lit "string")).
Proof. vm_compute. reflexivity. Qed.

(** TestBack and TestData, lines 69-107: writing through back() and data(). *)
Example string_TestBack :
  string_test [SMakeC 0 (clit "Test"); SFill 0 3 (lit "s")] 0 = Done (4, lit "Tess").
Proof. vm_compute. reflexivity. Qed.

Example string_TestData :
  string_test [SMakeC 0 (clit "Test"); SFill 0 0 (lit "c"); SFill 0 1 (lit "o");
               SFill 0 2 (lit "i"); SFill 0 3 (lit "l")] 0 = Done (4, lit "coil").
Proof. vm_compute. reflexivity. Qed.

(** TestAppend, lines 109-117. *)
Example string_TestAppend :
  string_test [SMakeC 0 (clit "One"); SAppend 0 (clit "Two") 3] 0 = Done (6, lit "OneTwo").
Proof. vm_compute. reflexivity. Qed.

(** TestAppendOperators, lines 119-142: checked after each step. *)
Definition append_steps : list (list sop) :=
  [ [SMakeC 0 (clit ""); SAppendChar 0 "c"%char];
    [SAppendC 0 (clit " c-string")];
    [SMakeC 1 (clit " string"); SAppendStr 0 1; SDestroy 1];
    [SMakeC 2 (clit " string-view"); SAppendView 0 2 0 12; SDestroy 2] ].

Fixpoint string_steps (w : world) (ps : list (list sop)) : outcome (list (nat * bytes)) :=
  match ps with
  | [] => Done []
  | p :: r => w' <- sruns W0 w p ;; t <- str_common w' 0 ;; rest <- string_steps w' r ;;
              Done (t :: rest)
  end.

Example string_TestAppendOperators :
  string_steps start append_steps
  = Done [(1, lit "c"); (10, lit "c c-string"); (17, lit "c c-string string");
          (29, lit "c c-string string string-view")].
Proof. vm_compute. reflexivity. Qed.

(** TestEquality, lines 144-151. *)
Example string_TestEquality :
  (w <- sruns W0 start [SMakeC 0 (clit "Test"); SMakeC 1 (clit "Test")] ;;
   x <- var w 0 ;; y <- var w 1 ;;
   v <- str_view x ;; l <- view_make (Ext (clit "Test")) 4 ;;
   a <- view_eq (w_mem w) v l ;; b <- str_eq (w_mem w) x y ;; Done (a, b))
  = Done (true, true).
Proof. vm_compute. reflexivity. Qed.

(** TestConcatenation, lines 153-184; operator+ appends to a copy of the left
    operand, src/String.cpp:173-191. *)
Example string_TestConcatenation :
  map (fun os => string_test ([SMakeC 1 (clit "String"); SCopy 0 1] ++ os) 0)
      [ [SAppendChar 0 "c"%char];
        [SAppendC 0 (clit " c-string")];
        [SMakeC 2 (clit " string"); SAppendStr 0 2];
        [SMakeC 2 (clit " string-view"); SAppendView 0 2 0 12] ]
  = [Done (7, lit "Stringc"); Done (15, lit "String c-string");
     Done (13, lit "String string"); Done (18, lit "String string-view")].
Proof. vm_compute. reflexivity. Qed.

(** ** VectorTests.cpp *)

(** Vector<int>; sizeof(int) = 4. *)
Notation vint := (vworld Z).
Definition vruns_int (w : vint) (os : list (vop Z)) : outcome vint :=
  vruns 0%Z (fun v => v) 4 W0 w os.

Fixpoint vec_elems (h : vmem Z) (b : vec Z) (i n : nat) : outcome (list Z) :=
  match n with
  | 0 => Done []
  | S m => v <- vec_get h b i ;; r <- vec_elems h b (S i) m ;; Done (v :: r)
  end.

(** size(), capacity() and the elements through operator[]. *)
Definition vec_look (w : vint) (i : nat) : outcome (nat * nat * list Z) :=
  b <- vvar w i ;; l <- vec_elems (vw_mem w) b 0 (m_size b) ;;
  Done (m_size b, m_capacity b, l).

Definition vec_test (os : list (vop Z)) (i : nat) : outcome (nat * nat * list Z) :=
  w <- vruns_int vstart os ;; vec_look w i.

Definition elems (r : outcome (nat * nat * list Z)) : outcome (list Z) :=
  x <- r ;; Done (snd x).

Definition pushes (i n : nat) : list (vop Z) := map (VPush i) (upto n).
Definition five : list (vop Z) := VMake 0 0 :: pushes 0 5.
Definition ten (n : nat) : list (vop Z) := [VMake 0 0; VReserve 0 n] ++ pushes 0 10.

(** TestPushBack, TestPopBack, lines 97-150. *)
Example vector_TestPushBack :
  map (fun n => elems (vec_test (VMake 0 0 :: pushes 0 n) 0)) [0; 1; 2; 3]
  = [Done []; Done [0%Z]; Done [0; 1]%Z; Done [0; 1; 2]%Z].
Proof. vm_compute. reflexivity. Qed.

Example vector_TestPopBack :
  map (fun n => elems (vec_test (VMake 0 0 :: pushes 0 3 ++ repeat (VPop 0) n) 0)) [0; 1; 2; 3]
  = [Done [0; 1; 2]%Z; Done [0; 1]%Z; Done [0%Z]; Done []].
Proof. vm_compute. reflexivity. Qed.

(** TestReserve to TestDefaultConstructor, lines 152-245: size and capacity. *)
Definition sizes (os : list (vop Z)) : outcome (nat * nat) :=
  r <- vec_test os 0 ;; Done (fst r).

Example vector_TestDefaultConstructor : sizes [VMake 0 0] = Done (0, 0).
Proof. vm_compute. reflexivity. Qed.
Example vector_TestReserve : sizes [VMake 0 0; VReserve 0 10] = Done (0, 10).
Proof. vm_compute. reflexivity. Qed.
Example vector_TestResizeFromEmpty : sizes [VMake 0 0; VResize 0 10] = Done (10, 10).
Proof. vm_compute. reflexivity. Qed.
Example vector_TestResizeGrow :
  (sizes (ten 10), sizes (ten 10 ++ [VResize 0 20])) = (Done (10, 10), Done (20, 20)).
Proof. vm_compute. reflexivity. Qed.
Example vector_TestResizeNoGrow :
  (sizes (ten 20), sizes (ten 20 ++ [VResize 0 20])) = (Done (10, 20), Done (20, 20)).
Proof. vm_compute. reflexivity. Qed.
Example vector_TestResizeShrink :
  (sizes (ten 10), sizes (ten 10 ++ [VResize 0 5])) = (Done (10, 10), Done (5, 10)).
Proof. vm_compute. reflexivity. Qed.

(** TestSpanConstructor to TestMoveAssignment, lines 247-370. *)
Definition both (os : list (vop Z)) : outcome (list Z * list Z) :=
  a <- elems (vec_test os 0) ;; b <- elems (vec_test os 1) ;; Done (a, b).

Example vector_TestSpanConstructor :
  elems (vec_test [VRange 0 (upto 5)] 0) = Done (upto 5).
Proof. vm_compute. reflexivity. Qed.
Example vector_TestCopyConstructor : both (five ++ [VCopy 1 0]) = Done (upto 5, upto 5).
Proof. vm_compute. reflexivity. Qed.
Example vector_TestMoveConstructor : both (five ++ [VMove 1 0]) = Done ([], upto 5).
Proof. vm_compute. reflexivity. Qed.
Example vector_TestCopyAssignment :
  both (five ++ [VMake 1 0; VAssign 1 0]) = Done (upto 5, upto 5).
Proof. vm_compute. reflexivity. Qed.
Example vector_TestMoveAssignment :
  both (five ++ [VMake 1 0; VAssignMove 1 0]) = Done ([], upto 5).
Proof. vm_compute. reflexivity. Qed.

(** TestData, TestRange, TestFrontBack, lines 372-450. *)
Example vector_TestData :
  elems (vec_test (five ++ [VSet 0 2 42%Z]) 0) = Done [0; 1; 42; 3; 4]%Z.
Proof. vm_compute. reflexivity. Qed.
Example vector_TestRange :
  elems (vec_test (five ++ map (fun i => VSet 0 i (2 * Z.of_nat i)%Z) (seq 0 5)) 0)
  = Done [0; 2; 4; 6; 8]%Z.
Proof. vm_compute. reflexivity. Qed.

Definition ends (os : list (vop Z)) : outcome (Z * Z) :=
  w <- vruns_int vstart os ;; b <- vvar w 0 ;;
  x <- vec_front (vw_mem w) b ;; y <- vec_back (vw_mem w) b ;; Done (x, y).
Example vector_TestFrontBack :
  (ends five, ends (five ++ [VSet 0 0 100%Z; VSet 0 4 104%Z]))
  = (Done (0, 4), Done (100, 104))%Z.
Proof. vm_compute. reflexivity. Qed.

(** TestEqualityComparison, lines 452-481. *)
Definition equal_to (l : list Z) : outcome bool :=
  w <- vruns_int vstart (five ++ VMake 1 0 :: map (VPush 1) l) ;;
  a <- vvar w 0 ;; b <- vvar w 1 ;; vec_eq Z.eqb (vw_mem w) a b.
Example vector_TestEqualityComparison :
  (equal_to (upto 5), equal_to (map (Z.add 100) (upto 5)), equal_to (upto 10))
  = (Done true, Done false, Done false).
Proof. vm_compute. reflexivity. Qed.

(** ** BufferTests.cpp *)

Definition buf (h : mem) (n c : nat) := buffer_make W0 h n c.

(** TestConstructor to TestMoveAssignment, lines 97-145. *)
Example buffer_TestConstructor :
  (a <- buf empty_heap 10 1 ;; b <- buf empty_heap 0 1 ;;
   Done (m_capacity (snd a), m_capacity (snd b))) = Done (10, 0).
Proof. vm_compute. reflexivity. Qed.
Example buffer_TestCopyConstructor :
  (a <- buf empty_heap 10 1 ;; b <- buffer_copy_ctor W0 (fst a) (snd a) ;;
   Done (m_capacity (snd a), m_capacity (snd b))) = Done (10, 10).
Proof. vm_compute. reflexivity. Qed.
Example buffer_TestMoveConstructor :
  (a <- buf empty_heap 10 1 ;; Done (m_capacity (fst (buffer_move_ctor (snd a))))) = Done 10.
Proof. vm_compute. reflexivity. Qed.
Example buffer_TestCopyAssignment :
  (a <- buf empty_heap 10 1 ;; b <- buf (fst a) 100 8 ;;
   c <- buffer_assign W0 (fst b) (snd b) (snd a) ;;
   Done (m_capacity (snd a), m_capacity (snd c))) = Done (10, 10).
Proof. vm_compute. reflexivity. Qed.
Example buffer_TestMoveAssignment :
  (a <- buf empty_heap 10 1 ;; b <- buf (fst a) 100 8 ;;
   Done (m_capacity (fst (buffer_assign_move (snd b) (snd a))))) = Done 10.
Proof. vm_compute. reflexivity. Qed.

(** TestCopy, TestAccessors, TestResize, lines 147-189. *)
Definition c_text (h : mem) (b : buffer byte) : outcome bytes :=
  n <- strlen h (m_ptr b) ;; view_bytes_from h (m_ptr b) 0 n.
Example buffer_TestCopy :
  (a <- buf empty_heap 10 1 ;;
   h <- buffer_copy W0 (fst a) (snd a) (Ext (clit "hello")) 6 ;; t <- c_text h (snd a) ;;
   h2 <- buffer_copy W0 h (snd a) Null 0 ;; t2 <- c_text h2 (snd a) ;; Done (t, t2))
  = Done (lit "hello", lit "hello").
Proof. vm_compute. reflexivity. Qed.
Example buffer_TestAccessors :
  (a <- buf empty_heap 10 1 ;;
   h <- Mem.store (fst a) (m_ptr (snd a)) 0 (Some NUL) ;; c <- load_value h (m_ptr (snd a)) 0 ;;
   t <- c_text h (snd a) ;;
   h2 <- buffer_copy W0 h (snd a) (Ext (clit "hello")) 6 ;; t2 <- c_text h2 (snd a) ;;
   Done (c, t, t2)) = Done (NUL, [], lit "hello").
Proof. vm_compute. reflexivity. Qed.
Example buffer_TestResize :
  (a <- buf empty_heap 10 1 ;;
   h <- buffer_copy W0 (fst a) (snd a) (Ext (clit "hello")) 6 ;;
   b <- buffer_resize (snd a) 6 ;; Done (m_size b)) = Done 6.
Proof. vm_compute. reflexivity. Qed.

(** TestTypedOperations, lines 191-227, without the counters. *)
Example buffer_TestTypedOperations :
  (a <- buffer_make W0 (empty_heap : heap Z) 10 4 ;;
   b <- constructNext 4 (fst a) (snd a) 42%Z ;;
   v <- load_value (fst b) (m_ptr (snd b)) 0 ;;
   h <- Mem.store (fst b) (m_ptr (snd b)) 0 (Some 0%Z) ;;
   v2 <- load_value h (m_ptr (snd b)) 0 ;;
   c <- destructLast 4 h (snd b) ;;
   Done (m_capacity (snd b), m_size (snd b), v, v2, m_size (snd c), m_constructed (snd c)))
  = Done (10, 1, 42%Z, 0%Z, 0, 0).
Proof. vm_compute. reflexivity. Qed.

(** ** OptionalTests.cpp *)

(** Integer is Dummy<int>: a move leaves T{} = 0 behind, nothing throws. *)
Definition oruns_int (os : list (oop Z)) : outcome (vars (optional Z)) :=
  oruns (fun _ => 0%Z) (fun _ => 0%Z) (fun _ => false) (fun a _ => a) (fun _ => None) os.

(** hasValue() and, if there is one, the value, which operator* reads. *)
Definition opt_look (o : optional Z) : outcome (option Z) :=
  if m_hasValue o then v <- opt_deref o ;; Done (Some v) else Done None.

Definition opt_test (os : list (oop Z)) : outcome (option Z * option Z) :=
  w <- oruns_int os ;; a <- var_get w 0 ;; b <- var_get w 1 ;;
  x <- opt_look a ;; y <- opt_look b ;; Done (x, y).

Definition opt_same (os : list (oop Z)) : outcome bool :=
  w <- oruns_int os ;; a <- var_get w 0 ;; b <- var_get w 1 ;; opt_eq Z.eqb a b.

Definition opt_is (os : list (oop Z)) (v : Z) : outcome bool :=
  w <- oruns_int os ;; a <- var_get w 0 ;; opt_eq_value Z.eqb a v.

(** TestDefaultConstructor, TestValueConstructor, lines 102-135. *)
Example optional_TestDefaultConstructor :
  (opt_same [ONone 0; ONone 1], opt_same [ONone 0; OOf 1 false 0%Z], opt_is [ONone 0] 0)
  = (Done true, Done false, Done false).
Proof. vm_compute. reflexivity. Qed.
Example optional_TestValueConstructor :
  (opt_test [OOf 0 false 42%Z; ONone 1],
   opt_same [OOf 0 false 42%Z; ONone 1], opt_same [OOf 0 false 42%Z; OOf 1 false 0%Z],
   opt_same [OOf 0 false 42%Z; OOf 1 false 42%Z],
   opt_is [OOf 0 false 42%Z] 0, opt_is [OOf 0 false 42%Z] 42)
  = (Done (Some 42%Z, None), Done false, Done false, Done true, Done false, Done true).
Proof. vm_compute. reflexivity. Qed.

(** TestCopyConstructorFromValue to TestMoveAssignment, lines 137-197; object 1
    is sourceOpt. *)
Example optional_TestCopyConstructorFromValue :
  (opt_test [OOf 1 false 42%Z; OCopy 0 1], opt_same [OOf 1 false 42%Z; OCopy 0 1])
  = (Done (Some 42%Z, Some 42%Z), Done true).
Proof. vm_compute. reflexivity. Qed.
Example optional_TestCopyConstructorFromEmpty :
  (opt_test [ONone 1; OCopy 0 1], opt_same [ONone 1; OCopy 0 1]) = (Done (None, None), Done true).
Proof. vm_compute. reflexivity. Qed.
Example optional_TestMoveConstructorFromValue :
  opt_test [OOf 1 false 42%Z; OMove 0 1] = Done (Some 42%Z, Some 0%Z).
Proof. vm_compute. reflexivity. Qed.
Example optional_TestMoveConstructorFromEmpty :
  opt_test [ONone 1; OMove 0 1] = Done (None, None).
Proof. vm_compute. reflexivity. Qed.
Example optional_TestCopyAssignment :
  (opt_test [OOf 1 false 42%Z; OOf 0 false 0%Z; OAssign 0 1],
   opt_same [OOf 1 false 42%Z; OOf 0 false 0%Z; OAssign 0 1])
  = (Done (Some 42%Z, Some 42%Z), Done true).
Proof. vm_compute. reflexivity. Qed.
Example optional_TestMoveAssignment :
  opt_test [OOf 1 false 42%Z; OOf 0 false 0%Z; OAssignMove 0 1] = Done (Some 42%Z, Some 0%Z).
Proof. vm_compute. reflexivity. Qed.

(** The assignments of the ...Stats tests between a value and nothing,
    lines 299-389. *)
Example optional_AssignmentFromEmpty :
  map opt_test [ [ONone 0; OOf 1 false 42%Z; OAssignMove 0 1];
                 [OOf 0 false 314%Z; ONone 1; OAssignMove 0 1];
                 [ONone 0; OOf 1 false 42%Z; OAssign 0 1];
                 [OOf 0 false 314%Z; ONone 1; OAssign 0 1] ]
  = [Done (Some 42%Z, Some 0%Z); Done (None, None);
     Done (Some 42%Z, Some 42%Z); Done (None, None)].
Proof. vm_compute. reflexivity. Qed.

(** ** ExpectedTests.cpp *)

(** V is Dummy<int>, E is Dummy<float>; 3.14f is written in hundredths. *)
Definition xruns_int (os : list (xop Z Z)) : outcome (vars (expd Z Z)) :=
  xruns (fun _ => 0%Z) (fun _ => 0%Z) (fun _ => 0%Z) (fun _ => 0%Z)
        (fun _ => false) (fun _ => false) (fun a _ => a) (fun a _ => a) (fun _ => None) os.

Definition x_look (x : expd Z Z) : outcome (Z + Z) :=
  if x_hasValue x then v <- x_value x ;; Done (inl v) else e <- x_error x ;; Done (inr e).

Definition x_test (os : list (xop Z Z)) : outcome ((Z + Z) * (Z + Z)) :=
  w <- xruns_int os ;; a <- var_get w 1 ;; b <- var_get w 2 ;;
  x <- x_look a ;; y <- x_look b ;; Done (x, y).

(** TestValueInitialization to TestErrorMoveInitialization, lines 97-203. *)
Example expected_Initialization :
  map x_test [ [XOf 1 42%Z; XErr 2 314%Z];
               [XOf 1 42%Z; XCopy 2 1];
               [XErr 1 314%Z; XCopy 2 1];
               [XOf 1 42%Z; XMove 2 1];
               [XErr 1 314%Z; XMove 2 1] ]
  = [Done (inl 42%Z, inr 314%Z);
     Done (inl 42%Z, inl 42%Z);
     Done (inr 314%Z, inr 314%Z);
     Done (inl 0%Z, inl 42%Z);
     Done (inr 0%Z, inr 314%Z)].
Proof. vm_compute. reflexivity. Qed.

(** TestValueCopyAssignment to TestValueErrorMoveAssignment, lines 205-315. *)
Example expected_Assignment :
  map x_test [ [XOf 1 42%Z; XOf 2 0%Z; XAssign 2 1];
               [XErr 1 314%Z; XErr 2 0%Z; XAssign 2 1];
               [XOf 1 42%Z; XErr 2 0%Z; XAssign 2 1];
               [XOf 1 42%Z; XOf 2 0%Z; XAssignMove 2 1];
               [XErr 1 314%Z; XErr 2 0%Z; XAssignMove 2 1];
               [XOf 1 42%Z; XErr 2 0%Z; XAssignMove 2 1] ]
  = [Done (inl 42%Z, inl 42%Z);
     Done (inr 314%Z, inr 314%Z);
     Done (inl 42%Z, inl 42%Z);
     Done (inl 0%Z, inl 42%Z);
     Done (inr 0%Z, inr 314%Z);
     Done (inl 0%Z, inl 42%Z)].
Proof. vm_compute. reflexivity. Qed.

(** ** UniquePtrTests.cpp *)

(** What *x reads, and the number of objects still there at the end. *)
Definition u_test (os : list (uop Z)) (i : nat) : outcome (Z * nat) :=
  w <- uruns ustart os ;; x <- var_get (u_ptr w) i ;;
  match x with
  | None => Fault AssertFailed
  | Some k => v <- obj_read (u_store w) k ;;
              Done (v, List.length (filter (fun o => match o with Some _ => true | None => false end)
                                           (u_store w)))
  end.

(** TestMakeUnique, TestMoveConstructor, TestMoveAssignment, TestCastToRelatedType,
    lines 97-134, 191-214; after the move assignment the source owns the old
    object. *)
Example uniqueptr_tests :
  map (fun os => u_test os 0)
      [ [UMake 0 42%Z];
        [UMake 1 42%Z; UMove 0 1];
        [UMake 1 42%Z; UMake 0 314%Z; UAssign 0 1];
        [UMake 1 42%Z; UMake 0 314%Z; UAssign 0 1; UDestroy 1];
        [UMake 1 314%Z; UConvert 0 1; UDestroy 1] ]
  = [Done (42%Z, 1); Done (42%Z, 1); Done (42%Z, 2); Done (42%Z, 1); Done (314%Z, 1)].
Proof. vm_compute. reflexivity. Qed.

(** TestDestructorStats, lines 177-189: nothing is left. *)
Example uniqueptr_TestDestructorStats :
  (w <- uruns ustart [UMake 0 42%Z; UDestroy 0] ;; Done (u_store w)) = Done [None].
Proof. vm_compute. reflexivity. Qed.
