(** Who owns the handler objects and the names of the commands: FunctionWrapper,
    AnyStorage and AnyFunctor with their pointers, vectors of AnyFunctor, the keys and
    commands in the nodes of the registry, and Bindings objects.

    Simplified: element storage of Vector and String is a list (StringMem.v and VectorMem.v
    have it on memory) with its capacity where it decides about moves; only the owning
    pointers and the pointers of views are on heaps.  Copying a captured closure never
    throws. *)
From Coq Require Import ZArith Bool PeanoNat List.
From Verif Require Import Base UMap.
Import ListNotations.

(** ** Heaps *)

(** Live objects with their addresses; addresses are not reused. *)
Record hp (A : Type) := Hp { h_next : nat; h_cells : list (nat * A) }.
Arguments Hp {A}. Arguments h_next {A}. Arguments h_cells {A}.

(** operator new, FunctionWrapper.h:40 and AnyFunctor.h:84. *)
Definition alloc {A} (h : hp A) (x : A) : hp A * nat :=
  (Hp (S (h_next h)) ((h_next h, x) :: h_cells h), h_next h).

Fixpoint cell {A} (l : list (nat * A)) (a : nat) : option A :=
  match l with
  | [] => None
  | (b, x) :: l => if b =? a then Some x else cell l a
  end.

(** Dereferencing a pointer, as at FunctionWrapper.h:69 and src/Coil.cpp:171. *)
Definition deref {A} (h : hp A) (a : nat) : outcome A :=
  match cell (h_cells h) a with Some x => Done x | None => Fault UseAfterFree end.

Fixpoint drop {A} (l : list (nat * A)) (a : nat) : list (nat * A) :=
  match l with
  | [] => []
  | (b, x) :: l => if b =? a then l else (b, x) :: drop l a
  end.

(** operator delete, FunctionWrapper.h:96 and src/Coil.cpp:164; the object is returned so that its members can be destroyed. *)
Definition free {A} (h : hp A) (a : nat) : outcome (A * hp A) :=
  x <- deref h a ;; Done (x, Hp (h_next h) (drop (h_cells h) a)).

Definition no_cells {A} : hp A := Hp 0 [].

Section Handlers.
(** Handler objects: functions, closures, member function pointers. *)
Context {F : Type}.
(** UserArgumentTypes::names(), include/coil/detail/Types.h:15-26. *)
Variable types : F -> list bytes.

(** FunctionWrapper, include/coil/detail/FunctionWrapper.h:100-104: m_func.  m_destroyFunc is
    never null and is copied by moves; m_obj, the object of a member function, is not owned. *)
Record wrapper := Wrapper { m_func : option nat }.

(** Handler objects, AnyStorage objects (AnyFunctor.h:23-33) and buffers of key strings. *)
Record mem := Mem { funcs : hp F; stores : hp wrapper; keys : hp bytes }.

Definition set_funcs (m : mem) (h : hp F) : mem := Mem h (stores m) (keys m).
Definition set_stores (m : mem) (h : hp wrapper) : mem := Mem (funcs m) h (keys m).
Definition set_keys (m : mem) (h : hp bytes) : mem := Mem (funcs m) (stores m) h.

Definition no_mem : mem := Mem no_cells no_cells no_cells.

(** ** FunctionWrapper *)

(** The constructor: new Func(move(func)), FunctionWrapper.h:37-45. *)
Definition fw_make (m : mem) (f : F) : mem * wrapper :=
  let '(h, a) := alloc (funcs m) f in (set_funcs m h, Wrapper (Some a)).

(** FunctionWrapper(FunctionWrapper&&), FunctionWrapper.h:107-116: the new object and the
    argument afterwards. *)
Definition fw_move (w : wrapper) : wrapper * wrapper := (w, Wrapper None).

(** ~FunctionWrapper and typedDestroy, FunctionWrapper.h:92-98, 118-122. *)
Definition fw_destroy (m : mem) (w : wrapper) : outcome mem :=
  match m_func w with
  | None => Done m
  | Some a => r <- free (funcs m) a ;; Done (set_funcs m (snd r))
  end.

(** The handler that typedCall calls, FunctionWrapper.h:66-69. *)
Definition fw_target (m : mem) (w : wrapper) : outcome F :=
  match m_func w with None => Fault NullDeref | Some a => deref (funcs m) a end.

(** ** AnyFunctor *)

(** AnyFunctor.h:76-78; the return type is left out. *)
Record functor := AnyFunctor { m_storage : option nat; m_parameterTypes : list bytes }.

(** AnyFunctor(FunctionWrapper), AnyFunctor.h:81-85: new AnyStorage(move(func)), whose
    constructor (35-38) takes its argument by value and moves it into the member. *)
Definition af_make (m : mem) (f : F) : outcome (mem * functor) :=
  let '(m1, func) := fw_make m f in
  let '(param, func) := fw_move func in
  let '(member, param) := fw_move param in
  let '(h, a) := alloc (stores m1) member in
  m2 <- fw_destroy (set_stores m1 h) param ;;
  m3 <- fw_destroy m2 func ;;
  Done (m3, AnyFunctor (Some a) (types f)).

(** AnyFunctor(AnyFunctor&&), src/Coil.cpp:149-154: exchanges with a fresh object. *)
Definition af_move (x : functor) : functor * functor := (x, AnyFunctor None []).

(** ~AnyFunctor, src/Coil.cpp:156-167: delete m_storage, which destroys the wrapper. *)
Definition af_destroy (m : mem) (x : functor) : outcome mem :=
  match m_storage x with
  | None => Done m
  | Some a => r <- free (stores m) a ;; fw_destroy (set_stores m (snd r)) (fst r)
  end.

(** invokeTrampoline, src/Coil.cpp:169-172, up to the call of the handler. *)
Definition af_target (m : mem) (x : functor) : outcome F :=
  match m_storage x with
  | None => Fault NullDeref
  | Some a => w <- deref (stores m) a ;; fw_target m w
  end.

(** ** Vector<AnyFunctor>

    include/coil/detail/Vector.h:14-61. *)

Record fvec := FVec { v_items : list functor; v_cap : nat }.

Definition fvec_new : fvec := FVec [] 0.

(** destructLast for each element, from the last one, Vector.h:154-159. *)
Fixpoint destroy_items (m : mem) (l : list functor) : outcome mem :=
  match l with
  | [] => Done m
  | x :: l => m' <- destroy_items m l ;; af_destroy m' x
  end.

(** grow, Vector.h:262-278: the elements are moved to a new buffer, the old ones destroyed. *)
Definition fvec_grow (m : mem) (v : fvec) (cap : nat) : outcome (mem * fvec) :=
  m' <- destroy_items m (map (fun x => snd (af_move x)) (v_items v)) ;;
  Done (m', FVec (map (fun x => fst (af_move x)) (v_items v)) cap).

(** pushBack(T item), Vector.h:129-144; the parameter is destroyed at the end. *)
Definition fvec_push (m : mem) (v : fvec) (item : functor) : outcome (mem * fvec) :=
  let nextSize := S (length (v_items v)) in
  r <- (if v_cap v <? nextSize then
          let nextCapacity := length (v_items v) * 3 / 2 in
          fvec_grow m v (if nextCapacity <? nextSize then nextSize else nextCapacity)
        else Done (m, v)) ;;
  let '(m1, v1) := r in
  _ <- assert_ (nextSize <=? v_cap v1) ;;
  let '(x, item) := af_move item in
  m2 <- af_destroy m1 item ;;
  Done (m2, FVec (v_items v1 ++ [x]) (v_cap v1)).

(** Vector(Vector&&), Vector.h:88, and operator=(Vector&&), 104: Buffer::swap. *)
Definition fvec_move (v : fvec) : fvec * fvec := (v, fvec_new).
Definition fvec_assign (this rhs : fvec) : fvec * fvec := (rhs, this).

Definition fvec_destroy (m : mem) (v : fvec) : outcome mem := destroy_items m (v_items v).

(** overloaded(funcs...), include/coil/detail/Overloaded.h:24-30, and createAnyFunctor,
    11-16. *)
Fixpoint push_all (m : mem) (v : fvec) (fs : list F) : outcome (mem * fvec) :=
  match fs with
  | [] => Done (m, v)
  | f :: fs =>
      r <- af_make m f ;;
      r' <- fvec_push (fst r) v (snd r) ;;
      push_all (fst r') (snd r') fs
  end.
Definition overloaded (m : mem) (fs : list F) : outcome (mem * fvec) := push_all m fvec_new fs.

(** ** The registry *)

(** A key: a String, include/coil/detail/String.h:13-52, with the address of its buffer. *)
Record key := Key { k_buf : nat; k_text : bytes }.

Definition key_eqb (a b : key) : bool := bytes_eqb (k_text a) (k_text b).

(** A StringView used for a lookup, src/Coil.cpp:223 and 228; the address is not looked at. *)
Definition as_key (name : bytes) : key := Key 0 name.

(** Bindings::Command, Bindings.h:20-24; the name is a view: address and length, [None] for
    an empty one. *)
Record command := Command { c_name : option (nat * nat); c_functors : fvec }.

(** StringView::data of a name, StringView.h:18, read to its end. *)
Definition read_name (m : mem) (c : command) : outcome bytes :=
  match c_name c with
  | None => Done []
  | Some (a, n) => t <- deref (keys m) a ;; Done (firstn n t)
  end.

Variable hash : bytes -> Z.
Definition khash (k : key) : Z := hash (k_text k).

(** Destroying a String, a Command (Bindings.h:20-24), and a Node (UnorderedMap.h:41-48), members in
    reverse order. *)
Definition key_destroy (m : mem) (k : key) : outcome mem :=
  r <- free (keys m) (k_buf k) ;; Done (set_keys m (snd r)).
Definition node_destroy (m : mem) (n : node key command) : outcome mem :=
  m' <- fvec_destroy m (c_functors (n_val n)) ;; key_destroy m' (n_key n).

(** Bindings::add(name, Vector), src/Coil.cpp:213-219.  insertOrAssign takes its arguments
    by value: if there is a node with that name, the old functors are exchanged into the
    argument (Vector's move assignment) and destroyed with it, as is the new key; otherwise
    both arguments are moved into the new node. *)
Definition b_add (m : mem) (mp : umap key command) (name : bytes) (v : fvec)
  : outcome (mem * umap key command) :=
  let '(h, a) := alloc (keys m) name in
  let m1 := set_keys m h in
  let k := Key a name in
  i <- findNodeIndex key_eqb khash mp k ;;
  mp1 <- insertOrAssign key_eqb khash mp k (Command None v) ;;
  m2 <- (match i with
         | Some i =>
             n <- at_ (nodes mp) i ;;
             m' <- fvec_destroy m1 (snd (fvec_assign (c_functors (n_val n)) v)) ;;
             key_destroy m' k
         | None => Done m1
         end) ;;
  let it := match i with Some i => i | None => pred (length (nodes mp1)) end in
  n <- at_ (nodes mp1) it ;;
  let name := Some (k_buf (n_key n), length (k_text (n_key n))) in
  Done (m2, UMap (buckets mp1)
              (set_nth (nodes mp1) it (set_val n (Command name (c_functors (n_val n)))))).

(** Bindings::add(name, AnyFunctor), src/Coil.cpp:206-211: a vector is made of it. *)
Definition b_add1 (m : mem) (mp : umap key command) (name : bytes) (x : functor)
  : outcome (mem * umap key command) :=
  let '(item, x) := af_move x in
  r <- fvec_push m fvec_new item ;;
  r' <- b_add (fst r) mp name (fst (fvec_move (snd r))) ;;
  m' <- fvec_destroy (fst r') (snd (fvec_move (snd r))) ;;
  m'' <- af_destroy m' x ;;
  Done (m'', snd r').

(** Bindings::remove, src/Coil.cpp:221-224: erase (UnorderedMap.h:161-218) destroys the node
    that popBack takes from the end. *)
Definition b_remove (m : mem) (mp : umap key command) (name : bytes)
  : outcome (mem * umap key command) :=
  i <- findNodeIndex key_eqb khash mp (as_key name) ;;
  match i with
  | None => Done (m, mp)
  | Some i =>
      mp1 <- unlink mp i ;;
      mp2 <- relocate mp1 i ;;
      mp3 <- pop_node mp2 ;;
      n <- at_ (nodes mp2) (pred (length (nodes mp2))) ;;
      m' <- node_destroy m n ;;
      Done (m', mp3)
  end.

(** Vector<Node>::clear, from the last node. *)
Fixpoint destroy_nodes (m : mem) (l : list (node key command)) : outcome mem :=
  match l with
  | [] => Done m
  | n :: l => m' <- destroy_nodes m l ;; node_destroy m' n
  end.

(** Bindings::clear, src/Coil.cpp:235-238, and ~Bindings, 192. *)
Definition b_clear (m : mem) (mp : umap key command) : outcome (mem * umap key command) :=
  m' <- destroy_nodes m (nodes mp) ;; Done (m', clear mp).
Definition b_destroy (m : mem) (mp : umap key command) : outcome mem := destroy_nodes m (nodes mp).

(** Bindings::get, src/Coil.cpp:226-233, with everything that can be read through the
    result: the name, the parameter types and the handlers. *)
Fixpoint targets (m : mem) (l : list functor) : outcome (list F) :=
  match l with
  | [] => Done []
  | x :: l => f <- af_target m x ;; fs <- targets m l ;; Done (f :: fs)
  end.
Definition b_get (m : mem) (mp : umap key command) (name : bytes)
  : outcome (option (bytes * list (list bytes) * list F)) :=
  c <- find key_eqb khash mp (as_key name) ;;
  match c with
  | None => Done None
  | Some c =>
      t <- read_name m c ;;
      fs <- targets m (v_items (c_functors c)) ;;
      Done (Some (t, map m_parameterTypes (v_items (c_functors c)), fs))
  end.

(** ** Programs *)

(** Variables of type Vector<AnyFunctor> and Bindings; [None]: out of scope. *)
Record world := World {
  w_mem : mem;
  w_vecs : list (option fvec);
  w_maps : list (option (umap key command))
}.

Definition start : world := World no_mem [] [].

Inductive op :=
| Overload (fs : list F)               (* auto v = overloaded(fs...) *)
| MoveVec (v : nat)                    (* auto u = move(v) *)
| EndVec (v : nat)                     (* v goes out of scope *)
| NewBindings
| MoveBindings (b : nat)               (* Bindings c{move(b)} *)
| AssignBindings (b c : nat)           (* b = move(c) *)
| EndBindings (b : nat)
| AddVec (b : nat) (name : bytes) (v : nat)   (* b.add(name, move(v)) *)
| AddFunc (b : nat) (name : bytes) (f : F)    (* b.add(name, f), b[name] = f *)
| RemoveName (b : nat) (name : bytes)
| ClearAll (b : nat).

(** A variable in scope; others are not used by a program that compiles. *)
Definition var {A} (l : list (option A)) (i : nat) : outcome A :=
  match nth_error l i with Some (Some x) => Done x | _ => Fault BadLifetime end.

Definition step_h (w : world) (o : op) : outcome world :=
  let m := w_mem w in
  match o with
  | Overload fs => r <- overloaded m fs ;; Done (World (fst r) (w_vecs w ++ [Some (snd r)]) (w_maps w))
  | MoveVec v =>
      x <- var (w_vecs w) v ;;
      Done (World m (set_nth (w_vecs w) v (Some (snd (fvec_move x))) ++ [Some (fst (fvec_move x))])
                  (w_maps w))
  | EndVec v =>
      x <- var (w_vecs w) v ;;
      m' <- fvec_destroy m x ;;
      Done (World m' (set_nth (w_vecs w) v None) (w_maps w))
  | NewBindings => Done (World m (w_vecs w) (w_maps w ++ [Some empty_map]))
  | MoveBindings b =>
      x <- var (w_maps w) b ;;
      Done (World m (w_vecs w) (set_nth (w_maps w) b (Some (UMap [] [])) ++ [Some x]))
  | AssignBindings b c =>
      x <- var (w_maps w) b ;; y <- var (w_maps w) c ;;
      Done (World m (w_vecs w) (set_nth (set_nth (w_maps w) c (Some x)) b (Some y)))
  | EndBindings b =>
      x <- var (w_maps w) b ;;
      m' <- b_destroy m x ;;
      Done (World m' (w_vecs w) (set_nth (w_maps w) b None))
  | AddVec b name v =>
      x <- var (w_maps w) b ;; y <- var (w_vecs w) v ;;
      r <- b_add m x name (fst (fvec_move y)) ;;
      Done (World (fst r) (set_nth (w_vecs w) v (Some (snd (fvec_move y))))
                  (set_nth (w_maps w) b (Some (snd r))))
  | AddFunc b name f =>
      x <- var (w_maps w) b ;;
      a <- af_make m f ;;
      r <- b_add1 (fst a) x name (snd a) ;;
      Done (World (fst r) (w_vecs w) (set_nth (w_maps w) b (Some (snd r))))
  | RemoveName b name =>
      x <- var (w_maps w) b ;;
      r <- b_remove m x name ;;
      Done (World (fst r) (w_vecs w) (set_nth (w_maps w) b (Some (snd r))))
  | ClearAll b =>
      x <- var (w_maps w) b ;;
      r <- b_clear m x ;;
      Done (World (fst r) (w_vecs w) (set_nth (w_maps w) b (Some (snd r))))
  end.

Fixpoint runs_h (w : world) (os : list op) : outcome world :=
  match os with
  | [] => Done w
  | o :: os => w' <- step_h w o ;; runs_h w' os
  end.

(** What get(name) of variable [b] gives. *)
Definition lookup_h (w : world) (b : nat) (name : bytes)
  : outcome (option (bytes * list (list bytes) * list F)) :=
  x <- var (w_maps w) b ;; b_get (w_mem w) x name.
End Handlers.
Arguments mem : clear implicits.
Arguments world : clear implicits.
Arguments op : clear implicits.
