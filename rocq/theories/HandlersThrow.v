(** Registering commands when memory runs out.  The functions of Handlers.v that allocate,
    with every allocation a chance of std::bad_alloc, and everything that is destroyed while
    the exception passes.

    [oom n] says whether allocation number [n] of the program throws; it is arbitrary, so a
    theorem for every [oom] is one for every moment at which memory can run out.

    Simplified as in Handlers.v.  An allocation that the code makes only when a capacity is
    exceeded is always counted if the capacity is not part of the model (node array of the
    registry, its buckets): executions in which it is not made are those in which it does not
    throw.  String{name} is one allocation.  Moving a closure never throws.  The order in
    which arguments of a function are destroyed is left open by the language; here the last
    one goes first. *)
From Coq Require Import ZArith Bool PeanoNat List.
From Verif Require Import Base UMap Handlers.
Import ListNotations.

Section Throw.
Context {F : Type}.
(** UserArgumentTypes::names(), include/coil/detail/Types.h:15-26. *)
Variable types : F -> list bytes.
Variable hash : bytes -> Z.
Variable oom : nat -> bool.
Local Notation mem := (mem F).
Local Notation world := (world F).
Local Notation khash := (khash hash).

(** What a function leaves: memory, number of allocations so far, its result or [None] if it
    ended with an exception. *)
Definition left_ (A : Type) : Type := outcome (mem * nat * option A).

Definition threw {A} (m : mem) (c : nat) : left_ A := Done (m, c, None).
Definition gave {A} (m : mem) (c : nat) (x : A) : left_ A := Done (m, c, Some x).

(** ** AnyFunctor *)

(** createAnyFunctor, include/coil/detail/Overloaded.h:11-16, and AnyFunctor(FunctionWrapper),
    AnyFunctor.h:81-85.  [new Func] (FunctionWrapper.h:40) comes first; if it throws there is
    no FunctionWrapper yet.  Then the names of the parameter types, a buffer if there are any
    (Types.h:17-21, Vector.h:67-75), and in the body [new AnyStorage]; if one of these throws,
    the parameter [func] is destroyed; it is moved from after the allocation of the
    storage only.  m_parameterTypes is a member of the object under construction and holds
    views only; ~AnyFunctor does not run. *)
Definition af_make_t (m : mem) (c : nat) (f : F) : left_ functor :=
  if oom c then threw m (S c)
  else
    let '(m1, func) := fw_make m f in
    let c1 := S c in
    let names := negb (length (types f) =? 0) in
    if names && oom c1 then (m' <- fw_destroy m1 func ;; threw m' (S c1))
    else
      let c2 := if names then S c1 else c1 in
      if oom c2 then (m' <- fw_destroy m1 func ;; threw m' (S c2))
      else
        let '(param, func) := fw_move func in
        let '(member, param) := fw_move param in
        let '(h, a) := alloc (stores m1) member in
        m2 <- fw_destroy (set_stores m1 h) param ;;
        m3 <- fw_destroy m2 func ;;
        gave m3 (S c2) (AnyFunctor (Some a) (types f)).

(** ** Vector<AnyFunctor> *)

(** pushBack(T item), Vector.h:129-144, and grow, 262-278, which allocates the new buffer
    before it moves anything.  If that throws, the parameter is destroyed and the vector is
    as before. *)
Definition fvec_push_t (m : mem) (c : nat) (v : fvec) (item : functor) : left_ fvec :=
  let nextSize := S (length (v_items v)) in
  if v_cap v <? nextSize then
    if oom c then (m' <- af_destroy m item ;; threw m' (S c))
    else
      let nextCapacity := length (v_items v) * 3 / 2 in
      r <- fvec_grow m v (if nextCapacity <? nextSize then nextSize else nextCapacity) ;;
      let '(m1, v1) := r in
      _ <- assert_ (nextSize <=? v_cap v1) ;;
      let '(x, item) := af_move item in
      m2 <- af_destroy m1 item ;;
      gave m2 (S c) (FVec (v_items v1 ++ [x]) (v_cap v1))
  else
    let '(x, item) := af_move item in
    m2 <- af_destroy m item ;;
    gave m2 c (FVec (v_items v ++ [x]) (v_cap v)).

(** overloaded(funcs...), Overloaded.h:24-30.  An exception destroys the local vector. *)
Fixpoint push_all_t (m : mem) (c : nat) (v : fvec) (fs : list F) : left_ fvec :=
  match fs with
  | [] => gave m c v
  | f :: fs =>
      r <- af_make_t m c f ;;
      match r with
      | (m1, c1, None) => m' <- fvec_destroy m1 v ;; threw m' c1
      | (m1, c1, Some x) =>
          r' <- fvec_push_t m1 c1 v x ;;
          match r' with
          | (m2, c2, None) => m' <- fvec_destroy m2 v ;; threw m' c2
          | (m2, c2, Some v') => push_all_t m2 c2 v' fs
          end
      end
  end.
Definition overloaded_t (m : mem) (c : nat) (fs : list F) : left_ fvec := push_all_t m c fvec_new fs.

(** ** The registry *)

(** The state of the registry after add, and whether add threw. *)
Definition left_map : Type := outcome (mem * nat * umap key command * bool).

(** The arguments of insertOrAssign go: the command, then the key. *)
Definition drop_args (m : mem) (k : key) (v : fvec) : outcome mem :=
  m' <- fvec_destroy m v ;; key_destroy m' k.

(** Bindings::add(name, Vector), src/Coil.cpp:213-219, and insertOrAssign,
    UnorderedMap.h:140-159.  Allocations: String{name}; for a new name the buckets in rehash
    (299-306), if the load gets too high, where resize allocates before it changes
    anything; and the node array in pushBack.  The last one comes after the rehash, which
    is not undone. *)
Definition b_add_t (m : mem) (c : nat) (mp : umap key command) (name : bytes) (v : fvec) : left_map :=
  if oom c then (m' <- fvec_destroy m v ;; Done (m', S c, mp, true))
  else
    let '(h, a) := alloc (keys m) name in
    let m1 := set_keys m h in
    let k := Key a name in
    let c1 := S c in
    i <- findNodeIndex key_eqb khash mp k ;;
    match i with
    | Some i =>
        n <- at_ (nodes mp) i ;;
        let '(mine, param) := fvec_assign (c_functors (n_val n)) v in
        m2 <- drop_args m1 k param ;;
        let name := Some (k_buf (n_key n), length (k_text (n_key n))) in
        Done (m2, c1, UMap (buckets mp) (set_nth (nodes mp) i (set_val n (Command name mine))), false)
    | None =>
        let grows := load_exceeds (S (length (nodes mp))) (length (buckets mp)) in
        if grows && oom c1 then (m' <- drop_args m1 k v ;; Done (m', S c1, mp, true))
        else
          let c2 := if grows then S c1 else c1 in
          mp1 <- (if grows then rehash khash mp (length (nodes mp) * 2) else Done mp) ;;
          if oom c2 then (m' <- drop_args m1 k v ;; Done (m', S c2, mp1, true))
          else
            let it := length (nodes mp1) in
            mp2 <- insertNode khash (UMap (buckets mp1) (nodes mp1 ++ [Node k (Command None v) None None None])) it ;;
            n <- at_ (nodes mp2) it ;;
            let name := Some (k_buf (n_key n), length (k_text (n_key n))) in
            Done (m1, S c2, UMap (buckets mp2)
                    (set_nth (nodes mp2) it (set_val n (Command name (c_functors (n_val n))))), false)
    end.

(** Bindings::add(name, AnyFunctor), src/Coil.cpp:206-211. *)
Definition b_add1_t (m : mem) (c : nat) (mp : umap key command) (name : bytes) (x : functor) : left_map :=
  let '(item, x) := af_move x in
  r <- fvec_push_t m c fvec_new item ;;
  match r with
  | (m1, c1, None) =>
      m' <- fvec_destroy m1 fvec_new ;;
      m'' <- af_destroy m' x ;;
      Done (m'', c1, mp, true)
  | (m1, c1, Some v) =>
      let '(arg, v) := fvec_move v in
      r' <- b_add_t m1 c1 mp name arg ;;
      let '(m2, c2, mp', t) := r' in
      m' <- fvec_destroy m2 v ;;
      m'' <- af_destroy m' x ;;
      Done (m'', c2, mp', t)
  end.

(** ** Programs

    The statements of Handlers.v; each one is inside a try block of its own, and the program
    goes on after an exception.  A variable whose initialisation throws does not come into
    scope. *)

(** The state, the number of allocations so far, and whether the statement threw. *)
Definition step_t (w : world) (c : nat) (o : op F) : outcome (world * nat * bool) :=
  let m := w_mem w in
  match o with
  | Overload fs =>
      r <- overloaded_t m c fs ;;
      match r with
      | (m', c', None) => Done (World m' (w_vecs w) (w_maps w), c', true)
      | (m', c', Some v) => Done (World m' (w_vecs w ++ [Some v]) (w_maps w), c', false)
      end
  | NewBindings =>
      (* makeUnique<DefaultLexer>, src/Coil.cpp:190, and the first bucket, UnorderedMap.h:118-121 *)
      if oom c then Done (w, S c, true)
      else if oom (S c) then Done (w, S (S c), true)
      else Done (World m (w_vecs w) (w_maps w ++ [Some empty_map]), S (S c), false)
  | AddVec b name v =>
      x <- var (w_maps w) b ;; y <- var (w_vecs w) v ;;
      let '(arg, y) := fvec_move y in
      r <- b_add_t m c x name arg ;;
      let '(m', c', x', t) := r in
      Done (World m' (set_nth (w_vecs w) v (Some y)) (set_nth (w_maps w) b (Some x')), c', t)
  | AddFunc b name f =>
      x <- var (w_maps w) b ;;
      a <- af_make_t m c f ;;
      match a with
      | (m1, c1, None) => Done (World m1 (w_vecs w) (w_maps w), c1, true)
      | (m1, c1, Some a) =>
          r <- b_add1_t m1 c1 x name a ;;
          let '(m', c', x', t) := r in
          Done (World m' (w_vecs w) (set_nth (w_maps w) b (Some x')), c', t)
      end
  | _ => w' <- step_h types hash w o ;; Done (w', c, false)
  end.

(** The state at the end and which statements threw. *)
Fixpoint runs_t (w : world) (c : nat) (os : list (op F)) : outcome (world * list bool) :=
  match os with
  | [] => Done (w, [])
  | o :: os =>
      r <- step_t w c o ;;
      let '(w', c', t) := r in
      r' <- runs_t w' c' os ;;
      Done (fst r', t :: snd r')
  end.
End Throw.
