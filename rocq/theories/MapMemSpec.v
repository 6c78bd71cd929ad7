(** What pointers to commands mean.

    A registry is a map (UMap.v) with its commands on a shelf: the command that iteration
    visits at position [i] lies in place [i].  A shelf has a number that no other shelf ever
    has and some length.  A registry whose shelf is full gets a longer one when a name is
    added, and the old one is gone.  A pointer is the number of a shelf and a place. *)
From Coq Require Import ZArith Bool PeanoNat List.
From Verif Require Import Base MapMem UMap.
Import ListNotations.

Section MapMemSpec.
Context {K V : Type}.
Variable keqb : K -> K -> bool.
Variable hash : K -> Z.

Record registry := Registry { g_map : umap K V; g_shelf : option nat; g_length : nat }.

(** Registries, pointers obtained so far ([None] is null), and the next number. *)
Record sworld := SWorld {
  s_regs : list (option registry);
  s_ptrs : list (option (nat * nat));
  s_next : nat
}.
Definition sstart : sworld := SWorld [] [] 0.

Definition new_registry : registry := Registry empty_map None 0.
(** A registry that was moved from has no buckets and cannot be used. *)
Definition void_registry : registry := Registry (UMap [] []) None 0.

Definition with_map (g : registry) (m : umap K V) : registry := Registry m (g_shelf g) (g_length g).

Definition svar (s : sworld) (b : nat) : outcome registry :=
  match nth_error (s_regs s) b with Some (Some g) => Done g | _ => Fault UseAfterFree end.

Definition place (g : registry) (i : nat) : option (nat * nat) :=
  match g_shelf g with Some id => Some (id, i) | None => None end.

(** The length of the next shelf of a registry with [n] commands. *)
Definition longer (n : nat) : nat := Nat.max (S n) (n * 3 / 2).

Definition sstep (s : sworld) (o : mop K V) : outcome sworld :=
  let regs := s_regs s in
  match o with
  | MNew => Done (SWorld (regs ++ [Some new_registry]) (s_ptrs s) (s_next s))
  | MAdd b k v =>
      g <- svar s b ;;
      i <- findNodeIndex keqb hash (g_map g) k ;;
      m <- insertOrAssign keqb hash (g_map g) k v ;;
      let n := size (g_map g) in
      let put g' p next := Done (SWorld (set_nth regs b (Some g')) (p :: s_ptrs s) next) in
      match i with
      | Some i => put (with_map g m) (place g i) (s_next s)
      | None =>
          if n <? g_length g then put (with_map g m) (place g n) (s_next s)
          else put (Registry m (Some (s_next s)) (longer n)) (Some (s_next s, n)) (S (s_next s))
      end
  | MGet b k =>
      g <- svar s b ;;
      i <- findNodeIndex keqb hash (g_map g) k ;;
      let p := match i with Some i => place g i | None => None end in
      Done (SWorld regs (p :: s_ptrs s) (s_next s))
  | MRemove b k =>
      g <- svar s b ;;
      m <- erase keqb hash (g_map g) k ;;
      Done (SWorld (set_nth regs b (Some (with_map g m))) (s_ptrs s) (s_next s))
  | MClear b =>
      g <- svar s b ;;
      Done (SWorld (set_nth regs b (Some (with_map g (clear (g_map g))))) (s_ptrs s) (s_next s))
  | MMoveCtor b =>
      g <- svar s b ;;
      Done (SWorld (set_nth regs b (Some void_registry) ++ [Some g]) (s_ptrs s) (s_next s))
  | MMoveAssign b c =>
      g <- svar s b ;;
      g' <- svar s c ;;
      if b =? c then Fault BadLifetime
      else Done (SWorld (set_nth (set_nth regs b (Some g')) c (Some g)) (s_ptrs s) (s_next s))
  | MDestroy b =>
      g <- svar s b ;;
      Done (SWorld (set_nth regs b None) (s_ptrs s) (s_next s))
  end.

Fixpoint sruns (s : sworld) (os : list (mop K V)) : outcome sworld :=
  match os with [] => Done s | o :: r => s' <- sstep s o ;; sruns s' r end.

(** The registry that has shelf [id]. *)
Definition has_shelf (id : nat) (g : option registry) : bool :=
  match g with
  | Some g => match g_shelf g with Some j => j =? id | None => false end
  | None => false
  end.

(** Reading through pointer number [r]: the shelf may be gone or the place empty. *)
Definition sread (s : sworld) (r : nat) : outcome (K * V) :=
  match nth_error (s_ptrs s) r with
  | Some (Some (id, i)) =>
      match List.find (has_shelf id) (s_regs s) with
      | Some (Some g) =>
          match nth_error (iterate (g_map g)) i with
          | Some kv => Done kv
          | None => Fault BadLifetime
          end
      | _ => Fault UseAfterFree
      end
  | _ => Fault NullDeref
  end.

(** Pointer number [r] is to place [i] of the shelf of registry [b]. *)
Definition aims (s : sworld) (r b i : nat) : Prop :=
  exists id g, nth_error (s_ptrs s) r = Some (Some (id, i)) /\ nth_error (s_regs s) b = Some (Some g) /\
    g_shelf g = Some id.

(** The number of pointer [r] after [o]. *)
Definition newer (o : mop K V) (r : nat) : nat :=
  match o with MAdd _ _ _ | MGet _ _ => S r | _ => r end.

(** The registry whose commands [o] may change. *)
Definition touches (o : mop K V) (b : nat) : Prop :=
  match o with MAdd c _ _ | MRemove c _ | MClear c | MDestroy c => b = c | _ => False end.

(** During the whole program one more command than there are fits in memory, with the
    reserve of half as many again that growing asks for. *)
Variable sizeN W : nat.
Definition roomy (s : sworld) : Prop :=
  forall b g, nth_error (s_regs s) b = Some (Some g) -> (3 * S (size (g_map g)) / 2) * sizeN < W.

Fixpoint always_roomy (s : sworld) (os : list (mop K V)) : Prop :=
  roomy s /\
  match os with
  | [] => True
  | o :: r => forall s', sstep s o = Done s' -> always_roomy s' r
  end.
End MapMemSpec.
