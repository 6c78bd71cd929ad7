(** The same programs on plain values: a vector variable is a list of handlers, a Bindings
    variable a registry that maps names to lists of handlers.  Nothing is allocated, owned
    or destroyed. *)
From Coq Require Import ZArith Bool PeanoNat List.
From Verif Require Import Base UMap Handlers.
Import ListNotations.

Section Spec.
Context {F : Type}.
Variable hash : bytes -> Z.

Record values := Values { s_vecs : list (option (list F)); s_maps : list (option (umap bytes (list F))) }.

Definition no_values : values := Values [] [].

Definition step_s (s : values) (o : op F) : outcome values :=
  match o with
  | Overload fs => Done (Values (s_vecs s ++ [Some fs]) (s_maps s))
  | MoveVec v =>
      x <- var (s_vecs s) v ;; Done (Values (set_nth (s_vecs s) v (Some []) ++ [Some x]) (s_maps s))
  | EndVec v => _ <- var (s_vecs s) v ;; Done (Values (set_nth (s_vecs s) v None) (s_maps s))
  | NewBindings => Done (Values (s_vecs s) (s_maps s ++ [Some empty_map]))
  | MoveBindings b =>
      x <- var (s_maps s) b ;;
      Done (Values (s_vecs s) (set_nth (s_maps s) b (Some (UMap [] [])) ++ [Some x]))
  | AssignBindings b c =>
      x <- var (s_maps s) b ;; y <- var (s_maps s) c ;;
      Done (Values (s_vecs s) (set_nth (set_nth (s_maps s) c (Some x)) b (Some y)))
  | EndBindings b => _ <- var (s_maps s) b ;; Done (Values (s_vecs s) (set_nth (s_maps s) b None))
  | AddVec b name v =>
      x <- var (s_maps s) b ;; y <- var (s_vecs s) v ;;
      x' <- insertOrAssign bytes_eqb hash x name y ;;
      Done (Values (set_nth (s_vecs s) v (Some [])) (set_nth (s_maps s) b (Some x')))
  | AddFunc b name f =>
      x <- var (s_maps s) b ;;
      x' <- insertOrAssign bytes_eqb hash x name [f] ;;
      Done (Values (s_vecs s) (set_nth (s_maps s) b (Some x')))
  | RemoveName b name =>
      x <- var (s_maps s) b ;;
      x' <- erase bytes_eqb hash x name ;;
      Done (Values (s_vecs s) (set_nth (s_maps s) b (Some x')))
  | ClearAll b =>
      x <- var (s_maps s) b ;; Done (Values (s_vecs s) (set_nth (s_maps s) b (Some (clear x))))
  end.

Fixpoint runs_s (s : values) (os : list (op F)) : outcome values :=
  match os with
  | [] => Done s
  | o :: os => s' <- step_s s o ;; runs_s s' os
  end.

Definition lookup_s (s : values) (b : nat) (name : bytes) : outcome (option (list F)) :=
  x <- var (s_maps s) b ;; find bytes_eqb hash x name.

(** What a user reads through the command found: its name, the parameter types of its
    handlers, and the handlers. *)
Definition reads (types : F -> list bytes) (name : bytes) (r : outcome (option (list F)))
  : outcome (option (bytes * list (list bytes) * list F)) :=
  match r with
  | Fault f => Fault f
  | Done None => Done None
  | Done (Some fs) => Done (Some (name, map types fs, fs))
  end.

(** All handlers and all names in the variables in scope. *)
Definition opt_held {A B} (g : A -> list B) (x : option A) : list B :=
  match x with Some a => g a | None => [] end.
Definition values_handlers (s : values) : list F :=
  flat_map (opt_held (fun fs => fs)) (s_vecs s) ++
  flat_map (opt_held (fun x => flat_map (@snd bytes (list F)) (iterate x))) (s_maps s).
Definition values_names (s : values) : list bytes :=
  flat_map (opt_held (fun x => map (@fst bytes (list F)) (iterate x))) (s_maps s).
End Spec.
Arguments values : clear implicits.
