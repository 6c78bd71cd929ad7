(** The same programs on plain values, told which statements threw.

    First with registries as hash maps: a statement that threw leaves them as they were, or
    with the buckets grown that the new command would have needed.  Then with registries as
    functions from names to handlers: a statement that threw leaves them as they were. *)
From Coq Require Import ZArith Bool PeanoNat List.
From Verif Require Import Base UMap Handlers HandlersSpec.
Import ListNotations.

Section Spec.
Context {F : Type}.
Variable hash : bytes -> Z.

(** The registry with room for one more name. *)
Definition room (x : umap bytes (list F)) (name : bytes) : outcome (umap bytes (list F)) :=
  i <- findNodeIndex bytes_eqb hash x name ;;
  match i with
  | Some _ => Done x
  | None =>
      if load_exceeds (S (length (nodes x))) (length (buckets x))
      then rehash hash x (length (nodes x) * 2) else Done x
  end.

(** How a statement ended; [late]: after the buckets have grown. *)
Inductive ending := Normal | Early | Late.

Definition threw_s (e : ending) : bool := match e with Normal => false | _ => true end.

Definition left_reg (e : ending) (x : umap bytes (list F)) (name : bytes) : outcome (umap bytes (list F)) :=
  match e with Late => room x name | _ => Done x end.

(** A statement that throws: [add(name, move(v))] has taken the handlers out of [v]. *)
Definition step_e (s : values F) (o : op F) (e : ending) : outcome (values F) :=
  match e with
  | Normal => step_s hash s o
  | _ =>
      match o with
      | AddVec b name v =>
          x <- var (s_maps s) b ;; _ <- var (s_vecs s) v ;;
          x' <- left_reg e x name ;;
          Done (Values (set_nth (s_vecs s) v (Some [])) (set_nth (s_maps s) b (Some x')))
      | AddFunc b name _ =>
          x <- var (s_maps s) b ;;
          x' <- left_reg e x name ;;
          Done (Values (s_vecs s) (set_nth (s_maps s) b (Some x')))
      | _ => Done s
      end
  end.

Fixpoint runs_e (s : values F) (os : list (op F)) (es : list ending) : outcome (values F) :=
  match os, es with
  | o :: os, e :: es => s' <- step_e s o e ;; runs_e s' os es
  | _, _ => Done s
  end.

(** Which statements can throw: those that allocate. *)
Definition allocates (o : op F) : bool :=
  match o with
  | Overload (_ :: _) | NewBindings | AddVec _ _ _ | AddFunc _ _ _ => true
  | _ => false
  end.

(** ** Registries as functions *)

(** [None]: moved from; such a registry has no buckets, and add and get divide by zero. *)
Definition reg : Type := option (bytes -> option (list F)).

Record ideals := Ideals { i_vecs : list (option (list F)); i_regs : list (option reg) }.
Definition no_ideals : ideals := Ideals [] [].

Definition update (r : bytes -> option (list F)) (name : bytes) (x : option (list F))
  : bytes -> option (list F) :=
  fun n => if bytes_eqb n name then x else r n.

Definition use (r : reg) : outcome (bytes -> option (list F)) :=
  match r with Some f => Done f | None => Fault DivByZero end.

Definition step_i (s : ideals) (o : op F) (threw : bool) : outcome ideals :=
  match o, threw with
  | Overload _, true | NewBindings, true | AddFunc _ _ _, true => Done s
  | AddVec b name v, true =>
      _ <- var (i_vecs s) v ;; Done (Ideals (set_nth (i_vecs s) v (Some [])) (i_regs s))
  | Overload fs, _ => Done (Ideals (i_vecs s ++ [Some fs]) (i_regs s))
  | MoveVec v, _ =>
      x <- var (i_vecs s) v ;; Done (Ideals (set_nth (i_vecs s) v (Some []) ++ [Some x]) (i_regs s))
  | EndVec v, _ => _ <- var (i_vecs s) v ;; Done (Ideals (set_nth (i_vecs s) v None) (i_regs s))
  | NewBindings, _ => Done (Ideals (i_vecs s) (i_regs s ++ [Some (Some (fun _ => None))]))
  | MoveBindings b, _ =>
      x <- var (i_regs s) b ;; Done (Ideals (i_vecs s) (set_nth (i_regs s) b (Some None) ++ [Some x]))
  | AssignBindings b c, _ =>
      x <- var (i_regs s) b ;; y <- var (i_regs s) c ;;
      Done (Ideals (i_vecs s) (set_nth (set_nth (i_regs s) c (Some x)) b (Some y)))
  | EndBindings b, _ => _ <- var (i_regs s) b ;; Done (Ideals (i_vecs s) (set_nth (i_regs s) b None))
  | AddVec b name v, _ =>
      x <- var (i_regs s) b ;; y <- var (i_vecs s) v ;; f <- use x ;;
      Done (Ideals (set_nth (i_vecs s) v (Some [])) (set_nth (i_regs s) b (Some (Some (update f name (Some y))))))
  | AddFunc b name h, _ =>
      x <- var (i_regs s) b ;; f <- use x ;;
      Done (Ideals (i_vecs s) (set_nth (i_regs s) b (Some (Some (update f name (Some [h]))))))
  | RemoveName b name, _ =>
      x <- var (i_regs s) b ;; f <- use x ;;
      Done (Ideals (i_vecs s) (set_nth (i_regs s) b (Some (Some (update f name None)))))
  | ClearAll b, _ =>
      x <- var (i_regs s) b ;;
      Done (Ideals (i_vecs s) (set_nth (i_regs s) b (Some (option_map (fun _ _ => None) x))))
  end.

Fixpoint runs_i (s : ideals) (os : list (op F)) (ts : list bool) : outcome ideals :=
  match os, ts with
  | o :: os, t :: ts => s' <- step_i s o t ;; runs_i s' os ts
  | _, _ => Done s
  end.

Definition lookup_i (s : ideals) (b : nat) (name : bytes) : outcome (option (list F)) :=
  x <- var (i_regs s) b ;; f <- use x ;; Done (f name).

Definition removes (o : op F) : bool := match o with RemoveName _ _ => true | _ => false end.
End Spec.
Arguments ideals : clear implicits.
