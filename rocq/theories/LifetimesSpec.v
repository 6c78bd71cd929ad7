(** What programs with Optional and Expected objects mean. *)
From Coq Require Import Bool PeanoNat List.
From Verif Require Import Base Lifetimes.
Import ListNotations.

Section OptionalSpec.
Context {V : Type}.
Variable moved : V -> V.
Variable self_moved : V -> V.
Variable throws : V -> bool.
Variable torn : V -> V -> V.

(** Every object is empty or has a value. *)
Definition opts := nat -> option (option V).

Definition set (a : opts) (i : nat) (c : option (option V)) : opts :=
  fun j => if Nat.eqb j i then c else a j.

(** [omeans a o a' thrown].  Objects that are moved from keep a value, the one a
    move leaves behind. *)
Inductive omeans (a : opts) : oop V -> opts -> bool -> Prop :=
| OM_none : forall i, a i = None -> omeans a (ONone i) (set a i (Some None)) false
| OM_of : forall i copy v, a i = None -> copy && throws v = false ->
    omeans a (OOf i copy v) (set a i (Some (Some v))) false
| OM_of_throws : forall i v, a i = None -> throws v = true -> omeans a (OOf i true v) a true
| OM_copy : forall i j c, a i = None -> a j = Some c ->
    (forall v, c = Some v -> throws v = false) ->
    omeans a (OCopy i j) (set a i (Some c)) false
| OM_copy_throws : forall i j v, a i = None -> a j = Some (Some v) -> throws v = true ->
    omeans a (OCopy i j) a true
| OM_move : forall i j c, a i = None -> a j = Some c ->
    omeans a (OMove i j) (set (set a j (Some (option_map moved c))) i (Some c)) false
| OM_assign : forall i j b c, a i = Some b -> a j = Some c ->
    (forall v, c = Some v -> throws v = false) ->
    omeans a (OAssign i j) (set a i (Some c)) false
| OM_assign_throws : forall i j b v, a i = Some b -> a j = Some (Some v) -> throws v = true ->
    omeans a (OAssign i j) (set a i (Some (option_map (fun old => torn old v) b))) true
| OM_assign_move : forall i j b c, i <> j -> a i = Some b -> a j = Some c ->
    omeans a (OAssignMove i j) (set (set a j (Some (option_map moved c))) i (Some c)) false
| OM_assign_self : forall i b, a i = Some b ->
    omeans a (OAssignMove i i) (set a i (Some (option_map self_moved b))) false
| OM_write : forall i u v, a i = Some (Some u) ->
    omeans a (OWrite i v) (set a i (Some (Some v))) false
| OM_destroy : forall i b, a i = Some b -> omeans a (ODestroy i) (set a i None) false.

Inductive oprogram : opts -> list (oop V) -> opts -> Prop :=
| OP_nil : forall a, oprogram a [] a
| OP_cons : forall a o a' t os a'', omeans a o a' t -> oprogram a' os a'' ->
    oprogram a (o :: os) a''.

End OptionalSpec.

Section ExpectedSpec.
Context {V E : Type}.
Variable movedV : V -> V.
Variable movedE : E -> E.
Variable self_movedV : V -> V.
Variable self_movedE : E -> E.
Variable throwsV : V -> bool.
Variable throwsE : E -> bool.
Variable tornV : V -> V -> V.
Variable tornE : E -> E -> E.

(** Every object is a value or an error. *)
Definition expds := nat -> option (V + E).

Definition xset (a : expds) (i : nat) (c : option (V + E)) : expds :=
  fun j => if Nat.eqb j i then c else a j.

Definition copy_throws (c : V + E) : bool :=
  match c with inl v => throwsV v | inr e => throwsE e end.

Definition left_behind (c : V + E) : V + E :=
  match c with inl v => inl (movedV v) | inr e => inr (movedE e) end.

Definition moved_into_itself (c : V + E) : V + E :=
  match c with inl v => inl (self_movedV v) | inr e => inr (self_movedE e) end.

(** [xmeans a o a' thrown].  The one operation without a meaning is a copy
    assignment between a value and an error that throws. *)
Inductive xmeans (a : expds) : xop V E -> expds -> bool -> Prop :=
| XM_of : forall i v, a i = None -> xmeans a (XOf i v) (xset a i (Some (inl v))) false
| XM_err : forall i e, a i = None -> xmeans a (XErr i e) (xset a i (Some (inr e))) false
| XM_copy : forall i j c, a i = None -> a j = Some c -> copy_throws c = false ->
    xmeans a (XCopy i j) (xset a i (Some c)) false
| XM_copy_throws : forall i j c, a i = None -> a j = Some c -> copy_throws c = true ->
    xmeans a (XCopy i j) a true
| XM_move : forall i j c, a i = None -> a j = Some c ->
    xmeans a (XMove i j) (xset (xset a j (Some (left_behind c))) i (Some c)) false
| XM_assign : forall i j b c, a i = Some b -> a j = Some c -> copy_throws c = false ->
    xmeans a (XAssign i j) (xset a i (Some c)) false
| XM_assign_value_throws : forall i j u v, a i = Some (inl u) -> a j = Some (inl v) ->
    throwsV v = true -> xmeans a (XAssign i j) (xset a i (Some (inl (tornV u v)))) true
| XM_assign_error_throws : forall i j e f, a i = Some (inr e) -> a j = Some (inr f) ->
    throwsE f = true -> xmeans a (XAssign i j) (xset a i (Some (inr (tornE e f)))) true
| XM_assign_move : forall i j b c, i <> j -> a i = Some b -> a j = Some c ->
    xmeans a (XAssignMove i j) (xset (xset a j (Some (left_behind c))) i (Some c)) false
| XM_assign_self : forall i b, a i = Some b ->
    xmeans a (XAssignMove i i) (xset a i (Some (moved_into_itself b))) false
| XM_destroy : forall i b, a i = Some b -> xmeans a (XDestroy i) (xset a i None) false.

Inductive xprogram : expds -> list (xop V E) -> expds -> Prop :=
| XP_nil : forall a, xprogram a [] a
| XP_cons : forall a o a' t os a'', xmeans a o a' t -> xprogram a' os a'' ->
    xprogram a (o :: os) a''.

End ExpectedSpec.

(** Which UniquePtr variables exist: the only condition on a program. *)
Section UniquePtrSpec.
Context {V : Type}.

Definition exists_after (a : nat -> bool) (i : nat) (b : bool) : nat -> bool :=
  fun j => if Nat.eqb j i then b else a j.

Inductive uproper : (nat -> bool) -> list (uop V) -> (nat -> bool) -> Prop :=
| UP_nil : forall a, uproper a [] a
| UP_make : forall a i v os b, a i = false -> uproper (exists_after a i true) os b ->
    uproper a (UMake i v :: os) b
| UP_null : forall a i os b, a i = false -> uproper (exists_after a i true) os b ->
    uproper a (UNull i :: os) b
| UP_move : forall a i j os b, a i = false -> a j = true -> uproper (exists_after a i true) os b ->
    uproper a (UMove i j :: os) b
| UP_convert : forall a i j os b, a i = false -> a j = true ->
    uproper (exists_after a i true) os b -> uproper a (UConvert i j :: os) b
| UP_assign : forall a i j os b, a i = true -> a j = true -> uproper a os b ->
    uproper a (UAssign i j :: os) b
| UP_destroy : forall a i os b, a i = true -> uproper (exists_after a i false) os b ->
    uproper a (UDestroy i :: os) b.
End UniquePtrSpec.
