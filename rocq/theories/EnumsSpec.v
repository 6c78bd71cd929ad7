(** Specification of what the texts of enumerations and flags mean. *)
From Coq Require Import Ascii String NArith ZArith Bool PeanoNat List Sorting.Sorted.
Import ListNotations.
From Verif Require Import Base Lexer LexerSpec StringConv StringConvSpec SerializerSpec Enums.

Local Notation length := List.length.

(** * Declarations *)

Definition letter (c : byte) : Prop :=
  65 <= nat_of_ascii c <= 90 \/ 97 <= nat_of_ascii c <= 122 \/ c = "_"%char.
Definition letter_or_digit (c : byte) : Prop := letter c \/ 48 <= nat_of_ascii c <= 57.
Definition identifier (s : bytes) : Prop :=
  exists c r, s = c :: r /\ letter c /\ Forall letter_or_digit r.

(** The values of the underlying type. *)
Definition under_range (p : platform) (u : utype) (z : Z) : Prop :=
  match u with UBool => (0 <= z <= 1)%Z | UInt t => in_range p t z end.

(** What the compiler makes sure of. *)
Definition declarable (p : platform) (e : enumeration) : Prop :=
  no_nul (e_type e) /\
  (forall m v, In (m, v) (e_decl e) -> identifier m /\ under_range p (e_under e) v) /\
  NoDup (map fst (e_decl e)).

(** [m] is the first enumerator declared with the value [v]. *)
Definition first_name (e : enumeration) (v : Z) (m : bytes) : Prop :=
  exists before after, e_decl e = before ++ (m, v) :: after /\ forall m', ~ In (m', v) before.

(** The enumerators magic_enum knows of. *)
Definition visible (e : enumeration) (v : Z) (m : bytes) : Prop :=
  first_name e v m /\ (-128 <= v <= 128)%Z.

(** * Names *)

(** Equal up to the case of ASCII letters. *)
Inductive same_letter : byte -> byte -> Prop :=
| same_refl : forall c, same_letter c c
| same_upper : forall c d, 65 <= nat_of_ascii c <= 90 ->
    nat_of_ascii d = nat_of_ascii c + 32 -> same_letter c d
| same_lower : forall c d, 97 <= nat_of_ascii c <= 122 ->
    nat_of_ascii c = nat_of_ascii d + 32 -> same_letter c d.
Definition same_word : bytes -> bytes -> Prop := Forall2 same_letter.

(** The text [s] names the value [v]: the least one if there are several. *)
Definition calls (e : enumeration) (s : bytes) (v : Z) : Prop :=
  (exists m, visible e v m /\ same_word s m) /\
  forall w m, visible e w m -> same_word s m -> (v <= w)%Z.

(** All visible enumerators in increasing order. *)
Definition listing (e : enumeration) (l : list (Z * bytes)) : Prop :=
  StronglySorted Z.lt (map fst l) /\ forall v m, In (v, m) l <-> visible e v m.

(** * Numbers *)

Definition minus_first (s : bytes) : Prop := exists r, s = ascii_of_nat 45 :: r.

(** The text [s] is read as the value [z] of the underlying type.  The last case is the defect
    of C14. *)
Inductive number (p : platform) : utype -> bytes -> Z -> Prop :=
| number_true : forall s, s = lit "1" \/ spells s (lit "true") -> number p UBool s 1
| number_false : forall s, s = lit "0" \/ spells s (lit "false") -> number p UBool s 0
| number_plain : forall t s z,
    denotes s z -> in_range p t z -> (is_unsigned t = true -> ~ minus_first s) ->
    number p (UInt t) s z
| number_wrapped : forall t s z,
    is_unsigned t = true -> denotes s z -> (- 2 ^ route_bits p t < z < 0)%Z ->
    ~ minus_first s -> in_range p t (z + 2 ^ route_bits p t) ->
    number p (UInt t) s (z + 2 ^ route_bits p t).

(** * Values of an enumeration *)

Definition representable (signed : bool) (bits : Z) (z : Z) : Prop :=
  if signed then (- 2 ^ (bits - 1) <= z < 2 ^ (bits - 1))%Z else (0 <= z < 2 ^ bits)%Z.
Definition holds_all (e : enumeration) (signed : bool) (bits : Z) : Prop :=
  (1 <= bits)%Z /\ forall m v, In (m, v) (e_decl e) -> representable signed bits v.

(** The narrowest integer type that has all enumerators also has [z]. *)
Definition possible (e : enumeration) (z : Z) : Prop :=
  exists signed bits,
    (signed = true <-> exists m v, In (m, v) (e_decl e) /\ (v < 0)%Z) /\
    holds_all e signed bits /\ (forall b, holds_all e signed b -> (bits <= b)%Z) /\
    representable signed bits z.

(** Converting [z] to the enumeration is defined. *)
Definition castable (e : enumeration) (z : Z) : Prop := e_fixed e = true \/ possible e z.

(** Signed types that are not promoted, with their width. *)
Definition wide_signed (p : platform) (u : utype) : option Z :=
  match u with
  | UInt CInt => Some 32%Z
  | UInt CLong => Some (match long_is p with Long32 => 32 | Long64 => 64 end)%Z
  | UInt CLLong => Some 64%Z
  | _ => None
  end.

(** The difference of [v] and the least visible enumerator is not in the underlying type. *)
Definition overflows (p : platform) (e : enumeration) (v : Z) : Prop :=
  exists bits least m, wide_signed p (e_under e) = Some bits /\ visible e least m /\
    (forall w m', visible e w m' -> (least <= w)%Z) /\
    ~ (- 2 ^ (bits - 1) <= v - least < 2 ^ (bits - 1))%Z.

(** * Flags *)

(** [m] is the first enumerator declared with the value of the [k]-th bit. *)
Definition flag (e : enumeration) (k : Z) (m : bytes) : Prop :=
  (0 <= k)%Z /\ first_name e (2 ^ k)%Z m.

(** The flags set in [v] in increasing order. *)
Definition flags_of (e : enumeration) (v : Z) (l : list (Z * bytes)) : Prop :=
  StronglySorted Z.lt (map fst l) /\
  forall k m, In (k, m) l <-> flag e k m /\ Z.testbit v k = true.

Definition sum (l : list Z) : Z := fold_right Z.add 0%Z l.

(** The text of the flags variable: the names of the flags set, or nothing if there is none or
    some bit has no name. *)
Inductive flags_print (e : enumeration) (v : Z) : bytes -> Prop :=
| flags_named : forall l t, flags_of e v l -> l <> [] ->
    v = sum (map (fun f => 2 ^ fst f)%Z l) -> joined (lit "|") (map snd l) t ->
    flags_print e v t
| flags_unnamed : forall l, flags_of e v l ->
    (l = [] \/ v <> sum (map (fun f => 2 ^ fst f)%Z l)) -> flags_print e v [].

(** [r] has exactly the bits of the [xs]. *)
Definition union (xs : list Z) (r : Z) : Prop :=
  forall k, Z.testbit r k = true <-> exists x, In x xs /\ Z.testbit x k = true.

(** The text [s] is read as the value [v]. *)
Definition read_as (p : platform) (e : enumeration) (s : bytes) (v : Z) : Prop :=
  number p (e_under e) s v \/ (~ exists z, number p (e_under e) s z) /\ calls e s v.

(** A word that can be written without quotes: no white space, no separator, no parenthesis, no quote, no '='. *)
Definition plain_word (s : bytes) : Prop :=
  s <> [] /\ Forall (fun c => ~ In (nat_of_ascii c) [9; 10; 13; 32; 34; 39; 40; 41; 44; 59; 61; 124]) s.

(** What a command text does to the flags variable [name]: a text that names it and has one
    argument whose items can all be read sets it to their union; any other text does nothing. *)
Inductive flag_step (p : platform) (C : classes) (e : enumeration) (name : bytes)
  : Z -> bytes -> Z -> Prop :=
| step_set : forall v cmd items named xs r,
    command C cmd (inl (SInput name [items] named)) ->
    Forall2 (read_as p e) items xs -> union xs r -> flag_step p C e name v cmd r
| step_keep : forall v cmd,
    (forall items named xs, command C cmd (inl (SInput name [items] named)) ->
       ~ Forall2 (read_as p e) items xs) ->
    flag_step p C e name v cmd v.
Inductive flag_steps (p : platform) (C : classes) (e : enumeration) (name : bytes)
  : Z -> list bytes -> Z -> Prop :=
| steps_none : forall v, flag_steps p C e name v [] v
| steps_some : forall v c v' cs v'',
    flag_step p C e name v c v' -> flag_steps p C e name v' cs v'' ->
    flag_steps p C e name v (c :: cs) v''.
