(** Specification of the conversion results and messages. *)
From Coq Require Import Ascii String NArith ZArith Bool PeanoNat List.
Import ListNotations.
From Verif Require Import Base StringConvSpec.

(** The elements of a list with a separator between neighbours. *)
Inductive joined (sep : bytes) : list bytes -> bytes -> Prop :=
| joined_nil : joined sep [] []
| joined_one : forall s, joined sep [s] s
| joined_cons : forall s l r, l <> [] -> joined sep l r -> joined sep (s :: l) (s ++ sep ++ r).

(** [s] is [w], a lower-case word, in any capitalisation. *)
Definition spells (s w : bytes) : Prop :=
  Forall2 (fun c l => c = l \/ nat_of_ascii c + 32 = nat_of_ascii l) s w.

(** No NUL byte. *)
Definition no_nul (s : bytes) : Prop := ~ In (ascii_of_nat 0) s.
Definition value_no_nul (v : list bytes) : Prop := forall s, In s v -> no_nul s.

(** The conversion error text. [detail = None] means that there is no detail part. *)
Inductive conversion_error (type_name : bytes) (v : list bytes) : option bytes -> bytes -> Prop :=
| conversion_error_plain : forall rep,
    joined (lit " ") v rep ->
    conversion_error type_name v None
      (lit "Unable to convert '" ++ rep ++ lit "' to type '" ++ type_name ++ lit "'")
| conversion_error_detail : forall rep d,
    joined (lit " ") v rep ->
    conversion_error type_name v (Some d)
      (lit "Unable to convert '" ++ rep ++ lit "' to type '" ++ type_name ++ lit "': " ++ d).

(** Detail for a wrong number of sub-values. *)
Inductive mismatch_detail (expected got : nat) : bytes -> Prop :=
| mismatch_detail_intro : forall a b,
    canonical (Z.of_nat expected) a -> canonical (Z.of_nat got) b ->
    mismatch_detail expected got
      (lit "Expected " ++ a ++ lit " subvalues, got " ++ b).

(** The prefix up to the first NUL. *)
Inductive before_nul : bytes -> bytes -> Prop :=
| before_nul_none : forall s, no_nul s -> before_nul s s
| before_nul_some : forall s r, no_nul s -> before_nul (s ++ ascii_of_nat 0 :: r) s.
