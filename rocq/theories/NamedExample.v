(** Model of the example about named arguments: examples/named/NamedExample.cpp. *)
From Coq Require Import Ascii String NArith ZArith Bool PeanoNat List.
Import ListNotations.
From Verif Require Import Util Base Lexer StringConv Serializer UMap Exec FloatConv FloatSerializer
  Enums UserTypes.

(** A Bindings object on which the commands of an example are registered one after the other,
    as in NamedExample.cpp:179-185. *)
Fixpoint register {W F} (sg : bool) (s : state W F) (l : list (bytes * list F))
  : outcome (state W F) :=
  match l with
  | [] => Done s
  | (n, fs) :: r => s' <- add sg s n fs ;; register sg s' r
  end.

(** Item, NamedExample.cpp:29-36.  The name is a std::string_view of a string literal or of the
    text of a command; here it is its characters. *)
Record item := Item {
  it_id : Z; it_name : bytes; it_amount : Z; it_source : Z; it_type : Z
}.

(** Inventory::m_items, NamedExample.cpp:101-110. *)
Definition initial_items : list item :=
  [Item 0 (lit "coin") 7000 1 3; Item 1 (lit "gems") 40 2 3; Item 2 (lit "sword") 1 1 2;
   Item 3 (lit "machete") 1 2 2; Item 4 (lit "katana") 1 1 2; Item 5 (lit "rifle") 1 1 2;
   Item 6 (lit "knife") 2 2 2; Item 7 (lit "key") 1 1 1].

Inductive fn := FList | FAdd | FPrintArgs | FPrintFloats | FSaveGame | FRequired.

(** The tabulator. *)
Definition tab : byte := "009"%char.

(** std::string_view::find(needle) != npos, NamedExample.cpp:56. *)
Fixpoint starts_with (s needle : bytes) : bool :=
  match needle, s with
  | [], _ => true
  | c :: needle, d :: s => Ascii.eqb c d && starts_with s needle
  | _ :: _, [] => false
  end.
Fixpoint find_text (s needle : bytes) : bool :=
  starts_with s needle || match s with [] => false | _ :: s => find_text s needle end.

Section Named.
(** The platform; the names of integer types; what strtof makes of tiny values; the type that
    std::size_t is; and the names that typeid gives the enumerations
    (examples/common/CustomTypeName.h:17-24). *)
Variables (p : platform) (nm : naming) (uf : bool) (size_t : ctype).
Variables source_name type_name save_name : bytes.

(** NamedExample.cpp:13-27 and 126-130. *)
Definition Source : enumeration :=
  Enumeration source_name (UInt CInt) true
    [(lit "None", 0%Z); (lit "Loot", 1%Z); (lit "Reward", 2%Z); (lit "Debug", 3%Z)].
Definition Type_ : enumeration :=
  Enumeration type_name (UInt CInt) true
    [(lit "None", 0%Z); (lit "Key", 1%Z); (lit "Weapon", 2%Z); (lit "Currency", 3%Z)].
Definition SaveGameType : enumeration :=
  Enumeration save_name (UInt CInt) true [(lit "Disk", 0%Z); (lit "Memory", 1%Z)].

(** TypeSerializer<E> and magic_enum::enum_name.  For these three enumerations neither faults
    (C78_enums_safe). *)
Definition enum_name_text (e : enumeration) (v : Z) : bytes :=
  match enum_name p e v with Done t => t | Fault _ => [] end.
Definition enum_serializer (e : enumeration) : serializer :=
  Ser Z (e_type e)
    (fun v => match fromString p nm e v with Done r => r | Fault _ => Error [] end)
    (enum_name_text e).

Definition size_ser : serializer := int_serializer p nm size_t.
Definition int_ser : serializer := int_serializer p nm CInt.
Definition bool_ser : serializer := bool_serializer (char_signed p).

(** doesItemMatch, NamedExample.cpp:55-62. *)
Definition does_item_match (name : option bytes) (minAmount source type : option Z) (i : item) : bool :=
  let nameOk := match name with None => true | Some n => find_text (it_name i) n end in
  let minAmountOk := match minAmount with None => true | Some a => (a <=? it_amount i)%Z end in
  let sourceOk := match source with None => true | Some s => (it_source i =? s)%Z end in
  let typeOk := match type with None => true | Some t => (it_type i =? t)%Z end in
  nameOk && minAmountOk && sourceOk && typeOk.

(** The line of an item, NamedExample.cpp:73-81.  Simplified: the sizes fit int, and "%.*s" with
    precision 0 and the null pointer of an empty view writes nothing. *)
Definition item_line (i : item) : bytes :=
  printf_u (it_id i) ++ tab :: c_str (it_name i) ++ tab :: printf_u (it_amount i) ++
  tab :: enum_name_text Source (it_source i) ++ tab :: enum_name_text Type_ (it_type i).

(** The loop of NamedExample.cpp:67-83. *)
Fixpoint list_items (matches : item -> bool) (l : list item) (k : prog (list item) fn unit)
  : prog (list item) fn unit :=
  match l with
  | [] => k
  | i :: l =>
      if matches i then LogLine (item_line i) (list_items matches l k) else list_items matches l k
  end.

(** "ID\tName\tAmount\tSource\tType" and the line below it, NamedExample.cpp:64-65. *)
Definition header : bytes :=
  lit "ID" ++ tab :: lit "Name" ++ tab :: lit "Amount" ++ tab :: lit "Source" ++ tab :: lit "Type".
Definition ruler : bytes :=
  lit "--" ++ tab :: lit "----" ++ tab :: lit "------" ++ tab :: lit "------" ++ tab :: lit "----".

(** Inventory::list, NamedExample.cpp:41-84. *)
Definition list_ : prog (list item) fn unit :=
  getOrReport_as string_serializer (lit "name") false None (fun name =>
  getOrReport_as size_ser (lit "min_amount") false None (fun minAmount =>
  getOrReport_as (enum_serializer Source) (lit "source") false None (fun source =>
  getOrReport_as (enum_serializer Type_) (lit "type") false None (fun type =>
  HasErrors (fun b => if b then Ret tt else
    LogLine header (LogLine ruler
      (GetState (fun w => list_items (does_item_match name minAmount source type) w (Ret tt))))))))).

(** Inventory::add, NamedExample.cpp:86-98. *)
Definition add_ (id : Z) (name : bytes) : prog (list item) fn unit :=
  getOrReport_as size_ser (lit "amount") false (Some 1%Z) (fun amount =>
  getOrReport_as (enum_serializer Type_) (lit "type") false (Some 2%Z) (fun type =>
  match amount, type with
  | Some a, Some t => GetState (fun w => PutState (w ++ [Item id name a 3 t]) (Ret tt))
  | _, _ => Ret tt
  end)).

(** printArgs, NamedExample.cpp:113-117. *)
Fixpoint print_args (l : list (bytes * value)) : prog (list item) fn unit :=
  match l with
  | [] => Ret tt
  | (key, v) :: l => LogLine (c_str key ++ lit ": " ++ c_str (value_str v)) (print_args l)
  end.

(** printFloats, NamedExample.cpp:119-124. *)
Fixpoint print_floats (l : list (bytes * value)) : prog (list item) fn unit :=
  match l with
  | [] => Ret tt
  | (key, v) :: l =>
      match from_value (float_ser uf) v with
      | Value x => LogLine (c_str key ++ lit ": " ++ printf_f x) (print_floats l)
      | Error _ => print_floats l
      end
  end.

(** saveGame, NamedExample.cpp:132-144. *)
Definition save_game : prog (list item) fn unit :=
  getOrReport_as (enum_serializer SaveGameType) (lit "type") true None (fun type =>
  getOrReport_as (float_ser uf) (lit "delay") false (Some (Fin false 0 (-149))) (fun delay =>
  match type, delay with
  | Some t, Some x =>
      LogLine (lit "Saving game with type " ++ enum_name_text SaveGameType t ++
               lit " and delay " ++ printf_f x ++ lit " ms") (Ret tt)
  | _, _ => Ret tt
  end)).

(** The bool, else int, else two errors of NamedExample.cpp:154-159 and 164-169. *)
Definition show_any (title : bytes) (v : value) (k : prog (list item) fn unit)
  : prog (list item) fn unit :=
  match from_value bool_ser v with
  | Value b => LogLine (title ++ lit ": " ++ (if b : bool then lit "true" else lit "false")) k
  | Error e =>
      match from_value int_ser v with
      | Value z => LogLine (title ++ lit ": " ++ printf_d z) k
      | Error e' => ReportError e (ReportError e' k)
      end
  end.

(** requiredAndOptional, NamedExample.cpp:146-171. *)
Definition required_and_optional : prog (list item) fn unit :=
  getOrReport (lit "required") true (fun r =>
  match r with
  | None => Ret tt
  | Some v =>
      show_any (lit "Required") v
        (getOrReport (lit "optional") false (fun o =>
         match o with None => Ret tt | Some v => show_any (lit "Optional") v (Ret tt) end))
  end).

(** The functions bound in NamedExample.cpp:179-185; coil::bind drops the object. *)
Definition code (f : fn) : functor (list item) fn :=
  match f with
  | FList => Functor true [] RVoid (fun _ => list_)
  | FAdd => Functor true [size_ser; string_serializer] RVoid (fun xs => add_ (fst xs) (fst (snd xs)))
  | FPrintArgs => Functor true [] RVoid (fun _ => GetNamed print_args)
  | FPrintFloats => Functor true [] RVoid (fun _ => GetNamed print_floats)
  | FSaveGame => Functor true [] RVoid (fun _ => save_game)
  | FRequired => Functor true [] RVoid (fun _ => required_and_optional)
  end.

Definition commands : list (bytes * list fn) :=
  [(lit "inventory.list", [FList]); (lit "inventory.add", [FAdd]); (lit "print_args", [FPrintArgs]);
   (lit "print_floats", [FPrintFloats]); (lit "save_game", [FSaveGame]);
   (lit "required_and_optional", [FRequired])].

(** NamedExample::run up to the first command, NamedExample.cpp:174-185. *)
Definition start (sg : bool) : outcome (state (list item) fn) :=
  register sg (fresh_bindings sg initial_items) commands.

(** bindings.execute for each text, examples/common/ExamplesCommon.cpp:27-43: the results in order.
    An exception that execute lets through ends the program. *)
Fixpoint session (sg catching : bool) (d : nat) (s : state (list item) fn) (cmds : list bytes)
  : outcome (state (list item) fn * list result) :=
  match cmds with
  | [] => Done (s, [])
  | c :: cmds =>
      r <- exec_text code sg catching d s c ;;
      match snd r with
      | inr _ => Fault AssertFailed
      | inl x =>
          q <- session sg catching d (fst r) cmds ;;
          Done (fst q, x :: snd q)
      end
  end.
End Named.
