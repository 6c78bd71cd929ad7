(** Model of the user-defined types of the examples: Vec2, EntityId and DynamicArray of
    examples/usertypes/UsertypesExample.cpp, Point and Particle of
    examples/compound/CompoundExample.cpp, and the angle variable of
    examples/advanced/AdvancedExample.cpp. *)
From Coq Require Import Ascii String NArith ZArith QArith Bool PeanoNat List.
Import ListNotations.
From Verif Require Import Base Lexer StringConv Serializer UMap Exec FloatConv FloatSerializer.

Local Notation length := List.length.

(** ** printf's %f *)

(** The last [n] decimal digits of [z], with leading zeros. *)
Fixpoint padded (n : nat) (z : Z) : bytes :=
  match n with
  | O => []
  | S k => padded k (z / 10)%Z ++ [digit_char (z mod 10)%Z]
  end.

(** %f with its default precision 6, for a number that is not negative: the nearest multiple of
    10^-6, ties to even. *)
Definition f_text (q : Q) : bytes :=
  let n := round_even (q * 10 ^ 6) in
  dec (n / 1000000)%Z ++ "."%char :: padded 6 (n mod 1000000)%Z.

(** printf("%f"); floats are promoted to double, which is exact. *)
Definition printf_f (v : fval) : bytes :=
  match v with
  | Fin neg m e => minus neg (f_text (dyadic m e))
  | Inf neg => minus neg (lit "inf")
  | NaN neg => minus neg (lit "nan")
  end.

Section UserTypes.
(** The platform, the names of integer types, whether strtof reports inexact tiny results as
    range errors, the type that size_t is, and the text typeid(Point).name(). *)
Variable p : platform.
Variable nm : naming.
Variable uf : bool.
Variable size_type : ctype.
Variable point_name : bytes.

(** TypeSerializer<float>. *)
Definition float_ser : serializer := float_serializer binary64 uf TFloat.

(** ** Pairs of floats *)

(** TypeSerializer<Vec2>::fromString, UsertypesExample.cpp:125-139, and
    TypeSerializer<Point>::fromString, CompoundExample.cpp:92-106. *)
Definition pair_fromString (name : bytes) (input : value) : expected (fval * fval) :=
  match input with
  | [s0; s1] =>
      let x := from_value float_ser [s0] in
      let y := from_value float_ser [s1] in
      match x with
      | Error e => Error (createGenericError name input e)
      | Value a =>
          match y with
          | Error e => Error (createGenericError name input e)
          | Value b => Value (a, b)
          end
      end
  | _ => Error (createMismatchedSubvaluesError name input 2)
  end.

(** TypeSerializer<Vec2>::toString, UsertypesExample.cpp:141-144. *)
Definition vec2_text (v : fval * fval) : bytes :=
  lit "(" ++ printf_f (fst v) ++ lit ", " ++ printf_f (snd v) ++ lit ")".

(** TypeName<Vec2>, UsertypesExample.cpp:180-187. *)
Definition vec2_serializer : serializer :=
  Ser (fval * fval) (lit "Vec2") (pair_fromString (lit "Vec2")) vec2_text.

(** Point::toString, CompoundExample.cpp:39-44: operator<< of a stream with the default flags
    writes a float like %g. *)
Definition point_text (v : fval * fval) : bytes :=
  lit "(" ++ printf_g (fst v) ++ lit "," ++ printf_g (snd v) ++ lit ")".

(** TypeSerializer<Point>, CompoundExample.cpp:89-112.  TypeName<Point> is the general one of
    examples/common/CustomTypeName.h:17-24. *)
Definition point_serializer : serializer :=
  Ser (fval * fval) point_name (pair_fromString point_name) point_text.

(** TypeSerializer<ParticleSystem::Particle>::toString, CompoundExample.cpp:118-123. *)
Definition particle_text (id : bytes) (position velocity : fval * fval) : bytes :=
  lit "{'" ++ id ++ lit "': p " ++ point_text position ++ lit ", v " ++ point_text velocity ++
  lit "}".

(** ** EntityId *)

(** TypeSerializer<EntityId>::fromString, UsertypesExample.cpp:102-114. *)
Definition entity_fromString (input : value) : expected Z :=
  match from_value (int_serializer p nm size_type) input with
  | Error e => Error (createGenericError (lit "EntityId") input e)
  | Value index => Value index
  end.

(** TypeSerializer<EntityId>::toString, UsertypesExample.cpp:116-119. *)
Definition entity_text (index : Z) : bytes := lit "EntityId{" ++ printf_u index ++ lit "}".

(** TypeName<EntityId>, UsertypesExample.cpp:189-196. *)
Definition entity_serializer : serializer :=
  Ser Z (lit "EntityId") entity_fromString entity_text.

(** ** DynamicArray *)

(** The loop of TypeSerializer<DynamicArray<T>>::fromString, UsertypesExample.cpp:150-164. *)
Fixpoint array_loop (T : serializer) (name : bytes) (input : value) (rest : list bytes)
  (result : list (carrier T)) : expected (list (carrier T)) :=
  match rest with
  | [] => Value result
  | subvalue :: rest =>
      match from_value T [subvalue] with
      | Error e => Error (createGenericError name input e)
      | Value x => array_loop T name input rest (result ++ [x])
      end
  end.

(** TypeName<DynamicArray<T>>, UsertypesExample.cpp:170-178.  There is no toString: the type is
    used for parameters only. *)
Definition array_serializer (T : serializer) : serializer :=
  let name := lit "DynamicArray<" ++ tname T ++ lit ">" in
  Ser (list (carrier T)) name (fun input => array_loop T name input input []) (fun _ => []).

(** The command "sum", UsertypesExample.cpp:219: std::accumulate with an int; overflow is
    undefined. *)
Fixpoint accumulate (acc : Z) (xs : list Z) : outcome Z :=
  match xs with
  | [] => Done acc
  | x :: xs =>
      let s := (acc + x)%Z in
      if (smin 32 <=? s)%Z && (s <=? smax 32)%Z then accumulate s xs else Fault Overflow
  end.
Definition sum_all (xs : list Z) : outcome Z := accumulate 0 xs.

(** ** The angle variable *)

(** 180.0f / 3.14159265358979f, AdvancedExample.cpp:99, computed by the compiler. *)
Definition degrees_per_radian : Q := dyadic 15019744 (-18).

(** operator*= of float with a positive number [c]; exact result, then rounding. *)
Definition times (v : fval) (c : Q) : fval :=
  match v with
  | Fin neg m e =>
      if (m =? 0)%Z then v
      else
        let '(m', e') := round_fmt binary32 (dyadic m e * c) in
        if (emax binary32 <? e')%Z then Inf neg else Fin neg m' e'
  | _ => v
  end.

(** angleToString, AdvancedExample.cpp:58-63. *)
Definition angle_text (v : fval) : bytes := printf_g v ++ lit " degrees".

(** What the setter of angleVariable does with its argument, AdvancedExample.cpp:68-102: an error
    message or the new value.  val[val.length() - 1] and val.substr are those of StringView. *)
Definition angle_convert (val : bytes) : expected fval :=
  match val with
  | [] => Error (lit "Conversion error")
  | _ =>
      let lastChar := last val "000"%char in
      let '(numberIsRadians, numberString) :=
        if Ascii.eqb lastChar "r"%char then (true, firstn (length val - 1) val)
        else if Ascii.eqb lastChar "d"%char then (false, firstn (length val - 1) val)
        else (false, val) in
      match from_value float_ser [numberString] with
      | Error e => Error e
      | Value x =>
          Value (if numberIsRadians then times x degrees_per_radian else x)
      end
  end.

(** ** The commands *)

(** The variables the commands are bound to; the file and lines are beside each:
    UsertypesExample.cpp:209-217 and others. *)
Record world := World {
  w_pos : fval * fval;     (* spawnedParticle.pos, UsertypesExample.cpp:209-217 *)
  w_vel : fval * fval;
  w_focus : Z;             (* entities.focusedEntity, UsertypesExample.cpp:88 *)
  w_pivot : fval * fval;   (* pivot, CompoundExample.cpp:143-144 *)
  w_angle : fval           (* angle, AdvancedExample.cpp:155-156 *)
}.
Definition set_pos x w := World x (w_vel w) (w_focus w) (w_pivot w) (w_angle w).
Definition set_focus x w := World (w_pos w) (w_vel w) x (w_pivot w) (w_angle w).
Definition set_pivot x w := World (w_pos w) (w_vel w) (w_focus w) x (w_angle w).
Definition set_angle x w := World (w_pos w) (w_vel w) (w_focus w) (w_pivot w) x.

(** The function objects that are registered. *)
Inductive fn :=
| FPosGet | FPosSet | FSpawn | FFocusGet | FFocusSet | FPivotGet | FPivotSet | FAngleGet | FAngleSet.

(** angleVariable, AdvancedExample.cpp:65-105: the overload that reads. *)
Definition angle_get : functor world fn :=
  Functor false [] (RValue string_serializer)
    (fun _ => GetState (fun w => Ret (angle_text (w_angle w) : rcarrier (RValue string_serializer)))).

(** The overload of angleVariable, AdvancedExample.cpp:65-105, that writes: Context and StringView. *)
Definition angle_set : functor world fn :=
  Functor true [string_serializer] (RValue string_serializer)
    (fun vs =>
       let done := GetState (fun w =>
         Ret (angle_text (w_angle w) : rcarrier (RValue string_serializer))) in
       match angle_convert (fst vs) with
       | Error e => ReportError e done
       | Value x => GetState (fun w => PutState (set_angle x w) done)
       end).

(** The functions behind the commands. *)
Definition code (f : fn) : functor world fn :=
  match f with
  | FPosGet => variable_get vec2_serializer w_pos
  | FPosSet => variable_set vec2_serializer w_pos set_pos
  | FSpawn =>   (* UsertypesExample.cpp:215 *)
      Functor false [vec2_serializer; vec2_serializer] RVoid
        (fun vs => GetState (fun w =>
           PutState (World (fst vs) (fst (snd vs)) (w_focus w) (w_pivot w) (w_angle w)) (Ret tt)))
  | FFocusGet => variable_get entity_serializer w_focus
  | FFocusSet => variable_set entity_serializer w_focus set_focus
  | FPivotGet => variable_get point_serializer w_pivot
  | FPivotSet => variable_set point_serializer w_pivot set_pivot
  | FAngleGet => angle_get
  | FAngleSet => angle_set
  end.

(** The names under which they are registered, UsertypesExample.cpp:206, 215, 217,
    CompoundExample.cpp:144, AdvancedExample.cpp:156.  Simplified: the three examples share one
    Bindings object here. *)
Definition commands : list (bytes * list fn) :=
  [(lit "particles.last_particle_pos", [FPosGet; FPosSet]);
   (lit "particles.spawn", [FSpawn]);
   (lit "entities.focused_entity", [FFocusGet; FFocusSet]);
   (lit "pivot", [FPivotGet; FPivotSet]);
   (lit "direction", [FAngleGet; FAngleSet])].

Fixpoint register (sg : bool) (s : state world fn) (l : list (bytes * list fn)) : outcome (state world fn) :=
  match l with
  | [] => Done s
  | (name, fs) :: l => s <- add sg s name fs ;; register sg s l
  end.
Definition examples_state (sg : bool) (w : world) : outcome (state world fn) :=
  register sg (fresh_bindings sg w) commands.

End UserTypes.
