(** Model of the floating-point conversions of src/StringConv.cpp and of the C library
    functions they call: printf's %g and %Lg, strtof, strtod, strtold.

    The C library is modelled as correctly rounding (to nearest, ties to even), in the C
    locale.  Finite values are m * 2^e. *)
From Coq Require Import Ascii String NArith ZArith QArith Qround Qpower Bool PeanoNat List.
Import ListNotations.
From Verif Require Import Base StringConv.
Local Open Scope Q_scope.

(** ** Formats and values *)

(** Values m * 2^e with 0 <= m < 2^prec and emin <= e <= emax. *)
Record fmt := Fmt { prec : Z; emin : Z; emax : Z }.

(** float, double, and long double as the 80-bit format of x87. *)
Definition binary32 : fmt := Fmt 24 (-149) 104.
Definition binary64 : fmt := Fmt 53 (-1074) 971.
Definition x87 : fmt := Fmt 64 (-16445) 16320.

Inductive fval := Fin (neg : bool) (m e : Z) | Inf (neg : bool) | NaN (neg : bool).

Definition dyadic (m e : Z) : Q := inject_Z m * 2 ^ e.

Definition signed (neg : bool) (q : Q) : Q := if neg then - q else q.

(** ** Rounding *)

(** To the nearest integer, ties to even. *)
Definition round_even (q : Q) : Z :=
  let f := Qfloor q in
  match ((q - inject_Z f) ?= (1 # 2))%Q with
  | Lt => f
  | Gt => (f + 1)%Z
  | Eq => if Z.even f then f else (f + 1)%Z
  end.

(** The largest k with b^k <= q, searched downwards. *)
Fixpoint down (fuel : nat) (b k : Z) (q : Q) : Z :=
  match fuel with
  | O => k
  | S n => if Qle_bool (inject_Z b ^ k)%Q q then k else down n b (k - 1)%Z q
  end.

Definition ilog (b : Z) (q : Q) : Z :=
  down (Z.to_nat (Z.log2 (Qnum q) + Z.log2 (Zpos (Qden q)) + 3)) b (Z.log2 (Qnum q) + 1)%Z q.

(** ** Printing *)

(** The double that the literal 1e-6 denotes, src/StringConv.cpp:138, 146, 154: the
    nearest to 10^-6 (C49_ex_literal). *)
Definition lit_1e_6 : Q := dyadic 4722366482869645 (-72).

Definition Qltb (a b : Q) : bool := negb (Qle_bool b a).

(** Six significant digits: d and X such that the value is about d * 10^(X-5). *)
Definition digits6 (q : Q) : Z * Z :=
  let X := ilog 10 q in
  let d := round_even (q * 10 ^ (5 - X)) in
  if (d =? 1000000)%Z then (100000%Z, (X + 1)%Z) else (d, X).

(** Without trailing zeros. *)
Fixpoint strip0 (l : bytes) : bytes :=
  match l with
  | [] => []
  | c :: r => match strip0 r with
              | [] => if Ascii.eqb c "0" then [] else [c]
              | r' => c :: r'
              end
  end.

(** The fraction with its point, neither of which is printed if it is empty. *)
Definition point (l : bytes) : bytes := match l with [] => [] | _ => "."%char :: l end.

(** The exponent: a sign and at least two digits. *)
Definition exponent_text (X : Z) : bytes :=
  "e"%char :: (if (X <? 0)%Z then "-"%char else "+"%char) ::
  (if (Z.abs X <? 10)%Z then "0"%char :: dec (Z.abs X) else dec (Z.abs X)).

(** %g with its default precision 6 for a positive number. *)
Definition g_text (q : Q) : bytes :=
  let '(d, X) := digits6 q in
  let ds := dec d in
  if (X <? -4)%Z || (6 <=? X)%Z then
    firstn 1 ds ++ point (strip0 (skipn 1 ds)) ++ exponent_text X
  else if (X <? 0)%Z then
    "0"%char :: point (repeat "0"%char (Z.to_nat (- X - 1)) ++ strip0 ds)
  else firstn (Z.to_nat (X + 1)) ds ++ point (strip0 (skipn (Z.to_nat (X + 1)) ds)).

Definition minus (neg : bool) (s : bytes) : bytes := if neg then "-"%char :: s else s.

(** printf("%g") and printf("%Lg"); floats are promoted to double, which is exact. *)
Definition printf_g (v : fval) : bytes :=
  match v with
  | Fin neg m e => minus neg (if (m =? 0)%Z then lit "0" else g_text (dyadic m e))
  | Inf neg => minus neg (lit "inf")
  | NaN neg => minus neg (lit "nan")
  end.

(** toString(float), toString(double), toString(long double),
    src/StringConv.cpp:136-158.  Comparisons with NaN are false. *)
Definition toStringF (v : fval) : bytes :=
  match v with
  | Fin neg m e =>
      let q := signed neg (dyadic m e) in
      if Qltb (- lit_1e_6) q && Qltb q lit_1e_6 then lit "0" else printf_g v
  | _ => printf_g v
  end.

(** ** Parsing *)

Fixpoint span (p : byte -> bool) (s : bytes) : bytes * bytes :=
  match s with
  | c :: r => if p c then let '(a, b) := span p r in (c :: a, b) else ([], s)
  | [] => ([], [])
  end.

Definition lower (c : byte) : byte :=
  if (65 <=? uchar c)%N && (uchar c <=? 90)%N then ascii_of_N (uchar c + 32) else c.

(** [s] without the word [w], which is in lower case, in front of it. *)
Fixpoint strip_word (w s : bytes) : option bytes :=
  match w, s with
  | [], _ => Some s
  | a :: w, b :: s => if Ascii.eqb a (lower b) then strip_word w s else None
  | _ :: _, [] => None
  end.

(** The value of digits in base [b]. *)
Definition isxdigit (c : byte) : bool :=
  isdigit c || ((97 <=? uchar (lower c))%N && (uchar (lower c) <=? 102)%N).
Definition xdigit_val (c : byte) : Z :=
  if isdigit c then digit_val c else (Z.of_N (uchar (lower c)) - 87)%Z.
Definition number (b : Z) (s : bytes) : Z :=
  fold_left (fun a c => (a * b + xdigit_val c)%Z) s 0%Z.

(** Digits with an optional point; at least one digit. *)
Definition scan_mantissa (p : byte -> bool) (s : bytes) : option (bytes * bytes * bytes) :=
  let '(ip, r1) := span p s in
  let '(fp, r2) := match r1 with
                   | c :: r => if Ascii.eqb c "." then span p r else ([], r1)
                   | [] => ([], r1)
                   end in
  match ip ++ fp with [] => None | _ => Some (ip, fp, r2) end.

(** The exponent that [mark] introduces; nothing is consumed if no digits follow. *)
Definition scan_exponent (mark : byte) (s : bytes) : Z * bytes :=
  match s with
  | c :: r =>
      if Ascii.eqb (lower c) mark then
        let '(neg, r1) := match r with
                          | a :: r' => if Ascii.eqb a "-" then (true, r')
                                       else if Ascii.eqb a "+" then (false, r') else (false, r)
                          | [] => (false, r)
                          end in
        match span isdigit r1 with
        | ([], _) => (0%Z, s)
        | (ds, r2) => ((if neg then - number 10 ds else number 10 ds)%Z, r2)
        end
      else (0%Z, s)
  | [] => (0%Z, s)
  end.

Inductive scanned := SNum (q : Q) | SInf | SNaN.

Definition scan_decimal (s : bytes) : option (scanned * bytes) :=
  match scan_mantissa isdigit s with
  | None => None
  | Some (ip, fp, r) =>
      let '(x, r') := scan_exponent "e"%char r in
      Some (SNum (inject_Z (number 10 (ip ++ fp)) * 10 ^ (x - Z.of_nat (length fp))), r')
  end.

Definition scan_hex (s : bytes) : option (scanned * bytes) :=
  match strip_word (lit "0x") s with
  | None => None
  | Some s' =>
      match scan_mantissa isxdigit s' with
      | None => None
      | Some (ip, fp, r) =>
          let '(x, r') := scan_exponent "p"%char r in
          Some (SNum (inject_Z (number 16 (ip ++ fp)) * 2 ^ (x - 4 * Z.of_nat (length fp))), r')
      end
  end.

(** nan or nan(n-char-sequence). *)
Definition scan_paren (s : bytes) : bytes :=
  match s with
  | c :: r =>
      if Ascii.eqb c "(" then
        match span (fun c => isdigit c || ((97 <=? uchar (lower c))%N && (uchar (lower c) <=? 122)%N)
                             || Ascii.eqb c "_") r with
        | (_, d :: r') => if Ascii.eqb d ")" then r' else s
        | _ => s
        end
      else s
  | [] => s
  end.

Definition scan_unsigned (s : bytes) : option (scanned * bytes) :=
  match strip_word (lit "infinity") s with
  | Some r => Some (SInf, r)
  | None =>
  match strip_word (lit "inf") s with
  | Some r => Some (SInf, r)
  | None =>
  match strip_word (lit "nan") s with
  | Some r => Some (SNaN, scan_paren r)
  | None =>
  match scan_hex s with
  | Some x => Some x
  | None => scan_decimal s
  end end end end.

(** The nearest value of the format, with unbounded exponents above; [q] > 0. *)
Definition round_fmt (f : fmt) (q : Q) : Z * Z :=
  let e := Z.max (emin f) (ilog 2 q - prec f + 1) in
  let m := round_even (q * 2 ^ (- e)) in
  if (m =? 2 ^ prec f)%Z then ((2 ^ (prec f - 1))%Z, (e + 1)%Z) else (m, e).

(** strtof, strtod, strtold: the value, whether errno is set, and the rest of the text, which
    is the whole text if there is no number.  Whether errno is set on underflow depends on
    the library: [uf]. *)
Definition strtof_ (f : fmt) (uf : bool) (s : bytes) : fval * bool * bytes :=
  let '(s1, _) := skip_while isspace s 0 in
  let '(neg, s2) := match s1 with
                    | c :: r => if Ascii.eqb c "-" then (true, r)
                                else if Ascii.eqb c "+" then (false, r) else (false, s1)
                    | [] => (false, s1)
                    end in
  match scan_unsigned s2 with
  | None => (Fin false 0 (emin f), false, s)
  | Some (SInf, r) => (Inf neg, false, r)
  | Some (SNaN, r) => (NaN neg, false, r)
  | Some (SNum q, r) =>
      if Qle_bool q 0 then (Fin neg 0 (emin f), false, r)
      else
        let '(m, e) := round_fmt f q in
        if (emax f <? e)%Z then (Inf neg, true, r)
        else (Fin neg m e,
              uf && (m <? 2 ^ (prec f - 1))%Z && negb (Qeq_bool (dyadic m e) q), r)
  end.

(** floatFromString, src/StringConv.cpp:65-79. *)
Definition floatFromString (f : fmt) (uf : bool) (s : bytes) : option fval :=
  match s with
  | [] => None
  | _ =>
      let '(v, erange, rest) := strtof_ f uf (c_str s) in
      if erange then None
      else if (length (c_str s) - length rest =? length s)%nat then Some v else None
  end.
