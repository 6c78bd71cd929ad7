(** Model of the console of the examples: examples/main.cpp. *)
From Coq Require Import Ascii String NArith ZArith Bool PeanoNat List.
Import ListNotations.
From Verif Require Import Util Base Lexer StringConv Serializer UMap Exec.

(** What the console shares with its commands: shouldExit (examples/main.cpp:76) and what has
    been written to std::cout. *)
Record world := World { w_exit : bool; w_out : bytes }.

Definition write (w : world) (t : bytes) : world := World (w_exit w) (w_out w ++ t).

(** The examples in the order of the tuple, examples/main.cpp:57-74, with the names of
    examples/basic/BasicExample.h:6 and the like. *)
Definition names : list bytes :=
  [lit "basic"; lit "variables"; lit "enums"; lit "flags"; lit "variadic"; lit "named";
   lit "usertypes"; lit "errors"; lit "compound"; lit "overloading"; lit "properties";
   lit "encapsulation"; lit "advanced"].

(** The function objects main registers, examples/main.cpp:27 and 80-91. *)
Inductive func := FHelp | FExit | FRunAll | FExample (i : nat).

Section Console.
(** What the run function of the [i]-th example writes to std::cout.  The examples use Bindings
    objects of their own; each run starts from the same values. *)
Variable demo : nat -> bytes.

(** The lambda of "help", examples/main.cpp:80-89. *)
Fixpoint help_names (l : list bytes) (k : prog world func unit) : prog world func unit :=
  match l with
  | [] => k
  | n :: r => Log (lit "    " ++ n ++ [newline]) (help_names r k)
  end.
Definition help : prog world func unit :=
  LogLine (lit "Available examples:")
    (help_names names
      (LogLine []
        (LogLine (lit "Type the example name to run it")
          (LogLine (lit "Type 'help' for this help")
            (LogLine (lit "Type 'exit' to exit")
              (LogLine [] (Ret tt))))))).

(** The lambda of "run_all", examples/main.cpp:91-94: the results are dropped. *)
Fixpoint run_all (l : list bytes) : prog world func unit :=
  match l with
  | [] => Ret tt
  | n :: r => DoExecute n (fun o => match o with inl _ => run_all r | inr x => Throw x end)
  end.

Definition code (f : func) : functor world func :=
  match f with
  | FHelp => Functor true [] RVoid (fun _ => help)
  (* examples/main.cpp:90 *)
  | FExit => Functor false [] RVoid
      (fun _ => GetState (fun w => PutState (World true (w_out w)) (Ret tt)))
  | FRunAll => Functor false [] RVoid (fun _ => run_all names)
  (* bindExample, examples/main.cpp:24-28 *)
  | FExample i => Functor false [] RVoid
      (fun _ => GetState (fun w => PutState (write w (demo i)) (Ret tt)))
  end.

(** Registration, examples/main.cpp:80-97; bindExamples, 30-40, goes through the tuple. *)
Fixpoint example_commands (l : list bytes) (i : nat) : list (bytes * list func) :=
  match l with [] => [] | n :: r => (n, [FExample i]) :: example_commands r (S i) end.
Definition commands : list (bytes * list func) :=
  [(lit "help", [FHelp]); (lit "exit", [FExit]); (lit "run_all", [FRunAll])] ++
  example_commands names 0.

Fixpoint register (sg : bool) (s : state world func) (l : list (bytes * list func))
  : outcome (state world func) :=
  match l with
  | [] => Done s
  | (n, fs) :: r => s' <- add sg s n fs ;; register sg s' r
  end.

Variables sg catching : bool.
Variable depth : nat.

(** Errors, one per line: examples/main.cpp:102-103. *)
Fixpoint print_errors (es : list bytes) : bytes :=
  match es with [] => [] | e :: r => lit "Error: " ++ e ++ newline :: print_errors r end.

(** examples/main.cpp:105-107. *)
Definition print_output (o : bytes) : bytes :=
  o ++ (if match o with [] => false | _ => negb (Ascii.eqb (last o newline) newline) end
        then [newline] else []).

(** examples/main.cpp:109-110. *)
Definition print_return (r : option bytes) : bytes :=
  match r with
  | None => []
  | Some t => lit "Return value: '" ++ t ++ lit "'" ++ [newline]
  end.

(** The lambda execute, examples/main.cpp:99-111.  An exception that execute lets through ends
    the program (std::terminate); it is modelled as a fault. *)
Definition execute (s : state world func) (str : bytes) : outcome (state world func) :=
  r <- exec_text code sg catching depth s str ;;
  match snd r with
  | inr _ => Fault AssertFailed
  | inl r' =>
      let s' := fst r in
      Done (set_world s' (write (s_world s')
        (print_errors (r_errors r') ++ print_output (r_output r') ++ print_return (r_return r'))))
  end.

(** std::getline on a new string, examples/main.cpp:118-119.  The input is its remaining lines;
    once there is none left the string stays empty. *)
Definition getline (input : list bytes) : bytes * list bytes :=
  match input with [] => ([], []) | l :: r => (l, r) end.

(** [n] rounds of the loop at most, examples/main.cpp:115-122.  The third component says
    whether the loop has ended. *)
Fixpoint loop (n : nat) (s : state world func) (input : list bytes)
  : outcome (state world func * list bytes * bool) :=
  if w_exit (s_world s) then Done (s, input, true)
  else match n with
       | O => Done (s, input, false)
       | S n =>
           let s := set_world s (write (s_world s) (lit ">>> ")) in
           let (line, rest) := getline input in
           s' <- execute s line ;;
           loop n s' rest
       end.

(** main up to the loop, examples/main.cpp:76-113. *)
Definition start : outcome (state world func) :=
  s <- register sg (fresh_bindings sg (World false [])) commands ;;
  execute s (lit "help").
Definition main (n : nat) (input : list bytes) : outcome (state world func * list bytes * bool) :=
  s <- start ;; loop n s input.
End Console.
