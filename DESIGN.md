# A formal model of coil in Rocq (Coq 8.16.1)

coil is a C++17 library that parses command strings, looks the command name up
in a hash map, converts the textual arguments to C++ types, calls the bound
function and returns its output, errors and printed return value.  This
directory holds a model of the library as Gallina functions
(`rocq/theories/*.v`), and theorems about that model, one group per property
listed in `properties.jsonl`.  `MANIFEST.json` maps properties to theorem names.

## Conventions of the model

* Bytes are `Ascii.ascii`; strings are lists of bytes.  NUL and non-ASCII bytes
  are ordinary bytes.
* Every operation that may violate a C++ precondition returns
  `outcome A := Done a | Fault f`.  `Fault` covers: a failing `COIL_ASSERT`,
  an out-of-bounds or dangling access, division by zero, a null dereference, a
  leak or double destruction (in the lifetime models), and divergence of a loop.
  A failing assert and the undefined behaviour it guards against in builds
  without asserts are the same outcome, so "no fault" means safe in both.
* Loops over indices are modelled with the index and the real bounds checks;
  loops whose termination is not structural carry fuel, running out of fuel is
  `Fault Diverges`, and it is proved that it happens only if the C++ loop
  really runs forever (or that it does not happen at all).
* `size_t` arithmetic that can wrap is done modulo 2^64 explicitly.
* Specifications live in separate `*Spec.v` files and do not use the model's
  functions; the property files `P_*.v` contain only the theorem statements,
  `exact` proofs, `Print Assumptions`, and concrete examples showing that the
  hypotheses can be met.
* A property that the code violates keeps its statement; there is a theorem
  `..._refuted` with a concrete witness, a `..._partial` theorem with the
  strongest positive result, and the manifest says `partial`.

## Properties: what is modelled and how it is proved

| Id | Model | Theorems in | Method |
|----|-------|-------------|--------|
| C01 | `Lexer.v`: tokenize, splitGroup, parse on (offset, length) views with bounds checks | `P_Lexer.v` | refuted by a group holding a lone quote; exact characterisation of the faulting strings, all others give views inside the string (induction on the loop) |
| C02 | tokenize | `P_Lexer.v` | sound, complete and deterministic with respect to the inductive grammar of `LexerSpec.v` |
| C03 | tokenize, parse | `P_Lexer.v` | grammar derivations are closed under white-space changes |
| C04, C05 | parse | `P_Lexer.v` | independent renderer in the specification; induction over the rendered input |
| C06, C07 | parse(tokens), tokenize | `P_Lexer.v` | grammar of argument lists, error grammar, both directions |
| C08 | splitGroup | `P_Lexer.v` | inductive splitting relation, sound and complete, reconstruction of the input |
| C09 | tokenize, createValue | `P_Lexer.v` | refuted (leading separator); exact criterion |
| C10 | character classes, char signedness as a parameter | `P_Lexer.v` | refuted for bytes >= 0x80 with signed char; proved for ASCII and for unsigned char |
| C11-C14 | `StringConv.v`: the %d family, the strtol family, fromString, toString | `P_StringConv.v` | induction on digit lists; accepted language as a relation, both directions; C13 and C14 refuted by " -1" for unsigned types |
| C15-C19, C48 | `Serializer.v`: serializers as records (carrier, name, fromString, toString), combinators for vector and optional, pointer printers | `P_Serializer.v` | induction on sub-values; C18 and C48 refuted + partial |
| C20-C25 | `UMap.v`: nodes, buckets, prev/next links as in the header, binary32 load factor | `P_UMap.v` | C20, C21, C25 refuted by concrete histories; refinement to a finite map under a condition on the history, and in full for a repaired erase, via a chain invariant |
| C26-C34 | `Exec.v`: functors with dependent parameter lists; handlers are programs over Context and Bindings operations and an arbitrary application state | `P_Exec.v` | case analysis and induction on the handler program |
| C35-C39 | `Exec.v`: named arguments, variables, properties, metadata | `P_Exec2.v` | induction on the argument list; refinement to a register over histories |
| C50 | `Exec.v`: handlers that execute, add and remove commands | `P_Reentry.v` | induction on nesting depth and program; refuted for handlers that remove themselves and then use their captures |
| C52-C54 | everything from the command text to the handler | `P_EndToEnd.v` | composition of the above |
| C40, C41 | `Mem.v`: heap of blocks of cells, Buffer; `VectorMem.v`: Vector | `P_VectorMem.v` | ownership invariant over programs with several vectors; potential argument for the cost |
| C42-C44, C55 | `StringMem.v`: String and StringView on the same heap | `P_StringMem.v` | representation predicate, refinement over programs; C42, C43, C55 refuted + partial |
| C45-C47 | `Lifetimes.v`: Optional, Expected, UniquePtr with object lifetimes and throwing copies | `P_Lifetimes.v` | invariants over programs |
| C51 | `Moves.v`: move construction and assignment of Bindings down to Buffer::swap | `P_Moves.v` | invariant over programs; refuted for moved-from objects |
| C49, C56-C58 | `FloatConv.v`: values as m * 2^e, %g, strtof/strtod/strtold, toString, fromString | `P_Float.v` | rational arithmetic; nearest-value specifications; C49, C57 refuted + partial |
| C59 | `FloatSerializer.v`: serializers of float, double, long double | `P_FloatSerializer.v` | composition of C53, C57 and C58 |
| C60, C61 | `Handlers.v`: FunctionWrapper, AnyStorage, AnyFunctor, vectors of them, keys, commands and Bindings with owning pointers | `HandlersSpec.v`, `UMapRel.v`, `HandlersProofs.v`, `P_Handlers.v` | simulation of a program without pointers; the map operations are parametric in keys and values |
| C62-C64 | `Printf.v`: vsnprintf, vsprintf and the log functions on the byte heap; `Messages.v`: every place that builds a message | `PrintfSpec.v`, `PrintfProofs.v`, `MessagesProofs.v`, `P_Printf.v` | relation between formats, arguments and texts; representation predicate of C42; C62 refuted beyond INT_MAX |
| C65 | `VectorThrow.v`: Vector with an arbitrary choice of throwing calls; programs react to exceptions | `VectorThrowSpec.v`, `VectorThrowProofs.v`, `P_VectorThrow.v` | ownership invariant of C40; refuted + partial for throwing moves |
| C66 | `ArgPass.v`: objects, value categories and calls from fromString to the functor, with arbitrary orders and throwing calls | `ArgPassSpec.v`, `ArgPassProofs.v`, `ArgPassCalls.v`, `ArgPassInvoke.v`, `P_ArgPass.v` | invariant over any order of evaluation; frame lemma for one call, used three times |
| C67 | `HandlersThrow.v`: the operations of C60 with an arbitrary choice of failing allocations | `HandlersThrowSpec.v`, `HandlersThrowProofs.v`, `P_HandlersThrow.v` | simulation by the pointer-free program of C60 with three possible endings of a statement; ideal machine for programs without removals; refuted + partial for lookups after removals |
| C68 | `MapMem.v`: the map on the memory of its two vectors with size_t indices, references and iterators; programs with pointers to commands | `MapMemSpec.v`, `MapMemProofs.v`, `MapMemErase.v`, `MapMemWorld.v`, `P_MapMem.v` | representation of a map in two heaps, preserved by every statement of every operation; owners of blocks for several registries; simulation by registries on numbered shelves |
| C69 | `Traits.v`: C++ types as values, partial specializations, the compile-time code behind add, bind, variable and property | `TraitsSpec.v`, `TraitsProofs.v`, `P_Traits.v` | case analysis and induction on types; what compiles is characterized by relations on signatures |
| C70 | `LexerCost.v`: the functions of `Lexer.v` with counters of reads, comparisons and pushes | `LexerCostProofs.v`, `P_LexerCost.v` | equality with `Lexer.v`; spending rules for sequences of statements, induction on the loops, potential of the tokens not yet split |
| C71 | `StringThrow.v`: String, operator+, vsprintf and the log functions with an arbitrary choice of failing allocations | `StringThrowSpec.v`, `StringThrowProofs.v`, `P_StringThrow.v` | each operation is that of C42 behind at most one request; ownership invariant of C42 |
| C72 | `UMapCost.v`: the functions of `UMap.v` with counters of hashes, comparisons, chain steps, relinked nodes and emptied buckets | `UMapCostSpec.v`, `UMapCostProofs.v`, `P_UMapCost.v` | equality with `UMap.v`; potential of the nodes beyond half of the buckets; chains in the order of registration; names with equal hashes by induction |
| C73 | `TextLife.v`: views as places in texts that may be changed or freed, Value objects with identities, conversions, variables, sessions | `TextLifeSpec.v`, `TextLifeProofs.v`, `P_TextLife.v` | objects stand for values while their texts exist; simulation by the registers of C36; induction on types |
| C74 | `Scoped.v`: examples/encapsulation, objects that own the names of their commands, on the map of `UMap.v` | `ScopedSpec.v`, `ScopedProofs.v`, `P_Scoped.v` | the registry follows the history of the session; induction over the past; the example by an invariant over three shapes of the map |
| C75 | `Enums.v`: examples/common/EnumSupport.h, the parts of magic_enum.hpp it uses, the flags example | `EnumsSpec.v`, `EnumsProofs.v`, `EnumsRead.v`, `EnumsFlags.v`, `P_Enums.v` | the tables of magic_enum as sorted lists; bits of integers; the grammar of C07 for texts |
| C76 | `UserTypes.v`: Vec2, EntityId, DynamicArray, Point, Particle and the angle variable of the examples | `UserTypesSpec.v`, `FloatFixed.v`, `UserTypesProofs.v`, `P_UserTypes.v` | nearest multiples of 10^-6; a value is a candidate for the nearest float of its own text; layouts of C04; registers of C36 |
| C77 | `Console.v`: the commands and the loop of examples/main.cpp | `ConsoleSpec.v`, `P_Console.v` | replies by the grammar of C07; lookups by C50; induction over the rounds |
| C78 | `NamedExample.v`: the functions and commands of examples/named | `NamedExampleSpec.v`, `NamedExampleProofs.v`, `P_NamedExample.v` | lookups by C35, conversions by C14-C17, C59 and C75; replies by the grammar of C07; induction over the commands |
| C79 | `ExecThrow.v`: the functions of `Exec.v` with an arbitrary choice of failing allocations | `ExecThrowSpec.v`, `ExecThrowProofs.v`, `ExecThrowMore.v`, `P_ExecThrow.v` | big-step semantics with failing steps, both directions; simulation by `Exec.v`; induction on the handler program |
| C80 | `Blocks.v`: lexer and execution with every block in a ledger, failing requests, destructors and unwinding | `BlocksSpec.v`, `BlocksProofs.v`, `BlocksLexer.v`, `BlocksExec.v`, `BlocksRun.v`, `P_Blocks.v` | triples over the ledger with frames (blocks counted with multiplicity), simulation of `Lexer.v` and `ExecThrow.v`; induction on handler programs, nesting depth and lists of commands |
| C81 | `ExecCost.v`: execution with counters | `ExecCostSpec.v`, `ExecCostProofs.v`, `ExecCostBounds.v`, `P_ExecCost.v` | erasure of the counters; exact work by cases of the execution, proved determined; bounds by induction on handler programs and nesting depth; C70 and C72 |
| C82 | `AdvancedExample.v`: the commands of examples/advanced, with the lifetimes of texts and captures | `AdvancedExampleSpec.v`, `AdvancedExampleProofs.v`, `P_AdvancedExample.v` | simulation between the specification and sessions: the registry shows the newest definitions, storage is live exactly while a command has it; invariant over the numbering of texts for the absence of undefined behaviour |
| C83 | `PropertiesExample.v`: the commands of examples/properties; `FloatOps.v`: product, quotient and conversions of floats; `ExampleSession.v`: sessions of an example | `ExampleSpec.v` (sessions of any table of commands), `FloatOpsSpec.v`, `PropertiesExampleSpec.v`, `ExampleProofs.v`, `FloatOpsProofs.v`, `P_PropertiesExample.v` | simulation proved once for any table of commands, then for each command that its handler does what the specification says; rounding over Q |
| C84 | `VariadicExample.v`: the commands of examples/variadic | `VariadicExampleSpec.v`, `P_VariadicExample.v` | the simulation of C83; induction over dialogues for the ids, the shadowed entities and the names |
| C85 | `ErrorsExample.v`: the commands of examples/errors | `ErrorsExampleSpec.v`, `P_ErrorsExample.v` | the simulation of C83; induction over dialogues; rounding of integers to floats |
| C86 | `VariablesExample.v`: the commands of examples/variables | `VariablesExampleSpec.v`, `ExampleHistory.v`, `ExampleMore.v`, `P_VariablesExample.v` | the simulation of C83; induction over dialogues for each variable |
| C87 | `FloatConv.v`: printf_g, toStringF | `FloatTextSpec.v`, `FloatTextProofs.v`, `P_FloatText.v` | uniqueness of the nearest six-digit number and of decimal texts |
| C88 | `OverloadingExample.v` | `OverloadingExampleSpec.v`, `P_OverloadingExample.v` | the generic refinement of ExampleProofs; the overload is determined by the number of parameters |
| C89 | `BasicExample.v`, `FloatSum.v` | `BasicExampleSpec.v`, `FloatSumSpec.v`, `FloatSumProofs.v`, `P_BasicExample.v` | the generic refinement of ExampleProofs; rounding respects equality of rationals |
| C90 | `UsertypesExample.v` | `UsertypesExampleSpec.v`, `P_UsertypesExample.v` | the generic refinement of ExampleProofs; induction over lists of names and integers |
| C91 | `CompoundExample.v` | `CompoundExampleSpec.v`, `P_CompoundExample.v` | the generic refinement of ExampleProofs; induction over lists; whole numbers below 2^24 are floats |
| C92 | `FlagsExample.v` | `FlagsExampleSpec.v`, `P_FlagsExample.v` | the generic refinement of ExampleProofs on top of C75; bits of integers |
| C93 | `EnumsExample.v` | `EnumsExampleSpec.v`, `P_EnumsExample.v` | the generic refinement of ExampleProofs on top of C75; undefined conversions are checked before each text |

## What is modelled, file by file

| Source | Modelled | Not modelled |
|--------|----------|--------------|
| `src/DefaultLexer.cpp`, `DefaultLexer.h` | all of it, for every configuration of the character classes; again with counters of its work (C70) | |
| `src/StringConv.cpp`, `StringConv.h` | all of it | locales other than C |
| `src/Coil.cpp` | type names, errors, serializers, AnyFunctor (arity, parameter types, invocation), Bindings, BindingProxy, CallContext, Context, NamedArgs, Value; `vsprintf`, the messages and `Context::log*` also on the byte heap; execution again with counters of its work (C81) | explicit template instantiations |
| `src/String.cpp`, `String.h`, `src/StringView.cpp`, `StringView.h` | all operations, on a byte heap; again with allocations that fail, with `operator+`, `vsprintf` and `Context::log*` (C71) | `va_end` when an exception passes |
| `src/Buffer.cpp`, `Buffer.h`, `src/New.cpp` | all operations, on a heap of typed cells | alignment |
| `Vector.h` | all operations, on the same heap; once more with exceptions thrown by allocation and element constructors (C65) | exceptions thrown by element destructors and assignments |
| `UnorderedMap.h` | all operations, on lists (`UMap.v`) and on the memory of its two vectors with pointers to nodes (`MapMem.v`, C68); again with counters of its work (C72) | buckets and nodes in separate heaps whose blocks are never reused; maximum load factor 1 |
| `Optional.h`, `Expected.h`, `Unexpected.h`, `UniquePtr.h` | constructors, assignments, destructors, observers; copies may throw | the constexpr/triviality aspects |
| `Hash.h` | all of it | |
| `FunctionWrapper.h`, `FunctorCaller.h`, `AnyFunctor.h`, `Types.h` | calls: conversion of all arguments, error collection, Context injection, result printing (`Exec.v`); ownership of handlers: construction, moves, destruction (`Handlers.v`), and when allocations fail (`HandlersThrow.v`); the objects made for the arguments of a call (`ArgPass.v`; the rules of C++ for initializing parameters are `init_how`) | pointer casts, the virtual call, types without a move constructor |
| `Variable.h`, `Property.h`, `NamedArgs.h`, `Context.h`, `CallContext.h`, `Value.h`, `ExecutionInput.h`, `ExecutionResult.h`, `Lexer.h` | all of it; views are the bytes they show except in C01 and C73 | in C73 nothing but variables is registered |
| `TypeSerializer.h`, `TypeName.h`, `StdLibCompat.h` | arithmetic types, bool, strings, Value, vector, optional, pointers, references; with the lifetimes of the texts and of temporary Values in C73; elsewhere a vector or optional of Values is treated as if it could be converted | user-defined serializers (they are arbitrary records in the model) |
| `Bindings.h`, `Overloaded.h`, `Bind.h` | registration of any list of functors | the C++ overload resolution between the `add` and `operator=` variants |
| `Algorithm.h`, `Utility.h`, `Functional.h`, `Assert.h` | where used | |
| `TypeTraits.h`, `FuncTraits.h` and the compile-time side of `FunctionWrapper.h`, `Bind.h`, `Bindings.h`, `Overloaded.h`, `Variable.h`, `Property.h` | types as values, the choice of partial specializations, which bindings compile (`Traits.v`, C69) | all object types are taken to be movable; overload resolution between several call operators of a getter; default arguments; SFINAE in specializations written by users |
| `Sequence.h`, `Extern.h`, `Config.h`, `CoilFwd.h` | | compiler intrinsics and declarations; the configuration macros are parameters of the model |
| `tests/runtime/` | the tests are run on the model, `Tests_*.v` | counters of constructor calls |
| `examples/encapsulation/` | ScopedDebugCommands, CommandsProxy, Subsystem and run (C74); a command is what its handler captures | arguments and results of the commands, printing |
| `examples/common/EnumSupport.h`, `examples/include/magic_enum.hpp`, the flags and enums examples | serializers of enumerations, enum_name, enum_cast, flags::enum_name and the tables behind them, flagsVariable (C75); the names the compiler writes into __PRETTY_FUNCTION__ are those of the first enumerator with the value | other functions of magic_enum, enumerators that are not ASCII identifiers, customized ranges |
| `examples/usertypes`, `examples/compound`, `examples/advanced` | serializers of Vec2, EntityId, DynamicArray and Point, the text of Particle, sum, the variables and particles.spawn, angleVariable (C76); `%f` and operator<< of float are modelled like `%g` in `FloatConv.v`, with exact rounding; the constant 180.0f / 3.14159265358979f is a literal in the model, proved to be the rounded quotient; the commands of the examples share one Bindings object; all commands of examples/advanced, with the storage of their captures and the lifetimes of the command texts they keep views of (C82; the vector of entities is a list) | see the rows below for the other commands |
| `examples/main.cpp` | the commands, their registration, printing of results and the loop (C77); what the thirteen examples write is a parameter | std::cout, std::getline on lines longer than memory |
| `examples/named` | all functions, their registration, the replies to any texts (C78) | the lifetime of the item names, which are views into the command text; "%.*s" with the null pointer of an empty name writes nothing |
| `examples/properties` | Window, its properties, the vector and all commands (C83); float arithmetic is IEEE binary32, rounded to nearest even, without excess precision, and division by zero is defined as IEEE says; hypotf is any function from floats to floats; whether resize throws depends on the new size only; the sign of a NaN is a parameter; std::size_t is one of the unsigned types | the storage of the vector; the floating-point environment |
| `examples/variadic` | all functions and commands (C84); the vector of entities is a list | its memory |
| `examples/errors` | all functions and commands (C85); std::sqrt is any function | the results of std::sqrt |
| `examples/variables` | all functions and commands (C86) | the headers printed between the commands |
| `examples/overloading` | all functions and commands (C88) | texts longer than INT_MAX; the headers printed between the commands |
| `examples/basic` | all functions and commands; std::cout is a text that grows (C89) | texts longer than INT_MAX; failures of std::cout; excess precision of float; the headers printed between the commands |
| `examples/usertypes` (all of it) | Entities, Vec2, the particle, sum and all commands (C90); std::vector<std::string> is a list with enough memory | excess precision and contraction of float; the headers printed between the commands |
| `examples/compound` (all of it) | Point, ParticleSystem and all commands (C91); std::vector<Particle> is a list with enough memory; the pointer that get returns is the particle itself | excess precision and contraction of float; the headers printed between the commands |
| `examples/flags` (all of it) | EntityDebugDrawFlags, flagsVariable and all commands (C92) | the headers printed between the commands |
| `examples/enums` (all of it) | both enumerations of PlayerAbilitySystem, VariableType and all commands (C93); the undefined conversions to ResetMode are checked before a text is executed, since the serializers of Exec.v cannot fault | the headers printed between the commands |
| the rest of `examples/`, `scripts/` | | not part of the library |

Further simplifications:

* Memory exhaustion: `operator new` always succeeds, except in C65 (Vector),
  C67 (registration), C71 (String, messages and output) and C79 (execution of
  commands, where a handler may throw before each of its operations but does not
  catch that itself, and a lexer, a conversion or a message is asked once), and C80
  (parsing and execution, each request by itself; there registration, the values
  that conversions make and the memory of handlers are outside the ledger, a
  message is one `sprintf`, and a handler lets a nested result go at once).
* Handlers are deterministic programs over the application state; threads and
  signals are not modelled (the library has no synchronisation).
* In `Exec.v` strings and views are lists of bytes.  That the views stay inside
  the command text is C01; that String and Vector implement lists is C40 and C42.
* `%.*s` with a length of 2^31 or more truncates the length to int in C++; in
  `Exec.v` the whole text is printed.  `Printf.v` models the truncation (C62).
  Its vsnprintf knows the conversions the library uses; a format with another
  one, or a user's format that does not match its arguments, is a fault.
* `StringMem.v` treats `memcpy` with a null pointer or overlapping ranges as a
  fault even when the size is zero, as the C standard does.
* `FloatConv.v` takes printf and strtod to be correctly rounding, ties to even,
  in the C locale, which glibc, musl and the UCRT document.  Whether strtod
  sets errno for inexact tiny results is a parameter.  long double is either
  binary64 or the x87 format, without its pseudo-denormals.
* The width of `size_t` is a parameter W of `Mem.v` and of the files based on it;
  elsewhere it is 64 bits.  int is 32 bits; long is 32 or 64 bits (a parameter).

## Trusted base

* Coq 8.16.1's kernel, including the virtual machine behind `vm_compute`, which
  is used for concrete witnesses and for facts about all 256 bytes.
* No axioms.  `Print Assumptions` at the end of each `P_*.v` file prints
  "Closed under the global context" for each of the 597 property theorems;
  no axiom of the standard library is used either.  (`coqchk -o` also lists the
  seven parameters of a module type in `Coq.ssr.ssrunder`, which the standard
  library loads; no theorem depends on them.)
* The transcription of the C++ code into the model (each definition cites the
  lines it models), and the models of the C library functions called: `strtol`,
  `strtoul`, `strtoll`, `strtoull` with base 10, `strtof`, `strtod`, `strtold`,
  `isspace`, `tolower` (all in the C locale), `memcpy`, `memcmp`, `strlen`, and
  the `printf` conversions `%d %ld %lld %u %lu %llu %zu %g %Lg %s %.*s %c`.
* The specifications (`*Spec.v` and the definitions next to the theorems), which
  have to be read to know what was proved.

Theorems per property, with the axioms that `Print Assumptions` lists:

| Property | Status | Theorems | Axioms |
|---|---|---|---|
| C01 | partial | 7 | none |
| C02 | proved | 5 | none |
| C03 | proved | 2 | none |
| C04 | proved | 3 | none |
| C05 | proved | 4 | none |
| C06 | proved | 2 | none |
| C07 | proved | 5 | none |
| C08 | proved | 8 | none |
| C09 | partial | 3 | none |
| C10 | partial | 2 | none |
| C11 | proved | 3 | none |
| C12 | proved | 3 | none |
| C13 | partial | 5 | none |
| C14 | partial | 5 | none |
| C15 | proved | 4 | none |
| C16 | proved | 4 | none |
| C17 | proved | 4 | none |
| C18 | partial | 7 | none |
| C19 | proved | 7 | none |
| C20 | partial | 7 | none |
| C21 | partial | 4 | none |
| C22 | proved | 1 | none |
| C23 | proved | 1 | none |
| C24 | proved | 3 | none |
| C25 | partial | 2 | none |
| C26 | proved | 4 | none |
| C27 | proved | 4 | none |
| C28 | proved | 4 | none |
| C29 | proved | 4 | none |
| C30 | proved | 5 | none |
| C31 | proved | 3 | none |
| C32 | partial | 4 | none |
| C33 | proved | 3 | none |
| C34 | proved | 5 | none |
| C35 | proved | 5 | none |
| C36 | proved | 2 | none |
| C37 | proved | 3 | none |
| C38 | proved | 3 | none |
| C39 | proved | 4 | none |
| C40 | proved | 5 | none |
| C41 | partial | 3 | none |
| C42 | partial | 9 | none |
| C43 | partial | 4 | none |
| C44 | proved | 4 | none |
| C45 | proved | 3 | none |
| C46 | partial | 5 | none |
| C47 | proved | 4 | none |
| C48 | partial | 4 | none |
| C49 | partial | 6 | none |
| C50 | partial | 15 | none |
| C51 | proved | 5 | none |
| C52 | proved | 3 | none |
| C53 | proved | 3 | none |
| C54 | proved | 3 | none |
| C55 | partial | 3 | none |
| C56 | proved | 4 | none |
| C57 | partial | 4 | none |
| C58 | proved | 4 | none |
| C59 | proved | 8 | none |
| C60 | proved | 6 | none |
| C61 | proved | 4 | none |
| C62 | partial | 5 | none |
| C63 | proved | 11 | none |
| C64 | proved | 2 | none |
| C65 | partial | 7 | none |
| C66 | proved | 7 | none |
| C67 | partial | 12 | none |
| C68 | proved | 15 | none |
| C69 | proved | 30 | none |
| C70 | proved | 6 | none |
| C71 | proved | 12 | none |
| C72 | proved | 10 | none |
| C73 | proved | 9 | none |
| C74 | partial | 11 | none |
| C75 | proved | 24 | none |
| C76 | proved | 24 | none |
| C77 | proved | 7 | none |
| C78 | proved | 6 | none |
| C79 | partial | 12 | none |
| C80 | proved | 14 | none |
| C81 | proved | 9 | none |
| C82 | proved | 5 | none |
| C83 | proved | 9 | none |
| C84 | proved | 9 | none |
| C85 | proved | 10 | none |
| C86 | proved | 9 | none |
| C87 | proved | 6 | none |
| C88 | proved | 7 | none |
| C89 | proved | 9 | none |
| C90 | proved | 10 | none |
| C91 | proved | 11 | none |
| C92 | proved | 6 | none |
| C93 | proved | 10 | none |

## Checking the transcription

The files `Tests_Lexer.v`, `Tests_StringConv.v`, `Tests_TypeSerializer.v`,
`Tests_Bindings.v` and `Tests_Containers.v` run the project's own unit tests
(`/repo/tests/runtime`) on the model, as `Example`s.  They are not properties; they
show that the model computes what the authors of the library expect of the code.
Every test that is expressible passes.  Left out are the counters of constructor
calls, the comparisons of addresses of commands, and the two tests of moved
Bindings (that is C51).  The test of out-of-range input for `char` holds for
signed char only.

## Testing the theorems

`seeded/LOG.jsonl` lists edits of the model in scratch copies, each like a
realistic bug, with the theorems that failed.  Where an edit went unnoticed the
theorem added or tightened is named.
