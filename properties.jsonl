{"id": "C01", "title": "Parsing never reads outside the command string", "statement": "DefaultLexer::parse terminates on every command string without undefined behaviour, and every name, key, argument and sub-argument view it returns is a sub-range of that command string.", "quantifier": "every byte string given to parse/execute and every DefaultLexer configuration", "why_tests_cant": "The set of command strings is infinite; the violating ones are a sparse family that random generation of well-formed commands never produces.", "anchors": ["src/DefaultLexer.cpp: DefaultLexer::tokenize, splitGroup, parse", "src/StringView.cpp: StringView::substr"]}
{"id": "C02", "title": "Tokenization follows the documented surface syntax", "statement": "A command string is split into exactly the tokens the syntax prescribes: maximal runs of ordinary characters, single '=' signs, quoted strings and parenthesised groups, separated by any amount of white space. The lexer accepts a string if and only if such a division exists, and the division is unique.", "quantifier": "every byte string and every lexer configuration", "why_tests_cant": "Agreement with a grammar is a statement about all strings; tests compare some dozens of examples.", "anchors": ["src/DefaultLexer.cpp: DefaultLexer::tokenize, getCharType"]}
{"id": "C03", "title": "White space between tokens is insignificant", "statement": "Inserting or removing white space before the first token, after the last token or between two adjacent tokens (as long as two adjacent words stay separated) does not change the parsed input, including whether parsing fails and with which message.", "quantifier": "every token sequence and every two choices of white space between the tokens", "why_tests_cant": "Tests insert at most two spaces at random positions of a few commands.", "anchors": ["src/DefaultLexer.cpp: DefaultLexer::tokenize, isSpace"]}
{"id": "C04", "title": "Rendering a call and parsing it gives the call back", "statement": "Writing a command name, positional arguments and named arguments (each a single value or a compound value) in the surface syntax, with any white space and separators, and parsing the text yields exactly that name, those arguments and those named arguments, in order.", "quantifier": "every well-formed input (name and keys are words or quotable, values free of quote characters) and every choice of white space", "why_tests_cant": "Round-trip over an unbounded set of inputs; the generated test uses three fixed strings with a number appended and at most three arguments.", "anchors": ["src/DefaultLexer.cpp: DefaultLexer::parse, tokenize, splitGroup, createValue"]}
{"id": "C05", "title": "Quoted text is passed through verbatim", "statement": "The text between two quotes, whatever bytes other than quote characters it contains (spaces, '=', parentheses, separators, NUL, non-ASCII), becomes one argument with exactly one sub-value consisting of exactly these bytes.", "quantifier": "every byte string without quote characters, as an argument, as a named-argument value or as the command name", "why_tests_cant": "All byte strings; tests try a few printable ones.", "anchors": ["src/DefaultLexer.cpp: DefaultLexer::tokenize (CharType::Quote), createValue"]}
{"id": "C06", "title": "Argument order is preserved and named arguments are independent of position", "statement": "The positional arguments arrive in the order written, the named arguments arrive in the order written, and moving a named argument relative to the positional ones does not change the parsed input.", "quantifier": "every sequence of positional and named arguments and every interleaving of them", "why_tests_cant": "The number of interleavings grows combinatorially.", "anchors": ["src/DefaultLexer.cpp: DefaultLexer::parse(Vector<Token>)"]}
{"id": "C07", "title": "Syntax errors are reported exactly when the text is malformed, with the right message", "statement": "Parsing fails exactly when a quote or parenthesis is left open, the first token is not a plain word or quoted string, an '=' does not follow an argument name, or an '=' is not followed by a value; the message identifies which of these happened first and the offending character or token.", "quantifier": "every byte string and every lexer configuration", "why_tests_cant": "Both directions (no false alarm, no missed error) quantify over all strings.", "anchors": ["src/DefaultLexer.cpp: DefaultLexer::tokenize, parse"]}
{"id": "C08", "title": "Compound arguments are split on separators only", "statement": "The content of a group is split into its maximal separator-free items, where separators inside quotes do not split and a pair of enclosing quotes is removed; no empty item appears unless it was written as an empty quoted string, and no characters other than separators and enclosing quotes are lost.", "quantifier": "every group content and every lexer configuration", "why_tests_cant": "All group contents, including unbalanced quotes and runs of separators.", "anchors": ["src/DefaultLexer.cpp: DefaultLexer::splitGroup"]}
{"id": "C09", "title": "A word is a compound argument exactly when it contains a separator", "statement": "An unquoted word given as an argument is split into sub-values if and only if it contains one of the configured separator characters.", "quantifier": "every word", "why_tests_cant": "The exceptional words (a separator in a particular position) are not covered by examples.", "anchors": ["src/DefaultLexer.cpp: DefaultLexer::tokenize (CharType::String), createValue"]}
{"id": "C10", "title": "Configured special characters are honoured", "statement": "Every character passed to the DefaultLexer constructor as a parenthesis, quote, separator or white-space character acts in that role (earlier roles winning when a character is given several).", "quantifier": "every configuration and every byte", "why_tests_cant": "256 byte values in four roles; tests only use the default configuration.", "anchors": ["src/DefaultLexer.cpp: isGroupChar, isQuote, isGroupSeparator, isSpace, getCharType", "include/coil/detail/Algorithm.h: find"]}
{"id": "C11", "title": "Integers survive a print/parse round trip", "statement": "For every built-in integer type, converting a value to text and the text back succeeds and yields the same value.", "quantifier": "every value of every built-in integer type, for 32- and 64-bit long and signed or unsigned char", "why_tests_cant": "2^64 values per type.", "anchors": ["src/StringConv.cpp: toString, fromString", "src/Coil.cpp: TypeSerializer<...>"]}
{"id": "C12", "title": "Integer text is accepted exactly when it denotes a value of the type", "statement": "Converting text to a signed integer type succeeds exactly when the whole text is optional white space, an optional sign and decimal digits whose value lies in the type's range, and then gives that value; everything else, including trailing characters and embedded NUL bytes, is rejected.", "quantifier": "every byte string and every signed integer type", "why_tests_cant": "All strings; wrap-around and partial parses hide in rare inputs.", "anchors": ["src/StringConv.cpp: signedIntegerFromString, signedAliasFromString"]}
{"id": "C13", "title": "Out-of-range integers never wrap", "statement": "Converting text to an integer type never yields a value different from the number written: a number outside the type's range is rejected rather than truncated.", "quantifier": "every decimal literal and every integer type", "why_tests_cant": "Infinitely many literals, boundary cases at each width.", "anchors": ["src/StringConv.cpp: signedAliasFromString, unsignedAliasFromString"]}
{"id": "C14", "title": "Unsigned types never accept a negative number", "statement": "Converting text that denotes a negative number to an unsigned integer type fails.", "quantifier": "every byte string and every unsigned integer type", "why_tests_cant": "The text can be decorated in infinitely many ways.", "anchors": ["src/StringConv.cpp: unsignedIntegerFromString, unsignedAliasFromString"]}
{"id": "C15", "title": "Booleans: exactly six spellings up to case", "statement": "Text converts to true exactly when it is '1' or any capitalisation of 'true', to false exactly when it is '0' or any capitalisation of 'false', and otherwise the conversion is an error; printing and re-parsing a boolean gives it back.", "quantifier": "every byte string", "why_tests_cant": "All strings of all lengths.", "anchors": ["src/Coil.cpp: TypeSerializer<bool>::fromString, toString"]}
{"id": "C16", "title": "Strings are passed through unchanged", "statement": "A string-typed parameter receives exactly the bytes of the single sub-value, a compound argument with zero or several sub-values is rejected, and returning the string yields the same bytes.", "quantifier": "every argument value", "why_tests_cant": "All byte strings and all sub-value counts.", "anchors": ["src/Coil.cpp: TypeSerializer<String>, TypeSerializer<StringView>", "include/coil/StdLibCompat.h: TypeSerializer<std::string>"]}
{"id": "C17", "title": "Vector conversion is element-wise and all-or-nothing", "statement": "A compound argument converts to a vector exactly when each sub-value converts to the element type; the vector then holds the converted elements in order; otherwise the error is that of the first failing element.", "quantifier": "every element type (including user-defined ones) and every compound value of any length", "why_tests_cant": "Unbounded length and arbitrary element type.", "anchors": ["include/coil/StdLibCompat.h: TypeSerializer<std::vector<T>>"]}
{"id": "C18", "title": "Optional conversion accounts for the whole argument", "statement": "Converting an argument to an optional succeeds only if the whole argument is either empty or converts to the inner type: no part of what the user wrote is silently ignored.", "quantifier": "every inner type and every compound value", "why_tests_cant": "All compound values of all lengths.", "anchors": ["include/coil/StdLibCompat.h: TypeSerializer<std::optional<T>>"]}
{"id": "C19", "title": "Conversion errors name the offending value and type", "statement": "When an argument cannot be converted, the error text is exactly: Unable to convert '<value>' to type '<type>', followed by the detail when there is one, where <value> is the sub-values joined by single spaces.", "quantifier": "every value (without NUL bytes) and every built-in type", "why_tests_cant": "All values; formatting goes through length-limited printf conversions.", "anchors": ["src/Coil.cpp: errors::createGenericError, createMismatchedSubvaluesError, Value::str"]}
{"id": "C20", "title": "The registry is a map from names to commands", "statement": "After any sequence of adding, overwriting, removing and clearing commands, looking up or executing a name finds the most recently added, not since removed, command of that name, and finds nothing if there is none; no such operation corrupts another command.", "quantifier": "every finite history of add/remove/clear/lookup calls with arbitrary names", "why_tests_cant": "The failing histories need a particular pattern of hash collisions and removals that a random test of small size does not hit.", "anchors": ["include/coil/detail/UnorderedMap.h: insertOrAssign, erase, find, rehash", "src/Coil.cpp: Bindings::add, remove, get, clear"]}
{"id": "C21", "title": "Looking up a command always terminates", "statement": "execute, get, add and remove return after finitely many steps, whatever happened to the registry before.", "quantifier": "every finite history of registry operations and every name", "why_tests_cant": "Non-termination appears only after particular histories.", "anchors": ["include/coil/detail/UnorderedMap.h: findNodeIndex, insertNode"]}
{"id": "C22", "title": "Without removals the registry is a faithful map", "statement": "After any sequence of adding, overwriting and clearing commands, every name resolves to the latest command added under it since the last clear, and to nothing otherwise.", "quantifier": "every history without removals, every name, every hash collision pattern", "why_tests_cant": "Unbounded histories with several rehashes.", "anchors": ["include/coil/detail/UnorderedMap.h: insertOrAssign, insertNode, rehash, clear"]}
{"id": "C23", "title": "A removal affects only the removed command when commands are removed in reverse order of addition", "statement": "If each removal concerns an unknown name or the most recently added live command, every name resolves as in an ideal map at every point of the history.", "quantifier": "every history obeying this stack discipline", "why_tests_cant": "Unbounded histories.", "anchors": ["include/coil/detail/UnorderedMap.h: erase"]}
{"id": "C24", "title": "The hash table stays at most full", "statement": "As long as fewer than 2^24 commands are registered, the number of commands never exceeds the number of hash buckets, so the average chain length is at most one.", "quantifier": "every history of registry operations", "why_tests_cant": "Depends on single-precision arithmetic on sizes beyond any test.", "anchors": ["include/coil/detail/UnorderedMap.h: insertOrAssign (load factor), rehash"]}
{"id": "C25", "title": "Iteration visits each registered entry exactly once", "statement": "Iterating over the map yields each live key exactly once together with its current value, and size() is the number of live keys.", "quantifier": "every history of map operations without removal faults", "why_tests_cant": "All histories.", "anchors": ["include/coil/detail/UnorderedMap.h: begin, end, size"]}
{"id": "C26", "title": "At most one handler runs per execution, the first with the right arity", "statement": "Executing a command invokes exactly one handler, the first of the registered overloads whose number of user parameters equals the number of positional arguments, exactly once; if there is none, no handler runs.", "quantifier": "every command table, every input and every handler behaviour", "why_tests_cant": "All overload sets and argument counts; absence of side effects must hold for arbitrary handlers.", "anchors": ["src/Coil.cpp: Bindings::execute(CallContext&)", "include/coil/detail/FunctorCaller.h: invoke"]}
{"id": "C27", "title": "A handler never runs with a badly converted argument", "statement": "If at least one positional argument fails to convert to its parameter type, the handler is not invoked, no state changes, there is no return value or output, and the errors are exactly the conversion errors of the failing arguments, in argument order.", "quantifier": "every parameter list, argument list and handler", "why_tests_cant": "Arbitrary many parameters of arbitrary types.", "anchors": ["include/coil/detail/FunctorCaller.h: invoke, unpackAndInvoke"]}
{"id": "C28", "title": "A handler receives the converted arguments in order", "statement": "When all arguments convert, the handler is invoked once with precisely the converted values in the order written.", "quantifier": "every parameter list, argument list and handler", "why_tests_cant": "Arbitrary arity and types.", "anchors": ["include/coil/detail/FunctorCaller.h: invoke, unpackAndInvoke", "include/coil/detail/FunctionWrapper.h: typedCall"]}
{"id": "C29", "title": "A return value is present exactly on success of a non-void handler", "statement": "The execution result carries a return value if and only if the result has no errors and the invoked handler returned a value, and then it is that value's text; errors and a return value never appear together.", "quantifier": "every command table, input and handler behaviour", "why_tests_cant": "All handlers, including ones that report errors and still return.", "anchors": ["include/coil/detail/FunctorCaller.h: invoke", "include/coil/detail/FunctionWrapper.h: typedCall"]}
{"id": "C30", "title": "Failures before the call are reported once and have no effect", "statement": "A syntax error, an empty command name, an unknown name or a wrong number of arguments yields exactly one error with the documented text, no return value, no output, and changes neither application state nor the registry.", "quantifier": "every command string, command table and application state", "why_tests_cant": "All inputs and states.", "anchors": ["src/Coil.cpp: Bindings::execute"]}
{"id": "C31", "title": "The wrong-argument-count message lists all accepted counts", "statement": "When no overload accepts the given number of arguments the message lists the arities of all overloads in registration order, separated by ', ' with ' or ' before the last, and the number of arguments given.", "quantifier": "every overload set of any size", "why_tests_cant": "Tests try two and three overloads.", "anchors": ["src/Coil.cpp: Bindings::execute(CallContext&)"]}
{"id": "C32", "title": "The result echoes the parsed input", "statement": "The input stored in the execution result is exactly what the lexer produced (or what the caller passed in), whatever the handler did.", "quantifier": "every command string, table and handler", "why_tests_cant": "All handlers.", "anchors": ["src/Coil.cpp: Bindings::execute(ExecutionInput)"]}
{"id": "C33", "title": "Output and errors keep the order in which the handler produced them", "statement": "The output is the concatenation of everything the handler logged, in order, with a line feed after each logline; the errors are the messages the handler reported, in order; nothing else is added when the handler ends normally.", "quantifier": "every handler behaviour", "why_tests_cant": "All sequences of logging calls.", "anchors": ["src/Coil.cpp: Context::log, logline, reportError"]}
{"id": "C34", "title": "Exceptions are contained when the option is on, and propagate when it is off", "statement": "With exception catching enabled, an exception thrown by a handler adds exactly one error (with the exception text for standard exceptions), keeps the output, errors and state changes made so far and leaves no return value; with it disabled the exception reaches the caller.", "quantifier": "every handler and every point at which it throws", "why_tests_cant": "All throw points.", "anchors": ["src/Coil.cpp: Bindings::execute (COIL_CONFIG_CATCH_EXCEPTIONS)"]}
{"id": "C35", "title": "Named arguments: first match wins, defaults and errors as specified", "statement": "Looking up a named argument finds the first one with that key; a typed optional lookup yields the value, the default if the key is missing, or reports a conversion error; a required lookup reports a missing key; successful or defaulted lookups report nothing.", "quantifier": "every list of named arguments (with duplicates), key, type and default", "why_tests_cant": "All lists of named arguments.", "anchors": ["src/Coil.cpp: NamedArgs::get, getOrReport, find", "include/coil/detail/NamedArgs.h: get, getOrReport"]}
{"id": "C36", "title": "A bound variable behaves like a register", "statement": "After any sequence of commands, reading a bound variable prints its current value; assigning a convertible value stores it and prints it; a failed assignment reports an error and leaves it unchanged.", "quantifier": "every history of reads and writes with arbitrary texts", "why_tests_cant": "Unbounded histories.", "anchors": ["include/coil/detail/Variable.h: variable"]}
{"id": "C37", "title": "Read-only variables and properties never change", "statement": "Any command sent to a read-only variable or property leaves it unchanged; every attempt to set it reports an error and returns nothing.", "quantifier": "every history and every text", "why_tests_cant": "Unbounded histories.", "anchors": ["include/coil/detail/Variable.h: variable(T const*)", "include/coil/detail/Property.h: property, bindProperty"]}
{"id": "C38", "title": "Properties go through getter and setter", "statement": "A property read runs the getter once; a property write runs the setter once with the converted value and then the getter, and prints what the getter returned.", "quantifier": "every getter, setter and state", "why_tests_cant": "Arbitrary getters and setters.", "anchors": ["include/coil/detail/Property.h: property, bindProperty"]}
{"id": "C39", "title": "Handler metadata matches its signature", "statement": "arity() and parameterTypes() describe the parameters in order, without a leading Context; an execution with arity() many convertible arguments always reaches the handler if it is the only overload.", "quantifier": "every parameter list", "why_tests_cant": "All signatures.", "anchors": ["include/coil/detail/FunctionWrapper.h: ArgsTraitsImpl", "src/Coil.cpp: AnyFunctor::arity, parameterTypes"]}
{"id": "C40", "title": "Vector behaves like a sequence and manages lifetimes", "statement": "After any sequence of pushBack, popBack, resize, reserve, clear, copy and move operations the vector holds the expected sequence, its size never exceeds its capacity, and each element object is constructed and destroyed exactly once.", "quantifier": "every history of vector operations within the address space", "why_tests_cant": "Unbounded histories; leaks and double destruction are invisible to value-level tests.", "anchors": ["include/coil/detail/Vector.h", "include/coil/detail/Buffer.h", "src/Buffer.cpp"]}
{"id": "C41", "title": "Appending to a vector costs amortised constant time", "statement": "Appending n elements one by one to an empty vector moves at most a constant times n elements in total.", "quantifier": "every n", "why_tests_cant": "Asymptotic statement.", "anchors": ["include/coil/detail/Vector.h: pushBack, grow"]}
{"id": "C42", "title": "Strings stay NUL-terminated and behave like byte sequences", "statement": "After any sequence of construction, append, reserve and resize operations whose sources do not alias the string, the string holds the expected bytes, cStr() is NUL-terminated right after them, and no memory outside live allocations is accessed.", "quantifier": "every history of string operations within the address space", "why_tests_cant": "Unbounded histories, memory safety.", "anchors": ["src/String.cpp", "src/Buffer.cpp"]}
{"id": "C43", "title": "Appending a string to itself doubles it", "statement": "s += s appends the old content of s to s.", "quantifier": "every string content and capacity", "why_tests_cant": "Depends on reallocation, i.e. on capacity; memory errors may go unnoticed in a test.", "anchors": ["src/String.cpp: operator+=, append, resize, reserve"]}
{"id": "C44", "title": "Equal strings hash equally", "statement": "A String and a StringView with the same bytes compare equal and have the same hash, whatever the bytes; so a command added under a String key is found by a StringView key.", "quantifier": "every byte string, including bytes above 127", "why_tests_cant": "All strings.", "anchors": ["src/StringView.cpp: operator==, Hash<StringView>", "src/String.cpp: Hash<String>"]}
{"id": "C45", "title": "Optional holds at most one live object and destroys it exactly once", "statement": "After any sequence of constructions, copies, moves, assignments and destructions of Optional objects, each contains either nothing or one live object, reading gives the last value stored, and no contained object is leaked or destroyed twice.", "quantifier": "every history of operations on any number of Optional objects", "why_tests_cant": "Unbounded histories; lifetime errors.", "anchors": ["include/coil/detail/Optional.h"]}
{"id": "C46", "title": "Expected holds exactly one of value and error and destroys it exactly once", "statement": "After any sequence of constructions, copies, moves, assignments and destructions, an Expected holds either a live value or a live error matching hasValue(), and nothing is leaked or destroyed twice.", "quantifier": "every history of operations on any number of Expected objects", "why_tests_cant": "Unbounded histories; lifetime errors.", "anchors": ["include/coil/detail/Expected.h", "include/coil/detail/Unexpected.h"]}
{"id": "C47", "title": "UniquePtr owns uniquely", "statement": "After any sequence of creations, moves, conversions, assignments and destructions of UniquePtr objects, no object is owned twice, none is deleted twice, and an object is deleted when the owner of it is destroyed.", "quantifier": "every history of operations on any number of UniquePtr objects", "why_tests_cant": "Unbounded histories; ownership errors.", "anchors": ["include/coil/detail/UniquePtr.h"]}
{"id": "C48", "title": "A null pointer result prints as 'null'", "statement": "A handler returning a null pointer yields the text 'null'; a non-null pointer yields the text of the object pointed to.", "quantifier": "every pointer type that can be returned", "why_tests_cant": "One pointer type is handled by a different specialisation.", "anchors": ["include/coil/detail/TypeSerializer.h: TypeSerializer<T*>", "src/Coil.cpp: TypeSerializer<char const*>::toString"]}
{"id": "C49", "title": "Floating-point text of tiny numbers", "statement": "Converting a float or double to text yields '0' exactly for magnitudes below 10^-6 (and zero), hence printing and parsing does not give back every value.", "quantifier": "every finite float and double", "why_tests_cant": "All 2^64 values, boundary at a decimal constant not representable in binary.", "anchors": ["src/StringConv.cpp: toString(float), toString(double)"]}
{"id": "C50", "title": "Handlers may re-enter the bindings", "statement": "A handler may execute further commands and add, overwrite or remove commands, including its own; the nested calls see the registry as modified so far, and the result of the outer call is determined by the handler's own output, errors and return value.", "quantifier": "every program built from such calls, nested to any depth", "why_tests_cant": "Unbounded nesting and arbitrary interleaving with registry changes.", "anchors": ["src/Coil.cpp: Bindings::execute, add, remove"]}
{"id": "C51", "title": "Moving Bindings transfers all commands", "statement": "After moving a Bindings object into a new one, the new object resolves every name as the old one did; move assignment exchanges the two objects' commands.", "quantifier": "every history of the two objects before the move and every name", "why_tests_cant": "All histories.", "anchors": ["src/Coil.cpp: Bindings(Bindings&&), operator=(Bindings&&)", "src/Buffer.cpp: Buffer(Buffer&&), swap"]}
{"id": "C52", "title": "Sessions of an ordinary application never fault", "statement": "If handlers do not use the Bindings object and return no C strings, executing any sequence of command texts (other than the lone-quote ones of C01) against any registry built by additions and harmless removals gives a result for each of them, without assertion failure, out-of-range access or use of freed memory, and leaves the registry unchanged.", "quantifier": "every registry history, every set of such handlers, every sequence of texts, every lexer configuration", "why_tests_cant": "Unbounded sessions, arbitrary handlers and texts; it combines lexer, registry, conversion and dispatch.", "anchors": ["src/Coil.cpp: Bindings::execute", "src/DefaultLexer.cpp: DefaultLexer::parse", "include/coil/detail/UnorderedMap.h"]}
{"id": "C53", "title": "A rendered call reaches its handler with exactly the given values", "statement": "Writing a command name and printed argument values in quotes and executing the text calls the first overload of that arity exactly once, with exactly those values; integers in range, booleans and strings without quotes can be written that way.", "quantifier": "every name, every list of values of any serializable types that round-trip, every registry", "why_tests_cant": "All values of all parameter lists.", "anchors": ["src/Coil.cpp: Bindings::execute, TypeSerializer", "src/DefaultLexer.cpp: DefaultLexer::parse", "include/coil/detail/FunctorCaller.h"]}
{"id": "C54", "title": "Lookups never invent a command", "statement": "Whatever the history of additions, removals and clears, also one whose removals have damaged the bucket chains, a value delivered by a lookup or by iteration was added under exactly that key after the last clear.", "quantifier": "every history, key type and hash function", "why_tests_cant": "Unbounded histories including damaged states.", "anchors": ["include/coil/detail/UnorderedMap.h: find, insertOrAssign, erase, clear, begin, end"]}
{"id": "C55", "title": "Building a string character by character costs linear time", "statement": "Appending n characters one by one to an empty string copies at most a constant times n bytes in total.", "quantifier": "every n", "why_tests_cant": "Asymptotic statement; a test can only time a few sizes.", "anchors": ["src/String.cpp: append, operator+=, reserve", "src/Buffer.cpp"]}
{"id": "C56", "title": "Printed floating-point text is accurate and accepted", "statement": "The text printed for a finite float, double or long double that is not printed as 0 is its sign and the nearest decimal number with six significant digits (ties to even); this text is accepted by the conversion back, even for the largest values, and printing followed by parsing changes a finite value by at most 5.1 millionths of its magnitude unless the value is below 10^-6 and becomes zero. Infinities and NaN are read back unchanged.", "quantifier": "every value of the three formats", "why_tests_cant": "2^32, 2^64 and 2^80 values; rounding carries (999999.5), decade boundaries and values whose six-digit text might round out of range occur at isolated points.", "anchors": ["src/StringConv.cpp: toString(float), toString(double), toString(long double), floatFromString"]}
{"id": "C57", "title": "Printing is stable under parsing", "statement": "If a float, double or long double is printed, parsed back and printed again, the second text equals the first. (True for double and long double; for float except the texts 1e-06 and -1e-06, which come back as 0.)", "quantifier": "every value of the three formats", "why_tests_cant": "The exception consists of a handful of floats around 10^-6 among 2^32 values.", "anchors": ["src/StringConv.cpp: toString(float), toString(double), toString(long double), floatFromString"]}
{"id": "C58", "title": "Floating-point parsing is exact", "statement": "A text is converted to a floating-point value exactly if the whole text is optional white space, an optional sign and a decimal or hexadecimal number, inf, infinity, nan or nan(...) in any capitalisation, and the number is in range; the value is the nearest one of the format, ties to even. Every value of the format is obtained from some text.", "quantifier": "every text, every format", "why_tests_cant": "Unbounded texts; correct rounding depends on arbitrarily many digits.", "anchors": ["src/StringConv.cpp: floatFromString"]}
{"id": "C59", "title": "Floating-point parameters of commands", "statement": "A float, double or long double parameter accepts exactly the arguments with one sub-value that is a number in range, and the handler receives the nearest value of the type; every other argument gives an error text with the argument and the name of the type, and for a wrong number of sub-values both counts. Vectors of these types are converted element by element. For double and long double a value that was once printed and read is then delivered exactly.", "quantifier": "every argument, every registry, every handler, every long double format among double's and x87's", "why_tests_cant": "Unbounded texts and any number of parameters; rounding depends on every digit.", "anchors": ["src/Coil.cpp: arithmeticFromString, DEFINE_ARITHMETIC_TYPE_SERIALIZER, COIL_CREATE_TYPE_NAME_DEFINITION", "src/StringConv.cpp"]}
{"id": "C60", "title": "Handlers are owned exactly once", "statement": "In every program that makes vectors of overloads, registers, replaces, removes and clears commands, and moves, assigns and destroys vectors and Bindings objects, the handler objects alive are exactly those in the vectors and commands in scope, each once; every lookup reads through the pointers the handlers and parameter types that were registered; no handler is used after it was destroyed, none is destroyed twice, and once all variables are gone nothing is left. A handler of a removed or replaced command is destroyed at once. This holds also in the situations in which erase damages the chains of the registry (C21).", "quantifier": "every program over any number of vectors and Bindings objects, every hash function, every set of handlers", "why_tests_cant": "Any interleaving of moves, replacements and removals; leaks and double deletes show only in particular ones.", "anchors": ["include/coil/detail/FunctionWrapper.h", "include/coil/detail/AnyFunctor.h", "src/Coil.cpp: AnyFunctor, Bindings::add, remove, clear", "include/coil/detail/Overloaded.h", "include/coil/detail/Vector.h: pushBack, grow"]}
{"id": "C61", "title": "Command names stay readable", "statement": "The name view of every command in a registry refers to a live buffer that contains the name the command is found under, after every program; a view obtained before stays good when commands are added or replaced, and is dangling once its command is removed.", "quantifier": "every program as in C60", "why_tests_cant": "The view points into the key of a node that is moved by rehashing, by growth of the node vector and by erasing other commands.", "anchors": ["src/Coil.cpp: Bindings::add", "include/coil/detail/Bindings.h: Command", "include/coil/detail/UnorderedMap.h: insertOrAssign, erase"]}
{"id": "C62", "title": "sprintf returns the formatted text", "statement": "For every format made of the conversions the library uses and every argument list that matches it, sprintf returns a String with exactly the formatted text: the buffer is large enough, every byte of it is written, no other memory is changed and nothing leaks.", "quantifier": "every heap, every format string and argument list that match, every width of size_t and int, C libraries with and without the POSIX limit on buffer sizes", "why_tests_cant": "The two passes of vsnprintf, the conversion of its int result to size_t and the terminator meet only in texts of particular lengths, such as more than INT_MAX bytes.", "anchors": ["src/Coil.cpp: coil::vsprintf, coil::sprintf", "src/String.cpp: resize"]}
{"id": "C63", "title": "Messages are built correctly in memory", "statement": "Every message of the library (unknown function, exception, missing named argument, unclosed quote or group, wrong first token, failed conversion, number of subvalues, wrong number of arguments, numbers) whose texts fit an int is a new String with exactly the specified text. The views may be parts of any live storage; a NUL in a view ends its part of the message; the temporary Strings are all gone and no other memory is changed.", "quantifier": "every heap, name, value, list of arities, integer and floating-point value", "why_tests_cant": "Messages mix pointers into temporaries, views without terminators and precisions; a dangling pointer or a missed terminator may go unnoticed.", "anchors": ["src/Coil.cpp: Bindings::execute, errors::createGenericError, errors::createMismatchedSubvaluesError, CallContext, NamedArgs", "src/DefaultLexer.cpp", "src/StringConv.cpp: toString"]}
{"id": "C64", "title": "Formatted output of a Context", "statement": "logf appends exactly the formatted text to the output of the call, loglinef also a line break, also if the arguments point into the output itself; the temporary String is gone afterwards and no other memory is changed.", "quantifier": "every heap and output so far, every format and argument list that match, with sizes that fit", "why_tests_cant": "Appending may replace the storage the arguments point into; whether that matters depends on the order of the steps and on capacities.", "anchors": ["src/Coil.cpp: Context::log, logline, logf, loglinef"]}
{"id": "C65", "title": "Vector and exceptions", "statement": "When allocation or a constructor of an element throws, the operation of Vector throws too and leaves every vector as it was (resize may have added elements); nothing is leaked, no assertion fails, and the vectors remain usable. An operation throws only if one of its calls does. Growing moves every element once and copies none; pushBack copies its argument once.", "quantifier": "every program with any number of vectors that uses them properly and reacts in any way to the exceptions it sees, and every choice of the calls that throw", "why_tests_cant": "Every call of every operation may be the one that throws; the tests throw nothing, and the failing case (a move that throws after another has succeeded) needs a type whose moves throw.", "anchors": ["include/coil/detail/Vector.h: Vector(begin, end), operator=, reserve, resize, pushBack, grow", "include/coil/detail/Buffer.h: constructNext", "src/Buffer.cpp: Buffer(size_t, size_t), ~Buffer"]}
{"id": "C66", "title": "Passing of converted arguments", "statement": "On the way from fromString to the functor no dead object is used, every object is destroyed exactly once and no other object changes, whichever call throws and in whichever order arguments are evaluated and parameters destroyed. The functor is entered at most once, only if every conversion gave a value, and sees exactly these values. No argument is copied; one taken by value is moved three times, a Context twice, one taken by reference never. A returned reference to a reference parameter is still valid when it is turned into text. Errors are reported from left to right. Exactly the functors without a T& parameter can be bound.", "quantifier": "every list of parameter types, list of conversion results, functor, order of evaluation and destruction, and choice of the calls that throw", "why_tests_cant": "The orders are up to the compiler, of which a test run sees one; exceptions may come from any of the constructors; the tests count copies for single arguments only.", "anchors": ["include/coil/detail/FunctorCaller.h: unpackAndInvoke, invoke", "include/coil/detail/FunctionWrapper.h: invoke, typedCall", "include/coil/detail/Expected.h: value() &&", "include/coil/detail/Utility.h: move"]}
{"id": "C67", "title": "Registration when memory runs out", "statement": "When an allocation fails while a command is registered or a list of overloads is built, the statement throws, no allocation is lost, no object is used after its destruction and iterating over any registry reads the same names and handlers as before. Exactly the handlers that were moved into the failing call are destroyed. Names find what they found before, provided that every registered name is found, which holds if nothing was removed: then a program behaves as if the statements that threw had not been called. With enough memory nothing throws. Only statements that allocate throw.", "quantifier": "every program over any number of registries and overload lists (creating, adding, replacing, removing, clearing, moving, destroying), whatever it does after an exception, and every choice of the allocations that fail", "why_tests_cant": "Each registration performs up to a dozen allocations, any of which may fail, in any state of the registry; the tests never make an allocation fail.", "anchors": ["include/coil/detail/FunctionWrapper.h: 37-45", "include/coil/detail/AnyFunctor.h: 81-85", "include/coil/detail/Types.h: 15-26", "include/coil/detail/Overloaded.h: 11-30", "include/coil/detail/Vector.h: 129-144, 262-278", "src/Coil.cpp: 190, 206-219", "include/coil/detail/UnorderedMap.h: 118-121, 140-159, 299-306"]}
{"id": "C68", "title": "References and pointers to commands", "statement": "A registry on the memory of its two vectors does what the registry on lists does, and stops at the same place for the same reason. The reference that add returns is to the command that was added; the pointer that get returns is null exactly if the name is not found and else to the command found. A pointer stays as it is while other registries are used, names are looked up and registries (its own too) are moved. Adding a new name ends all pointers into the registry exactly if the node storage is full, whose sizes are 0, 1, 2, 3, 4, 6, 9, 13 and so on; replacing a command changes what exactly the pointers to it read. After a removal pointers to the removed command read the last command, and pointers to the last one are to no object; after clear all pointers are to no object, after destruction they dangle. No storage is lost. That a reference stays valid as long as its command is registered is false.", "quantifier": "every program over any number of registries (creating, adding, replacing, looking up, removing, clearing, moving, destroying) whose commands fit in memory, and every pointer obtained in it", "why_tests_cant": "Whether a dangling pointer is noticed depends on what the allocator does with freed storage, and which operation ends a pointer depends on the whole history of the registry; the tests use returned references at once.", "anchors": ["include/coil/detail/UnorderedMap.h: 41-48, 118-242, 250-327", "include/coil/detail/Vector.h: 87-104, 129-144, 197-245, 262-278", "include/coil/detail/Utility.h: 25-31", "src/Coil.cpp: 213-238"]}
{"id": "C69", "title": "What can be bound", "statement": "add, operator= and overloaded accept exactly the pointers to functions and the objects with one call operator (not a template, without ellipsis, not for rvalues only) whose parameters, after an optional leading Context, are T, T const& or T&& for a T with a name and a fromString, and whose result is void or can be shown and named; noexcept plays no part. bind accepts exactly the pointers to member functions that may be called on the object, so never a function that is not const for a constant object. The recorded arity, parameter names and result name are those of the signature. variable, property and bindProperty compile for exactly the getters and setters that can be called through a constant closure, and what they produce can be bound exactly if the type has a name and can be read and shown. The static_asserts fire exactly for what is not like a function and for constant objects with functions that are not const. DecayT and the other type traits compute what their names say, never ambiguously; DecayT differs from std::decay exactly on arrays and functions.", "quantifier": "every functor type, object type and program (its classes, type names and serializers)", "why_tests_cant": "Every type is a program of its own: the tests compile one valid program and three invalid ones; what must not compile cannot be part of a running test.", "anchors": ["include/coil/detail/TypeTraits.h", "include/coil/detail/FuncTraits.h", "include/coil/detail/FunctionWrapper.h: 17-45, 66-87", "include/coil/detail/Bind.h", "include/coil/detail/Bindings.h: 36-42, 69-75", "include/coil/detail/Overloaded.h", "include/coil/detail/Variable.h", "include/coil/detail/Property.h", "include/coil/detail/Utility.h: 7-23", "tests/compilation/"]}
{"id": "C70", "title": "Parsing takes linear time", "statement": "Parsing a command text of n characters reads at most 7n characters, makes for each character read at most one comparison with '=' and one with every character of the lexer's configuration, and puts at most 3n elements into vectors, however the parse ends. With the default configuration that is at most 94n steps. A text that parses is read completely.", "quantifier": "every command text and every lexer configuration, both signednesses of char", "why_tests_cant": "A test measures a few texts; that no text makes the nested loops of tokenize and splitGroup go over the same characters again and again is a statement about all of them.", "anchors": ["src/DefaultLexer.cpp: 45-294", "include/coil/detail/Algorithm.h: 6-13", "src/Coil.cpp: 606-622"]}
{"id": "C71", "title": "Strings and output survive memory exhaustion", "statement": "Whichever allocations fail, a program that uses its strings properly and reacts in any way to the exceptions runs without a fault: every construction, copy, assignment, reserve, resize, append, operator+ and logline either does its work or throws and leaves all strings as they were, and no storage is leaked. An operation throws exactly if its last request for memory failed, and the requests are exactly known: none within the capacity, so appends after a successful reserve never throw. logf and loglinef add the whole text to the output or nothing.", "quantifier": "every program over any number of strings, every function from the record of requests to success or failure, every format and argument list, every width of size_t", "why_tests_cant": "operator new practically never fails in a test, and a test can make only a few of the requests of a few programs fail.", "anchors": ["src/String.cpp: 8-143", "src/String.cpp: 173-191", "src/Buffer.cpp: 5-44", "src/Coil.cpp: 339-365", "src/Coil.cpp: 606-621"]}
{"id": "C72", "title": "The work of the command registry", "statement": "A lookup that ends computes one hash and compares no registered name twice; without harmful removals it compares only names that share its bucket, and without removals exactly those registered up to the one sought. n registrations, whatever removals and clears come between them, relink at most 2n nodes and empty at most 1+4n buckets by rehashing, compute at most 4n hashes (plus one per removal), and make at most n comparisons per operation and 3n^2 chain steps altogether. The square is reached: for every n there are 2^n names of 2n characters with the same hash, so that no bound on the comparisons of a lookup holds for all registries.", "quantifier": "every history of registrations, removals and clears, every key type and hash function; the worst case for Hash<StringView> and both signednesses of char", "why_tests_cant": "The bounds are about all histories and sizes; a test would measure a few, and ordinary names do not collide.", "anchors": ["include/coil/detail/UnorderedMap.h: 118-327", "src/StringView.cpp: 76-86"]}
{"id": "C73", "title": "Variables and results outlive the command text", "statement": "A session creates, overwrites, frees and executes command texts. Variables whose types contain no views (arithmetic types, bool, strings, vectors and optionals of these) answer every command of every such session like registers, without a fault, whatever becomes of the texts after their commands. Exactly these types are safe: for every type with a StringView or Value inside, setting the variable, freeing the text and reading the variable reads freed memory, and overwriting the text changes the variable silently; if texts are kept, such variables are registers too. A vector or optional of Values cannot be converted at all: the temporary Value is read after its destruction. The input of a result can be read exactly as long as its text exists, unless it is empty; errors and return values always.", "quantifier": "every type built from scalars, strings, views, Value, vector and optional, every set of variables, every session, every lexer configuration and signedness of char", "why_tests_cant": "Tests use string literals, which live for ever, and dangling views often still show the old bytes.", "anchors": ["include/coil/detail/Variable.h: 9-19", "include/coil/detail/Value.h: 15-59", "include/coil/detail/Functional.h: 6-23", "include/coil/StdLibCompat.h: 43-175", "include/coil/detail/ExecutionResult.h: 10-16", "src/Coil.cpp: 240-316", "src/Coil.cpp: 427-496", "src/Coil.cpp: 564-588"]}
{"id": "C74", "title": "Scoped commands live as long as their object", "statement": "Objects register commands through a ScopedDebugCommands member, which removes them when the object is destroyed. If objects are not moved, no session of constructing, destroying and registering uses a destroyed object or fails, and every name means the command that was registered last and not taken away since by an unbinding, a clear or the destruction of an object that had registered the name. This is refuted: the defect of UnorderedMap::erase lets the destruction miss a command, which returns when the map grows and then uses the destroyed object, although every name is registered once. It holds for sessions whose removals do not meet the defect, and for all sessions with the repaired erase; there, moves included, a destroyed object is used exactly if a command whose object is gone is executed, and once all objects are gone no command of theirs is left. Two expectations are refuted: a moved object keeps its commands, and an object that replaces one of its kind has its commands. For every list of commands given to the example, the answers are those of a machine with three stages, and the function ends by dereferencing the null g_globalBindings exactly if a Subsystem is still alive.", "quantifier": "every session, every set of names and objects, every list of commands of the example, either signedness of char", "why_tests_cant": "The example runs one fixed script; the damage needs a pattern of colliding names and a later growth of the map.", "anchors": ["examples/encapsulation/EncapsulationExample.cpp: 17-160", "include/coil/detail/UnorderedMap.h: erase", "src/Coil.cpp: 206-233", "src/Coil.cpp: 261-316"]}
{"id": "C75", "title": "Enumerations are read and shown by name", "statement": "For every enumeration that the compiler and magic_enum accept: a value is shown as its first enumerator if that lies between -128 and 128 and as nothing otherwise; a text is read as the integer of the underlying type it denotes, else as the smallest such enumerator with this name in any capitalisation, and is otherwise rejected with a message that lists exactly the names, in the order of their values. A flags variable is shown as the names of its bits joined by '|', and as nothing if there are none or one has no name; its setter takes a compound value whose items can all be read and sets it to their union, otherwise it leaves it alone. No session of the flags example faults (but for the texts of C01), and drawing follows the bits. The exact conditions under which showing (signed overflow) and reading (conversion to an enumeration without fixed type) are undefined are proved, and that the enumerations of the examples meet them, except for ResetMode: setting it to 4 is undefined. Refuted: enumerators of an accepted enumeration can all be shown and read (129), what is shown reads back (Red and RED), only enumerators are accepted, showing never faults, the text of a flags variable is accepted by its setter (flags above 128), set flags are shown.", "quantifier": "every enumeration (underlying type, enumerators, fixed or not), every value and text, every session of commands, either signedness of char and width of long", "why_tests_cant": "There are no tests of the examples, and the defects need particular values: far from the least enumerator, above the reflected range, or names that differ in case.", "anchors": ["examples/common/EnumSupport.h: 18-54", "examples/common/Utils.h: flatten", "examples/include/magic_enum.hpp: 329-560, 692-760, 889-1028", "examples/flags/FlagsExample.cpp: 12-107", "examples/enums/EnumsExample.cpp: 17-63"]}
{"id": "C76", "title": "User-defined types of the examples convert as specified", "statement": "A Vec2 or Point argument is accepted exactly if it is compound with two items that denote floats, and the value is the pair of nearest floats; otherwise the message is about the number of items or the first bad item. A Vec2 is shown with six decimals, the nearest multiple of 10^-6 with ties to even. Sending the text shown by a Vec2 variable back to it is always accepted, the variable then shows the same text, each component has changed by at most 10^-6, and not at all if its magnitude is 16 or more (below, a change is possible: refuted with 8388619*2^-20). The same holds for the text of a Point if its components are zero or at least 1.1755*10^-38 in magnitude; for FLT_MIN it is refuted: 1.17549e-38 is rejected where strtof reports inexact tiny results. An EntityId accepts the numbers of size_t and is shown as EntityId{n}, which is never accepted. A DynamicArray is read item by item and the first bad item is named; the command sum gives the sum unless a prefix sum leaves the range of int, and then its behaviour is undefined. The angle variable takes a number followed by r as radians, multiplied by the float nearest to 180 divided by the float nearest to pi and rounded, and a number followed by d or nothing as degrees; it is unchanged on errors; what it shows is never accepted, and numbers ending in d (0x1d) are cut. particles.spawn sets both members or neither.", "quantifier": "every float (finite, infinite, NaN), every argument, every size_t, every list of ints, every bindings object in which the variable is registered, either convention for inexact tiny results of strtof", "why_tests_cant": "There are no tests of the examples; the round-trip claims concern 2^32 values per component and the defects need particular ones.", "anchors": ["examples/usertypes/UsertypesExample.cpp: 94-198", "examples/compound/CompoundExample.cpp: 39-44, 89-144", "examples/advanced/AdvancedExample.cpp: 58-105", "examples/common/CustomTypeName.h: 17-24"]}
{"id": "C77", "title": "The console of the examples answers every line and ends only on exit", "statement": "examples/main.cpp answers each line of input with exactly one reply: a syntax error, a missing name, an unknown name, a wrong number of arguments (each as one line Error: ...), the help text, the output of one example, the output of all thirteen examples in order (run_all), or the end (exit); named arguments are ignored. For every input and every number of rounds, what has been written, which lines are left unread and whether the console has ended are those of this dialogue. It ends exactly if a line exit is reached before a line that is ill in the sense of C01, and the lines behind it are not read; it crashes exactly if such an ill line is reached. That it ends once its input has ended is refuted: without an exit line it goes on for ever, and behind the last line it repeats the prompt and the message about the missing name without end.", "quantifier": "every list of lines (arbitrary bytes), every number of rounds, whatever the examples write, with and without exception handling, char signed or unsigned", "why_tests_cant": "There are no tests of the console; the endless loop needs a closed input, and a test can only wait for a while; the claims concern all lines.", "anchors": ["examples/main.cpp: 24-125", "src/Coil.cpp: 240-316"]}
{"id": "C78", "title": "The commands of the named-argument example do what they say", "statement": "For every sequence of command texts without NUL, examples/named answers each one as described in NamedExampleSpec.v and with nothing else: inventory.list shows, under its two header lines, exactly the items that pass every filter given (name contains, least amount, source, type), in order, or reports one error per filter that cannot be read and shows nothing; inventory.add appends one item of the source Debug with the given or default amount and type, or reports the errors and adds nothing; print_args shows every named argument; print_floats those that are numbers, to six decimals; save_game needs a type and reports all errors at once; required_and_optional shows each argument as bool if it is one, else as int, else reports both errors. The inventory only grows, by one at most per command without errors, and every value fits its type. The conversions of the three enumerations never fault. Of the ints given to required_and_optional all but 0 and 1 are shown as numbers; that these two are too is refuted by the same theorem. An int that names no enumerator is accepted as a type and shown as nothing.", "quantifier": "every sequence of command texts without NUL, every unsigned type for size_t (at least 32 bits), every platform and naming of types, char signed or unsigned, with and without exception handling", "why_tests_cant": "There are no tests of the example; the claims range over all texts, all filters together and all inventories reachable by any number of additions.", "anchors": ["examples/named/NamedExample.cpp: 11-220", "include/coil/detail/NamedArgs.h", "include/coil/detail/FunctorCaller.h"]}
{"id": "C79", "title": "A command executed while memory runs out reports it and does no more than a part of its work", "statement": "Whichever allocations fail while Bindings::execute runs, the outcomes are exactly those of ExecThrowSpec.v: std::bad_alloc leaves execute when parsing fails to allocate, when a message outside the try block cannot be built, or when the catch clause cannot build its own message; otherwise it is caught and reported. With enough memory the execution is that of C26-C34. With exceptions caught nothing but std::bad_alloc reaches the caller. The state changes only if the handler was called with all arguments converted, at most once. For handlers that execute no commands themselves, no undefined behaviour is added, and a result is either the one with enough memory or a beginning of its errors followed by the report of std::bad_alloc, a beginning of its output and no return value; a result without errors is therefore the one with enough memory. Handlers that leave the registry alone leave it alone. A variable has its old value or the one assigned. That a failed assignment leaves a variable unchanged is refuted: printing the result can fail after the assignment.", "quantifier": "every choice of failing allocations, every family of handlers (with the stated restriction), every lexer, registry, application state, command text or parsed command, with and without exception handling", "why_tests_cant": "The tests never make an allocation fail, and a test can only try some of the points where one can fail, for some handlers.", "anchors": ["src/Coil.cpp: 206-316", "src/Coil.cpp: 337-380", "include/coil/detail/FunctorCaller.h: 18-43", "include/coil/detail/FunctionWrapper.h: 66-128", "include/coil/detail/Variable.h: 9-19"]}
{"id": "C80", "title": "Parsing and executing commands leaks no memory and frees no block twice, even when allocations fail", "statement": "Every block that parsing and execution request is in a ledger; any request may fail with std::bad_alloc, and objects are destroyed where C++ destroys them, also while an exception passes. Parsing gives the result of the model without memory; the blocks in use are then those of before and exactly those the result owns. If it throws, it throws std::bad_alloc, a request has failed, and the blocks in use are those of before. Command strings that are not ill (C01) are parsed without faults whatever fails. Executing a command gives one of the outcomes of C79; the blocks in use are those of before plus exactly those of the result, or those of before if an exception leaves. A parsed command passed to execute is consumed. If no request failed the execution is that of C26-C34, also for handlers that execute commands themselves. With exceptions caught execute throws only std::bad_alloc and only if a request has failed. For handlers that execute no commands no fault is added. Destroying the result of either function restores the blocks in use, so after any number of commands, with any pattern of failing requests, the blocks in use are those of the beginning. The default lexer meets what is asked of a lexer.", "quantifier": "every pattern of failing requests, every initial ledger, every lexer configuration and command text; for execution every family of handlers, every lexer that keeps its books, every registry and application state, any nesting depth, with and without exception handling; any list of commands", "why_tests_cant": "A test sees a leak or a double free only on the paths it takes, and every request for memory in every command adds a path on which an exception unwinds a different set of objects.", "anchors": ["src/DefaultLexer.cpp: 1-294", "src/String.cpp: 8-191", "src/Buffer.cpp: 5-109", "include/coil/detail/Vector.h: 60-278", "include/coil/detail/Expected.h: 61-282", "src/Coil.cpp: 136-139", "src/Coil.cpp: 240-316", "src/Coil.cpp: 337-349", "include/coil/detail/FunctorCaller.h: 18-43"]}
{"id": "C81", "title": "Executing a command takes time linear in its text and in the registry, and never more than one handler per execution", "statement": "Executions are counted: characters given to the lexer, the work of the lookup, comparisons of arities, conversions, calls of handlers, printed results, errors reported, overloads listed in a message; executions started by handlers have entries of their own. Counting changes nothing. The work of an execution that ends is exactly that of the way it goes: no name; unknown name; no overload with the arity (all arities compared and listed once); arguments that do not convert (the arities up to the first match compared, every argument converted once, one error each); a call (likewise, one handler called, one result printed unless it is void or the handler throws, one error if an exception is caught). With the default lexer the reads, comparisons and pushes of the lexer plus these steps are at most 96 per character of the text, plus the number of commands, plus twice the number of overloads of the command, plus 4. Of every execution, also nested ones, also those that end in a fault: at most one lookup, one call, one printed result, and at most one error or one per converted argument. If no handler starts more than b executions, nesting to depth d gives at most 1 + b + ... + b^d executions. The space reserved for the list of arities in an error message is exactly its length for at least two overloads with one-digit arities, and too small if an arity has two digits.", "quantifier": "every family of handlers, registry, application state, lexer, command text and nesting depth, with and without exception handling; every number of overloads and arguments", "why_tests_cant": "Tests time a few commands on small registries; they cannot bound the work over all texts, registries and handlers, nor see that an argument is converted twice or a handler searched for again.", "anchors": ["src/Coil.cpp: 240-316", "include/coil/detail/FunctorCaller.h: 18-43", "include/coil/detail/FunctionWrapper.h: 66-87"]}
{"id": "C82", "title": "The example with dynamic variables does what its specification says, and its undefined behaviour is exactly: replacing the running command, using a variable after the text that created it is gone, and using the fields of an unknown entity", "statement": "For every session of the advanced example (command texts without NUL, any of which may be destroyed or overwritten between commands): errors, results and output of every text and the entities and the angle afterwards are those of a specification that says, for the newest definition of every name, what renaming, listing, creating variables for an entity and reading and writing these variables do. The session has undefined behaviour exactly if the specification says so, and of the kind it says: entities.create_entity_variable called with its own name destroys its captures while it runs (use after free); the variables keep a view of the argument text, so that using one after that text is gone reads freed memory (only reading and writing, not a wrong number of arguments or an argument that does not convert); .id, .name and .payload of a variable for an unknown entity dereference a null pointer, while the variable itself answers null. The specification is total and deterministic; the only other way a session stops is a text C01 is about. A session that creates variables only for player, npc1 and npc2, not under the command's own name, and keeps the texts that create them, has no undefined behaviour. No command adds, removes or reorders entities.", "quantifier": "every sequence of texts without NUL and of destructions of texts, every signedness of char, with and without exception handling, every nesting limit, every name typeid gives the class", "why_tests_cant": "The example runs fourteen literals, which outlive everything and name an existing entity; the undefined behaviour needs other texts, lifetimes and orders of commands, of which there are infinitely many.", "anchors": ["examples/advanced/AdvancedExample.cpp: 18-177", "include/coil/detail/Property.h: 18-43", "src/Coil.cpp: 240-316"]}
{"id": "C83", "title": "The example with properties does what its specification says, and its undefined behaviour is exactly the conversion of a float that no size can hold", "statement": "For every sequence of texts without NUL given to the properties example: errors, results and output of every text, and the width, height and data afterwards, are those of a specification that describes the commands by rational numbers: the aspect is the float nearest to the quotient of the floats nearest to width and height, setting it makes the width the whole part of the float nearest to aspect times height, setting the diagonal scales both by the float nearest to value/hypotf, and so on. The specification is total and deterministic. The session has undefined behaviour exactly if the specification says that a product is not a number, infinite, negative beyond -1, or too large for std::size_t. What a setter answers is what reading the property answers afterwards. Texts that set nothing, including attempts to set the read-only properties, change nothing. For heights below 2^24 the width after setting an aspect is less than a pixel, plus a relative error of 2^-24, off. Aspects from 0 to a million are harmless as long as no diagonal is set; window.aspect -1 is undefined; the diagonal 0 is accepted but makes every later diagonal undefined.", "quantifier": "every sequence of texts without NUL, every platform, every unsigned type for std::size_t, every hypotf that returns floats (and for the last claim: zero for zeros, neither zero nor NaN for positive ones), every condition under which resize throws, with and without exception handling, every nesting limit", "why_tests_cant": "The example runs fifteen commands. Rounding and the conversion to std::size_t depend on all floats and sizes; that the diagonal can be set only as long as the window has not collapsed needs a sequence of commands nobody thought of.", "anchors": ["examples/properties/PropertiesExample.cpp: 10-78", "include/coil/detail/Property.h: 18-72"]}
{"id": "C84", "title": "The variadic example answers what its specification says, never loses, reorders or renumbers entities, and takes a name that reads as a number for an id", "statement": "For every sequence of texts without NUL given to the variadic example, errors, results and output of every text and the entities afterwards are those of a total and deterministic specification, and the program ends abnormally only at a text that C01 is about. entities.rename means the first entity with the given id if the argument is a number of std::size_t, else the first entity with the given name; with an argument of several parts it reports three errors. The ids of the entities are exactly those added by entities.add, in this order. A number changes no entity with another id, so that an entity called 7 cannot be renamed by its name (refuted in general). Of several entities with the same id only the first can be renamed by number, however long the session. The listing shows every entity in full, in order.", "quantifier": "every sequence of texts without NUL, every platform, every unsigned type for std::size_t, with and without exception handling, every nesting limit", "why_tests_cant": "The example runs eight commands with different ids and names that are not numbers; which entity is meant depends on all texts that strtoull accepts and on the whole history of the session.", "anchors": ["examples/variadic/VariadicExample.cpp: 12-98", "include/coil/detail/Value.h: 25-29", "include/coil/detail/Context.h: 24-28"]}
{"id": "C85", "title": "The errors example answers every text as if it were the only one, reports the same error by context and by exception, and takes 0 and 1 for bool", "statement": "For every sequence of texts without NUL given to the errors example, errors, results and output of every text are those of a deterministic specification. The program ends abnormally only by the exception of sqrt_except if exceptions are not caught, or at a text that C01 is about; with exceptions caught only the latter. Every text is answered as if it were the only one. sqrt_context and sqrt_except have the same results and refuse the same arguments, with the same message but for the prefix of a caught exception; a negative zero is not refused. get_type_name answers bool, int, float or four errors, and the four cases are exactly characterised: every text of an int is one of a float, so it fails just when the argument is neither bool nor float; 0 and 1 are bool and all other integers in range are int. test_named_args reports at most one error and writes something just when there is none.", "quantifier": "every sequence of texts without NUL, every platform, every function for std::sqrt, both treatments of tiny floats, with and without exception handling, every nesting limit", "why_tests_cant": "The example runs 21 texts; which arguments are floats, integers or negative depends on all texts that strtof and strtol accept, and that no text influences another is a statement about all sessions.", "anchors": ["examples/errors/ErrorsExample.cpp: 12-128", "include/coil/detail/Context.h: 24-28"]}
{"id": "C86", "title": "The variables example keeps four independent variables, each with the value last accepted for it, but the enumeration takes any int", "statement": "For every sequence of texts without NUL given to the variables example, errors, results and output of every text are those of a deterministic specification, and the program ends abnormally only at a text that C01 is about. Every variable develops as the accepted assignments to it alone say, starting from its initial value; god_var and god_toggle are one variable, which god_toggle without argument negates; reading, printing, rejected texts and the other variables' commands change nothing; and this development is unique. After n toggles the boolean is negated just when n is odd, with the answers in between. The name of a type in any case sets it and is answered as declared; but so does every int, so that the type is always one of the three is refuted: other values are kept and answered with the empty text.", "quantifier": "every sequence of texts without NUL, every platform, every name of the enumeration, both treatments of tiny floats, with and without exception handling, every nesting limit", "why_tests_cant": "The example runs 16 texts; that no other sequence of texts makes one command change another's variable, and which texts denote which values, are statements about all sessions and all texts.", "anchors": ["examples/variables/VariablesExample.cpp: 12-84", "include/coil/detail/Variable.h: 9-19", "include/coil/detail/Overloaded.h: 1-31"]}
{"id": "C87", "title": "The text of a floating-point number is the nearest number with six digits, written in exactly one way", "statement": "For every value of every format the text that %g and toString make is exactly the one an independent description allows: 0 below the bound (10^-6 for float, the double nearest to it in general), inf or nan with a sign, and otherwise the sign and the number d*10^k with six-digit d that is nearest to the value, ties to even d, which is proved to be unique. From 0.0001 up to 999999 it is written without exponent, otherwise with one digit before the point and an exponent of at least two digits; the fraction never ends in 0 and the integer part has no superfluous zeros. There is exactly one such text for every value. Whole numbers of up to six digits are written as integers, and numbers of at most six significant digits as themselves.", "quantifier": "every value of every binary format, every text", "why_tests_cant": "There are 2^32 floats and far more doubles; that no other text is possible, and that ties and the borders between the two notations are treated as described, are statements about all of them.", "anchors": ["src/StringConv.cpp: 136-158"]}
{"id": "C88", "title": "The example with overloaded functions calls the function that takes this number of arguments, or none", "statement": "For every sequence of texts the example answers exactly what a small table allows, and has no undefined behaviour but that of C01. Which function of a command is called depends on the number of arguments alone; when an argument does not have the type that this function asks for, no other function is tried, and exactly the messages about its own parameters are reported. With a number of arguments that no function takes, the message lists all numbers that are possible. Every text is answered as if it were the only one.", "quantifier": "every sequence of texts, every number and form of the arguments, every platform", "why_tests_cant": "The tests execute a few texts per overload; that a conversion that fails never selects another overload, whatever the arguments are, is a statement about all texts.", "anchors": ["examples/overloading/OverloadingExample.cpp: 11-98"]}
{"id": "C89", "title": "The basic example answers by a table, overflows exactly when the scaled integer leaves the range of int, and its sums of floats are correctly rounded", "statement": "For every sequence of texts the basic example answers exactly what a small table allows, and writes to standard output exactly one greeting per accepted 'hello'. Its only undefined behaviour besides that of C01 is signed overflow, exactly when an input of scaler1.scale is outside [-2^30, 2^30-1] or an input of scaler2.scale is outside [-214748364, 214748364]. A function, a lambda, a functor and a std::function answer alike up to their own prefix. Inverting twice gives the same truth value back. The sum of two floats is the float nearest to the exact sum, ties to even; it does not depend on the order unless both are NaN, and adding a zero shows a non-zero operand itself.", "quantifier": "every sequence of texts, every pair of floats that texts can denote, every integer, every platform", "why_tests_cant": "The example executes 21 fixed texts; the range of inputs that overflow, commutativity and correct rounding of sums are statements about all inputs.", "anchors": ["examples/basic/BasicExample.cpp: 10-152"]}
{"id": "C90", "title": "The example with user-defined types answers by a table; adding, finding and removing entities fit together; a particle starts where it was spawned; sums overflow by their prefixes", "statement": "For every sequence of texts the example with user-defined types answers exactly what a small table allows, and leaves the names, the focused id, and the particle of the table. Its only undefined behaviour besides that of C01 is the overflow of a sum, exactly when some prefix of the integers has a sum outside int. The id given by entities.add is found again exactly when the name is new. After entities.remove_some the removed names, and no other ones, are not found; the ids of the others are not kept (refuted with a witness), nor is the focused entity adjusted. A particle with finite velocity is at time zero where it was spawned, unless a coordinate is zero. The order of integers does not change a sum, but can decide whether it is undefined (witness); for non-negative integers it is defined exactly when the total fits.", "quantifier": "every sequence of texts, every state of the example, every list of names, every pair of floats that texts can denote, every list of integers, every platform", "why_tests_cant": "The example executes 16 fixed texts and never removes an entity; the agreement of add, find and remove and the overflow of sums are statements about all lists.", "anchors": ["examples/usertypes/UsertypesExample.cpp: 19-242"]}
{"id": "C91", "title": "The example with compound values answers by a table and never goes wrong; particles are found by their first name and keep it; sums of whole numbers are exact", "statement": "For every sequence of texts the example with compound values answers exactly what a small table allows, with the particles and the pivot of the table; nothing is undefined besides C01. An added particle is found by its name exactly when the name is new, otherwise the older one is; other names are not concerned. Updating keeps the number, the order, the names and the velocities of the particles, and particles without velocity stay where they are unless a coordinate is zero. sum_all of whole numbers whose magnitudes add up to less than a million is exact in every order; in general the order matters (witness). Of an optional argument only the first item counts, and without a number the answer is 3.14.", "quantifier": "every sequence of texts, every list of particles, every list of numbers, every name that typeid gives the types", "why_tests_cant": "The example executes 30 fixed texts with three particles; the answers for repeated names, any number of updates and any list of numbers are statements about all of them.", "anchors": ["examples/compound/CompoundExample.cpp: 11-191"]}
{"id": "C92", "title": "The example with flags answers by a table, draws exactly the flags that were set, and never goes wrong", "statement": "For every sequence of texts the flags example answers exactly what a small table allows, with the value of the table; nothing is undefined besides C01. Neither the previous value, nor the order of the flags, nor repetitions matter when flags are set. Setting flags by their names in any case sets exactly their bits, the answer shows them in the order of the bits, and entity.draw then draws exactly these. That the answer always tells which flags are set is false: a number with bits that have no name is shown as nothing, but its named bits are drawn (witness).", "quantifier": "every sequence of texts, every previous value, every list of flags, every platform and every name that the compiler gives the enumeration", "why_tests_cant": "The example executes 11 fixed texts; all 2^32 values, all spellings of the names and lists of any length with repetitions cannot be enumerated.", "anchors": ["examples/flags/FlagsExample.cpp: 12-107", "examples/common/EnumSupport.h: 18-45"]}
{"id": "C93", "title": "The example with enumerations answers by a table, and exactly the reset modes outside 0..3 are undefined", "statement": "For every sequence of texts the enums example either answers exactly what a small table allows, with the variables of the table, or it goes wrong; it goes wrong exactly if a text is one of C01 or passes to abilities.set_ability a reset mode written as a number outside 0..3, even if the ability is refused. This rule is that of the C++ standard for an enumeration without a fixed underlying type. In sessions without such texts the reset mode stays in 0..3. Names in any case set the ability, the reset mode and the variable, and are shown as declared; the other variables keep their values. That only declared abilities are accepted is false (7 is accepted and shown as nothing), and so is that every text is safe (witnesses).", "quantifier": "every sequence of texts, every spelling of the names, every platform, every underlying type of ResetMode and every name that the compiler gives the enumerations", "why_tests_cant": "The example executes 8 fixed texts with declared names; the undefined conversions need numbers, which compilers usually convert without a visible sign, and the sequences of texts are infinitely many.", "anchors": ["examples/enums/EnumsExample.cpp: 12-87", "examples/common/EnumSupport.h: 18-45", "include/coil/detail/FunctorCaller.h: 25-43"]}
