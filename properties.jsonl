{"id": "C01", "title": "Hash map is a finite map", "statement": "After any sequence of hashmap_put/hashmap_delete calls on an initially empty map, hashmap_get(k) returns the value of the last put of k that was not followed by a delete of k, and NULL if there is none.", "quantifier": "every finite history of put/delete operations, every key byte string, every value", "why_tests_cant": "The failing histories depend on hash collisions, tombstones and rehash points; the state space of histories is unbounded.", "anchors": ["hashmap.c:get_entry", "hashmap.c:get_or_insert_entry", "hashmap.c:hashmap_put2", "hashmap.c:hashmap_delete2", "hashmap.c:rehash"]}
{"id": "C02", "title": "Hash map operations never crash", "statement": "No history of hashmap_put/get/delete calls reaches the unreachable() after a full probe cycle nor the assertion in rehash: every probe finds the key, a tombstone or an empty slot.", "quantifier": "every finite history of operations and every assignment of hash values to keys", "why_tests_cant": "Needs a load-factor invariant over all histories and all capacities.", "anchors": ["hashmap.c:get_entry", "hashmap.c:get_or_insert_entry", "hashmap.c:rehash"]}
{"id": "C03", "title": "String array appends", "statement": "A StringArray built by any sequence of strarray_push calls holds exactly the pushed strings in push order, and every write is inside the allocated capacity.", "quantifier": "every finite sequence of pushes", "why_tests_cant": "Capacity doubling boundaries recur without bound.", "anchors": ["string.c:strarray_push"]}
{"id": "C04", "title": "UTF-8 round trip", "statement": "encode_utf8 of any code point up to U+10FFFF followed by decode_utf8 gives back the code point and consumes exactly the bytes produced, whatever bytes follow; distinct code points have distinct encodings and no encoding is a prefix of another.", "quantifier": "all code points and all following byte strings", "why_tests_cant": "1.1 million code points times arbitrary suffixes.", "anchors": ["unicode.c:encode_utf8", "unicode.c:decode_utf8"]}
{"id": "C05", "title": "UTF-16 and UTF-32 literal contents", "statement": "The u\"...\" / U\"...\" literal contents are the UTF-16 (with surrogate pairs) / UTF-32 encoding of the code points of the source text: decoding the array recovers the code point sequence.", "quantifier": "all strings of code points", "why_tests_cant": "All code points in all combinations.", "anchors": ["tokenize.c:read_utf16_string_literal", "tokenize.c:read_utf32_string_literal"]}
{"id": "C06", "title": "Newline canonicalisation", "statement": "canonicalize_newline maps every \\r\\n and every lone \\r to one \\n, leaves every other byte alone, never writes past the read position and is idempotent.", "quantifier": "every source file content", "why_tests_cant": "All byte strings; in-place aliasing must be safe for each.", "anchors": ["tokenize.c:canonicalize_newline"]}
{"id": "C07", "title": "Line splicing keeps line count", "statement": "remove_backslash_newline deletes backslash-newline pairs, keeps every other non-newline byte in order, and keeps the number of newlines so that line numbers after the spliced logical line are unchanged.", "quantifier": "every source file content", "why_tests_cant": "All byte strings.", "anchors": ["tokenize.c:remove_backslash_newline"]}
{"id": "C08", "title": "Universal character names", "statement": "convert_universal_chars replaces each \\uXXXX / \\UXXXXXXXX by the UTF-8 bytes of that code point, leaves text without \\u and \\U alone, and never writes past its read position nor past the buffer.", "quantifier": "every source file content", "why_tests_cant": "All byte strings; in-place safety needs an inequality for every code point.", "anchors": ["tokenize.c:convert_universal_chars", "tokenize.c:read_universal_char"]}
{"id": "C09", "title": "Tokens tile the source", "statement": "When tokenize succeeds, the tokens are non-empty, in source order and non-overlapping, everything between consecutive tokens is white space or comments, and tokenization terminates for every NUL-terminated buffer without reading past it.", "quantifier": "every source buffer", "why_tests_cant": "All byte strings.", "anchors": ["tokenize.c:tokenize"]}
{"id": "C10", "title": "Maximal munch", "statement": "Each punctuator token is the longest punctuator of the language that is a prefix of the remaining input; each identifier token extends to the longest run of identifier characters.", "quantifier": "every source buffer position", "why_tests_cant": "All byte strings following each punctuator.", "anchors": ["tokenize.c:read_punct", "tokenize.c:read_ident"]}
{"id": "C11", "title": "Token line numbers", "statement": "The line number of each token is one plus the number of newlines before its first byte; at_bol is set exactly for tokens that are first on their line; has_space exactly for tokens preceded by white space or a comment.", "quantifier": "every source buffer", "why_tests_cant": "All byte strings.", "anchors": ["tokenize.c:add_line_number", "tokenize.c:tokenize"]}
{"id": "C12", "title": "Integer literal value and type", "statement": "convert_pp_int gives an integer literal its mathematical value and the first type in the C11 6.4.4.1 list for its base and suffix that can represent it, whenever the value fits in 64 bits.", "quantifier": "every digit string in bases 2, 8, 10, 16 with every suffix", "why_tests_cant": "Unbounded digit strings; boundaries at 2^31, 2^32, 2^63 for each base/suffix.", "anchors": ["tokenize.c:convert_pp_int"]}
{"id": "C13", "title": "String and character escapes", "statement": "Reading a string literal decodes each escape sequence to the byte C prescribes and ends at the first unescaped quote; the closing quote found by the scanner is the one at which decoding stops, so decoding never runs past the literal.", "quantifier": "every literal body", "why_tests_cant": "All byte strings between the quotes.", "anchors": ["tokenize.c:read_escaped_char", "tokenize.c:string_literal_end", "tokenize.c:read_string_literal"]}
{"id": "C14", "title": "Stringizing round trip", "statement": "The string literal produced for the # operator, __FILE__ and similar (quote_string) tokenizes back to exactly the quoted text.", "quantifier": "every NUL-free and newline-free byte string", "why_tests_cant": "All byte strings, including every mix of quotes and backslashes.", "anchors": ["preprocessor/preprocess.c:quote_string", "preprocessor/preprocess.c:new_str_token", "preprocessor/preprocess.c:stringize"]}
{"id": "C15", "title": "Adjacent string literal concatenation", "statement": "Adjacent string literals are concatenated to a single array whose contents are the contents of the pieces in order with one terminator, and literals with incompatible prefixes are rejected.", "quantifier": "every run of adjacent string literals", "why_tests_cant": "Unbounded runs of pieces and prefixes.", "anchors": ["preprocessor/preprocess.c:join_adjacent_string_literals", "preprocessor/preprocess.c:getStringKind"]}
{"id": "C16", "title": "Hidesets are sets", "statement": "hideset_union / intersection / contains implement finite-set union, intersection and membership of macro names.", "quantifier": "all hidesets", "why_tests_cant": "All lists of names.", "anchors": ["preprocessor/preprocess.c:hideset_union", "preprocessor/preprocess.c:hideset_intersection", "preprocessor/preprocess.c:hideset_contains"]}
{"id": "C17", "title": "Object-like macro expansion terminates and is complete", "statement": "For every set of object-like macros, however mutually recursive, preprocessing any token sequence terminates, and the output holds no identifier that names a macro unless that name is being suppressed by its own expansion.", "quantifier": "every macro table and every token sequence", "why_tests_cant": "Termination is a property of all inputs.", "anchors": ["preprocessor/preprocess.c:expand_macro", "preprocessor/preprocess.c:preprocess2"]}
{"id": "C18", "title": "Macro arguments", "statement": "Arguments of a function-like macro call are split exactly at the commas that are not inside nested parentheses; joining the arguments with commas restores the text between the outer parentheses, each argument is parenthesis-balanced, and the variadic tail takes the rest.", "quantifier": "every token sequence following a macro name", "why_tests_cant": "Unbounded nesting.", "anchors": ["preprocessor/preprocess.c:read_macro_arg_one", "preprocessor/preprocess.c:read_macro_args"]}
{"id": "C19", "title": "Conditional inclusion selects one group", "statement": "For every well-nested #if/#elif/#else/#endif structure the tokens kept are those of the first group whose condition is true (or the #else group), recursively; skipped groups have no effect.", "quantifier": "every nesting of conditional groups and every truth assignment", "why_tests_cant": "Unbounded nesting depth.", "anchors": ["preprocessor/preprocess.c:skip_cond_incl", "preprocessor/preprocess.c:skip_cond_incl2", "preprocessor/preprocess.c:preprocess2"]}
{"id": "C20", "title": "Extra tokens after a directive are dropped", "statement": "Extra tokens at the end of #ifdef/#ifndef/#undef/#else/#endif/#include lines are warned about and ignored: they never reach the output.", "quantifier": "every directive line and trailing tokens", "why_tests_cant": "All trailing token sequences.", "anchors": ["preprocessor/preprocess.c:skip_line"]}
{"id": "C21", "title": "Include guard optimisation is transparent", "statement": "If a header is detected as include-guarded by macro M, then re-including it while M is defined would have contributed no tokens, so skipping it is unobservable.", "quantifier": "every header token sequence", "why_tests_cant": "All header contents.", "anchors": ["preprocessor/preprocess.c:detect_include_guard", "preprocessor/preprocess.c:include_file"]}
{"id": "C22", "title": "Include path search", "statement": "A relative include resolves to the first directory of the search list (user directories in order, then system) that holds the file, independently of what was included before; #include_next continues after the directory where the current file was found.", "quantifier": "every history of includes and every file system", "why_tests_cant": "Result cache makes the answer history-dependent.", "anchors": ["preprocessor/preprocess.c:search_include_paths", "preprocessor/preprocess.c:search_include_next"]}
{"id": "C23", "title": "Lexical scoping", "statement": "Name lookup finds the innermost visible declaration (the latest in that scope), and leaving a block restores exactly the bindings visible before entering it; variables and tags are separate name spaces.", "quantifier": "every sequence of enter/leave/declare operations", "why_tests_cant": "Unbounded nesting and shadowing.", "anchors": ["parser/scope.c:find_var", "parser/scope.c:find_tag", "parser/scope.c:enter_scope", "parser/scope.c:leave_scope", "parser/scope.c:enter_scope"]}
{"id": "C24", "title": "Dead static inline functions", "statement": "A function is emitted iff it is reachable from a root (a function that is not static inline) along references; in particular every function referenced by an emitted function is emitted.", "quantifier": "every reference graph, including cyclic ones and dangling names", "why_tests_cant": "All graphs.", "anchors": ["parser/parser.c:mark_live", "parser/parser.c:parser", "codegen.c:emit_text"]}
{"id": "C25", "title": "Tentative definitions", "statement": "After tentative definitions are merged, every identifier that had at least one definition has exactly one emitted definition, and it is the non-tentative one if there is one.", "quantifier": "every sequence of global declarations", "why_tests_cant": "All interleavings of declarations.", "anchors": ["parser/scope.c:scan_globals"]}
{"id": "C26", "title": "Goto resolution", "statement": "Every goto is bound to the label of the same name in its function; an undeclared label is an error; forward and backward gotos behave alike.", "quantifier": "every function body's lists of gotos and labels", "why_tests_cant": "All arrangements of labels and gotos.", "anchors": ["parser/parser.c:resolve_goto_labels"]}
{"id": "C27", "title": "Usual arithmetic conversions", "statement": "For every pair of arithmetic operand types, the common type computed is the one required by C11 6.3.1.8 on LP64; it is symmetric and at least as wide as both.", "quantifier": "all pairs of types (and all derived array/function/pointer operands)", "why_tests_cant": "Pairs are many; derived types are unbounded.", "anchors": ["type.c:get_common_type", "type.c:usual_arith_conv"]}
{"id": "C28", "title": "Type compatibility is an equivalence", "statement": "The compatibility test used for _Generic and __builtin_types_compatible_p is reflexive and symmetric on all types, distinguishes signedness, array lengths, parameter lists and variadicity, and ignores typedef copies.", "quantifier": "all pairs of types, arbitrarily nested", "why_tests_cant": "Types are an unbounded recursive structure.", "anchors": ["type.c:is_compatible", "type.c:copy_type"]}
{"id": "C29", "title": "Declaration specifiers are order independent", "statement": "A sequence of basic type specifiers denotes a type iff its multiset is one of those listed in C11 6.7.2, independently of order; all other sequences are rejected.", "quantifier": "every finite sequence of specifier keywords", "why_tests_cant": "Unbounded sequences and all permutations.", "anchors": ["parser/declarator.c:declspec"]}
{"id": "C30", "title": "Struct layout", "statement": "Non-bit-field members of a struct are placed at increasing, properly aligned, non-overlapping offsets; the size is a multiple of the alignment and covers every member; packed structs have no padding.", "quantifier": "every member list with power-of-two alignments", "why_tests_cant": "All member lists.", "anchors": ["parser/declarator.c:struct_decl", "codegen.c:align_to"]}
{"id": "C31", "title": "Union layout", "statement": "A union's size covers each member, is a multiple of the union's alignment, which is at least each member's alignment; every member is at offset 0.", "quantifier": "every member list", "why_tests_cant": "All member lists.", "anchors": ["parser/declarator.c:union_decl"]}
{"id": "C32", "title": "Bit-field layout", "statement": "Each bit-field lies within one properly aligned storage unit of its declared type, inside the struct, and the bits of distinct members are disjoint.", "quantifier": "every list of members and bit-field widths", "why_tests_cant": "All mixes of widths and types.", "anchors": ["parser/declarator.c:struct_decl", "parser/declarator.c:align_down"]}
{"id": "C33", "title": "Integer constant expressions", "statement": "A constant expression (array size, case label, enum value, #if condition, initializer) evaluates to the value that C semantics on LP64 gives to it.", "quantifier": "every constant expression tree", "why_tests_cant": "All expression trees and operand values.", "anchors": ["parser/common.c:eval2", "parser/common.c:eval"]}
{"id": "C34", "title": "Compile-time and run-time evaluation agree", "statement": "A constant expression folded by the compiler has the same value as the code generated for the same expression.", "quantifier": "every constant expression tree", "why_tests_cant": "All expression trees.", "anchors": ["parser/common.c:eval2", "codegen.c:gen_expr"]}
{"id": "C35", "title": "Enumerators", "statement": "Each enumerator without '=' has the value of its predecessor plus one (the first has zero), and each with '=' has the given value.", "quantifier": "every enumerator list", "why_tests_cant": "Unbounded lists.", "anchors": ["parser/declarator.c:enum_specifier"]}
{"id": "C36", "title": "Global initializer image", "statement": "The bytes emitted for an initialised global are the little-endian representations of its initializers at the offsets of the initialised members, and zero everywhere else.", "quantifier": "every type and initializer", "why_tests_cant": "All nested aggregates.", "anchors": ["parser/initializer.c:write_gvar_data", "parser/initializer.c:gvar_initializer", "parser/initializer.c:write_buf", "codegen.c:emit_data"]}
{"id": "C37", "title": "Integer conversion code", "statement": "The code emitted for a cast between integer types converts a register holding any value of the source type to the C conversion of that value to the destination type.", "quantifier": "every pair of integer types and every 64-bit value", "why_tests_cant": "2^64 values for each pair.", "anchors": ["codegen.c:cast", "codegen.c:getTypeId"]}
{"id": "C38", "title": "Integer expression code is correct", "statement": "Executing the code generated for an integer expression leaves in a0 the value C prescribes, for every expression tree whose evaluation is defined.", "quantifier": "every typed expression tree, every initial machine state", "why_tests_cant": "Unbounded trees times 2^64 operand values.", "anchors": ["codegen.c:gen_expr", "codegen.c:cast", "codegen.c:push", "codegen.c:pop", "type.c:add_type"]}
{"id": "C39", "title": "Stack discipline", "statement": "The code for every expression and statement leaves sp at the value it had, never touches memory at or above the entry sp except through program lvalues, and the compiler's internal depth counter always equals the real displacement (so the assertion depth == pre_depth never fires).", "quantifier": "every expression and statement tree", "why_tests_cant": "Unbounded trees.", "anchors": ["codegen.c:push", "codegen.c:pop", "codegen.c:gen_expr", "codegen.c:gen_stmt"]}
{"id": "C40", "title": "Bit-field access code", "statement": "Storing v to a bit-field then loading it gives v converted to the bit-field's width and signedness; no other bit of the storage unit changes; the value of the assignment expression is the stored value.", "quantifier": "every offset/width that fits in its unit, every old unit content, every value", "why_tests_cant": "2^64 contents times all geometries.", "anchors": ["codegen.c:gen_expr (ND_MEMBER, ND_ASSIGN)"]}
{"id": "C41", "title": "Switch dispatch", "statement": "The code for a switch jumps to the case (range) containing the controlling value, else to default, else past the end.", "quantifier": "every list of disjoint case ranges and every controlling value", "why_tests_cant": "2^64 values, unbounded case lists.", "anchors": ["codegen.c:gen_stmt (ND_SWITCH)", "parser/parser.c:stmt"]}
{"id": "C42", "title": "Control-flow code", "statement": "The code emitted for if/for/while/do/block/goto/break/continue/return executes the same sequence of side effects as the structured C semantics and terminates when it does.", "quantifier": "every statement tree and every initial state", "why_tests_cant": "Unbounded trees and executions.", "anchors": ["codegen.c:gen_stmt", "parser/parser.c:stmt"]}
{"id": "C43", "title": "Local variable frame", "statement": "Local variables get pairwise disjoint, aligned slots strictly inside the frame, and stack parameters get slots above the saved registers.", "quantifier": "every list of locals and parameters", "why_tests_cant": "All lists of sizes and alignments.", "anchors": ["codegen.c:assign_lvar_offsets"]}
{"id": "C44", "title": "Caller and callee agree on argument locations", "statement": "For every signature the location (register or stack slot) where a call puts each argument is the one where the compiled callee looks for it.", "quantifier": "every parameter type list", "why_tests_cant": "Unbounded lists mixing integer, floating and aggregate types.", "anchors": ["codegen.c:push_args", "codegen.c:gen_expr (ND_FUNCALL)", "codegen.c:assign_lvar_offsets", "codegen.c:emit_text"]}
{"id": "C45", "title": "Labels are unique", "statement": "All local labels generated in a compilation are pairwise distinct, so every branch has one target.", "quantifier": "every sequence of label allocations", "why_tests_cant": "Unbounded programs.", "anchors": ["parser/common.c:new_unique_name", "codegen.c:count"]}
{"id": "C46", "title": "Emitted data directives", "statement": "The .byte/.quad directives emitted for a global have total size equal to the object's size and reproduce the image, with a relocated pointer at each relocation offset.", "quantifier": "every image and sorted relocation list", "why_tests_cant": "All images.", "anchors": ["codegen.c:emit_data"]}
{"id": "C47", "title": "alloca", "statement": "The alloca code returns an 8-byte aligned block of at least the requested size, disjoint from all live temporaries and frame slots, preserving the live temporaries.", "quantifier": "every request size, temporary area and machine state", "why_tests_cant": "All sizes and states.", "anchors": ["codegen.c:builtin_alloca"]}
{"id": "C48", "title": "Makefile quoting", "statement": "quote_makefile's output, parsed with make's rules, names exactly the original target; the output buffer is never overrun.", "quantifier": "every target string", "why_tests_cant": "All strings with backslashes, spaces, tabs, # and $.", "anchors": ["main.c:quote_makefile"]}
{"id": "C49", "title": "Temporary files never survive", "statement": "Whatever step fails, on any normal or error exit every temporary file created by the driver is removed.", "quantifier": "every run of the driver: every set of inputs and every failing child process", "why_tests_cant": "All failure points.", "anchors": ["main.c:create_tmpfile", "main.c:cleanup", "main.c:main", "main.c:run_subprocess"]}
{"id": "C50", "title": "No output on failure", "statement": "If compilation of a file fails at any stage, the requested output file is not created or truncated by that compilation.", "quantifier": "every failure point of cc1", "why_tests_cant": "Every crash point.", "anchors": ["main.c:cc1", "main.c:main"]}
{"id": "C51", "title": "Command line", "statement": "Every option taking an argument is recognised in both the attached and separated spelling where documented, its argument is never taken as an input file, and input files are processed in command-line order.", "quantifier": "every command line", "why_tests_cant": "All argument vectors.", "anchors": ["main.c:parse_args", "main.c:take_arg"]}
{"id": "C52", "title": "Operator precedence and associativity", "statement": "The expression parser assigns every token sequence of the C expression grammar the tree given by C precedence and associativity; printing a tree with minimal parentheses and parsing it gives the tree back.", "quantifier": "every expression tree", "why_tests_cant": "Unbounded trees.", "anchors": ["parser/parser.c:expr", "parser/parser.c:assign", "parser/parser.c:conditional", "parser/parser.c:logor", "parser/parser.c:mul", "parser/parser.c:unary"]}
{"id": "C53", "title": "Pointer arithmetic", "statement": "p+n, n+p, p-n scale by the pointee size and p-q divides by it; combinations C forbids are rejected.", "quantifier": "every pointee type and operand values", "why_tests_cant": "All sizes and values.", "anchors": ["parser/parser.c:new_add", "parser/parser.c:new_sub"]}
{"id": "C54", "title": "Increment and compound assignment values", "statement": "A op= B stores (T)(A op B) evaluating A's address once and has that value; A++ / A-- yields the old value of A and stores the new one.", "quantifier": "every arithmetic type and every value", "why_tests_cant": "All values of all types.", "anchors": ["parser/parser.c:to_assign", "parser/parser.c:new_inc_dec"]}
{"id": "C55", "title": "Atomic read-modify-write", "statement": "Concurrent compound assignments on an _Atomic object by any number of threads are linearizable: no update is lost under any interleaving.", "quantifier": "every number of threads and every schedule", "why_tests_cant": "All schedules, including failing store-conditionals.", "anchors": ["parser/parser.c:to_assign", "codegen.c:gen_expr (ND_CAS)"]}
{"id": "C56", "title": "Local initializers", "statement": "After a local variable's initializer code runs, every initialised element has its value and every other byte of the object is zero.", "quantifier": "every type and initializer", "why_tests_cant": "All nested aggregates.", "anchors": ["parser/initializer.c:lvar_initializer", "parser/initializer.c:create_lvar_init"]}
{"id": "C57", "title": "Macro parameter substitution", "statement": "Replacing a function-like macro's body substitutes each parameter by its fully expanded argument except next to # and ##, pastes adjacent tokens, and handles __VA_OPT__ and the GNU comma rule.", "quantifier": "every macro body and argument list", "why_tests_cant": "Unbounded bodies.", "anchors": ["preprocessor/preprocess.c:subst", "preprocessor/preprocess.c:paste", "preprocessor/preprocess.c:expand_macro"]}
{"id": "C58", "title": "Member lookup in anonymous aggregates", "statement": "A member access s.x, with x possibly inside nested anonymous structs/unions, denotes the first member of that name in declaration order and its address is the sum of the offsets on the path.", "quantifier": "every nesting of anonymous aggregates", "why_tests_cant": "Unbounded nesting.", "anchors": ["parser/parser.c:get_struct_member", "parser/parser.c:struct_ref"]}
{"id": "C59", "title": "_Generic selection", "statement": "A generic selection evaluates to the association whose type is compatible with the controlling expression's type, else the default association, else it is rejected.", "quantifier": "every association list", "why_tests_cant": "Unbounded lists in any order.", "anchors": ["parser/parser.c:generic_selection"]}
{"id": "C60", "title": "Switch parsing and loop nesting", "statement": "break and continue always jump to the innermost enclosing construct that accepts them, and stray ones are rejected.", "quantifier": "every nesting of loops and switches", "why_tests_cant": "Unbounded nesting.", "anchors": ["parser/parser.c:stmt"]}
{"id": "C61", "title": "__LINE__ names the line of the outermost macro use", "statement": "A __LINE__ that comes out of macro expansions has the line number of the macro use in the source, and #line N makes the following line count as N.", "quantifier": "every nesting of macros and every position", "why_tests_cant": "Unbounded expansions.", "anchors": ["preprocessor/preprocess.c:expand_macro", "preprocessor/predefined_macro.c:line_macro", "preprocessor/preprocess.c:read_line_marker"]}
{"id": "C63", "title": "Function definitions and calls, recursion included", "statement": "Calling a compiled function by the calling convention, with any arguments, from any depth of recursion, returns the value its body returns in C, leaves memory as the body leaves it, preserves the caller's frame and saved registers, and comes back to the instruction after the call.", "quantifier": "every program of integer/pointer functions whose calls terminate, every argument list and every call depth", "why_tests_cant": "Recursion depth and call graphs are unbounded.", "anchors": ["codegen.c:emit_text", "codegen.c:store_args", "codegen.c:gen_expr (ND_FUNCALL)", "codegen.c:gen_stmt (ND_RETURN)"]}
{"id": "C64", "title": "What is linked", "statement": "When linking, the linker is run once, after everything else, on the inputs in command-line order, each source replaced by the object made from it; when not linking (-c, -S, -E) it is not run.", "quantifier": "every list of inputs and options and every outcome of the steps", "why_tests_cant": "Unbounded command lines and failures at any step.", "anchors": ["main.c:main", "main.c:run_linker", "main.c:get_file_type"]}
{"id": "C65", "title": "Expressions mean what C says", "statement": "For every expression C gives a type, a value and an effect, the compiler accepts it, gives it that type, and the printed code computes that value and has that effect on the program's memory; nothing else changes but the compiler's own temporaries.", "quantifier": "every expression of integer, pointer, array and struct type, every initial memory", "why_tests_cant": "Unbounded expressions times all memories; promotions and conversions interact.", "anchors": ["parser/parser.c:assign", "parser/parser.c:conditional", "parser/parser.c:unary", "parser/parser.c:postfix", "parser/parser.c:to_assign", "type.c:add_type", "type.c:usual_arith_conv", "codegen.c:gen_expr"]}
{"id": "C62", "title": "Declarators give the identifier the type C says", "statement": "For every declaration or type name, however pointers, arrays, functions, parentheses and parameter lists are nested, the identifier gets the type of C11 6.7.6, parameters are adjusted, and the tokens after the declarator are left; every type has a declaration that is read back as it.", "quantifier": "every declarator tree, every specifier and everything that can follow", "why_tests_cant": "Declarators nest without bound, and are read inside out.", "anchors": ["parser/declarator.c:declarator", "parser/declarator.c:abstract_declarator", "parser/declarator.c:type_suffix", "parser/declarator.c:array_dimension", "parser/declarator.c:func_params", "parser/declarator.c:pointers"]}
{"id": "C66", "title": "Initializers reach the parts C says", "statement": "For every initializer (braces or elided braces, designators, string literals, unions, any nesting) every part of the object gets the last expression that C11 6.7.9 assigns to it, unions remember the member last initialized, everything else stays without initializer, and the tokens after it are left. The memory of a local variable and the image of a global one therefore hold exactly these values, converted to the types of their parts, and zeros elsewhere.", "quantifier": "every initializer and every type of the object", "why_tests_cant": "Lists and types nest without bound, and designators move the position anywhere.", "anchors": ["parser/initializer.c:initializer2", "parser/initializer.c:designation", "parser/initializer.c:array_initializer1", "parser/initializer.c:array_initializer2", "parser/initializer.c:struct_initializer1", "parser/initializer.c:struct_initializer2", "parser/initializer.c:union_initializer", "parser/initializer.c:string_initializer", "parser/initializer.c:count_array_init_elements"]}
{"id": "C67", "title": "Expressions from tokens to code", "statement": "For every sequence of tokens that the C grammar derives as an expression, in any context of declarations: if its names (looked up in the innermost scope), integer constants (6.4.4.1), strings, sizeof operands, members (through anonymous structs and unions) and calls have a meaning in C, the compiler consumes exactly these tokens and the instructions it prints for them compute the value C gives to the expression and have its effect on memory, whatever the values of the variables.", "quantifier": "every token sequence, every context of declarations, every memory, every code position", "why_tests_cant": "Each stage (parsing, lookup, typing, desugaring, code generation) is tested on examples only; the composition quantifies over all expressions, contexts and memories.", "anchors": ["parser/parser.c:expr", "parser/parser.c:primary", "parser/parser.c:postfix", "parser/parser.c:unary", "parser/parser.c:struct_ref", "parser/parser.c:funcall", "parser/scope.c:find_var", "type.c:add_type", "codegen.c:gen_expr"]}
{"id": "C68", "title": "Lexical analysis is complete and unambiguous", "statement": "For every source text that is spelled by lexical elements of C (identifiers, pp-numbers, punctuators by longest match, string literals with every prefix and escape, character constants; white space and comments anywhere between them), the tokenizer accepts it and yields exactly these elements in order, with their text, value, width and contents; so a text has only one such reading, and elements written with spaces between them are read back. Without macros and directives these are the tokens the parser gets, and an expression written out as characters is parsed back to its tree.", "quantifier": "every source text and every sequence of lexical elements", "why_tests_cant": "Texts are unbounded, and the neighbourhood of every two elements matters for where one ends.", "anchors": ["tokenize.c:tokenize", "tokenize.c:read_ident", "tokenize.c:read_punct", "tokenize.c:read_string_literal", "tokenize.c:read_char_literal", "tokenize.c:is_keyword", "tokenize.c:convert_pp_tokens", "preprocessor/preprocess.c:preprocessor"]}
{"id": "C69", "title": "The tree of a statement is the one of the grammar of C", "statement": "For every statement and every function body of the grammar of C11 6.8 (labels, case and case ranges, default, blocks with declarations, if, else, switch, for with an expression or a declaration, while, do, goto, break, continue, return, expression statements), the parser comes to the end of it and no further, and its tree is the one the grammar gives; an else belongs to the nearest if that has none; no sequence of tokens has two trees and none is the beginning of another, except for a missing else; everything accepted is in the grammar; and every tree written out is read back.", "quantifier": "every sequence of tokens, every tree of statements of any depth", "why_tests_cant": "Statements nest without bound, and where a statement ends depends on everything before it.", "anchors": ["parser/parser.c:stmt", "parser/parser.c:compound_stmt", "parser/parser.c:expr_stmt", "parser/parser.c:asm_stmt", "parser/declarator.c:declaration"]}
{"id": "C70", "title": "A function body means what C says, from its tokens to its instructions", "statement": "For every function body in the grammar of C11 whose names resolve, by the scope rules of C, to parameters, to objects of the body and to what is declared outside: the compiler reads all of it; every object declared in the body gets a local variable of its own, different from those of all other declarations (also of the same name in other blocks) and from the compiler's temporaries; and the body as compiled returns the same value, ends, or runs forever exactly when the written body does, with the same effect on the program's memory and the same calls; the instructions do the same.", "quantifier": "every sequence of tokens of a body, every environment of declarations, every memory, every execution (finite or not)", "why_tests_cant": "Which object a name is depends on all declarations before it, and the executions of a loop are unbounded.", "anchors": ["parser/parser.c:compound_stmt", "parser/parser.c:stmt", "parser/declarator.c:declaration", "parser/scope.c:enter_scope", "parser/initializer.c:lvar_initializer", "parser/parser.c:const_expr"]}
{"id": "C71", "title": "A program does what C says, from its declarations and the tokens of its functions to its instructions", "statement": "For every sequence of file-scope declarations (objects, prototypes, function definitions whose bodies are tokens in the grammar of C11 and mean something by the rules of C): the compiler makes one function for each definition, with its name, parameter and result types; and if the machine enters the code of one of them according to the calling convention with enough stack, then it comes back to the caller with the value which the function as written returns, and the memory of the program is what it leaves, whichever functions call each other, recursively or not, wherever the objects of the calls are and whatever they contain at first.", "quantifier": "every program, every function of it, every argument list, every memory, every depth of calls", "why_tests_cant": "The executions of recursive functions are unbounded, and a wrong frame slot or scope shows only for particular combinations of declarations, temporaries and calls.", "anchors": ["parser/parser.c:function", "parser/parser.c:create_param_lvars", "parser/parser.c:parser", "parser/scope.c:new_gvar", "parser/scope.c:find_func", "codegen.c:assign_lvar_offsets", "codegen.c:emit_text"]}
{"id": "C72", "title": "Expressions with float and double compute what IEEE 754 and C say", "statement": "For every expression over integers, pointers, float and double (constants, variables, members, dereferences, assignments, conversions, arithmetic, comparisons, negation, !, &&, ||, ?:, the comma) that has a value: the instructions leave in fa0 the value, as a correctly rounded number of its format, or in a0 if its type is not floating, store in memory what the assignments in it store, and restore the stack. The operands of an operator with one floating operand are converted to the common format.", "quantifier": "every expression, every state of memory and registers, every bit pattern including infinities, NaNs, subnormals and signed zeros", "why_tests_cant": "There are 2^64 doubles and unboundedly many expressions; a conversion that is wrong for one range of values, or a register clobbered while an operand waits on the stack, shows only for particular combinations.", "anchors": ["codegen.c:gen_expr", "codegen.c:load", "codegen.c:store", "codegen.c:cast", "codegen.c:cmp_zero", "codegen.c:__push", "codegen.c:__pop", "type.c:get_common_type", "type.c:usual_arith_conv"]}
{"id": "C73", "title": "Static initializers with float and double get the value C says", "statement": "For every constant expression over float and double constants and integer constant expressions (arithmetic in double, conversions between double and the integer types, negation, ?:, the comma): the bytes the compiler writes for a static object of type float or double are those of the value of the expression, rounded as IEEE 754 says and converted to the type of the object; where an integer is wanted it is the integral part; without floating point the result is that of C33. What C says and the compiler does not do is refuted: narrowing to float, arithmetic in float, comparisons and conditions on floating values, unsigned long to double, double rounding of large integers.", "quantifier": "every constant expression, every bit pattern", "why_tests_cant": "The value is computed by another evaluator than the code, with the arithmetic of the host; whether two roundings give the result of one depends on the bits.", "anchors": ["parser/common.c:eval_double", "parser/common.c:eval2", "parser/common.c:eval", "parser/initializer.c:write_gvar_data"]}
{"id": "C74", "title": "An expression with float and double means what C says, from its source to its instructions", "statement": "For every expression as written over integers, pointers, float and double (constants, variables, elements, members, arithmetic with operands of different types, comparisons, !, &&, ||, ?:, the comma, casts, assignment, compound assignment, prefix ++ and --) that is well typed and has a value by the rules of C11: it is accepted; its tree has its type, its value, rounded in the common format at every operator, and its effect on memory; an object that is modified is found once; and the instructions leave that value in fa0 or a0. Postfix ++ and -- change a floating object by 1, once, but their value is the new one changed back and rounded, not the old one; some operands C forbids are accepted.", "quantifier": "every expression, every memory, every bit pattern of the floating objects", "why_tests_cant": "The conversions depend on the types of all operands, and a rounding too many or in the wrong format changes the value only for particular bit patterns.", "anchors": ["parser/parser.c:new_add", "parser/parser.c:new_sub", "parser/parser.c:to_assign", "parser/parser.c:new_inc_dec", "parser/parser.c:conditional", "type.c:add_type", "type.c:usual_arith_conv", "type.c:get_common_type", "codegen.c:gen_expr"]}
