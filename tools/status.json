{
 "C01": [
  "partial",
  "Holds while the table never rehashes with tombstones in a bad pattern; the unrestricted statement is refuted by C01_hashmap_refuted. Insert-only use (all the compiler does apart from #undef) is proved in full."
 ],
 "C02": [
  "partial",
  "No full probe while at least one slot is empty; the assert of rehash is reachable by deletions (C02_hashmap_assert_refuted)."
 ],
 "C03": [
  "proved",
  "The NULL sentinel after the last element is not maintained (C03_sentinel_refuted)."
 ],
 "C04": [
  "proved",
  "The decoder accepts overlong and surrogate encodings (C04_decode_strict_refuted)."
 ],
 "C05": [
  "proved",
  ""
 ],
 "C08": [
  "proved",
  "A trailing lone backslash reads past the NUL (C08_trailing_backslash_refuted); source files always end in a newline, so this needs a text without it."
 ],
 "C09": [
  "proved",
  "For texts ending in a newline, as read_file makes them; without it the tokenizer can leave the buffer (C09_safe_without_newline_refuted)."
 ],
 "C10": [
  "proved",
  "pp-numbers of the C grammar with an underscore are split (C10_ppnumber_underscore_refuted)."
 ],
 "C12": [
  "proved",
  "Also: over-large decimal literals wrap, and 0x0x5 is accepted."
 ],
 "C14": [
  "proved",
  "The text of an argument loses newlines between tokens (C14_newline_lost_refuted)."
 ],
 "C15": [
  "partial",
  "Proved for all prefixes but u8; with u8 the copy overflows the buffer (C15_u8_overflow_refuted)."
 ],
 "C16": [
  "proved",
  ""
 ],
 "C17": [
  "partial",
  "Termination, uniqueness and completeness for every table of object-like macros and every text without the token #. Missing: # in text or bodies, where the claim is false (C17_directive_refuted, C17_empty_expansion_refuted)."
 ],
 "C18": [
  "proved",
  ""
 ],
 "C19": [
  "proved",
  "For every well-nested structure whose lines have no extra tokens; a null directive before a line starting with a directive name is wrong (C19_null_directive_refuted)."
 ],
 "C20": [
  "partial",
  "False in general (C20_extra_tokens_refuted): skip_line does not skip. Only tokens in skipped groups are dropped."
 ],
 "C21": [
  "partial",
  "Proved for properly nested guards without #else; detection also accepts headers for which the claim is false (C21_guard_refuted)."
 ],
 "C22": [
  "partial",
  "First-match search proved for every history; the #include_next half is false (C22_include_next_refuted)."
 ],
 "C57": [
  "partial",
  "All body forms but __VA_OPT__, with macro-free arguments; and expansion of arguments in bodies of words and parameters. False in the cases of C57_refuted."
 ],
 "C61": [
  "partial",
  "The line of expanded tokens is proved; #line is off by one (C61_line_directive_refuted)."
 ],
 "C27": [
  "proved",
  "Arithmetic operands of binary operators; an enum is identified with int."
 ],
 "C28": [
  "proved",
  "For toycc's reading, where incomplete arrays and enums are compatible only with themselves; C11 differs there (C28_incomplete_array_refuted, C28_enum_refuted)."
 ],
 "C29": [
  "proved",
  "For sequences with at most one signed and one unsigned; repeated signs and the empty sequence are accepted (C29_repeated_sign_refuted)."
 ],
 "C30": [
  "proved",
  "Members of complete type, no int overflow of the bit count; the exceptions are refuted (C30_large_struct_refuted, C30_incomplete_member_refuted)."
 ],
 "C31": [
  "proved",
  ""
 ],
 "C32": [
  "partial",
  "Holds for structs that are not packed, with alignments at least the size of the bit-field's type; packed structs and small _Alignas are refuted."
 ],
 "C58": [
  "partial",
  "Holds when every member other than anonymous structs and unions has a name; an unnamed bit-field crashes the lookup (C58_unnamed_bitfield_refuted). C58_struct_ref_partial: the same for the chain of member nodes that struct_ref builds."
 ],
 "C59": [
  "proved",
  ""
 ],
 "C33": [
  "partial",
  "Proved for typed trees without floating point whose unsigned int subresults are converted before they are widened or tested and whose arithmetic fits the compiler's int64_t; the rest is false (C33_unsigned_wrap_refuted, C33_bool_refuted, C33_host_overflow_refuted, ...)."
 ],
 "C35": [
  "proved",
  "Given values are ints; INT_MAX itself is refuted (C35_int_max_refuted)."
 ],
 "C34": [
  "partial",
  "For trees without unsigned int wrap-around (grade_of, host_safe) the folded value is what the code computes; outside them the two disagree (C34_disagree_refuted)."
 ],
 "C37": [
  "partial",
  "Correct for all pairs but an unsigned type to the signed type of the same width and a wider type to an enum, where no code is emitted (C37_unsigned_to_int_refuted, C37_to_enum_refuted); the low bits are right for those as well."
 ],
 "C38": [
  "partial",
  "All integer, pointer and struct expressions (no floating point, no alloca, no statement expressions, no compare-and-swap), to the number of bits [qual] assigns; what qual leaves out is wrong (C38_unsigned_le_refuted and others)."
 ],
 "C39": [
  "proved",
  "Expressions: C39_stack, C39_depth. Statements: C39_statement_depth, and sp and the stack above it in C42_returns / C42_finishes. Struct arguments, alloca and VLAs are outside the model."
 ],
 "C40": [
  "partial",
  "Bits stored and value read back are right; the value of the assignment expression is refuted (C40_assign_value_refuted), and so are _Bool fields (C40_bool_field_refuted)."
 ],
 "C26": [
  "proved",
  "Accepted iff labels exist; each goto gets a label of its name (C26_target); that the jump does what C says is part of C42. Duplicate labels are accepted (C26_duplicate_label_refuted)."
 ],
 "C41": [
  "partial",
  "Proved for case constants in the range of int and of the promoted type (C41_dispatch, and whole switches in C42); constants outside int are truncated (C41_long_case_refuted, C41_unsigned_case_refuted), duplicates are accepted (C41_duplicate_case_refuted)."
 ],
 "C42": [
  "proved",
  "Simulation of all statements (return, end of body, divergence), with the expressions restricted as in C38 and switches as in C41; labels of the function distinct (duplicates are accepted, see C26). Statement expressions, computed goto and asm are not modelled."
 ],
 "C45": [
  "proved",
  ""
 ],
 "C60": [
  "proved",
  ""
 ],
 "C43": [
  "partial",
  "C43_frame_partial: slots inside the frame, disjoint, at multiples of their alignment relative to the frame pointer. C43_alignment_refuted: addresses themselves are not aligned above 8 because frames are only multiples of 8."
 ],
 "C44": [
  "partial",
  "C44_scalars: every list of integer, pointer and floating point parameters; C44_arguments_partial: signatures with structs and long doubles that fit the registers; C44_variadic: variadic scalars. The C44_..._refuted theorems give signatures where caller and callee disagree."
 ],
 "C63": [
  "proved",
  "Functions with up to eight integer/pointer parameters plus stack arguments as in fun_ok; struct arguments and results are in C44."
 ],
 "C47": [
  "proved",
  "The numeric labels 1 and 2 of the assembly are given distinct names. A later local-variable or temporary access uses fp or sp, so C43 applies unchanged."
 ],
 "C48": [
  "partial",
  "The buffer bound holds for all names. The round trip holds for names without a number sign after a backslash, a colon, a newline or a final backslash; refuted for a backslash before a number sign, and prerequisites are not quoted at all (C48_prerequisites_refuted)."
 ],
 "C49": [
  "proved",
  "Exit by exit() or return from main; a signal that kills the driver is outside the model."
 ],
 "C50": [
  "proved",
  "Only the -MD dependency file may be written before a failure. A failing write (full disk) is not modelled."
 ],
 "C51": [
  "partial",
  "Refuted for -I dir and -idirafter dir in two words and for -D, -U, -MQ as the last word; proved for all other command lines."
 ],
 "C64": [
  "partial",
  "Refuted for assembly inputs and for -c with a library; proved for C sources, objects, archives and libraries."
 ],
 "C23": [
  "proved",
  "Up to 20,000,000 scope operations (the bound of the hash table theorems). Lookup of functions at file level is C23_file_level."
 ],
 "C24": [
  "partial",
  "Only needed functions are emitted and calls never dangle, for all inputs; exactly the needed ones when no file-level initializer names a static inline function. With such an initializer the function can be lost (C24_initializer_refuted, C24_redeclaration_refuted)."
 ],
 "C25": [
  "partial",
  "At most one tentative definition stays and none beside a real one. That one always stays is false: two adjacent tentative definitions drop each other (C25_one_stays_refuted)."
 ],
 "C53": [
  "partial",
  "Scaling of p+n, n+p, p-n and division of p-q proved for operands without the miscompiled forms (plain); p+q and struct operands rejected. Refuted: &a + 1 moves one element; i += p, 5 - p and p * q are accepted."
 ],
 "C54": [
  "partial",
  "Values, stores and single evaluation of the address proved for every integer and pointer type and bit-fields (++/-- postfix: not bit-fields, not _Bool). Refuted for _Bool b++ and b--. Floating point objects: C74."
 ],
 "C65": [
  "partial",
  "All 25 expression forms over integers, pointers, arrays, structs and calls (arguments and results scalar); excluded forms (plain) are the miscompiled ones, each refuted by a witness. Struct arguments and results, statement expressions and floating point are not in the source language of this theorem."
 ],
 "C36": [
  "partial",
  "image bits, relocations and existence proved for every type tree; floating point initializers, 64-bit bit-fields, union bit-fields and members after a bit-field without initializer not covered; zero elsewhere refuted: the buffer comes from malloc and is not cleared"
 ],
 "C46": [
  "proved",
  "lines of one object, and the whole file read by an assembler model (symbols, sections, alignment, common symbols); refuted for objects of less than 8 bytes that hold an address"
 ],
 "C56": [
  "partial",
  "tree and code of local initializers for every type tree without floating point; values and zeroes when the initializers do not look at the object"
 ],
 "C52": [
  "partial",
  "All of the expression grammar except postfix operators after a compound literal and sizeof of an unparenthesised one (refuted); statement expressions are not modelled; type names and initializer lists are single tokens. Commas associate to the right (no effect on the meaning: C52_comma)."
 ],
 "C55": [
  "partial",
  "proved for int (any number of harts, operators, operand types, interleavings, failing store-conditionals, interference from outside; and a hart left alone finishes), on a sequentially consistent machine, from the point where address and operand are in their temporaries; that the code before that point, run without interference, puts them there is C55_operands_partial. Refuted for unsigned with the top bit set, long, char (neighbours overwritten), temporaries more than 2048 bytes from the frame pointer, members of structures (lost update), atomic_fetch_add (returns the new value)"
 ],
 "C62": [
  "partial",
  "proved for every tree, with two exceptions that are refuted: declarators without a name that start with a parameter list (int (int)) are rejected, and parameters that are variable length arrays are not adjusted; also refuted: negative and huge array sizes are accepted, arrays of functions, parameters without specifiers, () means no parameters. Specifiers and array sizes are single tokens"
 ],
 "C66": [
  "partial",
  "Proved for every initializer outside the cases listed beside the specification, each of which is refuted by a C66_*_refuted theorem; excess elements and members of structures without a name have their own theorems. The theorems about memory (local, code, global) are for scalar parts; the global one leaves out bit-fields and needs a zeroed buffer (C36)."
 ],
 "C67": [
  "partial",
  "From tokens to instructions for expressions without the forms C65 excludes. Missing: braced compound literals, _Generic, the atomic builtins, floating point, struct arguments and results; type names are single tokens; functions are called by name or through a variable."
 ],
 "C68": [
  "partial",
  "Complete for the tokenizer (C68_tokens, C68_unambiguous, C68_round_trip). The composition with preprocessor and parser is for text without macros, directives, type names, strings and character constants. C68_digraph_refuted: digraphs are not recognized."
 ],
 "C69": [
  "partial",
  "Full for statements without asm and without initializers in braces inside expressions (compound literals as in C52). C69_asm_refuted and C69_asm_empty_refuted: an asm statement does not consume its semicolon, so it cannot stand before else. Declarators in the trees are pointers to the type or the type itself (the others are in DeclModel). From characters (C69_source_partial): without macros, type names, strings and asm."
 ],
 "C70": [
  "partial",
  "For bodies without braces in initializers, static, extern and typedef declarations inside, declarators other than pointers to a type, asm and goto *p; expressions as in C65/C67 (no floating point, no structs by value in calls); case constants without casts and sizeof. Scopes, shadowing, declarations in for, loops, switch, goto and infinite executions are covered."
 ],
 "C71": [
  "partial",
  "Missing: what C70 misses; variable arguments and calls without prototype; struct results; ?: without middle operand of a type of less than 8 bytes; static and inline functions; initializers of global objects; only executions that return (finite). Premises on the compiled functions (fun_ok: supported nodes, stack cost) are checkable by computation."
 ],
 "C72": [
  "partial",
  "long double, calls with anything floating in them, structure assignments and bit-fields with something floating inside are not covered. The conversions to _Bool, from and to enum types, from unsigned results of a float conversion to 64 bits, and && or || with a floating second operand after an integer are wrong: C72_to_bool_refuted, C72_to_unsigned_refuted, C72_from_enum_refuted, C72_logand_refuted."
 ],
 "C73": [
  "partial",
  "Arithmetic in float, float constants that are not written exactly (other than a float object's whole initializer), long double, unsigned long to double, and floating values in conditions, comparisons and logical operators are not covered; eight of these are refuted with witnesses. Rounding of written constants (strtold) is a parameter."
 ],
 "C74": [
  "partial",
  "missing: calls, a ?: b, floating values assigned to bit-fields, long double; integer expressions with something floating inside when they are pointer arithmetic, comparisons of pointers with integers, elements and members found that way, or structures. Postfix ++ and -- on floating objects change the object as they should (C74_postfix_partial) but do not have its old value in general (C74_postfix_refuted); operands C forbids but the compiler takes: C74_constraints_refuted."
 ]
}