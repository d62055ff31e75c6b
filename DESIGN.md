# Formal model of toycc (henryZe/toycc) in Rocq

toycc is a C compiler (a chibicc descendant) that emits RISC-V 64 assembly.
This directory holds a model of its code in Gallina, specifications written
independently of the model, and machine-checked theorems connecting the two.

## Layout

For each area `X` of the code there are up to four files in `rocq/theories`:

* `XModel.v` - the transcription of the C functions. Every definition cites
  file and lines of `/repo`; every simplification is stated there. No proofs.
* `XSpec.v`  - the specification: what C11 / POSIX / the user expects, written
  without reference to the model (no import of `XModel` except for data types).
* `XProofs.v` - lemmas.
* `XProps.v` - the property theorems only (`exact lemma`), each with
  `Print Assumptions` and a concrete `Example` meeting its hypotheses.

Theorem names start with the property id of `properties.jsonl`. The suffix
`_partial` marks a theorem weaker than the property (the comment says what is
missing). The suffix `_refuted` marks a proof, on a concrete witness, that the
full property is false of the code as written: these are findings.

## Conventions

* C `int`/`long` values are `Z`; wrap-around is written out where the code can
  wrap. Pointers into a buffer are list suffixes or indices.
* Undefined behaviour (out-of-bounds read, division by zero in the compiler,
  use of an exhausted buffer) and `error_tok`/`exit` are distinct outcomes.
* Recursion which is not structural uses fuel, with a distinct `OutOfFuel`
  outcome which the theorems exclude, giving an explicit sufficient bound.

## Plan per property

| id | model | proof |
|----|-------|-------|
| C01 C02 | hashmap.c with arbitrary hash values, open addressing, tombstones, rehash | invariant over histories, refinement to a function map; refutation for put-over-tombstone |
| C03 | strarray_push with explicit capacity | induction over pushes |
| C04 C05 | encode/decode_utf8, UTF-16/32 literal readers | bit arithmetic by cases; list induction |
| C06 C07 C08 | in-place filters as list functions plus index-level read/write bounds | induction on the text |
| C09 C10 C11 | the tokenizer loop over bytes | invariant of the loop, prefix lemmas |
| C12 | convert_pp_int incl. strtoul | digits fold vs. positional value; case analysis on suffix/base |
| C13 C14 | escapes, string scanner, quote_string | induction; round trip |
| C15 | getStringKind, join_adjacent_string_literals | list induction; refutation for u8 |
| C16 C17 | hidesets, expand_macro (object-like), preprocess2 loop | set lemmas; well-founded measure |
| C18 C57 | read_macro_args, subst, paste, stringize | nesting invariant; spec by structural translation |
| C19 C20 C21 | the conditional stack, skip_cond_incl, skip_line, detect_include_guard | structured conditionals flattened to tokens; refutations |
| C22 | search_include_paths with cache | invariant on the cache |
| C23 | scope stack over the map of C01 | induction over operations |
| C24 | mark_live as DFS over a reference graph | soundness + completeness wrt. reachability |
| C25 | scan_globals | refutation + restricted theorem |
| C26 C60 | goto/label lists, break/continue context | induction |
| C27 C28 C29 | type.c, declspec counter | case analysis / induction on types |
| C30 C31 C32 | struct_decl, union_decl, align_to/down | invariant of the layout loop |
| C33 C34 | eval2 | induction on trees vs. C semantics; refutations |
| C35 | enum_specifier | induction |
| C36 C46 | write_gvar_data, emit_data | induction on initializer trees |
| C37 C38 C39 C40 | gen_expr / cast / load / store over a RISC-V machine | simulation proof |
| C41 C42 | gen_stmt over the same machine with labels | simulation proof |
| C43 C44 | assign_lvar_offsets, push_args, prologue | invariant of the offset loops, joint induction on parameters |
| C45 | label counters | injectivity of decimal printing |
| C47 | builtin_alloca | machine execution |
| C48 | quote_makefile | parse/print round trip |
| C49 C50 C51 | driver state machine with failing steps | invariant over executions |
| C52 | expression parser over tokens | print/parse round trip |
| C53 C54 C58 C59 | new_add/new_sub, to_assign, new_inc_dec, struct_ref, generic_selection | desugaring correctness |
| C55 | LR/SC machine with threads (AtomSpec, AtomModel, AtomWholeProps) | per-hart weakest preconditions, invariant over all schedules |
| C56 | lvar_initializer | induction on initializer trees |
| C62 | declarators, abstract declarators and parameter lists over tokens (Decl*): array sizes and specifiers are single tokens | completeness over all C11 trees taken, soundness for whatever is accepted, unambiguity, print/parse round trip |
| C66 | the parsing of initializers over tokens (List*, with ListMoreProps for excess elements and structures without a name): expressions and constant indices are single tokens | the position of C11 6.7.9 as a separate semantics; the parser follows it, by induction on the size of the initializer and on the type; Place*: composed with C56 and C36, so the memory of a local variable (also as run by the generated code) and the image of a global one hold the parts |
| C63 | functions: prologue, call, return over the same machine | simulation, induction on the depth of calls |
| C64 | the linker command line | case analysis over input lists |
| C65 | new_add, new_sub, to_assign, new_inc_dec, mk_* composed: source expression (calls included) to typed tree | induction on source expressions against an independent C11 semantics; functions are arbitrary, and agree on the two memories |
| C67 | primary, postfix, unary: names, numbers, strings, members, signatures (Front*) composed with ParseModel, NodeModel and GenModel | C52, C23, C12, C58, C65 and C38 chained; trees up to the association of commas mean the same |
| C68 | the tokenizer loop (LexModel), preprocess2 on text without macros, is_keyword and the tokens of the parser (SourceModel) | induction over the spelling of the text; composed with C52 |
| C69 | stmt, compound_stmt, expr_stmt, asm_stmt, declaration with plain declarators (BlockModel) | induction over the grammar, over fuel (termination, soundness) and over trees (printing); composed with C68 |
| C70 | C52, C67, C69 put together with declarations, scopes, const_expr, StmtModel and GenModel (BodyModel) | scopes by induction over the body; renaming of objects; forward simulation between the execution of the written body and that of the compiled one (finite and infinite); composed with C42 |
| C71 | function, create_param_lvars, the loop of parser (ProgModel) put together with BodyModel, FrameModel and compile_program | invariant of the scopes between declarations; renumbering of the locals; the functions of the source, whose objects may be anywhere, refined by those of C63 by induction on the depth of calls; composed with C63 |
| C72 | float and double in gen_expr, load, store, cast, cmp_zero, push/pop of fa0 (GenModel) | simulation over a machine with floating point registers; the invariant says of each expression in which register its value is; refutations for the conversions that are wrong |
| C73 | eval_double and the floating part of eval2 (FevalModel), the scalars of write_gvar_data | the folded value is the value C gives (FloatSpec) by induction on the expression; binary32 to binary64 and back is the identity, integers below 2^53 are rounded once; refutations for what the evaluator gets wrong |
| C74 | the builders of C65 (NodeModel) for operands of type float and double | a separate C11 semantics of source expressions (FsrcSpec); induction on the expression, using C65 for the parts without floating point; composed with C72 |

## Trusted base

What has to be believed for the theorems to say something about toycc:

1. **Coq 8.16.1**: its kernel (and `vm_compute`, used for witnesses). No plugins, no
   functors, no module types, no change of kernel flags.
2. **Axioms: none.** `Print Assumptions` follows every theorem in the `*Props.v` files
   and prints `Closed under the global context` for each. The standard library modules
   used (List, ZArith, Lia, Zify*, Bool, Ascii/String, Permutation, Sorting, Wf) bring
   no axiom into any theorem.
3. **The transcriptions** (`*Model.v`, list below): that they are what the C code does.
   The code was read, never run. Each definition cites its lines and says where it
   simplifies.
4. **The machines and languages of the specifications**, which come from no part of
   /repo:
   * `RvSpec` - RV64IM on a list of instructions and labels, one flat memory, functions
     outside the program as an arbitrary relation; and of F and D the instructions the
     compiler prints for float and double (registers fa0, fa1, .. with NaN boxing,
     rounding to nearest even, no exception flags).
   * `FpSpec` - the encodings of IEEE 754 binary32 and binary64. The arithmetic itself is
     that of the standard library, Coq.Floats.SpecFloat (definitions only: no axiom and
     no primitive float). A NaN result is the canonical one.
   * `FloatSpec` - C11 conversions and operators on float and double.
   * `FevalSpec` - which constant expressions with float and double C73 is about.
   * `FsrcSpec` - C11 types and values of source expressions with float and double.
   * `AtomSpec` - several harts with lr.w/sc.w, sequentially consistent; sc may fail
     at any time; a store by another hart to the reserved bytes clears the reservation.
   * `ValSpec`, `NodeSpec`, `ElabSpec`, `StmtSpec`, `FunSpec`, `InitSpec`, `EvalSpec`,
     `TypeSpec`, `LayoutSpec` - C11 on LP64 (6.3, 6.5, 6.7.2.1, 6.7.9, 6.8). Undefined
     behaviour is `None` / an explicit outcome and the theorems promise nothing there.
   * `DataSpec` - what an assembler does with sections, symbols and data directives.
   * `LexSpec`, `SpellSpec`, `LitSpec`, `TextSpec`, `PpSpec`, `ParseSpec`, `BlockSpec`, `BodySpec`, `UnicodeSpec` - the lexical
     grammar, translation phases, macro rules and expression grammar of C11; UTF-8.
   * `DrvSpec` - how make reads a dependency file, what a driver's steps may leave.
   * `FrontSpec` - what the leaves of an expression mean: scopes, constants, members.
   * `HashMapSpec`, `ScopeSpec`, `FrameSpec`, `AllocaSpec`, `GenSpec` - small vocabularies.
   Some specifications share *data types* with the model (type trees `ty`, typed
   expression trees `node`, tokens); none calls a model function except where the
   comment says so (`LexSpec` shares the ctype classes, identifier tables and the UTF-8
   decoder, the latter proved right in C04).

### Modelled, by file of /repo

| file | modelled in | not modelled |
|------|-------------|--------------|
| hashmap.c | HashMapModel (all) | the value of the hash (arbitrary); hashmap_test |
| unicode.c | UnicodeModel (1-188) | display_width |
| string.c | TextModel (strarray_push, capacity) | format() |
| tokenize.c | TextModel (787-884 filters), LexModel (46-727), LitModel (418-501), SourceModel (is_keyword, convert_pp_tokens) | error printing, reading files, strtold (floating literals are tokens without a value) |
| preprocessor/preprocess.c | PpModel, LitModel (stringizing, string concatenation) | #pragma other than once; __VA_OPT__ in C57; dates in __DATE__/__TIME__/__TIMESTAMP__ |
| preprocessor/predefined_macro.c | PpModel (dynamic macros) | the table of constants |
| type.c | TypeModel, NodeModel (add_type) | long double beyond the type computed |
| parser/declarator.c | TypeModel (declspec counter), LayoutModel (struct/union), EvalModel (enum, is_const_expr), see the C62 row for declarators | attributes other than packed, typeof, VLA sizes |
| parser/parser.c | NodeModel (trees, elab), ParseModel (expression grammar), BlockModel (statement grammar), BodyModel (bodies: names, declarations and statements), ProgModel (function definitions, parameters, file scope), FrontModel (names, numbers, members), StmtModel (statements, goto), ScopeModel (mark_live, scan_globals), TypeModel (_Generic), AtomModel (atomic op=) | what asm statements do, statement expressions, computed goto, K&R parameters |
| parser/initializer.c | InitModel (531-737: initializers once parsed), ListModel (5-529: parsing) | |
| parser/scope.c | ScopeModel | - |
| parser/common.c | EvalModel (19-192), FevalModel (49-241 with float and double) | long double constants; how strtold rounds (a parameter of FevalModel) |
| codegen.c | GenModel (expressions, casts, loads, stores, with float and double), StmtModel, FrameModel (frames, argument passing), AllocaModel, AtomModel (ND_CAS), DataModel (emit_data) | long double, floating point arguments and results of calls (their places are in FrameModel), struct arguments inside GenModel (their places are in FrameModel), ND_EXCH, VLAs, thread-local storage |
| main.c | DrvModel | the table of default include directories, -### printing |
| utils.c | DataModel (llog2), LayoutModel (align_to/down) | error printing |
| include/*.h | stdatomic.h: the fetch macros in C55_fetch_add_refuted | the other headers |

### Testing the theorems

`seeded/LOG.jsonl` records, one per line, the wrong programs tried: the definition
edited, the edit, the claim it breaks, the theorems that then failed to compile, and the
theorems tightened because they did not.
