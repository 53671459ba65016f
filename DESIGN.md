# Formal model of substrait-go in Rocq: design

Sections 1 and 2 were written before the proofs and are the plan.  Section 3 is the
trusted base, section 4 says which parts of the code are modelled, section 5 lists what
was proved for each property (regenerated by `tools/design.py`), section 6 the findings,
section 7 how the theorems were tested against wrong programs.

## 1. Approach

The model is a set of total, computable Gallina functions, one per Go function
(or per method family), under `rocq/theories`.  Only the Coq standard library
is used.  Conventions (all defined in `Base.v`):

* Go `error` returns are `Err`, a Go panic (nil dereference, index out of range,
  failed type assertion, explicit `panic`) is the separate outcome `Panic`, so
  "does not panic" and "is refused" are different statements.
* Fixed-width integers are `Z`; where the property concerns overflow or
  truncation the wrap is written explicitly (`wrap64`, `wrap32`, ...).
* Slices are lists.  Where aliasing is what the property is about (append into
  spare capacity, in-place mutation through a shared pointer) the model has an
  explicit heap.
* Go maps are association lists / finite functions; where iteration order
  matters the order is an explicit argument that theorems quantify over.
* Protobuf messages are Gallina records/inductives with the fields the code
  reads or writes.  The wire codec itself is not modelled.

Per area there is a model file (`XxxModel.v`, definitions only, each citing
`/repo` file and lines), a specification file (`XxxSpec.v`, written without the
model's helpers), a proof file (`XxxProofs.v`), and a property file
(`XxxProps.v`) containing only the final theorems, examples showing the
hypotheses are met, and `Print Assumptions`.

When the English property is false of the code, the theorem on the largest true
domain is proved and the failure is proved as `..._refuted` with a witness.

## 2. Properties: what is modelled and how it is proved

| id | model | proof |
|----|-------|-------|
| C01 | `types.Type`, `proto.Type` as mutual inductives, TypeFromProto/TypeToProto | nested structural induction; refutation for interval_compound |
| C02 | `Equals` methods | induction, reflect: equals = true <-> t = u |
| C03 | WithNullability pure law, plus heap model for IntervalDayType | case analysis; refutation of non-mutation |
| C04 | nestedNameCount, NamedStruct.String name consumption, root check | induction against an inductive spec of the depth-first field list |
| C05 | FuncDefArgType terms and Match* | induction against an "instance of" relation |
| C06 | count checks | arithmetic |
| C07 | validateAnyTypeBinding | invariant over the binding map; soundness and completeness against existence of a substitution |
| C08 | EvaluateTypeExpression nullability part | induction on argument lists |
| C09 | type_derivation Expr evaluation | agreement with a relational big-step semantics over Z |
| C10 | unwrapAnyTypeWithName | induction against a "first occurrence" relation |
| C11-C13 | decimal byte functions over Z and byte lists | Z arithmetic, induction on bytes |
| C14 | precision conversions | Z div/mod |
| C15 | literals from/to proto | nested induction |
| C16-C17 | reference segments, masks | induction |
| C18-C20 | expression trees | nested induction; Visit quantified over all functions |
| C21 | lambda builder stack | induction on lambda nesting |
| C22-C24 | extension set as maps | invariant over any list of operations |
| C25 | Collection.Load | state machine invariant, frame theorem |
| C26-C28 | function registry, dialect, type strings | filter characterisation; permutation invariance / refutation |
| C29, C31, C39 | RelCommon mapping, RemapHelper | composition by induction; heap model for leaf aliasing |
| C30 | join schemas | case analysis with per-column specification |
| C32, C33 | relation proto round trip, join keys | induction on relation trees |
| C53, C54 | whole plans: round trip, declared calls | from C23 and C32; induction on messages |
| C55 - C58 | type texts: lexer, grammar (as trees with the tokens they cover), visitor, printers | the printed tokens determine the tree: induction on types, on trees and on operator chains; the lexer is the longest match of the lexical rules, the trees and visits are the phrases of an attribute grammar (TextGrammarSpec.v) |
| C59 | extended expressions: entries read one after another with the set that grows | the round trip of single expressions (C18) lifted over the entries, for the set as it is at each of them |
| C60 | the Go library's calendar (day number of a date, date of a day number), `Date.ToTimeString`, `NewDateFromString` | the calendar is specified by the day after; both directions proved to follow it by induction on the day number, with division equations; texts by induction on their digits |
| C61 | `time.Parse` and `Format` for the layouts used; printers of times and timestamps, constructors from texts | a grammar of texts (digits, clock, offset) as inductive relations; the reader proved equivalent to it; printed texts characterised to the letter and shown to be in the grammar |
| C62 | the interval regular expression, `strconv.ParseFloat`, float64 subtraction, multiplication and conversion, `Duration.String` | float64 values as integer multiples of 2^-1074 with round-to-nearest-even; error bounds of each step by arithmetic; a grammar of durations as inductive relations |
| C63 | the decimal pattern, `apd.NewFromString`, then the encoder of C11 | a grammar of decimal texts as inductive predicates; the parser inverted onto it; exactness from C11 |
| C64 | the visitor of test files, from the generated parser's tree on | a specification of what each part of a tree says, as inductive predicates; read exactly if something is said |
| C65 | `VisitArgument`, `VisitLiteral`, list literals, data types, the final change of type; `ParseFloat` and the conversion to float32 are parameters | each visitor inverted onto predicates over texts built on the specifications of C60 to C63; lists by induction on nesting |
| C66 | the three forms of aggregate calls, tables, columns and their arguments | cell by cell predicates; column types from arguments as a fold, inverted; equivalence for whole calls |
| C67 | the calls test cases give: URN and name, options, arguments, the fallback to a fitting function, the columns | exact characterisation through C47 (calls by name) and C16 (references); first fitting function by induction over the registry's list |
| C68 | the decoding of declared arguments, the words of compound names, the user-defined types signatures mention | exact outcome of each argument and of lists of them; words by induction over declared types, through C05/C06 (matching), C47 (calls by name) and C25 (loading) |
| C69 | the String methods of test cases and literal values | texts specified letter by letter as relations that leave one text each; invariant of all that is read (C64-C66) by induction over arguments, rows and groups; reading back through C41, C60-C62, C65 |
| C70 | `strconv.ParseFloat` of decimal texts and float64 to float32, as `getFloatLiteral` uses them | grammar of number texts as relations, reading shown equal to it by induction over texts; nearest binary number with ties to even as a minimum over all numbers of that many digits; bit patterns by exponent and fraction |
| C71 | `decimalBytesToString` and apd's `String` (formats F and E) | the text as a relation between number, scale and letters, shown to hold of the printed text and of no other; what it says by the grammar of C63, so reading back follows from C63 and C11 |
| C72 | `HasParameterizedParam` and `GetParameterizedParams` of all declared types | the dependence on a name as an inductive relation, equivalent to the answer by induction on the type; the reported list as a relation, shown to hold of that list and no other |
| C73 | `String` of all expressions, literals and subqueries; direct calls and calls through fmt kept apart | the text as a relation between an expression and letters, built from the relations of its parts; by induction on the expression it holds of the printed text and no other, and printing panics exactly where it holds of none |
| C74 | `AggregateFunction` with its slices in a heap of arrays: `Clone`, `SetArg`, writes and appends to `Sorts`, options | refinement to plain values: invariant that no array belongs to two functions, kept by every operation, by induction on the program |
| C75 | `GetDefaultCollection` over `sync.OnceValues` and `sync.Once`: goroutines as program counters, one shared read or write per step, any number of callers, any schedule | invariant over all schedules (fresh, one goroutine loading, done; who holds the lock), and a decreasing measure for progress |
| C76 | the six constructors of variants made on the fly with their options, the answers of a variant (ID, Match, MatchAt, ResolveType, Intermediate, argument counts), `GetVariants` and `ResolveURN` of the three kinds of declared functions; the type parser is a parameter | equivalence of each constructor with a relation on the fields of its result; panics exactly characterised; matching through the model of C05 to C07 |
| C77 | the token rules of the test file lexer as regular expressions, decoded from its automaton, matched by derivatives; longest match, precedence, skipping and recovery | the look of each kind of token as a predicate on texts, shown equal to its rule; the lexer shown equal to an inductive division of the text; names by computation over all rules and characters |
| C78 | the grammar of test files, one function per rule, then the visitor of C64 | the grammar as inductive relations between trees and token lists; soundness and completeness of each function under conditions on what follows; hence the tree is unique |
| C79 | builders as numbered objects, the methods that make and change them, Build over the objects with a bound on nested calls | the last call giving a value as a predicate on histories, by induction from the end; an inductive relation from objects to the terms of C21, and that Build over objects returns what the term builds to, whatever the bound |
| C80 | registries as values with an extension set, a converter and maybe the number of a shared map of decoders | mutually inductive predicates on histories for sharing decoders and having any, proved equivalent to equal map numbers by induction from the end; the decoder found is the first registered in the history |
| C81 | SetNullability of every declared type as the type afterwards, and which result types are the declared object | an inductive relation of types that differ in nullability, equivalence by induction; the other methods are proved unchanged or changed in that alone |
| C82 | aggregate builders and relations as holders of slices in shared arrays with capacities | an invariant of every reachable state: spare room of a builder is seen by no one else; each call is proved against plain lists |
| C83 | relations as numbered objects with inputs and a mapping; building, copying and remapping them | every reachable state is acyclic; schemas by well-founded induction against an inductive predicate; each call adds an object, changes a read or nothing |
| C84 | builders with one extension set each, the plans that hold it, and requests to either | induction on the history: the set of each builder is the one that the requests concerning it give, then C22 |
| C34 | PlanWithBindings | list characterisation, refutation |
| C35, C36 | grouping sets | induction, bit masks vs subsets |
| C37 | parameter bindings | induction on relation trees |
| C38 | CopyWithExpressionRewrite | case analysis over all rewrite functions |
| C40 | slice heap (array, offset, len, cap) | refutation plus positive theorem when no sharing |
| C41, C42 | literal constructors | arithmetic with wrap64; list induction |
| C43, C44 | builder checks | list induction; refutation |

None of the properties is considered inexpressible.

## 3. Trusted base

* Coq 8.16.1's kernel (`coqc`, and `coqchk` in the gate).
* `Print Assumptions`, which every `*Props.v` file runs after its theorems, answers
  "Closed under the global context" for every theorem in MANIFEST.json: no theorem
  rests on an axiom, not even one of the standard library.  (The gate's `coqchk` run
  over all loaded libraries lists seven axioms of `Coq.ssr.ssrunder`.  They come with
  the ssreflect library that `lia`'s dependencies load; no theorem uses them.)
* Only the standard library is imported; no plugin beyond those it loads, no functor or
  module type, no `Admitted`, no disabled check.
* That the model says what the Go code does.  Every definition cites the lines it
  models; it was written by reading, the code was not run.
* That the specifications (`*Spec.v`, and the statements in `*Props.v`) say what
  properties.jsonl says in English.

## 4. What is modelled and what is not

| Go package | modelled | not modelled |
|---|---|---|
| types | `types.go` (all concrete types, proto conversion, equality, nullability, names, short strings, record types, named structs, sub-second time conversions), interval and precision types, `parameterized_*.go`, `any_type.go`, `type_derivation.go`, `integer_parameters`, printing of all of these, `types/parser` (lexer, grammar, visitor, `ParseType`) | the ANTLR runtime: the generated parser is taken to answer some tree of the grammar for the tokens if there is one, and an error otherwise; the lexer is modelled as longest match on ASCII texts |
| extensions | `extension_mgr.go` (set, collection, default collection), `validation.go`, `variants.go`, matching and result types of `simple_extension.go` | YAML decoding itself (the model starts from the decoded file), file access |
| expr | `decimal_util.go`, `literals.go`, interval literals, `field_reference.go`, `expression.go`, `functions.go`, `lambda.go`, `builder.go`, `utils.go`, extended expressions, `String` methods | what fmt writes after catching a panic |
| literal | constructors of `utils.go`; `time.Parse`, `Format`, the calendar, `regexp`, `ParseFloat`, `Duration.String` for the layouts used, from the Go library's source (float64 to int64 out of range as on amd64) | the apd library itself: its parser and its `String` are modelled after its documentation (`DecTextModel.v`, `DecPrintModel.v`) |
| plan | `common.go`, `relations.go`, `plan.go`, `builders.go`, `subquery.go`, `internal` | `String` methods of relations and plans, hints and advanced extensions beyond being passed through |
| functions | all files | reading of YAML text |
| testcases | parser: the lexer and parser of test files (`TestLexModel.v`, `TestParseModel.v`), visitor.go, parse.go, aggregate calls, types of nodes.go (`TestCaseModel.v`); the calls they give, nodes.go (`TestInvokeModel.v`); declared arguments, simple_extension.go and validation.go (`DeclModel.v`); printing of test cases, nodes.go and literals.go (`TestPrintModel.v`); floats (`FloatModel.v`) | the ANTLR runtime that interprets the two automata (its prediction, its recovery after syntax errors, which are errors of the file), hexadecimal floats (a parameter; the grammar has none), changes of an interval's precision by more than 18 digits, walking directories |

Simplifications that hold everywhere:

* The protobuf wire codec and YAML decoder are not modelled: messages are trees.  Where
  the codec matters (an empty repeated field inside a set message cannot be told from an
  absent one) the loss is a function of its own (`wire_common`).
* Nil sub-messages that cannot come off the wire are not modelled unless the code tests
  for them or builds them.
* Error values and messages are not distinguished: a failure is `Err`.
* Fixed-width integers are unbounded except where stated (`wrap`, `in_int`).
* Goroutines: but for the default collection (C75) the code has no synchronization and
  promises none; no other theorem is about concurrent use.
* The type parser occurs as a function argument (`canon`: short name of the type an
  argument name parses to), over which the theorems quantify.
* The expression reader is used with a subquery converter set, as `plan` sets it
  (PlanModel); ExprModel also covers the case without.

## 5. Results

<!-- results -->
| id | property | status | theorems | remarks |
|---|---|---|---|---|
| C01 | Type messages survive a decode/encode round trip | proved | 7 in TypesProps.v | Round trips proved in both directions on their exact domains; the unrestricted claim is refuted for interval_compound (C01_interval_compound_refuted). |
| C02 | Type equality is structural and an equivalence relation | proved | 8 in TypesProps.v | Structural equality proved for all types that can be part of a plan; refuted for enum argument types and unset UDT parameters. |
| C03 | WithNullability changes the nullability and nothing else | proved | 8 in TypesProps.v | Value law proved for all types; non-mutation proved for all kinds but interval_day, for which it is refuted. |
| C04 | Depth-first field names: count and root-name validation | proved | 5 in TypesProps.v | Count, printing and root-name validation proved for all schemas. |
| C05 | Parameterized argument types accept exactly their instances | proved | 8 in SigProps.v | Exact characterisation of both matchers for every declared type and argument type; nested nullability of function types, UDT names and wide UDT integers are refuted (findings). |
| C06 | Argument-count acceptance of a function signature | proved | 12 in SigProps.v | Exact acceptance for all signatures and calls, with and without shared integer parameters; counts exact; refuted: position bound, too-few-arguments panic, argument-count bounds, CONSISTENT with minimum over one. |
| C07 | anyN type variables are bound consistently | proved | 6 in SigProps.v | The check accepts exactly the calls for which a typing of the visible variables exists; refuted for variables inside function types and for signatures with shared integer parameters. |
| C08 | MIRROR / DECLARED_OUTPUT / DISCRETE nullability of function results | proved | 8 in SigProps.v | Result nullability exact for each mode; only the outer nullability changes; user-defined references decode to the declared type; refuted for extra INCONSISTENT arguments under MIRROR. |
| C09 | Return-type derivations evaluate to their denotation | proved | 14 in SigProps.v | Evaluation sound and complete for the arithmetic semantics, program order, variable binding and conflicts exact, result exact without program; refuted: precision arithmetic panics, composite final types, nested variables. |
| C10 | An any-typed result takes the type of the argument that binds it | proved | 3 in SigProps.v | The result is exactly the first occurrence of the variable; refuted for variables inside user-defined types. |
| C11 | Decimal encode/decode round trip | proved | 5 in DecimalProps.v | Exact acceptance, exact bytes/precision/scale and round trip for every decimal whose exponent is not near the int32 bounds; refuted at those bounds (int32 overflow). |
| C12 | 16-byte two's complement negation and sign | proved | 3 in DecimalProps.v | Negation and decoding are two's complement arithmetic, for byte strings of any length (negate) and all 16-byte values. |
| C13 | Changing precision and scale of a decimal preserves its value | proved | 4 in DecimalProps.v | Succeeds exactly when the number is representable at the target, and then keeps the number; zero needs precision > scale (finding). |
| C14 | Sub-second precision conversions | partial | 11 in TimeProps.v | Exact round-trip condition, exact finer/coarser conversion from the epoch on; consistency is refuted before the epoch and durations are refuted near overflow. |
| C15 | Literals survive a proto round trip | proved | 15 in LitProps.v | Exact round-trip, encodability and readability conditions for every literal and every literal message; Go-value constructor exact; refuted: negative sub-second times, year-month and microsecond intervals, type variations on times, typed nulls of compound intervals, empty messages. |
| C16 | Field references resolve to the type at their path | proved | 13 in ExprProps.v | Path types, reference constructors, reading and writing of paths exact for all types and paths; flattening keeps only the head of element steps (refuted). |
| C17 | Mask expressions survive a proto round trip | proved | 2 in ExprProps.v | Mask round trips exact in both directions. |
| C18 | Scalar expressions survive a proto round trip | proved | 13 in ExprProps.v | An expression survives the wire exactly under the stated condition on its parts; read calls are declared; incomplete messages refused; refuted: switch without else, unknown functions renamed or panicking. |
| C19 | Visit rewrites children in place-preserving, copy-on-write fashion | proved | 8 in ExprProps.v | Visit characterised for every expression kind and every visitor; refuted: multi-or-list options. |
| C20 | Expression equality | proved | 10 in ExprProps.v, LitProps.v | Equality exact, reflexive, symmetric and transitive on expressions without NaN, nil parts and with fixed argument counts; refuted outside: scalar arguments, if without else, window bounds type, set comparisons. Literals: exact. |
| C21 | Lambda parameter references resolve to the enclosing lambda they name | proved | 6 in ExprProps.v | Parameter types exact; builders build exactly what they describe and restore the scope on success and error; built references are scoped. |
| C22 | Extension anchors form a stable bijection | proved | 5 in ExtSetProps.v | Exact numbering, bijection, decoding, stability and URN registration for every history of requests (fewer than 2^32). |
| C23 | Extension sets survive a round trip through a plan | partial | 6 in ExtSetProps.v | Round trip proved for every consistent set and every map iteration order whenever ToProto returns; ToProto panics for sets with a type and two type variations (exact condition proved, refutation recorded). |
| C24 | Anchors requested on a set read from a plan do not collide | partial | 4 in ExtSetProps.v | The claim is refuted for tables with gaps; the exact effect of a request on any set and the gap-free case are proved. |
| C25 | Loading an extension file is all-or-nothing and never disturbs others | proved | 8 in LoadProps.v | All-or-nothing, exact lookups and frame proved for every history of loads; the simple-name promise is refuted for aggregates. |
| C26 | Function registry lookup by name and argument count | proved | 5 in FuncProps.v | Exact lookups for every registry; disagreement with the signature's own count rule recorded as refutation. |
| C27 | Dialect localization does not depend on iteration order | proved | 6 in FuncProps.v | Exact success condition for every iteration order, exact answers, order independence of successful runs; refuted with a name conflict. |
| C28 | Local type strings translate back and forth | proved | 15 in FuncProps.v | Both readers and the writer exact; round trips for simple, fixed-length and decimal types; refuted: nullability, precision types, year-month intervals, u!, duplicate kinds, shared interval_day object. |
| C29 | Remap composes output mappings | proved | 7 in PlanProps.v | Exact for every relation and every sequence of remaps; refuted: a leaf relation is itself changed. |
| C30 | Join output schema per join type | proved | 6 in PlanProps.v | Exact for the ten join types; refuted: mark joins (no columns), hash and merge joins of a semi type (both sides). |
| C31 | Relations built by the builder have a computable schema | proved | 23 in PlanProps.v | Every builder that checks the mapping against its own columns: exact acceptance, columns and frame; exact success conditions without mapping; refuted: FilterRemap over a mapped input, table writes, projection of untyped expressions. |
| C32 | Relations survive a proto round trip | proved | 16 in PlanWireProps.v | A relation is read back as itself exactly if its parts survive; what written and read messages say is given field by field; malformed messages are refused; refuted: output mode and update operation of table writes, empty mappings over the wire, physical join types outside eight bits. |
| C33 | Join keys keep their meaning through the legacy encoding | proved | 8 in PlanWireProps.v | For hash and merge joins: what is written is exact, the deprecated lists alone read the same, comparisons survive; unequal lists are refused. |
| C34 | A plan keeps all the relations it is given | partial | 5 in PlanProps.v | Holds without other relations, acceptance exact; with others the exact content is proved and the claim is refuted: the first one is hidden, the last place is empty and serializing panics. |
| C35 | CUBE and ROLLUP generate the right grouping sets | proved | 9 in PlanProps.v | Cube, rollup and deduplication exact; invariants for every history of calls; Build exact; refuted: negative references. |
| C36 | Grouping expressions are deduplicated without changing their meaning | proved | 7 in PlanProps.v | For the builder, AggregateColumns and the reader of old-style groupings. |
| C37 | Parameter bindings are checked against the plan's dynamic parameters | proved | 10 in PlanRewriteProps.v | Accepted bindings are exactly right ones wherever a parameter is searched and used with one type; refuted: places the search skips, a parameter used with two types. |
| C38 | Expression rewriting covers every expression of a relation | proved | 9 in PlanRewriteProps.v | Result, uniqueness, totality and failures exact for every kind of relation; refuted: hash and merge join keys, sorts of aggregate functions, rows of a virtual table whose filters are unchanged are not reached. |
| C39 | Getters do not expose internal state | proved | 4 in PlanAliasProps.v | The returned slice is separate in both directions, for every later history of assignments; refuted for the slice given to a builder and the slice in the emitted message. |
| C40 | Computing a schema does not change any other schema | proved | 9 in PlanAliasProps.v | For every relation tree, slice layout and allocation policy satisfying the stated condition; the condition is necessary in the refuted cases (room behind the left schema, right side without columns, shared array). |
| C41 | Time-of-day and interval constructors accept exactly the valid values | proved | 8 in TimeProps.v | Time and interval constructors: exact acceptance whenever the duration fits int64, printed intervals read back; refuted for hours beyond the duration range. Day-time interval strings are C62's. |
| C42 | Homogeneous list and map literals | proved | 5 in LitProps.v | List and map constructors accept exactly homogeneous non-empty inputs; the result's type and survival on the wire are proved. |
| C43 | Virtual table rows have the schema's width | proved | 6 in PlanProps.v | Exact acceptance; the claim itself is refuted for rows after the first (short rows accepted, long rows panic). |
| C44 | In-predicate subqueries have one needle per haystack column | proved | 8 in PlanProps.v | Exact acceptance; refuted for scalar subqueries. |
| C45 | Re-expressing a literal with another type | proved | 13 in LitProps.v | Result type, value and acceptance exact for every kind; refuted: decimal type variation, interval units, unchecked lengths. |
| C46 | Checked conditionals have one type | proved | 3 in ExprProps.v | Exact acceptance of both constructors. |
| C47 | Functions called by name resolve to one declaration | proved | 4 in ExprProps.v | Exact; the result type resolution itself is a parameter here and the subject of C08-C10. |
| C48 | Every expression has at most one type, given by its parts | proved | 3 in ExprTypeProps.v | Exact for every expression; refuted: the type of an if without else panics. |
| C49 | IsScalar is exact | proved | 1 in ExprTypeProps.v | Exact for every expression without nil operands. |
| C50 | Dialect files: what is accepted and what it declares | proved | 2 in FuncProps.v | Exact acceptance and exact content for every decoded file (dependencies without duplicate keys, as in a Go map). |
| C51 | Looking a function up by invocation | proved | 6 in FuncProps.v | Exact answers and panics for every invocation; refuted: one identity declared for two kinds. |
| C52 | The output schema of every relation kind | proved | 5 in PlanProps.v | Exact for every relation. |
| C53 | Whole plans survive a proto round trip | proved | 8 in PlanTripProps.v | Exact condition for the round trip; what written and read messages say is given field by field; refuted: bindings of a plan that is read are not checked. |
| C54 | Every function call of a plan that was read is declared | proved | 3 in PlanTripProps.v | For relation and plan messages, every place a call can stand; refuted without the numbering condition. |
| C55 | A printed type definition reads back as itself | proved | 5 in TextProps.v | For every tree the grammar allows for the printed text; refuted: functions with other than one parameter, parameters that are not types, nested conditionals and negated operands. |
| C56 | What the type parser can answer | proved | 9 in TextProps.v | Both directions; what the generated parser does with the grammar is trusted (some tree for the tokens if there is one); refuted: wide parameters, compound intervals. |
| C57 | A concrete type is named by its text | proved | 3 in TextProps.v | Reading back and text equality exact; refuted: user-defined types, year-month intervals, unspecified nullability. |
| C58 | Letter case and blanks in type texts | proved | 3 in TextProps.v | For every text (blanks: where no comment precedes); refuted: stray characters are accepted. |
| C59 | The round trip of extended expressions | proved | 9 in ExtendedProps.v | Exact condition for the round trip; refuted: subqueries, values assembled by hand, a changed public set. |
| C60 | Dates and their texts | proved | 5 in CalProps.v | Calendar, printing and reading exact; the round trip holds exactly in the years 0 to 9999. |
| C61 | Texts of times and timestamps | proved | 14 in CalProps.v | Printing to the letter, reading exact, round trips with their exact year range; refuted: value texts that cut or that are not read, offsets, nanoseconds out of range. |
| C62 | Texts of day-time intervals | proved | 17 in IntervalFloatProps.v, IntervalProps.v | Acceptance exact, the value read is exactly what float64 arithmetic gives (nearest, ties to even) and its error bounded for every text, round trip from one second on; refuted: shorter times, lost nanosecond, silent cut to 32 bits. |
| C63 | Texts of decimals | proved | 8 in DecTextProps.v | Acceptance and value exact for every text; refuted: blanks around a number. |
| C64 | Reading function test files | proved | 5 in TestCaseProps.v | From the syntax tree on, exact: what is read, and when; refuted: groups without a description. |
| C65 | Values of test case arguments | proved | 13 in TestCaseProps.v | Exact for every argument; lists with a null in a required day-time interval type characterised by their own theorem; refutations for cut numbers, elements of other types, dropped elements. |
| C66 | Aggregate calls in test cases | proved | 16 in TestColumnProps.v | Exact for the three kinds of calls and for constant arguments (texts below 2 GB, no null in a required day-time interval type); that case has its own theorem for values; refutations of what a reader would expect. |
| C67 | Calls from test cases | proved | 17 in TestInvokeProps.v | Exact; matching, variadic behaviour and return type resolution of declarations are parameters (C06-C08 prove them), map iteration orders are universally quantified. |
| C68 | Declared function arguments | proved | 13 in DeclProps.v | Exact; the type parser is a parameter (C55, C56), YAML text to maps is not modelled. |
| C69 | What test cases print | proved | 18 in TestPrintProps.v | Exact; texts of floats and decimals are parameters (reading those back assumes the text says the number). Arguments read back under the declared type they were read with; the grammar of test files is C77's and C78's. |
| C70 | Floating point numbers of test cases | proved | 8 in FloatProps.v | Exact for every text that is not hexadecimal and every float64; the conversion of digits to binary inside the Go library is modelled by its result, the nearest float64. |
| C71 | What decimals print, and reading it back | proved | 7 in DecPrintProps.v | Exact to the letter. apd's String is modelled after its documentation; the one point on which its releases differ (zeros with places) is a parameter, and every theorem holds for both. |
| C72 | Which parameters a declared type reports | proved | 5 in SigParamProps.v | Both methods are characterised exactly; the refutation shows where a name is overlooked. |
| C73 | What expressions print | proved | 10 in ExprTextProps.v | Exact to the letter in both directions. What ValueString says is C69's; the texts of relations, and what fmt writes after catching a panic, are parameters. |
| C74 | A cloned aggregate function is independent of its original | proved | 7 in CloneProps.v | Refinement of the heap of slices to plain values, for every sequence of operations. Functions are assumed to start with arrays of their own; without that it is false (refuted). Writes beyond a slice's length by re-slicing up to its capacity are not operations of the model. |
| C75 | The default collection under every schedule | proved | 8 in OnceProps.v | Safety for every schedule; that all calls can finish is proved as: from every reachable state some schedule finishes them, and some goroutine can always go on. sync.OnceValues and sync.Once are modelled from the Go library's source, memory as sequentially consistent. |
| C76 | Function variants made on the fly, and those of declared functions | proved | 17 in VariantProps.v | The type parser is a parameter (any function from texts to types; C55 and C56 are about the real one). |
| C77 | The tokens of a function test file | proved | 12 in TestLexProps.v | Exact, both directions. The rules are decoded from the serialized automaton; that the ANTLR runtime takes the longest match and the first rule, and recovers as documented, is trusted. |
| C78 | What is read from the text of a function test file | proved | 16 in TestParseProps.v | Exact, both directions, from the text to the cases (with C64, C65, C66 and C70). The grammar is decoded from the serialized automaton; that the ANTLR runtime finds the tree if there is one, and reports an error if not, is trusted. |
| C79 | Expression builders remember the last call and are read when built | proved | 15 in FluentProps.v | Histories are exact; what building a described expression returns is C21's. Lists passed as arguments are values: sharing of their storage with the caller is not modelled, nor are builders of several ExprBuilders in one expression. |
| C80 | Registries that are copied and their decoders | proved | 7 in RegCopyProps.v | Histories are exact. The extension set behind a registry is named only: what is in it is the anchor theorems' subject. Concurrent use is outside: the maps have no lock. |
| C81 | Setting the nullability of a declared type | proved | 13 in NullSetProps.v | Matching, binding, printing and result types are the functions of C05 to C10, C55 and C72. Declared types that share parts are outside: a type is a tree. |
| C82 | Aggregate builders and relations do not affect each other | proved | 11 in AggShareProps.v | Input, measures and validation are those of C35. Callers writing through the slices the getters return, or calling the setters of a relation themselves, are outside, apart from writes to slices of references. |
| C83 | Relations as objects that others are built on | proved | 13 in RelObjProps.v | Reads, projections, fetches and cross products; the schemas of the other kinds are those of C52. The types of the expressions of a projection are given: a field reference keeps the type it was made with. Scalar subqueries, whose type follows a relation, are outside. |
| C84 | Builders, their plans and the extensions they share | proved | 9 in PlanSetProps.v | Histories of fewer than 2^32 calls. Building a plan stands for a call whose relation, names and bindings pass the checks (C34); the collection and the functions looked up in it are C26. |
<!-- /results -->

"proved": the English statement, with the exceptions it names, is proved in full for the
model.  "partial": the unrestricted statement is false of the code; the theorems prove it
on its exact or largest known domain and refute it outside.  Names ending in `_refuted`
are the counterexamples.

## 6. Findings

Each is a theorem about the model with a concrete witness or a general statement.

<!-- findings -->
* `C01_interval_compound_refuted`: TypeFromProto reads an interval_compound that TypeToProto panics on.
* `C02_enum_symmetry_refuted`: Equals of enum argument types is not symmetric.
* `C02_unset_parameter_refuted`: A user-defined type read with an unset parameter makes Equals panic.
* `C03_get_type_tz_refuted`: GetType of a timestamp-with-zone gives the type without zone.
* `C03_interval_day_receiver_refuted`: WithNullability on an interval_day type changes the receiver.
* `C05_nested_nullability_refuted`: Matching with nullability ignores the nullability of a function type's parameters.
* `C05_user_integer_refuted`: Integer parameters of user-defined types are compared after truncation to 32 bits.
* `C05_user_type_name_refuted`: The name of a user-defined type is ignored by matching.
* `C06_argument_count_bounds_refuted`: MinArgumentCount/MaxArgumentCount of variadic signatures are one too large.
* `C06_consistency_refuted`: With CONSISTENT and a minimum over one, the first variadic arguments are not compared.
* `C06_positions_refuted`: Matching at a position compares it with the maximum of the variadic count only.
* `C07_function_types_refuted`: Type variables inside function types are not checked.
* `C07_shared_integers_refuted`: With a shared integer parameter the type variables are not checked at all.
* `C08_mirror_inconsistent_refuted`: MIRROR ignores the extra arguments of an INCONSISTENT variadic signature.
* `C09_composite_final_type_refuted`: A program with a composite final type never has a result.
* `C09_nested_variable_refuted`: Integer variables inside a list parameter are never bound.
* `C09_precision_arithmetic_refuted`: Arithmetic on a time precision panics.
* `C09_precision_length_conflict_refuted`: A variable shared by a precision and a length always conflicts.
* `C10_user_type_refuted`: A variable inside a user-defined type is not found.
* `C11_int32_exponent_refuted`: Exponents near the int32 bounds overflow the checks.
* `C11_representable_refused_refuted`: Some 38-digit decimals are refused.
* `C13_zero_refused_refuted`: Zero cannot get a type whose precision equals its scale.
* `C14_coarser_before_epoch_refuted`: Reducing the precision step by step differs from doing it at once before the epoch.
* `C14_duration_refuted`: The duration of tenths and hundredths of seconds overflows early.
* `C15_before_epoch_refuted`: A negative sub-second time literal is read back as nil.
* `C15_compound_null_refuted`: A typed null of compound interval is read but cannot be written.
* `C15_day_microseconds_refuted`: A day interval with microseconds is read back unequal.
* `C15_empty_message_refuted`: Empty list and map literal messages panic.
* `C15_time_variation_refuted`: The type variation of time literals is lost.
* `C15_year_month_refuted`: A year-month interval literal is read back unequal.
* `C16_flatten_keeps_all_refuted`: Flattening references keeps only the head of each.
* `C18_switch_without_else_refuted`: A switch without else is written but refused by the reader.
* `C18_unknown_function_panics_refuted`: An unknown function whose argument types do not parse panics.
* `C18_unknown_function_renamed_refuted`: An unknown function without argument types is renamed and gets a new anchor.
* `C19_multi_or_list_options_refuted`: Visit of a multi-or-list drops changed options.
* `C20_if_without_else_refuted`: An if without else equals one with else.
* `C20_scalar_arguments_refuted`: Equality of scalar calls with different argument counts is asymmetric or panics.
* `C20_set_comparison_refuted`: Set comparisons without left operand are all equal.
* `C20_window_bounds_type_refuted`: The bounds type of window functions is not compared.
* `C23_write_panics_refuted`: ToProto of a set with a type and two variations panics.
* `C24_gap_anchor_reused_refuted`: A set read with a gap hands out an anchor that is in use.
* `C24_gap_urn_panics_refuted`: The same for URN anchors, where the request panics.
* `C25_simple_name_of_aggregate_refuted`: Aggregates are never found under their simple name.
* `C26_variadic_count_refuted`: The registry's argument-count filter disagrees with the signature.
* `C27_conflict_by_chance_refuted`: Whether a dialect with a name conflict loads depends on map iteration order.
* `C28_nullability_lost_refuted`: Local type strings lose nullability.
* `C28_other_kinds_refuted`: Year-month intervals come back as another type; u! is not answered.
* `C28_precision_local_refuted`: Precision types cannot be read from local type strings.
* `C28_precision_standard_refuted`: Precision types cannot be read from their type strings.
* `C28_shared_interval_day_refuted`: interval_day types read from a registry are one shared object.
* `C28_two_names_order_refuted`: With two names of one kind the answer depends on map iteration order.
* `C29_receiver_unchanged_refuted`: Remap of a leaf relation changes the relation itself.
* `C30_hash_semi_join_refuted`: Hash and merge joins of a semi type have the columns of both sides.
* `C30_mark_join_refuted`: Mark joins have no columns.
* `C31_create_table_refuted`: The same for create table.
* `C31_filter_refuted`: FilterRemap checks the mapping against the wrong width.
* `C31_named_write_refuted`: The mapping of a table write is checked against its input.
* `C31_untyped_project_refuted`: A projection of an untyped expression is built, its record type panics.
* `C32_empty_mapping_refuted`: An empty output mapping is read back as no mapping.
* `C32_physical_join_type_refuted`: Physical join types are cut to eight bits.
* `C32_update_refuted`: A table write with the update operation is written but never read.
* `C32_write_mode_refuted`: The output mode of a table write is never written.
* `C34_keeps_all_relations_refuted`: Other relations of a plan are lost and serializing panics.
* `C35_references_in_range_refuted`: A negative grouping reference is accepted; the record type panics.
* `C37_two_types_refuted`: For a parameter used with two types only the last counts.
* `C37_unsearched_places_refuted`: Parameters in read filters, grouping expressions and subqueries are not found.
* `C38_unreached_refuted`: Join keys, sorts of aggregate functions and some virtual rows are not rewritten.
* `C39_builder_refuted`: The slice given to a builder is the relation's own.
* `C39_message_refuted`: The mapping slice in an emitted message is the relation's own.
* `C40_no_columns_refuted`: The same when the right side has no columns.
* `C40_shared_array_refuted`: A cross join overwrites a schema sharing the left array.
* `C40_spare_room_refuted`: The record type of an outer join changes the left schema when its array has room.
* `C41_interval_parse_refuted`: Interval strings: counts are cut to 32 bits, trailing text is ignored.
* `C41_new_time_overflow_refuted`: Hours beyond the duration range wrap and are accepted.
* `C43_every_row_full_refuted`: Rows of a virtual table after the first may be short; long ones panic.
* `C44_scalar_refuted`: A scalar subquery with several columns is accepted.
* `C45_decimal_variation_refuted`: A decimal literal's target variation is lost.
* `C45_interval_microseconds_refuted`: The microseconds of an interval without precision are dropped.
* `C45_length_unchecked_refuted`: Lengths of fixed-size types and element types are not checked.
* `C48_if_without_else_refuted`: The type of an if without else panics.
* `C51_two_kinds_panic_refuted`: One identity declared for two kinds makes a lookup panic.
* `C53_unchecked_binding_refuted`: Reading a plan does not check its bindings: one for a parameter that is never used is accepted, building the same plan is an error.
* `C54_gap_misdirects_call_refuted`: If function anchors have a gap, an unknown function that is renamed on reading takes over another function's anchor, and the call of that function is read as a call of the unknown one.
* `C55_function_parameter_refuted`: A function parameter that is not a type is dropped without an error.
* `C55_function_text_refuted`: A function type with two parameters, or none, prints a text the parser refuses.
* `C55_nested_conditional_refuted`: Conditionals and negations are printed without parentheses: nested ones read back as another expression.
* `C56_compound_interval_refuted`: Compound intervals are in the grammar, but reading one always fails.
* `C56_wide_parameter_refuted`: Integer parameters beyond 32 bits are cut without an error.
* `C57_shared_text_refuted`: User-defined types all print alike, so do the two year-month interval kinds, and an unspecified nullability prints as required.
* `C58_stray_characters_refuted`: Characters that start no token are skipped without an error.
* `C59_assembled_by_hand_refuted`: Writing an extended expression that was not read from a message panics.
* `C59_set_ignored_refuted`: A change to the public set of an extended expression is not written.
* `C59_subquery_refuted`: An extended expression with a subquery is written, but reading the message is an error: the reader has no relation converter.
* `C61_texts_refuted`: The value text of a time drops the fraction of the second and the ISO text of a timestamp with zone cuts to milliseconds; a time with an offset is read by its printed clock by NewTimeFromString and as UTC by NewPrecisionTimeFromString; a clock alone is read as a timestamp of the year 0; at the precisions beyond microseconds a timestamp outside 1678-2262 wraps without an error.
* `C62_cut_refuted`: Days and seconds beyond 32 bits are cut without an error.
* `C62_last_digit_refuted`: P3DT4H5M6.789S is read one nanosecond short.
* `C62_milliseconds_refuted`: The ISO text of 1 to 999 milliseconds, as PT500MS, is read back as that many minutes.
* `C62_negative_refuted`: Negative seconds are left out of the ISO text of an interval with days.
* `C62_nothing_refuted`: The ISO text of a zero or wholly negative interval is P, which is not read.
* `C62_short_refuted`: The ISO text of other times below one second, and of negative ones, is not read.
* `C63_blanks_refuted`: The result of trimming a decimal text is thrown away, so a number between blanks is refused.
* `C64_no_description_refuted`: The grammar allows a test group without a description, but the visitor asserts one: the whole file becomes an error.
* `C65_dropped_refuted`: Numbers in a list of booleans (or any type that takes no numbers) silently disappear.
* `C65_elements_of_type_refuted`: List elements of another type than the element type are accepted, as long as all are of one type.
* `C65_empty_inner_refuted`: Empty inner lists are refused, and one level deeper they get the wrong type.
* `C65_fixed_length_refuted`: The length of fixedchar values is not compared with the declared length; that of varchar is.
* `C65_nulls_refuted`: A null beside values of a required type is refused, a null alone is accepted.
* `C65_parameter_wraps_refuted`: A type parameter that does not fit 32 bits is cut silently.
* `C65_shared_interval_refuted`: A null in a list of required day-time intervals changes the declared type to nullable, because WithNullability of that type writes its receiver.
* `C65_wraps_refuted`: A whole number that does not fit its type (300::i8) is cut, not refused.
* `C66_column_word_refuted`: A column number above 32 bits is cut: col4294967297 is column 1.
* `C66_constant_type_refuted`: The value of a constant argument of an aggregate call does not get its declared type (1.5::dec<10,4> stays dec<2,1>).
* `C66_disagreeing_refuted`: Two arguments may declare different types for one column; the last one wins.
* `C66_extra_cells_refuted`: Cells beyond the last column of a row are silently left out.
* `C66_interval_precision_refuted`: Day-time intervals in a table column are not brought to the precision of the column.
* `C66_no_rows_refuted`: A compact aggregate call on no rows is unreadable, and so is one with a constant argument on rows without columns.
* `C66_nullable_argument_refuted`: A null makes the column's type nullable but leaves the argument naming it required.
* `C66_other_values_refuted`: Numbers in a column of dates become strings, dates in a column of numbers are kept.
* `C66_unnamed_null_refuted`: A null in a column no argument names makes the file unreadable (nil type).
* `C66_values_type_refuted`: The values in a list argument need not have the declared type; the list is given that type anyway.
* `C67_after_constant_refuted`: A reference to column 0 in an argument after a constant has no type at all (nil).
* `C67_column_order_refuted`: When an aggregate case names its columns in another order, the references get each other's types.
* `C67_second_column_refuted`: An aggregate test case that uses only its second column is read but never gives a call: the schema of the references is made from the arguments, by position.
* `C68_any_by_bare_name_refuted`: An implementation declared with any1 takes the arguments but is not found by the function's bare name when the function has several implementations: arguments are never spelled any.
* `C68_names_apart_refuted`: A user-defined type with an underscore in its name collides: f(u!geo, i32) and f(u!geo_i32) are registered under the same compound name.
* `C69_binary_refuted`: A fixed binary 'ab' prints '0x6162', which is read as the six bytes of that text.
* `C69_digits_refuted`: A precision_timestamp_tz finer than milliseconds prints milliseconds only, so the test case read from the text has another value.
* `C69_interval_refuted`: An interval of no time prints 'P', which cannot be read; half a second prints 'PT500MS', which is read as 500 minutes.
* `C69_lists_refuted`: Lists print their strings without quotes: ['a, b'] and ['a', 'b'] print the same.
* `C69_precision_refuted`: 'P1DT1S'::interval_day<10> is read; printing a test case with it panics.
* `C69_year_refuted`: '0000-01-01T00:00:00+01:00' is read as an instant in the year -1, whose text cannot be read.
* `C70_fp32_nearest_refuted`: 1.0000000596046447753906251::fp32 is rounded twice and read as 1 although the next float32 is nearer.
* `C70_fp32_range_refuted`: 1e39::fp32 is read as infinity without an error.
* `C71_reads_back_refuted`: 0.5 as decimal<38,38> prints 0.5 followed by 37 zeros, which NewDecimalFromString refuses: it counts a digit before the point and finds 39.
* `C72_mentions_refuted`: A user-defined type with two type parameters, of which only the second mentions a name, says it has no parameters: the loop returns at the first type.
* `C73_custom_aggregate_refuted`: NewCustomAggregateFunc stores no declaration, so String (and Name, CompoundName, ID, Decomposable...) of every aggregate function read from a plan whose function the collection does not have panics on a nil pointer; custom scalar and window functions keep theirs.
* `C73_masked_refuted`: FieldReference.String asserts that its reference is a segment, so printing any reference by mask, which the API builds and reads from messages, panics.
* `C74_option_message_refuted`: AggregateFunction.Clone copies the slice of option pointers, not the options: changing an option of the clone through GetOptions changes the original.
* `C74_shared_arguments_refuted`: the constructors keep the caller's arguments slice, so SetArg on one of two functions built from the same slice changes the other.
* `C75_private_refuted`: GetDefaultCollection hands every caller the same *Collection, and Load writes to it: an extension one part of a program loads into the default collection is visible to, and blocks the same URN for, all others.
* `C76_id_refuted`: A variant made on the fly from a name without a colon has an ID with one: NewScalarFuncVariant of "now" reports "now:".
* `C76_match_refuted`: Variants made on the fly have no nullability handling (the MIRROR default is set only when a file is loaded), so Match and MatchAt return an error for arguments of exactly the declared types. ResolveType of such a variant dereferences a nil Return and panics, whatever the arguments (C76_no_result_type).
* `C76_max_set_refuted`: NewAggFuncVariantOpts and NewWindowFuncVariantOpts convert the uint MaxSet to int: values of 2^63 or more become negative.
* `C76_resolve_urn_refuted`: ResolveURN of aggregate and window functions leaves an omitted decomposition or window type empty, while GetVariants makes them NONE and PARTITION.
* `C77_comment_refuted`: Block comments are recognised only if they hold a single character (stars aside).
* `C77_date_string_refuted`: A string with the look of a date, a time, a timestamp or an interval is never a string token.
* `C77_names_refuted`: Test files cannot call functions whose names are words of the grammar, in either case: p, t, y, m, d, h, s, f, error, list, map, date, any, v followed by digits, col followed by a number, and so on.
* `C77_stray_refuted`: Characters at which no token starts are reported to the console only: the error listener is attached to the parser, not to the lexer, so they are dropped.
* `C78_date_string_refuted`: '2020-01-01'::str and 'p1y'::str are syntax errors.
* `C78_dependencies_refuted`: SUBSTRAIT_DEPENDENCY lines are parsed and then ignored.
* `C78_leading_zero_refuted`: Integers with leading zeros (07::i8) are decimal tokens, so a syntax error before an integer type.
* `C78_no_arguments_refuted`: The grammar has no scalar test case without arguments: pi() = ... makes the whole file an error.
* `C78_stray_refuted`: Misspelt files are accepted: characters without a meaning are ignored.
* `C78_unclosed_refuted`: An unclosed quote hides all cases after it without an error.
* `C79_scope_after_panic_refuted`: lambdaBuilder.Build pops its parameters without defer: after a recovered panic in the body they stay in scope of the ExprBuilder.
* `C79_self_refuted`: A builder passed to its own Args makes Build recurse without end.
* `C79_shared_refuted`: Builders are held by reference: calling Args on a builder after it was given as an argument changes the outer expression.
* `C80_copy_refuted`: The map of decoders is made by the first registration: a copy of a registry made before it never sees decoders registered in the original (or the reverse), a copy made after it sees all.
* `C80_nil_decoder_refuted`: SetExtensionRelDecoder accepts a nil decoder, which is not found but makes every later registration for the type URL fail.
* `C81_shared_refuted`: PrimitiveType.ReturnType and EnumType.ReturnType return the declared object itself; SetNullability writes to it, and changes result types already handed out.
* `C82_caller_refuted`: AddGroupingSet and AddRollup keep the slice of references the caller passes, and ToBuilder copies only the outer slice: a later write to that slice changes the groupings of the builder, of relations already built and of builders made from those.
* `C83_shared_refuted`: Copy of a read returns the read itself, so Remap of a read changes it in place: relations built on it before show other columns afterwards, or panic when their schema is computed.
* `C84_plan_grows_refuted`: A plan keeps the extension set of its builder: extensions asked of the builder after the plan was built become part of the plan, and are declared when it is written.
<!-- /findings -->

## 7. Wrong programs

`tools/mutate.py` applies an edit to a scratch copy of the model, rebuilds, and records
which theorems fail in `seeded/LOG.jsonl`.  `tools/automutate.py` generates edits of all
definitions of a model file (constants, comparisons, outcomes, swapped branches and
arguments) and reports those under which everything still proves; each survivor was either
shown to change nothing observable or led to a stronger theorem.
