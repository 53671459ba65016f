STATUS = {
 "C01": ("proved", "Round trips proved in both directions on their exact domains; the unrestricted claim is refuted for interval_compound (C01_interval_compound_refuted)."),
 "C02": ("proved", "Structural equality proved for all types that can be part of a plan; refuted for enum argument types and unset UDT parameters."),
 "C03": ("proved", "Value law proved for all types; non-mutation proved for all kinds but interval_day, for which it is refuted."),
 "C04": ("proved", "Count, printing and root-name validation proved for all schemas."),
 "C22": ("proved", "Exact numbering, bijection, decoding, stability and URN registration for every history of requests (fewer than 2^32)."),
 "C23": ("partial", "Round trip proved for every consistent set and every map iteration order whenever ToProto returns; ToProto panics for sets with a type and two type variations (exact condition proved, refutation recorded)."),
 "C24": ("partial", "The claim is refuted for tables with gaps; the exact effect of a request on any set and the gap-free case are proved."),
 "C25": ("proved", "All-or-nothing, exact lookups and frame proved for every history of loads; the simple-name promise is refuted for aggregates."),
 "C11": ("proved", "Exact acceptance, exact bytes/precision/scale and round trip for every decimal whose exponent is not near the int32 bounds; refuted at those bounds (int32 overflow)."),
 "C12": ("proved", "Negation and decoding are two's complement arithmetic, for byte strings of any length (negate) and all 16-byte values."),
 "C13": ("proved", "Succeeds exactly when the number is representable at the target, and then keeps the number; zero needs precision > scale (finding)."),
 "C14": ("partial", "Exact round-trip condition, exact finer/coarser conversion from the epoch on; consistency is refuted before the epoch and durations are refuted near overflow."),
 "C41": ("proved", "Time and interval constructors: exact acceptance whenever the duration fits int64, printed intervals read back; refuted for hours beyond the duration range. Day-time interval strings are C62's."),
 "C05": ("proved", "Exact characterisation of both matchers for every declared type and argument type; nested nullability of function types, UDT names and wide UDT integers are refuted (findings)."),
 "C06": ("proved", "Exact acceptance for all signatures and calls, with and without shared integer parameters; counts exact; refuted: position bound, too-few-arguments panic, argument-count bounds, CONSISTENT with minimum over one."),
 "C07": ("proved", "The check accepts exactly the calls for which a typing of the visible variables exists; refuted for variables inside function types and for signatures with shared integer parameters."),
 "C08": ("proved", "Result nullability exact for each mode; only the outer nullability changes; user-defined references decode to the declared type; refuted for extra INCONSISTENT arguments under MIRROR."),
 "C09": ("proved", "Evaluation sound and complete for the arithmetic semantics, program order, variable binding and conflicts exact, result exact without program; refuted: precision arithmetic panics, composite final types, nested variables."),
 "C10": ("proved", "The result is exactly the first occurrence of the variable; refuted for variables inside user-defined types."),
 "C15": ("proved", "Exact round-trip, encodability and readability conditions for every literal and every literal message; Go-value constructor exact; refuted: negative sub-second times, year-month and microsecond intervals, type variations on times, typed nulls of compound intervals, empty messages."),
 "C42": ("proved", "List and map constructors accept exactly homogeneous non-empty inputs; the result's type and survival on the wire are proved."),
 "C45": ("proved", "Result type, value and acceptance exact for every kind; refuted: decimal type variation, interval units, unchecked lengths."),
 "C16": ("proved", "Path types, reference constructors, reading and writing of paths exact for all types and paths; flattening keeps only the head of element steps (refuted)."),
 "C17": ("proved", "Mask round trips exact in both directions."),
 "C18": ("proved", "An expression survives the wire exactly under the stated condition on its parts; read calls are declared; incomplete messages refused; refuted: switch without else, unknown functions renamed or panicking."),
 "C19": ("proved", "Visit characterised for every expression kind and every visitor; refuted: multi-or-list options."),
 "C20": ("proved", "Equality exact, reflexive, symmetric and transitive on expressions without NaN, nil parts and with fixed argument counts; refuted outside: scalar arguments, if without else, window bounds type, set comparisons. Literals: exact."),
 "C21": ("proved", "Parameter types exact; builders build exactly what they describe and restore the scope on success and error; built references are scoped."),
 "C46": ("proved", "Exact acceptance of both constructors."),
 "C47": ("proved", "Exact; the result type resolution itself is a parameter here and the subject of C08-C10."),
 "C48": ("proved", "Exact for every expression; refuted: the type of an if without else panics."),
 "C49": ("proved", "Exact for every expression without nil operands."),
 "C26": ("proved", "Exact lookups for every registry; disagreement with the signature's own count rule recorded as refutation."),
 "C27": ("proved", "Exact success condition for every iteration order, exact answers, order independence of successful runs; refuted with a name conflict."),
 "C28": ("proved", "Both readers and the writer exact; round trips for simple, fixed-length and decimal types; refuted: nullability, precision types, year-month intervals, u!, duplicate kinds, shared interval_day object."),
 "C50": ("proved", "Exact acceptance and exact content for every decoded file (dependencies without duplicate keys, as in a Go map)."),
 "C51": ("proved", "Exact answers and panics for every invocation; refuted: one identity declared for two kinds."),
 "C29": ("proved", "Exact for every relation and every sequence of remaps; refuted: a leaf relation is itself changed."),
 "C30": ("proved", "Exact for the ten join types; refuted: mark joins (no columns), hash and merge joins of a semi type (both sides)."),
 "C31": ("proved", "Every builder that checks the mapping against its own columns: exact acceptance, columns and frame; exact success conditions without mapping; refuted: FilterRemap over a mapped input, table writes, projection of untyped expressions."),
 "C32": ("proved", "A relation is read back as itself exactly if its parts survive; what written and read messages say is given field by field; malformed messages are refused; refuted: output mode and update operation of table writes, empty mappings over the wire, physical join types outside eight bits."),
 "C33": ("proved", "For hash and merge joins: what is written is exact, the deprecated lists alone read the same, comparisons survive; unequal lists are refused."),
 "C34": ("partial", "Holds without other relations, acceptance exact; with others the exact content is proved and the claim is refuted: the first one is hidden, the last place is empty and serializing panics."),
 "C35": ("proved", "Cube, rollup and deduplication exact; invariants for every history of calls; Build exact; refuted: negative references."),
 "C36": ("proved", "For the builder, AggregateColumns and the reader of old-style groupings."),
 "C43": ("proved", "Exact acceptance; the claim itself is refuted for rows after the first (short rows accepted, long rows panic)."),
 "C44": ("proved", "Exact acceptance; refuted for scalar subqueries."),
 "C52": ("proved", "Exact for every relation."),
 "C37": ("proved", "Accepted bindings are exactly right ones wherever a parameter is searched and used with one type; refuted: places the search skips, a parameter used with two types."),
 "C38": ("proved", "Result, uniqueness, totality and failures exact for every kind of relation; refuted: hash and merge join keys, sorts of aggregate functions, rows of a virtual table whose filters are unchanged are not reached."),
 "C39": ("proved", "The returned slice is separate in both directions, for every later history of assignments; refuted for the slice given to a builder and the slice in the emitted message."),
 "C40": ("proved", "For every relation tree, slice layout and allocation policy satisfying the stated condition; the condition is necessary in the refuted cases (room behind the left schema, right side without columns, shared array)."),
 "C53": ("proved", "Exact condition for the round trip; what written and read messages say is given field by field; refuted: bindings of a plan that is read are not checked."),
 "C54": ("proved", "For relation and plan messages, every place a call can stand; refuted without the numbering condition."),
 "C55": ("proved", "For every tree the grammar allows for the printed text; refuted: functions with other than one parameter, parameters that are not types, nested conditionals and negated operands."),
 "C56": ("proved", "Both directions; what the generated parser does with the grammar is trusted (some tree for the tokens if there is one); refuted: wide parameters, compound intervals."),
 "C57": ("proved", "Reading back and text equality exact; refuted: user-defined types, year-month intervals, unspecified nullability."),
 "C58": ("proved", "For every text (blanks: where no comment precedes); refuted: stray characters are accepted."),
 "C59": ("proved", "Exact condition for the round trip; refuted: subqueries, values assembled by hand, a changed public set."),
 "C60": ("proved", "Calendar, printing and reading exact; the round trip holds exactly in the years 0 to 9999."),
 "C61": ("proved", "Printing to the letter, reading exact, round trips with their exact year range; refuted: value texts that cut or that are not read, offsets, nanoseconds out of range."),
 "C62": ("proved", "Acceptance exact, the value read is exactly what float64 arithmetic gives (nearest, ties to even) and its error bounded for every text, round trip from one second on; refuted: shorter times, lost nanosecond, silent cut to 32 bits."),
 "C63": ("proved", "Acceptance and value exact for every text; refuted: blanks around a number."),
 "C64": ("proved", "From the syntax tree on, exact: what is read, and when; refuted: groups without a description."),
 "C65": ("proved", "Exact for every argument; lists with a null in a required day-time interval type characterised by their own theorem; refutations for cut numbers, elements of other types, dropped elements."),
 "C66": ("proved", "Exact for the three kinds of calls and for constant arguments (texts below 2 GB, no null in a required day-time interval type); that case has its own theorem for values; refutations of what a reader would expect."),
 "C67": ("proved", "Exact; matching, variadic behaviour and return type resolution of declarations are parameters (C06-C08 prove them), map iteration orders are universally quantified."),
 "C68": ("proved", "Exact; the type parser is a parameter (C55, C56), YAML text to maps is not modelled."),
 "C69": ("proved", "Exact; texts of floats and decimals are parameters (reading those back assumes the text says the number). Arguments read back under the declared type they were read with; the grammar of test files is C77's and C78's."),
 "C70": ("proved", "Exact for every text that is not hexadecimal and every float64; the conversion of digits to binary inside the Go library is modelled by its result, the nearest float64."),
 "C71": ("proved", "Exact to the letter. apd's String is modelled after its documentation; the one point on which its releases differ (zeros with places) is a parameter, and every theorem holds for both."),
 "C72": ("proved", "Both methods are characterised exactly; the refutation shows where a name is overlooked."),
 "C73": ("proved", "Exact to the letter in both directions. What ValueString says is C69's; the texts of relations, and what fmt writes after catching a panic, are parameters."),
 "C74": ("proved", "Refinement of the heap of slices to plain values, for every sequence of operations. Functions are assumed to start with arrays of their own; without that it is false (refuted). Writes beyond a slice's length by re-slicing up to its capacity are not operations of the model."),
 "C75": ("proved", "Safety for every schedule; that all calls can finish is proved as: from every reachable state some schedule finishes them, and some goroutine can always go on. sync.OnceValues and sync.Once are modelled from the Go library's source, memory as sequentially consistent."),
 "C76": ("proved", "The type parser is a parameter (any function from texts to types; C55 and C56 are about the real one)."),
 "C77": ("proved", "Exact, both directions. The rules are decoded from the serialized automaton; that the ANTLR runtime takes the longest match and the first rule, and recovers as documented, is trusted."),
 "C78": ("proved", "Exact, both directions, from the text to the cases (with C64, C65, C66 and C70). The grammar is decoded from the serialized automaton; that the ANTLR runtime finds the tree if there is one, and reports an error if not, is trusted."),
 "C79": ("proved", "Histories are exact; what building a described expression returns is C21's. Lists passed as arguments are values: sharing of their storage with the caller is not modelled, nor are builders of several ExprBuilders in one expression."),
 "C80": ("proved", "Histories are exact. The extension set behind a registry is named only: what is in it is the anchor theorems' subject. Concurrent use is outside: the maps have no lock."),
 "C81": ("proved", "Matching, binding, printing and result types are the functions of C05 to C10, C55 and C72. Declared types that share parts are outside: a type is a tree."),
 "C82": ("proved", "Input, measures and validation are those of C35. Callers writing through the slices the getters return, or calling the setters of a relation themselves, are outside, apart from writes to slices of references."),
 "C83": ("proved", "Reads, projections, fetches and cross products; the schemas of the other kinds are those of C52. The types of the expressions of a projection are given: a field reference keeps the type it was made with. Scalar subqueries, whose type follows a relation, are outside."),
 "C84": ("proved", "Histories of fewer than 2^32 calls. Building a plan stands for a call whose relation, names and bindings pass the checks (C34); the collection and the functions looked up in it are C26."),
}
