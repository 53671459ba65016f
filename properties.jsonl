{"id": "C01", "title": "Type messages survive a decode/encode round trip", "statement": "TypeToProto(TypeFromProto(m)) is m for every well-formed type message m (all kinds, arbitrarily nested), and TypeFromProto(TypeToProto(t)) is t for every type t the encoder supports. Kinds for which this is false (interval_compound, whose decoded form the encoder rejects with a panic) are identified exactly.", "quantifier": "every protobuf type message and every Go type value, of any nesting depth, with any nullability, variation reference and parameters", "why_tests_cant": "type terms are recursive and unbounded; tests check a few literals per kind", "anchors": ["types/types.go: TypeFromProto, TypeToProto, TypeParamFromProto, UserDefinedType.ToProto, FuncType.ToProto", "types/interval_compound_type.go: IntervalCompoundType", "types/interval_day_type.go: IntervalDayType"]}
{"id": "C02", "title": "Type equality is structural and an equivalence relation", "statement": "a.Equals(b) answers true exactly when a and b are structurally the same type (same kind, nullability, variation reference, parameters, and recursively equal components); hence it is reflexive, symmetric and transitive.", "quantifier": "every pair and triple of types of any depth", "why_tests_cant": "symmetry and transitivity quantify over all pairs and triples of an infinite set", "anchors": ["types/types.go: StructType.Equals, ListType.Equals, MapType.Equals, UserDefinedType.Equals, FuncType.Equals, PrimitiveType.Equals, FixedLenType.Equals, DecimalType.Equals"]}
{"id": "C03", "title": "WithNullability changes the nullability and nothing else", "statement": "t.WithNullability(n) has nullability n, agrees with t on everything else, is idempotent and last-write-wins, and leaves t itself unchanged. For IntervalDayType the last part is false: the receiver is modified in place.", "quantifier": "every type, every nullability, every store that contains the type", "why_tests_cant": "an aliasing effect is visible only to code that kept an older reference; tests look at the returned value", "anchors": ["types/types.go: WithNullability methods", "types/interval_day_type.go: IntervalDayType.WithNullability"]}
{"id": "C04", "title": "Depth-first field names: count and root-name validation", "statement": "The number of names a schema needs is the number of struct fields in it counted depth first through structs, lists and maps; printing a named struct consumes exactly that many names; a plan root is accepted exactly when it carries that many names.", "quantifier": "every schema of any depth and every list of names", "why_tests_cant": "schemas are recursive; tests check one nesting shape", "anchors": ["types/types.go: NamedStruct.String, DepthFirstNameCount, nestedNameCount", "plan/plan.go: validateRootNamesForSchema"]}
{"id": "C05", "title": "Parameterized argument types accept exactly their instances", "statement": "A function-definition type accepts a concrete type if and only if the concrete type is an instance of it: same constructor, each concrete integer parameter equal, each variable parameter free, and (when nullability is respected) the same nullability at each level. Matching with nullability implies matching without.", "quantifier": "every parameterized type and every concrete type, of any depth", "why_tests_cant": "both sides are recursive and unbounded", "anchors": ["types/parameterized_decimal_type.go", "types/parameterized_list_type.go", "types/parameterized_map_type.go", "types/parameterized_struct_type.go", "types/parameterized_single_integer_param_type.go", "types/parameterized_func_type.go", "types/integer_parameters/"]}
{"id": "C06", "title": "Argument-count acceptance of a function signature", "statement": "A call is accepted on count grounds exactly when the number of arguments is the declared number (non-variadic) or lies in the interval fixed by the declared number and the variadic minimum and maximum.", "quantifier": "every signature, variadic behaviour and number of arguments", "why_tests_cant": "off-by-one errors at the boundaries of an unbounded range", "anchors": ["extensions/simple_extension.go: VariadicBehavior.IsValidArgumentCount, IsValidArgumentPosition", "extensions/variants.go: validateVariadicBehaviorForMatch, minArgumentCount, maxArgumentCount, matchArguments"]}
{"id": "C07", "title": "anyN type variables are bound consistently", "statement": "A call passes the any-type check exactly when there is one assignment of concrete types to the numbered any variables under which every argument has its declared type; repeated variables must receive the same type at every depth, un-numbered any is unconstrained.", "quantifier": "every list of declared types and every list of argument types of any depth", "why_tests_cant": "existence of a substitution is a statement over all assignments", "anchors": ["extensions/variants.go: validateAnyTypeBinding, ValidateConstrainedAnyTypeConsistency"]}
{"id": "C08", "title": "MIRROR / DECLARED_OUTPUT / DISCRETE nullability of function results", "statement": "With MIRROR the result type is nullable iff some argument is nullable and otherwise required; with DECLARED_OUTPUT and DISCRETE it is the declared nullability; DISCRETE rejects arguments whose nullability differs from the declaration.", "quantifier": "every signature, every nullability mode and every argument list", "why_tests_cant": "argument lists are unbounded; variadic tails are only tested with one or two extra arguments", "anchors": ["extensions/variants.go: EvaluateTypeExpression, validateType, matchArgumentAtCommon"]}
{"id": "C09", "title": "Return-type derivations evaluate to their denotation", "statement": "Evaluating an output derivation (arithmetic, comparisons, boolean operators, conditionals, abs/min/max, sequential assignments) gives the value of the expression under ordinary integer semantics whenever no intermediate result leaves int64 and no division is by zero; the untaken branch of a conditional is never evaluated; a later assignment sees earlier ones and a re-assignment wins.", "quantifier": "every derivation program and every binding of its parameters", "why_tests_cant": "programs are recursive terms over unbounded inputs", "anchors": ["types/type_derivation.go: Expr.Evaluate, BinaryExpr, IfExpr, NotExpr, FunctionCallExpr, OutputDerivation.ReturnType, buildTypeParametersNameValueMap"]}
{"id": "C10", "title": "An any-typed result takes the type of the argument that binds it", "statement": "If a result is declared anyN, the derived result type is the part of the first argument (depth first) that stands at an occurrence of anyN in the parameter list; it is made nullable when the result is declared nullable.", "quantifier": "every parameter list, every argument list, every nesting", "why_tests_cant": "recursive search over unbounded parameter lists", "anchors": ["types/any_type.go: AnyType.ReturnType, unwrapAnyTypeWithName"]}
{"id": "C11", "title": "Decimal encode/decode round trip", "statement": "Encoding a decimal string and decoding the 16 bytes at the reported scale gives the same number; the reported precision and scale satisfy 0<=scale<=precision<=38 and the value fits them; a number is refused exactly when it needs more than 38 digits.", "quantifier": "every sign, coefficient and exponent", "why_tests_cant": "2^128 values; carries and sign extension make boundary errors likely", "anchors": ["expr/decimal_util.go: decimalStringToBytes, DecimalToBytes, decimalBytesToString"]}
{"id": "C12", "title": "16-byte two's complement negation and sign", "statement": "The little-endian bytes written for a decimal are the 128-bit two's complement of its unscaled value, and byte-wise negation computes arithmetic negation modulo 2^128.", "quantifier": "every 16-byte string and every integer of absolute value below 2^127", "why_tests_cant": "carry propagation must be right for all 2^128 inputs", "anchors": ["expr/decimal_util.go: DecimalToBytes, decimalBytesToString, negate"]}
{"id": "C13", "title": "Changing precision and scale of a decimal preserves its value", "statement": "modify(bytes, scale, p', s') either fails or yields bytes that decode at s' to the same value whenever the value is representable at s', and it succeeds only if the value has at most p' digits.", "quantifier": "every value, source scale and target precision and scale", "why_tests_cant": "all combinations of scale up and scale down with every value", "anchors": ["expr/decimal_util.go: modifyDecimalPrecisionAndScale, validatePrecisionAndScale, getMinimumPrecisionAndScale"]}
{"id": "C14", "title": "Sub-second precision conversions", "statement": "Converting a count of units at precision p to an instant and back at precision p gives the same count whenever the instant lies within the range of the 64-bit nanosecond clock; converting to a coarser precision truncates consistently.", "quantifier": "every int64 count, every precision 0..9", "why_tests_cant": "2^64 values, negative instants round differently", "anchors": ["types/types.go: timeFromPrecisionUnits, GetTimeValueByPrecision", "types/precison_timestamp_types.go: SubSecondsToDuration, ProtoToTimePrecision"]}
{"id": "C15", "title": "Literals survive a proto round trip", "statement": "LiteralFromProto(l.ToProtoLiteral()) equals l for every literal in the supported range; deviations (type variation of precision time/timestamps, empty lists and maps, narrow integers out of range) are identified exactly.", "quantifier": "every literal of any nesting depth", "why_tests_cant": "nested literals are unbounded", "anchors": ["expr/literals.go: LiteralFromProto, ToProtoLiteral methods"]}
{"id": "C16", "title": "Field references resolve to the type at their path", "statement": "The type of a field reference is the type reached by following its segments from the root type, an error if a segment does not fit the type or is out of range, never a wrong field; reference segments survive a proto round trip and flattening lists them in order.", "quantifier": "every root type and every segment chain of any length", "why_tests_cant": "paths and types are unbounded; negative and out-of-range offsets must all be refused", "anchors": ["expr/field_reference.go: StructFieldRef.GetType, MapKeyRef.GetType, ListElementRef.GetType, FlattenRefSegments, RefSegmentFromProto, FieldReference.GetType"]}
{"id": "C17", "title": "Mask expressions survive a proto round trip", "statement": "Every mask expression (struct, list and map selections, arbitrarily nested) decodes to itself after encoding.", "quantifier": "every mask term", "why_tests_cant": "masks are recursive", "anchors": ["expr/field_reference.go: MaskExpressionFromProto, MaskExpression.ToProto"]}
{"id": "C18", "title": "Scalar expressions survive a proto round trip", "statement": "ExprFromProto(e.ToProto()) equals e for every expression tree built of the supported node kinds; the node kinds for which it is false (a switch without else) are identified.", "quantifier": "every expression tree of any depth", "why_tests_cant": "expression trees are unbounded", "anchors": ["expr/expression.go: ExprFromProto, ToProto methods", "expr/functions.go: ScalarFunction.ToProto"]}
{"id": "C19", "title": "Visit rewrites children in place-preserving, copy-on-write fashion", "statement": "Visiting with the identity returns the same expression; visiting with f returns the node with f applied to each child in order and everything else unchanged; the visited expression itself is never modified. Node kinds for which this fails or panics (multi-or-list) are identified.", "quantifier": "every expression node and every rewrite function", "why_tests_cant": "quantifies over all functions", "anchors": ["expr/expression.go: Visit methods, MultiOrList.Visit", "expr/functions.go: ScalarFunction.Visit"]}
{"id": "C20", "title": "Expression equality", "statement": "Equals on expressions is reflexive and, where both sides carry the same number of children, structural; for scalar functions it is neither symmetric nor safe when argument counts differ.", "quantifier": "every pair of expressions", "why_tests_cant": "relational property over an infinite set", "anchors": ["expr/functions.go: ScalarFunction.Equals, FuncArgsEqual", "expr/expression.go: IfThen.Equals"]}
{"id": "C21", "title": "Lambda parameter references resolve to the enclosing lambda they name", "statement": "A parameter reference with steps-out k and index i built inside nested lambdas gets the type of parameter i of the k-th enclosing lambda, and is refused when k or i is out of range; building leaves the builder's scope stack as it found it, on success and on failure.", "quantifier": "every nesting of lambdas and every reference", "why_tests_cant": "nesting depth is unbounded; leaving the stack unbalanced on an error path shows only in later builds", "anchors": ["expr/builder.go: LambdaBuilder, LambdaParamRefBuilder"]}
{"id": "C22", "title": "Extension anchors form a stable bijection", "statement": "After any history of anchor requests on a fresh extension set: two different declarations never share an anchor, repeated requests return the same anchor, anchors are non-zero and contiguous from 1, and decoding an anchor gives back the declaration it was assigned to.", "quantifier": "every finite sequence of Get{Type,TypeVariation,Func}Anchor calls", "why_tests_cant": "statement about every history", "anchors": ["extensions/extension_mgr.go: NewSet, GetTypeAnchor, GetFuncAnchor, GetTypeVariationAnchor, DecodeType, DecodeFunc, addOrGetURN"]}
{"id": "C23", "title": "Extension sets survive a round trip through a plan", "statement": "Serializing a set built by anchor requests and reading it back gives a set that decodes every anchor to the same declaration and assigns the same anchor to every known declaration.", "quantifier": "every reachable extension set", "why_tests_cant": "statement about every history; map iteration order is nondeterministic", "anchors": ["extensions/extension_mgr.go: set.ToProto, GetExtensionSet"]}
{"id": "C24", "title": "Anchors requested on a set read from a plan do not collide", "statement": "Requesting an anchor for a new declaration on a set that was read from a plan never changes what an existing anchor decodes to. (False when the plan's anchors have gaps.)", "quantifier": "every plan's extension declarations and every later request", "why_tests_cant": "depends on the numbering chosen by another producer", "anchors": ["extensions/extension_mgr.go: GetExtensionSet, GetFuncAnchor, addOrGetURN"]}
{"id": "C25", "title": "Loading an extension file is all-or-nothing and never disturbs others", "statement": "Load either fails and leaves every lookup unchanged, or succeeds and makes exactly the file's declarations available without changing any lookup under a different URN; loading the same URN twice is refused.", "quantifier": "every collection and every extension file, every sequence of loads", "why_tests_cant": "statement about every history of loads", "anchors": ["extensions/extension_mgr.go: Collection.Load, addToMaps, checkMaps, GetScalarFunc, GetAggregateFunc, GetWindowFunc"]}
{"id": "C26", "title": "Function registry lookup by name and argument count", "statement": "Looking up functions by name and number of arguments returns exactly the registered variants of that name and kind whose declared parameter count is that number or whose variadic bounds contain it, in registration order; the list of all functions has them all. (For variadic functions with other than one parameter this is not the count the signature itself accepts.)", "quantifier": "every registry and every query", "why_tests_cant": "registries are unbounded", "anchors": ["functions/registries.go", "functions/functions.go: getFunctionVariantsByCount"]}
{"id": "C27", "title": "Dialect localization does not depend on iteration order", "statement": "Building the local registry of a dialect succeeds for every iteration order of the function map exactly when every declared function is in the registry and no local name is another declared function's own name; two runs that succeed answer lookups by own name alike and lookups by local name alike up to order. (With a name conflict, success depends on the iteration order.)", "quantifier": "every dialect and every iteration order", "why_tests_cant": "Go randomizes map order; a test sees one schedule", "anchors": ["functions/dialect.go: makeLocalFunctionVariantMapAndSlice, makeLocalFunctionVariantsMap"]}
{"id": "C28", "title": "Local type strings translate back and forth", "statement": "Translating a supported Substrait type to the dialect's type string and back gives the same type with its parameters, for simple, fixed-length and decimal types; type strings are read exactly when they are of the documented shape with a known name and the right number of 32-bit parameters, and everything else is refused without a panic. (Nullability is lost, strings with a precision are refused on the way back, and reading interval_day again changes the object returned before.)", "quantifier": "every dialect type table and every type", "why_tests_cant": "all parameter values", "anchors": ["functions/types.go: getTypeFromTypeString, extractTypeAndParameters, getTypeWithParameters"]}
{"id": "C29", "title": "Remap composes output mappings", "statement": "Remapping a relation by m gives a relation whose i-th column is column m[i] of the relation it was applied to, for any number of successive remaps; an out-of-range index is refused; the original relation is unchanged. (The last part is false for leaf relations.)", "quantifier": "every relation, every sequence of remaps", "why_tests_cant": "composition over unbounded sequences; aliasing effects invisible to result-only tests", "anchors": ["plan/relations.go: RemapHelper, Remap methods, Copy methods", "plan/common.go: RelCommon.remap, RelCommon.OutputMapping"]}
{"id": "C30", "title": "Join output schema per join type", "statement": "The output schema of a join is: left then right for inner; the null-supplying side made nullable for left/right/outer; only one side for semi and anti; plus the mark column for mark joins; column count and order are exactly those. (False for mark joins, whose schema is empty, and for hash and merge joins, which always give both sides.)", "quantifier": "every pair of input schemas and every join type", "why_tests_cant": "schemas are unbounded", "anchors": ["plan/relations.go: JoinRel.directOutputSchema, CrossRel, HashJoinRel.directOutputSchema, MergeJoinRel.directOutputSchema"]}
{"id": "C31", "title": "Relations built by the builder have a computable schema", "statement": "If a builder method with a remap succeeds, RecordType() of the result does not panic and has one column per mapping entry. (False for FilterRemap over a remapped input, and for NamedWriteRemap and CreateTableAsSelectRemap.)", "quantifier": "every input relation and every mapping", "why_tests_cant": "all mappings over all schemas", "anchors": ["plan/builders.go: FilterRemap, ProjectRemap, SortRemap, FetchRemap, NamedWriteRemap, CreateTableAsSelectRemap"]}
{"id": "C32", "title": "Relations survive a proto round trip", "statement": "RelFromProto(rel.ToProto()) is equivalent to rel (same kind, inputs, expressions, mapping and record type) for every relation tree; the exceptions (output mode of table writes, empty output mapping) are identified.", "quantifier": "every relation tree of any depth", "why_tests_cant": "relation trees are unbounded", "anchors": ["plan/plan.go: RelFromProto", "plan/relations.go: ToProto methods, NamedTableWriteRel.ToProto"]}
{"id": "C33", "title": "Join keys keep their meaning through the legacy encoding", "statement": "Equality join keys encoded in the legacy form decode to the same keys; the legacy form is produced exactly when every key is a plain equality; otherwise the decoded keys equal the originals including the comparison.", "quantifier": "every list of join keys", "why_tests_cant": "unbounded lists with mixed comparison kinds", "anchors": ["plan/relations.go: comparisonJoinKeysFromProto, tryEqualityJoinKeysToLegacyProto, joinKeyComparisonFromProto"]}
{"id": "C34", "title": "A plan keeps all the relations it is given", "statement": "A plan built from a root and other relations contains the root and each of the others, and can be serialized. (False as soon as there is at least one other relation.)", "quantifier": "every list of other relations", "why_tests_cant": "quantifies over list lengths; tests use none", "anchors": ["plan/builders.go: PlanWithBindings", "plan/plan.go: Plan.ToProto, GetRoots, GetNonRootRelations"]}
{"id": "C35", "title": "CUBE and ROLLUP generate the right grouping sets", "statement": "AddCube generates every non-empty subset of its columns exactly once; AddRollup generates every non-empty prefix, longest first; AddExpression deduplicates; every grouping reference generated is one that was passed in, and a reference beyond the expressions is refused. (A negative reference is not noticed.)", "quantifier": "every list of columns up to the implementation limit, every sequence of builder calls", "why_tests_cant": "exponentially many subsets", "anchors": ["plan/builders.go: AggregateRelBuilder.AddCube, AddRollup, AddExpression, AddGroupingSet, validate"]}
{"id": "C36", "title": "Grouping expressions are deduplicated without changing their meaning", "statement": "Resolving the references of every grouping set against the emitted list of grouping expressions gives back the original expressions in order.", "quantifier": "every list of grouping sets", "why_tests_cant": "unbounded lists of lists", "anchors": ["plan/plan.go: groupingExprs", "plan/relations.go: AggregateRel.directOutputSchema"]}
{"id": "C37", "title": "Parameter bindings are checked against the plan's dynamic parameters", "statement": "If binding validation succeeds, every binding names a parameter that occurs in the plan and its value has that parameter's type up to nullability. Conversely every binding of an occurring parameter with the right type is accepted. (The converse is false for parameters occurring in unwalked relations.)", "quantifier": "every plan and every list of bindings", "why_tests_cant": "plans are unbounded trees", "anchors": ["plan/common.go: ValidateParameterBindings, collectDynamicParams, walkRelExprs"]}
{"id": "C38", "title": "Expression rewriting covers every expression of a relation", "statement": "CopyWithExpressionRewrite with f applies f to every expression of the relation exactly once and leaves the original unchanged; when f changes nothing the same relation is returned. (False for virtual tables, hash/merge joins.)", "quantifier": "every relation and every rewrite function", "why_tests_cant": "quantifies over all functions and relations", "anchors": ["plan/relations.go: CopyWithExpressionRewrite methods"]}
{"id": "C39", "title": "Getters do not expose internal state", "statement": "Modifying the slice returned by OutputMapping does not change the relation.", "quantifier": "every relation, every later write to the returned slice", "why_tests_cant": "aliasing over all later histories", "anchors": ["plan/common.go: RelCommon.OutputMapping"]}
{"id": "C40", "title": "Computing a schema does not change any other schema", "statement": "Calling RecordType() on an outer/left/right join leaves the schemas of its inputs unchanged. (False when the left schema's slice has spare capacity or the right side has no columns.)", "quantifier": "every slice layout (length, capacity, sharing) of the inputs", "why_tests_cant": "depends on slice capacities, which tests do not control", "anchors": ["plan/relations.go: JoinRel.directOutputSchema", "types/types.go: RecordType.Concat"]}
{"id": "C41", "title": "Time-of-day and interval constructors accept exactly the valid values", "statement": "NewTime(h,m,s,us) succeeds exactly when the time of day lies in [0, 24h), and then stores its microseconds. (False for hours so large that the duration overflows.)", "quantifier": "all int32 arguments", "why_tests_cant": "2^128 argument combinations", "anchors": ["literal/utils.go: NewTime, NewTimeFromMicros"]}
{"id": "C42", "title": "Homogeneous list and map literals", "statement": "A list or map literal constructor succeeds exactly on non-empty inputs whose elements are non-nil and share one type (nullability included), and the resulting type's element type is that type.", "quantifier": "every list of elements", "why_tests_cant": "unbounded lists", "anchors": ["literal/utils.go: NewList, NewMap, hasTypeMismatch"]}
{"id": "C43", "title": "Virtual table rows have the schema's width", "statement": "A virtual table built from rows has one value per column in every row. (False: only the first row is checked.)", "quantifier": "every list of rows", "why_tests_cant": "unbounded lists of rows", "anchors": ["plan/builders.go: VirtualTableFromExprRemap"]}
{"id": "C44", "title": "In-predicate subqueries have one needle per haystack column", "statement": "An IN-predicate subquery is accepted exactly when the number of needles equals the number of columns of its haystack; a scalar subquery exactly when its relation has one column. (The last part is false: the relation of a scalar subquery is not checked, and its type panics.)", "quantifier": "every needle list and every relation", "why_tests_cant": "unbounded lists", "anchors": ["plan/builders.go: InPredicate, ScalarSubquery", "plan/subquery.go"]}
{"id": "C45", "title": "Re-expressing a literal with another type", "statement": "When a literal is re-expressed with another type of its kind, the result states exactly the requested type, and its value is the same value in the new units: the same decimal number, the same instant when the precision gets finer, the instant rounded down to the unit when it gets coarser. A decimal is converted exactly when its number is representable at the target precision and scale. (False for the target's type variation on decimals, for intervals whose unit is not the target's, and lengths of fixed-length values are not checked.)", "quantifier": "every literal and every target type", "why_tests_cant": "values and types are unbounded; each pair of precisions is a separate conversion", "anchors": ["expr/literals.go: WithType methods, newDecimalWithType, newPrecisionTimestampWithType", "literal/utils.go"]}
{"id": "C46", "title": "Checked conditionals have one type", "statement": "NewIfThen accepts exactly the conditionals whose results all have the type of the else clause; NewSwitch exactly those whose keys have the subject's type and whose results have one type, nullability aside; both answer the conditional they were given unchanged.", "quantifier": "every list of clauses", "why_tests_cant": "unbounded lists of clauses and nested types", "anchors": ["expr/expression.go: NewIfThen, NewSwitch"]}
{"id": "C47", "title": "Functions called by name resolve to one declaration", "statement": "A scalar, aggregate or window call built by name uses the declaration of that name or, failing that, the one whose name is completed with the argument types; it carries that declaration's result type and the anchor of its full name, and is determined by the name, the arguments and the set.", "quantifier": "every collection, name and argument list", "why_tests_cant": "collections and argument lists are unbounded", "anchors": ["expr/functions.go: NewScalarFunc, NewAggregateFunc, NewWindowFunc, resolveVariant"]}
{"id": "C48", "title": "Every expression has at most one type, given by its parts", "statement": "The type of an expression is determined by its kind and the types of its parts: that of the literal, of the part a field reference leads to, of the declared result, of the else clause or the first nullable branch, and composed types for nested expressions and lambdas.", "quantifier": "every expression", "why_tests_cant": "expressions nest without bound", "anchors": ["expr/expression.go: GetType methods", "expr/lambda.go: GetType", "plan/subquery.go: GetType"]}
{"id": "C49", "title": "IsScalar is exact", "statement": "IsScalar answers true exactly for the expressions whose value is computed without a window function or a lambda, at any depth.", "quantifier": "every expression without nil operands", "why_tests_cant": "expressions nest without bound", "anchors": ["expr/expression.go: IsScalar methods", "expr/functions.go: IsScalar"]}
{"id": "C50", "title": "Dialect files: what is accepted and what it declares", "statement": "A decoded dialect file is accepted exactly when it declares types, at least one function, and every function is named dependency.name with a known dependency and has kernels made of known type names; every kernel then declares one function (any-words are kept as any, an empty local name means the function's own), the last declaration of an identity counting.", "quantifier": "every decoded dialect file", "why_tests_cant": "unbounded lists of functions and kernels", "anchors": ["functions/dialect.go: validate, validateFunction, validateAndFixKernels, buildFunctionInfoMap, Load"]}
{"id": "C51", "title": "Looking a function up by invocation", "statement": "The local function of an invocation is the one declared last under the invocation's identity; it is answered exactly when the dialect can express every argument type and names every requested option value (ignoring case). (If the same identity is declared for two kinds, looking up the other kind panics.)", "quantifier": "every local registry and every invocation", "why_tests_cant": "registries, argument lists and option lists are unbounded", "anchors": ["functions/local_functions.go: GetScalarFunctionByInvocation, getFunctionVariantByInvocation, makeLocalFunctionVariantsMap", "functions/registries.go: IsOptionSupported"]}
{"id": "C52", "title": "The output schema of every relation kind", "statement": "The columns of a relation are those its kind prescribes from the columns of its inputs and the types of its expressions (reads: the base schema; project: the input's columns then the expressions; aggregate: the grouping columns of every set in order, then the measures; fetch, sort, filter: the input's; set operations: the first input's; table writes: the table's or none, by output mode; extensions: what their definition answers), followed by the output mapping; a mapping entry out of range panics.", "quantifier": "every relation tree", "why_tests_cant": "relations nest without bound and carry any mapping", "anchors": ["plan/relations.go: RecordType, directOutputSchema methods", "plan/common.go: remap"]}
{"id": "C53", "title": "Whole plans survive a proto round trip", "statement": "A plan written to a message and read back with the same collection is the same plan (version, advanced extension, URLs, roots with their names, other relations, bindings) with a set of declarations that answers alike, exactly when its relations and binding values survive and every root has one name per column, counting nested struct fields; a message whose declarations are unusable or that holds an unset relation is refused.", "quantifier": "every plan and every consistent set of declarations, whatever the order its tables are iterated in", "why_tests_cant": "plans hold any number of relation trees, bindings and declarations; map iteration order is random", "anchors": ["plan/plan.go: FromProto, FromProtoWithDecoder, ToProto, Relation.FromProto, Root.ToProto, GetRoots, GetNonRootRelations", "extensions/extension_mgr.go: GetExtensionSet, ToProto"]}
{"id": "C54", "title": "Every function call of a plan that was read is declared", "statement": "After reading a plan message whose declarations number the functions from 1 without gaps, every function call anywhere in its relations (also in inputs, join keys, sorts, measures and subqueries) refers to an anchor the set declares, and the declaration is that of the function the call carries. (With gaps in the numbering the claim fails: an unknown function renamed on reading may take over another function's anchor.)", "quantifier": "every plan message and every collection", "why_tests_cant": "relations and expressions nest without bound", "anchors": ["plan/plan.go: FromProto, RelFromProto", "expr/expression.go: ExprFromProto", "extensions/extension_mgr.go: GetExtensionSet, GetFuncAnchor"]}
{"id": "C55", "title": "A printed type definition reads back as itself", "statement": "The text printed for a function-signature type (simple, parameterized with numbers or variables, any, list, map, struct, user-defined, function with one parameter, or one of these with a derivation program in front) is accepted by the type parser, and however the grammar is applied to it the type that was printed is read; so two such types with the same text are equal. (False for functions with several or no parameters, and for derivation programs with nested conditionals or negations as operands, whose parentheses are not printed.)", "quantifier": "every function-signature type with required or nullable parts and proper names", "why_tests_cant": "types and expressions nest without bound", "anchors": ["types/parser/parse.go: ParseType", "types/parser/visitor.go", "types/parser/util/error_listener.go: TransformPanicToError", "types/types.go: String methods", "types/parameterized_*.go: String", "types/type_derivation.go: String"]}
{"id": "C56", "title": "What the type parser can answer", "statement": "The types read from texts are exactly those whose parts are required or nullable, without variation, with 32-bit parameters, proper names and lower-case function names; what a text says follows the grammar token by token; reading never panics. (Parameters beyond 32 bits are cut silently; compound intervals are accepted by the grammar and always fail.)", "quantifier": "every text and every type definition", "why_tests_cant": "texts are unbounded", "anchors": ["types/parser/parse.go: ParseType, TypeExpression.UnmarshalYAML", "types/parser/visitor.go"]}
{"id": "C57", "title": "A concrete type is named by its text", "statement": "The text of a concrete type is read back as the definition of exactly that type, and two concrete types have the same text exactly when they are the same type, variations aside. (False for user-defined types, the two year-month interval kinds and unspecified nullability.)", "quantifier": "every concrete type with required or nullable parts", "why_tests_cant": "types nest without bound", "anchors": ["types/types.go: String methods", "types/interval_*.go", "types/parser/parse.go: ParseType"]}
{"id": "C58", "title": "Letter case and blanks in type texts", "statement": "Texts that differ only in the case of letters say the same type, the case of names aside; a run of blanks between words and symbols can be replaced by any other. (Characters that belong to no rule are passed over, so texts with stray characters are accepted.)", "quantifier": "every text", "why_tests_cant": "texts are unbounded", "anchors": ["types/parser/baseparser/substraittype_lexer.go", "types/parser/parse.go: ParseType", "types/parser/visitor.go: VisitFunctionCall"]}
{"id": "C59", "title": "The round trip of extended expressions", "statement": "Writing an extended expression and reading it back gives the same version, entries (output names, expression or measure), base schema, advanced extension and expected type URLs, with a set of declarations that answers every question alike, exactly when the schema and every entry survive on their own. After reading, every call in an entry is declared; an entry holds what was put in last, an expression or a measure, never both. (A subquery is written but cannot be read; a value assembled by hand cannot be written; the public set of declarations is ignored on writing.)", "quantifier": "every extended expression, message and collection, and every sequence of assignments to an entry", "why_tests_cant": "expressions nest without bound; the entries share one set of declarations that grows while reading", "anchors": ["expr/expression.go: Extended, ExtendedFromProto, Extended.ToProto, ExpressionReference, NewExpressionReference, NewMeasureReference, SetExpr, SetMeasure"]}
{"id": "C60", "title": "Dates and their texts", "statement": "A date value is a number of days from 1970-01-01 and prints the day of the proleptic Gregorian calendar that many days away: year, month and day. NewDateFromString accepts exactly the texts of four, two and two digits that name a day that exists, and gives the number of that day; everything else is an error. What a date prints is read back as the same date exactly in the years 0 to 9999.", "quantifier": "all int32 day numbers and all strings", "why_tests_cant": "leap years, centuries, the days before 1970 and every malformed text cannot be enumerated; tests try a handful of dates", "anchors": ["types/types.go:Date.ToTimeString", "literal/utils.go:NewDateFromString", "literal/utils.go:NewDate"]}
{"id": "C61", "title": "Texts of times and timestamps", "statement": "The ISO and value texts of times and timestamps show date, clock and fraction of exactly the instant the value stands for, at every precision. The constructors that read texts accept exactly a date and a clock with or without an offset, or a clock alone, and give the instant they say in units of the type; anything else is an error. The ISO text of a value is read back as the same value.", "quantifier": "all int64 values, all precisions, all strings", "why_tests_cant": "every instant, fraction, offset and malformed text would have to be tried; the two conversions are written by different routines and must agree on all of them", "anchors": ["types/types.go:Time.ToIsoTimeString", "types/types.go:Timestamp.ToIsoTimeString", "types/types.go:TimestampTz.ToTimeString", "expr/literals.go:ProtoLiteral.IsoValueString", "expr/literals.go:ProtoLiteral.ValueString", "literal/utils.go:parseTimeFromString", "literal/utils.go:NewTimeFromString", "literal/utils.go:NewTimestampFromString", "literal/utils.go:NewPrecisionTimestampFromString", "literal/utils.go:NewPrecisionTimeFromString"]}
{"id": "C62", "title": "Texts of day-time intervals", "statement": "NewIntervalDaysToSecondFromString accepts exactly the ISO 8601 durations of days, hours, minutes and seconds (an optional fraction, no signs) whose counts fit; everything else is an error. Whole counts are read exactly; a fraction of up to nine digits is read as written or one nanosecond short, and exactly if it is a multiple of 1/512. From one second on, the ISO text of an interval says exactly the stored time and is read back as that time or one nanosecond less. (Below one second the text is no ISO duration: milliseconds are read back as minutes, finer times, zero and negative times are not read; counts are cut to 32 bits.)", "quantifier": "all strings; all stored intervals of every precision", "why_tests_cant": "the reader computes with float64, whose rounding depends on every digit; every text and every stored interval would have to be tried", "anchors": ["literal/utils.go:NewIntervalDaysToSecondFromString", "literal/utils.go:parseIntervalDaysToSecond", "expr/literals.go:ProtoLiteral.IsoValueString"]}
{"id": "C63", "title": "Texts of decimals", "statement": "DecimalStringToBytes and NewDecimalFromString accept exactly an optional sign, digits with at most one point among them and an optional power of ten, if the number needs at most 38 digits and its places and power are within 100000; everything else is an error. The bytes hold exactly the number the text says, at the scale it is written with, and the precision is the number of digits it needs. A plain text of a stored number is read back as the same bytes. (Blanks around a number are refused, although the code means to trim them.)", "quantifier": "all strings", "why_tests_cant": "every combination of digits, point, sign and power would have to be tried", "anchors": ["expr/decimal_util.go: DecimalStringToBytes", "literal/utils.go:NewDecimalFromString"]}
{"id": "C64", "title": "Reading function test files", "statement": "From the syntax tree of a test file, parsing a test file returns one case for every case written, in order, each with the function URI of the first include, the description of its group without its hash sign and outer blanks, the function's name, its arguments, its options (the last value given for a name) and its expected result (a value, an error, or undefined). A file is read if and only if every part of it says something; anything else is an error, and reading never panics. (A group without a description, which the grammar allows, makes the whole file unreadable.)", "quantifier": "all syntax trees of test files: any number of groups, cases, arguments and options", "why_tests_cant": "the cases, groups and values of a file combine without bound; tests parse a few files", "anchors": ["testcases/parser/visitor.go: VisitDoc, VisitTestCase, VisitAggFuncTestCase", "testcases/parser/parse.go: ParseTestCasesFromString", "testcases/parser/nodes.go: TestFile, TestCase"]}
{"id": "C65", "title": "Values of test case arguments", "statement": "An argument of a test case is read exactly if its text says a value of the type declared for it, and the result is that value, with the declared type, its nullability, precision, scale and length, and with the text kept; a null needs a nullable type. A list is read exactly if each element says a value and all the values have one type; what is read is the list under the declared type. The value's type is always the declared type. (Recorded as findings: numbers and type parameters that do not fit are cut, list elements need not be of the element type or disappear, some empty and null elements are refused, fixedchar lengths are not checked, a null changes a required day-time interval type.)", "quantifier": "all argument texts, all declared types, lists nested to any depth", "why_tests_cant": "every text of every type is a different input; rounding, cutting and nullability go wrong only for particular combinations", "anchors": ["testcases/parser/visitor.go: VisitArgument, VisitLiteral, VisitLiteralList, VisitDataType, getLiteralFromString", "testcases/parser/nodes.go: updateLiteralType"]}
{"id": "C66", "title": "Aggregate calls in test cases", "statement": "The call of an aggregate test case is read exactly if its parts say something: the values of a column have the type of the column where that type can be written as a number or a string, nulls have that type made nullable and make the column's type nullable; the types of the columns are those declared for the table, or those of the arguments naming the columns; arguments name columns that exist, of the table given; constant arguments are read by themselves. What is returned are the function's name, the arguments with their columns and types, the columns and their types. (Recorded as findings: constants, values and intervals of other types are kept, cells beyond the last column are dropped, a null in an unnamed column or a call on no rows makes the file unreadable, arguments disagreeing on a column's type are accepted.)", "quantifier": "all calls: any number of rows, columns and arguments, all texts", "why_tests_cant": "whether a cell, type and argument fit shows only for the combination of all three, over tables of any size", "anchors": ["testcases/parser/visitor.go: VisitCompactAggregateFuncCall, VisitMultiArgAggregateFuncCall, VisitSingleArgAggregateFuncCall, getColumnsFromRows, getLiteral", "testcases/parser/nodes.go: newAggregateArgument"]}
{"id": "C67", "title": "Calls from test cases", "statement": "The call a test case gives invokes the function named by the file's URN, the function's name and the argument types as declared, or, if that cannot be called, the first registered function of that URN and name that takes so many arguments of these types. Its arguments are the case's values in order (for aggregates: the constants, and references to the columns named), its options are exactly the case's options, each with its value as the only preference; aggregate calls are over all values, initial to result, unsorted. A case of the other kind gives no call. The data of an aggregate case are its columns or, without columns, the values of its arguments. (Recorded as findings: a case using only a later column gives no call; references take the type of the argument at the position of the column's number instead of the column's type.)", "quantifier": "all test cases, collections, registries, matching and type resolution functions, option orders", "why_tests_cant": "the choice depends on every function registered and on the order of registration and of the options", "anchors": ["testcases/parser/nodes.go: GetScalarFunctionInvocation, GetAggregateFunctionInvocation, GetAggregateColumnsData, GetFunctionOptions, GetArgTypes, ID, CompoundFunctionName"]}
{"id": "C68", "title": "Declared function arguments", "statement": "Every argument of a function in an extension file is read as an enum argument if it has options, otherwise as a value argument if it has a value, otherwise as a type argument; with its name, description, constant flag and the type its text says, in order; what is refused with an error and what stops the program is exactly determined. Each argument has one word (the short name of its type, req for enums, type for type arguments, u! and the name for user-defined types), and a call by the bare name of a function whose arguments match one of its implementations uses that implementation. Unless user-defined types have underscores in their names, two signatures get the same compound name only if their words agree one by one. The user-defined types found in a signature are exactly those mentioned anywhere in its arguments, result and (aggregate, window) intermediate type, so a file that loads declares all of them. (Recorded as findings: an implementation declared with a type variable is not found by the bare name; a user-defined type with an underscore can collide with another signature.)", "quantifier": "all decoded argument maps, declared types of any depth, signatures, argument types, collections", "why_tests_cant": "types nest to any depth and names are joined from any number of arguments", "anchors": ["extensions/simple_extension.go: FuncParameterList.UnmarshalYAML, toTypeString, signatureKey, ScalarFunction.UnmarshalYAML", "extensions/validation.go: functionTypes, validateUserDefinedTypeReferences", "types/parameterized_user_defined_type.go: ReferencedUserDefinedTypes", "types/parser/parse.go: TypeExpression.UnmarshalYAML", "types: ShortString of declared types"]}
{"id": "C69", "title": "What test cases print", "statement": "Every test case read from a file of function tests prints its function's name, its arguments, its options in whatever order the map gives them and its result, and an aggregate function on a table first the rows of the table; each argument prints its value followed by its type. The text is determined to the letter: signs and digits of numbers, quotes, ISO forms of dates, times and intervals, null, lists, errors. Options printed in any order are read as the same options. An argument printed and read again under its declared type is the same value, except for exactly the kinds listed: bytes, lists, day-time intervals that are not whole nonnegative seconds, instants outside the years 0 to 9999 or finer than printed. (Recorded as findings: those, and that an interval of a precision above nine is read but makes printing panic.)", "quantifier": "all parsed test files, cases, option orders, literals", "why_tests_cant": "literals nest to any depth; tables have any size; maps are ranged over in any order", "anchors": ["testcases/parser/nodes.go: TestCase.String, CaseLiteral.String, literalToString, AsAggregateArgumentString, getAggregateFuncTableString, getOptionString", "expr/literals.go: ValueString, IsoValueString", "testcases/parser/visitor.go"]}
{"id": "C70", "title": "Floating point numbers of test cases", "statement": "A floating point argument of a test case is read exactly if its text is a decimal number (digits, single underscores between digits, a point, a power of ten), a signed infinity or nan in any case; what is read as fp64 is the float64 nearest to the number, ties to even, down to the least subnormal, with the sign of zero kept, and a number that is rounded beyond the largest float64 is refused, never read as an infinity. What is read as fp32 is the float32 nearest to that float64. (Recorded as findings: that is not always the float32 nearest to the number written, and a number beyond the largest float32 is read as an infinity without an error.)", "quantifier": "all texts, all float64 bit patterns", "why_tests_cant": "texts are unbounded and the float64 values too many; rounding differs on single ties among 2^64 values", "anchors": ["testcases/parser/visitor.go: getFloatLiteral, VisitFloatArg, getLiteralFromString", "literal/utils.go: NewFloat32, NewFloat64"]}
{"id": "C71", "title": "What decimals print, and reading it back", "statement": "The text of a decimal literal's value is its sign, its digits without zeros in front and exactly as many places as its scale, or, with a negative scale or six and more zeros after the point, one digit, a point, the other digits and a power of ten. Every text says the very number printed. Read again it gives the same bytes and the same scale, with the precision its digits need, exactly if that is at most 38; otherwise it is refused. (Recorded as a finding: a decimal with 38 places prints a text that cannot be read.)", "quantifier": "all sixteen bytes, all int32 scales but the least", "why_tests_cant": "2^128 values times 2^32 scales; the form of the text changes at single digit counts", "anchors": ["expr/decimal_util.go: decimalBytesToString, DecimalStringToBytes", "expr/literals.go: ValueString", "literal/utils.go: NewDecimalFromString"]}
{"id": "C72", "title": "Which parameters a declared type reports", "statement": "A declared parameter type says it has parameters exactly if an integer in it is left to a name: its own, or one of an element, key, value, field, argument, result or derivation's final type. It then reports its own integers, or exactly those of its parts that depend on a name, in order; otherwise it reports nothing. (Recorded as a finding: of the parameters of a user-defined type only the first type is asked, so a name in a later one is overlooked.)", "quantifier": "all declared types, of any depth and width", "why_tests_cant": "declared types nest without bound; a list of examples cannot show that no part is left out", "anchors": ["types/parameterized_*.go: HasParameterizedParam, GetParameterizedParams", "types/any_type.go: AnyType", "types/type_derivation.go: OutputDerivation"]}
{"id": "C73", "title": "What expressions print", "statement": "The text of an expression, literal, field reference, function call, conditional, list, cast, nested value, lambda or subquery is exactly the one given by its form and the texts of its parts: every part is there, once, in order, with its separators, names of enumeration values and types; empty clauses are left out. Printing panics exactly if a part that is printed directly is missing or panics, or a literal's value does not fit its type, or a sort order or path is missing; a missing part printed through fmt is marked instead. (Recorded as findings: every field reference that selects by a mask panics when printed, and so does every aggregate function read from a plan that the collection does not declare.)", "quantifier": "all expressions, of any depth, with any parts missing", "why_tests_cant": "expressions nest without bound in eighteen kinds; whether String can panic depends on all parts", "anchors": ["expr/literals.go: String", "expr/field_reference.go: String", "expr/functions.go: String", "expr/expression.go: String", "expr/lambda.go: Lambda.String", "plan/subquery.go: String", "types/types.go: SortDirection.String, FunctionRef.String"]}
{"id": "C74", "title": "A cloned aggregate function is independent of its original", "statement": "Programs that clone aggregate functions built from slices of their own, set their arguments, replace options, and set or append sorts, see plain values: a clone shows what its original shows at that moment, nil slices stay nil, and what is later done to one function is never seen through another. An operation panics exactly if its index is out of range. An option is found by the first of its name. (Recorded as findings: the option messages themselves are shared between a clone and its original, and two functions built from one arguments slice share it.)", "quantifier": "all programs of clones, assignments and appends, of any length, over any functions with separate storage and any capacities", "why_tests_cant": "sharing shows only after particular sequences of clones and writes, and appends depend on capacities", "anchors": ["expr/functions.go: AggregateFunction.Clone, SetArg, GetOption, GetOptions, Sorts, NewCustomAggregateFunc", "plan/relations.go: rewriteAggregateFunc"]}
{"id": "C75", "title": "The default collection under every schedule", "statement": "However many goroutines ask for the default collection, and however they are interleaved, the embedded files are loaded at most once, all callers get the same answer, at all times: the one collection holding every supported file, loaded in directory order and never seen half loaded, or, if a file cannot be opened, decoded or loaded, the error (a panic in the form without an error). Nobody waits for ever, and what the default files declare stays found whatever is loaded besides. (Recorded as a finding: the collection is shared; a file one caller loads into it is there for all.)", "quantifier": "all directories, numbers of goroutines and schedules of their single steps, of any length", "why_tests_cant": "a race shows only under particular interleavings, which a test run does not control", "anchors": ["extensions/extension_mgr.go: GetDefaultCollection, GetDefaultCollectionWithNoError, loadDefaultCollection, loadExtensionFile, getDefaultCollectionOnce"]}
{"id": "C76", "title": "Function variants made on the fly, and those of declared functions", "statement": "A variant made from a name and options has exactly the name, argument types and properties asked for, with decomposition NONE and window type PARTITION as defaults; making one never returns an error and panics exactly if an argument type of the name cannot be read, or the function is decomposable without a readable intermediate type. Its compound name spells the types by their short names, and is the one it was made from exactly if that has a colon and used the short names. A declared function has one variant per implementation, in order, as declared, with the same defaults. (Recorded as findings: a name without a colon gets one; a MaxSet of 2^63 or more becomes negative; a variant made on the fly fails to match arguments of its own types; asking for its result type panics; ResolveURN does not fill in the defaults that GetVariants fills in.)", "quantifier": "all names, type parsers, options, argument lists and declared functions", "why_tests_cant": "names and options are unbounded; the panics and the failures to match depend on which field was left empty", "anchors": ["extensions/variants.go: parseFuncName, NewScalarFuncVariant, NewScalarFuncVariantWithProps, NewAggFuncVariant, NewAggFuncVariantOpts, NewWindowFuncVariant, NewWindowFuncVariantOpts, ScalarFunctionVariant, AggregateFunctionVariant, WindowFunctionVariant", "extensions/simple_extension.go: GetVariants, ResolveURN"]}
{"id": "C77", "title": "The tokens of a function test file", "statement": "Every text has exactly one division into tokens: at each place the longest token there is, and of the kinds it could be the one of highest precedence; white space and comments are left out; where no token starts, what could have become one is dropped with the character after it. A word before an opening parenthesis can name a function exactly if it has no other meaning. (Recorded as findings: functions with names like s, error, v1 or col2 cannot be tested; characters without a meaning are dropped silently; an unclosed quote drops the rest of the file; block comments hold one character; strings that look like dates are dates.)", "quantifier": "all texts, words and continuations", "why_tests_cant": "texts are unbounded, and longest match and precedence depend on everything that follows", "anchors": ["testcases/parser/baseparser/functestcase_lexer.go: NewFuncTestCaseLexer", "testcases/parser/parse.go: parseTestCasesFromStream"]}
{"id": "C78", "title": "What is read from the text of a function test file", "statement": "A text has a parse tree exactly if its tokens are those the tree is written with under the grammar of test files, no text has two, and reading the text returns exactly what the tree says, or an error if there is no tree or it says nothing; it never panics, and depends on the tokens only. Every scalar case has an argument and every group a case; no number is hexadecimal. (Recorded as findings: functions without arguments cannot be tested; strings that look like dates, times or intervals and integers with leading zeros are refused; misspelt files are read as something else, and an unclosed quote hides the cases after it; dependencies are not read.)", "quantifier": "all texts", "why_tests_cant": "the grammar is recursive and texts are unbounded; that no text is read in two ways cannot be tested", "anchors": ["testcases/parser/baseparser/functestcase_parser.go", "testcases/parser/parse.go: ParseTestCasesFromString, ParseTestCasesFromFile, parseTestCasesFromStream, parseTestCases", "testcases/parser/visitor.go"]}
{"id": "C79", "title": "Expression builders remember the last call and are read when built", "statement": "After any history of calls on any number of builders, a builder has what it was made with and, for each property, the value of the last call that gives it to this builder, or the zero value; calls on other builders do not touch it. Building it returns what the expression described by it, with the builders it refers to as they are at that moment, builds to; a builder describes at most one expression, and exactly one if builders are only given builders of expressions made before them, so that building returns. A nil builder panics. (Recorded as findings: a builder can be made an argument of itself, and building it never returns; what is done to an argument later changes the outer builder; after a panic in the body of a lambda its parameters stay in scope.)", "quantifier": "all histories of calls that make and change builders, all states of the registry and scopes", "why_tests_cant": "histories are unbounded, builders are shared between expressions, and tests build each once right after making it", "anchors": ["expr/builder.go: ExprBuilder, scalarFuncBuilder, windowFuncBuilder, aggregateFuncBuilder, castBuilder, lambdaBuilder, lambdaParamRefBuilder, dynamicParamBuilder, fieldRefBuilder"]}
{"id": "C80", "title": "Registries that are copied and their decoders", "statement": "Registries are values: programs make them, copy them, set their converter of subqueries and register decoders of extension relations in them. After any such history a registry finds for a type URL the decoder of the first registration for it at a registry that shares its decoders, or nil if there was none; a registration is refused exactly if there was one already, and changes nothing then. A copy shares decoders with its original, and with what shares them, exactly if the original had any when it was copied. Registrations elsewhere are not seen; a decoder found once is found for good. A copy has the extension set and the converter of its original at that moment, and setting a converter changes one registry only. (Recorded as findings: a copy made before the first registration never sees decoders registered in the original, one made after it sees all; a nil decoder cannot be found but blocks the type URL.)", "quantifier": "all histories of making, copying, setting and registering, of any length", "why_tests_cant": "whether two registries share a map depends on the order of copies and registrations, and histories are unbounded", "anchors": ["expr/utils.go: ExtensionRegistry, NewExtensionRegistry, SetSubqueryConverter, SetExtensionRelDecoder, ExtensionRelDecoderFor"]}
{"id": "C81", "title": "Setting the nullability of a declared type", "statement": "Setting the nullability of a declared parameter or result type changes that and nothing else: parts, parameters, variations, bindings, short name and the arguments accepted apart from nullability stay. The last setting counts. Arguments accepted with nullability are exactly those of the nullability set that were accepted but for theirs; parts keep the nullability declared for them. The text gains or loses one question mark. The result type computed from it is the same but for the nullability, and for an any type it is the argument's, nullable if that was set. (Recorded as a finding: of a primitive type or an enumeration the result type is the declared object itself, so that setting the declared type changes result types obtained before.)", "quantifier": "all declared types of any depth, nullabilities, arguments and sequences of settings", "why_tests_cant": "declared types nest without bound in eleven kinds, each with a method of its own", "anchors": ["types/types.go: FuncDefArgType, PrimitiveType.SetNullability, EnumType.SetNullability, ReturnType", "types/any_type.go: SetNullability", "types/parameterized_*.go: SetNullability", "types/type_derivation.go: OutputDerivation.SetNullability"]}
{"id": "C82", "title": "Aggregate builders and relations do not affect each other", "statement": "However builders of aggregate relations and the relations share memory, each behaves as a value of its own: a call changes what a builder holds only if it is a call of that builder, and then by exactly the expression, grouping set, rollup or cube added, or by clearing it; a built, copied or read relation shows for ever the expressions and groupings it showed first, whatever is done later to its builder, to builders made from it or to copies. New builders are empty or hold what the relation shows. A rollup adds the prefixes of the references given, longest first; a cube adds every non-empty selection in the order of binary numbers, in slices of its own, and nothing for more than twenty references. The references inside a grouping change only if the caller writes to the slice given. (Recorded as a finding: they do change then, in relations already built too.)", "quantifier": "all histories of calls on any number of builders and relations, all growth policies of append, relations read with any spare capacity, and all expressions and references", "why_tests_cant": "whether two slices share an array, and whether an append shows through, depends on the whole history of appends, builds and conversions and on the runtime's choice of capacities", "anchors": ["plan/builders.go: AggregateRelBuilder, AddExpression, AddGroupingSet, AddRollup, AddCube, ClearGrouping, Build", "plan/relations.go: AggregateRel.ToBuilder, AggregateRel.Copy, GroupingExpressions, GroupingReferences"]}
{"id": "C83", "title": "Relations as objects that others are built on", "statement": "The schema of a relation is the one its inputs and its mapping give at that time. Whatever is called, it stays as long as no read relation it is built on is remapped: building on a relation, copying it and remapping it or others leave it alone. Remapping within range returns a relation with exactly the columns selected, however many mappings are already in place; out of range it is refused, and every call that fails changes nothing. A copy is a new relation with the inputs given and the same mapping; the copy of a read is the read itself. The builder makes a new relation with the columns of its inputs, selected, and refuses exactly positions out of range, missing inputs and projections without expressions. (Recorded as a finding: remapping a read changes relations built on it before: they show other columns, or computing their schema panics.)", "quantifier": "all histories of building, copying and remapping any number of relations that share inputs to any depth", "why_tests_cant": "whether a call shows in another relation depends on which objects earlier calls shared, over histories of any length", "anchors": ["plan/relations.go: RemapHelper, Copy, GetInputs, RecordType, directOutputSchema", "plan/builders.go: NamedScanRemap, ProjectRemap, FetchRemap, CrossRemap", "plan/common.go: RelCommon.remap, RelCommon.setMapping"]}
{"id": "C84", "title": "Builders, their plans and the extensions they share", "statement": "Every request for an anchor made of a builder, or of the registry of a plan it built, is answered with the number of the id among the different ids of that kind asked of that builder and its plans so far. An anchor stands in a builder, and in each of its plans, for exactly that id; this never changes whatever is called later, and requests made of other builders or of their plans change nothing here. Writing a plan declares exactly those ids, under their anchors, that were asked of its builder and of the plans of its builder until then. Requests of a builder or plan that is not there panic and change nothing. (Recorded as a finding: a plan is not finished when it is built; extensions asked of its builder later are declared by the plan too.)", "quantifier": "all histories of making builders, building plans and asking builders and plans for anchors, up to the 32-bit limit of anchors", "why_tests_cant": "which set a request changes depends on which builder built which plan, over histories of any length", "anchors": ["plan/builders.go: NewBuilder, GetFunctionRef, UserDefinedType, GetExprBuilder, PlanWithBindings", "plan/plan.go: Plan.ExtensionRegistry", "extensions/extension_mgr.go: set.GetFuncAnchor, set.GetTypeAnchor, set.DecodeFunc, set.DecodeType"]}
