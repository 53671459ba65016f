import json
P=[]
def p(title, statement, quantifier, why, anchors):
    P.append(dict(id="C%02d"%(len(P)+1), title=title, statement=statement, quantifier=quantifier, why_tests_cant=why, anchors=anchors))

p("Type messages survive a decode/encode round trip",
  "TypeToProto(TypeFromProto(m)) is m for every well-formed type message m (all kinds, arbitrarily nested), and TypeFromProto(TypeToProto(t)) is t for every type t the encoder supports. Kinds for which this is false (interval_compound, whose decoded form the encoder rejects with a panic) are identified exactly.",
  "every protobuf type message and every Go type value, of any nesting depth, with any nullability, variation reference and parameters",
  "type terms are recursive and unbounded; tests check a few literals per kind",
  ["types/types.go: TypeFromProto, TypeToProto, TypeParamFromProto, UserDefinedType.ToProto, FuncType.ToProto", "types/interval_compound_type.go: IntervalCompoundType", "types/interval_day_type.go: IntervalDayType"])
p("Type equality is structural and an equivalence relation",
  "a.Equals(b) answers true exactly when a and b are structurally the same type (same kind, nullability, variation reference, parameters, and recursively equal components); hence it is reflexive, symmetric and transitive.",
  "every pair and triple of types of any depth",
  "symmetry and transitivity quantify over all pairs and triples of an infinite set",
  ["types/types.go: StructType.Equals, ListType.Equals, MapType.Equals, UserDefinedType.Equals, FuncType.Equals, PrimitiveType.Equals, FixedLenType.Equals, DecimalType.Equals"])
p("WithNullability changes the nullability and nothing else",
  "t.WithNullability(n) has nullability n, agrees with t on everything else, is idempotent and last-write-wins, and leaves t itself unchanged. For IntervalDayType the last part is false: the receiver is modified in place.",
  "every type, every nullability, every store that contains the type",
  "an aliasing effect is visible only to code that kept an older reference; tests look at the returned value",
  ["types/types.go: WithNullability methods", "types/interval_day_type.go: IntervalDayType.WithNullability"])
p("Depth-first field names: count and root-name validation",
  "The number of names a schema needs is the number of struct fields in it counted depth first through structs, lists and maps; printing a named struct consumes exactly that many names; a plan root is accepted exactly when it carries that many names.",
  "every schema of any depth and every list of names",
  "schemas are recursive; tests check one nesting shape",
  ["types/types.go: NamedStruct.String, DepthFirstNameCount, nestedNameCount", "plan/plan.go: validateRootNamesForSchema"])
p("Parameterized argument types accept exactly their instances",
  "A function-definition type accepts a concrete type if and only if the concrete type is an instance of it: same constructor, each concrete integer parameter equal, each variable parameter free, and (when nullability is respected) the same nullability at each level. Matching with nullability implies matching without.",
  "every parameterized type and every concrete type, of any depth",
  "both sides are recursive and unbounded",
  ["types/parameterized_decimal_type.go", "types/parameterized_list_type.go", "types/parameterized_map_type.go", "types/parameterized_struct_type.go", "types/parameterized_single_integer_param_type.go", "types/parameterized_func_type.go", "types/integer_parameters/"])
p("Argument-count acceptance of a function signature",
  "A call is accepted on count grounds exactly when the number of arguments is the declared number (non-variadic) or lies in the interval fixed by the declared number and the variadic minimum and maximum.",
  "every signature, variadic behaviour and number of arguments",
  "off-by-one errors at the boundaries of an unbounded range",
  ["extensions/simple_extension.go: VariadicBehavior.IsValidArgumentCount, IsValidArgumentPosition", "extensions/variants.go: validateVariadicBehaviorForMatch, minArgumentCount, maxArgumentCount, matchArguments"])
p("anyN type variables are bound consistently",
  "A call passes the any-type check exactly when there is one assignment of concrete types to the numbered any variables under which every argument has its declared type; repeated variables must receive the same type at every depth, un-numbered any is unconstrained.",
  "every list of declared types and every list of argument types of any depth",
  "existence of a substitution is a statement over all assignments",
  ["extensions/variants.go: validateAnyTypeBinding, ValidateConstrainedAnyTypeConsistency"])
p("MIRROR / DECLARED_OUTPUT / DISCRETE nullability of function results",
  "With MIRROR the result type is nullable iff some argument is nullable and otherwise required; with DECLARED_OUTPUT and DISCRETE it is the declared nullability; DISCRETE rejects arguments whose nullability differs from the declaration.",
  "every signature, every nullability mode and every argument list",
  "argument lists are unbounded; variadic tails are only tested with one or two extra arguments",
  ["extensions/variants.go: EvaluateTypeExpression, validateType, matchArgumentAtCommon"])
p("Return-type derivations evaluate to their denotation",
  "Evaluating an output derivation (arithmetic, comparisons, boolean operators, conditionals, abs/min/max, sequential assignments) gives the value of the expression under ordinary integer semantics whenever no intermediate result leaves int64 and no division is by zero; the untaken branch of a conditional is never evaluated; a later assignment sees earlier ones and a re-assignment wins.",
  "every derivation program and every binding of its parameters",
  "programs are recursive terms over unbounded inputs",
  ["types/type_derivation.go: Expr.Evaluate, BinaryExpr, IfExpr, NotExpr, FunctionCallExpr, OutputDerivation.ReturnType, buildTypeParametersNameValueMap"])
p("An any-typed result takes the type of the argument that binds it",
  "If a result is declared anyN, the derived result type is the part of the first argument (depth first) that stands at an occurrence of anyN in the parameter list; it is made nullable when the result is declared nullable.",
  "every parameter list, every argument list, every nesting",
  "recursive search over unbounded parameter lists",
  ["types/any_type.go: AnyType.ReturnType, unwrapAnyTypeWithName"])
p("Decimal encode/decode round trip",
  "Encoding a decimal string and decoding the 16 bytes at the reported scale gives the same number; the reported precision and scale satisfy 0<=scale<=precision<=38 and the value fits them; a number is refused exactly when it needs more than 38 digits.",
  "every sign, coefficient and exponent",
  "2^128 values; carries and sign extension make boundary errors likely",
  ["expr/decimal_util.go: decimalStringToBytes, DecimalToBytes, decimalBytesToString"])
p("16-byte two's complement negation and sign",
  "The little-endian bytes written for a decimal are the 128-bit two's complement of its unscaled value, and byte-wise negation computes arithmetic negation modulo 2^128.",
  "every 16-byte string and every integer of absolute value below 2^127",
  "carry propagation must be right for all 2^128 inputs",
  ["expr/decimal_util.go: DecimalToBytes, decimalBytesToString, negate"])
p("Changing precision and scale of a decimal preserves its value",
  "modify(bytes, scale, p', s') either fails or yields bytes that decode at s' to the same value whenever the value is representable at s', and it succeeds only if the value has at most p' digits.",
  "every value, source scale and target precision and scale",
  "all combinations of scale up and scale down with every value",
  ["expr/decimal_util.go: modifyDecimalPrecisionAndScale, validatePrecisionAndScale, getMinimumPrecisionAndScale"])
p("Sub-second precision conversions",
  "Converting a count of units at precision p to an instant and back at precision p gives the same count whenever the instant lies within the range of the 64-bit nanosecond clock; converting to a coarser precision truncates consistently.",
  "every int64 count, every precision 0..9",
  "2^64 values, negative instants round differently",
  ["types/types.go: timeFromPrecisionUnits, GetTimeValueByPrecision", "types/precison_timestamp_types.go: SubSecondsToDuration, ProtoToTimePrecision"])
p("Literals survive a proto round trip",
  "LiteralFromProto(l.ToProtoLiteral()) equals l for every literal in the supported range; deviations (type variation of precision time/timestamps, empty lists and maps, narrow integers out of range) are identified exactly.",
  "every literal of any nesting depth",
  "nested literals are unbounded",
  ["expr/literals.go: LiteralFromProto, ToProtoLiteral methods"])
p("Field references resolve to the type at their path",
  "The type of a field reference is the type reached by following its segments from the root type, an error if a segment does not fit the type or is out of range, never a wrong field; reference segments survive a proto round trip and flattening lists them in order.",
  "every root type and every segment chain of any length",
  "paths and types are unbounded; negative and out-of-range offsets must all be refused",
  ["expr/field_reference.go: StructFieldRef.GetType, MapKeyRef.GetType, ListElementRef.GetType, FlattenRefSegments, RefSegmentFromProto, FieldReference.GetType"])
p("Mask expressions survive a proto round trip",
  "Every mask expression (struct, list and map selections, arbitrarily nested) decodes to itself after encoding.",
  "every mask term",
  "masks are recursive",
  ["expr/field_reference.go: MaskExpressionFromProto, MaskExpression.ToProto"])
p("Scalar expressions survive a proto round trip",
  "ExprFromProto(e.ToProto()) equals e for every expression tree built of the supported node kinds; the node kinds for which it is false (a switch without else) are identified.",
  "every expression tree of any depth",
  "expression trees are unbounded",
  ["expr/expression.go: ExprFromProto, ToProto methods", "expr/functions.go: ScalarFunction.ToProto"])
p("Visit rewrites children in place-preserving, copy-on-write fashion",
  "Visiting with the identity returns the same expression; visiting with f returns the node with f applied to each child in order and everything else unchanged; the visited expression itself is never modified. Node kinds for which this fails or panics (multi-or-list) are identified.",
  "every expression node and every rewrite function",
  "quantifies over all functions",
  ["expr/expression.go: Visit methods, MultiOrList.Visit", "expr/functions.go: ScalarFunction.Visit"])
p("Expression equality",
  "Equals on expressions is reflexive and, where both sides carry the same number of children, structural; for scalar functions it is neither symmetric nor safe when argument counts differ.",
  "every pair of expressions",
  "relational property over an infinite set",
  ["expr/functions.go: ScalarFunction.Equals, FuncArgsEqual", "expr/expression.go: IfThen.Equals"])
p("Lambda parameter references resolve to the enclosing lambda they name",
  "A parameter reference with steps-out k and index i built inside nested lambdas gets the type of parameter i of the k-th enclosing lambda, and is refused when k or i is out of range; building leaves the builder's scope stack as it found it, on success and on failure.",
  "every nesting of lambdas and every reference",
  "nesting depth is unbounded; leaving the stack unbalanced on an error path shows only in later builds",
  ["expr/builder.go: LambdaBuilder, LambdaParamRefBuilder"])
p("Extension anchors form a stable bijection",
  "After any history of anchor requests on a fresh extension set: two different declarations never share an anchor, repeated requests return the same anchor, anchors are non-zero and contiguous from 1, and decoding an anchor gives back the declaration it was assigned to.",
  "every finite sequence of Get{Type,TypeVariation,Func}Anchor calls",
  "statement about every history",
  ["extensions/extension_mgr.go: NewSet, GetTypeAnchor, GetFuncAnchor, GetTypeVariationAnchor, DecodeType, DecodeFunc, addOrGetURN"])
p("Extension sets survive a round trip through a plan",
  "Serializing a set built by anchor requests and reading it back gives a set that decodes every anchor to the same declaration and assigns the same anchor to every known declaration.",
  "every reachable extension set",
  "statement about every history; map iteration order is nondeterministic",
  ["extensions/extension_mgr.go: set.ToProto, GetExtensionSet"])
p("Anchors requested on a set read from a plan do not collide",
  "Requesting an anchor for a new declaration on a set that was read from a plan never changes what an existing anchor decodes to. (False when the plan's anchors have gaps.)",
  "every plan's extension declarations and every later request",
  "depends on the numbering chosen by another producer",
  ["extensions/extension_mgr.go: GetExtensionSet, GetFuncAnchor, addOrGetURN"])
p("Loading an extension file is all-or-nothing and never disturbs others",
  "Load either fails and leaves every lookup unchanged, or succeeds and makes exactly the file's declarations available without changing any lookup under a different URN; loading the same URN twice is refused.",
  "every collection and every extension file, every sequence of loads",
  "statement about every history of loads",
  ["extensions/extension_mgr.go: Collection.Load, addToMaps, checkMaps, GetScalarFunc, GetAggregateFunc, GetWindowFunc"])
p("Function registry lookup by name and argument count",
  "Looking up functions by name and number of arguments returns exactly the registered variants of that name and kind whose declared parameter count is that number or whose variadic bounds contain it, in registration order; the list of all functions has them all. (For variadic functions with other than one parameter this is not the count the signature itself accepts.)",
  "every registry and every query",
  "registries are unbounded",
  ["functions/registries.go", "functions/functions.go: getFunctionVariantsByCount"])
p("Dialect localization does not depend on iteration order",
  "Building the local registry of a dialect succeeds for every iteration order of the function map exactly when every declared function is in the registry and no local name is another declared function's own name; two runs that succeed answer lookups by own name alike and lookups by local name alike up to order. (With a name conflict, success depends on the iteration order.)",
  "every dialect and every iteration order",
  "Go randomizes map order; a test sees one schedule",
  ["functions/dialect.go: makeLocalFunctionVariantMapAndSlice, makeLocalFunctionVariantsMap"])
p("Local type strings translate back and forth",
  "Translating a supported Substrait type to the dialect's type string and back gives the same type with its parameters, for simple, fixed-length and decimal types; type strings are read exactly when they are of the documented shape with a known name and the right number of 32-bit parameters, and everything else is refused without a panic. (Nullability is lost, strings with a precision are refused on the way back, and reading interval_day again changes the object returned before.)",
  "every dialect type table and every type",
  "all parameter values",
  ["functions/types.go: getTypeFromTypeString, extractTypeAndParameters, getTypeWithParameters"])
p("Remap composes output mappings",
  "Remapping a relation by m gives a relation whose i-th column is column m[i] of the relation it was applied to, for any number of successive remaps; an out-of-range index is refused; the original relation is unchanged. (The last part is false for leaf relations.)",
  "every relation, every sequence of remaps",
  "composition over unbounded sequences; aliasing effects invisible to result-only tests",
  ["plan/relations.go: RemapHelper, Remap methods, Copy methods", "plan/common.go: RelCommon.remap, RelCommon.OutputMapping"])
p("Join output schema per join type",
  "The output schema of a join is: left then right for inner; the null-supplying side made nullable for left/right/outer; only one side for semi and anti; plus the mark column for mark joins; column count and order are exactly those. (False for mark joins, whose schema is empty, and for hash and merge joins, which always give both sides.)",
  "every pair of input schemas and every join type",
  "schemas are unbounded",
  ["plan/relations.go: JoinRel.directOutputSchema, CrossRel, HashJoinRel.directOutputSchema, MergeJoinRel.directOutputSchema"])
p("Relations built by the builder have a computable schema",
  "If a builder method with a remap succeeds, RecordType() of the result does not panic and has one column per mapping entry. (False for FilterRemap over a remapped input, and for NamedWriteRemap and CreateTableAsSelectRemap.)",
  "every input relation and every mapping",
  "all mappings over all schemas",
  ["plan/builders.go: FilterRemap, ProjectRemap, SortRemap, FetchRemap, NamedWriteRemap, CreateTableAsSelectRemap"])
p("Relations survive a proto round trip",
  "RelFromProto(rel.ToProto()) is equivalent to rel (same kind, inputs, expressions, mapping and record type) for every relation tree; the exceptions (output mode of table writes, empty output mapping) are identified.",
  "every relation tree of any depth",
  "relation trees are unbounded",
  ["plan/plan.go: RelFromProto", "plan/relations.go: ToProto methods, NamedTableWriteRel.ToProto"])
p("Join keys keep their meaning through the legacy encoding",
  "Equality join keys encoded in the legacy form decode to the same keys; the legacy form is produced exactly when every key is a plain equality; otherwise the decoded keys equal the originals including the comparison.",
  "every list of join keys",
  "unbounded lists with mixed comparison kinds",
  ["plan/relations.go: comparisonJoinKeysFromProto, tryEqualityJoinKeysToLegacyProto, joinKeyComparisonFromProto"])
p("A plan keeps all the relations it is given",
  "A plan built from a root and other relations contains the root and each of the others, and can be serialized. (False as soon as there is at least one other relation.)",
  "every list of other relations",
  "quantifies over list lengths; tests use none",
  ["plan/builders.go: PlanWithBindings", "plan/plan.go: Plan.ToProto, GetRoots, GetNonRootRelations"])
p("CUBE and ROLLUP generate the right grouping sets",
  "AddCube generates every non-empty subset of its columns exactly once; AddRollup generates every non-empty prefix, longest first; AddExpression deduplicates; every grouping reference generated is one that was passed in, and a reference beyond the expressions is refused. (A negative reference is not noticed.)",
  "every list of columns up to the implementation limit, every sequence of builder calls",
  "exponentially many subsets",
  ["plan/builders.go: AggregateRelBuilder.AddCube, AddRollup, AddExpression, AddGroupingSet, validate"])
p("Grouping expressions are deduplicated without changing their meaning",
  "Resolving the references of every grouping set against the emitted list of grouping expressions gives back the original expressions in order.",
  "every list of grouping sets",
  "unbounded lists of lists",
  ["plan/plan.go: groupingExprs", "plan/relations.go: AggregateRel.directOutputSchema"])
p("Parameter bindings are checked against the plan's dynamic parameters",
  "If binding validation succeeds, every binding names a parameter that occurs in the plan and its value has that parameter's type up to nullability. Conversely every binding of an occurring parameter with the right type is accepted. (The converse is false for parameters occurring in unwalked relations.)",
  "every plan and every list of bindings",
  "plans are unbounded trees",
  ["plan/common.go: ValidateParameterBindings, collectDynamicParams, walkRelExprs"])
p("Expression rewriting covers every expression of a relation",
  "CopyWithExpressionRewrite with f applies f to every expression of the relation exactly once and leaves the original unchanged; when f changes nothing the same relation is returned. (False for virtual tables, hash/merge joins.)",
  "every relation and every rewrite function",
  "quantifies over all functions and relations",
  ["plan/relations.go: CopyWithExpressionRewrite methods"])
p("Getters do not expose internal state",
  "Modifying the slice returned by OutputMapping does not change the relation.",
  "every relation, every later write to the returned slice",
  "aliasing over all later histories",
  ["plan/common.go: RelCommon.OutputMapping"])
p("Computing a schema does not change any other schema",
  "Calling RecordType() on an outer/left/right join leaves the schemas of its inputs unchanged. (False when the left schema's slice has spare capacity or the right side has no columns.)",
  "every slice layout (length, capacity, sharing) of the inputs",
  "depends on slice capacities, which tests do not control",
  ["plan/relations.go: JoinRel.directOutputSchema", "types/types.go: RecordType.Concat"])
p("Time-of-day and interval constructors accept exactly the valid values",
  "NewTime(h,m,s,us) succeeds exactly when the time of day lies in [0, 24h), and then stores its microseconds. (False for hours so large that the duration overflows.)",
  "all int32 arguments",
  "2^128 argument combinations",
  ["literal/utils.go: NewTime, NewTimeFromMicros"])
p("Homogeneous list and map literals",
  "A list or map literal constructor succeeds exactly on non-empty inputs whose elements are non-nil and share one type (nullability included), and the resulting type's element type is that type.",
  "every list of elements",
  "unbounded lists",
  ["literal/utils.go: NewList, NewMap, hasTypeMismatch"])
p("Virtual table rows have the schema's width",
  "A virtual table built from rows has one value per column in every row. (False: only the first row is checked.)",
  "every list of rows",
  "unbounded lists of rows",
  ["plan/builders.go: VirtualTableFromExprRemap"])
p("In-predicate subqueries have one needle per haystack column",
  "An IN-predicate subquery is accepted exactly when the number of needles equals the number of columns of its haystack; a scalar subquery exactly when its relation has one column. (The last part is false: the relation of a scalar subquery is not checked, and its type panics.)",
  "every needle list and every relation",
  "unbounded lists",
  ["plan/builders.go: InPredicate, ScalarSubquery", "plan/subquery.go"])
p("Re-expressing a literal with another type",
  "When a literal is re-expressed with another type of its kind, the result states exactly the requested type, and its value is the same value in the new units: the same decimal number, the same instant when the precision gets finer, the instant rounded down to the unit when it gets coarser. A decimal is converted exactly when its number is representable at the target precision and scale. (False for the target's type variation on decimals, for intervals whose unit is not the target's, and lengths of fixed-length values are not checked.)",
  "every literal and every target type",
  "values and types are unbounded; each pair of precisions is a separate conversion",
  ["expr/literals.go: WithType methods, newDecimalWithType, newPrecisionTimestampWithType", "literal/utils.go"])
p("Checked conditionals have one type",
  "NewIfThen accepts exactly the conditionals whose results all have the type of the else clause; NewSwitch exactly those whose keys have the subject's type and whose results have one type, nullability aside; both answer the conditional they were given unchanged.",
  "every list of clauses",
  "unbounded lists of clauses and nested types",
  ["expr/expression.go: NewIfThen, NewSwitch"])
p("Functions called by name resolve to one declaration",
  "A scalar, aggregate or window call built by name uses the declaration of that name or, failing that, the one whose name is completed with the argument types; it carries that declaration's result type and the anchor of its full name, and is determined by the name, the arguments and the set.",
  "every collection, name and argument list",
  "collections and argument lists are unbounded",
  ["expr/functions.go: NewScalarFunc, NewAggregateFunc, NewWindowFunc, resolveVariant"])
p("Every expression has at most one type, given by its parts",
  "The type of an expression is determined by its kind and the types of its parts: that of the literal, of the part a field reference leads to, of the declared result, of the else clause or the first nullable branch, and composed types for nested expressions and lambdas.",
  "every expression",
  "expressions nest without bound",
  ["expr/expression.go: GetType methods", "expr/lambda.go: GetType", "plan/subquery.go: GetType"])
p("IsScalar is exact",
  "IsScalar answers true exactly for the expressions whose value is computed without a window function or a lambda, at any depth.",
  "every expression without nil operands",
  "expressions nest without bound",
  ["expr/expression.go: IsScalar methods", "expr/functions.go: IsScalar"])
p("Dialect files: what is accepted and what it declares",
  "A decoded dialect file is accepted exactly when it declares types, at least one function, and every function is named dependency.name with a known dependency and has kernels made of known type names; every kernel then declares one function (any-words are kept as any, an empty local name means the function's own), the last declaration of an identity counting.",
  "every decoded dialect file",
  "unbounded lists of functions and kernels",
  ["functions/dialect.go: validate, validateFunction, validateAndFixKernels, buildFunctionInfoMap, Load"])
p("Looking a function up by invocation",
  "The local function of an invocation is the one declared last under the invocation's identity; it is answered exactly when the dialect can express every argument type and names every requested option value (ignoring case). (If the same identity is declared for two kinds, looking up the other kind panics.)",
  "every local registry and every invocation",
  "registries, argument lists and option lists are unbounded",
  ["functions/local_functions.go: GetScalarFunctionByInvocation, getFunctionVariantByInvocation, makeLocalFunctionVariantsMap", "functions/registries.go: IsOptionSupported"])
p("The output schema of every relation kind",
  "The columns of a relation are those its kind prescribes from the columns of its inputs and the types of its expressions (reads: the base schema; project: the input's columns then the expressions; aggregate: the grouping columns of every set in order, then the measures; fetch, sort, filter: the input's; set operations: the first input's; table writes: the table's or none, by output mode; extensions: what their definition answers), followed by the output mapping; a mapping entry out of range panics.",
  "every relation tree",
  "relations nest without bound and carry any mapping",
  ["plan/relations.go: RecordType, directOutputSchema methods", "plan/common.go: remap"])
p("Whole plans survive a proto round trip",
  "A plan written to a message and read back with the same collection is the same plan (version, advanced extension, URLs, roots with their names, other relations, bindings) with a set of declarations that answers alike, exactly when its relations and binding values survive and every root has one name per column, counting nested struct fields; a message whose declarations are unusable or that holds an unset relation is refused.",
  "every plan and every consistent set of declarations, whatever the order its tables are iterated in",
  "plans hold any number of relation trees, bindings and declarations; map iteration order is random",
  ["plan/plan.go: FromProto, FromProtoWithDecoder, ToProto, Relation.FromProto, Root.ToProto, GetRoots, GetNonRootRelations", "extensions/extension_mgr.go: GetExtensionSet, ToProto"])
p("Every function call of a plan that was read is declared",
  "After reading a plan message whose declarations number the functions from 1 without gaps, every function call anywhere in its relations (also in inputs, join keys, sorts, measures and subqueries) refers to an anchor the set declares, and the declaration is that of the function the call carries. (With gaps in the numbering the claim fails: an unknown function renamed on reading may take over another function's anchor.)",
  "every plan message and every collection",
  "relations and expressions nest without bound",
  ["plan/plan.go: FromProto, RelFromProto", "expr/expression.go: ExprFromProto", "extensions/extension_mgr.go: GetExtensionSet, GetFuncAnchor"])
p("A printed type definition reads back as itself",
  "The text printed for a function-signature type (simple, parameterized with numbers or variables, any, list, map, struct, user-defined, function with one parameter, or one of these with a derivation program in front) is accepted by the type parser, and however the grammar is applied to it the type that was printed is read; so two such types with the same text are equal. (False for functions with several or no parameters, and for derivation programs with nested conditionals or negations as operands, whose parentheses are not printed.)",
  "every function-signature type with required or nullable parts and proper names",
  "types and expressions nest without bound",
  ["types/parser/parse.go: ParseType", "types/parser/visitor.go", "types/parser/util/error_listener.go: TransformPanicToError", "types/types.go: String methods", "types/parameterized_*.go: String", "types/type_derivation.go: String"])
p("What the type parser can answer",
  "The types read from texts are exactly those whose parts are required or nullable, without variation, with 32-bit parameters, proper names and lower-case function names; what a text says follows the grammar token by token; reading never panics. (Parameters beyond 32 bits are cut silently; compound intervals are accepted by the grammar and always fail.)",
  "every text and every type definition",
  "texts are unbounded",
  ["types/parser/parse.go: ParseType, TypeExpression.UnmarshalYAML", "types/parser/visitor.go"])
p("A concrete type is named by its text",
  "The text of a concrete type is read back as the definition of exactly that type, and two concrete types have the same text exactly when they are the same type, variations aside. (False for user-defined types, the two year-month interval kinds and unspecified nullability.)",
  "every concrete type with required or nullable parts",
  "types nest without bound",
  ["types/types.go: String methods", "types/interval_*.go", "types/parser/parse.go: ParseType"])
p("Letter case and blanks in type texts",
  "Texts that differ only in the case of letters say the same type, the case of names aside; a run of blanks between words and symbols can be replaced by any other. (Characters that belong to no rule are passed over, so texts with stray characters are accepted.)",
  "every text",
  "texts are unbounded",
  ["types/parser/baseparser/substraittype_lexer.go", "types/parser/parse.go: ParseType", "types/parser/visitor.go: VisitFunctionCall"])
p("The round trip of extended expressions",
  "Writing an extended expression and reading it back gives the same version, entries (output names, expression or measure), base schema, advanced extension and expected type URLs, with a set of declarations that answers every question alike, exactly when the schema and every entry survive on their own. After reading, every call in an entry is declared; an entry holds what was put in last, an expression or a measure, never both. (A subquery is written but cannot be read; a value assembled by hand cannot be written; the public set of declarations is ignored on writing.)",
  "every extended expression, message and collection, and every sequence of assignments to an entry",
  "expressions nest without bound; the entries share one set of declarations that grows while reading",
  ["expr/expression.go: Extended, ExtendedFromProto, Extended.ToProto, ExpressionReference, NewExpressionReference, NewMeasureReference, SetExpr, SetMeasure"])
p("Dates and their texts",
  "A date value is a number of days from 1970-01-01 and prints the day of the proleptic Gregorian calendar that many days away: year, month and day. NewDateFromString accepts exactly the texts of four, two and two digits that name a day that exists, and gives the number of that day; everything else is an error. What a date prints is read back as the same date exactly in the years 0 to 9999.",
  "all int32 day numbers and all strings",
  "leap years, centuries, the days before 1970 and every malformed text cannot be enumerated; tests try a handful of dates",
  ["types/types.go:Date.ToTimeString", "literal/utils.go:NewDateFromString", "literal/utils.go:NewDate"])
p("Texts of times and timestamps",
  "The ISO and value texts of times and timestamps show date, clock and fraction of exactly the instant the value stands for, at every precision. The constructors that read texts accept exactly a date and a clock with or without an offset, or a clock alone, and give the instant they say in units of the type; anything else is an error. The ISO text of a value is read back as the same value.",
  "all int64 values, all precisions, all strings",
  "every instant, fraction, offset and malformed text would have to be tried; the two conversions are written by different routines and must agree on all of them",
  ["types/types.go:Time.ToIsoTimeString", "types/types.go:Timestamp.ToIsoTimeString", "types/types.go:TimestampTz.ToTimeString", "expr/literals.go:ProtoLiteral.IsoValueString", "expr/literals.go:ProtoLiteral.ValueString", "literal/utils.go:parseTimeFromString", "literal/utils.go:NewTimeFromString", "literal/utils.go:NewTimestampFromString", "literal/utils.go:NewPrecisionTimestampFromString", "literal/utils.go:NewPrecisionTimeFromString"])
p("Texts of day-time intervals",
  "NewIntervalDaysToSecondFromString accepts exactly the ISO 8601 durations of days, hours, minutes and seconds (an optional fraction, no signs) whose counts fit; everything else is an error. Whole counts are read exactly; a fraction of up to nine digits is read as written or one nanosecond short, and exactly if it is a multiple of 1/512. From one second on, the ISO text of an interval says exactly the stored time and is read back as that time or one nanosecond less. (Below one second the text is no ISO duration: milliseconds are read back as minutes, finer times, zero and negative times are not read; counts are cut to 32 bits.)",
  "all strings; all stored intervals of every precision",
  "the reader computes with float64, whose rounding depends on every digit; every text and every stored interval would have to be tried",
  ["literal/utils.go:NewIntervalDaysToSecondFromString", "literal/utils.go:parseIntervalDaysToSecond", "expr/literals.go:ProtoLiteral.IsoValueString"])
p("Texts of decimals",
  "DecimalStringToBytes and NewDecimalFromString accept exactly an optional sign, digits with at most one point among them and an optional power of ten, if the number needs at most 38 digits and its places and power are within 100000; everything else is an error. The bytes hold exactly the number the text says, at the scale it is written with, and the precision is the number of digits it needs. A plain text of a stored number is read back as the same bytes. (Blanks around a number are refused, although the code means to trim them.)",
  "all strings",
  "every combination of digits, point, sign and power would have to be tried",
  ["expr/decimal_util.go: DecimalStringToBytes", "literal/utils.go:NewDecimalFromString"])
p("Reading function test files",
  "From the syntax tree of a test file, parsing a test file returns one case for every case written, in order, each with the function URI of the first include, the description of its group without its hash sign and outer blanks, the function's name, its arguments, its options (the last value given for a name) and its expected result (a value, an error, or undefined). A file is read if and only if every part of it says something; anything else is an error, and reading never panics. (A group without a description, which the grammar allows, makes the whole file unreadable.)",
  "all syntax trees of test files: any number of groups, cases, arguments and options",
  "the cases, groups and values of a file combine without bound; tests parse a few files",
  ["testcases/parser/visitor.go: VisitDoc, VisitTestCase, VisitAggFuncTestCase", "testcases/parser/parse.go: ParseTestCasesFromString", "testcases/parser/nodes.go: TestFile, TestCase"])
p("Values of test case arguments",
  "An argument of a test case is read exactly if its text says a value of the type declared for it, and the result is that value, with the declared type, its nullability, precision, scale and length, and with the text kept; a null needs a nullable type. A list is read exactly if each element says a value and all the values have one type; what is read is the list under the declared type. The value's type is always the declared type. (Recorded as findings: numbers and type parameters that do not fit are cut, list elements need not be of the element type or disappear, some empty and null elements are refused, fixedchar lengths are not checked, a null changes a required day-time interval type.)",
  "all argument texts, all declared types, lists nested to any depth",
  "every text of every type is a different input; rounding, cutting and nullability go wrong only for particular combinations",
  ["testcases/parser/visitor.go: VisitArgument, VisitLiteral, VisitLiteralList, VisitDataType, getLiteralFromString", "testcases/parser/nodes.go: updateLiteralType"])
p("Aggregate calls in test cases",
  "The call of an aggregate test case is read exactly if its parts say something: the values of a column have the type of the column where that type can be written as a number or a string, nulls have that type made nullable and make the column's type nullable; the types of the columns are those declared for the table, or those of the arguments naming the columns; arguments name columns that exist, of the table given; constant arguments are read by themselves. What is returned are the function's name, the arguments with their columns and types, the columns and their types. (Recorded as findings: constants, values and intervals of other types are kept, cells beyond the last column are dropped, a null in an unnamed column or a call on no rows makes the file unreadable, arguments disagreeing on a column's type are accepted.)",
  "all calls: any number of rows, columns and arguments, all texts",
  "whether a cell, type and argument fit shows only for the combination of all three, over tables of any size",
  ["testcases/parser/visitor.go: VisitCompactAggregateFuncCall, VisitMultiArgAggregateFuncCall, VisitSingleArgAggregateFuncCall, getColumnsFromRows, getLiteral", "testcases/parser/nodes.go: newAggregateArgument"])
p("Calls from test cases",
  "The call a test case gives invokes the function named by the file's URN, the function's name and the argument types as declared, or, if that cannot be called, the first registered function of that URN and name that takes so many arguments of these types. Its arguments are the case's values in order (for aggregates: the constants, and references to the columns named), its options are exactly the case's options, each with its value as the only preference; aggregate calls are over all values, initial to result, unsorted. A case of the other kind gives no call. The data of an aggregate case are its columns or, without columns, the values of its arguments. (Recorded as findings: a case using only a later column gives no call; references take the type of the argument at the position of the column's number instead of the column's type.)",
  "all test cases, collections, registries, matching and type resolution functions, option orders",
  "the choice depends on every function registered and on the order of registration and of the options",
  ["testcases/parser/nodes.go: GetScalarFunctionInvocation, GetAggregateFunctionInvocation, GetAggregateColumnsData, GetFunctionOptions, GetArgTypes, ID, CompoundFunctionName"])
p("Declared function arguments",
  "Every argument of a function in an extension file is read as an enum argument if it has options, otherwise as a value argument if it has a value, otherwise as a type argument; with its name, description, constant flag and the type its text says, in order; what is refused with an error and what stops the program is exactly determined. Each argument has one word (the short name of its type, req for enums, type for type arguments, u! and the name for user-defined types), and a call by the bare name of a function whose arguments match one of its implementations uses that implementation. Unless user-defined types have underscores in their names, two signatures get the same compound name only if their words agree one by one. The user-defined types found in a signature are exactly those mentioned anywhere in its arguments, result and (aggregate, window) intermediate type, so a file that loads declares all of them. (Recorded as findings: an implementation declared with a type variable is not found by the bare name; a user-defined type with an underscore can collide with another signature.)",
  "all decoded argument maps, declared types of any depth, signatures, argument types, collections",
  "types nest to any depth and names are joined from any number of arguments",
  ["extensions/simple_extension.go: FuncParameterList.UnmarshalYAML, toTypeString, signatureKey, ScalarFunction.UnmarshalYAML", "extensions/validation.go: functionTypes, validateUserDefinedTypeReferences", "types/parameterized_user_defined_type.go: ReferencedUserDefinedTypes", "types/parser/parse.go: TypeExpression.UnmarshalYAML", "types: ShortString of declared types"])
p("What test cases print",
  "Every test case read from a file of function tests prints its function's name, its arguments, its options in whatever order the map gives them and its result, and an aggregate function on a table first the rows of the table; each argument prints its value followed by its type. The text is determined to the letter: signs and digits of numbers, quotes, ISO forms of dates, times and intervals, null, lists, errors. Options printed in any order are read as the same options. An argument printed and read again under its declared type is the same value, except for exactly the kinds listed: bytes, lists, day-time intervals that are not whole nonnegative seconds, instants outside the years 0 to 9999 or finer than printed. (Recorded as findings: those, and that an interval of a precision above nine is read but makes printing panic.)",
  "all parsed test files, cases, option orders, literals",
  "literals nest to any depth; tables have any size; maps are ranged over in any order",
  ["testcases/parser/nodes.go: TestCase.String, CaseLiteral.String, literalToString, AsAggregateArgumentString, getAggregateFuncTableString, getOptionString", "expr/literals.go: ValueString, IsoValueString", "testcases/parser/visitor.go"])
p("Floating point numbers of test cases",
  "A floating point argument of a test case is read exactly if its text is a decimal number (digits, single underscores between digits, a point, a power of ten), a signed infinity or nan in any case; what is read as fp64 is the float64 nearest to the number, ties to even, down to the least subnormal, with the sign of zero kept, and a number that is rounded beyond the largest float64 is refused, never read as an infinity. What is read as fp32 is the float32 nearest to that float64. (Recorded as findings: that is not always the float32 nearest to the number written, and a number beyond the largest float32 is read as an infinity without an error.)",
  "all texts, all float64 bit patterns",
  "texts are unbounded and the float64 values too many; rounding differs on single ties among 2^64 values",
  ["testcases/parser/visitor.go: getFloatLiteral, VisitFloatArg, getLiteralFromString", "literal/utils.go: NewFloat32, NewFloat64"])
p("What decimals print, and reading it back",
  "The text of a decimal literal's value is its sign, its digits without zeros in front and exactly as many places as its scale, or, with a negative scale or six and more zeros after the point, one digit, a point, the other digits and a power of ten. Every text says the very number printed. Read again it gives the same bytes and the same scale, with the precision its digits need, exactly if that is at most 38; otherwise it is refused. (Recorded as a finding: a decimal with 38 places prints a text that cannot be read.)",
  "all sixteen bytes, all int32 scales but the least",
  "2^128 values times 2^32 scales; the form of the text changes at single digit counts",
  ["expr/decimal_util.go: decimalBytesToString, DecimalStringToBytes", "expr/literals.go: ValueString", "literal/utils.go: NewDecimalFromString"])
p("Which parameters a declared type reports",
  "A declared parameter type says it has parameters exactly if an integer in it is left to a name: its own, or one of an element, key, value, field, argument, result or derivation's final type. It then reports its own integers, or exactly those of its parts that depend on a name, in order; otherwise it reports nothing. (Recorded as a finding: of the parameters of a user-defined type only the first type is asked, so a name in a later one is overlooked.)",
  "all declared types, of any depth and width",
  "declared types nest without bound; a list of examples cannot show that no part is left out",
  ["types/parameterized_*.go: HasParameterizedParam, GetParameterizedParams", "types/any_type.go: AnyType", "types/type_derivation.go: OutputDerivation"])
p("What expressions print",
  "The text of an expression, literal, field reference, function call, conditional, list, cast, nested value, lambda or subquery is exactly the one given by its form and the texts of its parts: every part is there, once, in order, with its separators, names of enumeration values and types; empty clauses are left out. Printing panics exactly if a part that is printed directly is missing or panics, or a literal's value does not fit its type, or a sort order or path is missing; a missing part printed through fmt is marked instead. (Recorded as findings: every field reference that selects by a mask panics when printed, and so does every aggregate function read from a plan that the collection does not declare.)",
  "all expressions, of any depth, with any parts missing",
  "expressions nest without bound in eighteen kinds; whether String can panic depends on all parts",
  ["expr/literals.go: String", "expr/field_reference.go: String", "expr/functions.go: String", "expr/expression.go: String", "expr/lambda.go: Lambda.String", "plan/subquery.go: String", "types/types.go: SortDirection.String, FunctionRef.String"])
p("A cloned aggregate function is independent of its original",
  "Programs that clone aggregate functions built from slices of their own, set their arguments, replace options, and set or append sorts, see plain values: a clone shows what its original shows at that moment, nil slices stay nil, and what is later done to one function is never seen through another. An operation panics exactly if its index is out of range. An option is found by the first of its name. (Recorded as findings: the option messages themselves are shared between a clone and its original, and two functions built from one arguments slice share it.)",
  "all programs of clones, assignments and appends, of any length, over any functions with separate storage and any capacities",
  "sharing shows only after particular sequences of clones and writes, and appends depend on capacities",
  ["expr/functions.go: AggregateFunction.Clone, SetArg, GetOption, GetOptions, Sorts, NewCustomAggregateFunc", "plan/relations.go: rewriteAggregateFunc"])
p("The default collection under every schedule",
  "However many goroutines ask for the default collection, and however they are interleaved, the embedded files are loaded at most once, all callers get the same answer, at all times: the one collection holding every supported file, loaded in directory order and never seen half loaded, or, if a file cannot be opened, decoded or loaded, the error (a panic in the form without an error). Nobody waits for ever, and what the default files declare stays found whatever is loaded besides. (Recorded as a finding: the collection is shared; a file one caller loads into it is there for all.)",
  "all directories, numbers of goroutines and schedules of their single steps, of any length",
  "a race shows only under particular interleavings, which a test run does not control",
  ["extensions/extension_mgr.go: GetDefaultCollection, GetDefaultCollectionWithNoError, loadDefaultCollection, loadExtensionFile, getDefaultCollectionOnce"])
p("Function variants made on the fly, and those of declared functions",
  "A variant made from a name and options has exactly the name, argument types and properties asked for, with decomposition NONE and window type PARTITION as defaults; making one never returns an error and panics exactly if an argument type of the name cannot be read, or the function is decomposable without a readable intermediate type. Its compound name spells the types by their short names, and is the one it was made from exactly if that has a colon and used the short names. A declared function has one variant per implementation, in order, as declared, with the same defaults. (Recorded as findings: a name without a colon gets one; a MaxSet of 2^63 or more becomes negative; a variant made on the fly fails to match arguments of its own types; asking for its result type panics; ResolveURN does not fill in the defaults that GetVariants fills in.)",
  "all names, type parsers, options, argument lists and declared functions",
  "names and options are unbounded; the panics and the failures to match depend on which field was left empty",
  ["extensions/variants.go: parseFuncName, NewScalarFuncVariant, NewScalarFuncVariantWithProps, NewAggFuncVariant, NewAggFuncVariantOpts, NewWindowFuncVariant, NewWindowFuncVariantOpts, ScalarFunctionVariant, AggregateFunctionVariant, WindowFunctionVariant", "extensions/simple_extension.go: GetVariants, ResolveURN"])
p("The tokens of a function test file",
  "Every text has exactly one division into tokens: at each place the longest token there is, and of the kinds it could be the one of highest precedence; white space and comments are left out; where no token starts, what could have become one is dropped with the character after it. A word before an opening parenthesis can name a function exactly if it has no other meaning. (Recorded as findings: functions with names like s, error, v1 or col2 cannot be tested; characters without a meaning are dropped silently; an unclosed quote drops the rest of the file; block comments hold one character; strings that look like dates are dates.)",
  "all texts, words and continuations",
  "texts are unbounded, and longest match and precedence depend on everything that follows",
  ["testcases/parser/baseparser/functestcase_lexer.go: NewFuncTestCaseLexer", "testcases/parser/parse.go: parseTestCasesFromStream"])
p("What is read from the text of a function test file",
  "A text has a parse tree exactly if its tokens are those the tree is written with under the grammar of test files, no text has two, and reading the text returns exactly what the tree says, or an error if there is no tree or it says nothing; it never panics, and depends on the tokens only. Every scalar case has an argument and every group a case; no number is hexadecimal. (Recorded as findings: functions without arguments cannot be tested; strings that look like dates, times or intervals and integers with leading zeros are refused; misspelt files are read as something else, and an unclosed quote hides the cases after it; dependencies are not read.)",
  "all texts",
  "the grammar is recursive and texts are unbounded; that no text is read in two ways cannot be tested",
  ["testcases/parser/baseparser/functestcase_parser.go", "testcases/parser/parse.go: ParseTestCasesFromString, ParseTestCasesFromFile, parseTestCasesFromStream, parseTestCases", "testcases/parser/visitor.go"])
p("Expression builders remember the last call and are read when built",
  "After any history of calls on any number of builders, a builder has what it was made with and, for each property, the value of the last call that gives it to this builder, or the zero value; calls on other builders do not touch it. Building it returns what the expression described by it, with the builders it refers to as they are at that moment, builds to; a builder describes at most one expression, and exactly one if builders are only given builders of expressions made before them, so that building returns. A nil builder panics. (Recorded as findings: a builder can be made an argument of itself, and building it never returns; what is done to an argument later changes the outer builder; after a panic in the body of a lambda its parameters stay in scope.)",
  "all histories of calls that make and change builders, all states of the registry and scopes",
  "histories are unbounded, builders are shared between expressions, and tests build each once right after making it",
  ["expr/builder.go: ExprBuilder, scalarFuncBuilder, windowFuncBuilder, aggregateFuncBuilder, castBuilder, lambdaBuilder, lambdaParamRefBuilder, dynamicParamBuilder, fieldRefBuilder"])
p("Registries that are copied and their decoders",
  "Registries are values: programs make them, copy them, set their converter of subqueries and register decoders of extension relations in them. After any such history a registry finds for a type URL the decoder of the first registration for it at a registry that shares its decoders, or nil if there was none; a registration is refused exactly if there was one already, and changes nothing then. A copy shares decoders with its original, and with what shares them, exactly if the original had any when it was copied. Registrations elsewhere are not seen; a decoder found once is found for good. A copy has the extension set and the converter of its original at that moment, and setting a converter changes one registry only. (Recorded as findings: a copy made before the first registration never sees decoders registered in the original, one made after it sees all; a nil decoder cannot be found but blocks the type URL.)",
  "all histories of making, copying, setting and registering, of any length",
  "whether two registries share a map depends on the order of copies and registrations, and histories are unbounded",
  ["expr/utils.go: ExtensionRegistry, NewExtensionRegistry, SetSubqueryConverter, SetExtensionRelDecoder, ExtensionRelDecoderFor"])
p("Setting the nullability of a declared type",
  "Setting the nullability of a declared parameter or result type changes that and nothing else: parts, parameters, variations, bindings, short name and the arguments accepted apart from nullability stay. The last setting counts. Arguments accepted with nullability are exactly those of the nullability set that were accepted but for theirs; parts keep the nullability declared for them. The text gains or loses one question mark. The result type computed from it is the same but for the nullability, and for an any type it is the argument's, nullable if that was set. (Recorded as a finding: of a primitive type or an enumeration the result type is the declared object itself, so that setting the declared type changes result types obtained before.)",
  "all declared types of any depth, nullabilities, arguments and sequences of settings",
  "declared types nest without bound in eleven kinds, each with a method of its own",
  ["types/types.go: FuncDefArgType, PrimitiveType.SetNullability, EnumType.SetNullability, ReturnType", "types/any_type.go: SetNullability", "types/parameterized_*.go: SetNullability", "types/type_derivation.go: OutputDerivation.SetNullability"])
p("Aggregate builders and relations do not affect each other",
  "However builders of aggregate relations and the relations share memory, each behaves as a value of its own: a call changes what a builder holds only if it is a call of that builder, and then by exactly the expression, grouping set, rollup or cube added, or by clearing it; a built, copied or read relation shows for ever the expressions and groupings it showed first, whatever is done later to its builder, to builders made from it or to copies. New builders are empty or hold what the relation shows. A rollup adds the prefixes of the references given, longest first; a cube adds every non-empty selection in the order of binary numbers, in slices of its own, and nothing for more than twenty references. The references inside a grouping change only if the caller writes to the slice given. (Recorded as a finding: they do change then, in relations already built too.)",
  "all histories of calls on any number of builders and relations, all growth policies of append, relations read with any spare capacity, and all expressions and references",
  "whether two slices share an array, and whether an append shows through, depends on the whole history of appends, builds and conversions and on the runtime's choice of capacities",
  ["plan/builders.go: AggregateRelBuilder, AddExpression, AddGroupingSet, AddRollup, AddCube, ClearGrouping, Build", "plan/relations.go: AggregateRel.ToBuilder, AggregateRel.Copy, GroupingExpressions, GroupingReferences"])
p("Relations as objects that others are built on",
  "The schema of a relation is the one its inputs and its mapping give at that time. Whatever is called, it stays as long as no read relation it is built on is remapped: building on a relation, copying it and remapping it or others leave it alone. Remapping within range returns a relation with exactly the columns selected, however many mappings are already in place; out of range it is refused, and every call that fails changes nothing. A copy is a new relation with the inputs given and the same mapping; the copy of a read is the read itself. The builder makes a new relation with the columns of its inputs, selected, and refuses exactly positions out of range, missing inputs and projections without expressions. (Recorded as a finding: remapping a read changes relations built on it before: they show other columns, or computing their schema panics.)",
  "all histories of building, copying and remapping any number of relations that share inputs to any depth",
  "whether a call shows in another relation depends on which objects earlier calls shared, over histories of any length",
  ["plan/relations.go: RemapHelper, Copy, GetInputs, RecordType, directOutputSchema", "plan/builders.go: NamedScanRemap, ProjectRemap, FetchRemap, CrossRemap", "plan/common.go: RelCommon.remap, RelCommon.setMapping"])
p("Builders, their plans and the extensions they share",
  "Every request for an anchor made of a builder, or of the registry of a plan it built, is answered with the number of the id among the different ids of that kind asked of that builder and its plans so far. An anchor stands in a builder, and in each of its plans, for exactly that id; this never changes whatever is called later, and requests made of other builders or of their plans change nothing here. Writing a plan declares exactly those ids, under their anchors, that were asked of its builder and of the plans of its builder until then. Requests of a builder or plan that is not there panic and change nothing. (Recorded as a finding: a plan is not finished when it is built; extensions asked of its builder later are declared by the plan too.)",
  "all histories of making builders, building plans and asking builders and plans for anchors, up to the 32-bit limit of anchors",
  "which set a request changes depends on which builder built which plan, over histories of any length",
  ["plan/builders.go: NewBuilder, GetFunctionRef, UserDefinedType, GetExprBuilder, PlanWithBindings", "plan/plan.go: Plan.ExtensionRegistry", "extensions/extension_mgr.go: set.GetFuncAnchor, set.GetTypeAnchor, set.DecodeFunc, set.DecodeType"])

open('/verif/properties.jsonl','w').write(''.join(json.dumps(x)+"\n" for x in P))
print(len(P))
