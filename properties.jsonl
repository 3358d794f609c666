{"id": "C01", "title": "Merging a plain template without stubs changes nothing", "statement": "Processing a template that contains no dynaml expression, no merge key and no control field, with no stub documents, yields a document equivalent to the template: same keys, same list lengths and order, same leaf values.", "quantifier": "every finite dynaml-free YAML tree of any depth and width", "why_tests_cant": "Unit tests run a handful of fixed documents; the recursion over nested maps and lists has to be right at every depth and for every key set.", "anchors": ["flow/cascade.go:Cascade", "flow/flow.go:Flow,flow,flowMap,flowList", "flow/cascade.go:Cleanup"]}
{"id": "C02", "title": "The template fixes the structure, stubs only supply values", "statement": "With plain documents, the merged map has exactly the keys of the template (stubs never add, remove or rename a key of a map that the template does not ask to merge), and a leaf of the template is replaced by the value found at the same path in a stub.", "quantifier": "every plain template, every list of plain stubs, every path", "why_tests_cant": "The claim is about every path of every pair of documents.", "anchors": ["flow/flow.go:flow,flowMap,flowList", "flow/environment.go:FindInStubs"]}
{"id": "C03", "title": "The first stub that defines a path wins", "statement": "Looking a path up in the stubs returns the value of the first stub (in order) which defines the path without it being merely implied; stubs after it have no influence.", "quantifier": "every stub list and path", "why_tests_cant": "Requires quantifying over the number of stubs and their contents.", "anchors": ["flow/environment.go:FindInStubs", "dynaml/merge.go:MergeExpr.Evaluate"]}
{"id": "C04", "title": "A successful merge is completely resolved", "statement": "If processing a document succeeds, the result contains no remaining dynaml expression, no failed node; and if the result still contains one, processing reports an error that lists every such node with its path.", "quantifier": "every node tree", "why_tests_cant": "Completeness of the unresolved-node search is a statement about all trees.", "anchors": ["dynaml/unresolved_check.go:FindUnresolvedNodes", "flow/flow.go:Flow", "flow/cascade.go:Cascade"]}
{"id": "C05", "title": "Cleanup removes exactly the temporary and local nodes", "statement": "The cleanup of the final document drops exactly the map entries and list elements marked temporary or local (with their subtrees), keeps every other node with its value, keys and order, never drops the root, and a second cleanup changes nothing.", "quantifier": "every annotated node tree", "why_tests_cant": "Both directions (nothing else is lost, nothing marked survives at any depth) range over all trees.", "anchors": ["flow/cascade.go:Cleanup,discardTemporary,discardLocal,discardFlags"]}
{"id": "C06", "title": "State extraction keeps exactly the nodes marked as state", "statement": "The state document written for the next run contains exactly the map entries whose node is marked as state (with their content), nothing else, and re-extracting the state of a state document changes nothing.", "quantifier": "every annotated node tree", "why_tests_cant": "Universally quantified over trees and marks.", "anchors": ["flow/cascade.go:DetermineState,discardNonState"]}
{"id": "C07", "title": "Node equivalence is an equivalence relation that ignores annotations and map order", "statement": "The equivalence used for the fixpoint test and for diffs is reflexive, symmetric and transitive, depends on values only, and two maps are equivalent iff they have the same keys with equivalent values.", "quantifier": "every pair and triple of nodes", "why_tests_cant": "Algebraic laws over an infinite recursive type.", "anchors": ["yaml/equals.go:EquivalentToNode"]}
{"id": "C08", "title": "A document diff is empty exactly for equivalent documents", "statement": "spiff diff reports no difference iff the two documents are equivalent (up to the order of named lists); comparing a document with itself reports nothing.", "quantifier": "every pair of documents", "why_tests_cant": "Completeness of a diff cannot be sampled.", "anchors": ["compare/compare.go:Compare,compareMap,compareList,compareJobs"]}
{"id": "C09", "title": "Path lookup follows map keys, list indices and list names", "statement": "Looking up a path steps through map entries by key and through lists by [index] or by the entry whose key field (name or the given key tag) has the requested value, the first such entry winning; lookup of a concatenated path is lookup in two steps; a missing component yields not-found.", "quantifier": "every tree and path", "why_tests_cant": "Paths and trees are unbounded.", "anchors": ["yaml/find.go:Find,FindString,stepThroughList,stepThroughMap", "yaml/find.go:PathComponents"]}
{"id": "C10", "title": "Text without dynaml markers is taken literally, escapes lose exactly one level", "statement": "A string value is treated as dynaml iff it is enclosed in (( and )) and not escaped by a leading !; escaping a dynaml text protects it from evaluation and is removed exactly once when the final document is produced.", "quantifier": "every string", "why_tests_cant": "The set of strings is infinite and the interesting ones are corner cases of delimiters.", "anchors": ["yaml/node.go:EmbeddedDynaml,UnescapeDynaml", "yaml/interpolation.go:convertToExpression"]}
{"id": "C11", "title": "Integer arithmetic is 64-bit two's-complement with checked division", "statement": "+, -, * on integers give the mathematical result modulo 2^64 in the signed range, / truncates toward zero, % has the sign of the dividend, a = (a/b)*b + a%b, and division or modulo by zero is reported as an error, never a crash.", "quantifier": "all pairs of 64-bit integers", "why_tests_cant": "2^128 operand pairs.", "anchors": ["dynaml/addition.go", "dynaml/subtraction.go", "dynaml/multiplication.go", "dynaml/division.go", "dynaml/modulo.go"]}
{"id": "C12", "title": "Adding an integer to an IP address moves the address by that amount", "statement": "ip + n and ip - n denote the address whose numeric value is the sum or difference modulo the address space; in particular (ip + n) - n = ip.", "quantifier": "all IPv4 and IPv6 addresses and all 64-bit offsets", "why_tests_cant": "Carry propagation has corner cases only on special byte patterns.", "anchors": ["dynaml/addition.go:IPAdd,AdditionExpr.Evaluate", "dynaml/subtraction.go:SubtractionExpr.Evaluate"]}
{"id": "C13", "title": "The difference of two IP addresses is their numeric distance", "statement": "For two IPv4 addresses a - b is the signed distance of their values and b + (a - b) = a when a >= b; for IPv6 it is the distance modulo 2^64.", "quantifier": "all pairs of addresses", "why_tests_cant": "2^64 and 2^256 pairs.", "anchors": ["dynaml/ip.go:DiffIP", "dynaml/subtraction.go"]}
{"id": "C14", "title": "CIDR bounds and size are consistent", "statement": "min_ip is the address with all host bits 0, max_ip the one with all host bits 1, both belong to the network, every address of the network lies between them, and num_ip = max_ip - min_ip + 1.", "quantifier": "all CIDRs (IPv4 and IPv6)", "why_tests_cant": "Masks and addresses are a large space; IPv6 behaves differently from IPv4.", "anchors": ["dynaml/ip.go:func_minIP,func_maxIP,func_numIP,MaxIP,contains_ip"]}
{"id": "C15", "title": "CIDR division yields the smallest adequate split", "statement": "cidr / n is the first subnet of a division of the network into the smallest power-of-two number >= n of equal subnets; it is an error iff n < 1 or there is not enough room.", "quantifier": "all CIDRs and divisors", "why_tests_cant": "The rounding loop must be right for every divisor.", "anchors": ["dynaml/division.go:DivisionExpr.Evaluate"]}
{"id": "C16", "title": "CIDR multiplication selects the n-th following network", "statement": "cidr * n is the network of the same size whose base address is n network sizes after the base of cidr.", "quantifier": "all CIDRs and factors", "why_tests_cant": "Range of inputs; IPv4/IPv6 difference.", "anchors": ["dynaml/multiplication.go:MultiplicationExpr.Evaluate"]}
{"id": "C17", "title": "ipset enumerates addresses of the given ranges in order", "statement": "ipset(ranges, n) returns the first n addresses of the concatenation of the ranges, ipset(ranges, n, indices...) the addresses at the given positions of that concatenation; it is an error to request more than exist.", "quantifier": "all range lists, counts and index lists", "why_tests_cant": "Index arithmetic across range borders.", "anchors": ["dynaml/ipset.go", "dynaml/static_ips.go"]}
{"id": "C18", "title": "Equality comparison", "statement": "== is reflexive, symmetric and agrees with structural equality of values; != is its negation.", "quantifier": "all pairs of values", "why_tests_cant": "Conversion rules between types only differ on special values.", "anchors": ["dynaml/comparison.go:compareEquals,ComparisonExpr.Evaluate"]}
{"id": "C19", "title": "Ordering comparisons form a total order", "statement": "On two integers or two strings exactly one of <, ==, > holds and <=, >= are their complements; other operand types are rejected.", "quantifier": "all operand pairs", "why_tests_cant": "Infinite operand space.", "anchors": ["dynaml/comparison.go:ComparisonExpr.Evaluate"]}
{"id": "C20", "title": "Conditional, default and validity operators", "statement": "c ? a : b yields a for a true and b for a false condition; a || b yields a if a can be evaluated and b otherwise; a // b additionally rejects an a that evaluates to nil/undefined; the unchosen branch has no influence on the result.", "quantifier": "every sub-expression and environment", "why_tests_cant": "Quantifies over arbitrary sub-expressions.", "anchors": ["dynaml/cond.go", "dynaml/or.go", "dynaml/validor.go", "dynaml/log_and.go", "dynaml/log_or.go", "dynaml/not.go"]}
{"id": "C21", "title": "Integer ranges", "statement": "[a..b] is the list a, a+1, ..., b for a <= b and a, a-1, ..., b for a > b.", "quantifier": "all pairs of 64-bit integers", "why_tests_cant": "Boundaries at the ends of the integer range.", "anchors": ["dynaml/range.go:RangeExpr.Evaluate"]}
{"id": "C22", "title": "Slices and substrings select the denoted section", "statement": "list[a..b] selects positions a..b inclusive, negative indices count from the end; substr(s,a,b) selects bytes a..b-1; out-of-range bounds are reported as an error, never a crash.", "quantifier": "all lists, strings and bounds", "why_tests_cant": "Index arithmetic with negative values.", "anchors": ["dynaml/slice.go", "dynaml/substr.go"]}
{"id": "C23", "title": "Set-like list functions", "statement": "uniq keeps the first occurrence of every value in order; compact drops exactly the empty values; intersect keeps the entries of the first list found in all others; contains/index/lastindex agree with each other.", "quantifier": "all lists", "why_tests_cant": "Order and multiplicity over all lists.", "anchors": ["dynaml/uniq.go", "dynaml/compact.go", "dynaml/intersect.go", "dynaml/contains.go", "dynaml/index.go", "dynaml/element.go"]}
{"id": "C24", "title": "sort and reverse", "statement": "sort returns a sorted permutation of a list of strings, integers or the result of the comparison lambda and fails on mixed types; reverse is an involution; neither changes the argument as seen by other references.", "quantifier": "all lists", "why_tests_cant": "Permutation and order statements range over all lists.", "anchors": ["dynaml/sort.go", "dynaml/reverse.go"]}
{"id": "C25", "title": "List concatenation is a pure operation", "statement": "The value of list1 list2 is the concatenation and evaluating it does not change the value of any other expression that uses list1.", "quantifier": "all lists, all capacities of the underlying arrays and all orders of evaluation", "why_tests_cant": "The failure depends on spare slice capacity.", "anchors": ["dynaml/concatenation.go"]}
{"id": "C26", "title": "split, join and trim", "statement": "join(sep, split(sep, s)) = s; splitting by a maximal length yields chunks of at most that length whose concatenation is s; trim removes only characters of the cut set and only at the ends.", "quantifier": "all strings and separators", "why_tests_cant": "String space.", "anchors": ["dynaml/split.go", "dynaml/join.go", "dynaml/trim.go"]}
{"id": "C27", "title": "base64 round trip", "statement": "base64_decode(base64(x)) = x for every text and any line length, and no line exceeds the requested length.", "quantifier": "all strings and line lengths", "why_tests_cant": "All byte strings.", "anchors": ["dynaml/base64.go"]}
{"id": "C28", "title": "Map merging functions", "statement": "Concatenating maps yields exactly the union of the keys with the right map winning, is associative and idempotent; deepmerge unites keys at every depth where both sides are maps and lets the later map win elsewhere; keys lists exactly the keys in sorted order; makemap and list_to_map produce exactly the entries denoted by their arguments, the last entry of a key winning. None of them changes its arguments.", "quantifier": "all maps and argument counts", "why_tests_cant": "Algebraic laws on unbounded structures.", "anchors": ["dynaml/mapmerge.go", "dynaml/deepmerge.go", "dynaml/concatenation.go:concatenateMap", "dynaml/keys.go", "dynaml/list_to_map.go", "dynaml/makemap.go"]}
{"id": "C29", "title": "Tags", "statement": "A tag set on a node is found under its name afterwards until its life ends: stream tags live until the stream is reset, global tags until everything is reset; within its life a name is never silently rebound to another node (another path or another document), only re-evaluation of the same node updates it; tag lists return exactly the tags matching the name or prefix, in order.", "quantifier": "all sequences of tag operations", "why_tests_cant": "A statement about all histories.", "anchors": ["flow/state.go", "dynaml/tag.go"]}
{"id": "C30", "title": "Document numbering in streams", "statement": "Inside a document stream doc.N denotes the N-th document of the stream and doc.-K the K-th previous one.", "quantifier": "all sequences of documents and stream resets", "why_tests_cant": "Statement about histories.", "anchors": ["flow/state.go:PushDocument,ResetStream,GetTag"]}
{"id": "C31", "title": "A context without OS access never touches the operating system", "statement": "After any sequence of context derivations, a context whose mode denies OS access (in particular one with a non-OS file system) cannot execute commands, and one denying file access cannot read or write files.", "quantifier": "all sequences of With* calls", "why_tests_cant": "Statement about histories of API calls.", "anchors": ["spiffing/spiff.go", "dynaml/exec.go", "dynaml/pipe.go", "dynaml/read.go", "dynaml/write.go", "dynaml/lookup.go", "dynaml/tempfile.go", "flow/state.go"]}
{"id": "C32", "title": "Contexts are persistent values", "statement": "Deriving a context with With... does not change the context it was derived from.", "quantifier": "all histories of derivations", "why_tests_cant": "Aliasing only shows up in histories sharing a context.", "anchors": ["spiffing/spiff.go", "features/features.go"]}
{"id": "C33", "title": "Command results are cached per argument list", "statement": "Within one run, two exec calls yield the same result iff they have the same arguments; a failed execution is not remembered as success.", "quantifier": "all histories of exec calls", "why_tests_cant": "Cache collisions need specific argument pairs.", "anchors": ["dynaml/exec.go:cachedExecute"]}
{"id": "C34", "title": "Files are read once and temporary files are removed", "statement": "Within a run a file is read at most once by cached reads, every later cached read sees the same contents, equal contents get the same temporary file, different contents different ones, and after cleanup no temporary file remains.", "quantifier": "all histories of reads and temp-file requests", "why_tests_cant": "History property.", "anchors": ["flow/state.go:GetFileContent,GetTempName,Cleanup"]}
{"id": "C35", "title": "The for control enumerates the cartesian product in order", "statement": "A for control with non-empty iteration ranges yields one element per combination of the ranges, the last range varying fastest (map specifications nest in the order of the variable names), dropping undefined elements; with a map key a later entry replaces an earlier one. A range without elements should yield nothing; the code crashes instead (stated as a refutation).", "quantifier": "any number of ranges of any length", "why_tests_cant": "Odometer arithmetic for all shapes.", "anchors": ["dynaml/control/for.go", "dynaml/control.go"]}
{"id": "C36", "title": "Control selection", "statement": "if, switch and type select exactly the branch for the condition/value, with default only if no case matches; nodes with more than one control are rejected.", "quantifier": "all maps with control fields", "why_tests_cant": "All combinations of fields.", "anchors": ["dynaml/control.go:GetControl", "dynaml/control/if.go", "dynaml/control/switch.go", "dynaml/control/type.go", "dynaml/control/merge.go"]}
{"id": "C37", "title": "Lambda application", "statement": "Arguments are bound positionally or by name to the parameters, missing ones take their defaults, too many or unknown ones are an error, varargs collect the rest; partial application followed by the rest of the arguments equals the full application.", "quantifier": "all parameter lists and argument lists", "why_tests_cant": "All arities.", "anchors": ["dynaml/lambda.go", "dynaml/call.go"]}
{"id": "C38", "title": "Validation logic", "statement": "The conditions of validate obey propositional logic: and succeeds iff all, or iff any, not iff the sub-condition does not; list, map, mapfield and optionalfield hold iff they hold for all addressed elements.", "quantifier": "all condition trees and values", "why_tests_cant": "Condition trees are unbounded.", "anchors": ["dynaml/validate.go"]}
{"id": "C39", "title": "-D values land at the addressed path", "statement": "Setting a value for a (dotted, escapable) path makes exactly that path resolve to it and leaves every other path unchanged; an incompatible existing non-map is an error.", "quantifier": "all maps, paths and values", "why_tests_cant": "Frame condition over all paths.", "anchors": ["cmd/merge.go:addValue"]}
{"id": "C40", "title": "Feature settings", "statement": "Setting a feature makes it enabled, setting its no-form disables it, other features are unaffected, unknown names are rejected; the last setting of a feature wins.", "quantifier": "all sequences of settings", "why_tests_cant": "History property.", "anchors": ["features/features.go"]}
{"id": "C41", "title": "References see the innermost binding", "statement": "A reference resolves its first component in the innermost enclosing scope that defines it and the remaining components below that node; shadowed outer definitions have no influence.", "quantifier": "all scope stacks and paths", "why_tests_cant": "Any nesting depth.", "anchors": ["flow/environment.go:FindReference,resolveSymbol", "dynaml/reference.go"]}
{"id": "C42", "title": "Evaluation information is combined monotonically", "statement": "Combining the evaluation information of sub-expressions never loses a flag (temporary, local, state, default, implied) or a reported failure; the result does not depend on grouping.", "quantifier": "all sequences of evaluation infos", "why_tests_cant": "Algebraic.", "anchors": ["dynaml/expression.go:EvaluationInfo.Join,CleanError", "yaml/node.go:NodeFlags"]}
{"id": "C43", "title": "State file update", "statement": "At every moment of the update of an existing state file (and hence after a crash at any moment) the old or the new state is completely on disk, in the state file or its backup; a failed write leaves the old state in place, a successful one the new state and the old one as backup.", "quantifier": "all old and new contents, all crash points, all ways the write is split into parts, write failures", "why_tests_cant": "A test cannot stop the program at every intermediate point of every update.", "anchors": ["cmd/merge.go: merge (state handling)"]}
{"id": "C44", "title": "replace substitutes occurrences from the left", "statement": "replace(s, old, new[, n]) replaces the first n (without n: all) non-overlapping occurrences of old, searched from the left, and changes nothing else; a lambda that yields the text new has exactly the same effect; the empty text matches before every character and at the end.", "quantifier": "all texts, patterns, replacements and limits", "why_tests_cant": "unbounded texts with overlapping matches", "anchors": ["dynaml/replace.go: func_replace, ReplaceString, processReplace, StringFinder"]}
{"id": "C45", "title": "The merge loop stops exactly at a fixpoint", "statement": "A document that is returned by the processing was reached by repeated processing rounds from the source document, and one more round leaves it exactly as it is (values, annotations, unevaluated expressions); conversely, a fixpoint that is reached ends the processing.", "quantifier": "all documents, all stubs, all evaluators and processing states", "why_tests_cant": "A statement about all documents and all numbers of rounds; a comparison that overlooks some field shows only for documents that differ in that field alone.", "anchors": ["flow/environment.go:321-354 Flow", "yaml/node.go", "reflect.DeepEqual"]}
{"id": "C46", "title": "Injected and default values of a stub fill gaps only", "statement": "A field that a stub offers with &inject or &default appears in the result exactly if the template has no such field (or that field becomes undefined); a default value never replaces a value of the template; an injected or default field offered twice is taken from the stub once; without such offers no new field appears.", "quantifier": "all templates and stubs, all evaluators and states, every nesting level", "why_tests_cant": "unbounded documents and stubs; the interplay of offers with undefined and overridden fields has unboundedly many shapes", "anchors": ["flow/flow.go: flowMap, flowList, injectMap, injectList", "flow/environment.go"]}
{"id": "C47", "title": "Undefined entries vanish, nothing else does", "statement": "A field or list element whose expression evaluates to undefined (~~) is dropped from the result; every other field and element is kept, list elements in their order.", "quantifier": "all maps and lists, all evaluators and states", "why_tests_cant": "unbounded documents with any combination of undefined entries", "anchors": ["flow/flow.go: flowMap, flowList"]}
{"id": "C48", "title": "Parsing a dynaml text always ends, with one answer", "statement": "For every text given to the dynaml parser parsing terminates and yields exactly one of: an expression, a syntax error, or the crash caused by a number without a 64 bit (or float) value. The construction of the expression from the syntax tree never fails otherwise, and the crash happens only if the text contains such a number.", "quantifier": "all texts (byte sequences; for the location of the number: ASCII texts), all document paths and stub paths, any conversion of float texts", "why_tests_cant": "infinitely many texts; termination of the backtracking grammar (about 100 mutually recursive rules) and the agreement of its rules with the stack discipline of the builder cannot be observed by sampling", "anchors": ["dynaml/parser.go: Parse, buildExpression", "dynaml/dynaml.peg.go: Parse, rules", "dynaml/dynaml.peg"]}
{"id": "C49", "title": "A written expression is read as this expression", "statement": "An expression written with the documented notation and precedences (operands, references, literals, calls, lists, maps, ranges, lambdas, aggregations, * / %, + -, comparisons, -or -and, concatenation, conditional, || //, scopes, arbitrary blanks) is read by the parser as exactly that expression; the notation is unambiguous and grouping does not change the content.", "quantifier": "all expressions of the listed forms of any depth, all their written forms", "why_tests_cant": "unbounded nesting; ordered choice makes every alternative depend on the failure of all earlier ones on all possible continuations", "anchors": ["dynaml/dynaml.peg", "dynaml/dynaml.peg.go", "dynaml/parser.go: Parse, buildExpression"]}
{"id": "C50", "title": "Aggregations apply the lambda to every element, in order", "statement": "map, select, filter and sum over a list or map evaluate the lambda once per element in list or key order, with element or key/index and element (sum: the accumulated value first); map keeps every answer that is neither nil nor undefined, select and filter keep exactly the elements with a true answer, with their keys for map targets, sum yields the last accumulated value. A pending element defers the whole expression, a failing element fails it.", "quantifier": "all lists, maps, lambdas (any number of parameters), environments, interpreter states and evaluation results of the body", "why_tests_cant": "unbounded collections and arbitrary lambda bodies with effects", "anchors": ["dynaml/mapping.go: MappingExpr.Evaluate, mapList, mapMap", "dynaml/select.go", "dynaml/filter.go", "dynaml/sum.go: SumExpr.Evaluate", "dynaml/lambda.go: Evaluate"]}
{"id": "C51", "title": "defined, valid, require, optional, catch and stub decide on failures exactly", "statement": "defined(e...) is true when every argument has a defined value, false when the first argument without one fails or is undefined, and waits when that argument is undecided; valid(e...) likewise, with nil counting as invalid; neither ever fails. require(e) has the value of e, fails when e fails or is nil, and waits for it. optional(c, x) is x when c is true, undefined (without evaluating x) when c is false, undefined or fails, and waits for c. catch(e) never fails: it yields a report with value or error text, or what its lambda makes of both. stub(), stub(path) yields the value of the first stub that has the node's own or the given path.", "quantifier": "all expressions, bindings, interpreter states and evaluation results (value, pending, failure), any number of arguments", "why_tests_cant": "arbitrary argument expressions with arbitrary outcomes and effects", "anchors": ["dynaml/defined.go: valid, defined, optional", "dynaml/require.go", "dynaml/catch.go: CatchExpr.Evaluate", "dynaml/stub.go", "dynaml/expression.go: ResolveExpressionOrPushEvaluation"]}
{"id": "C52", "title": "References deliver the addressed value, nothing else", "statement": "A reference expression gives the value found along its path in the environment when every node on the path is decided, stays undecided while a node on the path is, and fails with the path named when no node is found; exactly one of these holds. Qualified, computed ([expr]) and tag references follow the same rule relative to their base value, index or tagged node; an ambiguous or unknown tag is an error.", "quantifier": "all documents, environments, paths, indices, tags and evaluation results", "why_tests_cant": "unbounded paths and document shapes, all states of resolution", "anchors": ["dynaml/reference.go: ReferenceExpr.Evaluate, find", "dynaml/qualified_expression.go", "dynaml/dynamic_expression.go", "dynaml/reference.go: NewTaggedReferenceExpr"]}
{"id": "C53", "title": "Literals, scopes, ranges, slices and projections are built from exactly the values of their parts", "statement": "A list literal has a value exactly when all its elements have one, with the elements of expanded lists in place, fails at the first failing element and waits for undecided ones. A map literal is the map of its assignments, later ones winning; the first failing or undecided assignment decides. A scope evaluates its expression with the assigned names innermost. A range lists all integers between its bounds, a slice the elements between its bounds or an error, a projection what every entry (maps: in key order) yields. Undecided parts leave the expression undecided.", "quantifier": "all expressions, literals of any length, bindings, interpreter states and evaluation results", "why_tests_cant": "unbounded literals with arbitrary part expressions, outcomes and effects", "anchors": ["dynaml/list.go", "dynaml/map.go", "dynaml/scope.go", "dynaml/range.go", "dynaml/slice.go", "dynaml/projection.go", "dynaml/listexpansion.go"]}
{"id": "C54", "title": "Using a template gives the processed copy of its content, overridden at the place of use", "statement": "*t evaluates, if t is a template, to the copy of its content processed in the environment of the use with the template as _; it has a value exactly if nothing in the processed copy is open, waits if something is open without a reason and fails if there is a reason. Names are looked up at the place of use, _.x at the place of definition. A template with plain content yields that content merged with what the stubs say about the place of use; a single value is never overridden, and without stub definitions the content is used verbatim. Everything but a template is an error, or waits. Defining a template evaluates nothing: its content is kept as written.", "quantifier": "all templates, expressions, environments, stubs, interpreter states and processing results", "why_tests_cant": "templates of any shape used at any place with any stubs", "anchors": ["dynaml/template.go SubstitutionExpr.Evaluate", "flow/environment.go Flow", "flow/flow.go"]}
{"id": "C55", "title": "A document whose expressions do not depend on each other cyclically is processed to its solution", "statement": "Given a document of maps and lists whose leaves are plain values or expression texts. If there is a plain document of the same shape in which every expression position carries the value of its expression - references taken from the solution by lexical scoping (innermost enclosing map with the name first), list elements by index or name, arithmetic, comparison, concatenation, list literals, conditions, logical operators and defaults - and the dependencies of the expressions can be ranked, then the processing ends without unresolved nodes, with exactly the data of that solution. It is independent of the order of the fields and of the number of rounds, and there is only one such solution. With plain stubs, plain parts of the document are merged with the stubs first, and a field the stubs define gets their value if its expression has a value or is a reference that leads nowhere.", "quantifier": "all documents, plain stubs, expressions of the described kinds, nesting depths, reference chains, outer bindings without the names, options and interpreter states", "why_tests_cant": "the number of rounds, the nesting and the length of the reference chains are unbounded", "anchors": ["flow/environment.go Flow", "flow/flow.go flow/_flow/FlowMap/FlowList", "flow/cascade.go Cascade", "dynaml/reference.go", "dynaml/expression.go"]}
{"id": "C56", "title": "Merge expressions of a template take exactly the values of the stubs", "statement": "Given a template of maps whose fields are plain values, merge expressions ((( merge )), (( merge path )), with replace, required or none, with a literal default after ||) or maps with a field << : (( merge )) / (( merge path )) / (( merge replace )), and of lists of such maps with different literal names, which may contain one entry <<: (( merge )) / (( merge path )) if the elements of the stub list have different names (without colon, not starting with a bracket). If every merge expression can be resolved (the stubs have the value, or a default or an optional << is given), then processing ends without unresolved nodes and: a merge expression becomes the value of the first stub that has it at the path named (by default the path of the field); the default is used exactly if no stub has it; << inserts exactly the fields of the stub map that the template map does not have; the template's own fields are merged with the fields of that stub map (also if it is at another path, recursively); replace takes the stub map as it is; without stub value << vanishes; the merge entry of a list is replaced, in its place and in their order, by exactly those elements of the stub list whose names the template list does not have; the other elements stay in their places and are merged with the elements of the stub list of the same name. The result is determined by this.", "quantifier": "all templates of this kind, all lists of plain stubs, outer bindings, options and interpreter states", "why_tests_cant": "nesting depth, number of stubs and fields, and combination of redirected paths are unbounded", "anchors": ["dynaml/merge.go MergeExpr.Evaluate", "flow/flow.go flow/_flow/FlowMap/flowMap merge handling", "flow/cascade.go Cascade/PrepareStubs", "flow/environment.go FindInStubs", "flow/flow.go flowList/processMerges/newEntries"]}
{"id": "C57", "title": "Encrypted texts can be decrypted with the same password, and only with it", "statement": "encrypt(text, password) gives a text which decrypt(.., password) turns back into the original one, for every password and text and whatever random initialisation vector is used; decrypt accepts a text exactly if it is the hexadecimal form of an initialisation vector and at least one whole number of cipher blocks with correct padding, and otherwise reports an error; with a wrong password the text is not revealed; without password argument the password of the environment is used, without any password an error is reported; an explicitly named method is used together with the password given.", "quantifier": "all texts, passwords, initialisation vectors, block ciphers (any permutation of 8 byte blocks per key), environments and argument lists", "why_tests_cant": "texts and keys are unbounded; padding and block boundaries are corner cases; the vector is random", "anchors": ["dynaml/passwd/method_des1.go Encode/Decode/GetCipher", "dynaml/passwd/passwd.go func_encrypt/func_decrypt", "cmd/encrypt.go"]}
{"id": "C58", "title": "Conversions, numerals, rounding and element selection", "statement": "string(i, base) is the numeral of i to that base without superfluous zeros, bases other than 2 to 36 are errors; integer(text) accepts exactly the signed decimal numbers of 64 bit; integer(string(i)) = i and bool(string(b)) = b; a float is converted to an integer by cutting off the fraction, floor, ceil, round and roundtoeven round as their names say; abs is the absolute value; element selects by position or key and reports every other access as error; lower and upper exchange exactly the letters; rand(n) lies between 0 and n.", "quantifier": "all integers, bases, texts, finite floats, lists, maps and random sources", "why_tests_cant": "unbounded texts and all floats; boundaries of 64 bit, ties of rounding", "anchors": ["dynaml/convert.go", "dynaml/floatmath.go _float", "dynaml/element.go func_element", "dynaml/lower.go", "dynaml/rand.go func_rand"]}
{"id": "C59", "title": "Digests: passwords are accepted exactly by their digest, hash results are digests", "statement": "md5crypt(pw) gives an Apache apr1 entry $apr1$salt$digits with a salt of 8 characters; md5crypt_check(pw, md5crypt(pw)) is true for every password and salt; md5crypt_check(pw, h) is true exactly if h is the entry of pw for the magic and the salt contained in h, so another password is accepted only if it has the same digest; a text without exactly three $ is an error. hash(text, mode) is the hexadecimal form of the digest for the supported modes, hash(text) that of sha256, md5(text) that of md5; unknown modes are errors; the result does not contain the text.", "quantifier": "all passwords, salts, magics, texts, modes and digest functions with 16 byte results", "why_tests_cant": "salts are random and texts unbounded; a lost bit of the encoding only shows for special digests", "anchors": ["dynaml/crypt/md5crypt.go MD5Crypt", "dynaml/crypt/salt.go GenerateSALT", "dynaml/md5crypt.go", "dynaml/md5.go func_md5/func_hash"]}
{"id": "C60", "title": "The JSON form of a document denotes exactly the document", "statement": "asjson(v) and merge --json write a JSON text (RFC 8259) that denotes the value: null, booleans, numbers, texts, lists and maps with the same contents; a JSON text has only one reading, so two documents with the same JSON text have the same data (up to integers and floats of the same text); an error is reported exactly if a float is not a finite number; a text written as JSON string literal is read back unchanged as dynaml string literal.", "quantifier": "all values of nil, booleans, integers, finite floats, UTF-8 texts, lists and maps of any depth", "why_tests_cant": "texts, nesting and sizes are unbounded; escaping has many corner cases", "anchors": ["yaml/marshal.go ToJSON/ValueToJSON/normalizeValue", "dynaml/json.go func_as_json", "dynaml/parser.go parseString", "yaml/interpolation.go addExpr"]}
{"id": "C61", "title": "Expressions that wait for each other are reported and never get a value", "statement": "If a set of fields of a document have expressions each of which needs the value of one of these fields (directly, through arithmetic, comparison, concatenation, a condition, a logical operator or the left side of ||, or of a map around such a field), then processing the document never succeeds: whatever the rest of the document contains and whatever values the stubs have for these fields, every one of the fields is reported as unresolved at its path and still holds an expression in the result. No default value, branch or stub breaks such a cycle. A document with a solution (C55) has no such set of fields.", "quantifier": "all documents (any content beside the waiting fields and the ordinary maps around them), all sets of waiting fields, plain stubs, outer bindings, options, states, and bounds for depth and rounds for which the run ends", "why_tests_cant": "cycles of any length through any maps and operators, mixed with any other expressions; a test shows single cycles with a fixed rest of the document.", "anchors": ["flow/flow.go: flow, flowMap", "flow/environment.go: Flow", "dynaml/reference.go: Evaluate, find", "dynaml/unresolved_check.go: FindUnresolvedNodes", "dynaml/or.go", "dynaml/conditional.go", "dynaml/log_or.go", "dynaml/expression.go: ResolveExpressionOrPushEvaluation"]}
{"id": "C62", "title": "YAML scalars keep their types when documents are written and read", "statement": "A plain scalar of a YAML document is nil, a truth value, an integer, a float, a timestamp or a text exactly as its letters say (YAML 1.1 words for nil and truth values in any case; binary, octal, decimal and hexadecimal 64 bit integers with underscores; floats), a quoted scalar is always its text. The result of processing, made of nil, truth values, integers, floats, UTF-8 texts, lists and maps, is always written as YAML, and reading what was written gives the same data again, so results can be fed to the next spiff run: every text that would read as something else is quoted, floats stay floats. Known exceptions: the text null as the whole document, floats written like integers, unquoted timestamps, keys that are no texts, texts that are not UTF-8.", "quantifier": "all scalars; all documents of data of any size and depth; all behaviours of Go's ParseFloat/FormatFloat, for the floats of the document under the premise that the text written is a number read as this float", "why_tests_cant": "which of all texts need quotes, in documents of any depth, cannot be enumerated; the reader's tables and the writer's analysis are independent code that must agree on every text.", "anchors": ["yaml/parser.go: Unmarshal, Sanitize", "yaml/marshal.go: Marshal", "legacy/candiedyaml/resolver.go: resolve, resolveInterface, resolve_int, resolve_float, resolve_time", "legacy/candiedyaml/encode.go: emitString, emitScalar", "legacy/candiedyaml/emitter.go: yaml_emitter_analyze_scalar, yaml_emitter_select_scalar_style", "legacy/candiedyaml/decode.go: valueInterface, document"]}
{"id": "C63", "title": "YAML texts survive quoting, escaping and line folding", "statement": "Every UTF-8 text that spiff writes into a YAML document plain, between single quotes or between double quotes, as a value or as a key, at any indentation and in any column, is read back as exactly the same text in the same style, whatever follows it in the block: quotes, backslashes, control characters, line breaks and characters beyond ASCII are escaped, and lines longer than 80 columns are folded only where reading puts the blank back. Only printable ASCII characters and line breaks are written. Reading a quoted text gives what YAML says its characters stand for. Texts with line breaks written as literal blocks (after a bar) are read back exactly, with all blanks and empty lines in front, between and behind.", "quantifier": "all UTF-8 texts of any length, all indentations, columns and states of the writer, all continuations of the document; for reading all contents of quotes that follow YAML's rules (line breaks LF)", "why_tests_cant": "escapes, runs of blanks, fold positions and indentations combine without bound; a text is damaged only when a blank, an escape or a document marker meets the 80th column.", "anchors": ["legacy/candiedyaml/emitter.go: yaml_emitter_write_plain_scalar, yaml_emitter_write_single_quoted_scalar, yaml_emitter_write_double_quoted_scalar, yaml_emitter_write_indent, yaml_emitter_write_block_scalar_hints, yaml_emitter_write_literal_scalar", "legacy/candiedyaml/scanner.go: yaml_parser_fetch_next_token, yaml_parser_scan_flow_scalar, yaml_parser_scan_plain_scalar, yaml_parser_scan_block_scalar, yaml_parser_scan_block_scalar_breaks"]}
