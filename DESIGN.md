# Formal model of mandelsoft/spiff in Rocq (Coq 8.16.1)

## 1. Approach

The Go code is read as text and re-expressed as total Gallina functions over an
explicit value type (`Core.v`): a YAML node is a value plus its annotation, exactly the
fields of `yaml.AnnotatedNode`.  Every definition cites the file and lines it models and
says where it simplifies.  Model files contain no proofs, lemma files contain the
proofs, `Prop*.v` files contain the property theorems (keyword `Theorem`, prefix `Cxx_`),
examples that meet their hypotheses, and `Print Assumptions`.

| Go | model |
|----|-------|
| `int64` arithmetic | `Z` with an explicit `wrap64` after every operation |
| strings | Coq `string` (sequence of bytes) |
| `map[string]Node` | association list sorted by key; where the Go result depends on the random iteration order, the order is a parameter and the theorems hold for every order (validation, -D values, contexts) or the definition says that the sorted order is taken |
| `[]Node` | `list node`; where aliasing or capacity matters (C24, C25) a heap of arrays with (base, length, capacity) slices |
| error returns | explicit results (value, info, ok) |
| panics | explicit `Panic` constructors, never a default value |
| recursion that may not end (evaluator, merge loop) | fuel; no result is claimed when fuel runs out, results do not depend on fuel (`EngineFacts.v`), and the relation `runs` hides it |
| conversion of texts to floats, regular expressions, YAML text, md5, the operating system, the clock | function parameters: the theorem holds for every such function |
| `float64` | `SpecFloat.spec_float` of the standard library (binary64, pure Gallina) |

A property that the code violates is stated and refuted with a concrete witness
(`Cxx_..._refuted`), and the strongest true restriction is proved beside it.  Such a
property has the status `partial` unless the property text itself already carries the
restriction.

## 2. Trusted base

* The kernel of Coq 8.16.1 (including `vm_compute`, used for concrete examples and for
  finite checks over the grammar rules).
* No axioms: `Print Assumptions` answers "Closed under the global context" for every
  property theorem; the list is in `ASSUMPTIONS.md` (generated from Coq's output).
  Only the standard library is used.  No functors or module types are defined, no
  kernel check is switched off, nothing is admitted.
* That the Gallina definitions say what the cited Go lines do.  This is by reading; the
  code was never executed.  `Grammar.v` is generated by a script from the comments of the
  generated parser `dynaml/dynaml.peg.go`, assuming that these comments and the generated
  code agree and that both agree with `dynaml.peg`.
* The abstractions of the table above.
* Behaviour of Go's standard library as modelled in `Str.v` (strings, strconv, utf8),
  `IP.v` (net), `Parser.v` (encoding/json for string literals), `ListFns.v`
  (sort.SliceStable as a stable sort).

Wrong programs: `seeded/LOG.jsonl` lists edits of the model definitions in a scratch copy,
and which theorem stopped being provable.

## 3. Files

| file | contents |
|---|---|
| `Core.v` | Core data types: YAML nodes, annotations, flags, dynaml expressions, bindings. Models yaml/node.go, yaml/value.go and the struct definitions of dynaml/*.go and flow/environment.go. |
| `CoreFacts.v` | Facts about Core: maps, strings order, induction on nodes, wrap64. |
| `Str.v` | Strings: the functions of Go's packages strings, strconv and unicode/utf8 used by dynaml, plus dynaml/split.go, join.go, trim.go, substr.go, base64.go. A Go string is a sequence of bytes, i.e. a Coq [string]. |
| `IP.v` | IP address and CIDR arithmetic. Models dynaml/addition.go:67-80, dynaml/ip.go, dynaml/division.go:37-64, dynaml/multiplication.go:34-44, dynaml/ipset.go, dynaml/static_ips.go:63-99,204-226. An address (net.IP) is the list of its bytes, most significant first (length 4 or 16). |
| `IPSpec.v` | Specification vocabulary for addresses and networks (properties C12-C17): an address is its number, a network its interval of numbers. |
| `IPFacts.v` | Proofs about IP.v. The specification side: the numeric value of an address. |
| `IPFacts2.v` | Proofs about IP.v, part 2: sizes, multiplication, ipset, static_ips. |
| `Arith.v` | The arithmetic operators on resolved operand values. Models dynaml/addition.go:32-63,85-103, subtraction.go:32-75, multiplication.go:31-53, division.go:31-77, modulo.go:29-33, ip.go and ipset.go:27-81,112-205 at the level of values and texts. [None] is a reported error (ok = false). |
| `ArithFacts.v` | Proofs about Arith.v. |
| `PropArith.v` | Properties C11-C17: integer, address and network arithmetic. [N] is any implementation of the text conversions of Go's package net. |
| `DeepEq.v` | reflect.DeepEqual on values, nodes and expressions. A value is mapped to a finite tree of its fields; DeepEqual compares the trees. Floats compare with ==, so NaN differs from itself. The pointer of a projection value is compared by identity. |
| `Equiv.v` | yaml/node.go:465-515 EquivalentToNode, dynaml/lambda.go:173-176, dynaml/template.go:85-88. |
| `Find.v` | yaml/find.go. [raw] and [ctrl] (features.ControlEnabled()) are the mode parameters. A step may panic (index far below zero, index text beyond the int range). |
| `DeepEqFacts.v` | DeepEqual is a partial equivalence; reflexive away from NaN. |
| `EquivFacts.v` | Node equivalence (C07). |
| `StrFacts.v` | Basic facts about strings and number texts. |
| `DecSpec.v` | Decimal numerals, specified without any conversion function, and the proof that the number parsers of the model read exactly these. |
| `FindFacts.v` | Facts about path lookup (C09). |
| `PropNode.v` | C07 (node equivalence) and C09 (path lookup). |
| `Interp.v` | yaml/interpolation.go and the dynaml markers of yaml/node.go:522-593. |
| `Cleanup.v` | flow/cascade.go:55-127. |
| `Unresolved.v` | dynaml/unresolved_check.go. The parser is a parameter: [parses s] tells whether dynaml.Parse accepts the text. |
| `PropCleanup.v` | C05 (cleanup of temporary and local nodes) and C06 (state extraction). |
| `PropUnresolved.v` | C04: the unresolved check reports exactly the open nodes. |
| `PropInterp.v` | C10: dynaml markers, escapes and string interpolation. |
| `Comparison.v` | The comparison operators on resolved operand values. Models dynaml/comparison.go:34-83 (ComparisonExpr.Evaluate after operand evaluation) and comparison.go:89-229 (compareEquals). The evaluation info is left out. |
| `PropCompare.v` | C18 (== and !=) and C19 (ordering comparisons). |
| `RangeSlice.v` | Integer ranges and list slices on resolved bounds. Models dynaml/range.go:14-67 and dynaml/slice.go:27-66. |
| `PropRange.v` | C21 (integer ranges) and C22 (slices and substrings). |
| `Compare.v` | compare/compare.go: the structural diff of two documents (spiff diff). |
| `PropDiff.v` | C08: the structural diff. |
| `ListFns.v` | List functions on evaluated arguments. Models dynaml/uniq.go, compact.go, intersect.go, contains.go, index.go, sort.go, reverse.go, keys.go, length.go, makemap.go, deepmerge.go, list_to_map.go, concatenation.go:36-117. The evaluation info is left out. |
| `PropList.v` | C23 (uniq, compact, intersect, contains, index, lastindex) and C24 (sort, reverse: the values; the effect on other references is in PropHeap.v). |
| `PropMap.v` | C28: functions on maps: concatenation, deepmerge, keys, length, makemap, list_to_map. (merge() runs the whole merge engine on its arguments and is covered by the flow model.) |
| `TextFns.v` | Text functions on evaluated arguments. Models dynaml/split.go:10-67, join.go:10-52, trim.go:9-46, base64.go:9-78, replace.go:12-35 and 102-184 (replacement of texts). The evaluation info is left out. |
| `PropText.v` | C26 (split, join, trim), C27 (base64), C44 (replace). |
| `PropText2.v` | C27 (base64) and C44 (replace). |
| `Tags.v` | flow/state.go:192-289 and dynaml/tag.go: tags and document numbers of a processing state. |
| `PropTags.v` | C29 tags, C30 document numbers: statements about all histories of operations on the tag state. |
| `Files.v` | File access, temporary files, the file cache, the command cache and the state file update: flow/state.go:162-191, 288-327, dynaml/tempfile.go, dynaml/exec.go:114-170, dynaml/write.go:100-108, cmd/merge.go:283-322. |
| `PropFiles.v` | C33 command cache, C34 files and temporary files, C43 state file update. |
| `Env.v` | flow/environment.go: bindings (DefaultEnvironment) and lookups in them. The processing state is threaded separately (Flow.v); the feature flags are constant during a processing and given by [ctrl] (control structures enabled). |
| `Flow.v` | flow/flow.go, flow/flow_control.go, dynaml/control.go:146-251 (GetControl), environment.go:321-354 (the fixpoint loop), cascade.go: the merge engine. The evaluation of expressions, the parser and the control functions are parameters, so the theorems hold for every evaluator; Eval.v supplies one. A function of the Go code that may run for ever or crash yields [Panic] or [Fuel]; the processing state (tags, caches, files) is threaded through as [ST]. Texts of issues are abbreviated. |
| `FlowSpec.v` | Specification of the merge of plain documents (C01-C03), by what a user sees; it uses the path lookup of C09 and no part of the merge engine. |
| `FlowFacts.v` | The merge engine on plain documents (C01, C02). |
| `FlowPass.v` | One round of the merge engine on plain documents. |
| `FlowMerge.v` | Rounds of the merge engine on plain documents: the second round changes flags only, the third one nothing (C02). |
| `FlowStable.v` | Stability of merged plain documents: what the first round produces is changed by the second one in flags only (C02). |
| `PropFlow.v` | C01, C02: the processing of plain documents by the merge engine. |
| `PropFlow2.v` | C03 (lookup in the stubs), C04 for whole runs, and counterexamples for C01, C02. |
| `Heap.v` | Go slices in a heap of arrays: what dynaml/concatenation.go:71-77 (append), reverse.go:20-25, sort.go:33-36 and yaml/parser.go:92-105 (Sanitize of a list) do to the memory. Elements are of any type. |
| `PropHeap.v` | C24, C25: effects of list operations on other references to the same list. |
| `PropArith2.v` | C11, C12, C17: mixed operands, floats, addresses with a network, static_ips. |
| `EncInj.v` | The field trees compared by reflect.DeepEqual determine the value: lemmas for the fixpoint property of the merge loop. |
| `PropFix.v` | C45: the merge loop stops exactly at a fixpoint of the processing. C02 and the zeros. |
| `Info.v` | dynaml/expression.go: combination of evaluation infos (the record itself is in Flow.v). |
| `PropInfo.v` | C42: combination of evaluation infos. C41: lookup of references. |
| `PropInject.v` | C46: injected and default values of stubs. C47: undefined fields and elements vanish. One processing step of the merge engine, for every evaluator, parser and control function. |
| `Eval.v` | dynaml/*.go: evaluation of expressions. Results are (value, info, ok) as in the Go code; [ok = false] is a failed evaluation, [ok = true] with an expression as value a delayed one. A crash is [Panic]. Parameters: the parser, the printer of expressions, the tag table, the cells of projections, the functions of the function registry and of the operating system ([builtin]), sync expressions (they depend on the time) and the flow of a template ([flowT]). Texts of issues are abbreviated, nested issues and the list of cleanups are left out. In Go, slices of a parsed expression may be changed in place (arguments of optional(), defaults of lambda expressions); here an expression is a value. |
| `Control.v` | dynaml/control.go:70-183 (registry, issues) and dynaml/control/*.go: the control structures for, if, switch, type and merge. The evaluation of expressions is a parameter. Texts of issues are abbreviated. |
| `Engine.v` | The evaluator of Eval.v, the controls of Control.v and the merge engine of Flow.v call each other; here the knot is tied. The recursion of the Go code may not end: [evalF f] allows [f] nested evaluations; EngineFacts.v shows that the result does not depend on [f] once it is there. |
| `EngineFacts.v` | More fuel does not change a result: [le m m'] says that m' behaves like m wherever m ends. All combinators of Eval.v, Control.v and Flow.v respect it. |
| `Runs.v` | Relational reading of computations with fuel: [runs m s a s'] if m ends with [a] for some fuel. |
| `World0.v` | A small concrete world for examples: no functions beyond those of Eval.v, no tags, no sync; the parser is a table of texts. |
| `PropCond.v` | C20: conditional, default and validity operators, for every evaluator state and every environment; the parts are arbitrary expressions. |
| `PropLambda.v` | C37: application of lambda values (dynaml/lambda.go:234-375, dynaml/call.go). |
| `PropControl.v` | C35: the for control. C36: the selection done by if, switch, type and merge. |
| `PropSelect.v` | C36: which control a map denotes and what if, switch, type and merge select. |
| `Context.v` | spiffing/spiff.go:64-260, features/features.go, flow/state.go:69-170 and dynaml/registry.go: execution contexts of the library interface and the feature flags they carry. |
| `PropContext.v` | C40 feature settings, C32 contexts are persistent values, C31 access modes of derived contexts. |
| `Keeps.v` | An invariant of the state that every function of the world keeps is kept by every evaluation and every flow: [keeps I m] says that m leads from a state only to states related to it by I. All functions of Eval.v, Control.v and Flow.v are covered. |
| `OSFns.v` | The functions that reach outside of a document: exec, pipe, read, write, tempfile, lookup_file, list_files, mkdir, env (dynaml/exec.go, pipe.go, read.go, write.go, tempfile.go, lookup.go, files.go, mkdir.go, env.go, flow/state.go: 171-190, 299-327). Every access to the outside is recorded in a trace; the answers of the outside may depend on the whole trace. |
| `PropOS.v` | C31 access rights at the functions: what a document can reach of the outside. |
| `Values.v` | Values given on the command line, -D key=value (cmd/merge.go:80-98, 153-172, 401-439). |
| `PropValues.v` | C39 values given by -D land at the addressed path. |
| `Validate.v` | The validation functions validate and check (dynaml/validate.go, dynaml/dns.go). Texts of messages are left out. |
| `PropValidate.v` | C38 validation logic. |
| `Peg.v` | Parsing expression grammars as executed by the parser that github.com/pointlander/peg generates (dynaml/dynaml.peg.go:640-760): ordered choice, greedy repetition without backtracking, and a list of tokens that is cut back when an alternative fails. |
| `Grammar.v` | The grammar of dynaml expressions: the rules of dynaml/dynaml.peg, taken from the generated parser dynaml/dynaml.peg.go (the comments before its functions). Adjacent characters are joined to literals, alternatives of single characters to sets; the empty actions (rules Action0-Action2) are dropped. Generated by a script. |
| `Parser.v` | dynaml/parser.go: from a text to an expression. The grammar is executed by [run] of Peg.v; [build] is the loop over its tokens (parser.go:143-545). Floats (strconv.ParseFloat) are a parameter. |
| `PegFacts.v` | Facts on the execution of parsing expression grammars. |
| `ParserFacts.v` | The dynaml parser: termination, and the discipline of its stack. |
| `ParserRead.v` | A calculus for the parser on ASCII texts: [go p s s' st st'] - the pattern reads [s] up to [s'] and its actions lead from [st] to [st'] - and [fails p s]. |
| `Written.v` | How dynaml expressions are written (README.md, "dynaml Templating Language"): the texts of an expression, with the precedence of the operators. This is the specification of the parser; it does not refer to the grammar or to the parser. |
| `ParserWords.v` | The parser on blanks, names, keys, references, numbers and strings. |
| `ParserClean.v` | Reading with the actions of the parser, starting in a state without pending options of a merge expression: every expression leaves such a state behind. |
| `ParserLits.v` | The parser on literals and on the beginning of operands. |
| `ParserWritten.v` | The parser reads every written expression (Written.v) as this expression. |
| `ParserAll.v` | The parser reads every written expression (Written.v): the cases. |
| `ParserOps.v` | The parser reads every written expression (Written.v): operands, lists and lambda expressions, and the induction over all texts. |
| `ParserMerge.v` | The parser on merge expressions. |
| `ParserRun.v` | The parser reads every written expression (Written.v): operands, and the induction over all texts. |
| `ParserAscii.v` | Written texts (Written.v) consist of ASCII characters only. |
| `ParserRange.v` | The numbers that make the parser crash. |
| `PropParse.v` | C48, C49: dynaml texts and the expressions read from them. |
| `PropAgg.v` | C50: the aggregations map, select, filter and sum, for every list or map, every lambda, every evaluator state and environment. |
| `PropFail.v` | C51: the functions that handle missing and failing values: defined, valid, require, optional, catch and stub, for every evaluator state and environment; the arguments are arbitrary expressions. |
| `PropRef.v` | C52: the evaluation of references, for every environment, document and state. |
| `PropLit.v` | C53: list and map literals, scopes, ranges, slices and projections as expressions, for every evaluator state and environment. |
| `PropTpl.v` | C54: templates: substitution of a template, for every evaluator state and environment, and of templates with plain content. |
| `DocSpec.v` | What the expressions in a document mean: the specification for C55. |
| `FlowDoc.v` | The merge engine on documents with expressions and plain stubs: rounds, progress and the fixpoint. The documents consist of maps and lists; an entry is a plain document or the text of an expression. The evaluation of the expressions is a parameter. |
| `DocFacts.v` | Lemmas for C55: looking up references in a document in progress. |
| `DocEval.v` | Lemmas for C55: the evaluation of the expressions of a document in progress. |
| `PropDoc.v` | C55: whole documents with expressions. A document whose expressions refer to each other without cycles is processed to the end; every expression is replaced by its value. |
| `StuckSpec.v` | Expressions that wait for each other: the specification for C61. |
| `FlowStuck.v` | The merge engine on documents in which expressions wait for each other (C61): whatever else is in the document, every round keeps them waiting. The evaluation is a parameter. |
| `PropStuck.v` | C61: expressions that wait for each other never get a value, and all of them are reported. |
| `MergeSpec.v` | What a template with merge expressions becomes (C56). Stated with the path lookup of C09 and the specification of plain documents (FlowSpec.v); no part of the merge engine. |
| `FlowIns.v` | The merge engine on templates with merge expressions (C56): rounds and fixpoint. |
| `FlowDet.v` | The specifications of merging (FlowSpec.v, MergeSpec.v) determine the result. |
| `PropMrg.v` | C56: templates with merge expressions. The whole processing of a template whose fields are merged with stubs by (( merge )), (( merge path )), (( merge \|\| default )), << : (( merge )) and the like. |
| `Crypt.v` | Encryption of values. Models dynaml/passwd/method_des1.go:24-140, passwd.go:15-137 and cmd/encrypt.go:42-107. Parameters: the block cipher (crypto/des), HMAC-SHA256 with the fixed secret, the random initial vector, the YAML encoder and the import of a YAML text. |
| `CryptSpec.v` | What an encrypted text is (C57). No part of the model except the block cipher, the MAC and the exclusive or of bytes. |
| `PropCrypt.v` | C57: encryption and decryption. |
| `Convert.v` | Conversions, rounding, selection of elements. Models dynaml/convert.go:15-133, floatmath.go:30-77 (rounding and abs), element.go:8-54, lower.go:5-27, rand.go:12-44 (numbers). The evaluation info is left out. Parameters: the texts of floats (%g, strconv.ParseFloat) and the result of int64(f) for a float out of range, which Go leaves open. |
| `ConvertSpec.v` | Numerals, rounding and letters (C58), specified without the functions of the model. |
| `PropConvert.v` | C58: conversions, numerals and rounding. |
| `Digest.v` | Digests of texts and passwords. Models dynaml/md5.go (func_md5, func_hash), dynaml/crypt/md5crypt.go:8-73 (MD5Crypt), crypt/salt.go:8-15 (GenerateSALT) and dynaml/md5crypt.go:8-48. Parameters: the digest functions of the Go library (bytes to bytes) and the random numbers of the salt. The evaluation info is left out. |
| `DigestSpec.v` | The password digest of Apache (apr1) as a relation, and digits to the base 64 (C59). |
| `PropDigest.v` | C59: digests of texts and passwords. |
| `Json.v` | JSON texts of values. Models yaml/marshal.go:16-78 (ToJSON, ValueToJSON, Normalize, normalizeValue), encoding/json Marshal (Go 1.24) for the normalized values, and dynaml/json.go:10-22 (asjson). Parameters: the texts of finite floats in JSON, of lambdas (dynaml/lambda.go:230) and of marker expressions (marker.go:138). Maps are kept sorted by key in the model (Core.v), as json.Marshal writes them. |
| `JsonSpec.v` | JSON texts without blanks, as a relation between texts and what they denote (RFC 8259), and what a value denotes (C60). |
| `PropJson.v` | C60: the JSON form of values. |
| `Yaml.v` | YAML documents: the types of scalars when documents are read and the styles of scalars when they are written. Models legacy/candiedyaml/resolver.go:62-449 (resolve, resolve_int, resolve_float, resolve_time, resolve_bool, resolveInterface), encode.go:100-345 (marshal, emitMap, emitSlice, emitString, emitBool, emitInt, emitFloat, emitNil), emitter.go:926-1032 and 1239-1397 (check_simple_key, select_scalar_style, analyze_scalar), parser.go:530-556 (the implicit flag of scalars), decode.go:186-626 (document, parse, scalar, sequenceInterface, mappingInterface), yaml/parser.go:62-130 (Sanitize). Documents are sequences of events; how events become characters and back (scanner.go, emitter.go apart from the parts above) is not modelled here (for scalars see Scalars.v): a scalar event that is written is read with the same text and style. Tags, anchors and aliases are left out (spiff never writes them); so are time zones (they do not influence the text of a time). Parameters: strconv.ParseFloat and strconv.FormatFloat(f, 'g', -1, 64). |
| `YamlSpec.v` | What the scalars of a YAML document are and which documents are the same (C62), without the functions of the model. |
| `PropYaml.v` | C62: YAML scalars keep their types when documents are written and read. |
| `Scalars.v` | YAML scalars as characters: how the texts of scalars are written and read. Models legacy/candiedyaml/emitter.go:40-135 (put, put_break, write), 1483-1506 (yaml_emitter_write_indent), 1625-1680 (write_plain_scalar), 1684-1750 (write_single_quoted_scalar), 1752-1915 (write_double_quoted_scalar); scanner.go:512-595 (skip, skip_line, read, read_line), 2844-3133 (yaml_parser_scan_flow_scalar), 3142-3330 (yaml_parser_scan_plain_scalar). The buffers are lists of bytes; the reader before the scanner (encodings, characters that are not allowed) is left out: theorem C63_ascii shows that what is written is printable ASCII and line breaks. The emitter runs with the options of spiff: line break LF, unicode = false, best_width = 80. |
| `ScalarSpec.v` | What quoted scalars of YAML mean, and what plain ones are: specification for C63 (YAML 1.1, 5.7 and 9.1; line breaks are LF). Uses nothing of the model of the writer and the reader. |
| `PropScalars.v` | C63: the texts of YAML scalars are written and read back. |
| `BlockSpec.v` | What may follow a literal block. Written from the YAML rules, without the model. |
| `Blocks.v` | YAML literal blocks as characters. Models legacy/candiedyaml/emitter.go:1925-2012 (write_block_scalar_hints, write_literal_scalar) and scanner.go:2541-2845 (yaml_parser_scan_block_scalar for literal scalars, yaml_parser_scan_block_scalar_breaks). Line breaks of the written text are LF; the reader reads lines byte by byte (characters of several bytes are read whole by the program, which makes no difference for UTF-8 texts). |
| `PropBlocks.v` | C63: texts with line breaks are written as literal blocks and read back. |

## 4. Plan and method per property

* **C01** Merging a plain template without stubs changes nothing — partial. `Flow.v` models one processing round and the loop; induction on the document shows that a round returns it with processing flags only and that the loop then stops. *Theorems:* `PropFlow.v`, `PropFlow2.v`. Whole runs of the merge engine on every plain document (any evaluator, any options). Documents with the number NaN are refuted: the processing never ends (C01_nan_refuted); the negative zero is excluded, since it compares equal to zero.
* **C02** The template fixes the structure, stubs only supply values — partial. Same engine with a list of stubs; the specification `merges` (FlowSpec.v) is a relation on documents; a round is shown to establish it and further rounds to keep it. *Theorems:* `PropFlow.v`, `PropFlow2.v`, `PropFix.v`, `PropDoc.v`, `PropMrg.v`. Whole runs on plain documents (keys without meaning for paths and merging) whose lists stay addressed the same way; other lists are refuted (C02_unsteady_refuted). A field with an undecided expression does not get the value of the stub (C02_cycle_refuted); documents with expressions and stubs are in C55. The result is characterized by the relation merges of FlowSpec.v.
* **C03** The first stub that defines a path wins — proved. Lookup of a path in a list of stubs against "first stub in which the path exists"; induction on the list. *Theorems:* `PropFlow2.v`. All documents; the effect on whole runs is in C02_cascade and C02_last_wins.
* **C04** A successful merge is completely resolved — proved. `Unresolved.v` against an independent set of paths of open nodes; lifted to runs by the definition of the cascade. *Theorems:* `PropUnresolved.v`, `PropFlow2.v`. Every node tree, parser and evaluator; composed with the evaluation loop and the cascade (C04_cascade_success, C04_cascade_error, C04_cascade_stub_error).
* **C05** Cleanup removes exactly the temporary and local nodes — proved. The cleaned tree is compared with a path based description of the living nodes; induction on trees. *Theorems:* `PropCleanup.v`. For every annotated tree; the listing of the cleaned document equals the live part of the listing of the original.
* **C06** State extraction keeps exactly the nodes marked as state — proved. As C05 with the state marks. *Theorems:* `PropCleanup.v`. Exact contents of the state document; the claim about nested state nodes below unmarked entries is refuted (C06_nested_refuted): the code keeps only state entries of the root.
* **C07** Node equivalence is an equivalence relation that ignores annotations and map order — proved. Reflexivity, symmetry, transitivity by induction on nodes (through the field trees of DeepEq.v). *Theorems:* `PropNode.v`. Reflexivity needs the absence of NaN (C07_nan_refuted shows why).
* **C08** A document diff is empty exactly for equivalent documents — partial. The diff function against the equivalence of C07; induction on both documents. *Theorems:* `PropDiff.v`. Exact characterization for all documents whose lists have distinct element names and whose jobs are named maps; the remaining cases are refuted (duplicates, map against named list, unnamed jobs, job index).
* **C09** Path lookup follows map keys, list indices and list names — proved. Composition law and per-step description; induction on the path. *Theorems:* `PropNode.v`. An index below minus the list length crashes instead of yielding not-found; C09_crash_characterized gives exactly these paths.
* **C10** Text without dynaml markers is taken literally, escapes lose exactly one level — proved. The scanner of markers and the interpolation as functions on character lists; induction on the text. *Theorems:* `PropInterp.v`. The refuted theorems show three places where the property fails in the code: keys of the document root, maps with escaped keys under control processing, interpolated expressions starting with a string literal.
* **C11** Integer arithmetic is 64-bit two's-complement with checked division — proved. Z arithmetic with explicit wrap around. *Theorems:* `PropArith.v`, `PropArith2.v`. 
* **C12** Adding an integer to an IP address moves the address by that amount — partial. Addresses as numbers in base 256; the byte-wise loop is shown to add. *Theorems:* `PropArith.v`, `PropArith2.v`. True for all non-negative offsets and characterized exactly for negative ones; the unrestricted property is refuted (C12_refuted).
* **C13** The difference of two IP addresses is their numeric distance — proved. As C12. *Theorems:* `PropArith.v`. 
* **C14** CIDR bounds and size are consistent — partial. Networks as intervals of numbers. *Theorems:* `PropArith.v`. num_ip is proved for IPv4 and refuted for IPv6 (C14_num_ip_v6_refuted).
* **C15** CIDR division yields the smallest adequate split — partial. As C14, with the logarithm of the requested parts. *Theorems:* `PropArith.v`. Proved for IPv4; refuted for IPv6 prefixes (C15_v6_refuted).
* **C16** CIDR multiplication selects the n-th following network — partial. As C14. *Theorems:* `PropArith.v`. Proved for IPv4 with non-negative factors; refuted in general (C16_refuted).
* **C17** ipset enumerates addresses of the given ranges in order — partial. Enumeration against the list of intervals. *Theorems:* `PropArith.v`, `PropArith2.v`. Negative count refuted (crash): C17_negative_refuted.
* **C18** Equality comparison — partial. Case analysis and induction on pairs of values. *Theorems:* `PropCompare.v`. Exact characterization on plain values; symmetry and transitivity hold only between values of the same types (refuted otherwise), floats never compare equal (C18_float_refuted).
* **C19** Ordering comparisons form a total order — partial. Order laws. *Theorems:* `PropCompare.v`. Total order on integers and texts; the claim that all other operand types are rejected is refuted (C19_rejected_refuted).
* **C20** Conditional, default and validity operators — proved. Evaluator of Eval.v as a relation (`runs`) for every state and world; both directions of each operator. *Theorems:* `PropCond.v`. About the evaluation relation of the modelled expressions, for every world (parser, builtins, interpolation, state) that is steady in its recursion argument. What is false of the code is stated separately: an operand whose evaluation is still pending counts as available for || (C20_pending_refuted), expanded operands (C20_expansion_refuted), and a document where (x // 5) || 7 picks 7 although x becomes available (C20_document_refuted).
* **C21** Integer ranges — partial. Iterated stepping in Z. *Theorems:* `PropRange.v`. All 64-bit bounds except the last positions of the integer range, for which C21_range_refuted shows the actual behaviour.
* **C22** Slices and substrings select the denoted section — proved. firstn/skipn description of slices. *Theorems:* `PropRange.v`. Mixed-sign bounds behave as stated in C22_slice_error/C22_slice_empty (C22_mixed_bounds_refuted documents the surprising cases).
* **C23** Set-like list functions — partial. Induction on lists with an abstract description of == classes. *Theorems:* `PropList.v`. First-occurrence form of uniq proved for lists of values of the same types and refuted for mixed ones (== is not transitive); intersect proved for non-nil slices and refuted for nil slices; nil is never found by contains/index (C23_nil_refuted).
* **C24** sort and reverse — partial. Permutation and order of sort, mirror law of reverse, and a heap of arrays for aliasing. *Theorems:* `PropList.v`, `PropHeap.v`. Values of sort and reverse; sort.SliceStable is modelled as stable insertion sort. The effect on other references to the same array is in C24_inplace_refuted (heap model).
* **C25** List concatenation is a pure operation — partial. Heap of arrays with capacity. *Theorems:* `PropHeap.v`. The value of a concatenation is proved for every heap and every capacity; that it leaves other values alone is proved for bases without spare capacity and refuted otherwise (C25_refuted: lists parsed from YAML have spare capacity and two concatenations share a cell).
* **C26** split, join and trim — partial. Induction on texts. *Theorems:* `PropText.v`. All texts and separators; splitting by length and by characters restores the text for valid UTF-8 (refuted otherwise), join(~) and trim() crash.
* **C27** base64 round trip — proved. Bit arithmetic on blocks of three bytes, induction on blocks. *Theorems:* `PropText2.v`. The decoder ignores unused bits (C27_decode_injective_refuted).
* **C28** Map merging functions — partial. Lookup laws of the resulting maps. *Theorems:* `PropMap.v`. deepmerge is not associative (C28_deepmerge_assoc_refuted). merge() is covered by the merge engine (C02, C03).
* **C29** Tags — partial. Histories as lists of operations, invariants on the tag state. *Theorems:* `PropTags.v`, `PropFix.v`. All histories of tag operations; names with a component doc are excluded because they are accepted but never found (C29_doc_component_refuted).
* **C30** Document numbering in streams — partial. As C29. *Theorems:* `PropTags.v`. First stream of a processing; after a stream reset the numbers of the old stream stay bound (C30_second_stream_refuted).
* **C31** A context without OS access never touches the operating system — proved. Context histories (Context.v), and a trace of all accesses kept by an invariant through all evaluator, control and engine functions (Keeps.v). *Theorems:* `PropContext.v`, `PropOS.v`. Access rights of contexts after every history of API calls (C31_access, C31_foreign_fs), and every access of the modelled functions exec, pipe, read, write, tempfile, lookup, list, mkdir, env in whole evaluations, flows and cascades that return (C31_document, C31_cascade, C31_context), whatever the outside answers. Runs that panic have no final state in the model and are not covered. The environment is readable and read() reaches the network whatever the file system is (C31_title_refuted).
* **C32** Contexts are persistent values — partial. Heap of contexts and shared feature sets; histories of calls. *Theorems:* `PropContext.v`. All histories of context calls: plain With* calls leave every other context alone. False for WithInterpolation, WithControl and WithFeatures, which change the features shared with the receiver (C32_features_refuted, C32_sibling_refuted), and for SetTag (C32_settag_refuted; it panics before CleanupTags).
* **C33** Command results are cached per argument list — partial. Histories of cached calls. *Theorems:* `PropFiles.v`, `PropOS.v`. Repeated calls are answered from the cache; "iff same arguments" and "failures are not remembered" are refuted (C33_collision_refuted, C33_failure_refuted).
* **C34** Files are read once and temporary files are removed — partial. Histories of file operations. *Theorems:* `PropFiles.v`, `PropOS.v`. All histories of reads, temporary files and changes from outside; a processing with an outer binding keeps its temporary files (C34_outer_refuted).
* **C35** The for control enumerates the cartesian product in order — proved. The odometer of the control against the product of lists. *Theorems:* `PropControl.v`, `PropSelect.v`. For every list of control variables with non-empty ranges, every body and map key, every evaluator and state. An empty range crashes the control instead of yielding nothing (C35_empty_refuted), and an undefined map key does not skip a constant body (C35_skip_refuted).
* **C36** Control selection — proved. Selection functions against the fields of the control map. *Theorems:* `PropSelect.v`. Recognition of the control of a map (with the registered controls), and the selections of if, switch (fields and cases), type and merge. The control waits for all of its options, also the unchosen one (C36_unchosen_refuted); a match field that is no lambda matches everything (C36_match_refuted).
* **C37** Lambda application — proved. Binding of arguments against a table of parameters; then the call expression. *Theorems:* `PropLambda.v`. Binding of positional, named, default and variadic parameters, rejection, partial application, and the call expression on top of it. Lambda bodies see the scope of the caller, as in the code.
* **C38** Validation logic — proved. Evaluation of condition trees for arbitrary parts. *Theorems:* `PropValidate.v`. All condition trees, values, states, evaluators and orders of map traversal: and, or (two or more conditions), not, "!", list, map, mapfield, optionalfield, and the single checks type, comparisons, valueset. or with a single condition is always true (C38_or_single_refuted), a double "!" is an error (C38_double_inverse_refuted), and with an erroneous condition the outcome for a map depends on the traversal order (C38_map_order_refuted).
* **C39** -D values land at the addressed path — proved. Path laws of setting a value. *Theorems:* `PropValues.v`. All names, maps and values: which path a name spells (with a completeness theorem: every path has a spelling), what is found there afterwards, that all other paths are unchanged, when setting fails, and independence of the traversal order of the definitions for paths apart from each other; for overlapping ones the outcome is not determined by the arguments (C39_order_refuted).
* **C40** Feature settings — proved. Histories of settings. *Theorems:* `PropContext.v`. All settings and histories; unknown names and rejected ones are characterized.
* **C41** References see the innermost binding — proved. Lookup through the scope chain. *Theorems:* `PropInfo.v`. Resolution of references through the scopes of a binding, for all bindings; the evaluation of references on top of it is C52.
* **C42** Evaluation information is combined monotonically — partial. Laws of the combination. *Theorems:* `PropInfo.v`. The combination operation itself; some operators drop the information of an operand, which is not covered.
* **C43** State file update — partial. Every prefix of the sequence of file operations (crash points), every failing operation. *Theorems:* `PropFiles.v`. Every crash point and write failure with a working rename; the error of the first rename is ignored by the code (C43_rename_error_refuted).
* **C44** replace substitutes occurrences from the left — proved. Left-to-right occurrences described independently of the search. *Theorems:* `PropText2.v`. Non-empty and empty patterns; regular expressions (replace_match) are not modelled.
* **C45** The merge loop stops exactly at a fixpoint — proved. Field tree equality of consecutive rounds (EncInj.v) gives equality of documents. *Theorems:* `PropFix.v`. For documents without floating point zeros (0.0 and -0.0 compare equal, C02_zero_refuted) and, for the converse, without NaN.
* **C46** Injected and default values of a stub fill gaps only — proved. One map or list level of the engine for every evaluator. *Theorems:* `PropInject.v`. Every level of a template map, all evaluators and states; for maps without merge expressions among their fields (quietMap).
* **C47** Undefined entries vanish, nothing else does — proved. As C46. *Theorems:* `PropInject.v`. Every list and map level, all evaluators and states.
* **C48** Parsing a dynaml text always ends, with one answer — proved. The grammar as data (Grammar.v), a generic PEG interpreter; termination by a rank on rules and text length, stack discipline by abstract interpretation of all rules. *Theorems:* `PropParse.v`. The whole grammar (generated rules, taken by script from dynaml.peg.go) and the whole expression builder, for all byte texts. C48_crash_needs_number is about ASCII texts; C48_crash_refuted states that a number beyond 64 bit crashes instead of giving an error.
* **C49** A written expression is read as this expression — partial. `Written.v` is a declarative notation; mutual induction over it with a calculus of successful and failing pattern matches. *Theorems:* `PropParse.v`. Covers the notations of Written.v (see there); not yet in it: named arguments, slices and projections, top level index, lambda defaults and variadic parameters, float and IP literals, tagged references, tag markers, sync. Refuted separately: non-ASCII strings, names that begin with keywords, a string ending in a backslash, blanks around : and -.
* **C50** Aggregations apply the lambda to every element, in order — proved. The loops of the aggregation expressions against a relation that applies the lambda to one element after the other. *Theorems:* `PropAgg.v`. All lists, maps, lambdas and evaluation results, for every steady world. A lambda without parameters crashes the evaluation (C50_no_parameter_refuted).
* **C51** defined, valid, require, optional, catch and stub decide on failures exactly — proved. Each expression against the three outcomes gives/pends/failing of its argument runs; loops over arguments by induction. *Theorems:* `PropFail.v`. All arguments, environments and outcomes, for every steady world. A catch lambda without parameter crashes (finding).
* **C52** References deliver the addressed value, nothing else — proved. Reference loop by induction over the path against a separately defined notion of a settled path; qualified, computed and tag references on top. *Theorems:* `PropRef.v`. All paths, environments and outcomes, for every steady world. Tag lookups repeat the full path at every step, as in the source.
* **C53** Literals, scopes, ranges, slices and projections are built from exactly the values of their parts — partial. Run relations for the loops (runs_pushk), exact characterisation of value/pending/failing for each construct. *Theorems:* `PropLit.v`. Proved for all literals, scopes, ranges, slices and projections, both directions. Refuted parts: an undecided list expansion and the undecided list of a projection are reported as failures (C53_expansion_undecided_refuted, C53_projection_undecided_refuted); ranges that end at the largest integer never end (C21).
* **C54** Using a template gives the processed copy of its content, overridden at the place of use — proved. Engine run relation for Flow on the copied content; unresolved-node specification of C04; plain content via the two-pass result of C02 generalised to an arbitrary stub path and root mode. *Theorems:* `PropTpl.v`. Both directions for every template value and environment (C54_substitution, C54_only, C54_no_template), scoping (C54_names), and the exact result for templates with plain content (C54_plain, C54_scalar, C54_verbatim).
* **C55** A document whose expressions do not depend on each other cyclically is processed to its solution — proved. Invariant of the rounds of Flow: every node is plain, pending with an expression from a set that evaluation does not leave, or solved; induction on rank shows progress, deepEqual stops only at the solution. Evaluation of references in partially processed documents by the lookup theorem of C52. *Theorems:* `PropDoc.v`. Whole runs (Cascade) from the texts to the final document: C55_document without stubs, C55_stubs with any list of plain stubs, C55_stub with one (solutionS and docS in DocSpec.v; no stub reaches into a list that contains expressions); uniqueness of the solution: C55_unique. The expressions covered are those of the relation denotes in DocSpec.v; the evaluation of texts is the parser of the world, the document root is a map, names of list elements are not computed.
* **C56** Merge expressions of a template take exactly the values of the stubs — proved. Invariant of the rounds of Flow: every template node runs through a finite sequence of intermediate nodes (text, parsed, merged with redirect annotation, final), by induction on the template; the maps with << through their own two phases (mergeKey reads, then evaluates and inserts); lists with a merge entry through the same two phases, the elements carrying the invariant that their name field stays. At the end the document is unchanged by a round, plain or annotated quietly, and has no unresolved nodes. Determinism by induction on the template. *Theorems:* `PropMrg.v`. Whole runs of Cascade: C56_cascade (any list of plain stubs, each prepared with the ones after it as in C02), C56_single (one stub, taken as it is), C56_determined (the specification fixes the result). The merge expressions are read by the parser of the world; the example uses the parser of C48/C49. Lists of named elements with or without merge entry are included; merge on key and replace in list entries are not. The limits are needed: an own element that is an expression is not evaluated beside a merge entry (C56_list_text_refuted), and an element with a colon in its name is inserted a second time (C56_list_colon_refuted).
* **C57** Encrypted texts can be decrypted with the same password, and only with it — partial. Model of the CBC construction, padding, hex form and key choice over an abstract block cipher (inverse pair of functions per key). Round trip by induction on the blocks; acceptance characterized as an iff. *Theorems:* `PropCrypt.v`. Proved for every block cipher: C57_roundtrip (nonempty texts), C57_accepted (exactly the accepted texts), C57_one_message, C57_password, C57_environment, C57_no_key. Refuted: the empty text cannot be decrypted again (C57_empty_refuted), a ciphertext of exactly 8 bytes ends the run abnormally (C57_crash), only the first 16 bytes of the password count, so a different password is accepted (C57_wrong_key_refuted, C57_key_bytes), and with password and method given the password is ignored (C57_password_and_method_refuted). Secrecy of the cipher itself is not a subject of the model (the cipher is abstract).
* **C58** Conversions, numerals, rounding and element selection — partial. Model of the functions over IEEE floats (SpecFloat) and Z; specification by numerals as a relation and by rational inequalities. Uniqueness of numerals and roundings turns the relation into equations. *Theorems:* `PropConvert.v`. Proved for all inputs: numerals (C58_string, C58_string_base), texts (C58_integer_text, C58_bool_text), round trips, all roundings of finite floats with results in 64 bit (C58_truncate/floor/ceil/round/roundtoeven, C58_roundings_exist), element, lower/upper for ASCII texts, rand. Refuted: integer(true) and floor(true) are no operands of arithmetic, abs of the least integer is negative, string() and rand(least integer) end the run abnormally. The texts of floats (%g, ParseFloat) are parameters.
* **C59** Digests: passwords are accepted exactly by their digest, hash results are digests — partial. Model of MD5Crypt over an abstract md5 of 16 bytes; specification as relation (mixing, binary digits of the length, rounds, base 64 digits); injectivity of the encoding by base arithmetic. *Theorems:* `PropDigest.v`. Proved: the algorithm of md5crypt meets the relation apr1 (1000 rounds) and the entry is unique (C59_md5crypt, C59_check, C59_check_own, C59_other_password, C59_check_error); hash and md5 (C59_hash, C59_hash_faithful, C59_hash_default, C59_hash_mode). Refuted: hash(text, "md4") contains the whole text in hexadecimal form (C59_md4_refuted). The digest functions themselves are parameters; bcrypt is not modelled.
* **C60** The JSON form of a document denotes exactly the document — partial. Model of normalizeValue and of the JSON encoder; JSON grammar as a relation, unambiguity by mutual induction with a stop-character argument; soundness of the encoder by induction on nodes. *Theorems:* `PropJson.v`. Proved for all UTF-8 data: C60_asjson, C60_document, C60_one_reading (the grammar is unambiguous), C60_faithful, C60_error, C60_literal. Refuted: bytes that are no UTF-8 are replaced (C60_bytes_refuted); the Go integers of integer(true) are rejected (C60_goint_refuted). The texts of floats are a parameter (JSON numbers, different for different floats); the encoder is the one of the Go library, modelled for these values. YAML output is not modelled.
* **C61** Expressions that wait for each other are reported and never get a value — proved. Specification StuckSpec.v: set K of positions whose expressions wait for K (waits), ordinary maps around them. FlowStuck.v: invariant `state` preserved by every round of flow (safety form, arbitrary other content), PropStuck.v: evaluation keeps waiting expressions waiting, theorem over Cascade, example with a cycle through maps, || and a condition. *Theorems:* `PropStuck.v`. C61_stuck without stubs for every run that returns, C61_stubs with plain stubs (fuel at least what the stubs need), C61_solution: consistency with C55. Specification in StuckSpec.v (stuck, waits, meets); the invariant over the rounds in FlowStuck.v with the evaluation as parameter. The converse (a run that ends unresolved has such a set) is not claimed. A run may also not return (panic) because of the rest of the document.
* **C62** YAML scalars keep their types when documents are written and read — partial. Yaml.v models the resolver tables, the writer's scalar analysis and style selection, the event streams of the writer and reader and Sanitize; YamlSpec.v says independently what plain texts denote. Proof: resolveInterface is a decision list over disjoint first characters (master); analysis of UTF-8 terminates (analyze_done); plain style is only chosen if the text resolves to itself; node induction over documents with fuel bounded by the number of events. *Theorems:* `PropYaml.v`. C62_null/bool/int/float/time/text/quoted: which plain texts read as what, exactly. C62_written, C62_document: every document of data is written and read back as the same document (floats whose text is an integer come back as integers). Refuted parts: C62_root_refuted (the text null as the whole document comes back as nil, although written in quotes), C62_hang_refuted (a text that is not UTF-8 makes the writer loop forever or panic), C62_date_refuted (unquoted timestamps come back as garbage like 7059-05-08T50:23:76Z without the time of day, because Sanitize formats with a layout that is no Go reference layout), C62_keys_refuted (keys yes, 1: an error; a list as key: a crash), C62_octal_refuted (010 is 8, 08 is a float), C62_float_refuted. C62_plain, C62_single: what is written plain or between single quotes satisfies the rules of YAML for that. Missing: the characters between the events (for texts see C63), i.e. the scanner of the reader and the output of the writer (indentation, escapes, line folding), tags, anchors and aliases; floats rest on a premise about strconv (exactText).
* **C63** YAML texts survive quoting, escaping and line folding — partial. Scalars.v models the three writers and the two scanners byte by byte (the scanner's nested loops as a machine with a mode). ScalarSpec.v gives the grammar of quoted contents and plain continuations. Proof: writing by induction over the text with the invariant that the pen is beyond the indentation whenever a line may be folded (settled) and that no fold follows a blank (noFold); reading by induction over the grammar, for the word and the blank mode at once, with the number of steps bounded by the length. Blocks.v models literal blocks (write_literal_scalar, scan_block_scalar, scan_block_scalar_breaks); induction over the lines of the text, BlockSpec.v says what may follow. *Theorems:* `PropScalars.v`, `PropBlocks.v`. C63_double, C63_single, C63_plain: what is written, against an independent grammar of quoted contents (content) and continued plain texts (plain); C63_read, C63_read_plain: everything that follows the grammar is read as the text it stands for; C63_back, C63_text: written and read back, for every UTF-8 text with the style the writer selects (C62). C63_literal: every printable ASCII text with line breaks survives as a literal block (Blocks.v: hints, chomping, detected or given indentation), at any indentation, whatever less indented line follows. Missing: characters beyond ASCII and tabs in literal blocks, the block structure between the scalars (indicators, indentation of lists and maps), CR and CR LF as line breaks in the grammar.

## 5. Modelled and unmodelled code

Go files with modelled functions (model files in brackets):

* `cmd/convert.go` (Convert)
* `cmd/diff.go` (Compare)
* `cmd/encrypt.go` (Crypt)
* `cmd/merge.go` (Cleanup, Control, Eval, Files, Values)
* `compare/compare.go` (Compare)
* `dynaml/addition.go` (Arith, Core, Eval, IP)
* `dynaml/archive.go` (OSFns)
* `dynaml/auto.go` (Core, Eval)
* `dynaml/base64.go` (Str, TextFns)
* `dynaml/boolean.go` (Core, Eval)
* `dynaml/call.go` (Core, Eval, OSFns, Validate)
* `dynaml/catch.go` (Core, Eval)
* `dynaml/compact.go` (ListFns)
* `dynaml/comparison.go` (Comparison, Core, Eval)
* `dynaml/concatenation.go` (Core, Eval, Heap, ListFns)
* `dynaml/cond.go` (Core, Eval)
* `dynaml/contains.go` (ListFns)
* `dynaml/control.go` (Control, Flow)
* `dynaml/control/for.go` (Control)
* `dynaml/control/if.go` (Control)
* `dynaml/control/merge.go` (Control, Eval, Values)
* `dynaml/control/switch.go` (Control)
* `dynaml/control/typeswitch.go` (Control)
* `dynaml/convert.go` (Convert)
* `dynaml/crypt/md5crypt.go` (Digest)
* `dynaml/deepmerge.go` (ListFns)
* `dynaml/default.go` (Core, Eval)
* `dynaml/defined.go` (Eval)
* `dynaml/division.go` (Arith, Core, Eval, IP)
* `dynaml/dns.go` (Validate)
* `dynaml/dynamic_expression.go` (Core, Eval)
* `dynaml/dynaml.peg.go` (Grammar, Peg)
* `dynaml/element.go` (Convert)
* `dynaml/env.go` (OSFns)
* `dynaml/eval.go` (Eval)
* `dynaml/exec.go` (Files, OSFns)
* `dynaml/expression.go` (Arith, Eval, Flow, Info)
* `dynaml/features.go` (Context)
* `dynaml/files.go` (OSFns)
* `dynaml/filter.go` (Core, Eval)
* `dynaml/float.go` (Core, Eval)
* `dynaml/floatmath.go` (Convert)
* `dynaml/grouped.go` (Core, Eval)
* `dynaml/index.go` (ListFns)
* `dynaml/integer.go` (Core, Eval)
* `dynaml/intersect.go` (ListFns)
* `dynaml/ip.go` (Arith, IP)
* `dynaml/ipset.go` (Arith, IP)
* `dynaml/join.go` (Str, TextFns)
* `dynaml/json.go` (Json)
* `dynaml/keys.go` (ListFns)
* `dynaml/lambda.go` (Comparison, Core, Equiv, Eval, Json)
* `dynaml/length.go` (ListFns)
* `dynaml/list.go` (Core, Eval)
* `dynaml/list_to_map.go` (ListFns)
* `dynaml/listexpansion.go` (Core, Eval)
* `dynaml/log_and.go` (Core, Eval)
* `dynaml/log_or.go` (Core, Eval)
* `dynaml/lookup.go` (OSFns)
* `dynaml/lower.go` (Convert)
* `dynaml/makemap.go` (ListFns)
* `dynaml/map.go` (Core, Eval)
* `dynaml/mapmerge.go` (ListFns)
* `dynaml/mapping.go` (Core, Eval)
* `dynaml/marker.go` (Core, Eval, Flow, Json)
* `dynaml/md5.go` (Digest)
* `dynaml/md5crypt.go` (Digest)
* `dynaml/merge.go` (Control, Core, Eval, Values)
* `dynaml/mkdir.go` (OSFns)
* `dynaml/modulo.go` (Arith, Core, Eval)
* `dynaml/multiplication.go` (Arith, Core, Eval, IP)
* `dynaml/nil.go` (Core, Eval)
* `dynaml/node.go` (Equiv, Eval, Flow)
* `dynaml/not.go` (Core, Eval)
* `dynaml/or.go` (Core, Eval)
* `dynaml/parser.go` (Eval, Parser, Yaml)
* `dynaml/passwd/method_des1.go` (Crypt)
* `dynaml/passwd/passwd.go` (Crypt)
* `dynaml/pipe.go` (OSFns)
* `dynaml/prefer.go` (Core, Eval)
* `dynaml/projection.go` (Core, Eval)
* `dynaml/qualified_expression.go` (Core, Eval)
* `dynaml/rand.go` (Convert)
* `dynaml/range.go` (Core, Eval, RangeSlice)
* `dynaml/read.go` (OSFns)
* `dynaml/reference.go` (Core, Eval)
* `dynaml/registry.go` (Context)
* `dynaml/replace.go` (TextFns)
* `dynaml/require.go` (Eval)
* `dynaml/reverse.go` (Heap, ListFns)
* `dynaml/scope.go` (Core, Eval)
* `dynaml/select.go` (Core, Eval)
* `dynaml/slice.go` (Core, Eval, RangeSlice)
* `dynaml/sort.go` (Heap, ListFns)
* `dynaml/split.go` (Str, TextFns)
* `dynaml/static_ips.go` (Arith, IP)
* `dynaml/string.go` (Core, Eval)
* `dynaml/stub.go` (Eval)
* `dynaml/substr.go` (RangeSlice, Str)
* `dynaml/subtraction.go` (Arith, Core, Eval, IP)
* `dynaml/sum.go` (Core, Eval)
* `dynaml/sync.go` (Core, Eval)
* `dynaml/tag.go` (Tags)
* `dynaml/tempfile.go` (Files, OSFns)
* `dynaml/template.go` (Core, Equiv, Eval)
* `dynaml/trim.go` (Str, TextFns)
* `dynaml/type.go` (Control, Eval)
* `dynaml/undefined.go` (Core, Eval)
* `dynaml/uniq.go` (ListFns)
* `dynaml/unresolved_check.go` (Core, Unresolved)
* `dynaml/validate.go` (Validate)
* `dynaml/validor.go` (Core, Eval)
* `dynaml/value.go` (Core, Eval)
* `dynaml/write.go` (Files, OSFns)
* `features/features.go` (Context)
* `flow/cascade.go` (Cleanup, Flow)
* `flow/environment.go` (Context, Core, Engine, Env, Files, Flow)
* `flow/flow.go` (Files, Flow)
* `flow/flow_control.go` (Flow)
* `flow/state.go` (Cleanup, Context, Files, OSFns, Tags)
* `spiffing/interface.go` (Context)
* `spiffing/spiff.go` (Context)
* `yaml/find.go` (Compare, Find, Flow)
* `yaml/interpolation.go` (Interp)
* `yaml/marshal.go` (Json)
* `yaml/node.go` (Core, Equiv, Info, Interp)
* `yaml/parser.go` (Eval, Heap, Parser, Yaml)
* `yaml/value.go` (Core, Eval)

Not modelled (no theorem says anything about them):

* `legacy/candiedyaml/*`, `yaml/marshal.go` and the text half of `yaml/parser.go`: reading and writing YAML/JSON text.
* `compile/`, `debug/`, `hack/`, `examples/`, `flow/version.go`, `spiff++.go`, and the command line parsing of `cmd/*.go` (of `cmd/merge.go` only -D values and the state file are modelled, of `cmd/diff.go` the comparison).
* cryptography: `dynaml/crypt`, `dynaml/passwd`, `dynaml/x509`, `dynaml/wireguard`, `md5.go`, `md5crypt.go`, `bcrypt.go`, `rand.go`.
* functions: `archive.go`, `convert.go`, `format.go`, `json.go`, `match.go`, `parseurl.go`, `basename.go`, `lower.go`, `element.go`, `floatmath.go`, `dynaml/semver/*`.  In whole runs these are covered by the parameter `w_builtin` (any function), so theorems about runs hold whatever they return.
* the texts of error messages and of issues, debug output, `spiffing/utils.go`.
* goroutines: the code starts none besides those of `exec` and of sync(), whose timing is a parameter.
