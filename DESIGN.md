# Design

## Subject

acronis/go-raml at the pinned commit, Go sources in /repo, read as text only.

## Model

Everything is written in Gallina as total functions, in `rocq/theories`.

* `Base.v` — outcome type (`Ok`, `Err`, `Panic`, `OutOfFuel`), Go dynamic values
  (`any`), Go interface equality, ordered maps (wk8/go-ordered-map), byte strings,
  binary64 through `Coq.Floats.SpecFloat`.
* `Scalars.v` — scalar shapes: facets, validate / inherit / check / alias.
* `Heap.v` — the shape graph as a heap: base shapes, property maps, facet maps,
  slices and data-type links have addresses, because the code shares and mutates
  them. clone, alias, Inherit, UnwrapShape, FindAndMarkRecursion, Check, Validate.
* further files: names and references, hooks, type expressions, JSON-schema,
  parsing, command line.

Conventions

* Recursive Go functions take fuel; exhausting it is the separate outcome
  `OutOfFuel`, never a success. Non-termination claims are proved as
  "OutOfFuel for every fuel"; termination claims as "not OutOfFuel for every
  fuel above a bound computed from the heap and value".
* nil dereference, failed type assertions, index out of range: `Panic`.
* Error values carry no message: position, wrapping and stack traces of
  go-stacktrace are not modelled.
* External functions (regexp, time.Parse, json.Marshal, xxh3, yaml.v3 scalar
  resolution, file system) are universally quantified arguments.

Statements live in `Props_*.v` files that contain nothing else; each is closed by
`exact` of a lemma proved elsewhere, followed by `Print Assumptions`. Next to each
theorem there is an `Example` showing that its hypotheses are satisfiable on a
non-trivial input.

When the full statement of a property is false of the code, the theorem
`..._refuted` proves the negation with a witness, and the strongest restricted
form proved is named `..._partial`. Witnesses are small models or inputs of one
function; `Props_Documents.v` and `Props_Added.v` show the same effects on whole
RAML files that parse.

## Plan per property

| id | property | approach |
|----|----------|----------|
| C01 | Integer validation agrees with the declared facets | Pure model of IntegerShape facets (`Scalars.v`), spec = declarative predicate over Z / float truncation; proved by case analysis on the dynamic type. float64 out of int64 range is a quantified oracle. |
| C02 | Integer types accept only integral numbers | Refuted on the model with a concrete double (1.5); positive restricted statement for int/uint. |
| C03 | Number validation agrees with the declared facets | Pure model on `SpecFloat` binary64; int/uint conversion by `binary_normalize 53 1024`. |
| C04 | Numeric enum membership is by numeric value | Refuted: int enum members never equal the float64 value; positive statement for float64 members. |
| C05 | String, file, boolean, nil and any validation agree with the declared facets | Pure model; regex match is a quantified oracle; `len` is byte length. |
| C06 | Date/time types accept exactly the strings of their format | Pure model; `time.Parse` per layout is a quantified oracle. |
| C07 | Array validation agrees with items, length and uniqueness facets | Heap model validate; JSON encoding and hash are quantified oracles; spec over lists. |
| C08 | Object validation agrees with properties, additionalProperties, pattern properties and size facets | Heap model validate vs. declarative relation. |
| C09 | Validation verdict does not depend on map iteration order | Equivalence relation 'same up to permutation of map entries at every depth', proved by induction on fuel. |
| C10 | Union validation accepts exactly the values some member accepts | Heap model validate. |
| C11 | Validation terminates for guarded recursive types | Lexicographic induction (value size, rank of unguarded edges). |
| C12 | Validation terminates for every type accepted by the parser | Refuted: `U: U | string` style heap where validate is OutOfFuel for every fuel. |
| C13 | Scalar inheritance only narrows numeric and length ranges, enums | Pure model of scalar inherit; case analysis. |
| C14 | A derived type is a subtype: every value of the child is a value of the parent | Refuted by witnesses (pattern, datetime format, additionalProperties); partial positive with explicit hypotheses. |
| C15 | Array and object inheritance narrow structurally | Heap model inherit; facts about the final heap. |
| C16 | Inheriting across different kinds is rejected | Heap model inherit; case analysis on kinds. |
| C17 | A union redeclaration is checked against the inherited property | Refuted by witness (string redeclared as integer|boolean). |
| C18 | The effect of Inherit is independent of earlier inheritances from the same parent | Refuted by witness (visited flag left set); positive: homogeneous non-union inherit restores the flag. `Props_Ready.v`: no flag is left after UnwrapShapes in a parsed document without unions and any. |
| C19 | Deriving a type does not change its parents | Refuted by witness (multiple inheritance adds to the shared property map). |
| C20 | Facet-based type inference is independent of facet order | Pure model; permutation theorem. |
| C21 | Property name and requiredness follow the declaration | Pure model over byte strings. |
| C22 | References resolve to the declared type of the right fragment | Pure model over finite maps. |
| C23 | Fragment kind identification is exact | Pure model over byte strings. |
| C24 | A detached clone shares nothing with the original and behaves the same | Heap model clone; region invariant + simulation. |
| C25 | Cloning terminates on cyclic graphs | Measure: IDs not yet cloned. |
| C26 | Validation without unwrap leaves every declared type untouched | Region (frame) invariant for clone/unwrap/inherit/mark. |
| C27 | Unwrapping is idempotent | Heap model unwrap. `Unwrap_same.v`, `Props_Found.v`: without unions and any every type is unwrapped in place. |
| C28 | Recursion marking terminates and makes the type graph finite to traverse | Measure on unvisited bases; invariant 'finite below and avoids the path'. |
| C29 | Recursion marking preserves the accepted values | Simulation between heaps before/after marking. |
| C30 | Check succeeds only on consistent facets | Induction over check's recursion. |
| C31 | A validated model has only conforming examples and defaults | Induction over validateShapeCommons' recursion. |
| C32 | Custom facets are checked against their definitions | Loop invariants of validateShapeFacets. |
| C33 | Every $ref produced by the JSON-schema converter resolves | Convert model on heap; invariant on definitions. |
| C34 | Object conversion preserves property order, requiredness and closedness | Convert model. |
| C35 | JSON-schema conversion preserves validity | JSON-schema semantics as an independent evaluator; proved for the fragment where both languages agree, differences refuted. |
| C36 | Recursive heads with the same name do not collide in definitions | Refuted by witness. |
| C37 | Schema DeepCopy is an independent equal copy | Schema tree with explicit maps/slices addresses; value equality proved, aliasing of empty containers refuted. |
| C38 | Schema Map renders every keyword that is set, at every level | Schema tree model against a table of keywords. |
| C39 | Hooks run in registration order until the first error | State machine over slices with backing arrays. |
| C40 | RemoveHook removes exactly the given hook | Refuted for re-entrant removal; proved for removal outside calls with distinct code pointers and fresh backing arrays. |
| C41 | Shape IDs are unique among created shapes | Creation history model; refuted for clones. |
| C42 | Type expressions are parsed according to the grammar, unambiguously | Lexer + recursive descent parser vs. inductive grammar relation. The generated files too: `Atn.v` holds the numbers of the two automata, `Rdt_gen.v` the parser functions; inversion state by state, and a rank on states that bounds the steps without input (`Gen_pick.v`). |
| C43 | Type expressions denote the intended sets of values | Visitor model on the heap with denotation of expressions. |
| C44 | Import cycles between libraries terminate and each library is loaded once | Parse pipeline over abstract file system with fuel. |
| C45 | Parsing terminates on every input | Refuted by cyclic alias / include. |
| C46 | Parsing never panics | Refuted by an odd-length sequence under `facets` and other documents; proved for tidy files (`Spec_Calm.v`): an invariant of the RAML object that every step keeps, also when it fails, and that rules out each panic. On any model without nil or dangling references (`Shapes_calm.v`) copying, marking, checking and validating never panic, inheriting does not with plain enums, unwrapping does not without unions; so a tidy document without unions is parsed, unwrapped and validated without a panic as long as no annotation loses its type. Each condition is shown to be needed. |
| C47 | An alias is equivalent to its target | AliasTo on heap; refuted for boolean enum, proved for other kinds. |
| C48 | Declaration order of properties is preserved | Ordered-map lemmas + inheritProperties; the declaration by C62, the schema by C64. |
| C49 | Example/default data nodes denote the YAML data | YAML tree model. |
| C50 | The CLI reports failure when any file is invalid | Refuted (last file decides); positive for one file. |
| C51 | Union inheritance only narrows | Refuted by visited-flag witness. |
| C52 | Result of unwrapping does not depend on the order in which fragments are visited | Refuted by witness of order-dependent unwrap. |
| C53 | Model lookups stay consistent after unwrapping | Refuted by witness (`base` stored instead of the unwrapped shape). `Props_Found.v`: holds for parsed documents without unions and any. |
| C54 | Annotations are validated against their declared annotation type | Model of domain extension validation. `Props_Found.v`: what UnwrapShapes does to annotations. |
| C55 | A derived object type accepts only what its parent accepts | Heap model inherit composed with validate; restricted to open parents, the rest refuted. |
| C56 | A declaration takes its kind from the type it names | Resolve model; invariant on kinds in any order of resolution. |
| C57 | Derived and aliased types keep the custom facets of both sides | Heap model inherit and alias. |
| C58 | All parents of a type constrain it | Heap model inherit, iterated; Spec_Meet.v states the exact intersection for open objects and arrays. |
| C59 | Conversion to JSON Schema always ends with a schema | Convert model; measure on the marked graph. `Mark_heads.v`: the heads of recursive shapes are of finite descent too, which gives C59 for parsed documents (`Props_Ready.v`). |
| C60 | Conversion to JSON Schema keeps the documentation of a type | Convert model; case analysis on the visitor. |
| C61 | A successful parse leaves a complete model | Decode and Parse models; an invariant of every step, with the types under construction and the list of types to resolve as the only ones without a kind. |
| C62 | A successful parse makes every type as its declaration says | Decode and Parse models; a relation between nodes and types that holds of what is decoded and is kept by every later step; the facets of a type whose kind is not yet known are carried along. |
| C63 | Type expressions lead to the types they name | Decode and Parse models; the relation of C62 extended by where an expression leads, for types whose kind was open; kept because a type that has a kind is not changed any more, except the one under construction. |
| C64 | The schema made from a type says exactly what the type says | Convert model; relation between types and schemas with a table of keywords per kind, by induction on the number of nested visits; no hypotheses. |
| C65 | Every reported validation error has a reason | `Spec_Reason.v` says what may be wrong with a type or annotation; the error result of each validation function is traced back to it. |
| C66 | A facet is accepted exactly when its value has the required form | `facet_may_be` (`Spec_Decode.v`) beside `facets_read`; facet by facet, then the loop. |
| C67 | A shallow copy of a type is a type of its own | `Shallow.v`; directly from the allocation; independence refuted by inheriting into the copy. |
| C68 | The text of an error keeps what it was wrapped in | `Errors.v`: error chains as seen by `errors.As` and `errors.Unwrap`; the wrapping texts are lost (refuted), the rest is exact. |
| C69 | A declared type is found by its file and its name | `Parse_index.v`, `Props_Index.v`: an invariant of the index kept by decoding, linking and resolution; needs files that do not include themselves through a `uses`, and single keys for the converse (both refuted without). |
| C70 | Only types that contain themselves become recursive shapes | `Mark_back.v`, `Unwrap_flags.v`, `Props_Back.v`: the flags seen by the walk are those of the types above the current one, and the unwrapping of a model without unions leaves flags on types of the kind any only. Refuted for parents of the kind any and for union properties that a child narrows. The same flags give C28 for parsed models without unions and any. |
| C71 | Types and annotations are located in loaded files | `Locate.v`: every walk of the decoder makes types at the location of the file being read, or of a file already in the cache. `Keep_loc.v`: every heap operation of copying, inheriting, unwrapping, marking and validating takes the location of an existing type. `Props_Locate.v`. |
| C72 | Locations are clean absolute paths, one for each file | `Path.v`: IsAbs, Clean, Join and Dir of path/filepath on Unix, and what the entry functions make of their arguments. `Spec_Path.v`: places as lists of names, following a path from a directory. `Path_proofs.v`: Clean is following from the root. `Path_keys.v`: walks the decoder with any property of paths that joining keeps. `Props_Path.v`. |
| C73 | The ways to parse agree | `Path.v`, `Props_Path.v`. |
| C74 | Examples are accepted exactly when they have the required form | `Spec_Example.v`: the form of an example, the annotations made for it. `Props_Example.v`: the decoder of `Decode.v` accepts these and makes those; `Spec_Decode.v` has "not both" in what a successful parse says of every type (C62). |
| C75 | Hooks can stop an operation but not change its result | `Hooked.v`: the operations with the calls of hooks. `Hooked_proofs.v`, `Hooked_parse.v`: a relation between a run with and a run without hooks, through every function. `Hooked_asked.v`: what success says about the hooks. |
| C76 | The verdict of validation does not depend on the order of the fragments | `Props_Order.v`: in an unwrapped model the loops of `Pipeline.v` collect the outcomes of the types; the verdict is a function of the set of outcomes. |
| C77 | Nothing written in a type declaration is dropped silently | `Props_Documents.v`: from what a parse says of a declaration (C62) to the custom facets, and from there to the verdict of validation (`Keep_facets.v`: copying and unwrapping a type without parents keeps its custom facets); files that show what is dropped. |
| C78 | Hooks added through a type are those of its RAML object | `Shape_hooks.v`: the methods of types over the registry of `Hooks.v`. `Spec_Shape_hooks.v`: owners and the calls that went to each. |
| C79 | A RAML object can be used for several parses | `Parse.v` started from a used state. `Again_proofs.v`: the invariants of C61 and C62 from any state with nothing left to do. `Props_Again.v`: sequences of texts. |
| C80 | Unwrapping reaches every part of a type | `Heap.v`. `Mark_heads.v`, `Reached_proofs.v`: the marking walk succeeds only if all it comes to is unwrapped. `Props_Reached.v`: a document refused in one order of declarations and taken in another. |
| C81 | Data type files in JSON | `Parse.v`, `Decode.v`. `Props_Json.v`: from C62 and an inversion of the decoder. |
| C82 | What counts for the verdict on a value | `Validate.v`. `Spec_Silent.v`: the parts of a type, and when two models say the same of a type. `Props_Silent.v`: induction on the depth of the traversal; documents with discriminators. |
| C83 | Examples that are not strict need not conform | `Decode.v`: makeExample. `Props_Strict.v`: the entry makes no difference at all; documents that are refused. |
| C84 | The entry point is the parsed document | `Entry.v`: a RAML object with its entry point. `Props_Entry.v`: from C44; a library that is reached again while it is read, and a failed parse. |
| C85 | Declared facets constrain values | `Validate.v`, `Scalars.v`. `Spec_Idle.v`: a model with facets struck out. `Props_Idle.v`: induction on the depth of the traversal with the loops of C82; documents with `multipleOf`, `format` and `fileTypes`. |
| C86 | Schemas obey the meta-schema | `Convert.v`. `Spec_Meta.v`: the rules of draft-07 for keywords. `Props_Meta.v`: from C64, by induction on the place of a schema in the document; a document with `multipleOf: 0`. |
| C87 | The schema of a derived type is narrower | `Heap.v`, `Convert.v`. `Props_Schema_narrow.v`: from C14 and C35; a document where `multipleOf` is redeclared. |

## Trusted base

1. The Coq 8.16.1 kernel and the files of the standard library the theories import.
2. What `Print Assumptions` lists. It is printed under every theorem of every
   `Props_*.v`; for all of them it is "Closed under the global context": no
   axioms, neither of this development nor of the standard library (binary64 is
   `SpecFloat`, not the primitive floats).
3. The reading of /repo written down as the model files (those without a
   `Spec_`, `Props_` or `_proofs` in the name, and without `_lemmas`, `_check`,
   `_ends`, `_walk`, `_calm`, `_values`; `Atn_lexer.v`,
   `Atn_scan.v`, `Atn_parser.v` and `Gen_*.v` are proofs). Each definition there cites the lines it stands for.
4. The definitions of the `Spec_*.v` files, which give the theorems their meaning.

### Modelled

| file of /repo | functions | model |
|---|---|---|
| scalars.go | validate, inherit, check, alias of all scalar shapes; isCompatibleEnum | `Scalars.v` |
| complex.go | clone, alias, validate, inherit, check of array, object, union, JSON, unknown, recursive; property names | `Heap.v`, `Validate.v`, `Names.v` |
| shape.go | Inherit, union inheritance, AliasTo, Clone, Check, Validate, identifyShapeType, MakeConcreteShapeYAML (kind only), MakeBaseShape, MakeRecursiveShape, MakeJSONShape | `Heap.v`, `Names.v`, `Resolve.v` |
| unwrap.go | all | `Heap.v`, `Pipeline.v` |
| validate.go | all | `Validate.v`, `Pipeline.v` |
| resolve.go, rdt_visitor.go | all | `Resolve.v`, `Pipeline.v` |
| rdt/ | the grammar, as lexer and recursive descent parser | `Rdt.v` |
| rdt/rdt_lexer.go, rdt/rdt_parser.go | the serialized automata, the parser functions | `Atn.v`, `Rdt_gen.v` |
| raml.go | hooks, lookups, shape IDs | `Hooks.v`, `Hooked.v`, `Names.v`, `Heap.v` |
| fragment.go | CutReferenceName, GetReferenceType, GetReferenceAnnotationType; unmarshalling of libraries, data types, named examples | `Names.v`, `Parse.v` |
| parse.go | all | `Names.v`, `Parse.v`, `Path.v` |
| extension.go, example.go | unmarshalling | `Decode.v`, `Pipeline.v` |
| shape.go, scalars.go, complex.go | makeNewShapeYAML, decode, makeShapeType, unmarshalYAMLNodes | `Decode.v` |
| node.go, example.go | yamlNodeToDataNode, makeYamlNode, makeRootNode, makeIncludedNode | `Yaml.v` |
| jsonschemaconv.go | all | `Convert.v` |
| schema.go | Map, DeepCopy, ShallowCopy, JSONSchemaWrapper | `Schema.v`, `Copy.v`, `Convert.v` |
| cmd/raml | Execute, exit code | `Names.v` |

### Not modelled

* messages, positions and stack traces of errors; logging; `String` methods;
  mocks.go.
* Concurrency: the library starts no goroutines.
* yaml.v3, encoding/json, regexp, time, xxh3, path/filepath, the file system,
  the ANTLR runtime: external. `Path.v` writes down IsAbs, Clean, Join and Dir of
  path/filepath on Unix from their documentation (C72, C73). For ANTLR, `Atn.v` writes down how the runtime
  reads the serialized automata and what they mean (longest match; acceptance by
  a stack automaton), and a hypothesis of the theorems (`viable`,
  `Spec_Atn.v`) says what AdaptivePredict answers on input that the automaton
  accepts.

### Oracles: arguments every theorem quantifies over

* `oracle`: regexp matching, time.Parse per layout, int64(f) out of range,
  json.Marshal, xxh3. Where a theorem needs more (`hash_injective`,
  `oracle_wf`) it is a hypothesis of that theorem.
* `yenv`: scalar resolution of yaml.v3, path joining, file contents, the JSON and
  YAML parsers.
* `denv`: decoding of a YAML node into a string, bool, number or any (yaml.v3),
  big.Int.SetString, regexp.Compile, json.Unmarshal of a schema, filepath.Base. A
  document node has a child; yaml.v3 turns a null document into a nil pointer
  without calling UnmarshalYAML.
* `renv`: lookup of a name from a location, and the decoder of the facets kept
  for a type that is not resolved yet.
* `cenv`: the values of annotations, and the schema in the text of a JSON type.
* `pred`: AdaptivePredict of the ANTLR runtime (C42).
* the meaning of JSON Schema `format` (C35), growth of slices (C39, C40).

### Simplifications

Stated at the definitions; the ones that matter for reading the theorems:

* A concrete shape is stored inside its base shape (each has exactly one).
* A scalar inherit that fails leaves the target unchanged in the model; in Go the
  facets before the failing one are already updated. Failure aborts the whole
  operation.
* Decode, Parse: no hooks (they are in `Hooked.v`); the links of the `uses` of a data type are kept in the
  cached fragment only; examples taken from a NamedExample file are an empty map.
* Pipeline: no hooks (they are in `Hooked.v`, where they look and object but
  change nothing); libraries half updated by a failing UnwrapShapes are not
  returned.
* Uniqueness of array items (C35) is compared by JSON text.
* JSON Schema documents are trees except in `Copy.v`, where sharing is the subject.
* Numbers in schemas are values, not texts.
