{"id": "C01", "title": "Integer validation agrees with the declared facets", "statement": "For an unwrapped integer type, Validate(v) returns nil exactly when v is an int, a uint or a float64 whose integer part lies within [minimum, maximum] (absent bound = unbounded) and, if an enum is declared, equals one of its members.", "quantifier": "every integer shape (any combination of minimum, maximum, enum) and every Go value of any dynamic type", "why_tests_cant": "Bounds are arbitrary-precision and values range over int, uint and float64; the boundary between int64 and uint64 enum comparison cannot be enumerated.", "anchors": ["scalars.go:IntegerShape.validate", "scalars.go:EnumFacets"]}
{"id": "C02", "title": "Integer types accept only integral numbers", "statement": "If Validate(v) succeeds on an integer type and v is a float64 then v has no fractional part.", "quantifier": "every integer shape and every float64", "why_tests_cant": "A universal statement over all doubles; a test can only ever exhibit a counterexample.", "anchors": ["scalars.go:IntegerShape.validate"]}
{"id": "C03", "title": "Number validation agrees with the declared facets", "statement": "For an unwrapped number type, Validate(v) returns nil exactly when v is int, uint or float64 and its float64 conversion is neither below minimum nor above maximum and, if an enum is declared, is one of its float64 members.", "quantifier": "every number shape and every Go value, including NaN, infinities and integers that are not representable as float64", "why_tests_cant": "All IEEE doubles, including the unordered ones, must be covered.", "anchors": ["scalars.go:NumberShape.validate"]}
{"id": "C04", "title": "Numeric enum membership is by numeric value", "statement": "If a number type declares an enum and v is numerically equal to one of the members, Validate(v) succeeds (other facets permitting).", "quantifier": "every enum list and every numeric value", "why_tests_cant": "Depends on dynamic types of enum members produced by the YAML decoder versus the value: a product space.", "anchors": ["scalars.go:NumberShape.validate", "scalars.go:EnumFacets", "shape.go:decodeValueNode"]}
{"id": "C05", "title": "String, file, boolean, nil and any validation agree with the declared facets", "statement": "String: accepts exactly the string values whose length is within [minLength,maxLength], which match the pattern (if any) and are in the enum (if any). File: accepts exactly strings within the length bounds. Boolean: exactly booleans in the enum. Nil: exactly nil. Any: everything.", "quantifier": "every facet combination, every Go value, every regular-expression semantics", "why_tests_cant": "All strings and all patterns.", "anchors": ["scalars.go:StringShape.validate", "scalars.go:FileShape.validate", "scalars.go:BooleanShape.validate", "scalars.go:NilShape.validate", "scalars.go:AnyShape.validate"]}
{"id": "C06", "title": "Date/time types accept exactly the strings of their format", "statement": "datetime (rfc3339 or default), datetime rfc2616, datetime-only, date-only and time-only accept exactly the string values that parse under the corresponding layout, and no non-string.", "quantifier": "every string value, every declared format name and every layout parser", "why_tests_cant": "All strings and all format names.", "anchors": ["scalars.go:DateTimeShape.validate", "scalars.go:DateTimeOnlyShape.validate", "scalars.go:DateOnlyShape.validate", "scalars.go:TimeOnlyShape.validate"]}
{"id": "C07", "title": "Array validation agrees with items, length and uniqueness facets", "statement": "Validate(v) on an array type succeeds exactly when v is a []any, its length is within [minItems,maxItems], every element validates against items (if declared) and, if uniqueItems is set, no two elements have the same JSON encoding.", "quantifier": "every array shape, every list, every (collision-free) 64-bit hash function; soundness of uniqueItems for every hash function", "why_tests_cant": "Quantifies over all nested values and hash behaviours.", "anchors": ["complex.go:ArrayShape.validate", "complex.go:hashInterfaceFast"]}
{"id": "C08", "title": "Object validation agrees with properties, additionalProperties, pattern properties and size facets", "statement": "Validate(v) on an object type succeeds exactly when v is a map, its size is within [minProperties,maxProperties], every required property is present, every declared property present validates, and every undeclared key is permitted: additionalProperties is not false and (if it matches any pattern property) at least one matching pattern property accepts its value.", "quantifier": "every object shape (any nesting), every map value and every regular-expression semantics", "why_tests_cant": "All key sets, all nestings.", "anchors": ["complex.go:ObjectShape.validate", "complex.go:ObjectShape.validateProperties", "complex.go:ObjectShape.validatePatternProperty"]}
{"id": "C09", "title": "Validation verdict does not depend on map iteration order", "statement": "Whether Validate(v) returns nil does not depend on the order in which Go enumerates the keys of any map inside v.", "quantifier": "every shape, every value, every permutation of the keys of every map at every depth", "why_tests_cant": "Go randomises map iteration: a test observes one schedule per run.", "anchors": ["complex.go:ObjectShape.validateProperties"]}
{"id": "C10", "title": "Union validation accepts exactly the values some member accepts", "statement": "Validate(v) on a union succeeds exactly when it succeeds on at least one member of anyOf.", "quantifier": "every union, every value", "why_tests_cant": "All member lists and values.", "anchors": ["complex.go:UnionShape.validate"]}
{"id": "C11", "title": "Validation terminates for guarded recursive types", "statement": "On an unwrapped type whose recursion always passes through an object property or array item, Validate(v) returns for every v.", "quantifier": "every finite (possibly cyclic through recursive shapes) type graph and every value of every depth", "why_tests_cant": "Termination over all cyclic graphs and values.", "anchors": ["complex.go:RecursiveShape.validate", "complex.go:ObjectShape.validate", "complex.go:UnionShape.validate"]}
{"id": "C12", "title": "Validation terminates for every type accepted by the parser", "statement": "For every type graph the library can produce, Validate(v) returns for every v.", "quantifier": "every type graph produced by parse+unwrap, including a union that contains itself", "why_tests_cant": "Non-termination cannot be observed by a finite test; it needs an invariant over all fuel bounds.", "anchors": ["complex.go:RecursiveShape.validate", "complex.go:UnionShape.validate", "unwrap.go:FindAndMarkRecursion"]}
{"id": "C13", "title": "Scalar inheritance only narrows numeric and length ranges, enums", "statement": "If a child integer/number/string/file/boolean type successfully inherits from a parent of the same kind, every value accepted by the resulting type is accepted by the parent with respect to minimum, maximum, minLength, maxLength and enum.", "quantifier": "all parent/child facet combinations and all values", "why_tests_cant": "The product of all facet combinations and all values.", "anchors": ["scalars.go:IntegerShape.inherit", "scalars.go:NumberShape.inherit", "scalars.go:StringShape.inherit", "scalars.go:FileShape.inherit", "scalars.go:BooleanShape.inherit"]}
{"id": "C14", "title": "A derived type is a subtype: every value of the child is a value of the parent", "statement": "If inheritance succeeds, every value accepted by the derived type is accepted by each of its parents (including pattern, datetime format, additionalProperties and pattern properties).", "quantifier": "all type pairs, all values", "why_tests_cant": "Substitutability is a for-all over values.", "anchors": ["shape.go:BaseShape.Inherit", "scalars.go:StringShape.inherit", "scalars.go:DateTimeShape.inherit", "complex.go:ObjectShape.inherit"]}
{"id": "C15", "title": "Array and object inheritance narrow structurally", "statement": "If an array/object type inherits from a parent of the same kind then minItems/maxItems/minProperties/maxProperties are at least as strict, uniqueItems is kept, every required property of the parent stays required, and every property of the parent is present in the child.", "quantifier": "all array/object shapes in any heap, any nesting", "why_tests_cant": "All facet and property combinations, aliasing between parent and child maps.", "anchors": ["complex.go:ArrayShape.inherit", "complex.go:ObjectShape.inherit", "complex.go:ObjectShape.inheritProperties"]}
{"id": "C16", "title": "Inheriting across different kinds is rejected", "statement": "Inherit returns an error whenever parent and child are neither any nor union and their kinds differ, so a property cannot be redeclared with an incompatible type.", "quantifier": "all pairs of shapes of all kinds and any heap", "why_tests_cant": "All pairs of kinds and reachable states.", "anchors": ["shape.go:BaseShape.Inherit", "scalars.go:*.inherit", "complex.go:*.inherit"]}
{"id": "C17", "title": "A union redeclaration is checked against the inherited property", "statement": "If a child redeclares an inherited non-union property as a union, inheritance fails when no member of the union is compatible with the inherited type.", "quantifier": "all unions and all source types", "why_tests_cant": "Universal over union members and source types.", "anchors": ["shape.go:BaseShape.inheritUnionTarget", "shape.go:BaseShape.Inherit"]}
{"id": "C18", "title": "The effect of Inherit is independent of earlier inheritances from the same parent", "statement": "Two types that derive from the same parent with the same declarations get the same result, whatever other types were processed before.", "quantifier": "all histories of inheritance operations on one model", "why_tests_cant": "History dependence: every sequence of previous operations.", "anchors": ["shape.go:BaseShape.Inherit", "shape.go:BaseShape.ShapeVisited"]}
{"id": "C19", "title": "Deriving a type does not change its parents", "statement": "After UnwrapShapes, a parent type accepts the same values as it did if the derived type had not been declared.", "quantifier": "all libraries and all derived types, including multiple inheritance", "why_tests_cant": "Aliasing between shared property maps over all type graphs.", "anchors": ["unwrap.go:unwrapParents", "complex.go:ObjectShape.inheritProperties", "shape.go:BaseShape.Inherit"]}
{"id": "C20", "title": "Facet-based type inference is independent of facet order", "statement": "When no type is given, the inferred type depends only on the set of facet names, not on their order in the document; conflicting facet sets are always rejected.", "quantifier": "every list of facet names and every permutation of it", "why_tests_cant": "All permutations of all facet lists.", "anchors": ["shape.go:identifyShapeType"]}
{"id": "C21", "title": "Property name and requiredness follow the declaration", "statement": "A property declared `name?` without `required` is optional and named `name`; with an explicit `required` value that value wins and the name is kept verbatim; without `?` and `required` it is required.", "quantifier": "every key string, every optional marker and every explicit required flag", "why_tests_cant": "All strings.", "anchors": ["complex.go:makeProperty", "complex.go:chompImplicitOptional"]}
{"id": "C22", "title": "References resolve to the declared type of the right fragment", "statement": "GetReferenceType(\"T\") returns the local type T, GetReferenceType(\"lib.T\") the type T of the library imported as lib, and anything else is an error; a local type whose own name contains a dot takes precedence; the split is at the last dot, so alias `a.b` with type `T` works.", "quantifier": "every library, every set of uses and types, every reference string", "why_tests_cant": "All strings and all import graphs.", "anchors": ["fragment.go:Library.GetReferenceType", "fragment.go:CutReferenceName", "common.go:CutLast"]}
{"id": "C23", "title": "Fragment kind identification is exact", "statement": "IdentifyFragment maps exactly the three supported headers to their kinds and rejects any other; ReadHead returns the first line without trailing CR/LF/space and restores the reader, or fails when the line is not terminated.", "quantifier": "every byte sequence", "why_tests_cant": "All byte strings.", "anchors": ["parse.go:ReadHead", "parse.go:IdentifyFragment", "parse.go:CheckFragmentKind"]}
{"id": "C24", "title": "A detached clone shares nothing with the original and behaves the same", "statement": "CloneDetached returns a shape whose reachable structure is disjoint from the original's, leaves the original's structure untouched, and accepts exactly the same values.", "quantifier": "every type graph, including cyclic ones, with unique shape IDs", "why_tests_cant": "Aliasing over all graphs.", "anchors": ["shape.go:BaseShape.clone", "shape.go:BaseShape.CloneDetached", "complex.go:*.clone"]}
{"id": "C25", "title": "Cloning terminates on cyclic graphs", "statement": "CloneDetached returns for every finite type graph, cyclic or not.", "quantifier": "every finite heap", "why_tests_cant": "Termination on all cyclic graphs.", "anchors": ["shape.go:BaseShape.clone"]}
{"id": "C26", "title": "Validation without unwrap leaves every declared type untouched", "statement": "ValidateShapes on a model parsed without OptWithUnwrap does not modify any shape reachable from the model (README: 'leaves the original types untouched').", "quantifier": "every model and every sequence of shape operations performed by the validator", "why_tests_cant": "Frame property over all heaps.", "anchors": ["validate.go:ValidateShapes", "validate.go:unwrapShape", "README.md"]}
{"id": "C27", "title": "Unwrapping is idempotent", "statement": "UnwrapShape on an already unwrapped shape returns the same shape and changes nothing; a successful UnwrapShape leaves the shape marked as unwrapped.", "quantifier": "every heap state", "why_tests_cant": "All reachable states.", "anchors": ["unwrap.go:UnwrapShape", "shape.go:BaseShape.IsUnwrapped"]}
{"id": "C28", "title": "Recursion marking terminates and makes the type graph finite to traverse", "statement": "FindAndMarkRecursion returns for every unwrapped type graph, and afterwards following properties, pattern properties, items, union members and facet definitions from the shape always ends; so Check, validation of examples and JSON-schema conversion terminate.", "quantifier": "every finite, arbitrarily cyclic and aliased type graph", "why_tests_cant": "Graph-theoretic property over all graphs.", "anchors": ["unwrap.go:FindAndMarkRecursion", "shape.go:BaseShape.Check"]}
{"id": "C29", "title": "Recursion marking preserves the accepted values", "statement": "Replacing a back edge by a recursive shape does not change which values the type accepts.", "quantifier": "every type graph and every value", "why_tests_cant": "All graphs and values.", "anchors": ["unwrap.go:FindAndMarkRecursion", "shape.go:MakeRecursiveShape", "complex.go:RecursiveShape.validate"]}
{"id": "C30", "title": "Check succeeds only on consistent facets", "statement": "If Check() returns nil then, at the shape and at every shape below it, min bounds do not exceed max bounds, enum members have the declared kind, pattern properties do not coexist with additionalProperties:false, and a discriminator names a declared scalar property whose value it accepts.", "quantifier": "every type graph", "why_tests_cant": "All nested shapes.", "anchors": ["shape.go:BaseShape.Check", "scalars.go:*.check", "complex.go:*.check"]}
{"id": "C31", "title": "A validated model has only conforming examples and defaults", "statement": "If validation of a type returns nil, then its example, each of its examples, and its default validate against it, at every nesting level.", "quantifier": "every type graph and every example/default value", "why_tests_cant": "All nested shapes and values.", "anchors": ["validate.go:validateExamples", "validate.go:validateShapeCommons"]}
{"id": "C32", "title": "Custom facets are checked against their definitions", "statement": "If validation of a type returns nil, every required facet definition of its ancestors is given a value, each value validates against the definition, no undefined facet is given, and no two levels define the same facet.", "quantifier": "every inheritance chain and facet set", "why_tests_cant": "All chains and facet maps.", "anchors": ["validate.go:validateShapeFacets"]}
{"id": "C33", "title": "Every $ref produced by the JSON-schema converter resolves", "statement": "In the output of Convert every reference '#/definitions/N' has an entry N in definitions.", "quantifier": "every type graph, recursive or not", "why_tests_cant": "All graphs.", "anchors": ["jsonschemaconv.go:VisitRecursiveShape", "jsonschemaconv.go:Convert"]}
{"id": "C34", "title": "Object conversion preserves property order, requiredness and closedness", "statement": "The JSON schema of an object lists the same properties in the same order, its required list is exactly the names of the required properties in order, and additionalProperties / patternProperties / min / maxProperties are carried over.", "quantifier": "every object shape", "why_tests_cant": "All property maps.", "anchors": ["jsonschemaconv.go:VisitObjectShape"]}
{"id": "C35", "title": "JSON-schema conversion preserves validity", "statement": "A JSON value is accepted by the RAML type exactly when it is accepted by the converted JSON schema (for kinds whose facets have the same meaning in both languages).", "quantifier": "every convertible type and every JSON value", "why_tests_cant": "Semantic equivalence over all types and values.", "anchors": ["jsonschemaconv.go:Visit*", "schema.go"]}
{"id": "C36", "title": "Recursive heads with the same name do not collide in definitions", "statement": "Two different recursive types keep two different definitions in the converted schema.", "quantifier": "every pair of recursive types, including types of the same name in different libraries", "why_tests_cant": "All naming combinations.", "anchors": ["jsonschemaconv.go:VisitRecursiveShape"]}
{"id": "C37", "title": "Schema DeepCopy is an independent equal copy", "statement": "DeepCopy returns an equal schema; no later modification of maps or slices of the copy is visible in the original.", "quantifier": "every schema tree", "why_tests_cant": "Aliasing over all trees.", "anchors": ["schema.go:JSONSchemaGeneric.DeepCopy"]}
{"id": "C38", "title": "Schema Map renders every keyword that is set, at every level", "statement": "Map of a schema has exactly one entry for every keyword that is set, with its value, sub-schemas rendered the same way; Map of nil is nil; schemas with the same Map are the same up to nil and empty slices and maps.", "quantifier": "every schema tree", "why_tests_cant": "All trees and all combinations of keywords.", "anchors": ["schema.go:JSONSchemaGeneric.Map", "schema.go:JSONSchemaRAML.Map"]}
{"id": "C39", "title": "Hooks run in registration order until the first error", "statement": "callHooks invokes the registered hooks in order (prepended before appended) and stops at, and returns, the first error; ClearHooks leaves none; keys do not interfere.", "quantifier": "every sequence of AppendHook/PrependHook/ClearHooks calls", "why_tests_cant": "All histories of registrations.", "anchors": ["raml.go:AppendHook", "raml.go:PrependHook", "raml.go:callHooks"]}
{"id": "C40", "title": "RemoveHook removes exactly the given hook", "statement": "After RemoveHook(key, h), h is not called again and every other registered hook is still called once, in order - including when RemoveHook is called by a running hook.", "quantifier": "every hook list and every point of removal, including during callHooks", "why_tests_cant": "Slice aliasing and re-entrancy over all schedules.", "anchors": ["raml.go:RemoveHook", "raml.go:callHooks"]}
{"id": "C41", "title": "Shape IDs are unique among created shapes", "statement": "Two different shapes created by the parser never have the same ID.", "quantifier": "every sequence of shape creations", "why_tests_cant": "All histories.", "anchors": ["shape.go:generateShapeID", "shape.go:MakeBaseShape", "shape.go:BaseShape.clone"]}
{"id": "C42", "title": "Type expressions are parsed according to the grammar, unambiguously", "statement": "A type expression is accepted exactly when it is derivable in the grammar, and the resulting tree is the unique derivation; printing a tree and re-parsing gives the same tree.", "quantifier": "every token sequence / every string", "why_tests_cant": "An infinite language.", "anchors": ["rdt/rdtParser.g4", "rdt/rdtLexer.g4", "rdt/rdt_lexer.go", "rdt/rdt_parser.go", "rdt_visitor.go"]}
{"id": "C43", "title": "Type expressions denote the intended sets of values", "statement": "`T[]` accepts exactly arrays of T, `T?` exactly T or nil, `A|B` exactly the union, parentheses change nothing.", "quantifier": "every expression tree over resolved types and every value", "why_tests_cant": "All expressions and values.", "anchors": ["rdt_visitor.go:RdtVisitor"]}
{"id": "C44", "title": "Import cycles between libraries terminate and each library is loaded once", "statement": "Parsing a library whose uses graph is cyclic terminates; each location is decoded once and all references see the same fragment.", "quantifier": "every finite file system and uses graph", "why_tests_cant": "All graphs.", "anchors": ["parse.go:parseLibrary", "parse.go:decodeLibrary", "raml.go:PutFragment"]}
{"id": "C45", "title": "Parsing terminates on every input", "statement": "Parsing terminates for every finite file system, including cyclic includes of data types and cyclic type aliases.", "quantifier": "every file system and document", "why_tests_cant": "Non-termination cannot be observed by tests.", "anchors": ["parse.go:parseDataType", "resolve.go:resolveShape", "rdt_visitor.go:VisitReference"]}
{"id": "C46", "title": "Parsing never panics", "statement": "ParseFromString/ParseFromPath return an error, and do not panic, on every YAML document.", "quantifier": "every YAML document", "why_tests_cant": "All documents.", "anchors": ["shape.go:decodeFacets", "fragment.go:DataType.UnmarshalYAML", "parse.go:parseDataType"]}
{"id": "C47", "title": "An alias is equivalent to its target", "statement": "A type declared as a bare reference to another type accepts exactly the values of the target after unwrapping.", "quantifier": "every target type and every value", "why_tests_cant": "All types and values.", "anchors": ["shape.go:BaseShape.AliasTo", "unwrap.go:UnwrapShape", "scalars.go:*.alias"]}
{"id": "C48", "title": "Declaration order of properties is preserved", "statement": "Property order in the model and in the schema is the declaration order; inherited properties are appended after own ones, redeclared ones keep their position.", "quantifier": "every property list and inheritance chain", "why_tests_cant": "All orders.", "anchors": ["complex.go:ObjectShape.inheritProperties"]}
{"id": "C49", "title": "Example/default data nodes denote the YAML data", "statement": "The data value built for an example has the same structure as the YAML node: sequences in order, mappings with the last value for a repeated key, strings and timestamps verbatim; aliases and nested includes are rejected.", "quantifier": "every YAML tree", "why_tests_cant": "All trees.", "anchors": ["node.go:yamlNodeToDataNode", "node.go:scalarNodeToDataNode"]}
{"id": "C50", "title": "The CLI reports failure when any file is invalid", "statement": "`raml validate f1 .. fn` exits non-zero exactly when at least one of the files is invalid.", "quantifier": "every list of files and outcomes", "why_tests_cant": "All lists of outcomes.", "anchors": ["cmd/raml/validate.go:Execute"]}
{"id": "C51", "title": "Union inheritance only narrows", "statement": "If a union inherits from a union, every member of the result was obtained by a successful inheritance from some source member; so any value accepted by the result is accepted by the source union.", "quantifier": "all unions and all values", "why_tests_cant": "All member combinations; failed inheritance attempts leave state behind.", "anchors": ["complex.go:UnionShape.inherit", "shape.go:BaseShape.inheritUnionSource"]}
{"id": "C52", "title": "Result of unwrapping does not depend on the order in which fragments are visited", "statement": "UnwrapShapes yields the same types whatever order the Go runtime enumerates the fragment cache in.", "quantifier": "all models, all enumeration orders of the fragment cache", "why_tests_cant": "Map iteration is randomised; a property of all schedules.", "anchors": ["unwrap.go:unwrapFragments", "shape.go:BaseShape.Inherit"]}
{"id": "C53", "title": "Model lookups stay consistent after unwrapping", "statement": "After UnwrapShapes, looking a type up through its library and through the fragment type index gives the same shape.", "quantifier": "all libraries", "why_tests_cant": "All type graphs and names.", "anchors": ["unwrap.go:unwrapTypes", "raml.go:PutTypeIntoFragment"]}
{"id": "C54", "title": "Annotations are validated against their declared annotation type", "statement": "If the whole validation succeeds, each annotation instance refers to a declared annotation type and its value validates against it.", "quantifier": "all annotations and annotation types", "why_tests_cant": "All models.", "anchors": ["validate.go:validateDomainExtensions", "resolve.go:resolveDomainExtension"]}
{"id": "C55", "title": "A derived object type accepts only what its parent accepts", "statement": "After an object type inherits from another one, every value the derived type accepts is accepted by the parent.", "quantifier": "all pairs of object types and all values", "why_tests_cant": "All facet combinations, property types and values.", "anchors": ["complex.go:ObjectShape.inherit", "complex.go:ObjectShape.inheritProperties", "complex.go:ObjectShape.validate"]}
{"id": "C56", "title": "A declaration takes its kind from the type it names", "statement": "A resolved type has the kind of the type its declaration names, includes or lists first; a type that refers to itself is an error; the facets written next to `T[]` apply to the array and not to T.", "quantifier": "all declarations, type graphs and facet nodes", "why_tests_cant": "All reference chains and expressions, of any depth.", "anchors": ["resolve.go:resolveShape", "rdt_visitor.go:VisitReference", "shape.go:MakeConcreteShapeYAML"]}
{"id": "C57", "title": "Derived and aliased types keep the custom facets of both sides", "statement": "A derived type keeps its own custom facet values and gains those of its parent it does not set; an alias takes over the facets, facet definitions, description and default of its target.", "quantifier": "all pairs of types", "why_tests_cant": "All facet maps and graphs.", "anchors": ["shape.go:BaseShape.Inherit", "shape.go:BaseShape.AliasTo"]}
{"id": "C58", "title": "All parents of a type constrain it", "statement": "A value accepted by a type with several parents (`type: [A, B, ...]`) is accepted by every one of them, and by the type's own constraints.", "quantifier": "any number of parents, all facets, all values", "why_tests_cant": "Any number of parents and all facet combinations; the parents are merged one after another in place.", "anchors": ["unwrap.go:unwrapParents", "shape.go:BaseShape.Inherit"]}
{"id": "C59", "title": "Conversion to JSON Schema always ends with a schema", "statement": "JSONSchemaConverter.Convert of a validated, unwrapped type returns a schema: it does not recurse for ever on a recursive type, and neither fails nor panics. A type that is not unwrapped is refused with an error.", "quantifier": "all unwrapped type graphs, recursive ones included", "why_tests_cant": "Non-termination on some graph shape shows up only for that graph; all of them are quantified over.", "anchors": ["jsonschemaconv.go:JSONSchemaConverter.Convert", "jsonschemaconv.go:JSONSchemaConverter.Visit", "jsonschemaconv.go:JSONSchemaConverter.VisitRecursiveShape"]}
{"id": "C60", "title": "Conversion to JSON Schema keeps the documentation of a type", "statement": "displayName, description, default, example or examples, annotations, custom facet values and custom facet definitions of a type appear in the schema made from it, under its own node, and nothing else does.", "quantifier": "all unwrapped types, at every position in the graph", "why_tests_cant": "All combinations of present and absent members on every kind of type, at every depth.", "anchors": ["jsonschemaconv.go:JSONSchemaConverter.makeSchemaFromBaseShape", "jsonschemaconv.go:JSONSchemaConverter.VisitJSONShape", "schema.go:JSONSchemaWrapper"]}
{"id": "C61", "title": "A successful parse leaves a complete model", "statement": "After ParseFromString/ParseFromPath returns without error (neither unwrapping nor validation requested), every type in the model has a concrete kind, the one its type name says; every reference inside it (parents, alias, link, items, properties, union members, facet definitions) leads to a type of the model; no two types have the same ID or share a map or slice; no type is marked as visited or unwrapped; every declared type is present.", "quantifier": "all documents, all file systems, all nestings and cycles of uses and includes, all type expressions", "why_tests_cant": "Whether some unresolved or nil type survives depends on the order in which files are loaded and types are resolved; a test checks the documents it was given.", "anchors": ["parse.go:RAML.parseFragment", "shape.go:RAML.makeNewShapeYAML", "resolve.go:RAML.resolveShapes", "resolve.go:RAML.resolveShape", "rdt_visitor.go:RdtVisitor"]}
{"id": "C62", "title": "A successful parse makes every type as its declaration says", "statement": "After a parse without error (with or without validation), every cached fragment is what the text of its file says: the types and annotation types of a library are those written under types and annotationTypes (the last entry with a key counts), the type of a data type file the one written in it. Each type has the name, location, displayName, description, required, default, example(s), annotations, facet definitions, built-in facets, custom facets, properties and pattern properties (names and requiredness), items and list of parents that its node says, the kind if the node says it (or the one inferred from the facets), and the types below it are as written in the same sense. The facets beside a built-in name in parentheses are read like those beside the name itself; a parent that is named once is there once.", "quantifier": "all documents, all file systems, all nestings and cycles of uses and includes, all decoders of scalars", "why_tests_cant": "The facets are read when the kind is known, which may be much later and through other types; a test shows the declarations it contains.", "anchors": ["shape.go:RAML.makeNewShapeYAML", "shape.go:BaseShape.decode", "shape.go:RAML.MakeConcreteShapeYAML", "scalars.go:unmarshalYAMLNodes", "complex.go:unmarshalYAMLNodes", "fragment.go:Library.UnmarshalYAML", "fragment.go:DataType.UnmarshalYAML", "resolve.go:RAML.resolveShapes"]}
{"id": "C63", "title": "Type expressions lead to the types they name", "statement": "After a parse without error (with or without validation), a type declared by an expression leads to the types that the expression names: a name makes an alias (beside further members: a parent) of the type with that name in that file, a local one first and otherwise the one of the library used under that name, and gives its kind; a union has the members of the expression, in order; an array has the element as items; an optional type is the union of the element and nil; parentheses only group. A type that is an inclusion has a link to the type of a data type file, the one the path leads to from the including file, and its kind; a type with a list of parents has one parent for each entry, made as the entry says, and the kind of the first. A type can be named by its name whatever the name is, composite included.", "quantifier": "all documents, all file systems, all expressions, all cycles among declarations, uses and includes", "why_tests_cant": "Types are resolved in the order in which files and declarations happen to come, and while one is resolved others are, in cycles too; a test shows some orders.", "anchors": ["resolve.go:RAML.resolveShape", "resolve.go:RAML.resolveLink", "resolve.go:RAML.resolveMultipleInheritance", "rdt_visitor.go:RdtVisitor"]}
{"id": "C64", "title": "The schema made from a type says exactly what the type says", "statement": "Whenever JSONSchemaConverter.Convert (with the RAML wrapper) returns a schema, the schema has the draft-07 version and a reference to the definition named after the type, and nothing else. That definition is the schema of the type: each facet of the type is in the keyword for it, keywords without a facet are absent, properties, pattern properties (without slashes), items, union members and facet definitions are there in order with the schemas of their types, all the way down; recursive references are references to the definition named after their head; a JSON type is its own schema with the documentation of the type. Every other definition is the schema of a type with that name to which such a reference leads; no name is defined twice.", "quantifier": "all type graphs and all types in them, all annotations and JSON schemas", "why_tests_cant": "The keyword of each facet at every depth and behind every recursive reference.", "anchors": ["jsonschemaconv.go:JSONSchemaConverter.Convert", "jsonschemaconv.go:JSONSchemaConverter.Visit", "schema.go:JSONSchemaWrapper"]}
{"id": "C65", "title": "Every reported validation error has a reason", "statement": "validateShapeCommons of a type reports an error only if some type that is part of it has a default or example it does not accept, defines a custom facet of an ancestor again, gives one a value that its definition refuses, gives one that no ancestor defines, or leaves out a required one. RAML.ValidateShapes reports an error only if some declared type is wrong in that way or in its own facets (or cannot be copied or unwrapped for the check), or some annotation has a value that its annotation type refuses.", "quantifier": "all type graphs and all annotations", "why_tests_cant": "That no correct model is refused is a statement about all correct models; tests contain a few.", "anchors": ["validate.go:RAML.ValidateShapes", "validate.go:RAML.validateShapeCommons", "validate.go:RAML.validateShapeFacets", "validate.go:RAML.validateExamples", "validate.go:RAML.validateDomainExtensions"]}
{"id": "C66", "title": "A facet is accepted exactly when its value has the required form", "statement": "Reading the facets beside a type of known kind succeeds exactly when each of them has the form that the kind requires of it: a whole number, a number, a non-negative number, a boolean, one of the known formats, a pattern that compiles, a list of values; any other facet of any kind is kept as a custom facet whatever its value (if the value can be read). Facets of unions, external types and unresolved types are not looked at.", "quantifier": "all kinds, all facet names, all YAML values, all decoders of scalars, any number and order of facets", "why_tests_cant": "All facet names of all kinds with all values; a test has some accepted and some refused values.", "anchors": ["scalars.go:IntegerShape.unmarshalYAMLNodes", "scalars.go:NumberShape.unmarshalYAMLNodes", "scalars.go:StringShape.unmarshalYAMLNodes", "scalars.go:FileShape.unmarshalYAMLNodes", "scalars.go:DateTimeShape.unmarshalYAMLNodes", "complex.go:ArrayShape.unmarshalYAMLNodes", "complex.go:ObjectShape.unmarshalYAMLNodes"]}
{"id": "C67", "title": "A shallow copy of a type is a type of its own", "statement": "BaseShape.CloneShallow succeeds on every complete type and changes nothing that existed. The copy is a new object that differs from the original only in its maps of custom facets and facet definitions, which are new and have the same contents; it accepts the same values. What is done to the copy later, Inherit for example, does not change the original.", "quantifier": "all type graphs, all types, all values", "why_tests_cant": "All kinds of types and all later operations on the copy.", "anchors": ["shape.go:BaseShape.CloneShallow"]}
{"id": "C68", "title": "The text of an error keeps what it was wrapped in", "statement": "FixYamlError, which every StacktraceNewWrapped applies to the error it wraps, turns an error that wraps a *yaml.TypeError into one whose text consists of the texts of the wrapping errors and the messages of the type error, in order; any other error, and nil, it returns as it is.", "quantifier": "all chains of wrapped errors and all texts", "why_tests_cant": "Errors are wrapped to any depth; a test looks at one message.", "anchors": ["stacktrace.go:GetYamlError", "stacktrace.go:FixYamlError"]}
{"id": "C69", "title": "A declared type is found by its file and its name", "statement": "After a successful parse without unwrapping, GetTypeFromFragmentPtr(file, name) returns exactly the type that the loaded library of that file declares under that name, for every loaded library and every name, and fails or returns nil for anything else; GetAnnotationTypeFromFragmentPtr does the same for annotation types, and the two never mix.", "quantifier": "all sets of files, all entry files, all file and type names", "why_tests_cant": "Libraries load each other in any order and resolution loads further files; a test looks up a few names of a few files.", "anchors": ["raml.go:GetTypeFromFragmentPtr", "raml.go:GetAnnotationTypeFromFragmentPtr", "raml.go:PutTypeIntoFragment", "raml.go:PutAnnotationTypeIntoFragment", "fragment.go:Library.unmarshalTypes", "fragment.go:Library.unmarshalAnnotationTypes"]}
{"id": "C70", "title": "Only types that contain themselves become recursive shapes", "statement": "After RAML.UnwrapShapes every RecursiveShape of the model stands for a type that contains itself: from its head one comes back to the head by going through properties, pattern properties, items, union members, facet definitions and the heads of recursive shapes. The type of a property, of items or of a union member that does not contain itself is never replaced.", "quantifier": "all documents, all orders in which fragments are unwrapped and visited", "why_tests_cant": "Whether a type is flagged when FindAndMarkRecursion reaches it depends on every earlier unwrapping and inheritance step of the whole model; a test shows a few models.", "anchors": ["unwrap.go:RAML.FindAndMarkRecursion", "unwrap.go:RAML.markShapeRecursions", "unwrap.go:RAML.UnwrapShapes", "shape.go:BaseShape.Inherit"]}
{"id": "C71", "title": "Types and annotations are located in loaded files", "statement": "After a successful parse, with or without unwrapping and validation, the Location of every BaseShape of the model, declared, inline or made by resolution, unwrapping, copying or recursion marking, is the path of a fragment that RAML.GetFragment finds, and so is the Location of every DomainExtension. UnwrapShapes and ValidateShapes, also when they fail, make shapes only at locations where there was one.", "quantifier": "all sets of files, all entry files, all options, all orders of map iteration", "why_tests_cant": "Shapes are made in a dozen places, each with a location passed along from another file; a test looks at the location of a few declared types.", "anchors": ["shape.go:RAML.MakeBaseShape", "shape.go:RAML.makeNewShapeYAML", "shape.go:BaseShape.clone", "shape.go:RAML.MakeRecursiveShape", "rdt_visitor.go:RdtVisitor", "resolve.go:RAML.resolveShape", "raml.go:RAML.GetFragment"]}
{"id": "C72", "title": "Locations are clean absolute paths, one for each file", "statement": "On Unix, the Location of every fragment, BaseShape and DomainExtension of a parsed model is an absolute path without empty, . and .. elements. The location of a used or included file is the place one comes to from the directory of the file that mentions it, however the path is written, so references that lead to the same place share one fragment. This holds for ParseFromString and for ParseFromPath.", "quantifier": "all sets of files, entry paths, working directories, texts of uses and includes, options", "why_tests_cant": "A place can be written in infinitely many ways; a test uses a few relative paths.", "anchors": ["parse.go:openFragmentFile", "parse.go:RAML.ParseFromPath", "parse.go:RAML.ParseFromString", "parse.go:ParseFromString", "parse.go:RAML.decodeLibrary", "parse.go:RAML.decodeDataType", "shape.go:RAML.makeNewShapeYAML", "shape.go:BaseShape.decodeExamples"]}
{"id": "C73", "title": "The ways to parse agree", "statement": "Parse options are flags: their order and repetition do not matter. Parsing a file with ParseFromPath gives the same result and the same model as ParseFromString with the text of the file, its name and its directory. Parsing with options is the same as parsing without options and then calling UnwrapShapes and ValidateShapes, in this order, for the options given.", "quantifier": "all documents, paths, lists of options", "why_tests_cant": "All lists of options and all documents; a test compares one document.", "anchors": ["parse.go:RAML.ParseFromPath", "parse.go:RAML.ParseFromString", "parse.go:RAML.parseFragment", "parse.go:OptWithUnwrap", "parse.go:OptWithValidate"]}
{"id": "C74", "title": "Examples are accepted exactly when they have the required form", "statement": "A node given as an example is accepted exactly when: if it is a mapping with a value key, the value is data, strict, displayName and description have their types, and every key in parentheses has a name and data; otherwise the node itself is data. The data of the example is that of the value, or of the node; every annotation on it is registered with the model, in order, and nothing else changes. examples is accepted exactly when it is a mapping of such examples or names a file with a mapping of them, and never beside example.", "quantifier": "all YAML nodes, all decoders, all states of the model", "why_tests_cant": "An example is any YAML tree with any keys beside value; a test shows a few.", "anchors": ["example.go:RAML.makeExample", "example.go:Example.fill", "example.go:Example.decode", "shape.go:BaseShape.decodeExamples", "shape.go:BaseShape.decodeExample", "fragment.go:NamedExample.UnmarshalYAML", "extension.go:RAML.unmarshalCustomDomainExtension"]}
{"id": "C75", "title": "Hooks can stop an operation but not change its result", "statement": "With hooks that never return an error, ParseFromString, UnwrapShapes, ValidateShapes, UnwrapShape, FindAndMarkRecursion and Inherit give what they give without hooks. With hooks that may return an error anywhere but on inheritance, what succeeds has the result and the model it has without hooks. An error is not lost: the operation succeeds only when no hook objected to a declared type being made, unwrapped or marked, to a library, data type, list of types or the annotations being validated, or to any part of a type being validated.", "quantifier": "all hooks that look at the model and return an error or not, all files, all models, all orders of fragments", "why_tests_cant": "The claim compares two runs for every hook and every model; a test installs a few hooks and counts their calls.", "anchors": ["raml.go:RAML.callHooks", "parse.go:RAML.parseDataType", "shape.go:RAML.makeNewShapeYAML", "shape.go:RAML.MakeConcreteShapeYAML", "shape.go:BaseShape.Inherit", "shape.go:BaseShape.inheritUnionSource", "shape.go:BaseShape.inheritUnionTarget", "unwrap.go:RAML.UnwrapShape", "unwrap.go:RAML.FindAndMarkRecursion", "validate.go:RAML.ValidateShapes", "validate.go:RAML.validateShapeCommons"]}
{"id": "C76", "title": "The verdict of validation does not depend on the order of the fragments", "statement": "In an unwrapped model, ValidateShapes gives the same verdict (accepted, rejected) and leaves the model as it is, whatever order the fragments are enumerated in; so does parsing with unwrapping and validation, for every set of files. A panic is also the same in all orders in which validation ends.", "quantifier": "all unwrapped models, all files, all pairs of enumeration orders of the fragment cache in ValidateShapes", "why_tests_cant": "The order is that of a Go map, chosen by the runtime; tests see a few of the orders and a verdict that differs would be a flaky test.", "anchors": ["validate.go:RAML.ValidateShapes", "validate.go:RAML.validateFragments", "validate.go:RAML.validateTypes", "validate.go:RAML.validateLibrary", "validate.go:RAML.validateDataType", "parse.go:RAML.parseFragment"]}
{"id": "C77", "title": "Nothing written in a type declaration is dropped silently", "statement": "If parsing with validation succeeds, every key of a type declaration that is neither documentation nor a facet of the type's kind is a custom facet that an ancestor defines, properties and facets are mappings, and no property is declared twice.", "quantifier": "all files, all type declarations", "why_tests_cant": "A misspelt facet can stand on any kind of type, written in any way; tests try a few keys on a few kinds.", "anchors": ["shape.go:BaseShape.decodeValueNode", "complex.go:UnionShape.unmarshalYAMLNodes", "complex.go:ObjectShape.unmarshalYAMLNode", "complex.go:ObjectShape.unmarshalProperty", "validate.go:validateShapeFacets"]}
{"id": "C78", "title": "Hooks added through a type are those of its RAML object", "statement": "AppendRAMLHook, PrepenRAMLHook, RemoveRAMLHook and ClearRAMLHooks on a type act on the hooks of the RAML object the type belongs to: they count for all types of the object and for no other type, just as if called on the object. A type without RAML object gets one of its own with the first hook. A copy belongs to the object of the type it was made from. Whatever the history, a call for a type runs exactly these hooks, in order and until the first error, with the type as parameter.", "quantifier": "all histories of such calls on any number of types, of calls on RAML objects and of copies; all hooks that do not remove hooks while they run", "why_tests_cant": "The claim is about every interleaving of registrations, removals and copies over shared objects; a test follows one.", "anchors": ["shape.go:BaseShape.AppendRAMLHook", "shape.go:BaseShape.PrepenRAMLHook", "shape.go:BaseShape.RemoveRAMLHook", "shape.go:BaseShape.ClearRAMLHooks", "shape.go:BaseShape.callRAMLHooks", "shape.go:BaseShape.clone", "shape.go:BaseShape.CloneShallow"]}
{"id": "C79", "title": "A RAML object can be used for several parses", "statement": "ParseFromString on a RAML object that was used before gives the verdict it gives on a new one, and types as the text says. What earlier parses made stays as it was: types, libraries, files. The model stays complete: IDs are unique, all types are resolved and all annotations have their type.", "quantifier": "all sequences of parses with one RAML object, files changing in between", "why_tests_cant": "The claim is about all sequences of texts, failed attempts included; tests parse once with each object.", "anchors": ["parse.go:RAML.ParseFromString", "parse.go:RAML.parseFragment", "raml.go:RAML.PutFragment", "resolve.go:RAML.resolveShapes", "resolve.go:RAML.resolveDomainExtensions", "raml.go:RAML.GetReferencedType"]}
{"id": "C80", "title": "Unwrapping reaches every part of a type", "statement": "When UnwrapShape returns a type without an error, every type reached from it through properties, pattern properties, items, union members, facet definitions and the heads of recursive shapes is unwrapped; the same for the declared types after UnwrapShapes. UnwrapShapes takes or refuses a document whatever the order in which its types are declared.", "quantifier": "all documents, all orders of fragments", "why_tests_cant": "Types that refer to each other can be unwrapped from any starting point; a test takes one order of declarations.", "anchors": ["unwrap.go:RAML.UnwrapShape", "unwrap.go:RAML.unwrapObjShape", "unwrap.go:RAML.unwrapParents", "unwrap.go:RAML.FindAndMarkRecursion", "shape.go:BaseShape.inheritUnionSource", "shape.go:BaseShape.clone"]}
{"id": "C81", "title": "Data type files in JSON", "statement": "A file with the suffix .json that is used as a data type and begins with a brace becomes a JSON type that holds the text of the file to the letter, has the name and the location of the file, and nothing else: no parents, no documentation, no annotations. If the text is no JSON schema, parsing it fails. Every .json file that is taken is a schema. The type accepts the values that the schema accepts.", "quantifier": "all texts of the file, all documents and files that lead to it", "why_tests_cant": "The text passes through the decoder of type declarations as if it were the value of `type`; a test has one schema, and never a file with white space before the brace, an empty one or one with a type expression.", "anchors": ["fragment.go:RAML.MakeJSONDataType", "parse.go:CheckFragmentKind", "parse.go:RAML.decodeDataType", "shape.go:RAML.makeShapeType", "complex.go:JSONShape.validate"]}
{"id": "C82", "title": "What counts for the verdict on a value", "statement": "The verdict of Validate depends on the kind of a type, its facets for values, its properties, items and members, and on nothing else: names, documentation, examples, defaults, annotations, custom facets, parents and everything outside the type can be changed without an effect. Check reads the discriminator as well, and nothing else. The discriminator does count for values: a type accepts only objects with its discriminator value.", "quantifier": "all pairs of models, all types and values", "why_tests_cant": "That nothing else is read is a claim about all pairs of models; a test changes one description and looks at one value.", "anchors": ["shape.go:BaseShape.Validate", "complex.go:ObjectShape.validate", "complex.go:UnionShape.validate", "complex.go:ArrayShape.validate", "complex.go:RecursiveShape.validate", "complex.go:JSONShape.validate"]}
{"id": "C83", "title": "Examples that are not strict need not conform", "statement": "An example that is marked `strict: false` has the value that is written under `value`, and validation does not ask that it conforms to its type. `strict` changes nothing else: the same value, annotations and errors as without it.", "quantifier": "all examples, all positions of the entry, all values", "why_tests_cant": "That an entry has no effect on anything else is a claim about all examples and all that follows; tests have no example with strict: false that does not conform.", "anchors": ["example.go:Example.fill", "example.go:Example.decode", "example.go:RAML.makeExample", "validate.go:RAML.validateExamples"]}
{"id": "C84", "title": "The entry point is the parsed document", "statement": "After a successful parse GetLocation is the path of the document and EntryPoint is the fragment that GetFragment gives for this path; with unwrapping, the types of a library that is the entry point are unwrapped. A parse that fails leaves the entry point as it was.", "quantifier": "all documents and files, all RAML objects, used before or not", "why_tests_cant": "Files can lead back to the entry point while it is being read; tests parse documents whose files do not.", "anchors": ["raml.go:RAML.EntryPoint", "raml.go:RAML.SetEntryPoint", "raml.go:RAML.GetLocation", "raml.go:RAML.GetFragment", "raml.go:RAML.PutFragment", "parse.go:RAML.parseFragment"]}
{"id": "C85", "title": "Declared facets constrain values", "statement": "Every facet of a type that the parser accepts constrains its values: multiples (multipleOf), the format of integers and numbers, the types of files, the enum of a union and a JSON schema are enforced by Validate as minimum, maximum, lengths and enums of scalars are.", "quantifier": "all models, types and values", "why_tests_cant": "That a facet has no effect, or always has one, is a claim about all types and values.", "anchors": ["scalars.go:IntegerShape.validate", "scalars.go:NumberShape.validate", "scalars.go:FileShape.validate", "complex.go:UnionShape.validate", "complex.go:JSONShape.validate"]}
{"id": "C86", "title": "Schemas obey the meta-schema", "statement": "The output of JSONSchemaConverter.Convert obeys the draft-07 meta-schema for keywords at every level: type is one of the simple types, multipleOf is positive, lengths and counts are not negative, the names in required are distinct.", "quantifier": "all types that Convert accepts, all schemas inside the output", "why_tests_cant": "The rule holds at every depth and for every combination of facets; a test compares the output for some types with expected texts.", "anchors": ["jsonschemaconv.go:JSONSchemaConverter.Convert", "jsonschemaconv.go:VisitIntegerShape", "jsonschemaconv.go:VisitObjectShape", "scalars.go:IntegerShape.unmarshalYAMLNodes"]}
{"id": "C87", "title": "The schema of a derived type is narrower", "statement": "If a type is derived from another one without an error, every JSON value that satisfies the JSON Schema of the derived type satisfies the schema of its parent. A multipleOf that the derived type declares itself is in its schema.", "quantifier": "all derivations that succeed, all JSON values", "why_tests_cant": "The claim is an inclusion between two infinite sets of values, for every pair of types.", "anchors": ["shape.go:BaseShape.Inherit", "scalars.go:IntegerShape.inherit", "jsonschemaconv.go:JSONSchemaConverter.Convert"]}
