{
 "claims": [
  {
   "property": "C01",
   "status": "proved",
   "theorems": [
    "C01_integer_validate"
   ],
   "note": "Exact characterisation of acceptance and absence of panics, for every facet combination and value. Float64 out of int64 range: quantified oracle."
  },
  {
   "property": "C02",
   "status": "partial",
   "theorems": [
    "C02_document_refuted",
    "C02_integer_only_integral_refuted",
    "C02_integral_floats_as_ints_partial"
   ],
   "note": "The full statement is false: 1.5 validates against a plain integer type (refuted). Proved: a float64 that is exactly an int64 behaves as that int. The refuted part shown on a RAML file that parses: C02_document_refuted."
  },
  {
   "property": "C03",
   "status": "proved",
   "theorems": [
    "C03_number_validate",
    "C03_conversion",
    "C03_integers",
    "C03_large_refuted"
   ],
   "note": "Exact characterisation on binary64, including NaN and infinities. C03_conversion: the double an integer is compared as is that integer while it has at most 53 bits, so that whole bounds accept exactly the integers between them (C03_integers). C03_large_refuted shows that this needs the bound on the size (the statement of the property speaks of the converted value)."
  },
  {
   "property": "C04",
   "status": "partial",
   "theorems": [
    "C04_document_refuted",
    "C04_numeric_enum_refuted",
    "C04_numeric_enum_partial"
   ],
   "note": "The full statement is false: an int enum member never equals the converted float64, so `enum: [1,2]` on a number type rejects 1 (refuted). Proved for float64 members. The refuted part shown on a RAML file that parses: C04_document_refuted."
  },
  {
   "property": "C05",
   "status": "proved",
   "theorems": [
    "C05_string_validate",
    "C05_file_validate",
    "C05_boolean_validate",
    "C05_nil_validate"
   ],
   "note": "Exact characterisations; regular-expression matching is a quantified oracle; length is byte length as in the code."
  },
  {
   "property": "C06",
   "status": "proved",
   "theorems": [
    "C06_datetime_validate",
    "C06_layouts_validate"
   ],
   "note": "Exact characterisations; time.Parse is a quantified oracle."
  },
  {
   "property": "C07",
   "status": "proved",
   "theorems": [
    "C07_array_validate",
    "C07_array_sound"
   ],
   "note": "One-level exact characterisation (length, uniqueness, items) for closed heaps with guarded recursion; soundness for arbitrary hash functions."
  },
  {
   "property": "C08",
   "status": "proved",
   "theorems": [
    "C08_object_validate",
    "C08_validate_decides"
   ],
   "note": "One-level exact characterisation and the recursive least-relation form. Regular expressions, JSON encoding and hashing are quantified oracles."
  },
  {
   "property": "C09",
   "status": "proved",
   "theorems": [
    "C09_map_order",
    "C09_map_order_any_heap"
   ],
   "note": "Verdict independent of map iteration order for maps nested anywhere in the value."
  },
  {
   "property": "C10",
   "status": "proved",
   "theorems": [
    "C10_union_validate"
   ],
   "note": "Accepts exactly when a member accepts."
  },
  {
   "property": "C11",
   "status": "proved",
   "theorems": [
    "C11_guarded_terminates"
   ],
   "note": "Validate returns for every value on every closed heap whose recursion is guarded by a property or item."
  },
  {
   "property": "C12",
   "status": "partial",
   "theorems": [
    "C12_document_refuted",
    "C12_parsed_partial",
    "C12_validate_terminates_refuted",
    "C12_verdict_right_partial"
   ],
   "note": "The full statement is false: `U: U | string` makes Validate recurse for ever (refuted, through UnwrapShape and FindAndMarkRecursion). Proved: whenever it returns, the verdict is right; and for every document without unions and without sequences or mappings in enums, after parsing and unwrapping it returns for every declared type and every value, with the right verdict (C12_parsed_partial). Missing: documents with unions whose recursion is guarded (C11 covers them per type graph, not from the parser on). The refuted part shown on a RAML file that parses: C12_document_refuted."
  },
  {
   "property": "C13",
   "status": "proved",
   "theorems": [
    "C13_types",
    "C13_integer_inherit",
    "C13_number_inherit",
    "C13_number_nan_bound_refuted",
    "C13_string_inherit",
    "C13_file_inherit",
    "C13_boolean_inherit",
    "C13_refusals",
    "C13_kept_facets"
   ],
   "note": "Result accepts exactly the intersection; refusals are characterised exactly. A NaN child bound is the one exception (refuted separately); pattern is excluded here and covered by C14. C13_types: the same from the types in the heap."
  },
  {
   "property": "C14",
   "status": "partial",
   "theorems": [
    "C14_document_refuted",
    "C14_exact_partial",
    "C14_string_pattern_refuted",
    "C14_string_pattern_partial",
    "C14_datetime_format_refuted",
    "C14_datetime_format_partial",
    "C14_structural_partial"
   ],
   "note": "Between open types (no additionalProperties: false, no pattern properties) a derivation gives exactly the values of the child and of the parent (C14_exact_partial). Integers, numbers, booleans and files exactly; strings and datetimes refuted in general and proved when pattern/format agree; C14_structural_partial lifts the inclusion to nested objects and arrays. The refuted part shown on a RAML file that parses: C14_document_refuted."
  },
  {
   "property": "C15",
   "status": "proved",
   "theorems": [
    "C15_array",
    "C15_array_apart",
    "C15_object",
    "C15_object_apart"
   ],
   "note": "C15_array and C15_object hold for every heap; the target may turn out to be a union only if it occurs among its own parts, which the _apart theorems exclude. additionalProperties is not part of the claim (see C55)."
  },
  {
   "property": "C16",
   "status": "proved",
   "theorems": [
    "C16_from_any",
    "C16_kind_mismatch",
    "C16_json"
   ],
   "note": "For every heap, target and unvisited source of different kinds (any/union excluded); a recursive source is judged by its head. C16_json: external types, which derive exactly when the schemas are equal or one is empty."
  },
  {
   "property": "C17",
   "status": "partial",
   "theorems": [
    "C17_document_refuted",
    "C17_union_redeclaration_refuted",
    "C17_member_partial",
    "C17_nested_union_refuted"
   ],
   "note": "False as stated: inheritUnionTarget lets each member inherit from the union itself, so an incompatible redeclaration is accepted (refuted). C17_member_partial: what inheriting into a union does do, member by member. C17_nested_union_refuted: a nested union that does contain the redeclared type is refused all the same. The refuted part shown on a RAML file that parses: C17_document_refuted."
  },
  {
   "property": "C18",
   "status": "partial",
   "theorems": [
    "C18_document_refuted",
    "C18_history_refuted",
    "C18_flag_restored_partial",
    "C18_flags_partial"
   ],
   "note": "False as stated (refuted): the visited flag stays set after an any/union source or a failure and changes later inheritances. Proved: the flag is reset in the remaining successful cases; in a parsed document without unions and without any, no type has the flag set once UnwrapShapes has returned (C18_flags_partial). The refuted part shown on a RAML file that parses: C18_document_refuted."
  },
  {
   "property": "C19",
   "status": "partial",
   "theorems": [
    "C19_declared_refuted",
    "C19_parents_unchanged_refuted",
    "C19_derivation_partial"
   ],
   "note": "C19_parents_unchanged_refuted: deriving can change the parent. C19_declared_refuted: the same from the parser on, and for the second parent: adding a type to a library that lists others as parents makes one of these reject what it accepted. C19_derivation_partial: it does not when the derived type owns its cells and the pair is built from plain scalars, arrays and open objects."
  },
  {
   "property": "C20",
   "status": "proved",
   "theorems": [
    "C20_inference",
    "C20_conflicts_rejected",
    "C20_order_independent"
   ],
   "note": "Exact inference table, rejection of conflicting sets and permutation invariance, for every facet list."
  },
  {
   "property": "C21",
   "status": "proved",
   "theorems": [
    "C21_declaration"
   ],
   "note": "Exact name and requiredness for every property key and declaration."
  },
  {
   "property": "C22",
   "status": "proved",
   "theorems": [
    "C22_library_types",
    "C22_library_annotation_types",
    "C22_otherwise_error",
    "C22_datatype"
   ],
   "note": "Exact resolution for libraries (types and annotation types) and data types; a local name containing a dot takes precedence over an import."
  },
  {
   "property": "C23",
   "status": "proved",
   "theorems": [
    "C23_read_head",
    "C23_read_head_unterminated",
    "C23_read_head_rewinds",
    "C23_identify",
    "C23_check_kind",
    "C23_check_rewinds"
   ],
   "note": "Exact header table, ReadHead on every reader content, rewind, and kind check."
  },
  {
   "property": "C24",
   "status": "partial",
   "theorems": [
    "C24_isomorphic",
    "C24_same_values",
    "C24_disjoint",
    "C24_original_untouched",
    "C24_recursive_refuted",
    "C24_unique_ids_refuted",
    "C24_document_refuted"
   ],
   "note": "For unique IDs and no recursive shapes: Clone and CloneDetached give an isomorphic, disjoint copy accepting the same values, and the original cells are untouched. Without these hypotheses it is false (refuted): RecursiveShape.clone shares its head, and two distinct shapes with one ID are merged. The refuted part shown on a RAML file that parses: C24_document_refuted."
  },
  {
   "property": "C25",
   "status": "proved",
   "theorems": [
    "C25_terminates"
   ],
   "note": "On every well-formed heap, cyclic or not, with unique IDs or not."
  },
  {
   "property": "C26",
   "status": "proved",
   "theorems": [
    "C26_parsed",
    "C26_untouched",
    "C26_unwrapped",
    "C26_shape_list_refuted"
   ],
   "note": "Every cell of the model before the call is the same afterwards, for every model with unique IDs and no recursive shapes (one that was not unwrapped); on an unwrapped model the whole state is the same. End to end: parsing with validation gives the same libraries, fragments, indexes and cells as parsing without (C26_parsed). Only the list returned by GetShapes grows (refuted separately)."
  },
  {
   "property": "C27",
   "status": "partial",
   "theorems": [
    "C27_parsed_partial",
    "C27_unwrapped_is_fixed",
    "C27_marks_unwrapped",
    "C27_idempotent",
    "C27_same_result_refuted"
   ],
   "note": "Idempotence and marking are proved for every state; that the same shape is returned by the first call is refuted (an any parent already visited is returned instead), and proved for every parsed document without unions and without any (C27_parsed_partial: libraries and fragments are the same after UnwrapShapes)."
  },
  {
   "property": "C28",
   "status": "partial",
   "theorems": [
    "C28_parsed_partial",
    "C28_terminates",
    "C28_finite",
    "C28_finite_result",
    "C28_check_terminates",
    "C28_model"
   ],
   "note": "Termination of the walk (given that facet definitions define no facets themselves, which UnwrapShape arranges and which is taken as a hypothesis), finiteness of the descent from every type afterwards (C28_model: from every declared type of a model; C28_parsed_partial: from every declared type of a parsed and unwrapped document without unions and types of the kind any, where no hypothesis on flags is left), and termination of Check are proved. That validation also terminates is false for unguarded unions: see C12_validate_terminates_refuted. Conversion is not covered here."
  },
  {
   "property": "C29",
   "status": "proved",
   "theorems": [
    "C29_same_values",
    "C29_result",
    "C29_only_back_edges"
   ],
   "note": "For every shape of the model, value and outcome; plus an exact account of what the walk writes."
  },
  {
   "property": "C30",
   "status": "proved",
   "theorems": [
    "C30_scalar_check",
    "C30_check",
    "C30_check_complete"
   ],
   "note": "Check = nil implies every shape below is consistent; Check error implies some shape below is not."
  },
  {
   "property": "C31",
   "status": "partial",
   "theorems": [
    "C31_included_examples_refuted",
    "C31_parsed",
    "C31_every_type",
    "C31_samples_conform"
   ],
   "note": "When the common checks pass, every example, examples entry and default anywhere in the type validates (C31_samples_conform); ValidateShapes checks every declared type (C31_every_type); so does parsing with validation, for every document (C31_parsed). Refuted: examples included from a NamedExample file are never validated (C31_included_examples_refuted)."
  },
  {
   "property": "C32",
   "status": "partial",
   "theorems": [
    "C32_document_refuted",
    "C32_parsed_partial",
    "C32_facets_enforced_partial"
   ],
   "note": "Along the chain of first parents every definition is enforced, unknown facets are refused and names are unique (C32_facets_enforced_partial); C32_parsed_partial says what this gives after every parse with validation. False for the other parents of a type with several: their facet definitions are neither asked for nor allowed (C32_document_refuted, on a file)."
  },
  {
   "property": "C33",
   "status": "partial",
   "theorems": [
    "C33_refs_partial",
    "C33_json_refuted"
   ],
   "note": "Every $ref at any depth resolves, for all types without inline JSON schemas that have references of their own; for those it is false (refuted). Unknown types are excluded: resolution leaves none."
  },
  {
   "property": "C34",
   "status": "proved",
   "theorems": [
    "C34_object"
   ],
   "note": "For every object type, wherever it stands in the conversion. Patterns without the slashes must be distinct, which the slashes imply."
  },
  {
   "property": "C35",
   "status": "partial",
   "theorems": [
    "C35_same_values_partial",
    "C35_integer_refuted",
    "C35_multiple_refuted",
    "C35_patterns_refuted",
    "C35_json_refuted",
    "C35_length_refuted",
    "C35_number_enum_refuted",
    "C35_empty_enum_refuted"
   ],
   "note": "Equivalence of RAML validity and schema satisfaction for all JSON values and all (recursive) types whose facets have the same meaning in both; every excluded facet has a refutation (1.5 as integer, multipleOf, byte lengths, number enums, patterns besides names, JSON types, empty enum)."
  },
  {
   "property": "C36",
   "status": "partial",
   "theorems": [
    "C36_own_definition_partial",
    "C36_collision_refuted",
    "C36_document_refuted"
   ],
   "note": "Proved when heads of recursion and the entry type have pairwise different names. In general false: two properties of the same name that head different recursive types share one definition (refuted on a model produced by unwrapping and marking). The refuted part shown on a RAML file that parses: C36_document_refuted."
  },
  {
   "property": "C37",
   "status": "partial",
   "theorems": [
    "C37_equal_copy",
    "C37_independent_partial",
    "C37_shallow",
    "C37_empty_refuted"
   ],
   "note": "DeepCopy succeeds on every finite document, writes to no existing cell, and the copy stands for the same schema; writes to any cell of the copy that is not an empty container leave the original as it was. Refuted with a witness: an empty map that is not nil is shared between the copy and the original."
  },
  {
   "property": "C38",
   "status": "proved",
   "theorems": [
    "C38_document",
    "C38_faithful"
   ],
   "note": "Map produces exactly the entries of a keyword table at every level; two schemas have the same Map iff they agree up to nil/empty. The property was reworded: Map takes no transformation, it renders a schema as map[string]any."
  },
  {
   "property": "C39",
   "status": "proved",
   "theorems": [
    "C39_hooks_in_order",
    "C39_runs_deterministic",
    "C39_registry_is_lists"
   ],
   "note": "Order, early stop, determinism, and refinement of the slice-with-backing-array registry to plain lists."
  },
  {
   "property": "C40",
   "status": "partial",
   "theorems": [
    "C40_remove_while_running_refuted",
    "C40_remove_by_code_pointer_refuted",
    "C40_remove_between_calls_partial",
    "C40_remove_keeps_order_partial"
   ],
   "note": "False in general: a hook removed by a running hook makes another hook run twice, and closures sharing a code pointer are confused (both refuted). Proved: removal between calls with distinct code pointers removes exactly one hook and keeps order."
  },
  {
   "property": "C41",
   "status": "partial",
   "theorems": [
    "C41_document_refuted",
    "C41_parsed",
    "C41_unique",
    "C41_unwrapping_refuted"
   ],
   "note": "Identifiers given by parsing and resolution are unique (C41_unique, and end to end C41_parsed); unwrapping breaks it (C41_unwrapping_refuted). The refuted part shown on a RAML file that parses: C41_document_refuted."
  },
  {
   "property": "C42",
   "status": "proved",
   "theorems": [
    "C42_lexer_automaton",
    "C42_lexer_ascii",
    "C42_parser_automaton",
    "C42_generated_any",
    "C42_generated_parser",
    "C42_predictions",
    "C42_generated_read",
    "C42_lexer",
    "C42_parser",
    "C42_unambiguous",
    "C42_read",
    "C42_print_read",
    "C42_reread"
   ],
   "note": "The lexer and parser are modelled from the grammar rules, and acceptance is exactly membership in the grammar, with one tree per token list. The serialized automata of rdt_lexer.go and rdt_parser.go and the generated parser functions are modelled too, number by number and function by function: the lexer automaton makes exactly the tokens of the rules (C42_lexer_automaton), the parser automaton accepts exactly the token lists of expressions (C42_parser_automaton), and the generated parser returns exactly their trees (C42_generated_parser, C42_generated_read). Trusted: the ANTLR runtime, which is not in /repo: how it reads the numbers, longest match, and that AdaptivePredict answers with an alternative that leads to the end of the input if there is one; without that last assumption what is accepted is still an expression with its tree, and parsing ends (C42_generated_any). White space is the hidden channel. Error recovery is left out, since any error fails the caller."
  },
  {
   "property": "C43",
   "status": "partial",
   "theorems": [
    "C43_expression_partial",
    "C43_operators",
    "C43_parentheses_refuted"
   ],
   "note": "Proved for a declaration that is a type expression without facets, over references that are resolved and unwrapped: it is resolved, unwrapped and then accepts exactly what the expression denotes. Refuted: `type: (string)` with facets silently drops them while `type: string` keeps them."
  },
  {
   "property": "C44",
   "status": "partial",
   "theorems": [
    "C44_ends",
    "C44_once_partial",
    "C44_loaded_twice_refuted"
   ],
   "note": "Loading ends for every finite set of files, however uses run in circles, as long as no file includes itself (C44_ends). When no circle of references passes through an include, there is one Library object for each library file and every entry of every uses leads to the object of the path it names, the entry point included (C44_once_partial). Refuted without that condition: a library that includes a data type which uses the library is decoded twice, and the entry point is not the library that references see (C44_loaded_twice_refuted)."
  },
  {
   "property": "C45",
   "status": "partial",
   "theorems": [
    "C45_include_cycle_refuted",
    "C45_resolution_partial",
    "C45_alias_cycles",
    "C45_alias_cycle_refuted"
   ],
   "note": "Loading ends when no file includes itself (C44_ends); resolution of all types ends, with explicit fuel, when no type takes its kind from itself (C45_resolution_partial). Refuted: `A: B, B: A` never ends (C45_alias_cycles holds for every closed set of aliases), and a data type file that includes itself is read for ever (C45_include_cycle_refuted)."
  },
  {
   "property": "C46",
   "status": "partial",
   "theorems": [
    "C46_loading_partial",
    "C46_parsing_partial",
    "C46_nil_link_refuted",
    "C46_documents_refuted",
    "C46_operations_partial",
    "C46_inherit_partial",
    "C46_unwrap_partial",
    "C46_whole_partial",
    "C46_lost_annotation_refuted",
    "C46_shrunk_union_refuted",
    "C46_enum_refuted",
    "C46_resolution_partial",
    "C46_no_parents_refuted"
   ],
   "note": "On tidy files (each asked for as one kind of fragment, no empty library or data type, no empty list of parents, no type named composite, facets and uses in pairs) loading never panics; without uses in data types parsing does not either, and with plain enums and no unions neither do unwrapping and validation, alone or together as long as no annotation loses its type (C46_whole_partial). On every complete model copying, marking, checking and validating never panic (C46_operations_partial), inheriting does not with plain enums, unwrapping does not without unions. Resolution never panics on a parsed model in which every composite type has a parent. Refuted in general: documents on which loading or resolution panics, a data type whose library is missing, `type: []`, enums of mappings, unions that shrink while they are unwrapped, an annotation type that unwrapping replaces by its any parent. Missing: unwrapping with unions, which condition would keep them from shrinking."
  },
  {
   "property": "C47",
   "status": "partial",
   "theorems": [
    "C47_document_refuted",
    "C47_recursive_document_refuted",
    "C47_alias_equivalent_partial",
    "C47_alias_of_result_partial",
    "C47_boolean_refuted",
    "C47_in_progress_refuted"
   ],
   "note": "Proved: an alias unwrapped by this call accepts exactly what its unwrapped target accepts, unless the target is boolean; refuted for booleans (enum not copied) and for aliases reached while their target is being unwrapped. The refuted part shown on a RAML file that parses: C47_document_refuted, C47_recursive_document_refuted."
  },
  {
   "property": "C48",
   "status": "partial",
   "theorems": [
    "C48_own_first",
    "C48_exact",
    "C48_declared",
    "C48_schema"
   ],
   "note": "From the text to the model (C48_declared, every parse without error), inheritance (C48_own_first: maps only grow at the end, for every heap; C48_exact: the exact result when the two maps are not reachable from the property types) and from the model to the schema (C48_schema; deeper levels are in C64). Missing: the exact order of what is appended when a property type leads back to one of the two maps."
  },
  {
   "property": "C49",
   "status": "partial",
   "theorems": [
    "C49_data_sound",
    "C49_data_complete",
    "C49_no_panic",
    "C49_alias_rejected",
    "C49_nested_include_rejected_partial",
    "C49_nested_include_refuted"
   ],
   "note": "Soundness, completeness, absence of panics and alias rejection are proved in full. Nested includes are rejected below the root (partial) but accepted when the outer include is the root node (refuted)."
  },
  {
   "property": "C50",
   "status": "partial",
   "theorems": [
    "C50_exit_status_refuted",
    "C50_last_file_decides_partial"
   ],
   "note": "False: the status of the last file decides (refuted). Proved: the exact exit status as a function of the last file."
  },
  {
   "property": "C51",
   "status": "partial",
   "theorems": [
    "C51_document_refuted",
    "C51_members_refuted",
    "C51_scalar_members_partial"
   ],
   "note": "False as stated (refuted): after a failed attempt the source member itself becomes a member of the result. C51_scalar_members_partial: for scalar members, with no two of one type in the inheriting union, the result accepts exactly what a pair of members of the same type accepts. The refuted part shown on a RAML file that parses: C51_document_refuted."
  },
  {
   "property": "C52",
   "status": "partial",
   "theorems": [
    "C52_document_refuted",
    "C52_parsed_partial",
    "C52_order_refuted"
   ],
   "note": "False as stated (C52_order_refuted): whether UnwrapShapes succeeds depends on the order. C52_parsed_partial: when it succeeds in two orders, for parsed documents without unions and without types of the kind any, the libraries, the files, the lookups, and the ID, name and location of every type are the same. Missing: conditions under which success and the facets are the same. The refuted part shown on a RAML file that parses: C52_document_refuted."
  },
  {
   "property": "C53",
   "status": "partial",
   "theorems": [
    "C53_document_refuted",
    "C53_parsed_partial",
    "C53_library_partial",
    "C53_data_type",
    "C53_library_refuted"
   ],
   "note": "Proved for data types, for libraries none of whose types was replaced by its parent, and for every library of a parsed document without unions and without any (C53_parsed_partial). Refuted in general: an any parent already visited is returned in place of the child. The refuted part shown on a RAML file that parses: C53_document_refuted."
  },
  {
   "property": "C54",
   "status": "proved",
   "theorems": [
    "C54_unwrapped",
    "C54_kept_partial",
    "C54_parsed",
    "C54_declared",
    "C54_validated",
    "C54_after_unwrap_refuted"
   ],
   "note": "Resolution gives each annotation the type its name denotes; success of ValidateShapes means the value validates against that type, or against the unwrapped detached copy of it; end to end for every document in C54_parsed. UnwrapShapes keeps name, location and value of every annotation and takes its type from the index (C54_unwrapped); in a parsed document without unions and without any that is the type it had (C54_kept_partial). Separately refuted: in general an annotation can lose its type, and ValidateShapes panics."
  },
  {
   "property": "C55",
   "status": "partial",
   "theorems": [
    "C55_document_refuted",
    "C55_reopened_refuted",
    "C55_own_property_refuted",
    "C55_open_partial"
   ],
   "note": "Refuted in general (C55_reopened_refuted, C55_own_property_refuted); holds for open parents without pattern properties (C55_open_partial). The refuted part shown on a RAML file that parses: C55_document_refuted."
  },
  {
   "property": "C56",
   "status": "proved",
   "theorems": [
    "C56_kind",
    "C56_same_kind",
    "C56_self_reference",
    "C56_array_facets"
   ],
   "note": "C56_kind, C56_self_reference, C56_array_facets."
  },
  {
   "property": "C57",
   "status": "proved",
   "theorems": [
    "C57_inherit_facets",
    "C57_alias_facets"
   ],
   "note": "C57_inherit_facets, C57_alias_facets."
  },
  {
   "property": "C58",
   "status": "partial",
   "theorems": [
    "C58_joined_partial",
    "C58_objects_partial",
    "C58_scalar_parents_partial"
   ],
   "note": "Scalar types with any number of finished distinct parents: the values are exactly the intersection (C58_scalar_parents_partial). A type that inherits in turn from any number of open object or array types accepts exactly the values of all (C58_joined_partial); UnwrapShape of an object type with two open object parents that may share property names accepts exactly what all three accept (C58_objects_partial). Not covered: closed types, unions, own properties beside two parents."
  },
  {
   "property": "C59",
   "status": "partial",
   "theorems": [
    "C59_ends",
    "C59_not_unwrapped",
    "C59_without_wrapper_refuted",
    "C59_unmarked_refuted",
    "C59_file_refuted",
    "C59_null_refuted",
    "C59_document_refuted",
    "C59_parsed_partial"
   ],
   "note": "Proved for every unwrapped, closed type graph of finite descent (what C28 establishes) whose kinds are convertible, and hence for every declared type of a parsed and unwrapped document without unions, without any and with plain enums whose parts are convertible (C59_parsed_partial). Refuted: unwrapped without marking recursion does not end; `fileTypes: []` and `type: json` panic; without a wrapper it never succeeds. The refuted part shown on a RAML file that parses: C59_document_refuted."
  },
  {
   "property": "C60",
   "status": "partial",
   "theorems": [
    "C60_carried_partial",
    "C60_recursive_refuted",
    "C60_included_examples_refuted"
   ],
   "note": "Proved for every kind of type but references to recursive types, which lose their documentation (C60_recursive_refuted). Examples included from a NamedExample file are lost (C60_included_examples_refuted)."
  },
  {
   "property": "C61",
   "status": "proved",
   "theorems": [
    "C61_complete"
   ],
   "note": "Whenever parse_string succeeds without unwrapping and validation: the model is fresh_model (well-formed, unique IDs, nothing shared, no flag set), every type is settled, every declared type is there."
  },
  {
   "property": "C62",
   "status": "partial",
   "theorems": [
    "C62_as_written",
    "C62_validated",
    "C62_min_length",
    "C62_one_parent_refuted"
   ],
   "note": "C62_as_written: for every parse without error, every fragment and all types in it are as written, all the way down (C62_validated: also with validation; C62_min_length: one consequence spelled out). False parts: a built-in name in parentheses loses its facets (C43_parentheses_refuted; excluded by wrapped_name), a parent named once may be there twice (C62_one_parent_refuted). Where type expressions, inclusions and lists of parents lead is part of the relation and is spelled out in C63. A declaration that says its kind by itself has no parents, is no alias and includes nothing (by_itself)."
  },
  {
   "property": "C63",
   "status": "partial",
   "theorems": [
    "C63_expression",
    "C63_include",
    "C63_parents",
    "C63_alias",
    "C63_parent",
    "C63_data_type",
    "C63_composite_refuted"
   ],
   "note": "C63_expression: for every parse without error, with or without validation, and every type of a library declared by an expression, the type is what the expression says, by recursion on the expression; C63_include, C63_parents, C63_data_type likewise; C63_alias and C63_parent spell out the case of one name. For types deeper down the same is part of C62_as_written. False part: the name composite stands for a list of parents (C63_composite_refuted). A parent named once may be there twice (C62_one_parent_refuted), so the theorems say that all parents are the type named. C63_include says in which file the included type is written."
  },
  {
   "property": "C64",
   "status": "proved",
   "theorems": [
    "C64_document"
   ],
   "note": "For every successful conversion, without hypotheses on the graph. That conversion succeeds is C59; what the schema means is C35; names that two types share are C36_collision_refuted."
  },
  {
   "property": "C65",
   "status": "proved",
   "theorems": [
    "C65_type",
    "C65_model"
   ],
   "note": "C65_type for every type graph with unique facet names; C65_model for every complete model (parts exist, IDs unique, no recursive types yet). The converse, that wrong types are reported, is C18-C24. A failing Check or a copy that cannot be unwrapped counts as a reason of its own."
  },
  {
   "property": "C66",
   "status": "proved",
   "theorems": [
    "C66_facet",
    "C66_facets",
    "C66_ignored"
   ],
   "note": "C66_facet: one facet; C66_facets: all facets of a declaration, in any order; C66_ignored: unions, external and unresolved types. The facets items and properties, which hold types, are excluded. What the accepted values are read as is C62."
  },
  {
   "property": "C67",
   "status": "partial",
   "theorems": [
    "C67_shallow_copy",
    "C67_same_values",
    "C67_independent_refuted"
   ],
   "note": "Proved but for the last sentence, which is false (refuted): the copy shares its map of properties with the original, so inheriting into the copy changes the original."
  },
  {
   "property": "C68",
   "status": "partial",
   "theorems": [
    "C68_messages",
    "C68_context_lost",
    "C68_context_refuted"
   ],
   "note": "Exact behaviour for every chain (C68_messages). False part (refuted): the texts of the wrapping errors are always lost (C68_context_lost), because errors.As looks through them before the code that would keep them."
  },
  {
   "property": "C69",
   "status": "partial",
   "theorems": [
    "C69_found_partial",
    "C69_only_partial",
    "C69_found_refuted",
    "C69_only_refuted"
   ],
   "note": "C69_found_partial and C69_only_partial: for all files that do not include themselves through a uses (no_mixed_cycle); the converse also needs that no file has a key twice at its top. C69_found_refuted and C69_only_refuted show that both conditions are needed. After unwrapping see C53."
  },
  {
   "property": "C70",
   "status": "partial",
   "theorems": [
    "C70_marked",
    "C70_parsed_partial",
    "C70_plain_partial",
    "C70_any_refuted",
    "C70_union_refuted"
   ],
   "note": "Proved for the marking itself from any heap (C70_marked: a new recursive shape stands for a type that contains itself or that was flagged before) and for parsed and unwrapped documents without unions, up to types of the kind any (C70_parsed_partial) or without them (C70_plain_partial). False as stated: C70_any_refuted (a parent of the kind any keeps its flag, and its uses become recursive shapes) and C70_union_refuted (a union property that a child narrows)."
  },
  {
   "property": "C71",
   "status": "proved",
   "theorems": [
    "C71_located",
    "C71_no_new_place"
   ],
   "note": "C71_located: for every successful parse with any options, every base shape in the heap and every annotation. C71_no_new_place: UnwrapShapes and ValidateShapes on any model, whatever the result."
  },
  {
   "property": "C72",
   "status": "partial",
   "theorems": [
    "C72_resolved",
    "C72_one_spelling",
    "C72_entry",
    "C72_locations",
    "C72_from_path",
    "C72_from_string",
    "C72_shared_partial",
    "C72_unclean_refuted"
   ],
   "note": "C72_resolved: the location of a reference is the spelling of the place it leads to; C72_one_spelling: a place has one. C72_locations, C72_from_path, C72_from_string: all locations of the model after a successful parse with any options, for ParseFromString with any base directory and for ParseFromPath with a relative path or an absolute one that is clean. C72_shared_partial: entries of uses in any two loaded files that lead to the same place have the same library, if no circle of references passes through an include (see C44). Refuted for an absolute entry path that is not clean: it is not cleaned, and the entry file is loaded twice when another file uses it (C72_unclean_refuted)."
  },
  {
   "property": "C73",
   "status": "proved",
   "theorems": [
    "C73_options",
    "C73_order",
    "C73_file_text",
    "C73_stages"
   ],
   "note": "C73_options, C73_order: options. C73_file_text: ParseFromPath with the clean absolute path of a file and ParseFromString. C73_stages: the options and the methods, also when they fail."
  },
  {
   "property": "C74",
   "status": "proved",
   "theorems": [
    "C74_accepted",
    "C74_made",
    "C74_examples",
    "C74_named",
    "C74_either"
   ],
   "note": "Acceptance is an equivalence (C74_accepted, C74_examples, C74_named) for nodes in which every mapping has a value for each key, as the YAML parser makes them; whether strict, displayName and description decode is an oracle of the decoding environment. The model keeps the data and the annotations of an example, not its strict flag, display name and description (C74_made says what is kept). C74_either: no type of a loaded library has both example and examples. C74_named_case records that an annotation in a file of named examples is read but cannot be resolved."
  },
  {
   "property": "C75",
   "status": "partial",
   "theorems": [
    "C75_silent",
    "C75_silent_later",
    "C75_only_stop",
    "C75_only_stop_later",
    "C75_unwrap_asked",
    "C75_validate_asked",
    "C75_parts_asked",
    "C75_parse_asked",
    "C75_data_asked",
    "C75_steps",
    "C75_calls",
    "C75_union_calls",
    "C75_inherit_refuted"
   ],
   "note": "Hooks are modelled as looking at the parameters and the shapes and returning an error or not; hooks that change the model are not covered. Without the restriction on inheritance the claim is refuted: an error of a hook on one union member is taken for a member that does not match. That no error is lost is proved for declared types and their parts, and for each call by itself; not for shapes made during resolution in one statement."
  },
  {
   "property": "C76",
   "status": "proved",
   "theorems": [
    "C76_verdict",
    "C76_panic",
    "C76_unwrapped",
    "C76_parsed"
   ],
   "note": "Models that are not unwrapped are validated on copies, with a cache shared by the loop; for those nothing is claimed."
  },
  {
   "property": "C77",
   "status": "partial",
   "theorems": [
    "C77_document_refuted",
    "C77_kept_partial",
    "C77_reported_partial"
   ],
   "note": "C77_kept_partial: after every parse, a key that is neither documentation nor a facet of the kind is kept as a custom facet with the value written, on all kinds but unions and JSON schemas; C77_reported_partial: so after a parse with validation, a declaration that names its kind or leaves it out holds nothing else (unions and JSON schemas aside); C32_parsed_partial: a custom facet that no ancestor defines makes validation fail. The claim as stated is false (C77_document_refuted, on files): keys of unions and of names in parentheses are dropped, properties and facets that are no mappings are accepted, and so is a property declared as both a and a?."
  },
  {
   "property": "C78",
   "status": "proved",
   "theorems": [
    "C78_called",
    "C78_one_more"
   ],
   "note": "C78_called: for every history, the hooks called for a type are those of its owner (view_of replays the history with lists of calls per owner), with the type as parameter. C78_one_more: what one more call on a type changes, and for which types. Hooks that remove hooks while running are excluded (C40)."
  },
  {
   "property": "C79",
   "status": "partial",
   "theorems": [
    "C79_leftover_refuted",
    "C79_stale_refuted",
    "C79_complete_partial",
    "C79_kept_partial"
   ],
   "note": "False as stated. C79_leftover_refuted: a failed parse leaves types and annotations behind that make the next parse (for annotations: every later one) fail. C79_stale_refuted: PutFragment keeps the first library of a path, so names in a new text lead to the types of the old one. Proved, for sequences of successful parses without unwrapping and validation: the model is complete (C79_complete_partial), and another parse keeps all earlier types, libraries and files, and makes the files that are new as written (C79_kept_partial). Missing: sequences with unwrapping or validation."
  },
  {
   "property": "C80",
   "status": "partial",
   "theorems": [
    "C80_marked",
    "C80_parsed_partial",
    "C80_shape_refuted",
    "C80_order_refuted"
   ],
   "note": "C80_marked: a successful FindAndMarkRecursion over all types of a model without flags and recursive shapes has seen only unwrapped types. C80_parsed_partial: so UnwrapShapes of a document without unions and types of kind any leaves every part of every declared type unwrapped. Missing: the claim for UnwrapShape alone in such documents; unions. C80_shape_refuted: with unions UnwrapShape can return a type with a part that is not unwrapped. C80_order_refuted: UnwrapShapes refuses that document, and takes it with the types in the opposite order."
  },
  {
   "property": "C81",
   "status": "partial",
   "theorems": [
    "C81_schema_file",
    "C81_not_a_schema",
    "C81_values_refuted",
    "C81_whitespace_refuted",
    "C81_no_schema_refuted"
   ],
   "note": "proved: a .json file that begins with a brace is a JSON type with exactly the text of the file and nothing else, and one that is no schema stops the parse, so that the text in a parsed document is always a schema. Refuted: a file with a line break before the brace is an error although its schema is good (C81_whitespace_refuted), and a .json file need not be a schema: an empty one is a type of strings, one with a type expression is that type (C81_no_schema_refuted). The schema is not consulted when values are validated: all are accepted (C81_values_refuted). Which texts are schemas is an argument of the model; not shown is that the type with the !include holds the schema after resolution."
  },
  {
   "property": "C82",
   "status": "partial",
   "theorems": [
    "C82_verdict",
    "C82_bare",
    "C82_check",
    "C82_discriminator_refuted",
    "C82_union_enum_refuted"
   ],
   "note": "proved for all pairs of models that agree on the parts of a type, and with documentation, examples, defaults, annotations, custom facets and discriminators struck out; for Check, of all pairs of models with the same kinds, facets, maps and lists (C82_check). Refuted: the discriminator does not count for values. A type with the discriminator value cat accepts dogs, a union of both accepts birds (C82_discriminator_refuted); the enum of a union is not read either (C82_union_enum_refuted)."
  },
  {
   "property": "C83",
   "status": "partial",
   "theorems": [
    "C83_not_read",
    "C83_strict_refuted"
   ],
   "note": "proved: the entry strict changes nothing, wherever it stands. Refuted: an example with strict: false that does not conform is refused by validation like any other (C83_strict_refuted, example and examples)."
  },
  {
   "property": "C84",
   "status": "partial",
   "theorems": [
    "C84_location",
    "C84_kept",
    "C84_entry_partial",
    "C84_entry_refuted",
    "C84_failed_refuted"
   ],
   "note": "proved: the location and the entry point of a successful parse on any object; that the entry point is kept when decoding fails; that a library is the fragment of its path, with unwrapped types, if no circle of references passes through an include (new object, any options; not shown for data types). Refuted: with an include that leads back to the entry point through uses, the entry point is an object that is not in the model and stays wrapped (C84_entry_refuted); a parse that fails in resolution has already set the entry point (C84_failed_refuted)."
  },
  {
   "property": "C85",
   "status": "partial",
   "theorems": [
    "C85_idle",
    "C85_multiple_refuted",
    "C85_format_refuted",
    "C85_file_types_refuted"
   ],
   "note": "refuted: multipleOf, the format of integers and numbers, fileTypes, the enum of a union and the text of a JSON schema have no effect on any verdict, in any model (C85_idle); parsed and validated documents show it (C85_multiple_refuted: multipleOf 5 accepts 7; C85_format_refuted: int8 accepts 1000; C85_file_types_refuted). That all other facets are enforced is C01, C03, C05, C07 and C08."
  },
  {
   "property": "C86",
   "status": "partial",
   "theorems": [
    "C86_good_partial",
    "C86_multiple_refuted"
   ],
   "note": "proved for all types whose multipleOf is positive, whose lengths and counts are not negative (they are uint64 in Go), whose property names are distinct (they are keys of an ordered map) and whose JSON schemas are good ones (C86_good_partial). Refuted: multipleOf: 0 passes parsing and validation and is written into the schema (C86_multiple_refuted). Only the listed keywords are covered; that patterns are regular expressions in the dialect of JSON Schema is not shown."
  },
  {
   "property": "C87",
   "status": "partial",
   "theorems": [
    "C87_narrower_partial",
    "C87_multiple_refuted",
    "C87_own_multiple_refuted"
   ],
   "note": "proved under the conditions of C14 (open parents without pattern properties, one string pattern, no unions that both sides speak of) and of C35 (facets with the same meaning in both languages, own names) (C87_narrower_partial). Refuted: an integer type with multipleOf 3 may be derived from one with multipleOf 2; its schema accepts 3, that of the parent does not (C87_multiple_refuted, a parsed and validated document). A number type with multipleOf 4 derived from one with multipleOf 2 gets multipleOf 2 in its schema (C87_own_multiple_refuted)."
  }
 ]
}