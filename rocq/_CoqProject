-Q theories Verif
theories/Base.v
theories/Scalars.v
theories/Spec_Scalars.v
theories/Scalars_proofs.v
theories/Float_proofs.v
theories/Props_Scalars.v
theories/Heap.v
theories/Validate.v
theories/Spec_Validate.v
theories/Validate_proofs.v
theories/Check_proofs.v
theories/Props_Validate.v
theories/Heap_lemmas.v
theories/Spec_Model.v
theories/Model_check.v
theories/Inherit_proofs.v
theories/Props_Inherit.v
theories/Spec_Clone.v
theories/Clone_proofs.v
theories/Props_Clone.v
theories/Spec_Mark.v
theories/Mark_proofs.v
theories/Mark_values.v
theories/Props_Mark.v
theories/Names.v
theories/Spec_Names.v
theories/Names_proofs.v
theories/Props_Names.v
theories/Hooks.v
theories/Spec_Hooks.v
theories/Hooks_proofs.v
theories/Props_Hooks.v
theories/Shape_hooks.v
theories/Spec_Shape_hooks.v
theories/Shape_hooks_proofs.v
theories/Props_Shape_hooks.v
theories/Yaml.v
theories/Spec_Yaml.v
theories/Yaml_proofs.v
theories/Props_Yaml.v
theories/Rdt.v
theories/Spec_Rdt.v
theories/Rdt_proofs.v
theories/Props_Rdt.v
theories/Resolve.v
theories/Spec_Resolve.v
theories/Resolve_proofs.v
theories/Resolve_ends.v
theories/Ids_proofs.v
theories/Props_Resolve.v
theories/Kind_proofs.v
theories/Facet_proofs.v
theories/Props_Derive.v
theories/Spec_Region.v
theories/Spec_Narrow.v
theories/Narrow_proofs.v
theories/Region_proofs.v
theories/Order_proofs.v
theories/Props_Narrow.v
theories/Spec_Subtype.v
theories/Subtype_proofs.v
theories/Union_narrow.v
theories/Props_Subtype.v
theories/Spec_Meet.v
theories/Meet_proofs.v
theories/Props_Meet.v
theories/Props_Added.v
theories/Keep_facets.v
theories/Props_Documents.v
theories/Again_proofs.v
theories/Props_Again.v
theories/Props_Reached.v
theories/Label_proofs.v
theories/Pipeline.v
theories/Spec_Pipeline.v
theories/Pipeline_proofs.v
theories/Props_Pipeline.v
theories/Schema.v
theories/Convert.v
theories/Spec_Schema.v
theories/Convert_proofs.v
theories/Convert_meaning_proofs.v
theories/Convert_top_proofs.v
theories/Convert_ends_proofs.v
theories/Props_Convert.v
theories/Props_Convert_limits.v
theories/Copy.v
theories/Spec_Copy.v
theories/Copy_proofs.v
theories/Spec_Map.v
theories/Map_proofs.v
theories/Props_Schema.v
theories/Decode.v
theories/Parse.v
theories/Spec_Parse.v
theories/Parse_ends.v
theories/Parse_walk.v
theories/Parse_once.v
theories/Parse_fresh.v
theories/Props_Parse.v
theories/Props_Fresh.v
theories/Props_Decode.v
theories/Props_Routes.v
theories/Props_Json.v
theories/Spec_Silent.v
theories/Props_Silent.v
theories/Props_Strict.v
theories/Entry.v
theories/Props_Entry.v
theories/Spec_Decode.v
theories/Decode_says.v
theories/Decode_read.v
theories/Decode_facets.v
theories/Decode_made.v
theories/Decode_load.v
theories/Decode_files.v
theories/Decode_settle.v
theories/Spec_Describe.v
theories/Describe_proofs.v
theories/Props_Describe.v
theories/Spec_Shown.v
theories/Shown_proofs.v
theories/Props_Shown.v
theories/Spec_Calm.v
theories/Parse_calm.v
theories/Props_Calm.v
theories/Shapes_calm.v
theories/Model_calm.v
theories/Props_Quiet.v
theories/Model_returns.v
theories/Props_Returns.v
theories/Parse_index.v
theories/Props_Index.v
theories/Spec_Reason.v
theories/Reason_proofs.v
theories/Scalar_types.v
theories/Props_Reason.v
theories/Props_Accept.v
theories/Shallow.v
theories/Props_Shallow.v
theories/Errors.v
theories/Props_Errors.v
theories/Mark_back.v
theories/Unwrap_flags.v
theories/Props_Back.v
theories/Mark_heads.v
theories/Reached_proofs.v
theories/Unwrap_same.v
theories/Props_Ready.v
theories/Props_Found.v
theories/Locate.v
theories/Keep_loc.v
theories/Props_Locate.v
theories/Atn.v
theories/Rdt_gen.v
theories/Spec_Atn.v
theories/Atn_lexer.v
theories/Atn_scan.v
theories/Gen_sound.v
theories/Gen_complete.v
theories/Gen_pick.v
theories/Atn_parser.v
theories/Props_Atn.v
theories/Path.v
theories/Spec_Path.v
theories/Path_proofs.v
theories/Path_keys.v
theories/Spec_Example.v
theories/Props_Example.v
theories/Props_Path.v
theories/Hooked.v
theories/Hooked_proofs.v
theories/Hooked_parse.v
theories/Hooked_asked.v
theories/Props_Hooked.v
theories/Props_Order.v
theories/Spec_Idle.v
theories/Props_Idle.v
theories/Spec_Meta.v
theories/Props_Meta.v
theories/Props_Schema_narrow.v
