(** Model of the YAML front end: from the nodes of a type declaration to base
    shapes on the heap. /repo/shape.go:554-928, the [unmarshalYAMLNodes]
    methods of /repo/complex.go and /repo/scalars.go, /repo/example.go and
    /repo/extension.go. Files are in {!Parse}. No proofs here. *)
From Coq Require Import ZArith List String Bool Ascii.
From Verif Require Import Base Scalars Heap Resolve Names Yaml Pipeline.
Import ListNotations.
Open Scope string_scope.
Open Scope list_scope.
Open Scope nat_scope.

(** External functions, quantified over everywhere. [d_y]: see {!Yaml}.
    The next ones are [node.Decode(&x)] of yaml.v3 into a pointer variable: the
    outer [None] is an error, the inner one a nil pointer (a null node).
    [d_bool] into [*bool] (/repo/shape.go:856, /repo/complex.go:205, 278),
    [d_text] into [*string] (/repo/shape.go:846, 851, /repo/complex.go:284,
    /repo/scalars.go:257, 461, 1016), [d_uint] into [*uint64]
    (/repo/complex.go:188, 194, 296, 302, /repo/scalars.go:629, 633, 783, 787),
    [d_float] into [*float64] (/repo/scalars.go:249, 449, 453, 471). [d_any]
    into an [any] (/repo/complex.go:290). [d_string], [d_strict]: into a plain
    [string] or [bool] (/repo/fragment.go:236, /repo/example.go:22-32), only
    whether it succeeds. [d_int]: [big.Int.SetString(s, 10)]
    (/repo/scalars.go:234, 243). [d_re]: [regexp.Compile] succeeds
    (/repo/complex.go:729, /repo/scalars.go:641). [d_schema]: [json.Unmarshal]
    into a JSONSchema succeeds (/repo/shape.go:542). [d_base]: [filepath.Base]
    (/repo/fragment.go:363). *)
Record denv := {
  d_y : yenv;
  d_bool : ynode -> option (option bool);
  d_text : ynode -> option (option string);
  d_uint : ynode -> option (option Z);
  d_float : ynode -> option (option float64);
  d_any : ynode -> option gval;
  d_string : ynode -> bool;
  d_strict : ynode -> bool;
  d_int : string -> option Z;
  d_re : string -> bool;
  d_schema : string -> bool;
  d_base : string -> string
}.

(** A facet list [shapeFacets] (/repo/shape.go:838, 911): keys and values come
    in pairs, of a key only its [Value] is read. Since decode appends pairs
    (883), the tests for an odd number of nodes (e.g. /repo/complex.go:179)
    never fire. *)
Definition fnodes := list (string * ynode).

(** The RAML object while it is being built, /repo/raml.go:14-33: the heap
    state, the libraries, fragmentsCache with the DataType objects links point
    to, domainExtensions, the two indexes, unresolvedShapes, and the [facets]
    of the unknown shapes (/repo/complex.go:996, newest first; [None] is the
    nil slice). *)
Record pst := PSt {
  p_st : st;
  p_libs : libs;
  p_frags : omap fragment;
  p_dts : omap addr;
  p_exts : list ext;
  p_types : index;
  p_annots : index;
  p_todo : list addr;
  p_facets : list (addr * option fnodes)
}.

(** Computations of the front end; as in {!Heap}, the state is kept on errors. *)
Definition D (A : Type) := pst -> res A * pst.

(** [return x, nil], e.g. /repo/shape.go:768. *)
Definition dret {A} (a : A) : D A := fun p => (Ok a, p).
(** Sequencing with early return on error, e.g. /repo/shape.go:737-740. *)
Definition dbind {A B} (m : D A) (f : A -> D B) : D B :=
  fun p => match m p with
           | (Ok a, p') => f a p'
           | (Err, p') => (Err, p')
           | (Panic, p') => (Panic, p')
           | (OutOfFuel, p') => (OutOfFuel, p')
           end.
(** [return nil, err], e.g. /repo/shape.go:739; likewise a run-time panic and
    the lack of fuel. *)
Definition dlift {A} (r : res A) : D A := fun p => (r, p).
(** A computation on the heap, e.g. MakeBaseShape at /repo/shape.go:735. *)
Definition hp {A} (m : M A) : D A :=
  fun p => match m (p_st p) with
           | (r, s) => (r, PSt s (p_libs p) (p_frags p) (p_dts p) (p_exts p) (p_types p) (p_annots p) (p_todo p) (p_facets p))
           end.
(** An error that is remembered while the loop goes on, e.g.
    /repo/parse.go:199-208. *)
Definition dtry {A} (m : D A) : D (option A) :=
  fun p => match m p with
           | (Ok a, p') => (Ok (Some a), p')
           | (Err, p') => (Ok None, p')
           | (Panic, p') => (Panic, p')
           | (OutOfFuel, p') => (OutOfFuel, p')
           end.
(** Reading the RAML object, e.g. /repo/raml.go:201. *)
Definition dget : D pst := fun p => (Ok p, p).

Declare Scope d_scope.
Delimit Scope d_scope with D.
Notation "x <- m ;; k" := (dbind m (fun x => k))
  (at level 61, m at next level, right associativity) : d_scope.
Notation "m ;;; k" := (dbind m (fun _ => k))
  (at level 61, right associativity) : d_scope.
Open Scope d_scope.

(** [r.domainExtensions = append(...)], /repo/extension.go:40. *)
Definition put_ext (e : ext) : D unit :=
  fun p => (Ok tt, PSt (p_st p) (p_libs p) (p_frags p) (p_dts p) (p_exts p ++ [e]) (p_types p) (p_annots p) (p_todo p) (p_facets p)).
(** [r.unresolvedShapes.PushBack(base)], /repo/shape.go:766. *)
Definition put_todo (a : addr) : D unit :=
  fun p => (Ok tt, PSt (p_st p) (p_libs p) (p_frags p) (p_dts p) (p_exts p) (p_types p) (p_annots p) (p_todo p ++ [a]) (p_facets p)).
(** [s.facets = v], /repo/complex.go:1020. *)
Definition put_facets (a : addr) (fs : option fnodes) : D unit :=
  fun p => (Ok tt, PSt (p_st p) (p_libs p) (p_frags p) (p_dts p) (p_exts p) (p_types p) (p_annots p) (p_todo p) ((a, fs) :: p_facets p)).
(** [unknownShape.facets], e.g. /repo/resolve.go:107. *)
Fixpoint facets_of (a : addr) (l : list (addr * option fnodes)) : option fnodes :=
  match l with
  | [] => None
  | (a', fs) :: l' => if Nat.eqb a a' then fs else facets_of a l'
  end.
(** PutTypeIntoFragment, /repo/raml.go:171-178. *)
Definition put_type (name loc : string) (a : addr) : D unit :=
  fun p => (Ok tt, PSt (p_st p) (p_libs p) (p_frags p) (p_dts p) (p_exts p) (index_put name loc a (p_types p)) (p_annots p) (p_todo p) (p_facets p)).
(** PutAnnotationTypeIntoFragment, /repo/raml.go:190-197. *)
Definition put_annot (name loc : string) (a : addr) : D unit :=
  fun p => (Ok tt, PSt (p_st p) (p_libs p) (p_frags p) (p_dts p) (p_exts p) (p_types p) (index_put name loc a (p_annots p)) (p_todo p) (p_facets p)).

(** [valueNode.Decode(&s.DisplayName)], /repo/shape.go:846. *)
Definition set_disp (x : option string) (b : base) : base :=
  Base (b_id b) (b_name b) (b_loc b) (b_type b) x (b_desc b) (b_example b) (b_examples b)
    (b_default b) (b_required b) (b_domain b) (b_inherits b) (b_alias b) (b_link b)
    (b_facets b) (b_fdefs b) (b_unwrapped b) (b_visited b) (b_shape b).
(** [s.Example = example], /repo/shape.go:832. *)
Definition set_example (x : option gval) (b : base) : base :=
  Base (b_id b) (b_name b) (b_loc b) (b_type b) (b_disp b) (b_desc b) x (b_examples b)
    (b_default b) (b_required b) (b_domain b) (b_inherits b) (b_alias b) (b_link b)
    (b_facets b) (b_fdefs b) (b_unwrapped b) (b_visited b) (b_shape b).
(** [s.Examples = ...], /repo/shape.go:783, 800. *)
Definition set_examples (x : option (list (string * gval))) (b : base) : base :=
  Base (b_id b) (b_name b) (b_loc b) (b_type b) (b_disp b) (b_desc b) (b_example b) x
    (b_default b) (b_required b) (b_domain b) (b_inherits b) (b_alias b) (b_link b)
    (b_facets b) (b_fdefs b) (b_unwrapped b) (b_visited b) (b_shape b).
(** [s.Default = n], /repo/shape.go:881. *)
Definition set_default (x : option gval) (b : base) : base :=
  Base (b_id b) (b_name b) (b_loc b) (b_type b) (b_disp b) (b_desc b) (b_example b) (b_examples b)
    x (b_required b) (b_domain b) (b_inherits b) (b_alias b) (b_link b)
    (b_facets b) (b_fdefs b) (b_unwrapped b) (b_visited b) (b_shape b).
(** [valueNode.Decode(&s.Required)], /repo/shape.go:856. *)
Definition set_required (x : option bool) (b : base) : base :=
  Base (b_id b) (b_name b) (b_loc b) (b_type b) (b_disp b) (b_desc b) (b_example b) (b_examples b)
    (b_default b) x (b_domain b) (b_inherits b) (b_alias b) (b_link b)
    (b_facets b) (b_fdefs b) (b_unwrapped b) (b_visited b) (b_shape b).
(** [s.CustomDomainProperties.Set(name, de)], /repo/shape.go:888. *)
Definition set_domain (x : list (string * Z)) (b : base) : base :=
  Base (b_id b) (b_name b) (b_loc b) (b_type b) (b_disp b) (b_desc b) (b_example b) (b_examples b)
    (b_default b) (b_required b) x (b_inherits b) (b_alias b) (b_link b)
    (b_facets b) (b_fdefs b) (b_unwrapped b) (b_visited b) (b_shape b).
(** [base.Inherits = inherits], /repo/shape.go:704. *)
Definition set_inherits (x : addr) (b : base) : base :=
  Base (b_id b) (b_name b) (b_loc b) (b_type b) (b_disp b) (b_desc b) (b_example b) (b_examples b)
    (b_default b) (b_required b) (b_domain b) x (b_alias b) (b_link b)
    (b_facets b) (b_fdefs b) (b_unwrapped b) (b_visited b) (b_shape b).

(** IsCustomDomainExtensionNode, /repo/extension.go:44-46. *)
Definition is_annotation (key : string) : bool :=
  match key with String c _ => Ascii.eqb c "("%char | _ => false end
  && match last_byte key with Some c => Ascii.eqb c ")"%char | None => false end.

(** [keyNode.Value[1 : len(keyNode.Value)-1]], /repo/extension.go:23. *)
Definition inner (key : string) : string := String.substring 1 (String.length key - 2) key.

Section Decode.
Variable E : denv.

(** [x, err := ...; if err != nil] for the decoders (e.g. /repo/shape.go:846). *)
Definition or_err {A} (o : option A) : res A :=
  match o with Some a => Ok a | None => Err end.

(** MakeEnum, /repo/scalars.go:24-37. *)
Definition make_enum (loc : string) (v : ynode) : res enum :=
  match y_kind v with
  | KSeq => rbind (seq_items (root_node (d_y E) loc) (y_content v)) (fun l => Ok (Some l))
  | _ => Err
  end.

(** The members of [fileTypes], /repo/scalars.go:795-804. *)
Fixpoint file_types (loc : string) (l : list ynode) : res (list gval) :=
  match l with
  | [] => Ok []
  | v :: l' =>
      if String.eqb (y_tag v) "!!str" then
        rbind (root_node (d_y E) loc v) (fun d => rbind (file_types loc l') (fun ds => Ok (d :: ds)))
      else Err
  end.

(** A facet of a shape that has the key: the new facets, or [None] for the
    [default] branch of the switch (a custom facet). *)

(** IntegerShape.unmarshalYAMLNode, /repo/scalars.go:228-274; the format must
    be in SetOfIntegerFormats (/repo/consts.go:17-21). *)
Definition int_facet (loc key : string) (v : ynode) (f : int_facets) : res (option int_facets) :=
  if String.eqb key "minimum" then
    if String.eqb (y_tag v) "!!int"
    then rbind (or_err (d_int E (y_value v))) (fun z => Ok (Some (IntF (Some z) (if_max f) (if_mult f) (if_format f) (if_enum f))))
    else Err
  else if String.eqb key "maximum" then
    if String.eqb (y_tag v) "!!int"
    then rbind (or_err (d_int E (y_value v))) (fun z => Ok (Some (IntF (if_min f) (Some z) (if_mult f) (if_format f) (if_enum f))))
    else Err
  else if String.eqb key "multipleOf" then
    rbind (or_err (d_float E v)) (fun x => Ok (Some (IntF (if_min f) (if_max f) x (if_format f) (if_enum f))))
  else if String.eqb key "format" then
    if existsb (String.eqb (y_value v)) ["int8"; "int16"; "int32"; "int"; "int64"; "long"]
    then rbind (or_err (d_text E v)) (fun x => Ok (Some (IntF (if_min f) (if_max f) (if_mult f) x (if_enum f))))
    else Err
  else if String.eqb key "enum" then
    rbind (make_enum loc v) (fun x => Ok (Some (IntF (if_min f) (if_max f) (if_mult f) (if_format f) x)))
  else Ok None.

(** NumberShape.unmarshalYAMLNodes, /repo/scalars.go:444-481;
    SetOfNumberFormats is /repo/consts.go:12-14. *)
Definition num_facet (loc key : string) (v : ynode) (f : num_facets) : res (option num_facets) :=
  if String.eqb key "minimum" then
    rbind (or_err (d_float E v)) (fun x => Ok (Some (NumF x (nf_max f) (nf_mult f) (nf_format f) (nf_enum f))))
  else if String.eqb key "maximum" then
    rbind (or_err (d_float E v)) (fun x => Ok (Some (NumF (nf_min f) x (nf_mult f) (nf_format f) (nf_enum f))))
  else if String.eqb key "format" then
    if existsb (String.eqb (y_value v)) ["float"; "double"]
    then rbind (or_err (d_text E v)) (fun x => Ok (Some (NumF (nf_min f) (nf_max f) (nf_mult f) x (nf_enum f))))
    else Err
  else if String.eqb key "enum" then
    rbind (make_enum loc v) (fun x => Ok (Some (NumF (nf_min f) (nf_max f) (nf_mult f) (nf_format f) x)))
  else if String.eqb key "multipleOf" then
    rbind (or_err (d_float E v)) (fun x => Ok (Some (NumF (nf_min f) (nf_max f) x (nf_format f) (nf_enum f))))
  else Ok None.

(** StringShape.unmarshalYAMLNodes, /repo/scalars.go:623-659. *)
Definition str_facet (loc key : string) (v : ynode) (f : str_facets) : res (option str_facets) :=
  if String.eqb key "minLength" then
    rbind (or_err (d_uint E v)) (fun x => Ok (Some (StrF x (sf_max f) (sf_pat f) (sf_enum f))))
  else if String.eqb key "maxLength" then
    rbind (or_err (d_uint E v)) (fun x => Ok (Some (StrF (sf_min f) x (sf_pat f) (sf_enum f))))
  else if String.eqb key "pattern" then
    if String.eqb (y_tag v) "!!str" && d_re E (y_value v)
    then Ok (Some (StrF (sf_min f) (sf_max f) (Some (y_value v)) (sf_enum f)))
    else Err
  else if String.eqb key "enum" then
    rbind (make_enum loc v) (fun x => Ok (Some (StrF (sf_min f) (sf_max f) (sf_pat f) x)))
  else Ok None.

(** FileShape.unmarshalYAMLNodes, /repo/scalars.go:777-813. *)
Definition file_facet (loc key : string) (v : ynode) (f : file_facets) : res (option file_facets) :=
  if String.eqb key "minLength" then
    rbind (or_err (d_uint E v)) (fun x => Ok (Some (FileF x (ff_max f) (ff_types f))))
  else if String.eqb key "maxLength" then
    rbind (or_err (d_uint E v)) (fun x => Ok (Some (FileF (ff_min f) x (ff_types f))))
  else if String.eqb key "fileTypes" then
    match y_kind v with
    | KSeq => rbind (file_types loc (y_content v)) (fun l => Ok (Some (FileF (ff_min f) (ff_max f) (Some l))))
    | _ => Err
    end
  else Ok None.

(** BooleanShape.unmarshalYAMLNodes, /repo/scalars.go:901-920. *)
Definition bool_facet (loc key : string) (v : ynode) : res (option enum) :=
  if String.eqb key "enum" then rbind (make_enum loc v) (fun x => Ok (Some x)) else Ok None.

(** DateTimeShape.unmarshalYAMLNodes, /repo/scalars.go:1007-1027;
    SetOfDateTimeFormats is /repo/consts.go:24-26. *)
Definition time_facet (key : string) (v : ynode) : res (option (option string)) :=
  if String.eqb key "format" then
    if existsb (String.eqb (y_value v)) ["rfc3339"; "rfc2616"]
    then rbind (or_err (d_text E v)) (fun x => Ok (Some x))
    else Err
  else Ok None.

(** ArrayShape.unmarshalYAMLNodes, /repo/complex.go:182-218, without [items]. *)
Definition arr_facet (key : string) (v : ynode) (f : arr_facets) : res (option arr_facets) :=
  if String.eqb key "minItems" then
    rbind (or_err (d_uint E v)) (fun x => Ok (Some (ArrF (a_items f) x (a_max f) (a_uniq f))))
  else if String.eqb key "maxItems" then
    rbind (or_err (d_uint E v)) (fun x => Ok (Some (ArrF (a_items f) (a_min f) x (a_uniq f))))
  else if String.eqb key "uniqueItems" then
    rbind (or_err (d_bool E v)) (fun x => Ok (Some (ArrF (a_items f) (a_min f) (a_max f) x)))
  else Ok None.

(** ObjectShape.unmarshalYAMLNode, /repo/complex.go:275-328, without
    [properties]. A decoded null DiscriminatorValue is the nil interface. *)
Definition obj_facet (key : string) (v : ynode) (f : obj_facets) : res (option obj_facets) :=
  if String.eqb key "additionalProperties" then
    rbind (or_err (d_bool E v)) (fun x => Ok (Some (ObjF (o_disc f) (o_discval f) x (o_props f) (o_pprops f) (o_min f) (o_max f))))
  else if String.eqb key "discriminator" then
    rbind (or_err (d_text E v)) (fun x => Ok (Some (ObjF x (o_discval f) (o_addl f) (o_props f) (o_pprops f) (o_min f) (o_max f))))
  else if String.eqb key "discriminatorValue" then
    rbind (or_err (d_any E v)) (fun x =>
      Ok (Some (ObjF (o_disc f) (match x with GNil => None | _ => Some x end) (o_addl f) (o_props f) (o_pprops f) (o_min f) (o_max f))))
  else if String.eqb key "minProperties" then
    rbind (or_err (d_uint E v)) (fun x => Ok (Some (ObjF (o_disc f) (o_discval f) (o_addl f) (o_props f) (o_pprops f) x (o_max f))))
  else if String.eqb key "maxProperties" then
    rbind (or_err (d_uint E v)) (fun x => Ok (Some (ObjF (o_disc f) (o_discval f) (o_addl f) (o_props f) (o_pprops f) (o_min f) x)))
  else Ok None.

(** unmarshalCustomDomainExtension, /repo/extension.go:20-42; the identity of
    an annotation is its index in domainExtensions. *)
Definition make_ext (loc key : string) (v : ynode) : D (string * Z) :=
  if String.eqb (inner key) "" then dlift Err
  else
    x <- dlift (root_node (d_y E) loc v) ;;
    p <- dget ;;
    put_ext (Ext (inner key) loc x None) ;;;
    dret (inner key, Z.of_nat (List.length (p_exts p))).

(** The entries beside [value] in an example: Example.decode,
    /repo/example.go:19-43, called from the second loop of fill, 61-67. Only
    whether they decode and the annotations are kept. *)
Fixpoint example_entries (loc : string) (l : list ynode) : D unit :=
  match l with
  | [] => dret tt
  | [_] => dlift Panic
  | k :: v :: l' =>
      (if String.eqb (y_value k) "strict" then dlift (if d_strict E v then Ok tt else Err)
       else if String.eqb (y_value k) "displayName" || String.eqb (y_value k) "description"
       then dlift (if d_string E v then Ok tt else Err)
       else if is_annotation (y_value k) then make_ext loc (y_value k) v ;;; dret tt
       else dret tt) ;;;
      example_entries loc l'
  end.

(** The first loop of fill, /repo/example.go:48-55. *)
Fixpoint value_entry (l : list ynode) : res (option ynode) :=
  match l with
  | [] => Ok None
  | [_] => Panic
  | k :: v :: l' => if String.eqb (y_value k) "value" then Ok (Some v) else value_entry l'
  end.

(** makeExample, /repo/example.go:78-105, and fill, 45-75: the data value. *)
Definition example (loc : string) (v : ynode) : D gval :=
  match y_kind v with
  | KMap =>
      o <- dlift (value_entry (y_content v)) ;;
      match o with
      | Some x => example_entries loc (y_content v) ;;; dlift (root_node (d_y E) loc x)
      | None => dlift (root_node (d_y E) loc v)
      end
  | _ => dlift (root_node (d_y E) loc v)
  end.

(** The loop of decodeExamples, /repo/shape.go:790-799, and of
    NamedExample.UnmarshalYAML, /repo/fragment.go:440-448. *)
Fixpoint example_map (loc : string) (l : list ynode) (m : omap gval) : D (omap gval) :=
  match l with
  | [] => dret m
  | [_] => dlift Panic
  | k :: v :: l' => x <- example loc v ;; example_map loc l' (oset (y_value k) x m)
  end.

Section Shape.
(** parseDataType (the address of the DataType object) and parseNamedExample,
    /repo/parse.go:123, 271. *)
Variable inc_dt : string -> D addr.
Variable inc_ne : string -> D unit.
(** makeNewShapeYAML on a node further down, /repo/shape.go:729. *)
Variable rec : ynode -> string -> string -> D addr.

(** [s.CustomShapeFacets.Set(node.Value, n)], e.g. /repo/scalars.go:271. *)
Definition custom_facet (a : addr) (loc key : string) (v : ynode) : D unit :=
  x <- dlift (root_node (d_y E) loc v) ;;
  hp (b <- rd get_base a ;;
      m <- rd get_facets (b_facets b) ;;
      Heap.write (b_facets b) (CFacets (oset key x m)))%M.

(** A case of the switch that assigns to the facets, or its default branch. *)
Definition own_facet {F} (a : addr) (loc key : string) (v : ynode) (r : res (option F)) (mk : F -> shape) : D unit :=
  o <- dlift r ;;
  match o with
  | Some f => hp (upd_base a (set_shape (Some (mk f))))
  | None => custom_facet a loc key v
  end.

(** makeProperty, /repo/complex.go:749-776. *)
Definition property (loc key : string) (v : ynode) : D prop :=
  let '(name, opt) := chomp_optional key in
  x <- rec v key loc ;;
  xb <- hp (rd get_base x) ;;
  match make_property key name opt (b_required xb) with
  | DProp nm req => dret (Prop_ nm x req)
  | DPattern _ _ => dlift Err
  end.

(** The object's own map, created when it is nil: /repo/complex.go:244-246,
    264-266. *)
Definition own_props (a : addr) (get : obj_facets -> option addr) (set : option addr -> obj_facets -> obj_facets) : D addr :=
  hp (b <- rd get_base a ;;
      match b_shape b with
      | Some (SObject f) =>
          match get f with
          | Some m => ret m
          | None => m <- alloc (CProps []) ;;
                    upd_base a (set_shape (Some (SObject (set (Some m) f)))) ;;;
                    ret m
          end
      | _ => mpanic
      end)%M.

(** unmarshalProperty and unmarshalPatternProperties, /repo/complex.go:242-273,
    with makePatternProperty, 717-738. *)
Definition one_property (a : addr) (loc key : string) (v : ynode) : D unit :=
  let '(name, opt) := chomp_optional key in
  if is_pattern_name name then
    m <- own_props a o_pprops set_pprops ;;
    x <- rec v key loc ;;
    xb <- hp (rd get_base x) ;;
    d <- dlift (make_pattern_property (d_re E) name opt (b_required xb)) ;;
    match d with
    | DPattern k re => hp (props_set m k (Prop_ re x false))
    | DProp _ _ => dlift Err
    end
  else
    m <- own_props a o_props set_props ;;
    pr <- property loc key v ;;
    hp (props_set m (p_name pr) pr).

(** The loop over [properties], /repo/complex.go:308-318, after the test for an
    odd number of nodes at 309. *)
Fixpoint properties (a : addr) (loc : string) (l : list ynode) : D unit :=
  match l with
  | k :: v :: l' => one_property a loc (y_value k) v ;;; properties a loc l'
  | _ => dret tt
  end.

(** One round of the loops of the unmarshalYAMLNodes methods. Shapes without
    facets of their own: /repo/scalars.go:1086, 1159, 1232, 1297, 1365. *)
Definition facet (a : addr) (loc key : string) (v : ynode) : D unit :=
  b <- hp (rd get_base a) ;;
  match b_shape b with
  | Some (SInt f) => own_facet a loc key v (int_facet loc key v f) SInt
  | Some (SNum f) => own_facet a loc key v (num_facet loc key v f) SNum
  | Some (SStr f) => own_facet a loc key v (str_facet loc key v f) SStr
  | Some (SFile f) => own_facet a loc key v (file_facet loc key v f) SFile
  | Some (SBool _) => own_facet a loc key v (bool_facet loc key v) SBool
  | Some (SDateTime _) => own_facet a loc key v (time_facet key v) SDateTime
  | Some (SArray f) =>
      if String.eqb key "items" then
        x <- rec v "items" loc ;;
        hp (upd_arr a (set_items (Some x)))
      else own_facet a loc key v (arr_facet key v f) SArray
  | Some (SObject f) =>
      if String.eqb key "properties" then
        if negb (Nat.even (List.length (y_content v))) then dlift Err
        else properties a loc (y_content v)
      else own_facet a loc key v (obj_facet key v f) SObject
  | Some (SUnion _ _) | Some (SJSON _) | Some SUnknown | Some (SRec _) => dret tt
  | _ => custom_facet a loc key v
  end.

(** The loop of unmarshalYAMLNodes, e.g. /repo/complex.go:334-340. *)
Fixpoint facets (a : addr) (loc : string) (l : fnodes) : D unit :=
  match l with
  | [] => dret tt
  | (k, v) :: l' => facet a loc k v ;;; facets a loc l'
  end.

(** MakeConcreteShapeYAML, /repo/shape.go:554-606; hooks assumed absent. Unions,
    JSON shapes and unknown shapes read no facet (/repo/complex.go:809, 953,
    1019); an unknown shape keeps them. [loc] is [base.Location], which is only
    assigned when the base is made (617). *)
Definition concrete (a : addr) (loc t : string) (fs : option fnodes) : D unit :=
  hp (upd_base a (set_type t)) ;;;
  sh <- hp (empty_shape t) ;;
  hp (upd_base a (set_shape (Some sh))) ;;;
  match sh with
  | SUnknown => put_facets a fs
  | _ => facets a loc (match fs with Some l => l | None => [] end)
  end.

(** The loop of decodeFacets, /repo/shape.go:807-818; the map was replaced by a
    new one at 806. *)
Fixpoint facet_defs (m : addr) (loc : string) (l : list ynode) : D unit :=
  match l with
  | [] => dret tt
  | [_] => dlift Panic
  | k :: v :: l' =>
      pr <- property loc (y_value k) v ;;
      hp (props_set m (p_name pr) pr) ;;;
      facet_defs m loc l'
  end.

(** decodeExamples, /repo/shape.go:771-802. Examples taken from a NamedExample
    have a nil [Map] (783), represented by an empty list. *)
Definition decode_examples (a : addr) (loc : string) (v : ynode) : D unit :=
  b <- hp (rd get_base a) ;;
  match b_example b with
  | Some _ => dlift Err
  | None =>
      match y_kind v with
      | KScalar =>
          if String.eqb (y_tag v) "!include" then
            inc_ne (e_join (d_y E) loc (y_value v)) ;;;
            hp (upd_base a (set_examples (Some [])))
          else dlift Err
      | KMap =>
          m <- example_map loc (y_content v) [] ;;
          hp (upd_base a (set_examples (Some m)))
      | _ => dlift Err
      end
  end.

(** decodeExample, /repo/shape.go:822-834. *)
Definition decode_example (a : addr) (loc : string) (v : ynode) : D unit :=
  b <- hp (rd get_base a) ;;
  match b_examples b with
  | Some _ => dlift Err
  | None => x <- example loc v ;; hp (upd_base a (set_example (Some x)))
  end.

(** decodeValueNode, /repo/shape.go:836-895, except for [type] and the facets
    kept for later, which {!decode_entries} handles. *)
Definition entry (a : addr) (loc key : string) (v : ynode) : D unit :=
  if String.eqb key "displayName" then
    x <- dlift (or_err (d_text E v)) ;; hp (upd_base a (set_disp x))
  else if String.eqb key "description" then
    x <- dlift (or_err (d_text E v)) ;; hp (upd_base a (set_desc x))
  else if String.eqb key "required" then
    x <- dlift (or_err (d_bool E v)) ;; hp (upd_base a (set_required x))
  else if String.eqb key "facets" then
    m <- hp (alloc (CProps [])) ;;
    hp (upd_base a (set_fdefs m)) ;;;
    facet_defs m loc (y_content v)
  else if String.eqb key "example" then decode_example a loc v
  else if String.eqb key "examples" then decode_examples a loc v
  else if String.eqb key "default" then
    x <- dlift (root_node (d_y E) loc v) ;; hp (upd_base a (set_default (Some x)))
  else if String.eqb key "allowedTargets" then dret tt
  else
    x <- make_ext loc key v ;;
    b <- hp (rd get_base a) ;;
    hp (upd_base a (set_domain (oset (fst x) (snd x) (b_domain b)))).

(** The keys that decodeValueNode knows, /repo/shape.go:840-891; any other is a
    facet. *)
Definition known_key (key : string) : bool :=
  existsb (String.eqb key)
    ["displayName"; "description"; "required"; "facets"; "example"; "examples"; "default"; "allowedTargets"]
  || is_annotation key.

(** The loop of decode, /repo/shape.go:913-925. *)
Fixpoint decode_entries (a : addr) (loc : string) (l : list ynode) (t : option ynode) (fs : fnodes) : D (option ynode * fnodes) :=
  match l with
  | [] => dret (t, fs)
  | [_] => dlift Panic
  | k :: v :: l' =>
      if String.eqb (y_value k) "type" then decode_entries a loc l' (Some v) fs
      else if known_key (y_value k) then
        entry a loc (y_value k) v ;;; decode_entries a loc l' t fs
      else decode_entries a loc l' t (fs ++ [(y_value k, v)])
  end.

(** BaseShape.decode, /repo/shape.go:899-928. *)
Definition decode (a : addr) (loc : string) (v : ynode) : D (option ynode * option fnodes) :=
  match y_kind v with
  | KScalar | KSeq => dret (Some v, None)
  | KMap => r <- decode_entries a loc (y_content v) None [] ;; dret (fst r, Some (snd r))
  | _ => dlift Err
  end.

(** identifyShapeType on a facet list, /repo/shape.go:472-522. *)
Definition identify (fs : option fnodes) : res string :=
  identify_type (map fst (match fs with Some l => l | None => [] end)).

(** The loop over the members of a type list, /repo/shape.go:688-703. *)
Fixpoint parents (name loc : string) (l : list ynode) : D (list addr) :=
  match l with
  | [] => dret []
  | v :: l' =>
      match y_kind v with
      | KScalar =>
          if String.eqb (y_tag v) "!include" then dlift Err
          else
            x <- rec v name loc ;;
            xs <- parents name loc l' ;;
            dret (x :: xs)
      | _ => dlift Err
      end
  end.

(** makeShapeType, /repo/shape.go:633-709, with MakeJSONShape, 538-550: the
    type, or [None] when the (JSON) shape has been made. *)
Definition shape_type (a : addr) (name loc : string) (t : ynode) (fs : option fnodes) : D (option string) :=
  match y_kind t with
  | KScalar =>
      if String.eqb (y_tag t) "!!str" then
        match y_value t with
        | EmptyString => ty <- dlift (identify fs) ;; dret (Some ty)
        | String c _ =>
            if Ascii.eqb c "{"%char then
              hp (upd_base a (set_type "json")) ;;;
              if d_schema E (y_value t) then
                hp (upd_base a (set_shape (Some (SJSON (y_value t))))) ;;; dret None
              else dlift Err
            else dret (Some (y_value t))
        end
      else if String.eqb (y_tag t) "!include" then
        l <- inc_dt (e_join (d_y E) loc (y_value t)) ;;
        hp (upd_base a (set_link (Some l))) ;;;
        dret (Some "")
      else if String.eqb (y_tag t) "!!null" then dret (Some "string")
      else dlift Err
  | KSeq =>
      l <- parents name loc (y_content t) ;;
      sl <- hp (alloc (CSlice l)) ;;
      hp (upd_base a (set_inherits sl)) ;;;
      dret (Some "composite")
  | _ => dlift Err
  end.

(** makeNewShapeYAML, /repo/shape.go:729-769, given what happens below; hooks
    assumed absent. *)
Definition new_shape (v : ynode) (name loc : string) : D addr :=
  a <- hp (make_base name loc) ;;
  tf <- decode a loc v ;;
  ty <- match fst tf with
        | None => ty <- dlift (identify (snd tf)) ;; dret (Some ty)
        | Some t => shape_type a name loc t (snd tf)
        end ;;
  match ty with
  | None => dret a
  | Some ty =>
      concrete a loc ty (snd tf) ;;;
      b <- hp (rd get_base a) ;;
      match b_shape b with
      | Some SUnknown => put_todo a ;;; dret a
      | _ => dret a
      end
  end.
End Shape.

(** The number of nodes in a tree, which bounds the recursion below; it has no
    counterpart in /repo. *)
Fixpoint ysize (v : ynode) : nat :=
  let 'Y _ _ _ c := v in
  S ((fix go (l : list ynode) : nat := match l with [] => 0 | x :: l' => ysize x + go l' end) c).

(** makeNewShapeYAML, /repo/shape.go:729-769: the recursion of /repo goes down
    the tree, [n] bounds its depth. *)
Fixpoint shape_at (inc_dt : string -> D addr) (inc_ne : string -> D unit) (n : nat) (v : ynode) (name loc : string) : D addr :=
  match n with
  | O => dlift OutOfFuel
  | S n' => new_shape inc_dt inc_ne (shape_at inc_dt inc_ne n') v name loc
  end.

(** makeNewShapeYAML with enough fuel for the tree, /repo/shape.go:729-769. *)
Definition shape_yaml (inc_dt : string -> D addr) (inc_ne : string -> D unit) (v : ynode) (name loc : string) : D addr :=
  shape_at inc_dt inc_ne (ysize v) v name loc.

(** MakeConcreteShapeYAML during resolution (/repo/resolve.go:96, 107,
    /repo/rdt_visitor.go:167), with enough fuel for the facets. *)
Definition concrete_yaml (inc_dt : string -> D addr) (inc_ne : string -> D unit) (a : addr) (t : string) (fs : option fnodes) : D unit :=
  b <- hp (rd get_base a) ;;
  concrete (fun v => shape_yaml inc_dt inc_ne v) a (b_loc b) t fs.
End Decode.
