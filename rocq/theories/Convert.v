(** Conversion of unwrapped types to JSON Schema (jsonschemaconv.go), with the
    RAML wrapper JSONSchemaWrapper (schema.go:475-505). No proofs here. *)
From Coq Require Import ZArith List String Ascii Bool.
From Verif Require Import Base Scalars Heap Schema.
Import ListNotations.
Open Scope string_scope.
Open Scope Z_scope.

(** What conversion reads besides the graph: the values of annotations
    ([Extension.Value], /repo/schema.go:486) and the decoded schema of a JSON
    type ([JSONShape.Schema], a function of the text, /repo/shape.go:541-549;
    [Null] for nil). *)
Record cenv := {
  c_heap : list cell;
  c_dom : Z -> gval;
  c_json : string -> schema
}.

(** A computation on the converter's [definitions] (/repo/jsonschemaconv.go:43);
    nothing in the converter returns an error except Convert itself. *)
Definition C (A : Type) := omap schema -> res (A * omap schema).
(** Returning a value. *)
Definition cret {A} (x : A) : C A := fun d => Ok (x, d).
(** Sequencing of Go statements. *)
Definition cbind {A B} (m : C A) (f : A -> C B) : C B :=
  fun d => match m d with
           | Ok (x, d') => f x d'
           | Err => Err
           | Panic => Panic
           | OutOfFuel => OutOfFuel
           end.
(** A Go panic, e.g. /repo/jsonschemaconv.go:259. *)
Definition cpanic {A} : C A := fun _ => Panic.
(** Dereference of a pointer into the shape graph. *)
Definition cread {A} (o : option A) : C A :=
  match o with Some x => cret x | None => cpanic end.

Declare Scope c_scope.
Delimit Scope c_scope with C.
Notation "x <- m ;; k" := (cbind m (fun x => k)) (at level 61, m at next level, right associativity) : c_scope.
Local Open Scope c_scope.

(** The entry of a map visited and stored under the same key, e.g.
    /repo/jsonschemaconv.go:138. *)
Fixpoint cmap {A B} (f : A -> C B) (l : list (string * A)) : C (list (string * B)) :=
  match l with
  | [] => cret []
  | (k, x) :: l' => y <- f x ;; ys <- cmap f l' ;; cret ((k, y) :: ys)
  end.
(** The loop over union members, /repo/jsonschemaconv.go:177-179. *)
Fixpoint clist {A B} (f : A -> C B) (l : list A) : C (list B) :=
  match l with
  | [] => cret []
  | x :: l' => y <- f x ;; ys <- clist f l' ;; cret (y :: ys)
  end.

(** [k[1 : len(k)-1]], /repo/jsonschemaconv.go:149; [None] when the bounds are
    out of range. *)
Definition unslash (k : string) : option string :=
  if Z.ltb (blen k) 2 then None else Some (substring 1 (String.length k - 2) k).

(** Assignments to the fields of a fresh schema node; [k] has only the fields
    set by makeSchemaFromBaseShape. *)
(** [schema.Type = ...], e.g. /repo/jsonschemaconv.go:186. *)
Definition with_type (t : string) (k : kw) : kw :=
  Kw (k_version k) (k_id k) (k_ref k) (k_comment k) (k_addl k) t (k_enum k) (k_const k) (k_mult k)
    (k_max k) (k_min k) (k_maxlen k) (k_minlen k) (k_pattern k) (k_maxitems k) (k_minitems k)
    (k_uniq k) (k_maxcont k) (k_mincont k) (k_maxprops k) (k_minprops k) (k_required k) (k_enc k)
    (k_media k) (k_format k) (k_title k) (k_desc k) (k_default k) (k_examples k).
(** [schema.Enum = ...], /repo/jsonschemaconv.go:192-197; a nil enum leaves it nil. *)
Definition with_enum (e : enum) (k : kw) : kw :=
  Kw (k_version k) (k_id k) (k_ref k) (k_comment k) (k_addl k) (k_type k) e (k_const k) (k_mult k)
    (k_max k) (k_min k) (k_maxlen k) (k_minlen k) (k_pattern k) (k_maxitems k) (k_minitems k)
    (k_uniq k) (k_maxcont k) (k_mincont k) (k_maxprops k) (k_minprops k) (k_required k) (k_enc k)
    (k_media k) (k_format k) (k_title k) (k_desc k) (k_default k) (k_examples k).
(** [schema.Minimum], [Maximum], [MultipleOf], /repo/jsonschemaconv.go:205-213. *)
Definition with_range (lo hi mult : option jnum) (k : kw) : kw :=
  Kw (k_version k) (k_id k) (k_ref k) (k_comment k) (k_addl k) (k_type k) (k_enum k) (k_const k) mult
    hi lo (k_maxlen k) (k_minlen k) (k_pattern k) (k_maxitems k) (k_minitems k)
    (k_uniq k) (k_maxcont k) (k_mincont k) (k_maxprops k) (k_minprops k) (k_required k) (k_enc k)
    (k_media k) (k_format k) (k_title k) (k_desc k) (k_default k) (k_examples k).
(** [schema.MinLength], [MaxLength], /repo/jsonschemaconv.go:187-188, 251-252. *)
Definition with_length (lo hi : option Z) (k : kw) : kw :=
  Kw (k_version k) (k_id k) (k_ref k) (k_comment k) (k_addl k) (k_type k) (k_enum k) (k_const k) (k_mult k)
    (k_max k) (k_min k) hi lo (k_pattern k) (k_maxitems k) (k_minitems k)
    (k_uniq k) (k_maxcont k) (k_mincont k) (k_maxprops k) (k_minprops k) (k_required k) (k_enc k)
    (k_media k) (k_format k) (k_title k) (k_desc k) (k_default k) (k_examples k).
(** [schema.Pattern = ...], /repo/jsonschemaconv.go:189-191. *)
Definition with_pattern (p : string) (k : kw) : kw :=
  Kw (k_version k) (k_id k) (k_ref k) (k_comment k) (k_addl k) (k_type k) (k_enum k) (k_const k) (k_mult k)
    (k_max k) (k_min k) (k_maxlen k) (k_minlen k) p (k_maxitems k) (k_minitems k)
    (k_uniq k) (k_maxcont k) (k_mincont k) (k_maxprops k) (k_minprops k) (k_required k) (k_enc k)
    (k_media k) (k_format k) (k_title k) (k_desc k) (k_default k) (k_examples k).
(** [schema.Format = ...], /repo/jsonschemaconv.go:288,296,312,320. *)
Definition with_format (f : string) (k : kw) : kw :=
  Kw (k_version k) (k_id k) (k_ref k) (k_comment k) (k_addl k) (k_type k) (k_enum k) (k_const k) (k_mult k)
    (k_max k) (k_min k) (k_maxlen k) (k_minlen k) (k_pattern k) (k_maxitems k) (k_minitems k)
    (k_uniq k) (k_maxcont k) (k_mincont k) (k_maxprops k) (k_minprops k) (k_required k) (k_enc k)
    (k_media k) f (k_title k) (k_desc k) (k_default k) (k_examples k).
(** [schema.ContentEncoding], [ContentMediaType], /repo/jsonschemaconv.go:253,261. *)
Definition with_content (e m : string) (k : kw) : kw :=
  Kw (k_version k) (k_id k) (k_ref k) (k_comment k) (k_addl k) (k_type k) (k_enum k) (k_const k) (k_mult k)
    (k_max k) (k_min k) (k_maxlen k) (k_minlen k) (k_pattern k) (k_maxitems k) (k_minitems k)
    (k_uniq k) (k_maxcont k) (k_mincont k) (k_maxprops k) (k_minprops k) (k_required k) e
    m (k_format k) (k_title k) (k_desc k) (k_default k) (k_examples k).
(** [schema.MinItems], [MaxItems], [UniqueItems], /repo/jsonschemaconv.go:162-164. *)
Definition with_items (f : arr_facets) (k : kw) : kw :=
  Kw (k_version k) (k_id k) (k_ref k) (k_comment k) (k_addl k) (k_type k) (k_enum k) (k_const k) (k_mult k)
    (k_max k) (k_min k) (k_maxlen k) (k_minlen k) (k_pattern k) (a_max f) (a_min f)
    (a_uniq f) (k_maxcont k) (k_mincont k) (k_maxprops k) (k_minprops k) (k_required k) (k_enc k)
    (k_media k) (k_format k) (k_title k) (k_desc k) (k_default k) (k_examples k).
(** [schema.MinProperties], [MaxProperties], [AdditionalProperties],
    [Required], /repo/jsonschemaconv.go:132-134, 140-142. *)
Definition with_object (f : obj_facets) (req : list string) (k : kw) : kw :=
  Kw (k_version k) (k_id k) (k_ref k) (k_comment k) (o_addl f) (k_type k) (k_enum k) (k_const k) (k_mult k)
    (k_max k) (k_min k) (k_maxlen k) (k_minlen k) (k_pattern k) (k_maxitems k) (k_minitems k)
    (k_uniq k) (k_maxcont k) (k_mincont k) (o_max f) (o_min f) req (k_enc k)
    (k_media k) (k_format k) (k_title k) (k_desc k) (k_default k) (k_examples k).
(** [schema.Ref = ...], /repo/jsonschemaconv.go:355. *)
Definition with_ref (r : string) (k : kw) : kw :=
  Kw (k_version k) (k_id k) r (k_comment k) (k_addl k) (k_type k) (k_enum k) (k_const k) (k_mult k)
    (k_max k) (k_min k) (k_maxlen k) (k_minlen k) (k_pattern k) (k_maxitems k) (k_minitems k)
    (k_uniq k) (k_maxcont k) (k_mincont k) (k_maxprops k) (k_minprops k) (k_required k) (k_enc k)
    (k_media k) (k_format k) (k_title k) (k_desc k) (k_default k) (k_examples k).
(** [core.Title], [Description], [Default], [Examples],
    /repo/jsonschemaconv.go:490-509. *)
Definition meta (b : base) : kw :=
  Kw "" "" "" "" None "" None GNil None None None None None "" None None None None None None None []
     "" "" "" (match b_disp b with Some x => x | None => "" end)
     (match b_desc b with Some x => x | None => "" end)
     (match b_default b with Some v => v | None => GNil end)
     (match b_example b with
      | Some v => [v]
      | None => match b_examples b with Some l => map snd l | None => [] end
      end).
(** The overriding of VisitJSONShape, /repo/jsonschemaconv.go:371-388: [k] of
    the JSON schema, [b] of the RAML base, no version. *)
Definition overridden (k b : kw) : kw :=
  Kw "" (k_id k) (k_ref k) (k_comment k) (k_addl k) (k_type k) (k_enum k) (k_const k) (k_mult k)
    (k_max k) (k_min k) (k_maxlen k) (k_minlen k) (k_pattern k) (k_maxitems k) (k_minitems k)
    (k_uniq k) (k_maxcont k) (k_mincont k) (k_maxprops k) (k_minprops k) (k_required k) (k_enc k)
    (k_media k) (k_format k)
    (if String.eqb (k_title b) "" then k_title k else k_title b)
    (if String.eqb (k_desc b) "" then k_desc k else k_desc b)
    (match k_default b with GNil => k_default k | v => v end)
    (match k_examples b with [] => k_examples k | l => l end).

(** [definitions[n] = s], /repo/jsonschemaconv.go:352-353. *)
Definition define (n : string) (s : schema) : C unit := fun d => Ok (tt, oset n s d).
(** [_, ok := c.definitions[n]], /repo/jsonschemaconv.go:349. *)
Definition defined (n : string) : C bool :=
  fun d => Ok (match oget n d with Some _ => true | None => false end, d).

(** The text of a reference to a definition, /repo/jsonschemaconv.go:75,355. *)
Definition def_ref (n : string) : string := "#/definitions/" ++ n.

(** The patterns of /repo/jsonschemaconv.go:290-292 and 304. *)
Definition pattern_2616 : string :=
  "^(Mon|Tue|Wed|Thu|Fri|Sat|Sun), ([0-3][0-9]) (Jan|Feb|Mar|Apr|May|Jun|Jul|Aug|Sep|Oct|Nov|Dec) ([0-9]{4}) ([01][0-9]|2[0-3]):[0-5][0-9]:[0-5][0-9] GMT$".
(** See above; /repo/jsonschemaconv.go:304. *)
Definition pattern_datetime_only : string :=
  "^[0-9]{4}-(?:0[0-9]|1[0-2])-(?:[0-2][0-9]|3[01])T(?:[01][0-9]|2[0-3]):[0-5][0-9]:[0-5][0-9]$".

(** The RAML fields of a node made by the wrapper: annotations, facet
    definitions, facet data. *)
Definition extras := (option (list (string * gval)) * option (list (string * schema))
                      * option (list (string * gval)))%type.
(** A node with keywords [k], the given children and the wrapper's fields. *)
Definition node_with (k : kw) (anyof : list schema) (items : schema)
    (ps pps : option (list (string * schema))) (x : extras) : schema :=
  Sch k [] [] anyof [] Null Null Null Null items ps pps Null (fst (fst x)) (snd (fst x)) (snd x).

Section Visit.
Variable E : cenv.
Variable rec : addr -> C schema.

(** JSONSchemaWrapper for a base, /repo/schema.go:483-504. *)
Definition wrap_base (b : base) : C extras :=
  fd <- cread (get_props (c_heap E) (b_fdefs b)) ;;
  fs <- cmap (fun p => rec (p_base p)) fd ;;
  fv <- cread (get_facets (c_heap E) (b_facets b)) ;;
  cret (match b_domain b with [] => None | l => Some (map (fun kz => (fst kz, c_dom E (snd kz))) l) end,
        match fs with [] => None | _ => Some fs end,
        match fv with [] => None | _ => Some fv end).

(** A nilable property map visited in order. *)
Definition visit_map (o : option addr) : C (option (list (string * schema))) :=
  match o with
  | None => cret None
  | Some m =>
      l <- cread (get_props (c_heap E) m) ;;
      r <- cmap (fun p => rec (p_base p)) l ;;
      cret (Some r)
  end.

(** The pattern properties, /repo/jsonschemaconv.go:145-152: each key is cut
    before its type is visited; equal cut keys overwrite. *)
Fixpoint visit_patterns (l : omap prop) (acc : omap schema) : C (omap schema) :=
  match l with
  | [] => cret acc
  | (k, p) :: l' =>
      k' <- cread (unslash k) ;;
      y <- rec (p_base p) ;;
      visit_patterns l' (oset k' y acc)
  end.

(** The names of the required properties in order, /repo/jsonschemaconv.go:140-142. *)
Definition required_names (l : omap prop) : list string :=
  map fst (filter (fun kp => p_req (snd kp)) l).

(** VisitObjectShape, /repo/jsonschemaconv.go:127-155. *)
Definition visit_object (b : base) (f : obj_facets) : C schema :=
  x <- wrap_base b ;;
  ps <- visit_map (o_props f) ;;
  req <- match o_props f with
         | None => cret []
         | Some m => l <- cread (get_props (c_heap E) m) ;; cret (required_names l)
         end ;;
  pps <- match o_pprops f with
         | None => cret None
         | Some m => l <- cread (get_props (c_heap E) m) ;; r <- visit_patterns l [] ;; cret (Some r)
         end ;;
  cret (node_with (with_object f req (with_type "object" (meta b))) [] Null ps pps x).

(** VisitArrayShape, /repo/jsonschemaconv.go:157-170. *)
Definition visit_array (b : base) (f : arr_facets) : C schema :=
  x <- wrap_base b ;;
  i <- match a_items f with None => cret Null | Some i => rec i end ;;
  cret (node_with (with_items f (with_type "array" (meta b))) [] i None None x).

(** VisitUnionShape, /repo/jsonschemaconv.go:172-181. *)
Definition visit_union (b : base) (sl : addr) : C schema :=
  x <- wrap_base b ;;
  l <- cread (get_slice (c_heap E) sl) ;;
  ms <- clist rec l ;;
  cret (node_with (meta b) ms Null None None x).

(** The kinds without children: a node with keywords computed from [meta b]. *)
Definition visit_leaf (b : base) (f : kw -> kw) : C schema :=
  x <- wrap_base b ;; cret (node_with (f (meta b)) [] Null None None x).

(** VisitStringShape, /repo/jsonschemaconv.go:183-199. *)
Definition visit_string (b : base) (f : str_facets) : C schema :=
  visit_leaf b (fun k => with_enum (sf_enum f)
    (match sf_pat f with Some p => with_pattern p | None => fun k => k end
       (with_length (sf_min f) (sf_max f) (with_type "string" k)))).
(** VisitIntegerShape, /repo/jsonschemaconv.go:201-222. *)
Definition visit_integer (b : base) (f : int_facets) : C schema :=
  visit_leaf b (fun k => with_enum (if_enum f)
    (with_range (option_map NumZ (if_min f)) (option_map NumZ (if_max f)) (option_map NumF (if_mult f))
       (with_type "integer" k))).
(** VisitNumberShape, /repo/jsonschemaconv.go:224-245. *)
Definition visit_number (b : base) (f : num_facets) : C schema :=
  visit_leaf b (fun k => with_enum (nf_enum f)
    (with_range (option_map NumF (nf_min f)) (option_map NumF (nf_max f)) (option_map NumF (nf_mult f))
       (with_type "number" k))).
(** VisitFileShape, /repo/jsonschemaconv.go:247-264. *)
Definition visit_file (b : base) (f : file_facets) : C schema :=
  x <- wrap_base b ;;
  let mk := fun m => cret (node_with (with_content "base64" m (with_length (ff_min f) (ff_max f)
                                        (with_type "string" (meta b)))) [] Null None None x) in
  match ff_types f with
  | None => mk ""
  | Some (GStr m :: _) => mk m
  | Some _ => cpanic
  end.
(** VisitBooleanShape, /repo/jsonschemaconv.go:266-278. *)
Definition visit_boolean (b : base) (e : enum) : C schema :=
  visit_leaf b (fun k => with_enum e (with_type "boolean" k)).
(** VisitDateTimeShape, /repo/jsonschemaconv.go:280-298. *)
Definition visit_datetime (b : base) (f : option string) : C schema :=
  visit_leaf b (fun k =>
    let k' := with_type "string" k in
    match f with
    | None => with_format "date-time" k'
    | Some x => if String.eqb x "rfc3339" then with_format "date-time" k'
                else if String.eqb x "rfc2616" then with_pattern pattern_2616 k'
                else k'
    end).
(** VisitDateTimeOnlyShape, /repo/jsonschemaconv.go:300-306. *)
Definition visit_datetime_only (b : base) : C schema :=
  visit_leaf b (fun k => with_pattern pattern_datetime_only (with_type "string" k)).
(** VisitDateOnlyShape, /repo/jsonschemaconv.go:308-314. *)
Definition visit_date_only (b : base) : C schema :=
  visit_leaf b (fun k => with_format "date" (with_type "string" k)).
(** VisitTimeOnlyShape, /repo/jsonschemaconv.go:316-322. *)
Definition visit_time_only (b : base) : C schema :=
  visit_leaf b (fun k => with_format "time" (with_type "string" k)).
(** VisitAnyShape, /repo/jsonschemaconv.go:324-326. *)
Definition visit_any (b : base) : C schema := visit_leaf b (fun k => k).
(** VisitNilShape, /repo/jsonschemaconv.go:328-333. *)
Definition visit_nil (b : base) : C schema := visit_leaf b (with_type "null").

(** VisitRecursiveShape, /repo/jsonschemaconv.go:335-358. The head's concrete
    shape is that of the head's base; [head.Base()] of a nil shape panics. *)
Definition visit_recursive (hd : addr) : C schema :=
  hb <- cread (get_base (c_heap E) hd) ;;
  _ <- cread (b_shape hb) ;;
  seen <- defined (b_name hb) ;;
  _ <- (if seen then cret tt else
          _ <- define (b_name hb) Null ;;
          s <- rec hd ;;
          define (b_name hb) s) ;;
  cret (leaf (with_ref (def_ref (b_name hb)) kw0)).

(** VisitJSONShape, /repo/jsonschemaconv.go:360-390; [recasted.Generic()] of nil
    panics. *)
Definition visit_json (b : base) (raw : string) : C schema :=
  x <- wrap_base b ;;
  match recast (c_json E raw) with
  | Null => cpanic
  | Sch k defs al an on nt it th el its ps pps pn _ _ _ =>
      cret (Sch (overridden k (meta b)) defs al an on nt it th el its ps pps pn
              (fst (fst x)) (snd (fst x)) (snd x))
  end.

(** Visit, /repo/jsonschemaconv.go:87-125, of [base.Shape] for a base. *)
Definition visit_body (a : addr) : C schema :=
  b <- cread (get_base (c_heap E) a) ;;
  match b_shape b with
  | Some (SObject f) => visit_object b f
  | Some (SArray f) => visit_array b f
  | Some (SStr f) => visit_string b f
  | Some (SNum f) => visit_number b f
  | Some (SInt f) => visit_integer b f
  | Some (SBool e) => visit_boolean b e
  | Some (SFile f) => visit_file b f
  | Some (SUnion sl _) => visit_union b sl
  | Some SNil => visit_nil b
  | Some SAny => visit_any b
  | Some (SDateTime f) => visit_datetime b f
  | Some SDateTimeOnly => visit_datetime_only b
  | Some SDateOnly => visit_date_only b
  | Some STimeOnly => visit_time_only b
  | Some (SJSON raw) => visit_json b raw
  | Some (SRec hd) => visit_recursive hd
  | Some SUnknown | None => cret Null
  end.
End Visit.

(** Visit with bounded recursion. *)
Fixpoint visit (n : nat) (E : cenv) (a : addr) : C schema :=
  match n with
  | O => fun _ => OutOfFuel
  | S n' => visit_body E (visit n' E) a
  end.

(** JSONSchemaVersion, /repo/schema.go:13. *)
Definition schema_version : string := "http://json-schema.org/draft-07/schema".

(** Convert, /repo/jsonschemaconv.go:61-85. [wrapped]: a wrapper was given;
    without one every node is turned into a T by a type assertion that cannot
    succeed (/repo/jsonschemaconv.go:84, 479, 487, 513: the node is a
    *JSONSchemaGeneric[T], while T is *JSONSchema, line 54), so the first node
    made panics. An UnknownShape or nil shape makes none until line 84. *)
Definition convert (n : nat) (wrapped : bool) (E : cenv) (a : addr) : res schema :=
  match get_base (c_heap E) a with
  | None => Panic
  | Some b =>
      match b_shape b with
      | None => Panic
      | Some _ =>
          if negb (b_unwrapped b) then Err
          else if negb wrapped then Panic
          else
            match (_ <- define (b_name b) Null ;;
                   s <- visit n E a ;;
                   define (b_name b) s) [] with
            | Ok (_, d) =>
                Ok (Sch (Kw schema_version "" (def_ref (b_name b)) "" None "" None GNil None None None
                           None None "" None None None None None None None [] "" "" "" "" "" GNil [])
                     d [] [] [] Null Null Null Null Null None None Null None None None)
            | Err => Err
            | Panic => Panic
            | OutOfFuel => OutOfFuel
            end
      end
  end.
