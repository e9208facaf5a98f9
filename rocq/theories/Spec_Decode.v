(** What a type declaration says about the type made from it (C62), in terms of
    the nodes of the declaration. *)
From Coq Require Import ZArith List String Bool Ascii.
From Verif Require Import Base Scalars Heap Rdt Names Spec_Names Yaml Spec_Yaml Spec_Resolve Pipeline Decode Parse.
Import ListNotations.
Open Scope string_scope.
Open Scope list_scope.
Open Scope nat_scope.

(** * Entries of a mapping *)

Fixpoint pairs (l : list ynode) : list (string * ynode) :=
  match l with
  | k :: v :: l' => (y_value k, v) :: pairs l'
  | _ => []
  end.

Definition entries (v : ynode) : list (string * ynode) :=
  match y_kind v with KMap => pairs (y_content v) | _ => [] end.

(** The last entry with a key counts. *)
Fixpoint last_of (k : string) (l : list (string * ynode)) : option ynode :=
  match l with
  | [] => None
  | (k', v) :: l' =>
      match last_of k l' with
      | Some x => Some x
      | None => if String.eqb k k' then Some v else None
      end
  end.

(** A map into which the entries are put one after the other; [R key node name
    x] says what an entry puts. *)
Inductive filled {A} (R : string -> ynode -> string -> A -> Prop) : list (string * ynode) -> omap A -> Prop :=
| fl_nil : filled R [] []
| fl_snoc : forall l m key node name x, filled R l m -> R key node name x -> filled R (l ++ [(key, node)]) (oset name x m).

(** A field that is read from the entry [k]; [field_as] when the decoder itself
    may give nil. *)
Definition field {A} (R : ynode -> A -> Prop) (k : string) (l : list (string * ynode)) (r : option A) : Prop :=
  match last_of k l with
  | None => r = None
  | Some n => exists x, r = Some x /\ R n x
  end.
Definition field_as {A} (dec : ynode -> option (option A)) (k : string) (l : list (string * ynode)) (r : option A) : Prop :=
  match last_of k l with
  | None => r = None
  | Some n => dec n = Some r
  end.

(** * Facets *)

(** The names of the facets of a kind; others are custom facets. *)
Definition facet_names (sh : shape) : list string :=
  match sh with
  | SInt _ | SNum _ => ["minimum"; "maximum"; "multipleOf"; "format"; "enum"]
  | SStr _ => ["minLength"; "maxLength"; "pattern"; "enum"]
  | SFile _ => ["minLength"; "maxLength"; "fileTypes"]
  | SBool _ => ["enum"]
  | SDateTime _ => ["format"]
  | SArray _ => ["minItems"; "maxItems"; "uniqueItems"; "items"]
  | SObject _ => ["additionalProperties"; "discriminator"; "discriminatorValue"; "minProperties"; "maxProperties"; "properties"]
  | _ => []
  end.
Definition custom_of (sh : shape) (fs : list (string * ynode)) : list (string * ynode) :=
  match sh with
  | SUnion _ _ | SJSON _ | SUnknown | SRec _ => []
  | _ => filter (fun kv => negb (existsb (String.eqb (fst kv)) (facet_names sh))) fs
  end.

(** The name of the built-in type of a kind. *)
Definition kind_name (sh : shape) : string :=
  match sh with
  | SAny => "any" | SNil => "nil" | SInt _ => "integer" | SNum _ => "number" | SStr _ => "string" | SFile _ => "file"
  | SBool _ => "boolean" | SDateTime _ => "datetime" | SDateTimeOnly => "datetime-only" | SDateOnly => "date-only"
  | STimeOnly => "time-only" | SArray _ => "array" | SObject _ => "object" | SUnion _ _ => "union" | SJSON _ => "json"
  | SUnknown | SRec _ => ""
  end.

(** All entries of all [properties], without or with a pattern as the name. *)
Definition all_properties (fs : list (string * ynode)) : list (string * ynode) :=
  flat_map (fun kv => if String.eqb (fst kv) "properties" then pairs (y_content (snd kv)) else []) fs.
Definition pattern_key (key : string) : bool := is_pattern_name (fst (chomp_optional key)).
Definition plain_properties (fs : list (string * ynode)) := filter (fun kv => negb (pattern_key (fst kv))) (all_properties fs).
Definition pattern_properties (fs : list (string * ynode)) := filter (fun kv => pattern_key (fst kv)) (all_properties fs).

Section Values.
Variable E : denv.
Variable loc : string.

Definition value_of : ynode -> gval -> Prop := root_denotes (d_y E) loc.
Definition values_of (n : ynode) (l : list gval) : Prop := y_kind n = KSeq /\ Forall2 value_of (y_content n) l.

(** The first entry [value] of a mapping, or else the node itself. *)
Definition example_of (n : ynode) (d : gval) : Prop :=
  match find (fun kv => String.eqb (fst kv) "value") (entries n) with
  | Some (_, x) => value_of x d
  | None => value_of n d
  end.
Definition examples_of (n : ynode) (m : omap gval) : Prop :=
  (y_kind n = KMap /\ filled (fun key x name d => name = key /\ example_of x d) (pairs (y_content n)) m)
  \/ (y_kind n = KScalar /\ y_tag n = "!include" /\ m = []).

Definition whole_number (n : ynode) (z : Z) : Prop := y_tag n = "!!int" /\ d_int E (y_value n) = Some z.
Definition pattern_of (n : ynode) (s : string) : Prop := y_tag n = "!!str" /\ s = y_value n /\ d_re E s = true.

(** A format: one of the names. A list of file types: of strings. *)
Definition int_formats : list string := ["int8"; "int16"; "int32"; "int"; "int64"; "long"].
Definition num_formats : list string := ["float"; "double"].
Definition time_formats : list string := ["rfc3339"; "rfc2616"].
Definition format_in (names : list string) (n : ynode) : option (option string) :=
  if existsb (String.eqb (y_value n)) names then d_text E n else None.
Definition strings_of (n : ynode) (l : list gval) : Prop :=
  values_of n l /\ Forall (fun x => y_tag x = "!!str") (y_content n).

(** Custom facets: a table of the entries. *)
Definition custom_table (l : list (string * ynode)) (m : omap gval) : Prop := forall k,
  match last_of k l with
  | Some n => exists d, oget k m = Some d /\ value_of n d
  | None => oget k m = None
  end.

(** The facets of a kind have the values that are written. *)
Definition facets_read (sh : shape) (fs : list (string * ynode)) : Prop :=
  match sh with
  | SInt f => field whole_number "minimum" fs (if_min f) /\ field whole_number "maximum" fs (if_max f)
      /\ field_as (d_float E) "multipleOf" fs (if_mult f)
      /\ field_as (format_in int_formats) "format" fs (if_format f) /\ field values_of "enum" fs (if_enum f)
  | SNum f => field_as (d_float E) "minimum" fs (nf_min f) /\ field_as (d_float E) "maximum" fs (nf_max f)
      /\ field_as (d_float E) "multipleOf" fs (nf_mult f)
      /\ field_as (format_in num_formats) "format" fs (nf_format f) /\ field values_of "enum" fs (nf_enum f)
  | SStr f => field_as (d_uint E) "minLength" fs (sf_min f) /\ field_as (d_uint E) "maxLength" fs (sf_max f)
      /\ field pattern_of "pattern" fs (sf_pat f) /\ field values_of "enum" fs (sf_enum f)
  | SFile f => field_as (d_uint E) "minLength" fs (ff_min f) /\ field_as (d_uint E) "maxLength" fs (ff_max f)
      /\ field strings_of "fileTypes" fs (ff_types f)
  | SBool e => field values_of "enum" fs e
  | SDateTime f => field_as (format_in time_formats) "format" fs f
  | SArray f => field_as (d_uint E) "minItems" fs (a_min f) /\ field_as (d_uint E) "maxItems" fs (a_max f)
      /\ field_as (d_bool E) "uniqueItems" fs (a_uniq f)
  | SObject f => field_as (d_bool E) "additionalProperties" fs (o_addl f) /\ field_as (d_text E) "discriminator" fs (o_disc f)
      /\ (match last_of "discriminatorValue" fs with
          | None => o_discval f = None
          | Some n => d_any E n = Some (match o_discval f with Some x => x | None => GNil end) /\ o_discval f <> Some GNil
          end)
      /\ field_as (d_uint E) "minProperties" fs (o_min f) /\ field_as (d_uint E) "maxProperties" fs (o_max f)
  | _ => True
  end.

(** Which values a facet of a kind may have: bounds of integers are integers,
    the other numbers, flags and texts can be decoded as such, formats are known,
    enum is a list of data and fileTypes one of strings, patterns are regular
    expressions. A custom facet may be any data. *)
Definition facet_may_be (sh : shape) (key : string) (n : ynode) : Prop :=
  (match sh with
   | SInt _ => (key = "minimum" \/ key = "maximum" -> exists z, whole_number n z)
       /\ (key = "multipleOf" -> d_float E n <> None)
       /\ (key = "format" -> In (y_value n) int_formats /\ d_text E n <> None)
       /\ (key = "enum" -> exists l, values_of n l)
   | SNum _ => (key = "minimum" \/ key = "maximum" \/ key = "multipleOf" -> d_float E n <> None)
       /\ (key = "format" -> In (y_value n) num_formats /\ d_text E n <> None)
       /\ (key = "enum" -> exists l, values_of n l)
   | SStr _ => (key = "minLength" \/ key = "maxLength" -> d_uint E n <> None)
       /\ (key = "pattern" -> y_tag n = "!!str" /\ d_re E (y_value n) = true)
       /\ (key = "enum" -> exists l, values_of n l)
   | SFile _ => (key = "minLength" \/ key = "maxLength" -> d_uint E n <> None)
       /\ (key = "fileTypes" -> exists l, strings_of n l)
   | SBool _ => key = "enum" -> exists l, values_of n l
   | SDateTime _ => key = "format" -> In (y_value n) time_formats /\ d_text E n <> None
   | SArray _ => (key = "minItems" \/ key = "maxItems" -> d_uint E n <> None)
       /\ (key = "uniqueItems" -> d_bool E n <> None)
   | SObject _ => (key = "minProperties" \/ key = "maxProperties" -> d_uint E n <> None)
       /\ (key = "additionalProperties" -> d_bool E n <> None)
       /\ (key = "discriminator" -> d_text E n <> None)
       /\ (key = "discriminatorValue" -> d_any E n <> None)
   | _ => True
   end)
  /\ (~ In key (facet_names sh) -> exists d, value_of n d).
End Values.

(** * Declarations *)

(** The node that says the type; the facets that are left to the kind. *)
Definition type_node (v : ynode) : option ynode :=
  match y_kind v with
  | KMap => last_of "type" (entries v)
  | _ => Some v
  end.
Definition documentation : list string :=
  ["displayName"; "description"; "required"; "facets"; "example"; "examples"; "default"; "allowedTargets"].
Definition own_facets (v : ynode) : list (string * ynode) :=
  filter (fun kv => negb (String.eqb (fst kv) "type" || existsb (String.eqb (fst kv)) documentation || is_annotation (fst kv))) (entries v).

(** The declaration says the kind by itself: there is no type, or it is empty, a
    JSON schema or the name of a built-in type. *)
Definition by_itself (v : ynode) : Prop :=
  match type_node v with
  | None => True
  | Some t => y_kind t = KScalar
      /\ (y_tag t = "!!null"
          \/ (y_tag t = "!!str" /\ (y_value t = "" \/ (exists s, y_value t = String "{" s) \/ builtin (y_value t) = true)))
  end.

(** The text of a type expression. *)
Definition type_text (v : ynode) (t : string) : Prop :=
  exists n, type_node v = Some n /\ y_kind n = KScalar /\ y_tag n = "!!str" /\ y_value n = t.

(** A name of a built-in type inside parentheses or spaces: the facets are not
    read (see C43_parentheses_refuted). *)
Fixpoint just_prim (e : expr) : bool :=
  match e with EType (TAtom (APrim _)) => true | EType (TAtom (AGroup e')) => just_prim e' | _ => false end.
Definition wrapped_name (v : ynode) : Prop :=
  own_facets v <> []
  /\ exists t e, type_text v t /\ builtin t = false /\ read_type t = Some e /\ just_prim e = true.
(** [T[]]: the items are those of the expression. *)
Fixpoint just_array (e : expr) : bool :=
  match e with EType (TArray _) => true | EType (TAtom (AGroup e')) => just_array e' | _ => false end.
Definition array_text (v : ynode) : Prop :=
  exists t e, type_text v t /\ builtin t = false /\ read_type t = Some e /\ just_array e = true.

Section Declared.
Variable E : denv.
Variable p : pst.
(** The type made from a node. *)
Variable R : ynode -> string -> string -> addr -> Prop.

(** An annotation: the object in the list of the RAML object. *)
Definition annotation (loc key : string) (n : ynode) (name : string) (i : Z) : Prop :=
  name = inner key /\ exists j e, i = Z.of_nat j /\ nth_error (p_exts p) j = Some e
    /\ e_name e = inner key /\ e_loc e = loc /\ value_of E loc n (e_value e).

(** Name and requiredness of a facet definition, given the explicit [required]
    of its type. *)
Definition named (key : string) (req : option bool) (name : string) (r : bool) : Prop :=
  match req with
  | Some r' => name = key /\ r = r'
  | None => (exists q, key = (q ++ "?")%string /\ name = q /\ r = false)
            \/ ((~ exists q, key = (q ++ "?")%string) /\ name = key /\ r = true)
  end.
Definition facet_def (loc key : string) (n : ynode) (name : string) (pr : prop) : Prop :=
  p_name pr = name /\ R n key loc (p_base pr)
  /\ exists xb, get_base (heap (p_st p)) (p_base pr) = Some xb /\ named key (b_required xb) name (p_req pr).
Definition plain_property (loc key : string) (n : ynode) (name : string) (pr : prop) : Prop :=
  p_name pr = name /\ R n key loc (p_base pr)
  /\ exists xb, get_base (heap (p_st p)) (p_base pr) = Some xb /\ declares (d_re E) key (b_required xb) (DProp name (p_req pr)).
Definition pattern_property (loc key : string) (n : ynode) (name : string) (pr : prop) : Prop :=
  R n key loc (p_base pr)
  /\ exists xb, get_base (heap (p_st p)) (p_base pr) = Some xb /\ declares (d_re E) key (b_required xb) (DPattern name (p_name pr)).

(** Everything but the kind and its facets. *)
Record documented (kvs : list (string * ynode)) (name loc : string) (b : base) : Prop := {
  dc_name : b_name b = name;
  dc_loc : b_loc b = loc;
  dc_disp : field_as (d_text E) "displayName" kvs (b_disp b);
  dc_desc : field_as (d_text E) "description" kvs (b_desc b);
  dc_required : field_as (d_bool E) "required" kvs (b_required b);
  dc_default : field (value_of E loc) "default" kvs (b_default b);
  dc_example : field (example_of E loc) "example" kvs (b_example b);
  dc_examples : field (examples_of E loc) "examples" kvs (b_examples b);
  dc_either : last_of "example" kvs = None \/ last_of "examples" kvs = None;
  dc_domain : filled (annotation loc)
    (filter (fun kv => is_annotation (fst kv)) kvs) (b_domain b);
  dc_fdefs : exists m, get_props (heap (p_st p)) (b_fdefs b) = Some m
    /\ filled (facet_def loc) (match last_of "facets" kvs with Some n => pairs (y_content n) | None => [] end) m
}.

(** The members of a list of types. A declaration that says the kind by itself
    has no parents, is no alias and includes nothing. *)
Definition parents_read (v : ynode) (name loc : string) (b : base) : Prop :=
  (forall t, type_node v = Some t -> y_kind t = KSeq ->
    exists l, get_slice (heap (p_st p)) (b_inherits b) = Some l /\ Forall2 (fun n y => R n name loc y) (y_content t) l)
  /\ (by_itself v -> b_alias b = None /\ b_link b = None /\ get_slice (heap (p_st p)) (b_inherits b) = Some []).

(** The kind where the declaration says it by itself. *)
Definition kind_read (v : ynode) (b : base) : Prop :=
  match type_node v with
  | None => inferred (map fst (own_facets v)) (b_type b)
  | Some t =>
      match y_kind t with
      | KScalar =>
          (y_tag t = "!!null" -> b_type b = "string")
          /\ (y_tag t = "!!str" ->
              (y_value t = "" -> inferred (map fst (own_facets v)) (b_type b))
              /\ (forall s, y_value t = String "{" s -> b_shape b = Some (SJSON (y_value t)) /\ d_schema E (y_value t) = true)
              /\ (builtin (y_value t) = true -> b_type b = y_value t))
      | _ => True
      end
  end.

(** Properties: no map at all without an entry. *)
Definition property_map (Q : string -> ynode -> string -> prop -> Prop) (l : list (string * ynode)) (o : option addr) : Prop :=
  match o with
  | None => l = []
  | Some a => l <> [] /\ exists m, get_props (heap (p_st p)) a = Some m /\ filled Q l m
  end.

(** The facets [fs] of a type of a known kind. *)
Definition shape_read (fs : list (string * ynode)) (loc : string) (items_too : Prop) (b : base) (sh : shape) : Prop :=
  facets_read E loc sh fs
  /\ (exists m, get_facets (heap (p_st p)) (b_facets b) = Some m
        /\ custom_table E loc (custom_of sh fs) m)
  /\ match sh with
     | SArray f => items_too -> field (fun n i => R n "items" loc i) "items" fs (a_items f)
     | SObject f => property_map (plain_property loc) (plain_properties fs) (o_props f)
                    /\ property_map (pattern_property loc) (pattern_properties fs) (o_pprops f)
     | _ => True
     end.

Definition shaped (v : ynode) (loc : string) (b : base) : Prop :=
  kind_read v b
  /\ exists sh, b_shape b = Some sh /\ sh <> SUnknown /\ b_type b = kind_name sh
     /\ shape_read (own_facets v) loc (~ array_text v) b sh.
End Declared.

(** * Type expressions *)

(** Two lists, element by element. *)
Definition pairwise {A B} (f : A -> B -> Prop) : list A -> list B -> Prop :=
  fix go (l : list A) (m : list B) : Prop :=
    match l, m with
    | [], [] => True
    | x :: l', y :: m' => f x y /\ go l' m'
    | _, _ => False
    end.

Section Leads.
Variable p : pst.
(** The file in which the expression is written. *)
Variable loc : string.

(** The type that a name means there. *)
Definition refers (name : string) (r : addr) : Prop :=
  match oget loc (p_frags p) with
  | Some (FLib l) => exists lib, nth_error (p_libs p) l = Some lib /\ Spec_Names.denotes l_types (p_libs p) lib name r
  | Some (FDT uses _) => exists alias T la lib, name = (alias ++ "." ++ T)%string /\ no_dot T
      /\ oget alias uses = Some (Some la) /\ nth_error (p_libs p) la = Some lib /\ oget T (l_types lib) = Some r
  | _ => False
  end.

Definition of_kind (x : addr) (t : string) : Prop := exists b, get_base (heap (p_st p)) x = Some b /\ b_type b = t.

(** The type at [x] is what the expression says. A name makes an alias where
    the expression is all there is ([plain]) and a parent otherwise; a parent may
    be listed more than once (C62_one_parent_refuted). *)
Fixpoint leads (e : expr) (plain : bool) (x : addr) {struct e} : Prop :=
  match e with
  | EType t => leads_typ t plain x
  | EUnion t1 t2 ts =>
      exists b sl en y1 y2 ys, get_base (heap (p_st p)) x = Some b /\ b_shape b = Some (SUnion sl en)
        /\ get_slice (heap (p_st p)) sl = Some (y1 :: y2 :: ys)
        /\ leads_typ t1 true y1 /\ leads_typ t2 true y2 /\ pairwise (fun t y => leads_typ t true y) ts ys
  end
with leads_typ (t : typ) (plain : bool) (x : addr) {struct t} : Prop :=
  match t with
  | TAtom at_ => leads_atom at_ plain x
  | TArray at_ =>
      exists b f i, get_base (heap (p_st p)) x = Some b /\ b_shape b = Some (SArray f) /\ a_items f = Some i /\ leads_atom at_ true i
  | TOptional at_ =>
      exists b sl en y n, get_base (heap (p_st p)) x = Some b /\ b_shape b = Some (SUnion sl en)
        /\ get_slice (heap (p_st p)) sl = Some [y; n] /\ leads_atom at_ true y /\ of_kind n "nil"
  end
with leads_atom (at_ : atom) (plain : bool) (x : addr) {struct at_} : Prop :=
  match at_ with
  | APrim t => of_kind x (prim_text t)
  | AGroup e => leads e plain x
  | ARef s o =>
      exists r b, refers (ref_name s o) r /\ get_base (heap (p_st p)) x = Some b /\ of_kind r (b_type b)
        /\ if plain then b_alias b = Some r
           else exists l, get_slice (heap (p_st p)) (b_inherits b) = Some l /\ l <> [] /\ forall y, In y l -> y = r
  end.
End Leads.

(** Whether there is nothing but the type. *)
Definition bare_type (v : ynode) : bool := match y_kind v with KMap => false | _ => true end.
(** A text that is a type expression. *)
Definition expression (t : ynode) (e : expr) : Prop :=
  y_kind t = KScalar /\ y_tag t = "!!str" /\ y_value t <> "" /\ (forall s, y_value t <> String "{" s)
  /\ builtin (y_value t) = false /\ read_type (y_value t) = Some e.

(** Where the type leads: the types of the expression, the included type,
    which is written in the file that the path leads to, the parents. The text [composite] is not a type of RAML. *)
Definition routed (E : denv) (p : pst) (v : ynode) (loc : string) (x : addr) (b : base) : Prop :=
  forall t, type_node v = Some t ->
  (forall e, expression t e -> y_value t <> "composite" -> leads p loc e (bare_type v) x)
  /\ (y_kind t = KScalar -> y_tag t = "!include" ->
      exists l y, b_link b = Some l /\ get_dt (heap (p_st p)) l = Some (Some y) /\ of_kind p y (b_type b)
        /\ exists yb, get_base (heap (p_st p)) y = Some yb /\ b_loc yb = e_join (d_y E) loc (y_value t))
  /\ (y_kind t = KSeq ->
      exists y l, get_slice (heap (p_st p)) (b_inherits b) = Some (y :: l) /\ of_kind p y (b_type b)).

(** The type at [x] is as the node [v], named [name] in the file [loc], says;
    [R] holds of the types made from the nodes below. *)
Definition as_written (E : denv) (p : pst) (R : ynode -> string -> string -> addr -> Prop)
    (v : ynode) (name loc : string) (x : addr) : Prop :=
  exists b, get_base (heap (p_st p)) x = Some b
    /\ documented E p R (entries v) name loc b
    /\ parents_read p R v name loc b
    /\ (~ wrapped_name v -> shaped E p R v loc b)
    /\ routed E p v loc x b.

(** So it is all the way down: the nodes below are finitely many. *)
Definition stated (E : denv) (p : pst) (v : ynode) (name loc : string) (x : addr) : Prop :=
  exists R : ynode -> string -> string -> addr -> Prop,
    R v name loc x /\ forall v name loc x, R v name loc x -> as_written E p R v name loc x.

(** * Files *)

(** The entry that counts among [types], or [annotationTypes]. *)
Definition declarations_in (k : string) (doc : ynode) : list (string * ynode) :=
  match last_of k (filter (fun kv => negb (String.eqb (y_tag (snd kv)) "!!null")) (entries doc)) with
  | Some n => pairs (y_content n)
  | None => []
  end.
Definition declares_types (E : denv) (p : pst) (loc k : string) (doc : ynode) (m : omap addr) : Prop :=
  filled (fun key n name x => name = key /\ stated E p n key loc x) (declarations_in k doc) m.

(** The text of a data type: without [usage] and [uses]. *)
Definition type_entries (doc : ynode) : list (string * ynode) :=
  filter (fun kv => negb (String.eqb (fst kv) "usage" || String.eqb (fst kv) "uses")) (entries doc).

(** What the fragment at [path] is, given the text of the file. *)
Definition fragment_says (E : denv) (p : pst) (path text : string) (f : fragment) : Prop :=
  match f with
  | FLib l => exists doc lib, document E text = Ok (Some doc) /\ nth_error (p_libs p) l = Some lib
      /\ declares_types E p path "types" doc (l_types lib)
      /\ declares_types E p path "annotationTypes" doc (l_annots lib)
  | FDT _ o => exists doc v x, o = Some x
      /\ (if has_suffix ".json" path then doc = json_document text else document E text = Ok (Some doc))
      /\ y_kind v = KMap /\ entries v = type_entries doc /\ stated E p v (d_base E path) path x
  | FNE => True
  end.
