(** Specification of Map: the keywords of a schema document, and how each of
    them is rendered. *)
From Coq Require Import ZArith List String Bool.
From Verif Require Import Base Heap Schema Spec_Schema.
Import ListNotations.
Open Scope string_scope.
Open Scope list_scope.

(** The kinds of keywords. *)
Inductive field :=
| FText (x : string)
| FNumber (x : option jnum)
| FCount (x : option Z)
| FFlag (x : option bool)
| FValue (x : gval)
| FValues (x : list gval)
| FTexts (x : list string)
| FSchema (x : schema)
| FSchemas (x : list schema)
| FNamed (x : list (string * schema))
| FData (x : list (string * gval)).

(** The keywords of a schema: JSON Schema draft 07 and the three of RAML. *)
Definition vocabulary (s : schema) : list (string * field) :=
  match s with
  | Null => []
  | Sch k defs al an on nt it th el its ps pps pn ann fd fx =>
      [ ("$schema", FText (k_version k)); ("$id", FText (k_id k)); ("$ref", FText (k_ref k));
        ("$comment", FText (k_comment k)); ("type", FText (k_type k)); ("enum", FValues (entries (k_enum k)));
        ("const", FValue (k_const k)); ("multipleOf", FNumber (k_mult k)); ("maximum", FNumber (k_max k));
        ("minimum", FNumber (k_min k)); ("maxLength", FCount (k_maxlen k)); ("minLength", FCount (k_minlen k));
        ("pattern", FText (k_pattern k)); ("maxItems", FCount (k_maxitems k)); ("minItems", FCount (k_minitems k));
        ("uniqueItems", FFlag (k_uniq k)); ("maxContains", FCount (k_maxcont k)); ("minContains", FCount (k_mincont k));
        ("maxProperties", FCount (k_maxprops k)); ("minProperties", FCount (k_minprops k));
        ("required", FTexts (k_required k)); ("contentEncoding", FText (k_enc k)); ("contentMediaType", FText (k_media k));
        ("format", FText (k_format k)); ("title", FText (k_title k)); ("description", FText (k_desc k));
        ("default", FValue (k_default k)); ("examples", FValues (k_examples k)); ("definitions", FNamed defs);
        ("allOf", FSchemas al); ("anyOf", FSchemas an); ("oneOf", FSchemas on); ("not", FSchema nt); ("if", FSchema it);
        ("then", FSchema th); ("else", FSchema el); ("items", FSchema its); ("properties", FNamed (entries ps));
        ("patternProperties", FNamed (entries pps)); ("additionalProperties", FFlag (k_addl k));
        ("propertyNames", FSchema pn); ("x-annotations", FData (entries ann)); ("x-facet-definitions", FNamed (entries fd));
        ("x-facet-data", FData (entries fx)) ]
  end.

(** [rendered R f j]: the keyword is set and [j] is its value; [R] renders the
    schemas below. *)
Inductive rendered (R : schema -> jv -> Prop) : field -> jv -> Prop :=
| r_text x : x <> "" -> rendered R (FText x) (JStr x)
| r_number x : rendered R (FNumber (Some x)) (JNum x)
| r_count x : rendered R (FCount (Some x)) (JNum (NumZ x))
| r_flag b : rendered R (FFlag (Some b)) (JBool b)
| r_value v : v <> GNil -> rendered R (FValue v) (JVal v)
| r_values l : l <> [] -> rendered R (FValues l) (JList (map JVal l))
| r_texts l : l <> [] -> rendered R (FTexts l) (JList (map JStr l))
| r_schema s j : s <> Null -> R s j -> rendered R (FSchema s) j
| r_schemas l js : l <> [] -> Forall2 R l js -> rendered R (FSchemas l) (JList js)
| r_named l js : l <> [] -> Forall2 (fun ks kj => fst kj = fst ks /\ R (snd ks) (snd kj)) l js -> rendered R (FNamed l) (JObj js)
| r_data l : l <> [] -> rendered R (FData l) (JObj (map (fun kv => (fst kv, JVal (snd kv))) l)).

(** The keyword is not set. *)
Definition unset (f : field) : Prop :=
  match f with
  | FText x => x = ""
  | FNumber x => x = None
  | FCount x => x = None
  | FFlag x => x = None
  | FValue v => v = GNil
  | FValues l => l = []
  | FTexts l => l = []
  | FSchema s => s = Null
  | FSchemas l => l = []
  | FNamed l => l = []
  | FData l => l = []
  end.

(** [document s j]: [j] is the document of [s], a nil schema is null. *)
Inductive document : schema -> jv -> Prop :=
| doc_null : document Null (JVal GNil)
| doc_node s l : s <> Null -> NoDup (map fst l) ->
    (forall name j, In (name, j) l -> exists f, In (name, f) (vocabulary s) /\ rendered document f j) ->
    (forall name f, In (name, f) (vocabulary s) -> unset f \/ In name (map fst l)) ->
    document s (JObj l).

(** A nil slice or map and an empty one are the same in a document. *)
Definition or_nil {A} (o : option (list A)) : option (list A) := match o with Some [] => None | _ => o end.
Definition plain_kw (k : kw) : kw :=
  Kw (k_version k) (k_id k) (k_ref k) (k_comment k) (k_addl k) (k_type k) (or_nil (k_enum k)) (k_const k) (k_mult k)
    (k_max k) (k_min k) (k_maxlen k) (k_minlen k) (k_pattern k) (k_maxitems k) (k_minitems k)
    (k_uniq k) (k_maxcont k) (k_mincont k) (k_maxprops k) (k_minprops k) (k_required k) (k_enc k)
    (k_media k) (k_format k) (k_title k) (k_desc k) (k_default k) (k_examples k).
Fixpoint plain (s : schema) : schema :=
  match s with
  | Null => Null
  | Sch k defs al an on nt it th el its ps pps pn ann fd fx =>
      let named := map (fun kv => (fst kv, plain (snd kv))) in
      Sch (plain_kw k) (named defs) (map plain al) (map plain an) (map plain on)
        (plain nt) (plain it) (plain th) (plain el) (plain its)
        (or_nil (option_map named ps)) (or_nil (option_map named pps)) (plain pn)
        (or_nil ann) (or_nil (option_map named fd)) (or_nil fx)
  end.
