(** JSON Schema documents (schema.go): the node type, recasting and Map. No
    proofs here. *)
From Coq Require Import ZArith List String Bool.
From Verif Require Import Base.
Import ListNotations.
Open Scope string_scope.
Open Scope Z_scope.

(** A non-empty json.Number (/repo/schema.go:61-63) by what it reads back as:
    the decimal text of a big.Int (/repo/jsonschemaconv.go:206,209) or of a
    float64 in shortest form (/repo/jsonschemaconv.go:212,229,232,235, 'f' with
    precision -1, which reads back as the same float64). Simplification: the
    text itself is not modelled; the texts "NaN" and "+Inf" are [NumF] of those
    values. *)
Inductive jnum : Type :=
| NumZ (z : Z)
| NumF (f : float64).

(** The fields of JSONSchemaGeneric that are not schemas (/repo/schema.go:32-84).
    An empty string is "absent", a nil [any] is [GNil], a nil pointer or an
    empty json.Number is [None]. [k_enum] distinguishes nil from empty; for
    [k_required] and [k_examples] nothing in /repo does. *)
Record kw := Kw {
  k_version : string;
  k_id : string;
  k_ref : string;
  k_comment : string;
  k_addl : option bool;
  k_type : string;
  k_enum : option (list gval);
  k_const : gval;
  k_mult : option jnum;
  k_max : option jnum;
  k_min : option jnum;
  k_maxlen : option Z;
  k_minlen : option Z;
  k_pattern : string;
  k_maxitems : option Z;
  k_minitems : option Z;
  k_uniq : option bool;
  k_maxcont : option Z;
  k_mincont : option Z;
  k_maxprops : option Z;
  k_minprops : option Z;
  k_required : list string;
  k_enc : string;
  k_media : string;
  k_format : string;
  k_title : string;
  k_desc : string;
  k_default : gval;
  k_examples : list gval
}.

(** The zero value of the above, [JSONSchemaGeneric{}] (/repo/jsonschemaconv.go:483). *)
Definition kw0 : kw :=
  Kw "" "" "" "" None "" None GNil None None None None None "" None None None None None None None []
     "" "" "" "" "" GNil [].

(** A pointer to a schema node as the tree it is the root of; [Null] is nil.
    JSONSchemaRAML (/repo/schema.go:385-390) around JSONSchemaGeneric
    (/repo/schema.go:32-84); a JSONSchema (/repo/schema.go:356-358) is one with
    the three RAML fields nil. Ordered maps are association lists, a nil one is
    [None]; [Definitions] is a Go map, a nil one is empty.
    Simplification: sharing of nodes is not represented (no function modelled
    here writes to a node after it has been linked). *)
Inductive schema : Type :=
| Null
| Sch (k : kw)
      (defs : list (string * schema))
      (allof anyof oneof : list schema)
      (nt ift thn els items : schema)
      (props pprops : option (list (string * schema)))
      (pnames : schema)
      (ann : option (list (string * gval)))
      (fdefs : option (list (string * schema)))
      (fdata : option (list (string * gval))).

(** A schema with the given non-schema fields only. *)
Definition leaf (k : kw) : schema :=
  Sch k [] [] [] [] Null Null Null Null Null None None Null None None None.

(** [len(x) > 0] guards of recast (/repo/jsonschemaconv.go:457,463): an empty
    ordered map becomes nil. *)
Definition drop_empty {A} (o : option (list A)) : option (list A) :=
  match o with Some [] => None | _ => o end.

(** recast, /repo/jsonschemaconv.go:392-480, with the RAML wrapper called
    without a base (/repo/schema.go:479-482). *)
Fixpoint recast (s : schema) : schema :=
  match s with
  | Null => Null
  | Sch k defs al an on nt it th el its ps pps pn _ _ _ =>
      let sub := map (fun kv => (fst kv, recast (snd kv))) in
      Sch k (sub defs) (map recast al) (map recast an) (map recast on)
        (recast nt) (recast it) (recast th) (recast el) (recast its)
        (drop_empty (option_map sub ps)) (drop_empty (option_map sub pps)) (recast pn)
        None None None
  end.

(** * Map *)

(** The values Map puts into its [map[string]any] (/repo/schema.go:169-344): strings, numbers, booleans, data, lists and maps. *)
Inductive jv : Type :=
| JStr (s : string)
| JNum (n : jnum)
| JBool (b : bool)
| JVal (v : gval)
| JList (l : list jv)
| JObj (l : list (string * jv)).

(** [if x != "" { out[k] = x }], /repo/schema.go:175-186. *)
Definition put_str (k x : string) : list (string * jv) :=
  if String.eqb x "" then [] else [(k, JStr x)].
(** [out[k] = js.MultipleOf], /repo/schema.go:198-206. *)
Definition put_num (k : string) (x : option jnum) : list (string * jv) :=
  match x with Some n => [(k, JNum n)] | None => [] end.
(** uint64PtrToNumber, /repo/schema.go:507-512, e.g. 208-210. *)
Definition put_uint (k : string) (x : option Z) : list (string * jv) :=
  put_num k (option_map NumZ x).
(** boolPtr, /repo/schema.go:514-519, e.g. 223-225. *)
Definition put_bool (k : string) (x : option bool) : list (string * jv) :=
  match x with Some b => [(k, JBool b)] | None => [] end.
(** [if js.Const != nil], /repo/schema.go:194-196. *)
Definition put_any (k : string) (x : gval) : list (string * jv) :=
  match x with GNil => [] | v => [(k, JVal v)] end.
(** [if len(x) > 0 { out[k] = arr }], e.g. /repo/schema.go:238-244. *)
Definition put_list {A} (k : string) (f : list A -> jv) (x : list A) : list (string * jv) :=
  match x with [] => [] | _ => [(k, f x)] end.
(** The same for nilable slices and ordered maps, e.g. /repo/schema.go:191-193,
    320-326. *)
Definition put_opt {A} (k : string) (f : list A -> jv) (x : option (list A)) : list (string * jv) :=
  match x with Some l => put_list k f l | None => [] end.
(** [if v != nil { out[k] = v }], e.g. /repo/schema.go:304-307: Map of nil is
    nil, Map of anything else is not. *)
Definition put_sub (k : string) (x : option jv) : list (string * jv) :=
  match x with Some v => [(k, v)] | None => [] end.
(** A nilable map stored as an element: nil maps are typed nil values; rendered
    as [JVal GNil] (e.g. /repo/schema.go:276). *)
Definition elem (x : option jv) : jv := match x with Some v => v | None => JVal GNil end.

(** JSONSchemaGeneric.Map, /repo/schema.go:169-344, then the RAML part,
    /repo/schema.go:445-473; [None] is the nil map. The entries of the Go map
    in the order they are stored. *)
Fixpoint smap (s : schema) : option jv :=
  match s with
  | Null => None
  | Sch k defs al an on nt it th el its ps pps pn ann fd fx =>
      let sub l := JObj (map (fun kv => (fst kv, elem (smap (snd kv)))) l) in
      let arr l := JList (map (fun x => elem (smap x)) l) in
      let vals l := JObj (map (fun kv => (fst kv, JVal (snd kv))) l) in
      Some (JObj (
        put_str "$schema" (k_version k) ++ put_str "$id" (k_id k) ++ put_str "$ref" (k_ref k)
        ++ put_str "$comment" (k_comment k) ++ put_str "type" (k_type k)
        ++ put_opt "enum" (fun l => JList (map JVal l)) (k_enum k)
        ++ put_any "const" (k_const k)
        ++ put_num "multipleOf" (k_mult k) ++ put_num "maximum" (k_max k) ++ put_num "minimum" (k_min k)
        ++ put_uint "maxLength" (k_maxlen k) ++ put_uint "minLength" (k_minlen k)
        ++ put_str "pattern" (k_pattern k)
        ++ put_uint "maxItems" (k_maxitems k) ++ put_uint "minItems" (k_minitems k)
        ++ put_bool "uniqueItems" (k_uniq k)
        ++ put_uint "maxContains" (k_maxcont k) ++ put_uint "minContains" (k_mincont k)
        ++ put_uint "maxProperties" (k_maxprops k) ++ put_uint "minProperties" (k_minprops k)
        ++ put_list "required" (fun l => JList (map JStr l)) (k_required k)
        ++ put_str "contentEncoding" (k_enc k) ++ put_str "contentMediaType" (k_media k)
        ++ put_str "format" (k_format k) ++ put_str "title" (k_title k)
        ++ put_str "description" (k_desc k) ++ put_any "default" (k_default k)
        ++ put_list "examples" (fun l => JList (map JVal l)) (k_examples k)
        ++ put_list "definitions" sub defs
        ++ put_list "allOf" arr al ++ put_list "anyOf" arr an ++ put_list "oneOf" arr on
        ++ put_sub "not" (smap nt) ++ put_sub "if" (smap it) ++ put_sub "then" (smap th)
        ++ put_sub "else" (smap el) ++ put_sub "items" (smap its)
        ++ put_opt "properties" sub ps ++ put_opt "patternProperties" sub pps
        ++ put_bool "additionalProperties" (k_addl k)
        ++ put_sub "propertyNames" (smap pn)
        ++ put_opt "x-annotations" vals ann
        ++ put_opt "x-facet-definitions" sub fd
        ++ put_opt "x-facet-data" vals fx))
  end.
