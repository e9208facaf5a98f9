(** Specification of JSON Schema documents, independent of the converter: which
    schemas occur in a document, when a JSON value satisfies a schema (the
    keywords of draft-07 the converter emits), and what Map has to produce. *)
From Coq Require Import ZArith List String Ascii Bool.
From Coq Require Import Floats.SpecFloat.
From Verif Require Import Base Scalars Spec_Scalars Heap Spec_Validate Schema.
Import ListNotations.
Open Scope string_scope.
Open Scope Z_scope.

(** * Structure *)

Definition entries {A} (o : option (list A)) : list A := match o with Some l => l | None => [] end.

Definition keywords (s : schema) : kw := match s with Null => kw0 | Sch k _ _ _ _ _ _ _ _ _ _ _ _ _ _ _ => k end.
Definition definitions (s : schema) : list (string * schema) :=
  match s with Null => [] | Sch _ d _ _ _ _ _ _ _ _ _ _ _ _ _ _ => d end.
Definition properties (s : schema) : option (list (string * schema)) :=
  match s with Null => None | Sch _ _ _ _ _ _ _ _ _ _ ps _ _ _ _ _ => ps end.
Definition pattern_properties (s : schema) : option (list (string * schema)) :=
  match s with Null => None | Sch _ _ _ _ _ _ _ _ _ _ _ pps _ _ _ _ => pps end.

(** The schemas directly below a schema. *)
Definition below_schema (s : schema) : list schema :=
  match s with
  | Null => []
  | Sch _ d al an on nt it th el its ps pps pn _ fd _ =>
      map snd d ++ al ++ an ++ on ++ [nt; it; th; el; its; pn]
      ++ map snd (entries ps) ++ map snd (entries pps) ++ map snd (entries fd)
  end.

(** The schemas in a document. *)
Inductive inside : schema -> schema -> Prop :=
| in_refl s : inside s s
| in_below s t u : In t (below_schema s) -> inside t u -> inside s u.

(** A non-empty [$ref] somewhere in a document. *)
Definition refers (s : schema) (r : string) : Prop :=
  r <> "" /\ exists t, inside s t /\ k_ref (keywords t) = r.

(** [#/definitions/N] leads to a schema of the document. *)
Definition resolves (s : schema) (r : string) : Prop :=
  exists n t, r = "#/definitions/" ++ n /\ In (n, t) (definitions s) /\ t <> Null.

(** * JSON values *)

Definition finite (f : float64) : Prop :=
  match f with S754_zero _ | S754_finite _ _ _ => True | _ => False end.

(** What encoding/json decodes a JSON document to: all numbers are finite
    float64 values, the keys of an object are distinct. *)
Inductive json_value : gval -> Prop :=
| jv_nil : json_value GNil
| jv_bool b : json_value (GBool b)
| jv_num f : finite f -> json_value (GFloat f)
| jv_str s : json_value (GStr s)
| jv_arr l : (forall x, In x l -> json_value x) -> json_value (GArr l)
| jv_map l : NoDup (map fst l) -> (forall k x, In (k, x) l -> json_value x) -> json_value (GMap l).

(** Number of Unicode code points of a UTF-8 string: the bytes that do not
    continue a code point. *)
Fixpoint code_points (s : string) : Z :=
  match s with
  | EmptyString => 0
  | String c s' =>
      let n := nat_of_ascii c in
      (if (Nat.leb 128 n && Nat.ltb n 192)%bool then 0 else 1) + code_points s'
  end.

(** Equality of an enum entry, as written in the schema, and a JSON scalar. *)
Inductive json_equal : gval -> gval -> Prop :=
| je_nil : json_equal GNil GNil
| je_bool b : json_equal (GBool b) (GBool b)
| je_str s : json_equal (GStr s) (GStr s)
| je_float f g : feq f g -> json_equal (GFloat f) (GFloat g)
| je_int z f : float_exact f z -> json_equal (GInt z) (GFloat f)
| je_uint z f : float_exact f z -> json_equal (GUint z) (GFloat f)
| je_uint64 z f : float_exact f z -> json_equal (GUint64 z) (GFloat f).

(** * Satisfaction, one level at a time *)

Inductive has_type : string -> gval -> Prop :=
| ht_object l : has_type "object" (GMap l)
| ht_array l : has_type "array" (GArr l)
| ht_string s : has_type "string" (GStr s)
| ht_number f : has_type "number" (GFloat f)
| ht_integer f z : float_exact f z -> has_type "integer" (GFloat f)
| ht_boolean b : has_type "boolean" (GBool b)
| ht_null : has_type "null" GNil.

(** [b <= f] and [f <= b] for a bound [b]. *)
Definition above_bound (b : jnum) (f : float64) : Prop :=
  match b with NumF m => ~ flt f m | NumZ m => exists z, float_exact f z /\ m <= z end.
Definition below_bound (b : jnum) (f : float64) : Prop :=
  match b with NumF m => ~ flt m f | NumZ m => exists z, float_exact f z /\ z <= m end.
(** [f] is an integer multiple of [b]: only for integers, the rest is never met. *)
Definition multiple_of (b : jnum) (f : float64) : Prop :=
  exists m z k, (match b with NumZ x => x = m | NumF g => float_exact g m end)
    /\ float_exact f z /\ z = k * m.

(** The keywords that do not mention other schemas; [F f s]: the string [s]
    has format [f]. A keyword that is not written does not constrain. *)
Definition scalar_keywords (O : oracle) (F : string -> string -> bool) (k : kw) (v : gval) : Prop :=
  (k_type k <> "" -> has_type (k_type k) v)
  /\ (forall l, k_enum k = Some l -> l <> [] -> exists x, In x l /\ json_equal x v)
  /\ (k_const k <> GNil -> json_equal (k_const k) v)
  /\ (forall f, v = GFloat f ->
        (forall b, k_min k = Some b -> above_bound b f)
        /\ (forall b, k_max k = Some b -> below_bound b f)
        /\ (forall b, k_mult k = Some b -> multiple_of b f))
  /\ (forall s, v = GStr s ->
        at_least (k_minlen k) (code_points s) /\ at_most (k_maxlen k) (code_points s)
        /\ (k_pattern k <> "" -> o_match O (k_pattern k) s = true)
        /\ (k_format k <> "" -> F (k_format k) s = true)).

Section Satisfies.
Variable O : oracle.
Variable F : string -> string -> bool.
Variable D : list (string * schema).

(** [P] says what the schemas below accept. A [$ref] stands alone. Uniqueness
    compares JSON texts. *)
Definition sstep (P : schema -> gval -> Prop) (s : schema) (v : gval) : Prop :=
  match s with
  | Null => False
  | Sch k _ al an on nt it th el its ps pps pn _ _ _ =>
      if negb (String.eqb (k_ref k) "") then
        exists n t, k_ref k = "#/definitions/" ++ n /\ oget n D = Some t /\ P t v
      else
        scalar_keywords O F k v
        /\ (forall t, In t al -> P t v)
        /\ (an <> [] -> exists t, In t an /\ P t v)
        /\ (forall l, v = GArr l ->
              at_least (k_minitems k) (Z.of_nat (List.length l))
              /\ at_most (k_maxitems k) (Z.of_nat (List.length l))
              /\ (k_uniq k = Some true -> encodable O l /\ distinct_json O l)
              /\ (its <> Null -> forall x, In x l -> P its x))
        /\ (forall kvs, v = GMap kvs ->
              at_least (k_minprops k) (Z.of_nat (List.length kvs))
              /\ at_most (k_maxprops k) (Z.of_nat (List.length kvs))
              /\ (forall n, In n (k_required k) -> exists x, In (n, x) kvs)
              /\ (forall n x, In (n, x) kvs ->
                    (forall t, oget n (entries ps) = Some t -> P t x)
                    /\ (forall q t, In (q, t) (entries pps) -> o_match O q n = true -> P t x)
                    /\ (k_addl k = Some false ->
                          oget n (entries ps) <> None
                          \/ exists q t, In (q, t) (entries pps) /\ o_match O q n = true)))
        /\ (* keywords the converter does not emit by itself; a schema with
              them is outside of this specification *)
        on = [] /\ nt = Null /\ it = Null /\ th = Null /\ el = Null /\ pn = Null
  end.

(** The least relation closed under the above; [D] is the [definitions] of the
    document. *)
Definition satisfies (s : schema) (v : gval) : Prop :=
  forall P : schema -> gval -> Prop, (forall t w, sstep P t w -> P t w) -> P s v.
End Satisfies.

(** * The types a conversion enters *)

(** The types conversion visits from a type, other than the heads of recursive
    types: components and the types of custom facets. *)
Inductive visits (h : list cell) : addr -> addr -> Prop :=
| vi_child a sh c : shape_at h a sh -> (forall hd, sh <> SRec hd) -> child h sh c -> visits h a c
| vi_facet a b m k p : get_base h a = Some b -> (forall hd, b_shape b <> Some (SRec hd)) ->
    get_props h (b_fdefs b) = Some m -> In (k, p) m -> visits h a (p_base p).

(** The types in the schema of [a]. *)
Inductive occurs (h : list cell) (a : addr) : addr -> Prop :=
| oc_refl : occurs h a a
| oc_visit x y : occurs h a x -> visits h x y -> occurs h a y
| oc_head x hd : occurs h a x -> shape_at h x (SRec hd) -> occurs h a hd.

(** The same without the types of custom facets. *)
Inductive part_of (h : list cell) (a : addr) : addr -> Prop :=
| po_refl : part_of h a a
| po_child x sh y : part_of h a x -> shape_at h x sh -> child h sh y -> part_of h a y.

(** The names of the required properties, in order. *)
Inductive required_of : omap prop -> list string -> Prop :=
| rq_nil : required_of [] []
| rq_yes k p l r : p_req p = true -> required_of l r -> required_of ((k, p) :: l) (k :: r)
| rq_no k p l r : p_req p = false -> required_of l r -> required_of ((k, p) :: l) r.

(** * Types with the same meaning in both languages *)

(** The facets RAML's own validation reads differently from JSON Schema are
    absent. *)
Definition same_meaning (O : oracle) (F : string -> string -> bool) (h : list cell) (sh : shape) : Prop :=
  match sh with
  | SInt f => if_mult f = None /\ (forall l, if_enum f = Some l -> l <> [] /\ forall x, In x l -> exists z, x = GInt z)
  | SNum f => nf_mult f = None /\ (forall l, nf_enum f = Some l -> l <> [] /\ forall x, In x l -> exists g, x = GFloat g)
  | SStr f => sf_pat f <> Some "" /\ sf_enum f <> Some []
  | SBool e => e <> Some []
  | SDateTime None | SDateTime (Some "rfc3339") => forall s, F "date-time" s = o_time O "2006-01-02T15:04:05Z07:00" s
  | SDateTime (Some "rfc2616") => forall s,
      o_match O "^(Mon|Tue|Wed|Thu|Fri|Sat|Sun), ([0-3][0-9]) (Jan|Feb|Mar|Apr|May|Jun|Jul|Aug|Sep|Oct|Nov|Dec) ([0-9]{4}) ([01][0-9]|2[0-3]):[0-5][0-9]:[0-5][0-9] GMT$" s
      = o_time O "Mon, 02 Jan 2006 15:04:05 GMT" s
  | SDateTimeOnly => forall s,
      o_match O "^[0-9]{4}-(?:0[0-9]|1[0-2])-(?:[0-2][0-9]|3[01])T(?:[01][0-9]|2[0-3]):[0-5][0-9]:[0-5][0-9]$" s
      = o_time O "2006-01-02T15:04:05" s
  | SDateOnly => forall s, F "date" s = o_time O "2006-01-02" s
  | STimeOnly => forall s, F "time" s = o_time O "15:04:05" s
  | SObject f =>
      (o_pprops f <> None -> o_addl f <> Some false)
      /\ forall ps pps, props_of h (o_props f) ps -> props_of h (o_pprops f) pps ->
           NoDup (map fst ps) /\ NoDup (map fst pps)
           /\ (forall k p, In (k, p) pps -> k = "/" ++ p_name p ++ "/")
           /\ (forall n k p, In (k, p) pps -> o_match O (p_name p) n = true ->
                 oget n ps = None
                 /\ forall k' p', In (k', p') pps -> o_match O (p_name p') n = true -> (k', p') = (k, p))
  | SUnion sl _ => forall l, get_slice h sl = Some l -> l <> []
  | SJSON _ | SUnknown => False
  | _ => True
  end.

(** Strings count the same in bytes and code points, numbers are integers that
    fit into 64 bits; only needed where there are such facets or types. *)
Inductive ascii_value : gval -> Prop :=
| av_str s : code_points s = Z.of_nat (String.length s) -> ascii_value (GStr s)
| av_arr l : (forall x, In x l -> ascii_value x) -> ascii_value (GArr l)
| av_map l : (forall k x, In (k, x) l -> ascii_value x) -> ascii_value (GMap l)
| av_else v : (forall s, v <> GStr s) -> (forall l, v <> GArr l) -> (forall l, v <> GMap l) -> ascii_value v.
Inductive integral_value : gval -> Prop :=
| iv_num f z : float_exact f z -> int_range z -> integral_value (GFloat f)
| iv_arr l : (forall x, In x l -> integral_value x) -> integral_value (GArr l)
| iv_map l : (forall k x, In (k, x) l -> integral_value x) -> integral_value (GMap l)
| iv_else v : (forall f, v <> GFloat f) -> (forall l, v <> GArr l) -> (forall l, v <> GMap l) -> integral_value v.

Definition counts_characters (sh : shape) : Prop :=
  match sh with
  | SStr f => sf_min f <> None \/ sf_max f <> None
  | SFile f => ff_min f <> None \/ ff_max f <> None
  | _ => False
  end.

Definition fits_types (h : list cell) (a : addr) (v : gval) : Prop :=
  ((forall x sh, occurs h a x -> shape_at h x sh -> ~ counts_characters sh) \/ ascii_value v)
  /\ ((forall x f, occurs h a x -> ~ shape_at h x (SInt f)) \/ integral_value v).

(** The types conversion may enter under a name: the entry point and the heads
    of recursive types. *)
Inductive named_type (h : list cell) (a : addr) : addr -> Prop :=
| nt_entry : named_type h a a
| nt_head r hd : occurs h a r -> shape_at h r (SRec hd) -> named_type h a hd.

Definition names_apart (h : list cell) (a : addr) : Prop :=
  forall x y bx b_y, named_type h a x -> named_type h a y ->
    get_base h x = Some bx -> get_base h y = Some b_y -> b_name bx = b_name b_y -> x = y.

(** * Conversion always ends *)

(** What conversion takes for granted about a type of a given kind. *)
Definition convertible (json : string -> schema) (h : list cell) (sh : shape) : Prop :=
  match sh with
  | SFile f => ff_types f = None \/ exists m l, ff_types f = Some (GStr m :: l)
  | SObject f => forall pl k p, props_of h (o_pprops f) pl -> In (k, p) pl -> (2 <= String.length k)%nat
  | SJSON raw => json raw <> Null
  | _ => True
  end.
(** A type with a shape, its two maps, no dangling reference, of a convertible
    kind. *)
Definition enterable (json : string -> schema) (h : list cell) (x : addr) : Prop :=
  exists b sh fd fv, get_base h x = Some b /\ b_shape b = Some sh
    /\ get_props h (b_fdefs b) = Some fd /\ get_facets h (b_facets b) = Some fv
    /\ closed_shape h sh /\ convertible json h sh.
