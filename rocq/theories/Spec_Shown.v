(** The schema of a type, facet by facet (C64): which keyword comes from where.
    Nothing of the converter is used but its environment and [recast], which
    copies the schema of a JSON type and leaves empty maps out. *)
From Coq Require Import ZArith List String Bool.
From Verif Require Import Base Scalars Heap Schema Convert Spec_Validate Spec_Schema Spec_Describe.
Import ListNotations.
Open Scope string_scope.
Open Scope list_scope.

Definition or_empty (o : option string) : string := match o with Some x => x | None => "" end.
Definition or_nil (o : option gval) : gval := match o with Some x => x | None => GNil end.
(** The samples of a type: its example, or else its examples. *)
Definition samples (b : base) : list gval :=
  match b_example b, b_examples b with
  | Some v, _ => [v]
  | None, Some l => map snd l
  | None, None => []
  end.

(** All keywords a RAML type can give rise to; the others are not written. *)
Definition written (b : base) (addl : option bool) (ty : string) (en : enum) (mult hi lo : option jnum)
    (maxl minl : option Z) (pat : string) (maxi mini : option Z) (uniq : option bool) (maxp minp : option Z)
    (req : list string) (enc media fmt : string) : kw :=
  Kw "" "" "" "" addl ty en GNil mult hi lo maxl minl pat maxi mini uniq None None maxp minp req enc media fmt
     (or_empty (b_disp b)) (or_empty (b_desc b)) (or_nil (b_default b)) (samples b).

(** The pattern of RFC 2616 dates and of datetime-only. *)
Definition rfc2616_pattern : string :=
  "^(Mon|Tue|Wed|Thu|Fri|Sat|Sun), ([0-3][0-9]) (Jan|Feb|Mar|Apr|May|Jun|Jul|Aug|Sep|Oct|Nov|Dec) ([0-9]{4}) ([01][0-9]|2[0-3]):[0-5][0-9]:[0-5][0-9] GMT$".
Definition datetime_only_pattern : string :=
  "^[0-9]{4}-(?:0[0-9]|1[0-2])-(?:[0-2][0-9]|3[01])T(?:[01][0-9]|2[0-3]):[0-5][0-9]:[0-5][0-9]$".

(** Keywords of the types without parts. *)
Inductive scalar_words (b : base) : shape -> kw -> Prop :=
| sw_any : scalar_words b SAny (written b None "" None None None None None None "" None None None None None [] "" "" "")
| sw_nil : scalar_words b SNil (written b None "null" None None None None None None "" None None None None None [] "" "" "")
| sw_bool e : scalar_words b (SBool e) (written b None "boolean" e None None None None None "" None None None None None [] "" "" "")
| sw_string f : scalar_words b (SStr f)
    (written b None "string" (sf_enum f) None None None (sf_max f) (sf_min f) (or_empty (sf_pat f)) None None None None None [] "" "" "")
| sw_integer f : scalar_words b (SInt f)
    (written b None "integer" (if_enum f) (option_map NumF (if_mult f)) (option_map NumZ (if_max f)) (option_map NumZ (if_min f))
       None None "" None None None None None [] "" "" "")
| sw_number f : scalar_words b (SNum f)
    (written b None "number" (nf_enum f) (option_map NumF (nf_mult f)) (option_map NumF (nf_max f)) (option_map NumF (nf_min f))
       None None "" None None None None None [] "" "" "")
| sw_file f : ff_types f = None -> scalar_words b (SFile f)
    (written b None "string" None None None None (ff_max f) (ff_min f) "" None None None None None [] "base64" "" "")
| sw_file_type f m l : ff_types f = Some (GStr m :: l) -> scalar_words b (SFile f)
    (written b None "string" None None None None (ff_max f) (ff_min f) "" None None None None None [] "base64" m "")
| sw_datetime f : f = None \/ f = Some "rfc3339" -> scalar_words b (SDateTime f)
    (written b None "string" None None None None None None "" None None None None None [] "" "" "date-time")
| sw_rfc2616 : scalar_words b (SDateTime (Some "rfc2616"))
    (written b None "string" None None None None None None rfc2616_pattern None None None None None [] "" "" "")
| sw_format f : f <> "rfc3339" -> f <> "rfc2616" -> scalar_words b (SDateTime (Some f))
    (written b None "string" None None None None None None "" None None None None None [] "" "" "")
| sw_datetime_only : scalar_words b SDateTimeOnly
    (written b None "string" None None None None None None datetime_only_pattern None None None None None [] "" "" "")
| sw_date_only : scalar_words b SDateOnly
    (written b None "string" None None None None None None "" None None None None None [] "" "" "date")
| sw_time_only : scalar_words b STimeOnly
    (written b None "string" None None None None None None "" None None None None None [] "" "" "time").

(** The text between the first and the last character. *)
Definition between (k q : string) : Prop := exists x y, k = String x (q ++ String y "").

(** Entries stored one after the other, a later one in place of an earlier one
    of the same name. *)
Inductive stored {A} : list (string * A) -> list (string * A) -> Prop :=
| st_nil : stored [] []
| st_new l k v m : stored l m -> ~ In k (map fst m) -> stored (l ++ [(k, v)]) (m ++ [(k, v)])
| st_again l k v m1 w m2 : stored l (m1 ++ (k, w) :: m2) -> stored (l ++ [(k, v)]) (m1 ++ (k, v) :: m2).

(** Annotations and custom facets of a type, as the wrapper writes them. *)
Definition noted (E : cenv) (b : base) (an fd : option (list (string * gval))) : Prop :=
  listed (fun k x => fst k = fst x /\ snd x = c_dom E (snd k)) (b_domain b) an
  /\ exists l, get_facets (c_heap E) (b_facets b) = Some l /\ listed eq l fd.

Section Shown.
Variable E : cenv.
Let h := c_heap E.

(** A nilable map of properties. *)
Definition map_of (o : option addr) (l : option (list (string * prop))) : Prop :=
  match o, l with
  | None, None => True
  | Some m, Some l => get_props h m = Some l
  | _, _ => False
  end.

(** The node made for a type: keywords, members of anyOf, items, properties,
    pattern properties, and the three fields of the wrapper. *)
Definition node (k : kw) (an : list schema) (its : schema) (ps pps : option (list (string * schema)))
    (a : option (list (string * gval))) (d : option (list (string * schema))) (f : option (list (string * gval))) : schema :=
  Sch k [] [] an [] Null Null Null Null its ps pps Null a d f.

(** [shown a s]: [s] is the schema of the type at [a]. *)
Inductive shown : addr -> schema -> Prop :=
| sn_scalar a b sh k xa fl xd xf : get_base h a = Some b -> b_shape b = Some sh -> scalar_words b sh k ->
    noted E b xa xf -> get_props h (b_fdefs b) = Some fl ->
    listed (fun kp ks => fst kp = fst ks /\ shown (p_base (snd kp)) (snd ks)) fl xd ->
    shown a (node k [] Null None None xa xd xf)
| sn_array a b f s xa fl xd xf : get_base h a = Some b -> b_shape b = Some (SArray f) ->
    (a_items f = None -> s = Null) -> (forall i, a_items f = Some i -> shown i s) ->
    noted E b xa xf -> get_props h (b_fdefs b) = Some fl ->
    listed (fun kp ks => fst kp = fst ks /\ shown (p_base (snd kp)) (snd ks)) fl xd ->
    shown a (node (written b None "array" None None None None None None "" (a_max f) (a_min f) (a_uniq f) None None [] "" "" "")
               [] s None None xa xd xf)
| sn_object a b f l ps pl qs pps req xa fl xd xf : get_base h a = Some b -> b_shape b = Some (SObject f) ->
    map_of (o_props f) l -> map_of (o_pprops f) pl ->
    (l = None <-> ps = None) -> (pl = None <-> pps = None) ->
    Forall2 (fun kp ks => fst kp = fst ks /\ shown (p_base (snd kp)) (snd ks)) (entries l) (entries ps) ->
    Forall2 (fun kp ks => between (fst kp) (fst ks) /\ shown (p_base (snd kp)) (snd ks)) (entries pl) qs ->
    stored qs (entries pps) ->
    required_of (entries l) req ->
    noted E b xa xf -> get_props h (b_fdefs b) = Some fl ->
    listed (fun kp ks => fst kp = fst ks /\ shown (p_base (snd kp)) (snd ks)) fl xd ->
    shown a (node (written b (o_addl f) "object" None None None None None None "" None None None (o_max f) (o_min f) req "" "" "")
               [] Null ps pps xa xd xf)
| sn_union a b sl e l ms xa fl xd xf : get_base h a = Some b -> b_shape b = Some (SUnion sl e) ->
    get_slice h sl = Some l -> Forall2 shown l ms ->
    noted E b xa xf -> get_props h (b_fdefs b) = Some fl ->
    listed (fun kp ks => fst kp = fst ks /\ shown (p_base (snd kp)) (snd ks)) fl xd ->
    shown a (node (written b None "" None None None None None None "" None None None None None [] "" "" "") ms Null None None xa xd xf)
| sn_rec a hd hb : shape_at h a (SRec hd) -> get_base h hd = Some hb ->
    shown a (node (Kw "" "" ("#/definitions/" ++ b_name hb) "" None "" None GNil None None None None None "" None None None None None
                     None None [] "" "" "" "" "" GNil []) [] Null None None None None None)
| sn_json a b raw k defs al an on nt it th el its ps pps pn y1 y2 y3 xa fl xd xf :
    get_base h a = Some b -> b_shape b = Some (SJSON raw) ->
    recast (c_json E raw) = Sch k defs al an on nt it th el its ps pps pn y1 y2 y3 ->
    noted E b xa xf -> get_props h (b_fdefs b) = Some fl ->
    listed (fun kp ks => fst kp = fst ks /\ shown (p_base (snd kp)) (snd ks)) fl xd ->
    shown a (Sch
      (Kw "" (k_id k) (k_ref k) (k_comment k) (k_addl k) (k_type k) (k_enum k) (k_const k) (k_mult k)
         (k_max k) (k_min k) (k_maxlen k) (k_minlen k) (k_pattern k) (k_maxitems k) (k_minitems k)
         (k_uniq k) (k_maxcont k) (k_mincont k) (k_maxprops k) (k_minprops k) (k_required k) (k_enc k)
         (k_media k) (k_format k)
         (if String.eqb (or_empty (b_disp b)) "" then k_title k else or_empty (b_disp b))
         (if String.eqb (or_empty (b_desc b)) "" then k_desc k else or_empty (b_desc b))
         (match or_nil (b_default b) with GNil => k_default k | v => v end)
         (match samples b with [] => k_examples k | l => l end))
      defs al an on nt it th el its ps pps pn xa xd xf)
| sn_none a b : get_base h a = Some b -> (b_shape b = Some SUnknown \/ b_shape b = None) -> shown a Null.

(** The document made for the type at [a]: it points to the definition of the
    type's name, which is the schema of the type; every other definition is
    that of a type of its name which a recursive reference leads to. *)
Definition document_for (a : addr) (s : schema) : Prop :=
  exists b d t,
    get_base h a = Some b
    /\ s = Sch (Kw "http://json-schema.org/draft-07/schema" "" ("#/definitions/" ++ b_name b) "" None "" None GNil None None None
                  None None "" None None None None None None None [] "" "" "" "" "" GNil [])
             d [] [] [] Null Null Null Null Null None None Null None None None
    /\ NoDup (map fst d)
    /\ In (b_name b, t) d /\ shown a t
    /\ forall n u, In (n, u) d -> n = b_name b \/
         exists r hd hb, occurs h a r /\ shape_at h r (SRec hd) /\ get_base h hd = Some hb /\ b_name hb = n /\ shown hd u.
End Shown.

(** The first occurrences of the names in a list, in order (C48). *)
Inductive firsts : list string -> list string -> Prop :=
| fi_nil : firsts [] []
| fi_new l k m : firsts l m -> ~ In k m -> firsts (l ++ [k]) (m ++ [k])
| fi_again l k m : firsts l m -> In k m -> firsts (l ++ [k]) m.
