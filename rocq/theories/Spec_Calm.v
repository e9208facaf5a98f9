(** Documents on which parsing is expected not to panic (C46), in terms of the
    files alone. *)
From Coq Require Import ZArith List String Bool.
From Verif Require Import Base Scalars Heap Names Yaml Spec_Yaml Pipeline Decode Parse.
Import ListNotations.
Open Scope string_scope.
Open Scope list_scope.

(** [x] is a type declaration somewhere in the type declaration [v]: the value of
    [type], a member of a list of parents, the items of an array, a property or
    the definition of a facet. *)
Inductive type_node : ynode -> ynode -> Prop :=
| tn_self : forall v, type_node v v
| tn_parent : forall t s c w x, In w c -> type_node w x -> type_node (Y KSeq t s c) x
| tn_below : forall t s c ps key w x, pairs_of c ps -> In (key, w) ps -> In key ["type"; "items"] ->
    type_node w x -> type_node (Y KMap t s c) x
| tn_member : forall t s c ps key u qs k w x, pairs_of c ps -> In (key, u) ps -> In key ["properties"; "facets"] ->
    pairs_of (y_content u) qs -> In (k, w) qs -> type_node w x -> type_node (Y KMap t s c) x.

Section Roles.
Variable E : denv.
(** What each path is asked for as: a library, a data type or a named example. *)
Variable role : string -> kind.

(** A type declaration in the file [loc]: the list of parents is not empty, the
    type is not named [composite], an included file is a data type, included
    examples are a named example, and [facets] consists of pairs. *)
Record plain (loc : string) (x : ynode) : Prop := {
  pn_list : y_kind x = KSeq -> y_content x <> [];
  pn_name : y_kind x = KScalar -> y_value x <> "composite";
  pn_include : y_kind x = KScalar -> y_tag x = "!include" -> role (e_join (d_y E) loc (y_value x)) = KDataType;
  pn_facets : forall ps u, y_kind x = KMap -> pairs_of (y_content x) ps -> In ("facets", u) ps ->
    Nat.even (List.length (y_content u)) = true;
  pn_examples : forall ps u, y_kind x = KMap -> pairs_of (y_content x) ps -> In ("examples", u) ps ->
    y_kind u = KScalar -> y_tag u = "!include" -> role (e_join (d_y E) loc (y_value u)) = KNamedExample
}.

Definition tidy_type (loc : string) (v : ynode) : Prop := forall x, type_node v x -> plain loc x.

(** The libraries named in the value [u] of [uses]. *)
Definition libraries (loc : string) (u : ynode) : Prop :=
  forall us n w, pairs_of (y_content u) us -> In (n, w) us -> role (e_join (d_y E) loc (y_value w)) = KLibrary.

Definition tidy_library (loc : string) (v : ynode) : Prop :=
  forall ps, pairs_of (y_content v) ps ->
    (forall s u ts k w, In (s, u) ps -> In s ["types"; "annotationTypes"] -> pairs_of (y_content u) ts -> In (k, w) ts ->
       tidy_type loc w)
    /\ (forall u, In ("uses", u) ps -> libraries loc u).

Definition tidy_data_type (loc : string) (v : ynode) : Prop :=
  tidy_type loc v
  /\ forall ps u, pairs_of (y_content v) ps -> In ("uses", u) ps ->
       Nat.even (List.length (y_content u)) = true /\ libraries loc u.

(** The root of the document in a text. *)
Definition root_of (text : string) (v : ynode) : Prop :=
  exists tag value more, e_yaml (d_y E) text = Some (Y KDoc tag value (v :: more)).

Definition null (v : ynode) : Prop := y_kind v = KScalar /\ y_tag v = "!!null".

(** The text of a file, according to what the path is asked for as. *)
Record tidy_text (path text : string) : Prop := {
  tt_library : role path = KLibrary -> forall v, root_of text v -> ~ null v /\ tidy_library path v;
  tt_data_type : role path = KDataType -> has_suffix ".json" path = false ->
    forall v, root_of text v -> ~ null v /\ tidy_data_type path v;
  tt_json : role path = KDataType -> has_suffix ".json" path = true -> text <> "composite"
}.

(** All files. *)
Definition tidy_files : Prop :=
  (forall text d, e_yaml (d_y E) text = Some d -> parsed d)
  /\ forall path text, e_read (d_y E) path = Some text -> tidy_text path text.

(** The document that is parsed. *)
Definition tidy_entry (path text : string) : Prop :=
  tidy_text path text
  /\ forall head r k, read_head (Rd text 0) = (Ok head, r) -> identify_fragment head = Ok k -> role path = k.

(** No data type has [uses]. *)
Definition no_uses_in_types : Prop :=
  forall path text v ps u, e_read (d_y E) path = Some text -> role path = KDataType -> root_of text v ->
    pairs_of (y_content v) ps -> In ("uses", u) ps -> y_content u = [].
End Roles.

(** * After loading *)

(** A value that Go's [==] compares without a panic. *)
Definition comparable (v : gval) : Prop := match v with GArr _ | GMap _ => False | _ => True end.

(** The values listed in [enum] or [fileTypes]. *)
Definition enum_of (sh : shape) : enum :=
  match sh with
  | SInt f => if_enum f
  | SNum f => nf_enum f
  | SStr f => sf_enum f
  | SFile f => ff_types f
  | SBool e => e
  | _ => None
  end.

(** No [enum] or [fileTypes] of a model lists a sequence or a mapping. *)
Definition plain_enums (h : list cell) : Prop :=
  forall a b sh l v, get_base h a = Some b -> b_shape b = Some sh -> enum_of sh = Some l -> In v l -> comparable v.

(** No type of a model is a union. *)
Definition union_free (h : list cell) : Prop :=
  forall a b sl e, get_base h a = Some b -> b_shape b <> Some (SUnion sl e).
