(** Specification vocabulary for the operations that change the type graph:
    what a freshly parsed model looks like, kinds, references. It mentions the
    heap and its typed reads only. *)
From Coq Require Import ZArith List String Bool.
From Verif Require Import Base Scalars Heap Spec_Validate.
Import ListNotations.
Open Scope string_scope.
Open Scope list_scope.
Open Scope nat_scope.

(** Every base shape a base shape refers to: facet definitions, alias, parents,
    link and components (the head of a recursive shape included). *)
Inductive ref (h : list cell) (b : base) : addr -> Prop :=
| rf_fdef m k p : get_props h (b_fdefs b) = Some m -> In (k, p) m -> ref h b (p_base p)
| rf_alias a : b_alias b = Some a -> ref h b a
| rf_parent l a : get_slice h (b_inherits b) = Some l -> In a l -> ref h b a
| rf_link d a : b_link b = Some d -> get_dt h d = Some (Some a) -> ref h b a
| rf_child sh a : b_shape b = Some sh -> child h sh a -> ref h b a.

(** The maps and slices a base shape owns. *)
Inductive owns (b : base) : addr -> Prop :=
| ow_facets : owns b (b_facets b)
| ow_fdefs : owns b (b_fdefs b)
| ow_inherits : owns b (b_inherits b)
| ow_props f m : b_shape b = Some (SObject f) -> o_props f = Some m -> owns b m
| ow_pprops f m : b_shape b = Some (SObject f) -> o_pprops f = Some m -> owns b m
| ow_anyof sl e : b_shape b = Some (SUnion sl e) -> owns b sl.

(** All maps and slices are there and all references lead to base shapes. *)
Definition containers_ok (h : list cell) (b : base) : Prop :=
  (exists m, get_facets h (b_facets b) = Some m)
  /\ (exists m, get_props h (b_fdefs b) = Some m)
  /\ (exists l, get_slice h (b_inherits b) = Some l)
  /\ (forall d, b_link b = Some d -> exists a, get_dt h d = Some (Some a))
  /\ exists sh, b_shape b = Some sh /\ closed_shape h sh.

Definition wf_heap (h : list cell) : Prop :=
  forall a b, get_base h a = Some b ->
    containers_ok h b /\ forall c, ref h b c -> exists b', get_base h c = Some b'.

(** Different base shapes have different IDs. *)
Definition ids_unique (h : list cell) : Prop :=
  forall a b a' b', get_base h a = Some b -> get_base h a' = Some b' -> b_id b = b_id b' -> a = a'.

(** Different base shapes own different maps and slices. *)
Definition unshared (h : list cell) : Prop :=
  forall a b a' b' c, get_base h a = Some b -> get_base h a' = Some b' -> owns b c -> owns b' c -> a = a'.

(** A model as the parser leaves it. *)
Definition fresh_model (h : list cell) : Prop :=
  wf_heap h /\ ids_unique h /\ unshared h
  /\ forall a b, get_base h a = Some b ->
       b_visited b = false /\ b_unwrapped b = false /\ forall hd, b_shape b <> Some (SRec hd).

(** Types of the same kind. *)
Definition same_kind (t s : shape) : Prop :=
  match t, s with
  | SAny, SAny | SNil, SNil | SInt _, SInt _ | SNum _, SNum _ | SStr _, SStr _
  | SFile _, SFile _ | SBool _, SBool _ | SDateTime _, SDateTime _
  | SDateTimeOnly, SDateTimeOnly | SDateOnly, SDateOnly | STimeOnly, STimeOnly
  | SArray _, SArray _ | SObject _, SObject _ | SUnion _ _, SUnion _ _
  | SJSON _, SJSON _ => True
  | _, _ => False
  end.
