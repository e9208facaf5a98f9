(** What a converted type has to say about itself besides its constraints (C60). *)
From Coq Require Import ZArith List String Bool.
From Verif Require Import Base Heap Schema Convert Spec_Schema.
Import ListNotations.
Open Scope string_scope.
Open Scope list_scope.

(** The RAML fields of a schema. *)
Definition annotations (s : schema) : option (list (string * gval)) :=
  match s with Null => None | Sch _ _ _ _ _ _ _ _ _ _ _ _ _ x _ _ => x end.
Definition facet_definitions (s : schema) : option (list (string * schema)) :=
  match s with Null => None | Sch _ _ _ _ _ _ _ _ _ _ _ _ _ _ x _ => x end.
Definition facet_data (s : schema) : option (list (string * gval)) :=
  match s with Null => None | Sch _ _ _ _ _ _ _ _ _ _ _ _ _ _ _ x => x end.

(** An ordered map is left out when it is empty. *)
Definition listed {A B} (R : string * A -> string * B -> Prop) (l : list (string * A)) (o : option (list (string * B))) : Prop :=
  Forall2 R l (entries o) /\ (l = [] -> o = None).

(** What is written beside the constraints of a type appears in the schema. *)
Record described (E : cenv) (b : base) (s : schema) : Prop := {
  ds_title : forall x, b_disp b = Some x -> x <> "" -> k_title (keywords s) = x;
  ds_desc : forall x, b_desc b = Some x -> x <> "" -> k_desc (keywords s) = x;
  ds_default : forall v, b_default b = Some v -> v <> GNil -> k_default (keywords s) = v;
  ds_example : forall v, b_example b = Some v -> k_examples (keywords s) = [v];
  ds_examples : forall l, b_example b = None -> b_examples b = Some l -> l <> [] -> k_examples (keywords s) = map snd l;
  ds_annotations : listed (fun k x => fst k = fst x /\ snd x = c_dom E (snd k)) (b_domain b) (annotations s);
  ds_facets : exists l, get_facets (c_heap E) (b_facets b) = Some l /\ listed eq l (facet_data s);
  ds_defs : exists l, get_props (c_heap E) (b_fdefs b) = Some l
    /\ listed (fun k x => fst k = fst x /\ exists n d d', visit n E (p_base (snd k)) d = Ok (snd x, d')) l (facet_definitions s)
}.

(** What is not written does not appear. *)
Definition nothing_added (b : base) (s : schema) : Prop :=
  (b_disp b = None -> k_title (keywords s) = "")
  /\ (b_desc b = None -> k_desc (keywords s) = "")
  /\ (b_default b = None -> k_default (keywords s) = GNil)
  /\ (b_example b = None -> b_examples b = None -> k_examples (keywords s) = []).
