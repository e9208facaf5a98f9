(** Vocabulary for C82: what of a type may count for the verdict on a value.
    Independent of the functions of the model. *)
From Coq Require Import ZArith List String Bool.
From Verif Require Import Base Scalars Heap.
Import ListNotations.

(** The contents of an optional map of properties; no map is an empty one. *)
Definition listed (h : list cell) (o : option addr) : option (omap prop) :=
  match o with None => Some [] | Some m => get_props h m end.

(** [x] is an immediate part of the type [a]: its items, the type of one of its
    properties or pattern properties, a member, the head of a recursive shape. *)
Inductive part (h : list cell) (a : addr) : addr -> Prop :=
| part_items : forall b f x, get_base h a = Some b -> b_shape b = Some (SArray f) -> a_items f = Some x -> part h a x
| part_prop : forall b f l k q, get_base h a = Some b -> b_shape b = Some (SObject f) -> listed h (o_props f) = Some l -> In (k, q) l -> part h a (p_base q)
| part_pattern : forall b f l k q, get_base h a = Some b -> b_shape b = Some (SObject f) -> listed h (o_pprops f) = Some l -> In (k, q) l -> part h a (p_base q)
| part_member : forall b sl e l x, get_base h a = Some b -> b_shape b = Some (SUnion sl e) -> get_slice h sl = Some l -> In x l -> part h a x
| part_head : forall b x, get_base h a = Some b -> b_shape b = Some (SRec x) -> part h a x.

Inductive parts (h : list cell) (a : addr) : addr -> Prop :=
| parts_self : parts h a a
| parts_step : forall x y, parts h a x -> part h x y -> parts h a y.

(** Two models say the same of the values of the type [a], parts aside. Nothing
    is asked of names, documentation, examples, the default, annotations, custom
    facets, parents, the discriminator, its value, the enum of a union and the text
    of a JSON type. *)
Definition same_shape (h h' : list cell) (sh sh' : shape) : Prop :=
  match sh, sh' with
  | SObject f, SObject f' => o_addl f = o_addl f' /\ o_min f = o_min f' /\ o_max f = o_max f'
      /\ listed h (o_props f) = listed h' (o_props f') /\ listed h (o_pprops f) = listed h' (o_pprops f')
  | SUnion sl _, SUnion sl' _ => get_slice h sl = get_slice h' sl'
  | SJSON _, SJSON _ => True
  | _, _ => sh = sh'
  end.
Definition same_type (h h' : list cell) (a : addr) : Prop :=
  match get_base h a, get_base h' a with
  | Some b, Some b' =>
      match b_shape b, b_shape b' with
      | Some sh, Some sh' => same_shape h h' sh sh'
      | None, None => True
      | _, _ => False
      end
  | None, None => True
  | _, _ => False
  end.

(** A model without documentation, examples, defaults, annotations, custom facets
    and discriminators. *)
Definition bare_shape (sh : shape) : shape :=
  match sh with
  | SObject f => SObject (ObjF None None (o_addl f) (o_props f) (o_pprops f) (o_min f) (o_max f))
  | _ => sh
  end.
Definition bare (c : cell) : cell :=
  match c with
  | CBase b => CBase (Base (b_id b) (b_name b) (b_loc b) (b_type b) None None None None None None [] (b_inherits b) (b_alias b) (b_link b)
                           (b_facets b) (b_fdefs b) (b_unwrapped b) (b_visited b) (option_map bare_shape (b_shape b)))
  | CFacets _ => CFacets []
  | _ => c
  end.

(** Two models with the same kinds and facets of types, and the same maps and lists:
    they may differ in names, documentation, examples, defaults, annotations,
    custom facets, parents. *)
Definition same_shapes (h h' : list cell) : Prop :=
  forall x, option_map b_shape (get_base h x) = option_map b_shape (get_base h' x)
    /\ get_props h x = get_props h' x /\ get_slice h x = get_slice h' x.
