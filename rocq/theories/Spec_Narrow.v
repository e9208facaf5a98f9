(** Specification of structural inheritance: what derivation may do to array and
    object types, to property maps and to the other cells of the graph. *)
From Coq Require Import ZArith List String Bool.
From Verif Require Import Base Scalars Heap Spec_Validate Spec_Model.
Import ListNotations.
Open Scope string_scope.
Open Scope list_scope.
Open Scope nat_scope.

(** A facet that is given stays. *)
Definition kept {A} (o o' : option A) : Prop := forall x, o = Some x -> o' = Some x.

(** What a type says itself is not changed by deriving it. *)
Definition arr_kept (f f' : arr_facets) : Prop :=
  kept (a_items f) (a_items f') /\ kept (a_min f) (a_min f') /\ kept (a_max f) (a_max f')
  /\ kept (a_uniq f) (a_uniq f').
Definition obj_kept (f f' : obj_facets) : Prop :=
  kept (o_disc f) (o_disc f') /\ o_discval f' = o_discval f /\ kept (o_addl f) (o_addl f')
  /\ kept (o_props f) (o_props f') /\ kept (o_pprops f) (o_pprops f')
  /\ kept (o_min f) (o_min f') /\ kept (o_max f) (o_max f').

(** Bounds of the child [o] against those of the parent [p]. *)
Definition not_below (o p : option Z) : Prop := forall m, p = Some m -> exists x, o = Some x /\ (m <= x)%Z.
Definition not_above (o p : option Z) : Prop := forall m, p = Some m -> exists x, o = Some x /\ (x <= m)%Z.

(** An array type with facets [f] against its parent with facets [g]. *)
Definition arr_narrow (f g : arr_facets) : Prop :=
  not_below (a_min f) (a_min g) /\ not_above (a_max f) (a_max g)
  /\ (a_uniq g = Some true -> a_uniq f = Some true)
  /\ (forall i, a_items g = Some i -> exists j, a_items f = Some j).

(** The property map [o] of the child against the properties [k] of the parent:
    every property is there, and a required one is required. *)
Definition props_narrow (h : list cell) (m : addr) (k : omap prop) : Prop :=
  forall nm sp, oget nm k = Some sp ->
  exists l tp, get_props h m = Some l /\ oget nm l = Some tp /\ (p_req sp = true -> p_req tp = true).

(** The same for maps that may be missing. *)
Definition opt_narrow (h : list cell) (o : option addr) (k : option (omap prop)) : Prop :=
  forall l, k = Some l -> exists m, o = Some m /\ props_narrow h m l.

Definition obj_narrow (h : list cell) (f : obj_facets) (g : obj_facets) (props pprops : option (omap prop)) : Prop :=
  not_below (o_min f) (o_min g) /\ not_above (o_max f) (o_max g)
  /\ (forall x, o_addl g = Some x -> exists y, o_addl f = Some y)
  /\ opt_narrow h (o_props f) props /\ opt_narrow h (o_pprops f) pprops.

(** The contents of an optional map. *)
Definition contents (h : list cell) (o : option addr) : option (omap prop) :=
  match o with Some m => get_props h m | None => None end.

(** A shape may be derived further, or be turned into a union. *)
Definition shape_kept (sh sh' : shape) : Prop :=
  match sh, sh' with
  | _, SUnion _ _ => True
  | SArray f, SArray f' => arr_kept f f'
  | SObject f, SObject f' => obj_kept f f'
  | SRec x, SRec x' => x' = x
  | SUnknown, SUnknown => True
  | _, _ => same_kind sh sh'
  end.

(** One cell before and after. Property maps only get new entries at the end. *)
Definition cell_kept (c c' : cell) : Prop :=
  match c, c' with
  | CBase b, CBase b' =>
      b_name b' = b_name b /\ b_loc b' = b_loc b /\ b_inherits b' = b_inherits b /\ b_alias b' = b_alias b
      /\ b_link b' = b_link b /\ b_facets b' = b_facets b /\ b_fdefs b' = b_fdefs b
      /\ b_default b' = b_default b /\ b_required b' = b_required b
      /\ b_example b' = b_example b /\ b_examples b' = b_examples b
      /\ b_unwrapped b' = b_unwrapped b /\ kept (b_desc b) (b_desc b')
      /\ match b_shape b, b_shape b' with
         | Some sh, Some sh' => shape_kept sh sh'
         | None, _ => True
         | Some _, None => False
         end
  | CProps l, CProps l' => exists e, l' = l ++ e
  | CFacets l, CFacets l' => exists e, l' = l ++ e
  | CSlice l, CSlice l' => l' = l
  | CDT d, CDT d' => d' = d
  | _, _ => False
  end.

Definition heap_kept (h h' : list cell) : Prop :=
  forall a c, nth_error h a = Some c -> exists c', nth_error h' a = Some c' /\ cell_kept c c'.

(** The properties of the parent that the child does not declare, in the order
    of the parent. *)
Definition missing (l k : omap prop) : omap prop :=
  filter (fun kp => match oget (fst kp) l with Some _ => false | None => true end) k.
