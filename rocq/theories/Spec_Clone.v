(** What a copy of a part of the type graph is. It mentions the heap and its
    typed reads only. *)
From Coq Require Import ZArith List String Bool.
From Verif Require Import Base Scalars Heap Spec_Validate Spec_Model.
Import ListNotations.
Open Scope list_scope.
Open Scope nat_scope.

(** Both absent, or both present and related. *)
Definition opt_rel {A B} (R : A -> B -> Prop) (o : option A) (o' : option B) : Prop :=
  match o, o' with
  | None, None => True
  | Some x, Some y => R x y
  | _, _ => False
  end.

Section Copy.
Variables h h' : list cell.
(** [phi x y]: the base at [y] of [h'] stands for the base at [x] of [h]. *)
Variable phi : addr -> addr -> Prop.

(** The same key, name and requiredness. *)
Definition prop_copy (x y : string * prop) : Prop :=
  fst x = fst y /\ p_name (snd x) = p_name (snd y) /\ p_req (snd x) = p_req (snd y)
  /\ phi (p_base (snd x)) (p_base (snd y)).

Definition props_copy (m m' : addr) : Prop :=
  exists l l', get_props h m = Some l /\ get_props h' m' = Some l' /\ Forall2 prop_copy l l'.

Definition slice_copy (m m' : addr) : Prop :=
  exists l l', get_slice h m = Some l /\ get_slice h' m' = Some l' /\ Forall2 phi l l'.

Definition link_copy (d d' : addr) : Prop :=
  exists a a', get_dt h d = Some (Some a) /\ get_dt h' d' = Some (Some a') /\ phi a a'.

(** Same kind and facets, corresponding components. *)
Definition shape_copy (sh sh' : shape) : Prop :=
  match sh, sh' with
  | SArray f, SArray f' =>
      opt_rel phi (a_items f) (a_items f')
      /\ a_min f = a_min f' /\ a_max f = a_max f' /\ a_uniq f = a_uniq f'
  | SObject f, SObject f' =>
      o_disc f = o_disc f' /\ o_discval f = o_discval f' /\ o_addl f = o_addl f'
      /\ opt_rel props_copy (o_props f) (o_props f')
      /\ opt_rel props_copy (o_pprops f) (o_pprops f')
      /\ o_min f = o_min f' /\ o_max f = o_max f'
  | SUnion sl e, SUnion sl' e' => e = e' /\ slice_copy sl sl'
  | SArray _, _ | SObject _, _ | SUnion _ _, _ => False
  | _, _ => sh = sh'
  end.

(** Same attributes, corresponding references. *)
Definition base_copy (b b' : base) : Prop :=
  b_id b = b_id b' /\ b_name b = b_name b' /\ b_loc b = b_loc b' /\ b_type b = b_type b'
  /\ b_disp b = b_disp b' /\ b_desc b = b_desc b' /\ b_example b = b_example b'
  /\ b_examples b = b_examples b' /\ b_default b = b_default b' /\ b_required b = b_required b'
  /\ b_domain b = b_domain b' /\ b_unwrapped b = b_unwrapped b' /\ b_visited b = b_visited b'
  /\ (exists m, get_facets h (b_facets b) = Some m /\ get_facets h' (b_facets b') = Some m)
  /\ props_copy (b_fdefs b) (b_fdefs b')
  /\ slice_copy (b_inherits b) (b_inherits b')
  /\ opt_rel phi (b_alias b) (b_alias b')
  /\ opt_rel link_copy (b_link b) (b_link b')
  /\ opt_rel shape_copy (b_shape b) (b_shape b').
End Copy.

(** Everything a base shape refers to directly: bases, maps, slices, links. *)
Inductive points (h : list cell) (a : addr) : addr -> Prop :=
| pt_ref b c : get_base h a = Some b -> ref h b c -> points h a c
| pt_own b c : get_base h a = Some b -> owns b c -> points h a c
| pt_link b c : get_base h a = Some b -> b_link b = Some c -> points h a c.

Inductive reaches (h : list cell) (a : addr) : addr -> Prop :=
| re_refl : reaches h a a
| re_step b c : reaches h a b -> points h b c -> reaches h a c.

(** No shape in the graph is a recursive shape. *)
Definition no_rec (h : list cell) : Prop :=
  forall a hd, ~ shape_at h a (SRec hd).
