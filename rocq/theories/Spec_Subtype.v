(** Specification of derivation as subtyping: pairs of types for which every
    value of the derived type must be a value of the parent. *)
From Coq Require Import ZArith List String Bool.
From Verif Require Import Base Scalars Spec_Scalars Heap Spec_Validate Spec_Region.
Import ListNotations.
Open Scope string_scope.
Open Scope list_scope.
Open Scope nat_scope.

(** Scalar types whose facets can be combined: numbers without a bound that is
    not a number, strings with at most the one pattern [pat], datetimes with
    the one format [fmt]. *)
Definition plain (pat : string) (fmt : option string) (sh : shape) : Prop :=
  match sh with
  | SNil | SInt _ | SFile _ | SBool _ | SDateTimeOnly | SDateOnly | STimeOnly => True
  | SNum f => (forall x, nf_min f = Some x -> x <> SpecFloat.S754_nan)
              /\ (forall x, nf_max f = Some x -> x <> SpecFloat.S754_nan)
  | SStr f => forall p, sf_pat f = Some p -> p = pat
  | SDateTime f => f = fmt
  | _ => False
  end.

(** The cells of [D] lead to cells of [D] only, as far as values are concerned. *)
Record sealed (D : addr -> Prop) (h : list cell) : Prop := {
  sl_base : forall a b sh, D a -> get_base h a = Some b -> b_shape b = Some sh -> shape_in D sh;
  sl_props : forall m l, D m -> get_props h m = Some l -> props_in D l;
  sl_slice : forall m l, D m -> get_slice h m = Some l -> Forall D l
}.

(** [fits vis t src ns]: [t] may be derived from [src]. The cells [ns] belong to
    [t] alone; everything else lies in [U]. Where both types say something they
    are plain scalars, arrays, or objects whose parent is open and has no
    pattern properties; below that the types are arbitrary. [vis] are the types
    on the way to [src]. *)
Section Fits.
Variable pat : string.
Variable fmt : option string.
Variable U : addr -> Prop.
Variable h : list cell.

Definition node (t src : addr) (tsh ssh : shape) : Prop :=
  shape_at h t tsh /\ exists sb, get_base h src = Some sb /\ b_shape sb = Some ssh /\ b_visited sb = false.

Inductive fits : list addr -> addr -> addr -> list addr -> Prop :=
| fits_scalar vis t src tsh ssh :
    node t src tsh ssh -> ~ In src vis -> U src -> plain pat fmt tsh -> plain pat fmt ssh ->
    fits vis t src [t]
| fits_array vis t src f g ns :
    node t src (SArray f) (SArray g) -> ~ In src vis -> U src ->
    items_fit (src :: vis) (a_items f) (a_items g) ns ->
    fits vis t src (t :: ns)
| fits_object vis t src f g ns :
    node t src (SObject f) (SObject g) -> ~ In src vis -> U src ->
    o_addl g <> Some false -> o_pprops g = None -> opt_in U (o_pprops f) ->
    props_fit (src :: vis) (o_props f) (o_props g) ns ->
    fits vis t src (t :: ns)
with items_fit : list addr -> option addr -> option addr -> list addr -> Prop :=
| if_new vis j : items_fit vis None j []
| if_own vis i : U i -> items_fit vis (Some i) None []
| if_both vis i j ns : fits vis i j ns -> items_fit vis (Some i) (Some j) ns
with props_fit : list addr -> option addr -> option addr -> list addr -> Prop :=
| pf_new vis o : props_fit vis None o []
| pf_own vis m : U m -> props_fit vis (Some m) None []
| pf_both vis m sm l ks ns :
    get_props h m = Some l -> get_props h sm = Some ks -> U sm -> NoDup (map fst ks) ->
    (forall k p, In (k, p) l -> (exists sp, oget k ks = Some sp) \/ U (p_base p)) ->
    NoDup (map fst l) ->
    entries_fit vis l ks ns -> props_fit vis (Some m) (Some sm) (m :: ns)
with entries_fit : list addr -> omap prop -> omap prop -> list addr -> Prop :=
| ef_nil vis l : entries_fit vis l [] []
| ef_new vis l k sp ks ns : oget k l = None -> entries_fit vis l ks ns -> entries_fit vis l ((k, sp) :: ks) ns
| ef_old vis l k sp tp ks ns1 ns2 : oget k l = Some tp -> fits vis (p_base tp) (p_base sp) ns1 ->
    entries_fit vis l ks ns2 -> entries_fit vis l ((k, sp) :: ks) (ns1 ++ ns2).

End Fits.
