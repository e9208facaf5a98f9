(** Independent specification of structural validation and of [Check]. It
    mentions the heap and its typed reads, none of the functions of
    [Validate.v]. *)
From Coq Require Import ZArith List String Bool Permutation.
From Coq Require Import Floats.SpecFloat.
From Verif Require Import Base Scalars Spec_Scalars Heap.
Import ListNotations.
Open Scope string_scope.
Open Scope Z_scope.

(** * Values *)

(** Every value in [v], at any depth, is one Go can hold: integers in range
    and maps without duplicate keys. *)
Inductive value_wf : gval -> Prop :=
| vw_leaf v : gval_wf v -> (forall l, v <> GArr l) -> (forall l, v <> GMap l) -> value_wf v
| vw_arr l : (forall x, In x l -> value_wf x) -> value_wf (GArr l)
| vw_map l : NoDup (map fst l) -> (forall k x, In (k, x) l -> value_wf x) -> value_wf (GMap l).

(** Same value up to the enumeration order of maps at every depth. *)
Inductive same_value : gval -> gval -> Prop :=
| sv_refl v : same_value v v
| sv_arr l l' : Forall2 same_value l l' -> same_value (GArr l) (GArr l')
| sv_map l l' l'' :
    Forall2 (fun x y => fst x = fst y /\ same_value (snd x) (snd y)) l l' ->
    Permutation l' l'' -> same_value (GMap l) (GMap l'').

(** json.Marshal sorts map keys: its output does not depend on their order. *)
Definition json_order_free (O : oracle) : Prop :=
  forall v w, same_value v w -> o_json O v = o_json O w.

(** * Graph *)

(** The pairs of a nil-able property map. *)
Definition props_of (h : list cell) (o : option addr) (ps : omap prop) : Prop :=
  (o = None /\ ps = []) \/ exists m, o = Some m /\ get_props h m = Some ps.

(** [shape_at h a sh]: the base at [a] has concrete shape [sh]. *)
Definition shape_at (h : list cell) (a : addr) (sh : shape) : Prop :=
  exists b, get_base h a = Some b /\ b_shape b = Some sh.

(** Direct components of a shape that validation visits. *)
Inductive child (h : list cell) : shape -> addr -> Prop :=
| ch_items f i : a_items f = Some i -> child h (SArray f) i
| ch_prop f ps k p : props_of h (o_props f) ps -> In (k, p) ps -> child h (SObject f) (p_base p)
| ch_pprop f ps k p : props_of h (o_pprops f) ps -> In (k, p) ps -> child h (SObject f) (p_base p)
| ch_member sl e l m : get_slice h sl = Some l -> In m l -> child h (SUnion sl e) m
| ch_head hd : child h (SRec hd) hd.

(** Components visited with the same value: union members and the head of a
    recursive shape. *)
Inductive same_value_child (h : list cell) : shape -> addr -> Prop :=
| sc_member sl e l m : get_slice h sl = Some l -> In m l -> same_value_child h (SUnion sl e) m
| sc_head hd : same_value_child h (SRec hd) hd.

(** A graph without nil or dangling references. *)
Definition closed_shape (h : list cell) (sh : shape) : Prop :=
  (forall c, child h sh c -> exists sh', shape_at h c sh')
  /\ match sh with
     | SObject f => (exists ps, props_of h (o_props f) ps) /\ (exists ps, props_of h (o_pprops f) ps)
     | SUnion sl _ => exists l, get_slice h sl = Some l
     | _ => True
     end.
Definition closed (h : list cell) : Prop :=
  forall a sh, shape_at h a sh -> closed_shape h sh.

(** Recursion is guarded: following only union members and recursive heads one
    cannot go on forever. *)
Definition guarded (h : list cell) : Prop :=
  well_founded (fun c a => exists sh, shape_at h a sh /\ same_value_child h sh c).

(** * Acceptance, one level at a time; [P] says what the components accept *)

Definition distinct_json (O : oracle) (l : list gval) : Prop :=
  forall i j x y, nth_error l i = Some x -> nth_error l j = Some y -> i <> j ->
    exists d e, o_json O x = Some d /\ o_json O y = Some e /\ d <> e.

Definition encodable (O : oracle) (l : list gval) : Prop :=
  forall x, In x l -> exists d, o_json O x = Some d.

Definition array_accepts (O : oracle) (P : addr -> gval -> Prop) (f : arr_facets) (v : gval)
    : Prop :=
  exists l, v = GArr l
    /\ at_least (a_min f) (Z.of_nat (List.length l))
    /\ at_most (a_max f) (Z.of_nat (List.length l))
    /\ (forall i x, a_items f = Some i -> In x l -> P i x)
    /\ (a_uniq f = Some true -> encodable O l /\ distinct_json O l).

Definition object_accepts (O : oracle) (h : list cell) (P : addr -> gval -> Prop)
    (f : obj_facets) (v : gval) : Prop :=
  exists kvs ps pps, v = GMap kvs
    /\ props_of h (o_props f) ps /\ props_of h (o_pprops f) pps
    /\ at_least (o_min f) (Z.of_nat (List.length kvs))
    /\ at_most (o_max f) (Z.of_nat (List.length kvs))
    /\ (forall k p, In (k, p) ps -> p_req p = true -> exists x, In (k, x) kvs)
    /\ (forall k x p, In (k, x) kvs -> oget k ps = Some p -> P (p_base p) x)
    /\ (forall k x, In (k, x) kvs -> oget k ps = None ->
          o_addl f <> Some false
          /\ ((forall k' p, In (k', p) pps -> o_match O (p_name p) k = false)
              \/ exists k' p, In (k', p) pps /\ o_match O (p_name p) k = true
                              /\ P (p_base p) x)).

Definition union_accepts (h : list cell) (P : addr -> gval -> Prop) (sl : addr) (v : gval)
    : Prop :=
  exists l m, get_slice h sl = Some l /\ In m l /\ P m v.

Definition shape_accepts (O : oracle) (h : list cell) (P : addr -> gval -> Prop) (sh : shape)
    (v : gval) : Prop :=
  match sh with
  | SAny => True
  | SNil => v = GNil
  | SInt f => int_accepts O f v
  | SNum f => num_accepts f v
  | SStr f => str_accepts O f v
  | SFile f => file_accepts f v
  | SBool e => bool_accepts e v
  | SDateTime f => datetime_accepts O f v
  | SDateTimeOnly => layout_accepts O "2006-01-02T15:04:05" v
  | SDateOnly => layout_accepts O "2006-01-02" v
  | STimeOnly => layout_accepts O "15:04:05" v
  | SArray f => array_accepts O P f v
  | SObject f => object_accepts O h P f v
  | SUnion sl _ => union_accepts h P sl v
  | SJSON _ => True
  | SUnknown => False
  | SRec hd => P hd v
  end.

(** The meaning of a type: the least relation closed under one level of
    acceptance. *)
Definition step (O : oracle) (h : list cell) (P : addr -> gval -> Prop) (a : addr) (v : gval)
    : Prop :=
  exists sh, shape_at h a sh /\ shape_accepts O h P sh v.

Definition valid (O : oracle) (h : list cell) (a : addr) (v : gval) : Prop :=
  forall P : addr -> gval -> Prop, (forall b w, step O h P b w -> P b w) -> P a v.

(** Distinct JSON documents have distinct hashes. *)
Definition hash_injective (O : oracle) : Prop :=
  forall d e, o_hash O d = o_hash O e -> d = e.

(** * Consistency of facets, for Check *)

(** Scalars as the RAML specification lists them (plus any). *)
Inductive scalar_shape : shape -> Prop :=
| ss_any : scalar_shape SAny
| ss_nil : scalar_shape SNil
| ss_int f : scalar_shape (SInt f)
| ss_num f : scalar_shape (SNum f)
| ss_str f : scalar_shape (SStr f)
| ss_file f : scalar_shape (SFile f)
| ss_bool e : scalar_shape (SBool e)
| ss_datetime f : scalar_shape (SDateTime f)
| ss_datetimeonly : scalar_shape SDateTimeOnly
| ss_dateonly : scalar_shape SDateOnly
| ss_timeonly : scalar_shape STimeOnly.

Definition object_consistent (O : oracle) (h : list cell) (f : obj_facets) : Prop :=
  bounds_ok (o_min f) (o_max f)
  /\ (o_pprops f <> None -> o_addl f <> Some false)
  /\ (forall d, o_disc f = Some d ->
        exists ps p sh, props_of h (o_props f) ps /\ oget d ps = Some p
          /\ shape_at h (p_base p) sh /\ scalar_shape sh
          /\ forall v, o_discval f = Some v -> valid O h (p_base p) v).

Definition consistent (O : oracle) (h : list cell) (sh : shape) : Prop :=
  match sh with
  | SInt f => int_consistent f
  | SNum f => num_consistent f
  | SStr f => str_consistent f
  | SFile f => file_consistent f
  | SBool e => bool_consistent e
  | SArray f => bounds_ok (a_min f) (a_max f)
  | SObject f => object_consistent O h f
  | SUnknown => False
  | _ => True
  end.

(** The shapes below a shape, not looking through recursive shapes. *)
Inductive below_ (h : list cell) : addr -> addr -> Prop :=
| bl_refl a : below_ h a a
| bl_step a sh c d : shape_at h a sh -> (forall hd, sh <> SRec hd) -> child h sh c ->
    below_ h c d -> below_ h a d.

(** * Examples, defaults and custom facets *)

(** Shapes whose examples and facets are part of a type: its components (not
    looking through recursive shapes) and its facet definitions. *)
Inductive part_of (h : list cell) : addr -> addr -> Prop :=
| po_refl a : part_of h a a
| po_child a sh c d : shape_at h a sh -> (forall hd, sh <> SRec hd) -> child h sh c ->
    part_of h c d -> part_of h a d
| po_facet a b m k p d : get_base h a = Some b -> get_props h (b_fdefs b) = Some m ->
    In (k, p) m -> part_of h (p_base p) d -> part_of h a d.

(** The values a base shape gives as example, examples or default. *)
Definition sample (b : base) (v : gval) : Prop :=
  b_example b = Some v
  \/ (exists l k, b_examples b = Some l /\ In (k, v) l)
  \/ b_default b = Some v.

(** First parent, and its transitive closure. *)
Definition parent (h : list cell) (b c : base) : Prop :=
  exists p l, get_slice h (b_inherits b) = Some (p :: l) /\ get_base h p = Some c.

Inductive ancestor (h : list cell) : base -> base -> Prop :=
| anc_one b c : parent h b c -> ancestor h b c
| anc_more b c d : parent h b c -> ancestor h c d -> ancestor h b d.

Definition defines_facet (h : list cell) (b : base) (d : prop) : Prop :=
  exists m k, get_props h (b_fdefs b) = Some m /\ In (k, d) m.

Definition gives_facet (h : list cell) (b : base) (k : string) (v : gval) : Prop :=
  exists m, get_facets h (b_facets b) = Some m /\ oget k m = Some v.

(** Facet definitions are stored under their name (/repo/shape.go:816). *)
Definition facets_keyed (h : list cell) : Prop :=
  forall a b m, get_base h a = Some b -> get_props h (b_fdefs b) = Some m ->
    NoDup (map fst m) /\ forall k d, In (k, d) m -> p_name d = k.
