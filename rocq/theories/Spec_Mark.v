(** Specification vocabulary for recursion marking. It mentions the heap, its
    typed reads and the components of shapes only. *)
From Coq Require Import ZArith List String Bool Relations.
From Verif Require Import Base Scalars Heap Spec_Validate.
Import ListNotations.
Open Scope string_scope.
Open Scope list_scope.
Open Scope nat_scope.

(** One step from a shape to a part of it: a property, a pattern property, the
    items, a union member or a facet definition. A recursive shape has no
    components. *)
Inductive descends (h : list cell) : addr -> addr -> Prop :=
| ds_child a sh c : shape_at h a sh -> (forall hd, sh <> SRec hd) -> child h sh c -> descends h a c
| ds_fdef a b m k p : get_base h a = Some b -> get_props h (b_fdefs b) = Some m -> In (k, p) m ->
    descends h a (p_base p).

(** Walking down from [a] always comes to an end. *)
Definition finite_descent (h : list cell) (a : addr) : Prop :=
  Acc (fun y x => descends h x y) a.

(** Ordered maps have one entry per key. *)
Definition maps_keyed (h : list cell) : Prop :=
  forall m l, get_props h m = Some l -> NoDup (map fst l).

(** The shapes of facet definitions define no facets themselves, which
    UnwrapShape sees to (/repo/unwrap.go:441). *)
Definition facets_flat (h : list cell) : Prop :=
  forall a b m k p b', get_base h a = Some b -> get_props h (b_fdefs b) = Some m -> In (k, p) m ->
    get_base h (p_base p) = Some b' -> get_props h (b_fdefs b') = Some [].

(** [x] is the shape [a] itself or a recursive shape standing for it. *)
Inductive stands_for (h : list cell) : addr -> addr -> Prop :=
| sf_self a : stands_for h a a
| sf_rec x y a : shape_at h x (SRec y) -> stands_for h y a -> stands_for h x a.

(** Shapes that differ at most in that a component is replaced by a recursive
    shape standing for it. *)
Definition same_entry (h' : list cell) (e e' : string * prop) : Prop :=
  fst e' = fst e /\ p_name (snd e') = p_name (snd e) /\ p_req (snd e') = p_req (snd e)
  /\ stands_for h' (p_base (snd e')) (p_base (snd e)).

Definition same_map (h h' : list cell) (m : addr) : Prop :=
  forall l, get_props h m = Some l ->
    exists l', get_props h' m = Some l' /\ Forall2 (same_entry h') l l'.

Definition same_slice (h h' : list cell) (sl : addr) : Prop :=
  forall l, get_slice h sl = Some l ->
    exists l', get_slice h' sl = Some l' /\ Forall2 (fun x x' => stands_for h' x' x) l l'.

Definition same_shape (h' : list cell) (o o' : option shape) : Prop :=
  o' = o
  \/ exists f i i', o = Some (SArray f) /\ a_items f = Some i
       /\ o' = Some (SArray (ArrF (Some i') (a_min f) (a_max f) (a_uniq f))) /\ stands_for h' i' i.

(** Everything else about a base shape, the flag of the walk apart. *)
Definition same_base (h' : list cell) (b b' : base) : Prop :=
  b' = set_visited (b_visited b') (set_shape (b_shape b') b) /\ same_shape h' (b_shape b) (b_shape b').

(** One step down, where a recursive shape leads to the type it stands for. *)
Definition leads (h : list cell) (a c : addr) : Prop := descends h a c \/ shape_at h a (SRec c).

(** The type at [a] is part of itself. *)
Definition contains_itself (h : list cell) (a : addr) : Prop := clos_trans addr (leads h) a a.

(** No type of a model has the kind any. *)
Definition any_free (h : list cell) : Prop := forall a, ~ shape_at h a SAny.
