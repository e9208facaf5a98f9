(** Specification of several parents: deriving one type from another must give
    exactly the values of both. *)
From Coq Require Import ZArith List String Bool.
From Verif Require Import Base Scalars Spec_Scalars Heap Spec_Validate Spec_Region Spec_Subtype.
Import ListNotations.
Open Scope string_scope.
Open Scope list_scope.
Open Scope nat_scope.

(** The objects among [ns] allow further properties and have no pattern
    properties. *)
Definition open_objects (h : list cell) (ns : list addr) : Prop :=
  forall x f, In x ns -> shape_at h x (SObject f) -> o_addl f <> Some false /\ o_pprops f = None.

(** The type [t] inherits from the types [ps], one after the other
    (/repo/unwrap.go:355-371 does this with the first parent as [t]). Before
    each step [t] may be derived from the next type, its objects are open, and
    the types still to come are not among the cells of [t]. *)
Inductive joined (pat : string) (fmt : option string) (n : nat) (t : addr) : list addr -> st -> st -> Prop :=
| jn_nil s : joined pat fmt n t [] s s
| jn_cons U ns p ps s s1 s' :
    fits pat fmt U (heap s) [] t p ns -> NoDup ns -> (forall x, In x ns -> ~ U x) -> sealed U (heap s) ->
    open_objects (heap s) ns -> (forall q, In q ps -> U q) ->
    inherit n t p s = (Ok t, s1) -> joined pat fmt n t ps s1 s' ->
    joined pat fmt n t (p :: ps) s s'.
