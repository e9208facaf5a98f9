(** What an example may look like (C74). *)
From Coq Require Import ZArith List String Bool.
From Verif Require Import Base Heap Yaml Spec_Yaml Pipeline Decode Spec_Decode.
Import ListNotations.
Open Scope string_scope.
Open Scope list_scope.

(** The key is that of an annotation with the given name. *)
Definition annotates (key name : string) : Prop := key = ("(" ++ name ++ ")")%string.

Section Example_.
Variable E : denv.
Variable loc : string.

(** An entry beside the value of an example. *)
Definition beside_ok (key : string) (n : ynode) : Prop :=
  (key = "strict" -> d_strict E n = true)
  /\ (key = "displayName" \/ key = "description" -> d_string E n = true)
  /\ (forall name, annotates key name -> name <> "" /\ exists d, value_of E loc n d).

(** A mapping with a [value] is an example with properties; any other node is the
    example itself. *)
Definition valued (n x : ynode) : Prop :=
  y_kind n = KMap /\ exists l1 l2, pairs (y_content n) = l1 ++ ("value", x) :: l2 /\ forall k y, In (k, y) l1 -> k <> "value".
Definition unvalued (n : ynode) : Prop := y_kind n = KMap -> forall k y, In (k, y) (pairs (y_content n)) -> k <> "value".

Definition example_ok (n : ynode) : Prop :=
  (forall x, valued n x -> (forall k y, In (k, y) (pairs (y_content n)) -> beside_ok k y) /\ exists d, value_of E loc x d)
  /\ (unvalued n -> exists d, value_of E loc n d).

(** The annotations made for the entries [l], in order: one for each key in
    parentheses, without a definition yet. *)
Inductive annotated : list (string * ynode) -> list ext -> Prop :=
| an_nil : annotated [] []
| an_one key name n x l es : annotates key name -> value_of E loc n x -> annotated l es ->
    annotated ((key, n) :: l) (Ext name loc x None :: es)
| an_other key n l es : (forall name, ~ annotates key name) -> annotated l es -> annotated ((key, n) :: l) es.

(** The annotations of an example. *)
Definition annotations_of (n : ynode) (es : list ext) : Prop :=
  (forall x, valued n x -> annotated (pairs (y_content n)) es) /\ (unvalued n -> es = []).

(** The annotations of the examples of a mapping. *)
Inductive annotations_in : list (string * ynode) -> list ext -> Prop :=
| ai_nil : annotations_in [] []
| ai_cons key n es l es' : annotations_of n es -> annotations_in l es' -> annotations_in ((key, n) :: l) (es ++ es').
End Example_.
