(** JSON Schema documents: copies (C37) and Map (C38). *)
From Coq Require Import ZArith List String Bool Lia.
From Verif Require Import Base Heap Schema Spec_Schema Copy Spec_Copy Copy_proofs Spec_Map Map_proofs.
Import ListNotations.
Open Scope string_scope.
Open Scope list_scope.
Open Scope nat_scope.

(** * C37: DeepCopy is an equal and independent copy *)

(** DeepCopy of a document succeeds, changes no cell, and returns a document
    that stands for the same schema. *)
Theorem C37_equal_copy : forall h p s, stands_for h p s ->
  (exists n, deep n p h <> OutOfFuel)
  /\ forall n, deep n p h <> OutOfFuel -> exists p' t, deep n p h = Ok (p', h ++ t) /\ stands_for (h ++ t) p' s /\ stands_for (h ++ t) p s.
Proof.
  intros h p s S. split; [exact (deep_ends h p s S)|]. intros n N. destruct (deep_any h p s n S N) as (p' & h' & D & (t & ->) & m & T & _).
  exists p', t. split; auto. split; [exists m; exact T|]. destruct S as [k S]. exists k. eapply tree_ext; [|exact S]. now exists t.
Qed.
Print Assumptions C37_equal_copy.

(** Whatever is written to a slice, a map or a node of the copy, the original
    stands for the same schema. Missing: empty slices and maps that are not nil
    are shared (next theorem). *)
Theorem C37_independent_partial : forall h p s n p' h' x c d, stands_for h p s -> deep n p h = Ok (p', h') ->
  made_of h' p' x -> nth_error h' x = Some d -> ~ empty_container d -> stands_for (write h' x c) p s.
Proof. exact deep_independent. Qed.
Print Assumptions C37_independent_partial.

(** ShallowCopy: the same schema, a new node, new maps for annotations, facet
    definitions and facet data; the rest is shared. *)
Theorem C37_shallow : forall h a s, stands_for h (Some a) s ->
  exists a' t N N', shallow (Some a) h = Ok (Some a', h ++ t) /\ stands_for (h ++ t) (Some a') s /\ List.length h <= a'
    /\ nth_error h a = Some (DNode N) /\ nth_error (h ++ t) a' = Some (DNode N')
    /\ subnodes (h ++ t) N' = subnodes h N /\ firstn 9 (containers N') = firstn 9 (containers N)
    /\ (forall x, In (Some x) (skipn 9 (containers N')) -> List.length h <= x).
Proof. exact shallow_ok. Qed.
Print Assumptions C37_shallow.

(** An object schema with one property, [required] and annotations; the property
    has an empty map of properties. *)
Definition dnil : dnode := DN kw0 None None None None None None None None None None None None None None None None None None.
Definition doc37 : list dcell :=
  [DNode (DN kw0 (Some 1) None None None None None None None None None None None (Some 2) None None (Some 4) None None);
   DStrs ["a"];
   DMap [("a", Some 3)];
   DNode (DN kw0 None None None None None None None None None None None None (Some 5) None None None None None);
   DData [("note", GStr "x")];
   DMap []].
Definition inner37 : schema := Sch (with_lists kw0 [] [] None) [] [] [] [] Null Null Null Null Null (Some []) None Null None None None.
Definition outer37 : schema :=
  Sch (with_lists kw0 ["a"] [] None) [] [] [] [] Null Null Null Null Null (Some [("a", inner37)]) None Null (Some [("note", GStr "x")]) None None.
Example C37_case : stands_for doc37 (Some 0) outer37
  /\ exists t, deep 2 (Some 0) doc37 = Ok (Some 10, doc37 ++ t) /\ made_of (doc37 ++ t) (Some 10) 8
  /\ nth_error (doc37 ++ t) 8 = Some (DMap [("a", Some 7)]) /\ ~ empty_container (DMap [("a", Some 7)]).
Proof.
  split; [now exists 2|]. eexists. split; [vm_compute; reflexivity|]. split.
  - eapply mo_part; [vm_compute; reflexivity|]. simpl. tauto.
  - split; [reflexivity|]. unfold empty_container. intros [H|[H|[H|[H|H]]]]; discriminate.
Qed.

(** Adding a property to the copy of a schema whose map of properties is empty
    adds it to the original, too. *)
Theorem C37_empty_refuted : exists h p s n p' h' x c s', stands_for h p s /\ deep n p h = Ok (p', h') /\ made_of h' p' x
  /\ stands_for (write h' x c) p s' /\ s' <> s.
Proof.
  exists doc37, (Some 3), inner37, 1, (Some 6).
  exists (doc37 ++ [DNode (DN kw0 None None None None None None None None None None None None (Some 5) None None None None None)]).
  exists 5, (DMap [("b", None)]).
  exists (Sch (with_lists kw0 [] [] None) [] [] [] [] Null Null Null Null Null (Some [("b", Null)]) None Null None None None).
  split; [now exists 1|]. split; [reflexivity|]. split; [eapply mo_part; [reflexivity|]; simpl; tauto|]. split; [now exists 1|]. discriminate.
Qed.
Print Assumptions C37_empty_refuted.

(** * C38: Map renders every keyword *)

(** Map of a schema is its document: one entry for every keyword that is set,
    no other entries, and the same at all schemas below; Map of nil is nil. *)
Theorem C38_document : smap Null = None /\ forall s, s <> Null -> exists j, smap s = Some j /\ document s j.
Proof.
  split; [reflexivity|]. intros s N. destruct (smap_some s N) as (j & E). exists j. split; auto.
  pose proof (smap_document s) as D. now rewrite E in D.
Qed.
Print Assumptions C38_document.

(** Two schemas have the same Map exactly when they are the same, a nil slice or
    map and an empty one taken as the same. *)
Theorem C38_faithful : forall s t, smap s = smap t <-> plain s = plain t.
Proof. exact smap_same. Qed.
Print Assumptions C38_faithful.

Definition kw38 : kw :=
  Kw "http://json-schema.org/draft-07/schema" "" "" "" (Some false) "object" None GNil None None None None None "" None None None None None (Some 2%Z) None ["a"]
     "" "" "" "T" "" (GStr "d") [].
Example C38_case :
  smap (Sch kw38 [] [] [] [] Null Null Null Null (leaf kw0) (Some [("a", leaf kw0); ("b", Null)]) (Some []) Null None None (Some [("f", GStr "x")]))
  = Some (JObj [("$schema", JStr "http://json-schema.org/draft-07/schema"); ("type", JStr "object"); ("maxProperties", JNum (NumZ 2));
                ("required", JList [JStr "a"]); ("title", JStr "T"); ("default", JVal (GStr "d")); ("items", JObj []);
                ("properties", JObj [("a", JObj []); ("b", JVal GNil)]); ("additionalProperties", JBool false);
                ("x-facet-data", JObj [("f", JVal (GStr "x"))])]).
Proof. reflexivity. Qed.
