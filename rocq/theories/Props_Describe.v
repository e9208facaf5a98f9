(** What a converted type says about itself: the theorems (C60). *)
From Coq Require Import ZArith List String Bool Lia.
From Verif Require Import Base Scalars Heap Schema Convert Spec_Schema Spec_Describe Describe_proofs Names Yaml Pipeline Decode
  Parse Spec_Parse Props_Validate Props_Parse.
Import ListNotations.
Open Scope string_scope.
Open Scope list_scope.
Open Scope nat_scope.

(** displayName, description, default, examples, annotations, custom facets and
    their definitions of a type are in the schema made from it, wherever the
    type stands; what is not written is not in the schema, except for what the
    text of a JSON type says itself. References to recursive types are left out
    (see below). *)
Theorem C60_carried_partial : forall n E a d s d' b sh,
  visit n E a d = Ok (s, d') -> get_base (c_heap E) a = Some b -> b_shape b = Some sh ->
  sh <> SUnknown -> (forall hd, sh <> SRec hd) ->
  described E b s /\ ((forall raw, sh <> SJSON raw) -> nothing_added b s).
Proof. exact converted_described. Qed.
Print Assumptions C60_carried_partial.

(** A string type with everything. *)
Definition h60 : list cell :=
  [CFacets [("f", GStr "v")]; CProps [("f", Prop_ "f" 7 true)]; CSlice [];
   CBase (Base 1 "T" "a" "string" (Some "title") (Some "text") (Some (GStr "x")) None (Some (GStr "y")) None [("a", 0%Z)]
            2 None None 0 1 true false (Some (SStr (StrF None None None None))));
   CFacets []; CProps []; CSlice [];
   CBase (Base 2 "f" "a" "string" None None None None None None [] 6 None None 4 5 true false (Some (SStr (StrF None None None None))));
   CFacets []; CProps []; CSlice [];
   CBase (Base 3 "r" "a" "object" (Some "title") None None None None None [] 10 None None 8 9 true false (Some (SRec 3)))].
Definition e60 : cenv := {| c_heap := h60; c_dom := fun _ => GInt 5; c_json := fun _ => Null |}.

Example C60_case : exists s d,
  visit 9 e60 3 [] = Ok (s, d) /\ k_title (keywords s) = "title" /\ k_examples (keywords s) = [GStr "x"]
  /\ annotations s = Some [("a", GInt 5)] /\ facet_data s = Some [("f", GStr "v")]
  /\ exists t, facet_definitions s = Some [("f", t)] /\ k_type (keywords t) = "string".
Proof.
  eexists. eexists. split; [vm_compute; reflexivity|]. split; [reflexivity|]. split; [reflexivity|]. split; [reflexivity|]. split; [reflexivity|].
  eexists. split; reflexivity.
Qed.

(** The displayName beside a reference to a recursive type is lost. *)
Theorem C60_recursive_refuted : exists n E a d s d' b,
  visit n E a d = Ok (s, d') /\ get_base (c_heap E) a = Some b /\ b_disp b = Some "title"
  /\ k_title (keywords s) = "".
Proof.
  exists 9, e60, 11, []. eexists. eexists. eexists. split; [vm_compute; reflexivity|]. split; [vm_compute; reflexivity|]. split; reflexivity.
Qed.
Print Assumptions C60_recursive_refuted.

(** Examples included from a NamedExample file are lost:
<<
    a.raml: types: {T: {type: string, examples: !include e.raml}}
    e.raml: one: x
>> *)
Definition ne_head : string := ("#%RAML 1.0 NamedExample" ++ newline)%string.
Definition d60 : disk :=
  [("a.raml", lib_head, mp [("types", mp [("T", mp [("type", sc "string"); ("examples", inc "e.raml")])])]);
   ("e.raml", ne_head, mp [("one", sc "x")])].
Definition all60 : list string := ["a.raml"; "e.raml"].
Definition run60 : res entry_point * pst :=
  parse_string (on_disk d60) 9 exO all60 all60 all60 true true (lib_head ++ "a.raml")%string "a.raml".
Definition after60 : cenv := {| c_heap := heap (p_st (snd run60)); c_dom := fun _ => GNil; c_json := fun _ => Null |}.

Theorem C60_included_examples_refuted : exists s d,
  fst run60 = Ok (ELib 0) /\ p_types (snd run60) = [("a.raml", [("T", 3)])]
  /\ visit 9 after60 3 [] = Ok (s, d) /\ k_examples (keywords s) = [].
Proof.
  eexists. eexists. split; [vm_compute; reflexivity|]. split; [vm_compute; reflexivity|]. split; [vm_compute; reflexivity|]. reflexivity.
Qed.
Print Assumptions C60_included_examples_refuted.

(** Nor are they validated: [T] may as well be an integer. *)
Definition d31 : disk :=
  [("a.raml", lib_head, mp [("types", mp [("T", mp [("type", sc "integer"); ("examples", inc "e.raml")])])]);
   ("e.raml", ne_head, mp [("one", sc "x")])].
Theorem C31_included_examples_refuted :
  fst (parse_string (on_disk d31) 9 exO all60 all60 all60 true true (lib_head ++ "a.raml")%string "a.raml") = Ok (ELib 0).
Proof. vm_compute. reflexivity. Qed.
Print Assumptions C31_included_examples_refuted.

(** The same example in the file itself is refused. *)
Example C31_inline_case :
  let d := [("a.raml", lib_head, mp [("types", mp [("T", mp [("type", sc "integer"); ("examples", mp [("one", sc "x")])])])])] in
  fst (parse_string (on_disk d) 9 exO ["a.raml"] ["a.raml"] ["a.raml"] true true (lib_head ++ "a.raml")%string "a.raml") = Err.
Proof. vm_compute. reflexivity. Qed.
