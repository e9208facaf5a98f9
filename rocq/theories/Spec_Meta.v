(** What the meta-schema of draft-07 asks of the keywords of a schema (C86),
    independent of the converter. *)
From Coq Require Import ZArith List String Bool.
From Coq Require Import Floats.SpecFloat.
From Verif Require Import Base Scalars Heap Schema Convert Spec_Validate Spec_Schema.
Import ListNotations.
Open Scope string_scope.
Open Scope list_scope.
Open Scope Z_scope.

(** Exclusive minimum 0. *)
Definition positive (n : jnum) : Prop :=
  match n with NumZ z => 0 < z | NumF f => SFltb (S754_zero false) f = true end.
(** nonNegativeInteger. *)
Definition natural (o : option Z) : Prop := forall z, o = Some z -> 0 <= z.

(** simpleTypes, multipleOf, the lengths and counts, stringArray. *)
Record good_words (k : kw) : Prop := {
  gw_type : In (k_type k) [""; "array"; "boolean"; "integer"; "null"; "number"; "object"; "string"];
  gw_mult : forall m, k_mult k = Some m -> positive m;
  gw_maxlen : natural (k_maxlen k); gw_minlen : natural (k_minlen k);
  gw_maxitems : natural (k_maxitems k); gw_minitems : natural (k_minitems k);
  gw_maxcont : natural (k_maxcont k); gw_mincont : natural (k_mincont k);
  gw_maxprops : natural (k_maxprops k); gw_minprops : natural (k_minprops k);
  gw_required : NoDup (k_required k)
}.
(** A document all of whose schemas are like that. *)
Definition good_schema (s : schema) : Prop := forall t, inside s t -> good_words (keywords t).

(** The condition on a type: lengths and counts are unsigned (they are uint64 in
    Go), names of properties are distinct (they are keys of a map), a JSON type has a
    good schema, and -- this one the parser does not check -- multipleOf is positive. *)
Definition good_type (E : cenv) (sh : shape) : Prop :=
  match sh with
  | SInt f => forall m, if_mult f = Some m -> positive (NumF m)
  | SNum f => forall m, nf_mult f = Some m -> positive (NumF m)
  | SStr f => natural (sf_min f) /\ natural (sf_max f)
  | SFile f => natural (ff_min f) /\ natural (ff_max f)
  | SArray f => natural (a_min f) /\ natural (a_max f)
  | SObject f => natural (o_min f) /\ natural (o_max f)
      /\ forall m l, o_props f = Some m -> get_props (c_heap E) m = Some l -> NoDup (map fst l)
  | SJSON raw => good_schema (c_json E raw)
  | _ => True
  end.
