(** Property theorems about what one more declaration does to the other types of
    a library (C19). *)
From Coq Require Import ZArith List String Bool.
From Verif Require Import Base Scalars Heap Validate Names Yaml Pipeline Decode Parse Props_Validate Props_Inherit Props_Parse Props_Fresh.
Import ListNotations.
Open Scope string_scope.
Open Scope list_scope.
Open Scope nat_scope.

(** A library with the types [ts]. *)
Definition library_of (ts : list (string * ynode)) : disk := [("a.raml", lib_head, mp [("types", mp ts)])].
(** The type [name] of the only library. *)
Definition type_in (p : pst) (name : string) : option addr :=
  match p_libs p with [l] => oget name (l_types l) | _ => None end.

(** * C19 *)

(** Parsing with unwrapping: one more type in a library, which only lists
    others as its parents, may change what those others accept. The first
    parent inherits from the second and the third (/repo/unwrap.go:358-369); the
    type that is written to is a copy that shares its map of properties with
    the declared type (/repo/complex.go:385), so declared types lose values
    that they accepted. *)
Theorem C19_declared_refuted :
  ~ (forall ts x name n m e e' p p' a a' v,
       whole (library_of ts) n true false "a.raml" = (Ok e, p) ->
       whole (library_of (ts ++ [x])) n true false "a.raml" = (Ok e', p') ->
       In name (map fst ts) -> ~ In (fst x) (map fst ts) ->
       type_in p name = Some a -> type_in p' name = Some a' ->
       validate m exO (heap (p_st p)) a v = Ok tt -> validate m exO (heap (p_st p')) a' v = Ok tt).
Proof.
  intros H.
  set (ts := [("P", sc "object"); ("Q", mp [("properties", mp [("x", sc "string")])]);
              ("R", mp [("properties", mp [("y", sc "string")])])]).
  set (x := ("T", mp [("type", sq [sc "P"; sc "Q"; sc "R"])])).
  set (v := GMap [("x", GStr "abc")]).
  assert (W : exists e p e' p' a a', whole (library_of ts) 40 true false "a.raml" = (Ok e, p)
     /\ whole (library_of (ts ++ [x])) 40 true false "a.raml" = (Ok e', p')
     /\ type_in p "Q" = Some a /\ type_in p' "Q" = Some a'
     /\ validate 9 exO (heap (p_st p)) a v = Ok tt /\ validate 9 exO (heap (p_st p')) a' v = Err).
  { do 6 eexists. repeat (split; [vm_compute; reflexivity|]). vm_compute. reflexivity. }
  destruct W as (e & p & e' & p' & a & a' & W1 & W2 & T1 & T2 & V1 & V2).
  assert (I1 : In "Q" (map fst ts)) by (right; left; reflexivity).
  assert (I2 : ~ In (fst x) (map fst ts)) by (simpl; intuition discriminate).
  specialize (H ts x "Q" 40 9 e e' p p' a a' v W1 W2 I1 I2 T1 T2 V1). congruence.
Qed.
Print Assumptions C19_declared_refuted.
