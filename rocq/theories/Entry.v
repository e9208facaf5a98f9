(** The entry point of a RAML object. No proofs here. *)
From Coq Require Import ZArith List String Bool.
From Verif Require Import Base Scalars Heap Pipeline Decode Parse.
Import ListNotations.
Open Scope string_scope.

(** RAML, /repo/raml.go:14-33: what {!Parse} has of it, and [entryPoint] (19) with
    the location of the fragment (/repo/fragment.go:264). *)
Record robject := RObj { ro_model : pst; ro_entry : option (entry_point * string) }.

(** New, /repo/raml.go:136-144. *)
Definition new_object : robject := RObj new_raml None.

(** GetLocation, /repo/raml.go:114-119, and GetLocation of the fragments, e.g.
    /repo/fragment.go:129-131. *)
Definition get_location (r : robject) : string := match ro_entry r with None => "" | Some (_, path) => path end.

(** parseFragment, /repo/parse.go:342-411, on a RAML object: the entry point is
    set as soon as the fragment is decoded (363, 370, 377), before resolution.
    Simplification: decoding is written down twice, it is the first step of
    [parse_fragment]. *)
Definition parse_object (E : denv) (n : nat) (O : oracle) (o1 o2 o3 : list string) (do_unwrap do_validate : bool)
    (text path : string) (r : robject) : res unit * robject :=
  let '(x, p) := parse_fragment E n O o1 o2 o3 do_unwrap do_validate text path (ro_model r) in
  (match x with Ok _ => Ok tt | Err => Err | Panic => Panic | OutOfFuel => OutOfFuel end,
   RObj p (match fst (decode_fragment E n text path (ro_model r)) with
           | Ok ep => Some (ep, path)
           | _ => ro_entry r
           end)).
