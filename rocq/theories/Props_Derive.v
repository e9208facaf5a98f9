(** Property theorems about what a declaration takes over from the types it
    refers to (C16, C43, C47, C56, C57). *)
From Coq Require Import ZArith List String Bool Lia.
From Verif Require Import Base Scalars Spec_Scalars Heap Heap_lemmas Validate Spec_Validate
  Rdt Resolve Spec_Resolve Resolve_proofs Kind_proofs Facet_proofs Spec_Model Model_check
  Props_Validate Props_Inherit Props_Resolve.
Import ListNotations.
Open Scope string_scope.
Open Scope list_scope.
Open Scope nat_scope.

(** * C56 *)

(** Resolution of a declaration whose kind comes from [y], the types it refers
    to being resolved. *)
Theorem C56_kind : forall n E o a y s s' b,
  get_base (heap s) a = Some b -> kind_from (rv_lookup E) (heap s) o a y ->
  (forall z, needs (rv_lookup E) (heap s) a z -> known (heap s) z) ->
  resolve n E a s = (Ok tt, s') -> became s s' a y o (rv_facets E a) b.
Proof. exact resolve_became. Qed.
Print Assumptions C56_kind.

(** Without any assumption on the order: the type is resolved by then, and has
    the kind it had when that was read. *)
Theorem C56_same_kind : forall n E o a y s s',
  kind_from (rv_lookup E) (heap s) o a y -> resolve n E a s = (Ok tt, s') ->
  exists b' yb', get_base (heap s') a = Some b' /\ get_base (heap s') y = Some yb' /\ b_type b' = b_type yb'.
Proof. exact resolve_same_type. Qed.
Print Assumptions C56_same_kind.

(** A declaration that names a type with its own identifier is an error. *)
Theorem C56_self_reference : forall n E a y s b yb,
  get_base (heap s) a = Some b -> kind_from (rv_lookup E) (heap s) FromName a y ->
  get_base (heap s) y = Some yb -> b_id yb = b_id b -> resolve (S n) E a s = (Err, s).
Proof. exact self_reference. Qed.
Print Assumptions C56_self_reference.

(** The facets of [type: T[]] are those of the array; the items are a plain
    shape of the kind, or an alias of the named type. *)
Theorem C56_array_facets : forall n E a x s s' b,
  get_base (heap s) a = Some b -> b_shape b = Some SUnknown -> b_link b = None -> b_type b <> "composite" ->
  read_type (b_type b) = Some (EType (TArray x)) ->
  (forall nm z, In nm (refs_atom x) -> rv_lookup E nm (b_loc b) = Some z -> known (heap s) z) ->
  (forall f g, rv_facets E a = Some f -> f (SArray (ArrF None None None None)) = Ok g -> exists g', g = SArray g') ->
  resolve n E a s = (Ok tt, s') ->
  exists b' i ib g, get_base (heap s') a = Some b' /\ b_type b' = "array"
    /\ faceted (rv_facets E a) "array" (SArray g)
    /\ b_shape b' = Some (SArray (ArrF (Some i) (a_min g) (a_max g) (a_uniq g)))
    /\ b_alias b' = b_alias b /\ List.length (heap s) <= i /\ get_base (heap s') i = Some ib
    /\ match x with
       | APrim p => forall sh, blank (prim_text p) = Some sh -> b_shape ib = Some sh
       | ARef s1 o => exists z, rv_lookup E (ref_name s1 o) (b_loc b) = Some z /\ b_alias ib = Some z
                       /\ get_slice (heap s') (b_inherits ib) = Some []
       | AGroup _ => True
       end.
Proof. exact array_facets. Qed.
Print Assumptions C56_array_facets.

(** [T: string; A: {type: T, minLength: 2}; B: T; C: {type: T[], minItems: 1};
    D: D]; the facets of [A] and [C] are read by these functions. *)
Definition d56 : list (string * string * shape * bool) :=
  [("T", "string", SStr estr, false); ("A", "T", SUnknown, false); ("B", "T", SUnknown, false);
   ("C", "T[]", SUnknown, false); ("D", "D", SUnknown, false)].
Definition e56 : renv :=
  REnv (rv_lookup (tenv d56))
    (fun a => if Nat.eqb a 7 then
                Some (fun sh => match sh with SStr _ => Ok (SStr (StrF (Some 2%Z) None None None)) | _ => Err end)
              else if Nat.eqb a 15 then
                Some (fun sh => match sh with SArray _ => Ok (SArray (ArrF None (Some 1%Z) None None)) | _ => Err end)
              else None).

Example C56_case_map : exists b s1 b1, get_base (heap (tstate d56)) 7 = Some b
  /\ kind_from (rv_lookup e56) (heap (tstate d56)) FromName 7 3
  /\ resolve 5 e56 7 (tstate d56) = (Ok tt, s1) /\ get_base (heap s1) 7 = Some b1
  /\ b_shape b1 = Some (SStr (StrF (Some 2%Z) None None None)) /\ b_alias b1 = None
  /\ get_slice (heap s1) (b_inherits b1) = Some [3].
Proof.
  eexists. eexists. eexists. split; [reflexivity|]. split.
  { eexists. split; [reflexivity|]. split; [reflexivity|]. split; [reflexivity|]. split; [discriminate|].
    eexists. exists "T". split; [vm_compute; reflexivity|]. split; reflexivity. }
  split; [vm_compute; reflexivity|]. split; [vm_compute; reflexivity|].
  split; [vm_compute; reflexivity|]. split; vm_compute; reflexivity.
Qed.
(** [A] before [T: U; U: string]. *)
Definition d56b : list (string * string * shape * bool) :=
  [("A", "T", SUnknown, false); ("T", "U", SUnknown, false); ("U", "string", SUnknown, false)].
Example C56_case_order : kind_from (rv_lookup (tenv d56b)) (heap (tstate d56b)) FromName 3 7
  /\ exists s1 b1 b2, resolve 5 (tenv d56b) 3 (tstate d56b) = (Ok tt, s1) /\ get_base (heap s1) 3 = Some b1
     /\ get_base (heap s1) 7 = Some b2 /\ b_type b1 = "string" /\ b_type b2 = "string".
Proof.
  split.
  { eexists. split; [reflexivity|]. split; [reflexivity|]. split; [reflexivity|]. split; [discriminate|].
    eexists. exists "T". split; [vm_compute; reflexivity|]. split; reflexivity. }
  eexists. eexists. eexists. split; [vm_compute; reflexivity|]. split; [vm_compute; reflexivity|].
  split; [vm_compute; reflexivity|]. split; vm_compute; reflexivity.
Qed.
Example C56_case_bare : exists s1 b1, resolve 5 e56 11 (tstate d56) = (Ok tt, s1) /\ get_base (heap s1) 11 = Some b1
  /\ b_shape b1 = Some (SStr estr) /\ b_alias b1 = Some 3 /\ get_slice (heap s1) (b_inherits b1) = Some [].
Proof.
  eexists. eexists. split; [vm_compute; reflexivity|]. split; [vm_compute; reflexivity|].
  split; [vm_compute; reflexivity|]. split; vm_compute; reflexivity.
Qed.
Example C56_case_array : exists s1 b1 i ib, resolve 5 e56 15 (tstate d56) = (Ok tt, s1) /\ get_base (heap s1) 15 = Some b1
  /\ b_shape b1 = Some (SArray (ArrF (Some i) (Some 1%Z) None None)) /\ get_base (heap s1) i = Some ib /\ b_alias ib = Some 3.
Proof.
  eexists. eexists. eexists. eexists. split; [vm_compute; reflexivity|]. split; [vm_compute; reflexivity|].
  split; [vm_compute; reflexivity|]. split; vm_compute; reflexivity.
Qed.
Example C56_case_self : resolve 5 e56 19 (tstate d56) = (Err, tstate d56).
Proof. vm_compute. reflexivity. Qed.

(** * C57 *)

(** Derivation from a parent that is not being visited: the child keeps the
    values it gives to custom facets and gets the parent's for the others; its
    own facet definitions stay. *)
Theorem C57_inherit_facets : forall n t src s r s' tb sb tl sl,
  inherit n t src s = (Ok r, s') ->
  get_base (heap s) t = Some tb -> get_base (heap s) src = Some sb -> b_visited sb = false ->
  get_facets (heap s) (b_facets tb) = Some tl -> get_facets (heap s) (b_facets sb) = Some sl ->
  exists tb' l, get_base (heap s') t = Some tb' /\ b_facets tb' = b_facets tb /\ b_fdefs tb' = b_fdefs tb
    /\ get_facets (heap s') (b_facets tb) = Some l
    /\ forall k, match oget k tl with
                 | Some v => oget k l = Some v
                 | None => forall v, oget k sl = Some v -> oget k l = Some v
                 end.
Proof. exact inherit_facets. Qed.
Print Assumptions C57_inherit_facets.

(** [P: {type: string, unit: m, scale: 2}; C: {type: P, unit: s}]. *)
Definition m57 : st := St
  [CFacets [("unit", GStr "m"); ("scale", GInt 2)]; CFacets [("unit", GStr "s")]; CProps []; CSlice []; CSlice [5];
   CBase (Base 1 "P" "" "string" None None None None None None [] 3 None None 0 2 true false (Some (SStr estr)));
   CBase (Base 2 "C" "" "string" None None None None None None [] 4 None None 1 2 true false (Some (SStr estr)))] [] 2%Z.
Example C57_case : exists s', inherit 5 6 5 m57 = (Ok 6, s')
  /\ get_facets (heap s') 1 = Some [("unit", GStr "s"); ("scale", GInt 2)].
Proof. eexists. split; [vm_compute; reflexivity|]. vm_compute. reflexivity. Qed.

(** An alias takes over the facets given, the facet definitions, the
    description and the default of the type that unwrapping its target returned. *)
Theorem C57_alias_facets : forall n a s r s' b al,
  unwrap n a s = (Ok r, s') -> get_base (heap s) a = Some b ->
  b_unwrapped b = false -> b_alias b = Some al ->
  exists us b' ub, r = a /\ get_base (heap s') a = Some b' /\ get_base (heap s') us = Some ub
    /\ (exists s1 s2, heap s1 = upd a (CBase (set_unwrapped true b)) (heap s) /\ unwrap (pred n) al s1 = (Ok us, s2))
    /\ (us <> a -> b_facets b' = b_facets ub /\ b_fdefs b' = b_fdefs ub
                   /\ b_desc b' = b_desc ub /\ b_default b' = b_default ub).
Proof. exact alias_facets. Qed.
Print Assumptions C57_alias_facets.

(** [A: {type: string, description: d, unit: m}; B: A]. *)
Definition m57a : st := St
  [CFacets [("unit", GStr "m")]; CFacets []; CProps []; CSlice []; CSlice [];
   CBase (Base 1 "A" "" "string" None (Some "d") None None None None [] 3 None None 0 2 false false (Some (SStr estr)));
   CBase (Base 2 "B" "" "string" None None None None None None [] 4 (Some 5) None 1 2 false false (Some (SStr estr)))] [] 2%Z.
Example C57_case_alias : exists s' b', unwrap 5 6 m57a = (Ok 6, s') /\ get_base (heap s') 6 = Some b'
  /\ b_desc b' = Some "d" /\ get_facets (heap s') (b_facets b') = Some [("unit", GStr "m")].
Proof.
  eexists. eexists. split; [vm_compute; reflexivity|]. split; [vm_compute; reflexivity|].
  split; vm_compute; reflexivity.
Qed.

(** * C16 *)

(** Any type may derive from [any], whatever its kind, and keeps its shape. *)
Theorem C16_from_any : forall n t src s tb sb tl sl,
  t <> src -> get_base (heap s) t = Some tb -> get_base (heap s) src = Some sb ->
  b_visited sb = false -> b_shape sb = Some SAny ->
  get_facets (heap s) (b_facets tb) = Some tl -> get_facets (heap s) (b_facets sb) = Some sl ->
  exists s', inherit (S n) t src s = (Ok t, s')
    /\ exists tb', get_base (heap s') t = Some tb' /\ b_shape tb' = b_shape tb /\ b_type tb' = b_type tb.
Proof. exact inherit_any. Qed.
Print Assumptions C16_from_any.

(** [P: any; C: {type: P}] with [C] made an integer. *)
Definition m16a : st := model [Decl "P" "any" SAny [] None; Decl "C" "integer" sint [0] None] [].
Example C16_case_any : exists s' b, inherit 5 4 0 m16a = (Ok 4, s') /\ get_base (heap s') 4 = Some b /\ b_shape b = Some sint.
Proof. eexists. eexists. split; [vm_compute; reflexivity|]. split; vm_compute; reflexivity. Qed.
