(** Property theorems about cloning (C24, C25). *)
From Coq Require Import ZArith List String Bool Lia.
From Verif Require Import Base Scalars Heap Heap_lemmas Validate Spec_Validate Spec_Model Spec_Clone
  Model_check Clone_proofs Props_Validate.
Import ListNotations.
Open Scope string_scope.
Open Scope list_scope.
Open Scope nat_scope.

(** * C24 *)

(** The copy is isomorphic to the original, made of new objects only. *)
Theorem C24_isomorphic : forall n a c s s',
  wf_heap (heap s) -> ids_unique (heap s) -> (exists b, get_base (heap s) a = Some b) ->
  clone_detached n a s = (Ok c, s') ->
  exists ph : addr -> addr -> Prop, ph a c
    /\ (forall x y y', ph x y -> ph x y' -> y = y') /\ (forall x x' y, ph x y -> ph x' y -> x = x')
    /\ forall x y, ph x y -> List.length (heap s) <= y
         /\ exists b b', get_base (heap s) x = Some b /\ get_base (heap s') y = Some b'
              /\ base_copy (heap s) (heap s') ph b b'
              /\ (forall z, owns b' z -> List.length (heap s) <= z)
              /\ (forall z, b_link b' = Some z -> List.length (heap s) <= z).
Proof. exact clone_isomorphic. Qed.
Print Assumptions C24_isomorphic.

(** It accepts the same values, with the same outcome for every fuel. *)
Theorem C24_same_values : forall n a c s s' m O v,
  wf_heap (heap s) -> ids_unique (heap s) -> (exists b, get_base (heap s) a = Some b) ->
  clone_detached n a s = (Ok c, s') ->
  validate m O (heap s') c v = validate m O (heap s) a v.
Proof. exact clone_same_values. Qed.
Print Assumptions C24_same_values.

(** Nothing reachable from it existed before. *)
Theorem C24_disjoint : forall n a c s s' z,
  wf_heap (heap s) -> ids_unique (heap s) -> no_rec (heap s) ->
  (exists b, get_base (heap s) a = Some b) ->
  clone_detached n a s = (Ok c, s') ->
  reaches (heap s') c z -> List.length (heap s) <= z.
Proof. exact clone_disjoint. Qed.
Print Assumptions C24_disjoint.

(** Every object that existed is as it was, whatever the outcome; the shape
    list and the ID counter do not change. *)
Theorem C24_original_untouched : forall n a s r s',
  clone_detached n a s = (r, s') ->
  (forall z, z < List.length (heap s) -> nth_error (heap s') z = nth_error (heap s) z)
  /\ st_shapes s' = st_shapes s /\ st_nextid s' = st_nextid s.
Proof.
  intros n a s r s' H. destruct (extends_after _ _ _ _ (clone_detached_ext n a s) H) as ((x & E) & A & B).
  split; auto. intros z L. rewrite E. now apply nth_error_app1.
Qed.
Print Assumptions C24_original_untouched.

(** [Node: {properties: {next: Node, tags: string[]}, minProperties: 1}], cyclic. *)
Definition m24 : st := model
  [Decl "Node" "object" (SObject (ObjF None None None (Some 12) None (Some 1%Z) None)) [] None;
   Decl "tags" "array" (SArray (ArrF (Some 8) None None None)) [] None;
   Decl "" "string" (SStr estr) [] None]
  [CProps [("next", Prop_ "next" 0 false); ("tags", Prop_ "tags" 4 true)]].

Example C24_case : wf_heap (heap m24) /\ ids_unique (heap m24) /\ no_rec (heap m24)
  /\ exists c s', clone_detached 20 0 m24 = (Ok c, s')
       /\ validate 20 exO (heap s') c (GMap [("tags", GArr [GStr "x"])]) = Ok tt
       /\ validate 20 exO (heap s') c (GMap [("tags", GArr []); ("next", GMap [])]) = Err.
Proof.
  destruct (fresh_b_sound (heap m24)) as (W & U & _ & F); [vm_compute; reflexivity|].
  split; auto. split; auto. split.
  { intros a hd (b & E & S). exact (proj2 (proj2 (F _ _ E)) _ S). }
  do 2 eexists. split; [vm_compute; reflexivity|]. split; vm_compute; reflexivity.
Qed.

(** A recursive shape keeps its head: the copy reaches the original. [R] stands
    for a reference to the object [H] it occurs in. *)
Definition m24r : st := model
  [Decl "H" "object" (SObject (ObjF None None None (Some 8) None None None)) [] None;
   Decl "H" "recursive" (SRec 0) [] None] [CProps [("h", Prop_ "h" 4 false)]].

Theorem C24_recursive_refuted :
  ~ (forall n a c s s' z, wf_heap (heap s) -> ids_unique (heap s) ->
       (exists b, get_base (heap s) a = Some b) -> clone_detached n a s = (Ok c, s') ->
       reaches (heap s') c z -> List.length (heap s) <= z).
Proof.
  intros H.
  assert (E : exists s' b c m, clone_detached 9 0 m24r = (Ok 9, s')
     /\ get_base (heap s') 9 = Some b /\ get_base (heap s') 10 = Some c
     /\ b_shape b = Some (SObject (ObjF None None None (Some m) None None None))
     /\ get_props (heap s') m = Some [("h", Prop_ "h" 10 false)]
     /\ b_shape c = Some (SRec 0)).
  { do 4 eexists. repeat (split; [vm_compute; reflexivity|]). vm_compute; reflexivity. }
  destruct E as (s' & b & c & m & E1 & E2 & E3 & E4 & E5 & E6).
  assert (L : List.length (heap m24r) <= 0).
  { apply (H 9 0 9 m24r s' 0).
    - apply wf_b_sound. vm_compute. reflexivity.
    - apply ids_b_sound. vm_compute. reflexivity.
    - eexists. vm_compute. reflexivity.
    - exact E1.
    - eapply (re_step _ _ 10).
      + eapply (re_step _ _ 9); [constructor|]. eapply pt_ref; [exact E2|].
        eapply rf_child; [exact E4|].
        change 10 with (p_base (Prop_ "h" 10 false)). apply (ch_prop _ _ [("h", Prop_ "h" 10 false)] "h"); [|left; reflexivity].
        right. eexists. split; [reflexivity|exact E5].
      + eapply pt_ref; [exact E3|]. eapply rf_child; [exact E6|]. constructor. }
  vm_compute in L. lia.
Qed.
Print Assumptions C24_recursive_refuted.

(** IDs must be unique: two shapes with one ID become one. [P: {a: string, b:
    integer}] where the two members have the same ID, as members cloned during
    union inheritance have. *)
Definition m24d : st :=
  let m := model
    [Decl "P" "object" (SObject (ObjF None None None (Some 12) None None None)) [] None;
     Decl "a" "string" (SStr estr) [] None; Decl "b" "boolean" (SBool None) [] None]
    [CProps [("a", Prop_ "a" 4 true); ("b", Prop_ "b" 8 true)]] in
  match nth_error (heap m) 8 with
  | Some (CBase b) => St (upd 8 (CBase (set_id 2 b)) (heap m)) (st_shapes m) (st_nextid m)
  | _ => m
  end.

Theorem C24_unique_ids_refuted :
  ~ (forall n a c s s' m O v, wf_heap (heap s) -> (exists b, get_base (heap s) a = Some b) ->
       clone_detached n a s = (Ok c, s') ->
       validate m O (heap s') c v = validate m O (heap s) a v).
Proof.
  intros H. set (v := GMap [("a", GStr "x"); ("b", GBool true)]).
  assert (E : exists s', clone_detached 9 0 m24d = (Ok 13, s') /\ validate 9 exO (heap s') 13 v = Err).
  { eexists. split; [vm_compute; reflexivity|]. vm_compute; reflexivity. }
  destruct E as (s' & E1 & E2).
  assert (E3 : validate 9 exO (heap m24d) 0 v = Ok tt) by (vm_compute; reflexivity).
  assert (W : wf_heap (heap m24d)) by (apply wf_b_sound; vm_compute; reflexivity).
  assert (B : exists b, get_base (heap m24d) 0 = Some b) by (eexists; vm_compute; reflexivity).
  specialize (H 9 0 13 m24d s' 9 exO v W B E1). congruence.
Qed.
Print Assumptions C24_unique_ids_refuted.

(** * C25 *)

(** Enough fuel is the number of objects, whatever the cycles; and cloning a
    well-formed graph never fails. *)
Theorem C25_terminates : forall s a b n,
  wf_heap (heap s) -> get_base (heap s) a = Some b -> List.length (heap s) < n ->
  exists c s', clone_detached n a s = (Ok c, s').
Proof. exact clone_detached_total. Qed.
Print Assumptions C25_terminates.

Example C25_case : exists b, get_base (heap m24) 0 = Some b /\ ref (heap m24) b 0
  /\ wf_heap (heap m24).
Proof.
  eexists. split; [vm_compute; reflexivity|]. split.
  - eapply rf_child; [reflexivity|]. change 0 with (p_base (Prop_ "next" 0 false)).
    apply (ch_prop _ _ [("next", Prop_ "next" 0 false); ("tags", Prop_ "tags" 4 true)] "next"); [|left; reflexivity]. right. eexists. split; vm_compute; reflexivity.
  - apply wf_b_sound. vm_compute. reflexivity.
Qed.
