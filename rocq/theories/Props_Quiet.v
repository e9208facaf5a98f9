(** Unwrapping, inheritance, cloning, recursion marking, checking and validation
    without a panic (C46), and where they do panic. *)
From Coq Require Import ZArith List String Bool Lia.
From Verif Require Import Base Scalars Heap Validate Names Yaml Spec_Yaml Pipeline Spec_Validate Spec_Model Decode Parse Spec_Parse Spec_Calm
  Props_Validate Props_Parse Props_Fresh Props_Calm.
From Verif Require Shapes_calm Model_calm Parse_calm.
Import ListNotations.
Open Scope string_scope.
Open Scope list_scope.
Open Scope nat_scope.

(** * C46: the operations on types *)

(** In a model without nil or dangling references, copying a type, marking its
    recursions, checking it, checking its custom facets and validating a value
    against it never panic, whatever the value, and however large or cyclic the
    model is. *)
Theorem C46_operations_partial : forall s a, wf_heap (heap s) -> (exists b, get_base (heap s) a = Some b) ->
  (forall n, fst (clone_detached n a s) <> Panic)
  /\ (forall n, fst (mark n a s) <> Panic)
  /\ (forall n O, check n O (heap s) a <> Panic)
  /\ (forall n O, commons n O (heap s) a <> Panic)
  /\ (forall n O v, validate n O (heap s) a v <> Panic).
Proof.
  intros s a W B. split; [intros n; now apply Shapes_calm.clone_never|]. split; [intros n; now apply Shapes_calm.mark_never|].
  split; [|split]; intros n O; destruct (Shapes_calm.check_never (heap s) n O a W B) as (C1 & C2 & C3); assumption.
Qed.
Print Assumptions C46_operations_partial.

(** Neither does letting one type inherit from another when no [enum] lists a
    sequence or a mapping. *)
Theorem C46_inherit_partial : forall s n a c, wf_heap (heap s) -> plain_enums (heap s) ->
  (exists b, get_base (heap s) a = Some b) -> (exists b, get_base (heap s) c = Some b) -> fst (inherit n a c s) <> Panic.
Proof. exact Shapes_calm.inherit_never. Qed.
Print Assumptions C46_inherit_partial.

(** Neither does unwrapping a type of such a model when there are no unions. *)
Theorem C46_unwrap_partial : forall s n a, wf_heap (heap s) -> plain_enums (heap s) -> union_free (heap s) ->
  (exists b, get_base (heap s) a = Some b) -> fst (unwrap n a s) <> Panic.
Proof. exact Shapes_calm.unwrap_never. Qed.
Print Assumptions C46_unwrap_partial.

(** * C46: parsing with unwrapping and validation *)

(** A tidy document whose enums list neither sequences nor mappings and whose
    types are not unions is parsed without a panic, with or without unwrapping
    and validation; with both, when the annotations still have their types after
    unwrapping. *)
Theorem C46_whole_partial : forall E role n O o1 o2 o3 u v text path,
  tidy_files E role -> tidy_entry E role path text -> no_uses_in_types E role ->
  (forall ep p, parse_string E n O o1 o2 o3 false false text path = (Ok ep, p) ->
     plain_enums (heap (p_st p)) /\ union_free (heap (p_st p))
     /\ (u = true -> v = true -> forall R s, unwrap_shapes n o1 o2 (raml_of p) (p_st p) = (Ok R, s) ->
           forall e, In e (r_exts R) -> e_def e <> None)) ->
  fst (parse_string E n O o1 o2 o3 u v text path) <> Panic.
Proof.
  intros E role n O o1 o2 o3 u v text path T Te Nu H.
  pose proof (Parse_calm.parse_quiet E role n O o1 o2 o3 text path T Te Nu) as Q.
  destruct (parse_string E n O o1 o2 o3 false false text path) as [[ep| | |] p] eqn:P.
  - destruct (H ep p eq_refl) as (H1 & H2 & H3). exact (Model_calm.after_quiet E n O o1 o2 o3 text path ep p P H1 H2 u v H3).
  - rewrite Model_calm.parse_later, P. discriminate.
  - elim Q. reflexivity.
  - rewrite Model_calm.parse_later, P. discriminate.
Qed.
Print Assumptions C46_whole_partial.

(** * Cases *)

Definition gplain (v : gval) : bool := match v with GArr _ | GMap _ => false | _ => true end.
Definition plain_heap (h : list cell) : bool :=
  forallb (fun c => match c with CBase b => match b_shape b with Some sh => match enum_of sh with Some l => forallb gplain l | None => true end | None => true end | _ => true end) h.
Lemma plain_heap_ok h : plain_heap h = true -> plain_enums h.
Proof.
  intros H a b sh l v G S E J. unfold plain_heap in H. rewrite forallb_forall in H. unfold get_base in G.
  destruct (nth_error h a) as [c|] eqn:N; [|discriminate]. apply nth_error_In in N. specialize (H c N). destruct c; try discriminate. injection G as ->.
  rewrite S, E in H. rewrite forallb_forall in H. specialize (H v J). now destruct v.
Qed.
Definition no_union (h : list cell) : bool :=
  forallb (fun c => match c with CBase b => match b_shape b with Some (SUnion _ _) => false | _ => true end | _ => true end) h.
Lemma no_union_ok h : no_union h = true -> union_free h.
Proof.
  intros H a b sl e G S. unfold no_union in H. rewrite forallb_forall in H. unfold get_base in G.
  destruct (nth_error h a) as [c|] eqn:N; [|discriminate]. apply nth_error_In in N. specialize (H c N). destruct c; try discriminate. injection G as ->.
  now rewrite S in H.
Qed.
Definition kept (l : list ext) : bool := forallb (fun e => match e_def e with Some _ => true | None => false end) l.
Lemma kept_ok l : kept l = true -> forall e, In e l -> e_def e <> None.
Proof. unfold kept. rewrite forallb_forall. intros H e J. specialize (H e J). destruct (e_def e); congruence. Qed.

Definition text46 : string := (lib_head ++ "a.raml")%string.
Definition lib_role (path : string) : kind := KLibrary.
Definition parse1 (d : disk) (n : nat) (u v : bool) : res entry_point * pst := parse_string (on_disk d) n exO ["a.raml"] ["a.raml"] ["a.raml"] u v text46 "a.raml".

Lemma parse1_wf d n ep p : parse1 d n false false = (Ok ep, p) -> wf_heap (heap (p_st p)).
Proof. exact (Model_calm.parsed_wf (on_disk d) n exO ["a.raml"] ["a.raml"] ["a.raml"] text46 "a.raml" ep p). Qed.

(** A library with inheritance from two parents, an enum, a type that contains
    itself, a custom facet and an annotation. *)
Definition d46q : disk :=
  [("a.raml", lib_head,
     mp [("annotationTypes", mp [("note", sc "string")]);
         ("types", mp [("Color", mp [("enum", sq [sc "red"; sc "green"; sc "blue"])]);
                       ("Warm", mp [("type", sc "Color"); ("enum", sq [sc "red"]); ("(note)", sc "hot")]);
                       ("Base", mp [("facets", mp [("size", sc "string")]); ("properties", mp [("id", sc "Color"); ("next?", sc "Base")])]);
                       ("Sub", mp [("type", sc "Base"); ("size", sc "big"); ("properties", mp [("id", sc "Warm"); ("many", sc "Base[]")])]);
                       ("Both", mp [("type", sq [sc "Sub"; sc "Base"])])])])].

Definition after (p : pst) : res raml := fst (unwrap_shapes 40 ["a.raml"] ["a.raml"] (raml_of p) (p_st p)).
Definition quiet_b (r : res entry_point * pst) : bool :=
  match fst r with
  | Ok _ => plain_heap (heap (p_st (snd r))) && no_union (heap (p_st (snd r))) && match after (snd r) with Ok R => kept (r_exts R) | _ => false end
  | _ => false
  end.
Lemma quiet_b_ok r : quiet_b r = true -> (exists ep p, r = (Ok ep, p))
  /\ plain_enums (heap (p_st (snd r))) /\ union_free (heap (p_st (snd r))) /\ forall R, after (snd r) = Ok R -> forall e, In e (r_exts R) -> e_def e <> None.
Proof.
  destruct r as [q p]. unfold quiet_b. cbn [fst snd]. generalize (after p). intros a H. destruct q as [ep| | |]; [|discriminate H|discriminate H|discriminate H].
  apply andb_prop in H. destruct H as [H K]. apply andb_prop in H. destruct H as [Q U]. split; [eauto|]. split; [exact (plain_heap_ok _ Q)|].
  split; [exact (no_union_ok _ U)|]. intros R ->. exact (kept_ok _ K).
Qed.

Lemma d46q_quiet : quiet_b (parse1 d46q 40 false false) = true. Proof. vm_compute. reflexivity. Qed.
Lemma d46q_flags u v : fst (parse1 d46q 40 u v) = Ok (ELib 0). Proof. destruct u, v; vm_compute; reflexivity. Qed.
Lemma d46q_tidy : tidy_files (on_disk d46q) lib_role /\ tidy_entry (on_disk d46q) lib_role "a.raml" text46 /\ no_uses_in_types (on_disk d46q) lib_role.
Proof.
  split; [apply disk_tidy; vm_compute; reflexivity|]. split; [apply disk_entry; [vm_compute; reflexivity|reflexivity|vm_compute; reflexivity]|].
  apply disk_bare; vm_compute; reflexivity.
Qed.

Example C46_whole_case :
  (tidy_files (on_disk d46q) lib_role /\ tidy_entry (on_disk d46q) lib_role "a.raml" text46 /\ no_uses_in_types (on_disk d46q) lib_role)
  /\ (exists p, parse1 d46q 40 false false = (Ok (ELib 0), p) /\ wf_heap (heap (p_st p)) /\ plain_enums (heap (p_st p)) /\ union_free (heap (p_st p))
        /\ forall R, after p = Ok R -> forall e, In e (r_exts R) -> e_def e <> None)
  /\ forall u v, fst (parse1 d46q 40 u v) = Ok (ELib 0).
Proof.
  split; [exact d46q_tidy|]. split; [|exact d46q_flags]. generalize (quiet_b_ok _ d46q_quiet). generalize (d46q_flags false false).
  generalize (parse1_wf d46q 40). generalize (parse1 d46q 40 false false). intros [r p] W Q [_ (A1 & A2 & A3)]. cbn [fst snd] in *. subst r.
  exists p. split; [reflexivity|]. split; [exact (W _ _ eq_refl)|]. split; [exact A1|]. split; [exact A2|exact A3].
Qed.

(** * Where it is false *)

Definition says_b (f : list cell -> bool) (r : res entry_point * pst) : bool := match fst r with Ok _ => f (heap (p_st (snd r))) | _ => false end.
Lemma says_b_ok f r : says_b f r = true -> exists ep p, r = (Ok ep, p) /\ f (heap (p_st p)) = true.
Proof. destruct r as [[ep| | |] p]; cbn [says_b fst snd]; [|discriminate|discriminate|discriminate]. intros H. exists ep, p. split; [reflexivity|exact H]. Qed.


(** The second annotation type deriving from a type [any] becomes that type
    when it is unwrapped: after [inherit] an [any] parent counts as visited
    (/repo/shape.go:126-180). The annotation is looked up under the name of its
    type, which is not in the index any more, and a nil pointer comes back
    (/repo/raml.go:180-186); validating the annotation dereferences it
    (/repo/validate.go:171).
<<
    annotationTypes: {B: {type: A, description: x}, C: {type: A, description: y}}
    types: {A: any, Y: {type: string, (C): word}}
>>
    Each of unwrapping and validation alone succeeds. *)
Definition d46h : disk :=
  [("a.raml", lib_head,
     mp [("annotationTypes", mp [("B", mp [("type", sc "A"); ("description", sc "x")]); ("C", mp [("type", sc "A"); ("description", sc "y")])]);
         ("types", mp [("A", sc "any"); ("Y", mp [("type", sc "string"); ("(C)", sc "word")])])])].

Theorem C46_lost_annotation_refuted : exists E role n O o text path,
  tidy_files E role /\ tidy_entry E role path text /\ no_uses_in_types E role
  /\ (exists ep p, parse_string E n O o o o false false text path = (Ok ep, p) /\ plain_enums (heap (p_st p)) /\ union_free (heap (p_st p)))
  /\ (exists ep, fst (parse_string E n O o o o true false text path) = Ok ep) /\ (exists ep, fst (parse_string E n O o o o false true text path) = Ok ep)
  /\ fst (parse_string E n O o o o true true text path) = Panic.
Proof.
  exists (on_disk d46h), lib_role, 40, exO, ["a.raml"], text46, "a.raml".
  split; [apply disk_tidy; vm_compute; reflexivity|]. split; [apply disk_entry; [vm_compute; reflexivity|reflexivity|vm_compute; reflexivity]|].
  split; [apply disk_bare; vm_compute; reflexivity|]. split.
  - destruct (says_b_ok (fun h => plain_heap h && no_union h) (parse_string (on_disk d46h) 40 exO ["a.raml"] ["a.raml"] ["a.raml"] false false text46 "a.raml")) as (ep & p & P & H); [vm_compute; reflexivity|].
    exists ep, p. split; [exact P|]. apply andb_prop in H. destruct H as [Q U]. split; [exact (plain_heap_ok _ Q)|exact (no_union_ok _ U)].
  - split; [exists (ELib 0); vm_compute; reflexivity|]. split; [exists (ELib 0); vm_compute; reflexivity|]. vm_compute. reflexivity.
Qed.
Print Assumptions C46_lost_annotation_refuted.

(** A union inherits while its members are being unwrapped: the number of
    members shrinks to those that are compatible and the loop over them goes on
    to the old number (/repo/unwrap.go:331-341).
<<
    types: {O: {properties: {u: string | integer | A}}, P: {properties: {u: string | integer}}, A: [O, P]}
>> *)
Definition d46i : disk :=
  [("a.raml", lib_head,
     mp [("types", mp [("O", mp [("properties", mp [("u", sc "string | integer | A")])]);
                       ("P", mp [("properties", mp [("u", sc "string | integer")])]);
                       ("A", mp [("type", sq [sc "O"; sc "P"])])])])].

Theorem C46_shrunk_union_refuted : exists E role n O o text path,
  tidy_files E role /\ tidy_entry E role path text /\ no_uses_in_types E role
  /\ (exists ep p, parse_string E n O o o o false false text path = (Ok ep, p) /\ plain_enums (heap (p_st p)))
  /\ fst (parse_string E n O o o o true false text path) = Panic /\ fst (parse_string E n O o o o false true text path) = Panic.
Proof.
  exists (on_disk d46i), lib_role, 40, exO, ["a.raml"], text46, "a.raml".
  split; [apply disk_tidy; vm_compute; reflexivity|]. split; [apply disk_entry; [vm_compute; reflexivity|reflexivity|vm_compute; reflexivity]|].
  split; [apply disk_bare; vm_compute; reflexivity|]. split.
  - destruct (says_b_ok (plain_heap) (parse_string (on_disk d46i) 40 exO ["a.raml"] ["a.raml"] ["a.raml"] false false text46 "a.raml")) as (ep & p & P & H); [vm_compute; reflexivity|].
    exists ep, p. split; [exact P|]. exact (plain_heap_ok _ H).
  - split; vm_compute; reflexivity.
Qed.
Print Assumptions C46_shrunk_union_refuted.

(** An [enum] of mappings that is narrowed: comparing two mappings with [==]
    panics (/repo/scalars.go:39-54).
<<
    types: {A: {type: string, enum: [{}]}, B: {type: A, enum: [{}]}}
>> *)
Definition d46j : disk :=
  [("a.raml", lib_head,
     mp [("types", mp [("A", mp [("type", sc "string"); ("enum", sq [mp []])]); ("B", mp [("type", sc "A"); ("enum", sq [mp []])])])])].

Theorem C46_enum_refuted : exists E role n O o text path,
  tidy_files E role /\ tidy_entry E role path text /\ no_uses_in_types E role
  /\ (exists ep p, parse_string E n O o o o false false text path = (Ok ep, p) /\ union_free (heap (p_st p)))
  /\ fst (parse_string E n O o o o true false text path) = Panic /\ fst (parse_string E n O o o o false true text path) = Panic.
Proof.
  exists (on_disk d46j), lib_role, 40, exO, ["a.raml"], text46, "a.raml".
  split; [apply disk_tidy; vm_compute; reflexivity|]. split; [apply disk_entry; [vm_compute; reflexivity|reflexivity|vm_compute; reflexivity]|].
  split; [apply disk_bare; vm_compute; reflexivity|]. split.
  - destruct (says_b_ok (no_union) (parse_string (on_disk d46j) 40 exO ["a.raml"] ["a.raml"] ["a.raml"] false false text46 "a.raml")) as (ep & p & P & H); [vm_compute; reflexivity|].
    exists ep, p. split; [exact P|]. exact (no_union_ok _ H).
  - split; vm_compute; reflexivity.
Qed.
Print Assumptions C46_enum_refuted.
