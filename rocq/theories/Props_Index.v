(** Looking up declared types by file and name after parsing (C69). *)
From Coq Require Import ZArith List String Bool Lia.
From Verif Require Import Base Scalars Heap Validate Names Yaml Spec_Yaml Pipeline Decode Parse Spec_Parse Props_Validate Props_Parse Props_Fresh.
From Verif Require Parse_index.
Import ListNotations.
Open Scope string_scope.
Open Scope list_scope.
Open Scope nat_scope.

(** * C69 *)

(** After a successful parse without unwrapping, GetTypeFromFragmentPtr finds
    each type of each loaded library under the file and the name of the type, and
    GetAnnotationTypeFromFragmentPtr each annotation type: whatever the files
    are, in whatever order they are loaded, and whatever further files resolution
    loads. The files must not include themselves through a [uses]. *)
Theorem C69_found_partial : forall E n O o1 o2 o3 v text path ep p,
  no_mixed_cycle E -> e_read (d_y E) path = Some text ->
  parse_string E n O o1 o2 o3 false v text path = (Ok ep, p) -> finds_all p.
Proof.
  intros E n O o1 o2 o3 v text path ep p (rank & R) Rd H.
  exact (proj1 (Parse_index.inv_finds E p (Parse_index.parse_index E rank R n O o1 o2 o3 v text path ep p Rd H))).
Qed.
Print Assumptions C69_found_partial.

(** They find nothing else when no file has the same key twice at its top. *)
Theorem C69_only_partial : forall E n O o1 o2 o3 v text path ep p,
  no_mixed_cycle E -> single_keys E -> e_read (d_y E) path = Some text ->
  parse_string E n O o1 o2 o3 false v text path = (Ok ep, p) -> finds_only p.
Proof.
  intros E n O o1 o2 o3 v text path ep p (rank & R) Sk Rd H.
  exact (proj2 (Parse_index.inv_finds E p (Parse_index.parse_index E rank R n O o1 o2 o3 v text path ep p Rd H)) Sk).
Qed.
Print Assumptions C69_only_partial.

Fixpoint top_keys (l : list ynode) : list string :=
  match l with
  | k :: _ :: l' => y_value k :: top_keys l'
  | _ => []
  end.
Lemma pairs_keys l ps : pairs_of l ps -> map fst ps = top_keys l.
Proof. induction 1; cbn; congruence. Qed.
Fixpoint distinct (l : list string) : bool :=
  match l with
  | [] => true
  | x :: l' => negb (existsb (String.eqb x) l') && distinct l'
  end.
Lemma distinct_ok l : distinct l = true -> NoDup l.
Proof.
  induction l as [|x l IH]; cbn; [constructor|]. intros H. apply andb_prop in H. destruct H as [H1 H2]. constructor; [|auto].
  intros J. apply negb_true_iff in H1. assert (X : existsb (String.eqb x) l = true) by (apply existsb_exists; exists x; split; [exact J|apply String.eqb_refl]).
  congruence.
Qed.
Lemma disk_single d : apart d = true -> forallb (fun f => distinct (top_keys (y_content (snd f)))) d = true -> single_keys (on_disk d).
Proof.
  intros A K path v ps T P. destruct (disk_tree d path v A T) as (h & I). rewrite forallb_forall in K. specialize (K _ I).
  rewrite (pairs_keys _ _ P). exact (distinct_ok _ K).
Qed.

(** Two libraries, each with a type [T] and an annotation type [T]:
<<
    a.raml: uses: {b: b.raml}, types: {T: b.T, U: !include t.raml}, annotationTypes: {T: string}
    b.raml: types: {T: integer}, annotationTypes: {T: boolean}
    t.raml: type: string
>> *)
Definition d69 : disk :=
  [("a.raml", lib_head, mp [("uses", mp [("b", sc "b.raml")]); ("types", mp [("T", sc "b.T"); ("U", inc "t.raml")]); ("annotationTypes", mp [("T", sc "string")])]);
   ("b.raml", lib_head, mp [("types", mp [("T", sc "integer")]); ("annotationTypes", mp [("T", sc "boolean")])]);
   ("t.raml", dt_head, mp [("type", sc "string")])].

Definition named (p : pst) (loc name : string) : option string * option string :=
  let ty i := match index_get loc name i with
              | Ok (Some a) => match get_base (heap (p_st p)) a with Some b => Some (b_type b) | None => None end
              | _ => None
              end in
  (ty (p_types p), ty (p_annots p)).

Example C69_case : no_mixed_cycle (on_disk d69) /\ single_keys (on_disk d69)
  /\ fst (whole d69 60 false false "a.raml") = Ok (ELib 0)
  /\ map (fun x => named (snd (whole d69 60 false false "a.raml")) (fst x) (snd x))
       [("a.raml", "T"); ("a.raml", "U"); ("b.raml", "T"); ("b.raml", "U"); ("t.raml", "T")]
     = [(Some "integer", Some "string"); (Some "string", None); (Some "integer", Some "boolean"); (None, None); (None, None)].
Proof.
  split; [apply (disk_mixed d69 (fun x => if String.eqb x "t.raml" then 0 else 1)); vm_compute; reflexivity|].
  split; [apply disk_single; vm_compute; reflexivity|]. split; vm_compute; reflexivity.
Qed.

(** ** What fails *)

(** With an include that leads back through [uses], the library is loaded twice,
    see [C44_loaded_twice_refuted]; the lookup then finds a type of the object
    that is not in the cache. *)
Theorem C69_found_refuted : exists E n O o text path ep p,
  single_keys E /\ e_read (d_y E) path = Some text
  /\ parse_string E n O o o o false false text path = (Ok ep, p) /\ ~ finds_all p.
Proof.
  exists (on_disk d44b), 40, exO, ["m.raml"; "d.raml"], (lib_head ++ "m.raml")%string, "m.raml", (ELib 1), (snd (whole d44b 40 false false "m.raml")).
  split; [apply disk_single; vm_compute; reflexivity|]. split; [reflexivity|]. split; [vm_compute; reflexivity|].
  intros F.
  assert (Q : exists lib a, oget "m.raml" (p_frags (snd (whole d44b 40 false false "m.raml"))) = Some (FLib 0)
     /\ nth_error (p_libs (snd (whole d44b 40 false false "m.raml"))) 0 = Some lib
     /\ oget "A" (l_types lib) = Some a
     /\ index_get "m.raml" "A" (p_types (snd (whole d44b 40 false false "m.raml"))) <> Ok (Some a)).
  { eexists. eexists. split; [vm_compute; reflexivity|]. split; [vm_compute; reflexivity|]. split; [vm_compute; reflexivity|]. vm_compute. discriminate. }
  destruct Q as (lib & a & Q1 & Q2 & Q3 & Q4). apply Q4. exact (proj1 (F _ _ _ Q1 Q2) _ _ Q3).
Qed.
Print Assumptions C69_found_refuted.

(** With a second [types] the library has the types of the second only, and the
    lookup still finds those of the first:
<<
    a.raml: types: {A: string}, types: {B: string}
>> *)
Definition d69x : disk := [("a.raml", lib_head, mp [("types", mp [("A", sc "string")]); ("types", mp [("B", sc "string")])])].
Theorem C69_only_refuted : exists E n O o text path ep p,
  no_mixed_cycle E /\ e_read (d_y E) path = Some text
  /\ parse_string E n O o o o false false text path = (Ok ep, p) /\ ~ finds_only p.
Proof.
  exists (on_disk d69x), 40, exO, ["a.raml"], (lib_head ++ "a.raml")%string, "a.raml", (ELib 0), (snd (whole d69x 40 false false "a.raml")).
  split; [apply (disk_mixed d69x (fun x => 0)); vm_compute; reflexivity|]. split; [reflexivity|]. split; [vm_compute; reflexivity|].
  intros F.
  assert (Q : exists a lib, index_get "a.raml" "A" (p_types (snd (whole d69x 40 false false "a.raml"))) = Ok (Some a)
     /\ oget "a.raml" (p_frags (snd (whole d69x 40 false false "a.raml"))) = Some (FLib 0)
     /\ nth_error (p_libs (snd (whole d69x 40 false false "a.raml"))) 0 = Some lib /\ oget "A" (l_types lib) = None).
  { eexists. eexists. split; [vm_compute; reflexivity|]. split; [vm_compute; reflexivity|]. split; [vm_compute; reflexivity|]. vm_compute. reflexivity. }
  destruct Q as (a & lib & Q1 & Q2 & Q3 & Q4). destruct (proj1 (F _ _ _) Q1) as (l & lib' & G1 & G2 & G3).
  rewrite Q2 in G1. injection G1 as <-. rewrite Q3 in G2. injection G2 as <-. rewrite Q4 in G3. discriminate.
Qed.
Print Assumptions C69_only_refuted.
