(** What a successful parse leaves (C61), and what follows for the promises that
    assume a model as the parser leaves it (C26, C31, C41, C54). *)
From Coq Require Import ZArith List String Bool Lia.
From Verif Require Import Base Scalars Heap Names Yaml Spec_Yaml Validate Spec_Validate Spec_Model Spec_Resolve Spec_Clone Model_check
  Pipeline Spec_Pipeline Spec_Names Validate_proofs Pipeline_proofs Decode Parse Spec_Parse Parse_fresh Props_Validate Props_Pipeline Props_Parse.
Import ListNotations.
Open Scope string_scope.
Open Scope list_scope.
Open Scope nat_scope.

(** * C61: a successful parse leaves a complete model *)

(** Every type has a kind, which is the one its type name says; every map and
    slice is there, every reference leads to a type, no two types have the same
    ID or share a map or slice, nothing is marked visited or unwrapped; and all
    declared types are there. *)
Theorem C61_complete : forall E n O o1 o2 o3 text path ep p,
  parse_string E n O o1 o2 o3 false false text path = (Ok ep, p) ->
  fresh_model (heap (p_st p)) /\ numbered (p_st p) /\ declared_ok (heap (p_st p)) (raml_of p)
  /\ forall x b, get_base (heap (p_st p)) x = Some b -> settled b = true.
Proof. exact parse_fresh. Qed.
Print Assumptions C61_complete.

Lemma fresh_no_rec h : fresh_model h -> no_rec h.
Proof. intros (_ & _ & _ & F) a hd (b & G & S). destruct (F a b G) as (_ & _ & N). exact (N hd S). Qed.

(** * C26: validation leaves what was parsed *)

Theorem C26_parsed : forall E n O o1 o2 o3 text path ep p,
  parse_string E n O o1 o2 o3 false true text path = (Ok ep, p) ->
  exists p0, parse_string E n O o1 o2 o3 false false text path = (Ok ep, p0)
    /\ raml_of p = raml_of p0 /\ p_dts p = p_dts p0
    /\ forall z, z < List.length (heap (p_st p0)) -> nth_error (heap (p_st p)) z = nth_error (heap (p_st p0)) z.
Proof.
  intros E n O o1 o2 o3 text path ep p H. destruct (parse_validated _ _ _ _ _ _ _ _ _ _ H) as (p0 & H0 & _ & V & R & D).
  exists p0. split; auto. split; auto. split; auto. destruct (C61_complete _ _ _ _ _ _ _ _ _ _ H0) as (F & _ & Dc & _).
  pose proof F as (Wf & Iu & _ & _). exact (C26_untouched n O o3 _ _ _ _ Wf Iu (fresh_no_rec _ F) Dc V).
Qed.
Print Assumptions C26_parsed.

(** * C31: examples and defaults of what was parsed and validated *)

Theorem C31_parsed : forall E n O o1 o2 o3 text path ep p,
  parse_string E n O o1 o2 o3 false true text path = (Ok ep, p) ->
  forall loc a, In loc o3 -> declared_in (raml_of p) loc a ->
  exists si us sj, unwrapped_copy n a si us sj
    /\ check n O (heap sj) us = Ok tt /\ commons n O (heap sj) us = Ok tt
    /\ (forall d db v, part_of (heap sj) us d -> get_base (heap sj) d = Some db -> sample db v -> returns_nil O (heap sj) d v)
    /\ exists y, heap (p_st p) = heap sj ++ y.
Proof.
  intros E n O o1 o2 o3 text path ep p H loc a J Di. destruct (parse_validated _ _ _ _ _ _ _ _ _ _ H) as (p0 & H0 & _ & V & R & D).
  destruct (C61_complete _ _ _ _ _ _ _ _ _ _ H0) as (F & _ & Dc & _). pose proof F as (Wf & Iu & _ & Fl). rewrite R in Di.
  destruct (C31_every_type n O o3 _ _ _ Wf Iu (fresh_no_rec _ F) Dc V loc a J Di) as (b & us & sj & G & W & X & Y & C1 & C2 & C3).
  destruct (Fl a b G) as (_ & Un & _). destruct W as [[W _]|(_ & si & _ & W)]; [congruence|].
  exists si, us, sj. auto 10.
Qed.
Print Assumptions C31_parsed.

(** * C54: annotations of what was parsed and validated *)

Theorem C54_parsed : forall E n O o1 o2 o3 text path ep p,
  parse_string E n O o1 o2 o3 false true text path = (Ok ep, p) ->
  forall e, In e (p_exts p) -> exists a, e_def e = Some a /\ refers (raml_of p) (e_loc e) (e_name e) a
    /\ exists us si sj, unwrapped_copy n a si us sj /\ (exists y, heap (p_st p) = heap sj ++ y)
       /\ validate n O (heap (p_st p)) us (e_value e) = Ok tt.
Proof.
  intros E n O o1 o2 o3 text path ep p H e J. destruct (parse_validated _ _ _ _ _ _ _ _ _ _ H) as (p0 & H0 & An & V & R & D).
  destruct (C61_complete _ _ _ _ _ _ _ _ _ _ H0) as (F & _ & Dc & _). pose proof F as (Wf & Iu & _ & Fl).
  assert (J0 : In e (p_exts p0)). { change (p_exts p0) with (r_exts (raml_of p0)). rewrite <- R. exact J. }
  destruct (An e J0) as (a & Q & Rf & Ba). exists a. split; auto. rewrite R. split; auto.
  assert (Hd : forall a', e_def e = Some a' -> exists b, get_base (heap (p_st p0)) a' = Some b).
  { intros a' Q'. rewrite Q in Q'. injection Q' as <-. now apply has_base in Ba. }
  destruct (C54_validated n O o3 _ _ _ Wf Iu (fresh_no_rec _ F) Dc V e J0 Hd) as (db & b & Q' & G & W).
  rewrite Q in Q'. injection Q' as <-. destruct (Fl a b G) as (_ & Un & _). destruct W as [[W _]|(_ & us & si & sj & _ & U & Y & Va)]; [congruence|].
  exists us, si, sj. auto.
Qed.
Print Assumptions C54_parsed.

(** * C41: IDs of what was parsed *)

Theorem C41_parsed : forall E n O o1 o2 o3 text path ep p,
  parse_string E n O o1 o2 o3 false false text path = (Ok ep, p) ->
  forall x y bx by_, get_base (heap (p_st p)) x = Some bx -> get_base (heap (p_st p)) y = Some by_ -> b_id bx = b_id by_ -> x = y.
Proof.
  intros E n O o1 o2 o3 text path ep p H. destruct (C61_complete _ _ _ _ _ _ _ _ _ _ H) as (_ & N & _). exact (proj2 N).
Qed.
Print Assumptions C41_parsed.

(** ** A case: two libraries that use each other, an included data type, a
    union, an array, a type with two parents, facets of its own, an annotation
    and an example. *)
Definition d61 : disk :=
  [("a.raml", lib_head,
    mp [("uses", mp [("b", sc "b.raml")]);
        ("annotationTypes", mp [("note", sc "string")]);
        ("types", mp
          [("T", inc "t.raml");
           ("U", sc "b.S | integer");
           ("V", mp [("type", sc "T[]"); ("(note)", sc "list")]);
           ("W", mp [("type", sq [sc "T"; sc "X"]); ("properties", mp [("z?", sc "b.S")])]);
           ("X", mp [("properties", mp [("q", sc "string")]); ("facets", mp [("unit", sc "string")])]);
           ("Y", mp [("type", sc "string"); ("example", sc "word")])])]);
   ("b.raml", lib_head, mp [("uses", mp [("a", sc "a.raml")]); ("types", mp [("S", sc "string"); ("N", sc "a.U")])]);
   ("c.raml", lib_head, mp [("types", mp [("N", sc "number | string")])]);
   ("t.raml", dt_head, mp [("uses", mp [("c", sc "c.raml")]); ("properties", mp [("s", sc "string"); ("t", sc "c.N?")])])].
Definition whole (d : disk) (n : nat) (u v : bool) (path : string) : res entry_point * pst :=
  match e_read (d_y (on_disk d)) path with
  | Some text => parse_string (on_disk d) n exO (map (fun x => fst (fst x)) d) (map (fun x => fst (fst x)) d) (map (fun x => fst (fst x)) d) u v text path
  | None => (Err, new_raml)
  end.
Definition types_in (p : pst) : list string :=
  flat_map (fun c => match c with CBase b => [b_type b] | _ => [] end) (heap (p_st p)).
Example C61_case : fst (whole d61 40 false false "a.raml") = Ok (ELib 1)
  /\ types_in (snd (whole d61 40 false false "a.raml")) =
     ["string"; "object"; "object"; "string"; "union"; "union"; "union"; "array"; "object"; "object"; "object"; "object"; "string"; "string";
      "string"; "string"; "union"; "union"; "number"; "string"; "nil"; "string"; "integer"; "object"; "string"]
  /\ fst (whole d61 40 false true "a.raml") = Ok (ELib 1)
  /\ map e_value (p_exts (snd (whole d61 40 false true "a.raml"))) = [GStr "list"]
  /\ List.length (heap (p_st (snd (whole d61 40 false false "a.raml")))) < List.length (heap (p_st (snd (whole d61 40 false true "a.raml")))).
Proof.
  split; [vm_compute; reflexivity|]. split; [vm_compute; reflexivity|]. split; [vm_compute; reflexivity|].
  split; [vm_compute; reflexivity|]. apply Nat.ltb_lt. vm_compute. reflexivity.
Qed.
