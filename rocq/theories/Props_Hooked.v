(** Property theorems: hooks that look and object (C75). *)
From Coq Require Import ZArith List String Bool Lia.
From Verif Require Import Base Scalars Heap Validate Spec_Validate Names Rdt Resolve Yaml Pipeline Spec_Pipeline Decode Parse
  Hooked Hooked_proofs Hooked_parse Hooked_asked Props_Validate Props_Parse Props_Fresh.
From Verif Require Heap_lemmas Decode_says.
Import ListNotations.
Open Scope string_scope.
Open Scope list_scope.
Open Scope nat_scope.

(** * Silent hooks *)

(** With hooks that never object, everything is as without hooks: the result
    and the state, also on errors. *)
Theorem C75_silent : forall (H : hooks) E n O o1 o2 o3 u v text path,
  (forall e s, H e s = false) ->
  parse_string_h H E n O o1 o2 o3 u v text path = parse_string E n O o1 o2 o3 u v text path.
Proof.
  intros H E n O o1 o2 o3 u v text path Sl. unfold parse_string_h, parse_string.
  apply (rel_parse_fragment H E (silent_quiet H Sl) n O o1 o2 o3 u v text path). exact Sl.
Qed.
Print Assumptions C75_silent.

Theorem C75_silent_later : forall (H : hooks), (forall e s, H e s = false) ->
  (forall n o1 o2 R s, unwrap_shapes_h H n o1 o2 R s = unwrap_shapes n o1 o2 R s)
  /\ (forall n O order R s, validate_shapes_h H n O order R s = validate_shapes n O order R s)
  /\ (forall n a s, unwrap_h H n a s = unwrap n a s)
  /\ (forall n a s, mark_h H n a s = mark n a s)
  /\ (forall n a b s, inherit_h H n a b s = inherit n a b s).
Proof.
  intros H Sl. pose proof (silent_quiet H Sl) as Q. repeat split; intros.
  - apply (rel_unwrap_shapes H Q n o1 o2 R). exact Sl.
  - apply (rel_validate_shapes H Q n O order R). exact Sl.
  - apply (rel_unwrap H Q n a). exact Sl.
  - apply (rel_mark H n a). exact Sl.
  - apply inherit_same. exact Q.
Qed.
Print Assumptions C75_silent_later.

(** * Hooks that object *)

(** Hooks that leave inheritance alone can make an operation fail, but what
    succeeds gives the same result and the same model. *)
Theorem C75_only_stop : forall (H : hooks) E n O o1 o2 o3 u v text path ep p,
  quiet H ->
  parse_string_h H E n O o1 o2 o3 u v text path = (Ok ep, p) ->
  parse_string E n O o1 o2 o3 u v text path = (Ok ep, p).
Proof.
  intros H E n O o1 o2 o3 u v text path ep p Q R. unfold parse_string_h, parse_string in *.
  exact (proj2 (rel_parse_fragment H E Q n O o1 o2 o3 u v text path new_raml) ep p R eq_refl).
Qed.
Print Assumptions C75_only_stop.

Theorem C75_only_stop_later : forall (H : hooks), quiet H ->
  (forall n o1 o2 R s R' s', unwrap_shapes_h H n o1 o2 R s = (Ok R', s') -> unwrap_shapes n o1 o2 R s = (Ok R', s'))
  /\ (forall n O order R s s', validate_shapes_h H n O order R s = (Ok tt, s') -> validate_shapes n O order R s = (Ok tt, s')).
Proof.
  intros H Q. split; intros.
  - exact (proj2 (rel_unwrap_shapes H Q n o1 o2 R s) R' s' H0 eq_refl).
  - exact (proj2 (rel_validate_shapes H Q n O order R s) tt s' H0 eq_refl).
Qed.
Print Assumptions C75_only_stop_later.

(** * No objection is lost *)

(** UnwrapShapes succeeds only when no hook objected to unwrapping a declared
    type, or to looking for recursion in one. *)
Theorem C75_unwrap_asked : forall (H : hooks) n o1 o2 R s R' s',
  unwrap_shapes_h H n o1 o2 R s = (Ok R', s') ->
  (forall loc a, In loc o1 -> declared_in R loc a -> exists s1, H (BeforeUnwrapShape a) s1 = false)
  /\ (forall loc a, In loc o2 -> declared_in R' loc a -> exists s1, H (BeforeFindAndMarkRecursion a) s1 = false).
Proof. exact unwrap_shapes_asked. Qed.
Print Assumptions C75_unwrap_asked.

(** ValidateShapes succeeds only when no hook objected at the start, to a
    library, to its types, to a data type or to the annotations. *)
Theorem C75_validate_asked : forall (H : hooks) n O order R s s',
  validate_shapes_h H n O order R s = (Ok tt, s') ->
  H BeforeValidateShapes s = false /\ H BeforeValidateFragments s = false
  /\ (exists s1, H BeforeValidateDomainExtensions s1 = false)
  /\ (forall loc l lib, In loc order -> oget loc (r_frags R) = Some (FLib l) -> nth_error (r_libs R) l = Some lib ->
        (exists s1, H (BeforeValidateLibrary lib) s1 = false)
        /\ (exists s1, H (BeforeValidateTypes (l_types lib)) s1 = false)
        /\ (exists s1, H (BeforeValidateTypes (l_annots lib)) s1 = false))
  /\ (forall loc uses a, In loc order -> oget loc (r_frags R) = Some (FDT uses a) -> exists s1, H (BeforeValidateDataType a) s1 = false).
Proof.
  intros H n O order R s s' V. apply validate_shapes_asked in V. destruct V as (A1 & A2 & A3 & A4).
  split; [exact A1|]. split; [exact A2|]. split; [exact A3|]. split.
  - intros loc l lib J F N. destruct (A4 loc _ J F) as (lib' & N' & B1 & B2 & B3 & _). rewrite N in N'. injection N' as <-. auto.
  - intros loc uses a J F. destruct (A4 loc _ J F) as [B _]. exact B.
Qed.
Print Assumptions C75_validate_asked.

(** It also succeeds only when no hook objected to any part of a declared type
    or, when the type is not unwrapped, of its unwrapped copy. *)
Theorem C75_parts_asked : forall (H : hooks) n O order R s s' loc a,
  validate_shapes_h H n O order R s = (Ok tt, s') -> In loc order -> declared_in R loc a ->
  exists s1 b us s2, get_base (heap s1) a = Some b
    /\ (b_unwrapped b = true -> us = a /\ s2 = s1)
    /\ (b_unwrapped b = false -> exists c s3 s4, clone_detached n a s1 = (Ok c, s3) /\ H (BeforeUnwrapShape c) s3 = false
          /\ H (BeforeFindAndMarkRecursion us) s4 = false)
    /\ forall d, part_of (heap s2) us d ->
         H (BeforeValidateShapeCommons d) s2 = false /\ H (BeforeValidateShapeFacets d) s2 = false /\ H (BeforeValidateExamples d) s2 = false
         /\ forall f, Spec_Validate.shape_at (heap s2) d (SObject f) -> H (BeforeValidateObjectShape f) s2 = false.
Proof.
  intros H n O order R s s' loc a V J D. apply validate_shapes_asked in V. destruct V as (_ & _ & _ & A).
  assert (T : type_asked H n a).
  { destruct D as [l lib k F N T|l lib k F N T|uses F].
    - destruct (A loc _ J F) as (lib' & N' & _ & _ & _ & B). rewrite N in N'. injection N' as <-. eauto.
    - destruct (A loc _ J F) as (lib' & N' & _ & _ & _ & B). rewrite N in N'. injection N' as <-. eauto.
    - destruct (A loc _ J F) as (_ & a' & X & B). injection X as <-. exact B. }
  destruct T as (s1 & b & us & s2 & G & U1 & U2 & P). exists s1, b, us, s2. split; [exact G|]. split; [exact U1|]. split; [|exact P].
  intros U. destruct (U2 U) as (c & s3 & C & K & s4 & K'). exists c, s3, s4. auto.
Qed.
Print Assumptions C75_parts_asked.

(** Parsing succeeds only when no hook objected to the text of a type that the
    library declares; a referenced data type is loaded, and a shape made, only
    when no hook objected. *)
Theorem C75_parse_asked : forall (H : hooks) E n O o1 o2 o3 u v text path l p,
  parse_string_h H E n O o1 o2 o3 u v text path = (Ok (ELib l), p) ->
  exists y, document E text = Ok (Some y)
  /\ forall k t, entry k t (y_content y) -> y_value k = "types" \/ y_value k = "annotationTypes" -> y_tag t <> "!!null" ->
     forall k' w, entry k' w (y_content t) -> exists s, H (BeforeMakeNewShape w) s = false.
Proof.
  intros H E n O o1 o2 o3 u v text path l p R. unfold parse_string_h, parse_fragment_h in R.
  apply Decode_says.dbind_inv in R. destruct R as (ep & p1 & D & R).
  assert (ep = ELib l).
  { do 3 (apply Decode_says.dbind_inv in R; destruct R as (? & ? & _ & R)). apply Decode_says.dret_inv in R. symmetry. tauto. }
  subst ep. unfold decode_fragment_h in D. destruct (read_head (Rd text 0)) as [[head| | |] ?]; try discriminate.
  destruct (identify_fragment head) as [[]| | |]; try discriminate; apply Decode_says.dbind_inv in D; destruct D as (x & p2 & D & X);
    try (apply Decode_says.dret_inv in X; destruct X; discriminate).
  exact (decode_lib_asked H E _ _ _ _ _ _ _ _ D).
Qed.
Print Assumptions C75_parse_asked.

(** The same for a file that is a data type. *)
Theorem C75_data_asked : forall (H : hooks) E n O o1 o2 o3 u v text path a p,
  parse_string_h H E n O o1 o2 o3 u v text path = (Ok (EDT a), p) ->
  exists y r, (if has_suffix ".json" path then y = json_document text else document E text = Ok (Some y))
  /\ dt_entries (y_content y) [] [] = Ok r /\ exists s, H (BeforeMakeNewShape (Y KMap "" "" (snd r))) s = false.
Proof.
  intros H E n O o1 o2 o3 u v text path a p R. unfold parse_string_h, parse_fragment_h in R.
  apply Decode_says.dbind_inv in R. destruct R as (ep & p1 & D & R).
  assert (ep = EDT a).
  { do 3 (apply Decode_says.dbind_inv in R; destruct R as (? & ? & _ & R)). apply Decode_says.dret_inv in R. symmetry. tauto. }
  subst ep. unfold decode_fragment_h in D. destruct (read_head (Rd text 0)) as [[head| | |] ?]; try discriminate.
  destruct (identify_fragment head) as [[]| | |]; try discriminate; apply Decode_says.dbind_inv in D; destruct D as (x & p2 & D & X);
    try (apply Decode_says.dret_inv in X; destruct X; discriminate).
  exact (decode_dt_asked H E _ _ _ _ _ _ _ _ D).
Qed.
Print Assumptions C75_data_asked.

(** A parse with unwrapping and validation is decoding, resolution, UnwrapShapes
    and ValidateShapes with the hooks of the caller, so that C75_unwrap_asked,
    C75_validate_asked and C75_parts_asked hold of it; and no hook objected to
    a type that was not known when it was declared being made concrete. *)
Theorem C75_steps : forall (H : hooks) E n O o1 o2 o3 text path ep p,
  parse_string_h H E n O o1 o2 o3 true true text path = (Ok ep, p) ->
  exists p1 p2 p3 R s3 s, decode_fragment_h H E n text path new_raml = (Ok ep, p1)
  /\ rounds H E n n p1 p2 /\ heap (p_st p3) = heap (p_st p2)
  /\ unwrap_shapes_h H n o1 o2 (raml_of p3) (p_st p3) = (Ok R, s3)
  /\ validate_shapes_h H n O o3 (raml_of (with_raml p3 s3 R)) s3 = (Ok tt, s).
Proof.
  intros H E n O o1 o2 o3 text path ep p R. destruct (parse_steps _ _ _ _ _ _ _ _ _ _ _ R) as (p1 & p2 & p3 & R' & s3 & s & A & B & C).
  exists p1, p2, p3, R', s3, s. split; [exact A|]. split; [|exact C]. exact (proj2 (settle_all_asked _ _ _ _ _ _ _ _ B)).
Qed.
Print Assumptions C75_steps.

Theorem C75_calls : forall (H : hooks),
  (forall E n path p a p', parse_dt_h H E n path p = (Ok a, p') -> H (BeforeParseDataType path) (p_st p) = false)
  /\ (forall E i1 i2 v name loc p a p', shape_yaml_h H E i1 i2 v name loc p = (Ok a, p') -> H (BeforeMakeNewShape v) (p_st p) = false)
  /\ (forall E i1 i2 a t fs p p', concrete_yaml_h H E i1 i2 a t fs p = (Ok tt, p') -> exists s, H (BeforeMakeConcreteShape a t fs) s = false)
  /\ (forall n a s r s', unwrap_h H n a s = (Ok r, s') -> H (BeforeUnwrapShape a) s = false)
  /\ (forall n a s r s', mark_h H n a s = (Ok r, s') -> H (BeforeFindAndMarkRecursion a) s = false)
  /\ (forall n a b s r s', inherit_h H n a b s = (Ok r, s') -> H (BeforeInherit a b) s = false).
Proof.
  intros H. repeat split; intros.
  - exact (parse_dt_asked _ _ _ _ _ _ _ H0).
  - exact (proj1 (shape_at_asked _ _ _ _ _ _ _ _ _ _ _ H0)).
  - unfold concrete_yaml_h in H0. apply Decode_says.dbind_inv in H0. destruct H0 as (b & p1 & _ & C). eexists. exact (concrete_asked _ _ _ _ _ _ _ _ _ _ C).
  - exact (unwrap_asked _ _ _ _ _ _ H0).
  - exact (mark_asked _ _ _ _ _ _ H0).
  - exact (inherit_asked _ _ _ _ _ _ _ H0).
Qed.
Print Assumptions C75_calls.

(** A successful inheritance from or into a union was not objected to. *)
Theorem C75_union_calls : forall (H : hooks) n a src s r s' b sb,
  inherit_h H n a src s = (Ok r, s') -> a <> src ->
  get_base (heap s) a = Some b -> get_base (heap s) src = Some sb -> b_visited sb = false ->
  (forall m e, b_shape sb = Some (SUnion m e) -> (forall m' e', b_shape b <> Some (SUnion m' e')) ->
     exists s1, H (BeforeInheritUnionSource a m) s1 = false)
  /\ (forall m e sh, b_shape b = Some (SUnion m e) -> b_shape sb = Some sh -> sh <> SAny -> (forall m' e', sh <> SUnion m' e') ->
     exists s1, H (BeforeInheritUnionTarget a m) s1 = false).
Proof.
  intros H n a src s r s' b sb R D Gb Gs V. pose proof (inherit_union_asked H _ _ _ _ _ _ _ _ R D Gb Gs V) as A. split.
  - intros m e Es N. rewrite Es in A. destruct (b_shape b) as [[]|]; try exact A. exfalso. eapply N. reflexivity.
  - intros m e sh Eb Es NA NU. rewrite Eb, Es in A. destruct sh; try exact A; [congruence|exfalso; eapply NU; reflexivity].
Qed.
Print Assumptions C75_union_calls.

(** * An objection that is lost *)

(** Without the restriction of {!C75_only_stop} the claim is false: an
    objection to inheriting from one member of a union is taken for a member
    that does not match, and the result is another model. *)
Definition d75 : disk :=
  [("a.raml", lib_head,
     mp [("types", mp
          [("P", mp [("properties", mp [("x", sc "S | L")])]);
           ("S", mp [("type", sc "string"); ("pattern", sc "a")]);
           ("L", mp [("type", sc "string"); ("pattern", sc "b")]);
           ("C", mp [("type", sc "P"); ("properties", mp [("x", sc "string")])])])])].

(** Objects to inheriting from a string with the pattern [b]. *)
Definition no_b : hooks := fun e s =>
  match e with
  | BeforeInherit _ src =>
      match get_base (heap s) src with
      | Some b => match b_shape b with Some (SStr f) => match sf_pat f with Some p => String.eqb p "b" | None => false end | _ => false end
      | None => false
      end
  | _ => false
  end.
Definition whole_h (H : hooks) (d : disk) (n : nat) (u v : bool) (path : string) : res entry_point * pst :=
  match e_read (d_y (on_disk d)) path with
  | Some text => parse_string_h H (on_disk d) n exO (map (fun x => fst (fst x)) d) (map (fun x => fst (fst x)) d) (map (fun x => fst (fst x)) d) u v text path
  | None => (Err, new_raml)
  end.
(** The patterns of the property [x] of the type [C]. *)
Definition patterns_at (h : list cell) (a : addr) : list (option string) :=
  match get_base h a with
  | Some b => match b_shape b with
              | Some (SStr f) => [sf_pat f]
              | Some (SUnion m _) =>
                  match get_slice h m with
                  | Some l => flat_map (fun x => match get_base h x with
                                                 | Some c => match b_shape c with Some (SStr f) => [sf_pat f] | _ => [] end
                                                 | None => []
                                                 end) l
                  | None => []
                  end
              | _ => []
              end
  | None => []
  end.
Definition patterns_of (p : pst) : list (option string) :=
  match p_libs p with
  | lib :: _ =>
      match oget "C" (l_types lib) with
      | Some a => match get_base (heap (p_st p)) a with
                  | Some b => match b_shape b with
                              | Some (SObject f) =>
                                  match opt_props (heap (p_st p)) (o_props f) with
                                  | Some l => flat_map (fun x => patterns_at (heap (p_st p)) (p_base (snd x))) l
                                  | None => []
                                  end
                              | _ => []
                              end
                  | None => []
                  end
      | None => []
      end
  | [] => []
  end.

Theorem C75_inherit_refuted : exists (H : hooks) E n O o text path ep p p',
  parse_string_h H E n O o o o true true text path = (Ok ep, p)
  /\ parse_string E n O o o o true true text path = (Ok ep, p')
  /\ patterns_of p <> patterns_of p'.
Proof.
  exists no_b, (on_disk d75), 40, exO, ["a.raml"], (lib_head ++ "a.raml")%string, "a.raml", (ELib 0).
  exists (snd (whole_h no_b d75 40 true true "a.raml")), (snd (whole d75 40 true true "a.raml")).
  assert (A : patterns_of (snd (whole_h no_b d75 40 true true "a.raml")) = [None]) by (vm_compute; reflexivity).
  assert (B : patterns_of (snd (whole d75 40 true true "a.raml")) = [Some "a"; Some "b"]) by (vm_compute; reflexivity).
  split; [vm_compute; reflexivity|]. split; [vm_compute; reflexivity|]. rewrite A, B. discriminate.
Qed.
Print Assumptions C75_inherit_refuted.

(** * Concrete cases *)

(** Hooks that leave inheritance alone and object to one kind of call. *)
Definition objects (f : event -> bool) : hooks := fun e _ => f e.
Definition accepted (r : res entry_point * pst) : bool := match fst r with Ok _ => true | _ => false end.

(** The files of C61: an objection at each place stops the parse, hooks that
    object to nothing that happens do not. *)
Definition placed (f : event -> bool) : bool := accepted (whole_h (objects f) d61 40 true true "a.raml").
Example C75_case :
  placed (fun _ => false) = true
  /\ placed (fun e => match e with BeforeParseDataType p => String.eqb p "t.raml" | _ => false end) = false
  /\ placed (fun e => match e with BeforeParseDataType p => String.eqb p "u.raml" | _ => false end) = true
  /\ placed (fun e => match e with BeforeMakeNewShape v => String.eqb (y_value v) "b.S | integer" | _ => false end) = false
  /\ placed (fun e => match e with BeforeMakeConcreteShape _ t _ => String.eqb t "object" | _ => false end) = false
  /\ placed (fun e => match e with BeforeUnwrapShape _ => true | _ => false end) = false
  /\ placed (fun e => match e with BeforeFindAndMarkRecursion _ => true | _ => false end) = false
  /\ placed (fun e => match e with BeforeInherit _ _ => true | _ => false end) = false
  /\ placed (fun e => match e with BeforeValidateShapes => true | _ => false end) = false
  /\ placed (fun e => match e with BeforeValidateFragments => true | _ => false end) = false
  /\ placed (fun e => match e with BeforeValidateLibrary lib => Nat.eqb (List.length (l_uses lib)) 0 | _ => false end) = false
  /\ placed (fun e => match e with BeforeValidateDataType _ => true | _ => false end) = false
  /\ placed (fun e => match e with BeforeValidateTypes l => Nat.eqb (List.length l) 6 | _ => false end) = false
  /\ placed (fun e => match e with BeforeValidateTypes l => Nat.eqb (List.length l) 7 | _ => false end) = true
  /\ placed (fun e => match e with BeforeValidateDomainExtensions => true | _ => false end) = false
  /\ placed (fun e => match e with BeforeValidateObjectShape _ => true | _ => false end) = false
  /\ placed (fun e => match e with BeforeValidateShapeCommons _ => true | _ => false end) = false
  /\ placed (fun e => match e with BeforeValidateExamples _ => true | _ => false end) = false
  /\ placed (fun e => match e with BeforeValidateShapeFacets _ => true | _ => false end) = false.
Proof. vm_compute. repeat split. Qed.

(** Unions: both calls are made. *)
Definition d75u : disk :=
  [("a.raml", lib_head,
     mp [("types", mp
          [("A", mp [("type", sc "string"); ("pattern", sc "a")]);
           ("P", mp [("properties", mp [("x", sc "A | integer")])]);
           ("C", mp [("type", sc "P"); ("properties", mp [("x", sc "string")])]);
           ("Q", mp [("properties", mp [("x", sc "string")])]);
           ("D", mp [("type", sc "Q"); ("properties", mp [("x", sc "string | A")])])])])].
Example C75_union_case :
  accepted (whole_h (objects (fun _ => false)) d75u 40 true true "a.raml") = true
  /\ accepted (whole_h (objects (fun e => match e with BeforeInheritUnionTarget _ _ => true | _ => false end)) d75u 40 true true "a.raml") = false
  /\ accepted (whole_h (objects (fun e => match e with BeforeInheritUnionSource _ _ => true | _ => false end)) d75u 40 true true "a.raml") = false.
Proof. vm_compute. repeat split. Qed.

(** The hypotheses of {!C75_only_stop} and {!C75_parts_asked} are met by hooks
    that object to something. *)
Example C75_quiet_case : quiet (objects (fun e => match e with BeforeValidateTypes l => Nat.eqb (List.length l) 7 | _ => false end))
  /\ accepted (whole_h (objects (fun e => match e with BeforeValidateTypes l => Nat.eqb (List.length l) 7 | _ => false end)) d61 40 true true "a.raml") = true.
Proof. split; [intros a b s; auto|vm_compute; reflexivity]. Qed.

(** Files reached in several ways: a data type that a used library refers to, a
    library that a data type uses, a data type as the file that is parsed, and a
    type that is declared before the one it refers to. *)
Definition d75n : disk :=
  [("a.raml", lib_head, mp [("uses", mp [("b", sc "b.raml")]); ("types", mp [("L", mp [("type", sc "M"); ("description", sc "x")]); ("M", sc "integer")])]);
   ("b.raml", lib_head, mp [("types", mp [("S", inc "t.raml")])]);
   ("t.raml", dt_head, mp [("uses", mp [("c", sc "c.raml")]); ("properties", mp [("x", sc "c.N")])]);
   ("c.raml", lib_head, mp [("types", mp [("N", mp [("type", sc "string"); ("pattern", sc "y")])])])].
Definition nested (path : string) (f : event -> bool) : bool := accepted (whole_h (objects f) d75n 40 true true path).
Definition making (t : string) (e : event) : bool := match e with BeforeMakeNewShape v => String.eqb (y_value v) t | _ => false end.
Example C75_nested_case :
  nested "a.raml" (fun _ => false) = true /\ nested "t.raml" (fun _ => false) = true
  /\ nested "a.raml" (fun e => match e with BeforeParseDataType p => String.eqb p "t.raml" | _ => false end) = false
  /\ nested "t.raml" (fun e => match e with BeforeParseDataType p => String.eqb p "t.raml" | _ => false end) = true
  /\ nested "a.raml" (making "c.N") = false /\ nested "t.raml" (making "c.N") = false /\ nested "a.raml" (making "d.N") = true
  /\ nested "t.raml" (fun e => match e with BeforeMakeNewShape v => Nat.eqb (List.length (y_content v)) 4 | _ => false end) = false
  /\ nested "a.raml" (fun e => match e with BeforeMakeConcreteShape _ t (Some _) => String.eqb t "integer" | _ => false end) = false.
Proof. vm_compute. repeat split. Qed.
