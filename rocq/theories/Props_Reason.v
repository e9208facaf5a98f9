(** Property theorems: every error of validation has a reason (C65);
    inheritance between scalar types as a whole (C13, C16); recursion marking of
    a whole model (C28). *)
From Coq Require Import ZArith List String Bool Lia.
From Verif Require Import Base Scalars Heap Heap_lemmas Validate Names Pipeline Spec_Validate Spec_Model Spec_Clone
  Spec_Region Spec_Mark Spec_Pipeline Spec_Reason Mark_proofs Pipeline_proofs Reason_proofs Scalar_types Model_check
  Props_Validate Props_Inherit Props_Mark Props_Pipeline.
Import ListNotations.
Open Scope string_scope.
Open Scope list_scope.
Open Scope nat_scope.

(** * C65 *)

(** When the examples, defaults and custom facets of a type are refused, there
    is a part of the type with a sample that it refuses, or with facets that
    break one of the four rules. *)
Theorem C65_type : forall n O h a, facets_keyed h -> commons n O h a = Err ->
  exists d b, part_of h a d /\ get_base h d = Some b /\ (bad_sample O h d b \/ bad_facets O h b).
Proof. exact commons_err. Qed.
Print Assumptions C65_type.

(** When the whole model is refused, a declared type of a visited fragment
    cannot be unwrapped or is refused, or an annotation has no declared type or
    a value that its type refuses. *)
Theorem C65_model : forall n O order R s s',
  wf_heap (heap s) -> ids_unique (heap s) -> no_rec (heap s) -> declared_ok (heap s) R ->
  (forall e a, In e (r_exts R) -> e_def e = Some a -> exists b, get_base (heap s) a = Some b) ->
  validate_shapes n O order R s = (Err, s') ->
  (exists loc a, In loc order /\ declared_in R loc a /\ bad_type n O (heap s) a)
  \/ exists e, In e (r_exts R) /\ bad_ext n O order R (heap s) (heap s') e.
Proof. exact validate_shapes_reason. Qed.
Print Assumptions C65_model.

(** The facet and the sample that [facet_heap] gives with a wrong value, a
    facet that nothing defines, and a required facet left out. *)
Definition facet_other (m : omap gval) : list cell :=
  [CFacets []; CProps []; CSlice [];
   CBase (Base 1 "P" "" "string" None None None None None None [] 2 None None 0 6 true false (Some (SStr estr)));
   CBase (Base 2 "C" "" "string" None None None None None None [] 7 None None 8 1 true false (Some (SStr estr)));
   eb 3 "unit" "string" (SStr estr);
   CProps [("unit", Prop_ "unit" 5 true)]; CSlice [3]; CFacets m].
Example C65_case_facets :
  commons 9 exO (facet_other [("unit", GStr "m")]) 4 = Ok tt
  /\ commons 9 exO (facet_other [("unit", GStr "m"); ("size", GInt 1)]) 4 = Err
  /\ commons 9 exO (facet_other []) 4 = Err
  /\ commons 9 exO (facet_heap (GInt 1) (GStr "abc")) 4 = Err
  /\ commons 9 exO (facet_heap (GStr "m") (GInt 1)) 4 = Err
  /\ facets_keyed (facet_other []).
Proof.
  repeat (split; [reflexivity|]). intros a b m Eb Em.
  do 9 (destruct a as [|a]; [simpl in Eb; try discriminate Eb; injection Eb as <-; simpl in Em; injection Em as <-;
    simpl; (split; [repeat constructor; simpl; tauto|intros k d I; simpl in I; repeat (destruct I as [[= <- <-]|I]; [reflexivity|]); destruct I])|]).
  destruct a; discriminate Eb.
Qed.

(** The annotation with a value that its type refuses, [C54_case]. *)
Example C65_case_annotation :
  let R := r54_done (GMap [("p", GBool true)]) in
  fst (validate_shapes 9 exO ["b.raml"; "a.raml"] R m18) = Err
  /\ fst (validate_shapes 9 exO ["b.raml"] R m18) = Err
  /\ fst (validate_shapes 9 exO ["b.raml"; "a.raml"] (r54_done (GMap [("p", GStr "x")])) m18) = Ok tt.
Proof. cbv zeta. repeat (split; [vm_compute; reflexivity|]). vm_compute. reflexivity. Qed.

(** * C13 *)

(** Between types of equal scalar kind, Inherit as a whole succeeds exactly when
    the computation on the facets does ([C13_refusals]), and the child then has
    the facets so computed. *)
Theorem C13_types : forall n t src s tb sb tl sl tsh ssh r,
  t <> src -> get_base (heap s) t = Some tb -> get_base (heap s) src = Some sb -> b_visited sb = false ->
  get_facets (heap s) (b_facets tb) = Some tl -> get_facets (heap s) (b_facets sb) = Some sl ->
  b_shape tb = Some tsh -> b_shape sb = Some ssh ->
  match tsh, ssh with
  | SInt f, SInt g => r = rbind (int_inherit f g) (fun x => Ok (SInt x))
  | SNum f, SNum g => r = rbind (num_inherit f g) (fun x => Ok (SNum x))
  | SStr f, SStr g => r = rbind (str_inherit f g) (fun x => Ok (SStr x))
  | SFile f, SFile g => r = rbind (file_inherit f g) (fun x => Ok (SFile x))
  | SBool f, SBool g => r = rbind (bool_inherit f g) (fun x => Ok (SBool x))
  | SDateTime f, SDateTime g => r = rbind (datetime_inherit f g) (fun x => Ok (SDateTime x))
  | SNil, SNil | SDateTimeOnly, SDateTimeOnly | SDateOnly, SDateOnly | STimeOnly, STimeOnly => r = Ok tsh
  | _, _ => False
  end ->
  exists s', inherit (S n) t src s = (match r with Ok _ => Ok t | Err => Err | Panic => Panic | OutOfFuel => OutOfFuel end, s')
    /\ forall sh, r = Ok sh -> shape_at (heap s') t sh.
Proof.
  intros n t src s tb sb tl sl tsh ssh r N T S V F1 F2 St Ss H.
  refine (inherit_scalars n t src s tb sb tl sl tsh ssh r N T S V F1 F2 St Ss _ _);
    destruct tsh, ssh; try contradiction H; try discriminate; subst r; reflexivity.
Qed.
Print Assumptions C13_types.

(** * C16 *)

(** A JSON type derives from another exactly when the texts of the schemas are
    equal or one of them is empty; it then has the schema of the parent. *)
Theorem C16_json : forall n t src s tb sb tl sl a b,
  t <> src -> get_base (heap s) t = Some tb -> get_base (heap s) src = Some sb -> b_visited sb = false ->
  get_facets (heap s) (b_facets tb) = Some tl -> get_facets (heap s) (b_facets sb) = Some sl ->
  b_shape tb = Some (SJSON a) -> b_shape sb = Some (SJSON b) ->
  (a <> "" /\ b <> "" /\ a <> b -> fst (inherit (S n) t src s) = Err)
  /\ (a = "" \/ b = "" \/ a = b -> exists s', inherit (S n) t src s = (Ok t, s') /\ shape_at (heap s') t (SJSON b)).
Proof. exact inherit_json. Qed.
Print Assumptions C16_json.

Definition m16j : st := model
  [Decl "P" "json" (SJSON "{}") [] None; Decl "A" "json" (SJSON "{}") [0] None; Decl "B" "json" (SJSON "[]") [0] None] [].
Example C16_json_case : fst (inherit 1 4 0 m16j) = Ok 4 /\ fst (inherit 1 8 0 m16j) = Err.
Proof. split; vm_compute; reflexivity. Qed.
Example C13_types_case : fst (inherit 1 4 0 (model
  [Decl "P" "string" (str_len None (Some 5%Z)) [] None; Decl "C" "string" (str_len (Some 1%Z) (Some 4%Z)) [0] None] [])) = Ok 4
  /\ fst (inherit 1 4 0 (model
  [Decl "P" "string" (str_len None (Some 5%Z)) [] None; Decl "C" "string" (str_len (Some 1%Z) (Some 6%Z)) [0] None] [])) = Err.
Proof. split; vm_compute; reflexivity. Qed.

(** * C28 *)

Lemma mark_all_app n l1 : forall l2 s s1 s2, mark_all n l1 s = (Ok tt, s1) -> mark_all n l2 s1 = (Ok tt, s2) ->
  mark_all n (l1 ++ l2) s = (Ok tt, s2).
Proof.
  induction l1 as [|a l1 IH]; intros l2 s s1 s2 H1 H2; [injection H1 as <-; exact H2|].
  cbn [mark_all app] in *. apply bind_inv in H1. destruct H1 as (o & t & E & H1).
  rewrite (bind_ok _ _ _ _ _ E). eauto.
Qed.

Lemma mark_fragments_all n R order : forall s s', mark_fragments n order (r_libs R) (r_frags R) s = (Ok tt, s') ->
  exists l, mark_all n l s = (Ok tt, s') /\ forall loc a, In loc order -> declared_in R loc a -> In a l.
Proof.
  induction order as [|k order IH]; intros s s' H.
  { exists []. split; [exact H|intros loc a []]. }
  cbn [mark_fragments] in H. destruct (oget k (r_frags R)) as [f|] eqn:Ef.
  - apply bind_inv in H. destruct H as ([] & s1 & E1 & H). destruct (IH _ _ H) as (l & E2 & C).
    assert (X : exists l1, mark_all n l1 s = (Ok tt, s1) /\ forall a, declared_in R k a -> In a l1).
    { destruct f as [i|uses [a|]|]; cbn [mark_fragment] in E1; [| |discriminate E1|].
      - destruct (nth_error (r_libs R) i) as [lib|] eqn:En; [|discriminate E1].
        apply bind_inv in E1. destruct E1 as ([] & t & Ea & Et).
        exists (map snd (l_annots lib) ++ map snd (l_types lib)). split; [eapply mark_all_app; eauto|].
        intros a J. apply in_or_app.
        destruct J as [i' lib' k' El En' Hx|i' lib' k' El En' Hx|uses El]; rewrite Ef in El; try discriminate El;
          injection El as <-; rewrite En in En'; injection En' as <-;
          [right|left]; apply in_map_iff; exists (k', a); auto.
      - exists [a]. split; [exact E1|]. intros x J.
        destruct J as [i' lib' k' El|i' lib' k' El|uses' El]; rewrite Ef in El; try discriminate El.
        injection El as _ <-. now left.
      - exists []. split; [exact E1|]. intros x J.
        destruct J as [i' lib' k' El|i' lib' k' El|uses' El]; rewrite Ef in El; discriminate El. }
    destruct X as (l1 & M1 & C1). exists (l1 ++ l). split; [eapply mark_all_app; eauto|].
    intros loc a [<-|I] J; apply in_or_app; [left; auto|right; eauto].
  - destruct (IH _ _ H) as (l & E & C). exists l. split; [exact E|]. intros loc a [<-|I] J; [|eauto].
    destruct J as [i' lib' k' El|i' lib' k' El|uses' El]; rewrite Ef in El; discriminate El.
Qed.

(** After the marking of a whole model the descent from every type, annotation
    type and data type of the visited fragments is finite. *)
Theorem C28_model : forall n order R s s',
  maps_keyed (heap s) -> (forall x b, get_base (heap s) x = Some b -> b_visited b = false) ->
  mark_fragments n order (r_libs R) (r_frags R) s = (Ok tt, s') ->
  forall loc a, In loc order -> declared_in R loc a -> finite_descent (heap s') a.
Proof.
  intros n order R s s' K F H loc a I J. destruct (mark_fragments_all n R order s s' H) as (l & E & C).
  exact (C28_finite n l s s' a K F E (C loc a I J)).
Qed.
Print Assumptions C28_model.

(** The recursive types of [C28_case] as an annotation type and a data type. *)
Definition r28 : raml := Raml [Lib [] [("Node", 0)] []] [("a.raml", FLib 0); ("b.raml", FDT [] (Some 24))] [] [] [].
Example C28_model_case : fst (mark_fragments 20 ["b.raml"; "a.raml"] (r_libs r28) (r_frags r28) m28) = Ok tt
  /\ declared_in r28 "a.raml" 0 /\ declared_in r28 "b.raml" 24.
Proof.
  split; [vm_compute; reflexivity|].
  split; [apply (di_annot _ _ _ 0 (Lib [] [("Node", 0)] []) "Node"); try reflexivity; now left|].
  apply (di_data _ _ _ []). reflexivity.
Qed.
