(** The whole-model operations: ValidateShapes and UnwrapShapes. *)
From Coq Require Import ZArith List String Bool Lia.
From Verif Require Import Base Scalars Heap Heap_lemmas Validate Names Pipeline Spec_Validate Spec_Model Spec_Clone
  Spec_Names Spec_Pipeline Validate_proofs Model_check Pipeline_proofs Props_Validate Props_Inherit.
Import ListNotations.
Open Scope string_scope.
Open Scope list_scope.
Open Scope nat_scope.

(** * C26 *)

Theorem C26_untouched n O order R s r s' :
  wf_heap (heap s) -> ids_unique (heap s) -> no_rec (heap s) -> declared_ok (heap s) R ->
  validate_shapes n O order R s = (r, s') ->
  forall z, z < List.length (heap s) -> nth_error (heap s') z = nth_error (heap s) z.
Proof. exact (validate_shapes_untouched n O order R s r s'). Qed.
Print Assumptions C26_untouched.

(** Nothing at all changes once the model is unwrapped. *)
Theorem C26_unwrapped n O order R s r s' :
  (forall a, declares R a -> exists b, get_base (heap s) a = Some b /\ b_unwrapped b = true) ->
  validate_shapes n O order R s = (r, s') -> s' = s.
Proof. exact (validate_shapes_unwrapped n O order R s r s'). Qed.
Print Assumptions C26_unwrapped.

(** [P: {p: string | integer}; A: {type: P, p: string}; B: {type: P, p: boolean}]
    in one library: [B] is refused, and there is no way around it. *)
Definition r26 : raml :=
  Raml [Lib [("P", 0); ("A", 16); ("B", 24)] [] []] [("a.raml", FLib 0)] [] [] [].
Lemma r26_ok : declared_ok (heap m18) r26.
Proof.
  intros a [lib k [<-|[]] I|lib k [<-|[]] I|loc uses [[= ]|[]]]; [|destruct I].
  destruct I as [[= _ <-]|[[= _ <-]|[[= _ <-]|[]]]]; eexists; vm_compute; reflexivity.
Qed.
Example C26_case : wf_heap (heap m18) /\ ids_unique (heap m18) /\ no_rec (heap m18) /\ declared_ok (heap m18) r26
  /\ fst (validate_shapes 9 exO ["a.raml"] r26 m18) = Err
  /\ List.length (heap m18) < List.length (heap (snd (validate_shapes 9 exO ["a.raml"] r26 m18))).
Proof.
  destruct (fresh_b_sound (heap m18)) as (W & U & _ & F); [vm_compute; reflexivity|].
  split; [exact W|]. split; [exact U|].
  split; [intros a hd (b & E & S); exact (proj2 (proj2 (F _ _ E)) _ S)|]. split; [exact r26_ok|].
  split; [vm_compute; reflexivity|]. vm_compute. lia.
Qed.

(** ... except that the list of GetShapes grows, by the unwrapped copies and
    the recursive shapes in them. [Node: {next?: Node}]. *)
Definition m26 : st := model
  [Decl "Node" "object" (obj 4) [] None] [CProps [("next", Prop_ "next" 0 false)]].
Definition r26s : raml := Raml [Lib [("Node", 0)] [] []] [("a.raml", FLib 0)] [] [] [].
Theorem C26_shape_list_refuted :
  ~ (forall n O order R s s',
       fresh_model (heap s) -> declared_ok (heap s) R ->
       validate_shapes n O order R s = (Ok tt, s') -> st_shapes s' = st_shapes s).
Proof.
  intros H.
  assert (E : exists s', validate_shapes 9 exO ["a.raml"] r26s m26 = (Ok tt, s')
     /\ List.length (st_shapes s') = 2 + List.length (st_shapes m26)).
  { eexists. split; [vm_compute; reflexivity|]. vm_compute. reflexivity. }
  destruct E as (s' & E & L).
  assert (F : fresh_model (heap m26)) by (apply fresh_b_sound; vm_compute; reflexivity).
  assert (D : declared_ok (heap m26) r26s).
  { intros a [lib k [<-|[]] I|lib k [<-|[]] I|loc uses [[= ]|[]]]; [|destruct I].
    destruct I as [[= _ <-]|[]]; eexists; vm_compute; reflexivity. }
  rewrite (H 9 exO _ _ _ _ F D E) in L. lia.
Qed.
Print Assumptions C26_shape_list_refuted.

Example C26_unwrapped_case : exists R' s', unwrap_shapes 9 ["a.raml"] ["a.raml"] r26s m26 = (Ok R', s')
  /\ (forall a, declares R' a -> exists b, get_base (heap s') a = Some b /\ b_unwrapped b = true)
  /\ fst (validate_shapes 9 exO ["a.raml"] R' s') = Ok tt.
Proof.
  do 2 eexists. split; [vm_compute; reflexivity|]. split; [|vm_compute; reflexivity].
  intros a [lib k [<-|[]] I|lib k [<-|[]] I|loc uses [[= ]|[]]]; [|destruct I].
  destruct I as [[= _ <-]|[]]; eexists; split; vm_compute; reflexivity.
Qed.

(** * C52 *)

(** The three types of [m18] in two libraries: the fragments are visited in the
    order of a Go map, and the verdict depends on it. *)
Definition r52 : raml :=
  Raml [Lib [("P", 0); ("A", 16)] [] []; Lib [("B", 24)] [] [("l", Some 0)]]
    [("a.raml", FLib 0); ("b.raml", FLib 1)] [] [] [].
Theorem C52_order_refuted :
  ~ (forall n o1 o1' o2 R s,
       fresh_model (heap s) -> declared_ok (heap s) R ->
       (forall k, In k o1 <-> exists f, In (k, f) (r_frags R)) -> NoDup o1 ->
       (forall k, In k o1' <-> In k o1) -> NoDup o1' ->
       is_ok (fst (unwrap_shapes n o1 o2 R s)) = is_ok (fst (unwrap_shapes n o1' o2 R s))).
Proof.
  intros H.
  assert (D : declared_ok (heap m18) r52).
  { intros a [lib k I0 I|lib k I0 I|loc uses I0].
    - destruct I0 as [<-|[<-|[]]]; simpl in I; unfold has_type in I; simpl in I;
        repeat (destruct I as [[= _ <-]|I]; [eexists; vm_compute; reflexivity|]); destruct I.
    - destruct I0 as [<-|[<-|[]]]; destruct I.
    - destruct I0 as [[= ]|[[= ]|[]]]. }
  specialize (H 9 ["a.raml"; "b.raml"] ["b.raml"; "a.raml"] ["a.raml"; "b.raml"] r52 m18 m18_fresh D).
  assert (E1 : is_ok (fst (unwrap_shapes 9 ["a.raml"; "b.raml"] ["a.raml"; "b.raml"] r52 m18)) = true) by (vm_compute; reflexivity).
  assert (E2 : is_ok (fst (unwrap_shapes 9 ["b.raml"; "a.raml"] ["a.raml"; "b.raml"] r52 m18)) = false) by (vm_compute; reflexivity).
  assert (true = false); [|discriminate]. rewrite <- E1 at 1. rewrite <- E2. apply H.
  - intros k. split.
    + intros [<-|[<-|[]]]; eexists; [left|right; left]; reflexivity.
    + intros (f & [[= <- _]|[[= <- _]|[]]]); simpl; auto.
  - repeat constructor; simpl; intuition discriminate.
  - simpl. tauto.
  - repeat constructor; simpl; intuition discriminate.
Qed.
Print Assumptions C52_order_refuted.

(** * C53 *)

(** In a library whose types are still its own, the index has them. *)
Theorem C53_library_partial n o1 o2 R s R' s' loc l lib :
  unwrap_shapes n o1 o2 R s = (Ok R', s') -> NoDup o1 -> In loc o1 ->
  oget loc (r_frags R) = Some (FLib l) -> nth_error (r_libs R) l = Some lib ->
  (forall loc', oget loc' (r_frags R) = Some (FLib l) -> loc' = loc) ->
  NoDup (map fst (l_types lib)) -> NoDup (map fst (l_annots lib)) ->
  named_as s (l_types lib) -> named_as s (l_annots lib) ->
  nth_error (r_libs R') l = Some lib ->
  (forall k a, In (k, a) (l_types lib) -> index_get loc k (r_types R') = Ok (Some a))
  /\ (forall k a, In (k, a) (l_annots lib) -> index_get loc k (r_annots R') = Ok (Some a)).
Proof. exact (unwrap_shapes_indexed n o1 o2 R s R' s' loc l lib). Qed.
Print Assumptions C53_library_partial.

Example C53_library_case : exists R' s', unwrap_shapes 9 ["a.raml"; "b.raml"] ["a.raml"; "b.raml"] r52 m18 = (Ok R', s')
  /\ nth_error (r_libs R') 0 = nth_error (r_libs r52) 0 /\ nth_error (r_libs R') 1 = nth_error (r_libs r52) 1
  /\ named_as m18 [("P", 0); ("A", 16)] /\ named_as m18 [("B", 24)].
Proof.
  do 2 eexists. split; [vm_compute; reflexivity|]. split; [vm_compute; reflexivity|]. split; [vm_compute; reflexivity|].
  split; intros k a I; simpl in I; repeat (destruct I as [[= <- <-]|I]; [eexists; split; vm_compute; reflexivity|]); destruct I.
Qed.

(** The shape of a data type is in the index under its own name. *)
Theorem C53_data_type n o1 o2 R s R' s' loc uses us :
  unwrap_shapes n o1 o2 R s = (Ok R', s') -> NoDup o1 -> In loc o1 ->
  oget loc (r_frags R') = Some (FDT uses (Some us)) ->
  exists b, get_base (heap s') us = Some b /\ index_get loc (b_name b) (r_types R') = Ok (Some us).
Proof. exact (unwrap_shapes_data n o1 o2 R s R' s' loc uses us). Qed.
Print Assumptions C53_data_type.

Example C53_data_type_case : exists R' s',
  unwrap_shapes 9 ["a.raml"; "d.raml"] ["a.raml"; "d.raml"]
    (Raml [Lib [("P", 0)] [] []] [("a.raml", FLib 0); ("d.raml", FDT [("l", Some 0)] (Some 16))] [] [] []) m18 = (Ok R', s')
  /\ oget "d.raml" (r_frags R') = Some (FDT [("l", Some 0)] (Some 16)).
Proof. do 2 eexists. split; [vm_compute; reflexivity|]. vm_compute. reflexivity. Qed.

(** [X: any; A: {type: X}; B: {type: X}]: afterwards [B] is [X] in the library
    and nothing in the index, which gives [B] for [X]. *)
Definition m53 : st := model
  [Decl "X" "any" SAny [] None; Decl "A" "any" SAny [0] None; Decl "B" "any" SAny [0] None] [].
Definition l53 : omap addr := [("X", 0); ("A", 4); ("B", 8)].
Definition r53 : raml := Raml [Lib l53 [] []] [("a.raml", FLib 0)] [] [] [].
Theorem C53_library_refuted :
  ~ (forall n o1 o2 R s R' s' loc l lib lib' k a,
       fresh_model (heap s) -> declared_ok (heap s) R ->
       unwrap_shapes n o1 o2 R s = (Ok R', s') -> NoDup o1 -> In loc o1 ->
       oget loc (r_frags R) = Some (FLib l) -> nth_error (r_libs R) l = Some lib ->
       named_as s (l_types lib) ->
       nth_error (r_libs R') l = Some lib' -> oget k (l_types lib') = Some a ->
       index_get loc k (r_types R') = Ok (Some a)).
Proof.
  intros H.
  assert (E : exists R' s', unwrap_shapes 9 ["a.raml"] ["a.raml"] r53 m53 = (Ok R', s')
     /\ nth_error (r_libs R') 0 = Some (Lib [("X", 0); ("A", 4); ("B", 0)] [] [])
     /\ index_get "a.raml" "X" (r_types R') = Ok (Some 8) /\ index_get "a.raml" "B" (r_types R') = Ok None).
  { do 2 eexists. repeat (split; [vm_compute; reflexivity|]). vm_compute. reflexivity. }
  destruct E as (R' & s' & E1 & E2 & E3 & E4).
  assert (F : fresh_model (heap m53)) by (apply fresh_b_sound; vm_compute; reflexivity).
  assert (D : declared_ok (heap m53) r53).
  { intros a [lib k [<-|[]] I|lib k [<-|[]] I|loc uses [[= ]|[]]]; [|destruct I].
    unfold has_type in I; simpl in I; repeat (destruct I as [[= _ <-]|I]; [eexists; vm_compute; reflexivity|]); destruct I. }
  assert (N : named_as m53 l53).
  { intros k a I; simpl in I; repeat (destruct I as [[= <- <-]|I]; [eexists; split; vm_compute; reflexivity|]); destruct I. }
  specialize (H 9 ["a.raml"] ["a.raml"] r53 m53 R' s' "a.raml" 0 (Lib l53 [] []) (Lib [("X", 0); ("A", 4); ("B", 0)] [] []) "X" 0 F D E1).
  rewrite E3 in H. enough (8 = 0) by discriminate. enough (Q : Ok (Some 8) = Ok (Some 0)) by (inversion Q).
  apply H; auto; try reflexivity.
  - repeat constructor; simpl; tauto.
  - now left.
Qed.
Print Assumptions C53_library_refuted.

(** * C31 *)

(** Once the whole model validates, every type declared in a visited fragment
    passed Check, and so did its examples and defaults and those of all its
    parts: the type itself if it is unwrapped, its unwrapped copy otherwise. *)
Theorem C31_every_type n O order R s s' :
  wf_heap (heap s) -> ids_unique (heap s) -> no_rec (heap s) -> declared_ok (heap s) R ->
  validate_shapes n O order R s = (Ok tt, s') ->
  forall loc a, In loc order -> declared_in R loc a ->
  exists b us sj, get_base (heap s) a = Some b
    /\ ((b_unwrapped b = true /\ us = a)
        \/ (b_unwrapped b = false /\ exists si, (exists x, heap si = heap s ++ x) /\ unwrapped_copy n a si us sj))
    /\ (exists x, heap sj = heap s ++ x) /\ (exists y, heap s' = heap sj ++ y)
    /\ check n O (heap sj) us = Ok tt /\ commons n O (heap sj) us = Ok tt
    /\ forall d db v, part_of (heap sj) us d -> get_base (heap sj) d = Some db -> sample db v -> returns_nil O (heap sj) d v.
Proof.
  intros W U NR D H loc a I J.
  destruct (validate_shapes_every n O order R s s' W U NR D H loc a I J) as (b & us & sj & A & B & C & Y & K & L).
  exists b, us, sj. repeat (split; [assumption|]). intros d db v. exact (C31_samples_conform n O (heap sj) us d db v L).
Qed.
Print Assumptions C31_every_type.

(** * C54 *)

(** What a resolved annotation refers to. *)
Theorem C54_declared R l l' : resolve_exts R l = Ok (true, l') -> Forall2 (resolved R) l l'.
Proof. exact (resolve_exts_declared R l l'). Qed.
Print Assumptions C54_declared.

(** When the whole model validates, every annotation has a declared type, and
    its value is valid against that type or the unwrapped copy of it. *)
Theorem C54_validated n O order R s s' :
  wf_heap (heap s) -> ids_unique (heap s) -> no_rec (heap s) -> declared_ok (heap s) R ->
  validate_shapes n O order R s = (Ok tt, s') ->
  forall e, In e (r_exts R) -> (forall a, e_def e = Some a -> exists b, get_base (heap s) a = Some b) ->
  exists db b, e_def e = Some db /\ get_base (heap s) db = Some b
    /\ ((b_unwrapped b = true /\ validate n O (heap s') db (e_value e) = Ok tt)
        \/ b_unwrapped b = false /\ exists us si sj,
             (exists x, heap si = heap s ++ x) /\ unwrapped_copy n db si us sj /\ (exists y, heap s' = heap sj ++ y)
             /\ validate n O (heap s') us (e_value e) = Ok tt).
Proof. exact (validate_shapes_annotations n O order R s s'). Qed.
Print Assumptions C54_validated.

(** [annotationTypes: {P: …, A: {type: P}}] of [m18] in a library [l], and a
    second library annotated with [(l.A)]. *)
Definition r54 (v : gval) : raml :=
  Raml [Lib [] [("P", 0); ("A", 16)] []; Lib [] [] [("l", Some 0)]]
    [("a.raml", FLib 0); ("b.raml", FLib 1)] [Ext "l.A" "b.raml" v None] [] [].
Definition r54_done (v : gval) : raml :=
  Raml (r_libs (r54 v)) (r_frags (r54 v)) [Ext "l.A" "b.raml" v (Some 16)] [] [].
Example C54_case :
  resolve_exts (r54 (GMap [("p", GStr "x")])) (r_exts (r54 (GMap [("p", GStr "x")])))
    = Ok (true, r_exts (r54_done (GMap [("p", GStr "x")])))
  /\ declared_ok (heap m18) (r54_done (GMap [("p", GStr "x")]))
  /\ fst (validate_shapes 9 exO ["b.raml"; "a.raml"] (r54_done (GMap [("p", GStr "x")])) m18) = Ok tt
  /\ fst (validate_shapes 9 exO ["b.raml"; "a.raml"] (r54_done (GMap [("p", GBool true)])) m18) = Err.
Proof.
  split; [vm_compute; reflexivity|]. split; [|split; vm_compute; reflexivity].
  intros a [lib k I0 I|lib k I0 I|loc uses I0].
  - destruct I0 as [<-|[<-|[]]]; destruct I.
  - destruct I0 as [<-|[<-|[]]]; unfold has_annot in I; simpl in I;
      repeat (destruct I as [[= _ <-]|I]; [eexists; vm_compute; reflexivity|]); destruct I.
  - destruct I0 as [[= ]|[[= ]|[]]].
Qed.

(** The hypotheses of [C31_every_type] for the annotation type [A] above. *)
Example C31_every_case : In "a.raml" ["b.raml"; "a.raml"] /\ declared_in (r54_done (GMap [("p", GStr "x")])) "a.raml" 16
  /\ exists b, get_base (heap m18) 16 = Some b /\ b_unwrapped b = false.
Proof.
  split; [right; now left|]. split; [|eexists; split; vm_compute; reflexivity].
  apply (di_annot _ _ _ 0 (Lib [] [("P", 0); ("A", 16)] []) "A"); try reflexivity. right. now left.
Qed.

(** [annotationTypes: {X: any, A: {type: X}, B: {type: X}}] and an instance of [(B)]: after
    UnwrapShapes the annotation has lost its type, and ValidateShapes
    dereferences a nil pointer. *)
Definition located (loc : string) (s : st) : st :=
  St (map (fun c => match c with
    | CBase b => CBase (Base (b_id b) (b_name b) loc (b_type b) (b_disp b) (b_desc b) (b_example b) (b_examples b)
        (b_default b) (b_required b) (b_domain b) (b_inherits b) (b_alias b) (b_link b) (b_facets b) (b_fdefs b)
        (b_unwrapped b) (b_visited b) (b_shape b))
    | c => c end) (heap s)) (st_shapes s) (st_nextid s).
Definition m54 : st := located "a.raml" m53.
Definition r54x : raml :=
  Raml [Lib [] l53 []] [("a.raml", FLib 0)] [Ext "B" "a.raml" (GStr "x") (Some 8)] [] [].
Theorem C54_after_unwrap_refuted :
  ~ (forall n O o1 o2 o3 R s R' s',
       fresh_model (heap s) -> declared_ok (heap s) R -> resolve_exts R (r_exts R) = Ok (true, r_exts R) ->
       unwrap_shapes n o1 o2 R s = (Ok R', s') ->
       fst (validate_shapes n O o3 R' s') <> Panic).
Proof.
  intros H.
  assert (E : exists R' s', unwrap_shapes 9 ["a.raml"] ["a.raml"] r54x m54 = (Ok R', s')
     /\ fst (validate_shapes 9 exO ["a.raml"] R' s') = Panic).
  { do 2 eexists. split; [vm_compute; reflexivity|]. vm_compute. reflexivity. }
  destruct E as (R' & s' & E1 & E2).
  assert (F : fresh_model (heap m54)) by (apply fresh_b_sound; vm_compute; reflexivity).
  assert (D : declared_ok (heap m54) r54x).
  { intros a [lib k [<-|[]] I|lib k [<-|[]] I|loc uses [[= ]|[]]]; [destruct I|].
    unfold has_annot in I; simpl in I; repeat (destruct I as [[= _ <-]|I]; [eexists; vm_compute; reflexivity|]); destruct I. }
  apply (H 9 exO ["a.raml"] ["a.raml"] ["a.raml"] r54x m54 R' s' F D); auto.
Qed.
Print Assumptions C54_after_unwrap_refuted.
