(** Property theorems about CloneShallow (C67). *)
From Coq Require Import ZArith List String Bool Lia.
From Verif Require Import Base Scalars Heap Heap_lemmas Validate Spec_Validate Spec_Model Model_check
  Clone_proofs Shallow Props_Validate Props_Clone.
Import ListNotations.
Open Scope string_scope.
Open Scope list_scope.
Open Scope nat_scope.

(** * C67 *)

(** Every complete type has a shallow copy. It is a new object that differs
    from the original in its custom facets and facet definitions only, which
    have the same contents and are new objects, too. Nothing that existed is
    changed and no ID is used up. *)
Theorem C67_shallow_copy : forall a s b, wf_heap (heap s) -> get_base (heap s) a = Some b ->
  exists c s' b' fm fd, clone_shallow a s = (Ok c, s') /\ get_base (heap s') c = Some b'
    /\ b' = Base (b_id b) (b_name b) (b_loc b) (b_type b) (b_disp b) (b_desc b) (b_example b) (b_examples b)
        (b_default b) (b_required b) (b_domain b) (b_inherits b) (b_alias b) (b_link b)
        (b_facets b') (b_fdefs b') (b_unwrapped b) (b_visited b) (b_shape b)
    /\ get_facets (heap s) (b_facets b) = Some fm /\ get_facets (heap s') (b_facets b') = Some fm
    /\ get_props (heap s) (b_fdefs b) = Some fd /\ get_props (heap s') (b_fdefs b') = Some fd
    /\ List.length (heap s) <= c /\ List.length (heap s) <= b_facets b' /\ List.length (heap s) <= b_fdefs b'
    /\ (forall z, z < List.length (heap s) -> nth_error (heap s') z = nth_error (heap s) z)
    /\ st_shapes s' = st_shapes s /\ st_nextid s' = st_nextid s.
Proof.
  intros a s b W G. destruct (proj1 (W _ _ G)) as ((fm & Fm) & (fd & Fd) & _ & _ & sh & Sh & _).
  unfold clone_shallow. rewrite (bind_ok _ _ _ _ _ (rd_some _ _ _ _ G)), (bind_ok _ _ _ _ _ (rd_some _ _ _ _ Fm)),
    (bind_ok _ _ _ _ _ (rd_some _ _ _ _ Fd)), Sh.
  do 5 eexists. split; [reflexivity|]. cbn [heap st_shapes st_nextid].
  split. { apply get_base_nth. rewrite nth_error_app2 by lia. rewrite Nat.sub_diag. reflexivity. }
  cbn [b_facets b_fdefs]. split; [reflexivity|]. split; [exact Fm|].
  split. { apply get_facets_nth. rewrite <- !app_assoc. rewrite nth_error_app2 by lia. now rewrite Nat.sub_diag. }
  split; [exact Fd|].
  split. { apply get_props_nth. rewrite nth_error_app1 by (rewrite !app_length; simpl; lia). rewrite nth_error_app2 by lia.
    now rewrite Nat.sub_diag. }
  rewrite !app_length. simpl. split; [lia|]. split; [lia|]. split; [lia|].
  split; [|auto]. intros z Lz. rewrite <- !app_assoc. now rewrite nth_error_app1.
Qed.
Print Assumptions C67_shallow_copy.

(** It accepts the same values, with the same outcome for every fuel; and so
    does the original after it. *)
Theorem C67_same_values : forall a c s s' n O v, wf_heap (heap s) -> (exists b, get_base (heap s) a = Some b) ->
  clone_shallow a s = (Ok c, s') ->
  validate n O (heap s') c v = validate n O (heap s) a v /\ validate n O (heap s') a v = validate n O (heap s) a v.
Proof.
  intros a c s s' n O v W (b & G) H.
  destruct (C67_shallow_copy a s b W G) as (c0 & s0 & b' & fm & fd & H0 & G' & E & _ & _ & _ & _ & _ & _ & _ & Old & _).
  rewrite H0 in H. injection H as -> ->.
  assert (X : validate n O (heap s) a v = validate n O (heap s') a v).
  { apply validate_extends; auto; [|exists b; exact G].
    unfold clone_shallow in H0. repeat (apply bind_inv in H0; destruct H0 as (? & ? & ? & H0)).
    match goal with K : rd get_base a s = _ |- _ => apply rd_ok in K; destruct K as [-> _] end.
    match goal with K : rd get_facets _ s = _ |- _ => apply rd_ok in K; destruct K as [-> _] end.
    match goal with K : rd get_props _ s = _ |- _ => apply rd_ok in K; destruct K as [-> _] end.
    destruct (b_shape x) as [sh|]; [|discriminate].
    unfold alloc, bind in H0. injection H0 as _ <-. repeat split; cbn [heap st_shapes st_nextid].
    rewrite <- !app_assoc. eexists. reflexivity. }
  split; [|auto]. rewrite X.
  assert (Ga : get_base (heap s') a = Some b).
  { unfold get_base in G |- *. rewrite Old; auto. apply nth_error_Some. intros Q. now rewrite Q in G. }
  destruct n as [|n]; [reflexivity|]. cbn [validate]. rewrite G', Ga, E. reflexivity.
Qed.
Print Assumptions C67_same_values.

Example C67_case : wf_heap (heap m24) /\ exists c s', clone_shallow 0 m24 = (Ok c, s')
  /\ validate 20 exO (heap s') c (GMap [("tags", GArr [GStr "x"])]) = Ok tt
  /\ validate 20 exO (heap s') c (GMap [("tags", GArr []); ("next", GMap [])]) = Err.
Proof.
  destruct (fresh_b_sound (heap m24)) as (W & _); [vm_compute; reflexivity|].
  split; auto. do 2 eexists. split; [vm_compute; reflexivity|]. split; vm_compute; reflexivity.
Qed.

(** The copy shares its components with the original, its map of properties for
    example: [A: {properties: {x: string}}] and [P: {properties: {y: string}}].
    When the copy of A inherits from P, so does A: it now demands [y]. *)
Definition m67 : st := model
  [Decl "A" "object" (SObject (ObjF None None None (Some 16) None None None)) [] None;
   Decl "P" "object" (SObject (ObjF None None None (Some 17) None None None)) [] None;
   Decl "" "string" (SStr estr) [] None; Decl "" "string" (SStr estr) [] None]
  [CProps [("x", Prop_ "x" 8 false)]; CProps [("y", Prop_ "y" 12 true)]].

Theorem C67_independent_refuted :
  ~ (forall n k O a c p r s s' s'' v, fresh_model (heap s) ->
       clone_shallow a s = (Ok c, s') -> inherit n c p s' = (Ok r, s'') ->
       validate k O (heap s'') a v = validate k O (heap s) a v).
Proof.
  intros H.
  assert (E : exists s' s'', clone_shallow 0 m67 = (Ok 20, s') /\ inherit 9 20 4 s' = (Ok 20, s'')
     /\ validate 9 exO (heap s'') 0 (GMap []) = Err /\ validate 9 exO (heap m67) 0 (GMap []) = Ok tt).
  { do 2 eexists. split; [vm_compute; reflexivity|]. split; [vm_compute; reflexivity|]. split; vm_compute; reflexivity. }
  destruct E as (s' & s'' & E1 & E2 & V1 & V2).
  assert (F : fresh_model (heap m67)) by (apply fresh_b_sound; vm_compute; reflexivity).
  specialize (H 9 9 exO 0 20 4 20 m67 s' s'' (GMap []) F E1 E2). congruence.
Qed.
Print Assumptions C67_independent_refuted.
