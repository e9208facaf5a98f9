(** Property theorems about what a derivation keeps and adds: exactly the
    values of both types (C14), also for several parents (C58). *)
From Coq Require Import ZArith List String Bool Lia.
From Verif Require Import Base Scalars Spec_Scalars Heap Heap_lemmas Validate Spec_Validate Spec_Model Model_check
  Spec_Region Spec_Subtype Subtype_proofs Spec_Meet Meet_proofs Union_narrow Props_Validate Props_Inherit Props_Subtype.
Import ListNotations.
Open Scope string_scope.
Open Scope list_scope.
Open Scope nat_scope.

(** * C14 *)

(** A successful Inherit between open types: a value is accepted afterwards if
    and only if the derived type accepted it before and the parent accepts it.
    So a derivation neither loosens a type nor demands more than the two types
    said. Missing: closed objects, pattern properties, unions, and types that
    share cells with the parent. *)
Theorem C14_exact_partial : forall pat fmt (U : addr -> Prop) n t src ns s r s',
  fits pat fmt U (heap s) [] t src ns ->
  NoDup ns -> (forall x, In x ns -> ~ U x) -> sealed U (heap s) -> open_objects (heap s) ns ->
  inherit n t src s = (Ok r, s') ->
  r = t /\ forall O v, oracle_wf O -> value_wf v ->
    (valid O (heap s') t v <-> valid O (heap s) t v /\ valid O (heap s) src v).
Proof.
  intros pat fmt U n t src ns s r s' F ND Dis SU Op H.
  assert (Rd : ready U s [] ns) by (split; auto; split; auto; split; auto; contradiction).
  split; [eapply fits_target; [reflexivity|exact F| |exact H]; apply Dis; eapply fits_head; exact F|].
  exact (proj1 (inherit_meets pat fmt U n [] t src ns s r s' F Rd Op H)).
Qed.
Print Assumptions C14_exact_partial.

(** The child of m14 asks for a name of at least two characters, the parent for
    at most ten. After the derivation both bounds hold. *)
Example C14_exact_case :
  open_objects (heap m14) [16; 37; 20; 24; 28]
  /\ (let name x := GMap [("name", GStr x); ("tags", GArr [GStr "a"]); ("extra", GInt 1)] in
      let ok h t v := match validate 9 exO h t v with Ok _ => true | _ => false end in
      let h := heap m14 in let h' := heap (snd (inherit 9 16 0 m14)) in
      map (fun x => (ok h 16 (name x), ok h 0 (name x), ok h' 16 (name x))) ["J"; "Jo"; "Johann Sebastian"]
      = [(false, true, false); (true, true, true); (true, false, false)]).
Proof.
  split; [|vm_compute; reflexivity].
  intros x f I (b & G & Sh). simpl in I.
  destruct I as [<-|[<-|[<-|[<-|[<-|[]]]]]]; vm_compute in G; inversion G; subst b; simpl in Sh; inversion Sh; subst f.
  split; [discriminate|reflexivity].
Qed.

(** * C58 *)

(** One type inheriting from several types in turn, which is what
    [unwrapParents] does with the first parent: the result accepts exactly the
    values of all of them. Every step must be one of C14_exact_partial. *)
Theorem C58_joined_partial : forall pat fmt n t ps s s',
  joined pat fmt n t ps s s' ->
  forall O v, oracle_wf O -> value_wf v ->
    (valid O (heap s') t v <-> valid O (heap s) t v /\ forall p, In p ps -> valid O (heap s) p v).
Proof. exact joined_meet. Qed.
Print Assumptions C58_joined_partial.

(** UnwrapShape of an object type without properties of its own that has two
    finished object types as parents, [T: {type: [P, Q]}]: the values are those
    of P and Q together, within the bounds of T. The parents may speak about
    the same properties, at any depth. Missing: more than two parents (see
    C58_joined_partial), own properties, closed types, unions, and parents that
    share cells. *)
Theorem C58_objects_partial : forall pat fmt (U : addr -> Prop) n a s s' b f p q pb qb fp ns,
  get_base (heap s) a = Some b -> b_unwrapped b = false -> b_alias b = None -> b_link b = None ->
  b_shape b = Some (SObject f) -> o_props f = None -> o_pprops f = None -> o_addl f <> Some false ->
  get_props (heap s) (b_fdefs b) = Some [] -> get_slice (heap s) (b_inherits b) = Some [p; q] ->
  get_base (heap s) p = Some pb -> b_unwrapped pb = true -> b_shape pb = Some (SObject fp) ->
  get_base (heap s) q = Some qb -> b_unwrapped qb = true ->
  fits pat fmt U (heap s) [] p q ns -> NoDup ns -> (forall x, In x ns -> ~ U x) -> sealed U (heap s) ->
  open_objects (heap s) ns ->
  (forall x, In x [a; b_inherits b; b_fdefs b] -> ~ In x ns) -> ~ U a -> ~ U (b_inherits b) ->
  unwrap n a s = (Ok a, s') ->
  forall O v, oracle_wf O -> value_wf v ->
    (valid O (heap s') a v <-> valid O (heap s) a v /\ valid O (heap s) p v /\ valid O (heap s) q v).
Proof. exact two_parents. Qed.
Print Assumptions C58_objects_partial.

(** [P: {a: string(2..)}], [Q: {a: string(..4), b: integer}],
    [T: {type: [P, Q], maxProperties: 2}]. *)
Definition m58o : st :=
  let s := model
    [Decl "P" "object" (obj 24) [] None; Decl "a" "string" (str_len (Some 2%Z) None) [] None;
     Decl "Q" "object" (obj 25) [] None; Decl "a" "string" (str_len None (Some 4%Z)) [] None;
     Decl "b" "integer" sint [] None;
     Decl "T" "object" (SObject (ObjF None None None None None None (Some 2%Z))) [0; 8] None]
    [CProps [("a", Prop_ "a" 4 true)]; CProps [("a", Prop_ "a" 12 false); ("b", Prop_ "b" 16 true)]] in
  snd ((unwrap 9 0 ;;; unwrap 9 8)%M s).
Definition u58 (x : addr) : Prop := In x [8; 12; 16; 25].

Example C58_objects_case :
  (exists b, get_base (heap m58o) 20 = Some b /\ b_unwrapped b = false /\ b_alias b = None /\ b_link b = None
     /\ b_shape b = Some (SObject (ObjF None None None None None None (Some 2%Z)))
     /\ get_props (heap m58o) (b_fdefs b) = Some [] /\ get_slice (heap m58o) (b_inherits b) = Some [0; 8]
     /\ (forall x, In x [20; b_inherits b; b_fdefs b] -> ~ In x [0; 24; 4]) /\ ~ u58 20 /\ ~ u58 (b_inherits b))
  /\ (exists b, get_base (heap m58o) 0 = Some b /\ b_unwrapped b = true /\ b_shape b = Some (obj 24))
  /\ (exists b, get_base (heap m58o) 8 = Some b /\ b_unwrapped b = true)
  /\ fits "" None u58 (heap m58o) [] 0 8 [0; 24; 4]
  /\ NoDup [0; 24; 4] /\ (forall x, In x [0; 24; 4] -> ~ u58 x) /\ sealed u58 (heap m58o) /\ open_objects (heap m58o) [0; 24; 4]
  /\ (let r := unwrap 9 20 m58o in fst r = Ok 20
      /\ map (fun v => match validate 9 exO (heap (snd r)) 20 v with Ok _ => true | _ => false end)
           [GMap [("a", GStr "abc"); ("b", GInt 1)]; GMap [("a", GStr "a"); ("b", GInt 1)];
            GMap [("a", GStr "abcde"); ("b", GInt 1)]; GMap [("a", GStr "abc")]; GMap [("b", GInt 1)];
            GMap [("a", GStr "abc"); ("b", GInt 1); ("c", GInt 1)]]
         = [true; false; false; false; false; false]).
Proof.
  assert (Nd : forall t src tsh ssh, shape_at (heap m58o) t tsh -> shape_at (heap m58o) src ssh ->
     (forall b, get_base (heap m58o) src = Some b -> b_visited b = false) -> node (heap m58o) t src tsh ssh).
  { intros t src tsh ssh A (b & G & Sh) V. split; auto. exists b. auto. }
  split.
  { eexists. split; [vm_compute; reflexivity|]. do 6 (split; [vm_compute; reflexivity|]).
    split; [simpl; intros x [<-|[<-|[<-|[]]]]; intuition discriminate|].
    split; unfold u58; simpl; intuition discriminate. }
  split; [eexists; split; [vm_compute; reflexivity|split; reflexivity]|].
  split; [eexists; split; [vm_compute; reflexivity|reflexivity]|].
  split.
  { apply fits_object with (f := ObjF None None None (Some 24) None None None) (g := ObjF None None None (Some 25) None None None);
      [|simpl; tauto|left; reflexivity|discriminate|reflexivity|discriminate|].
    - apply Nd; [eexists; split; vm_compute; reflexivity|eexists; split; vm_compute; reflexivity|]. intros b G. vm_compute in G. injection G as <-. reflexivity.
    - eapply pf_both; [vm_compute; reflexivity|vm_compute; reflexivity|vm_compute; tauto| | | |].
      + repeat constructor; simpl; intuition discriminate.
      + simpl. intros k p [E|[]]; injection E as <- <-; left; eexists; reflexivity.
      + repeat constructor; simpl; intuition discriminate.
      + change [4] with ([4] ++ []). eapply ef_old; [reflexivity| |].
        * eapply fits_scalar; [|simpl; intuition discriminate|vm_compute; tauto| |].
          -- apply Nd; [eexists; split; vm_compute; reflexivity|eexists; split; vm_compute; reflexivity|]. intros b G. vm_compute in G. injection G as <-. reflexivity.
          -- discriminate.
          -- discriminate.
        * apply ef_new; [reflexivity|apply ef_nil]. }
  split; [repeat constructor; simpl; intuition discriminate|].
  split; [simpl; unfold u58; intros x [<-|[<-|[<-|[]]]]; simpl; intuition discriminate|].
  split.
  { split.
    - intros a b sh I G Sh. simpl in I.
      destruct I as [<-|[<-|[<-|[<-|[]]]]]; vm_compute in G; inversion G; subst b; simpl in Sh; inversion Sh; subst sh; simpl; unfold opt_in, u58; simpl;
        try split; try exact Logic.I; intros a E; inversion E; subst a; tauto.
    - intros m l I G. simpl in I.
      destruct I as [<-|[<-|[<-|[<-|[]]]]]; vm_compute in G; inversion G; subst l. repeat constructor; simpl; unfold u58; simpl; tauto.
    - intros m l I G. simpl in I.
      destruct I as [<-|[<-|[<-|[<-|[]]]]]; vm_compute in G; inversion G. }
  split.
  { intros x f I (b & G & Sh). simpl in I.
    destruct I as [<-|[<-|[<-|[]]]]; vm_compute in G; inversion G; subst b; simpl in Sh; inversion Sh; subst f.
    split; [discriminate|reflexivity]. }
  cbv zeta. split; vm_compute; reflexivity.
Qed.

Example C58_joined_case :
  joined "" None 9 0 [8] m58o (snd (inherit 9 0 8 m58o)).
Proof.
  destruct C58_objects_case as (_ & _ & _ & F & ND & Dis & SU & Op & _).
  eapply jn_cons; [exact F|exact ND|exact Dis|exact SU|exact Op|contradiction| |apply jn_nil]. vm_compute. reflexivity.
Qed.
