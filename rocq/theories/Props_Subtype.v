(** Property theorems about derivation as subtyping (C14, C19, C55) and about
    several parents (C58). *)
From Coq Require Import ZArith List String Bool Lia.
From Verif Require Import Base Scalars Spec_Scalars Heap Heap_lemmas Validate Spec_Validate Spec_Model Model_check
  Spec_Region Spec_Subtype Subtype_proofs Union_narrow Props_Validate Props_Inherit.
Import ListNotations.
Open Scope string_scope.
Open Scope list_scope.
Open Scope nat_scope.

(** * C14 *)

(** After a successful Inherit every value of the derived type is a value of
    the parent as it was before and as it is afterwards: for whole graphs of
    objects, arrays and plain scalars, whatever lies below the places both types
    speak about. Missing: parents that are closed or have pattern properties,
    unions, and types that share cells with the parent. *)
Theorem C14_structural_partial : forall pat fmt (U : addr -> Prop) n t src ns s r s',
  fits pat fmt U (heap s) [] t src ns ->
  NoDup ns -> (forall x, In x ns -> ~ U x) -> sealed U (heap s) ->
  inherit n t src s = (Ok r, s') ->
  r = t /\ forall O v, oracle_wf O -> value_wf v -> valid O (heap s') t v ->
    valid O (heap s) src v /\ valid O (heap s') src v.
Proof. exact derived_subset. Qed.
Print Assumptions C14_structural_partial.

(** Such a derivation changes only cells of the derived type: the parent, what
    it refers to and everything else keep their content and their values. *)
Theorem C19_derivation_partial : forall pat fmt (U : addr -> Prop) n t src ns s r s',
  fits pat fmt U (heap s) [] t src ns ->
  NoDup ns -> (forall x, In x ns -> ~ U x) -> sealed U (heap s) ->
  inherit n t src s = (Ok r, s') ->
  (forall x, ~ In x ns -> get_base (heap s') x = get_base (heap s) x /\ get_props (heap s') x = get_props (heap s) x)
  /\ (forall x, get_slice (heap s') x = get_slice (heap s) x)
  /\ forall O x v, U x -> (valid O (heap s') x v <-> valid O (heap s) x v).
Proof. exact derived_elsewhere. Qed.
Print Assumptions C19_derivation_partial.

(** * C55 *)

(** An object derived from an open object: the value may have properties of its
    own, and those of the parent still hold. *)
Theorem C55_open_partial : forall pat fmt (U : addr -> Prop) n t src ns s r s' f g,
  shape_at (heap s) t (SObject f) -> shape_at (heap s) src (SObject g) ->
  fits pat fmt U (heap s) [] t src ns ->
  NoDup ns -> (forall x, In x ns -> ~ U x) -> sealed U (heap s) ->
  inherit n t src s = (Ok r, s') ->
  o_addl g <> Some false
  /\ forall O v, oracle_wf O -> value_wf v -> valid O (heap s') t v -> valid O (heap s') src v.
Proof. exact derived_open. Qed.
Print Assumptions C55_open_partial.

(** Parent: [{name: string(..10), tags: string[]}]; child:
    [{name: string(2..), tags: string(..5)[], extra: integer}]. *)
Definition m14 : st := model
  [Decl "Parent" "object" (obj 36) [] None;
   Decl "name" "string" (str_len None (Some 10%Z)) [] None;
   Decl "tags" "array" (SArray (ArrF (Some 12) (Some 1%Z) None None)) [] None;
   Decl "item" "string" (str_len None None) [] None;
   Decl "Child" "object" (obj 37) [0] None;
   Decl "name" "string" (str_len (Some 2%Z) None) [] None;
   Decl "tags" "array" (SArray (ArrF (Some 28) None (Some 3%Z) None)) [] None;
   Decl "item" "string" (str_len None (Some 5%Z)) [] None;
   Decl "extra" "integer" sint [] None]
  [CProps [("name", Prop_ "name" 4 true); ("tags", Prop_ "tags" 8 false)];
   CProps [("name", Prop_ "name" 20 true); ("tags", Prop_ "tags" 24 false); ("extra", Prop_ "extra" 32 true)]].
Definition u14 (x : addr) : Prop := In x [0; 4; 8; 12; 32; 36].

Example C14_structural_case :
  fits "" None u14 (heap m14) [] 16 0 [16; 37; 20; 24; 28]
  /\ NoDup [16; 37; 20; 24; 28] /\ (forall x, In x [16; 37; 20; 24; 28] -> ~ u14 x) /\ sealed u14 (heap m14)
  /\ fst (inherit 9 16 0 m14) = Ok 16
  /\ (let h := heap (snd (inherit 9 16 0 m14)) in
      let v := fun t => GMap [("name", GStr "Jo"); ("tags", GArr [GStr t]); ("extra", GInt 1)] in
      validate 9 exO h 16 (v "abc") = Ok tt /\ validate 9 exO h 16 (v "abcdef") = Err
      /\ validate 9 exO h 0 (v "abcdef") = Ok tt).
Proof.
  assert (Nd : forall t src tsh ssh, shape_at (heap m14) t tsh -> shape_at (heap m14) src ssh ->
     (forall b, get_base (heap m14) src = Some b -> b_visited b = false) -> node (heap m14) t src tsh ssh).
  { intros t src tsh ssh A (b & G & Sh) V. split; auto. exists b. auto. }
  split.
  { apply fits_object with (f := ObjF None None None (Some 37) None None None) (g := ObjF None None None (Some 36) None None None);
      [|simpl; tauto|left; reflexivity|discriminate|reflexivity|discriminate|].
    - apply Nd; [eexists; split; reflexivity|eexists; split; reflexivity|]. intros b G. injection G as <-. reflexivity.
    - eapply pf_both; [reflexivity|reflexivity|vm_compute; tauto| | | |].
      + repeat constructor; simpl; intuition discriminate.
      + simpl. intros k p [E|[E|[E|[]]]]; injection E as <- <-; [left; eexists; reflexivity|left; eexists; reflexivity|right]. vm_compute. tauto.
      + repeat constructor; simpl; intuition discriminate.
      + change [20; 24; 28] with ([20] ++ ([24; 28] ++ [])). eapply ef_old; [reflexivity| |].
        * eapply fits_scalar; [|simpl; intuition discriminate|vm_compute; tauto| |].
          -- apply Nd; [eexists; split; reflexivity|eexists; split; reflexivity|]. intros b G. injection G as <-. reflexivity.
          -- discriminate.
          -- discriminate.
        * eapply ef_old; [reflexivity| |apply ef_nil].
          eapply fits_array; [apply Nd; [eexists; split; reflexivity|eexists; split; reflexivity|]; intros b G; injection G as <-; reflexivity
             |simpl; intuition discriminate|vm_compute; tauto|].
          simpl. apply if_both. eapply fits_scalar; [|simpl; intuition discriminate|vm_compute; tauto| |].
          -- apply Nd; [eexists; split; reflexivity|eexists; split; reflexivity|]. intros b G. injection G as <-. reflexivity.
          -- discriminate.
          -- discriminate. }
  split; [repeat constructor; simpl; intuition discriminate|].
  split; [simpl; unfold u14; intros x [<-|[<-|[<-|[<-|[<-|[]]]]]]; simpl; intuition discriminate|].
  split.
  { split.
    - intros a b sh I G Sh. simpl in I.
      destruct I as [<-|[<-|[<-|[<-|[<-|[<-|[]]]]]]]; vm_compute in G; inversion G; subst b; simpl in Sh; inversion Sh; subst sh; simpl; unfold opt_in, u14; simpl;
        try split; try exact I; intros a E; inversion E; subst a; tauto.
    - intros m l I G. simpl in I.
      destruct I as [<-|[<-|[<-|[<-|[<-|[<-|[]]]]]]]; vm_compute in G; inversion G; subst l. repeat constructor; simpl; unfold u14; simpl; tauto.
    - intros m l I G. simpl in I.
      destruct I as [<-|[<-|[<-|[<-|[<-|[<-|[]]]]]]]; vm_compute in G; inversion G. }
  split; [vm_compute; reflexivity|]. cbv zeta. split; [vm_compute; reflexivity|]. split; vm_compute; reflexivity.
Qed.

(** * C58 *)

(** UnwrapShape of a scalar type with any number of finished parents: the
    values of the result are those that the type itself and all of its parents
    accepted. Missing: objects, arrays and unions, parents that have to be
    unwrapped first, and a parent that is given twice. *)
Theorem C58_scalar_parents_partial : forall pat fmt n a s r s' b sh ps,
  get_base (heap s) a = Some b -> b_unwrapped b = false -> b_alias b = None -> b_link b = None ->
  b_shape b = Some sh -> plain pat fmt sh -> get_props (heap s) (b_fdefs b) = Some [] ->
  get_slice (heap s) (b_inherits b) = Some ps -> NoDup (a :: ps) ->
  (forall p, In p ps -> exists psh pb, get_base (heap s) p = Some pb /\ b_unwrapped pb = true
     /\ b_visited pb = false /\ b_shape pb = Some psh /\ plain pat fmt psh) ->
  unwrap n a s = (Ok r, s') ->
  r = a /\ forall O v, oracle_wf O -> gval_wf v ->
    (valid O (heap s') a v <-> valid O (heap s) a v /\ forall p, In p ps -> valid O (heap s) p v).
Proof. exact parents_combined. Qed.
Print Assumptions C58_scalar_parents_partial.

(** [T: {type: [Low, High, Loose]}] for integers. *)
Definition int_rng (lo hi : option Z) : shape := SInt (IntF lo hi None None None).
Definition m58 : st :=
  let s := model
    [Decl "Low" "integer" (int_rng (Some 3%Z) None) [] None;
     Decl "High" "integer" (int_rng None (Some 9%Z)) [] None;
     Decl "Loose" "integer" (int_rng (Some 2%Z) (Some 20%Z)) [] None;
     Decl "T" "integer" (int_rng None None) [0; 4; 8] None] [] in
  snd ((unwrap 9 0 ;;; unwrap 9 4 ;;; unwrap 9 8)%M s).

Example C58_case :
  (exists b, get_base (heap m58) 12 = Some b /\ b_unwrapped b = false /\ b_alias b = None /\ b_link b = None
     /\ b_shape b = Some (int_rng None None) /\ plain "" None (int_rng None None)
     /\ get_props (heap m58) (b_fdefs b) = Some [] /\ get_slice (heap m58) (b_inherits b) = Some [0; 4; 8])
  /\ NoDup [12; 0; 4; 8]
  /\ (forall p, In p [0; 4; 8] -> exists psh pb, get_base (heap m58) p = Some pb /\ b_unwrapped pb = true
       /\ b_visited pb = false /\ b_shape pb = Some psh /\ plain "" None psh)
  /\ (let r := unwrap 9 12 m58 in fst r = Ok 12
      /\ map (fun z => match validate 9 exO (heap (snd r)) 12 (GInt z) with Ok _ => true | _ => false end) [2; 3; 9; 10]%Z
         = [false; true; true; false]).
Proof.
  split; [eexists; split; [vm_compute; reflexivity|]; repeat split|].
  split; [repeat constructor; simpl; intuition discriminate|].
  split; [|cbv zeta; split; vm_compute; reflexivity].
  simpl. intros p [<-|[<-|[<-|[]]]]; eexists; eexists; (split; [vm_compute; reflexivity|]); (split; [reflexivity|]);
    (split; [reflexivity|]); (split; [reflexivity|]); exact I.
Qed.

(** * C51 *)

(** A union that inherits from a union, where the members of both are scalar
    types and no two members of the inheriting union have the same type: the
    values of the result are those accepted by two members of the same type,
    one of each union. So the result narrows both unions, and nothing more is
    lost. Missing: members that are objects, arrays or unions; two members of
    one type (C51_members_refuted). *)
Theorem C51_scalar_members_partial : forall pat fmt n t src s r s' ta te sa se tl sl tys,
  t <> src -> shape_at (heap s) t (SUnion ta te) -> shape_at (heap s) src (SUnion sa se) ->
  (forall b, get_base (heap s) src = Some b -> b_visited b = false) ->
  get_slice (heap s) ta = Some tl -> get_slice (heap s) sa = Some sl -> tl <> [] ->
  Forall2 (fun x ty => exists b, get_base (heap s) x = Some b /\ b_type b = ty) tl tys -> NoDup tys ->
  (forall x, In x tl -> exists b sh, get_base (heap s) x = Some b /\ b_shape b = Some sh /\ plain pat fmt sh) ->
  (forall y, In y sl -> exists b sh, get_base (heap s) y = Some b /\ b_visited b = false /\ b_shape b = Some sh /\ plain pat fmt sh) ->
  inherit n t src s = (Ok r, s') ->
  r = t /\ forall O v, oracle_wf O -> gval_wf v ->
    (valid O (heap s') t v <->
     exists x y xb yb, In x tl /\ In y sl /\ get_base (heap s) x = Some xb /\ get_base (heap s) y = Some yb
       /\ b_type xb = b_type yb /\ valid O (heap s) x v /\ valid O (heap s) y v).
Proof.
  intros pat fmt n t src s r s' ta te sa se tl sl tys N T S V Gt Gs NE F ND M Ms H.
  assert (M' : Forall (member pat fmt (heap s)) tl) by (apply Forall_forall; exact M).
  assert (Ms' : Forall (member pat fmt (heap s)) sl).
  { apply Forall_forall. intros y I. destruct (Ms y I) as (b & sh & G & _ & R). exists b, sh. auto. }
  assert (Vs : Forall (unvisited (heap s)) sl).
  { apply Forall_forall. intros y I b G. destruct (Ms y I) as (b' & sh & G' & U & _). congruence. }
  destruct (unions_combined pat fmt n t src s r s' ta te sa se tl sl tys N T S V Gt Gs NE F ND M' Ms' Vs H) as [E K].
  split; auto. intros O v HO Hv. rewrite (K O v HO Hv). split.
  - intros (x & y & ty & Ix & Iy & (xb & Gx & Tx) & (yb & Gy & Ty) & R). exists x, y, xb, yb.
    repeat (split; [congruence || assumption|]). exact R.
  - intros (x & y & xb & yb & Ix & Iy & Gx & Gy & Ty & R). exists x, y, (b_type yb).
    repeat (split; [assumption|]). split; [exists xb; auto|]. split; [exists yb; auto|]. exact R.
Qed.
Print Assumptions C51_scalar_members_partial.

(** [S: integer(maximum 9) | string(maxLength 3)] and
    [T: string(minLength 2) | integer(minimum 3)], a child of S. *)
Definition m51s : st := model
  [Decl "S" "union" (SUnion 24 None) [] None; Decl "" "integer" (int_rng None (Some 9%Z)) [] None;
   Decl "" "string" (SStr (StrF None (Some 3%Z) None None)) [] None;
   Decl "T" "union" (SUnion 25 None) [0] None;
   Decl "" "string" (SStr (StrF (Some 2%Z) None None None)) [] None;
   Decl "" "integer" (int_rng (Some 3%Z) None) [] None]
  [CSlice [4; 8]; CSlice [16; 20]].

Example C51_scalar_case :
  shape_at (heap m51s) 12 (SUnion 25 None) /\ shape_at (heap m51s) 0 (SUnion 24 None)
  /\ get_slice (heap m51s) 25 = Some [16; 20] /\ get_slice (heap m51s) 24 = Some [4; 8]
  /\ Forall2 (fun x ty => exists b, get_base (heap m51s) x = Some b /\ b_type b = ty) [16; 20] ["string"; "integer"]
  /\ (forall x, In x [16; 20] -> exists b sh, get_base (heap m51s) x = Some b /\ b_shape b = Some sh /\ plain "" None sh)
  /\ (forall y, In y [4; 8] -> exists b sh, get_base (heap m51s) y = Some b /\ b_visited b = false /\ b_shape b = Some sh
        /\ plain "" None sh)
  /\ (let r := inherit 9 12 0 m51s in fst r = Ok 12
      /\ map (fun v => match validate 9 exO (heap (snd r)) 12 v with Ok _ => true | _ => false end)
           [GInt 2; GInt 3; GInt 9; GInt 10; GStr "a"; GStr "ab"; GStr "abcd"]%Z
         = [false; true; true; false; false; true; false]).
Proof.
  split; [eexists; split; vm_compute; reflexivity|]. split; [eexists; split; vm_compute; reflexivity|].
  split; [reflexivity|]. split; [reflexivity|].
  split; [repeat constructor; eexists; split; vm_compute; reflexivity|].
  split; [simpl; intros x [<-|[<-|[]]]; do 2 eexists; (split; [vm_compute; reflexivity|]); (split; [reflexivity|]); first [exact Logic.I|cbn; congruence]|].
  split; [simpl; intros x [<-|[<-|[]]]; do 2 eexists; (split; [vm_compute; reflexivity|]); (split; [reflexivity|]); (split; [reflexivity|]); first [exact Logic.I|cbn; congruence]|].
  cbv zeta. split; vm_compute; reflexivity.
Qed.
