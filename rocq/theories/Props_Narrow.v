(** Property theorems about structural inheritance: arrays and objects (C15) and
    the order of properties (C48). *)
From Coq Require Import ZArith List String Bool Lia.
From Verif Require Import Base Scalars Heap Heap_lemmas Validate Spec_Validate Spec_Model Model_check
  Spec_Narrow Spec_Region Narrow_proofs Order_proofs Props_Validate Props_Inherit.
Import ListNotations.
Open Scope string_scope.
Open Scope list_scope.
Open Scope nat_scope.

(** * C15 *)

(** A successful Inherit of an array from an array: the target keeps what it
    says itself and is at least as strict as the source was. The only other
    outcome is that the target was turned into a union meanwhile, which takes a
    target that is among its own items. *)
Theorem C15_array : forall n t src s r s' f g,
  inherit n t src s = (Ok r, s') ->
  shape_at (heap s) t (SArray f) -> shape_at (heap s) src (SArray g) ->
  (forall b, get_base (heap s) src = Some b -> b_visited b = false) ->
  r = t /\ exists sh, shape_at (heap s') t sh
    /\ ((exists a e, sh = SUnion a e) \/ exists f', sh = SArray f' /\ arr_kept f f' /\ arr_narrow f' g).
Proof. exact inherit_narrows_array. Qed.
Print Assumptions C15_array.

(** The other outcome is impossible when the items of both types lie in a part
    of the graph that is closed under references and does not contain the
    target. *)
Theorem C15_array_apart : forall (R : addr -> Prop) n t src s r s' f g,
  (forall a, List.length (heap s) <= a -> R a) -> closed R (heap s) ->
  ~ R t -> shape_in R (SArray f) -> shape_in R (SArray g) ->
  inherit n t src s = (Ok r, s') ->
  shape_at (heap s) t (SArray f) -> shape_at (heap s) src (SArray g) ->
  (forall b, get_base (heap s) src = Some b -> b_visited b = false) ->
  exists f', shape_at (heap s') t (SArray f') /\ arr_kept f f' /\ arr_narrow f' g.
Proof.
  intros R n t src s r s' f g New C Nt F G H Ht Hs V.
  destruct (inherit_array_stays R n t src s r s' f g New C Nt F G H Ht Hs V) as (f' & T).
  destruct (inherit_narrows_array _ _ _ _ _ _ _ _ H Ht Hs V) as (_ & sh & X & D).
  pose proof (has_shape_eq _ _ _ _ T X) as <-. destruct D as [(a & e & D)|(f2 & D & K & N)]; [discriminate|].
  injection D as <-. exists f'. split; [exact T|]. auto.
Qed.
Print Assumptions C15_array_apart.

(** Same for objects; the properties are those the source has before. *)
Theorem C15_object : forall n t src s r s' f g,
  inherit n t src s = (Ok r, s') ->
  shape_at (heap s) t (SObject f) -> shape_at (heap s) src (SObject g) ->
  (forall b, get_base (heap s) src = Some b -> b_visited b = false) ->
  r = t /\ exists sh, shape_at (heap s') t sh
    /\ ((exists a e, sh = SUnion a e)
        \/ exists f', sh = SObject f' /\ obj_kept f f'
             /\ obj_narrow (heap s') f' g (contents (heap s) (o_props g)) (contents (heap s) (o_pprops g))).
Proof. exact inherit_narrows_object. Qed.
Print Assumptions C15_object.

Theorem C15_object_apart : forall (R : addr -> Prop) n t src s r s' f g,
  (forall a, List.length (heap s) <= a -> R a) -> closed R (heap s) ->
  ~ R t -> (R src \/ ~ R src) -> shape_in R (SObject f) -> shape_in R (SObject g) ->
  inherit n t src s = (Ok r, s') ->
  shape_at (heap s) t (SObject f) -> shape_at (heap s) src (SObject g) ->
  (forall b, get_base (heap s) src = Some b -> b_visited b = false) ->
  exists f', shape_at (heap s') t (SObject f') /\ obj_kept f f'
    /\ obj_narrow (heap s') f' g (contents (heap s) (o_props g)) (contents (heap s) (o_pprops g)).
Proof.
  intros R n t src s r s' f g New C Nt DS F G H Ht Hs V.
  destruct (inherit_object_stays R n t src s r s' f g New C Nt DS F G H Ht Hs V) as (f' & T).
  destruct (inherit_narrows_object _ _ _ _ _ _ _ _ H Ht Hs V) as (_ & sh & X & D).
  pose proof (has_shape_eq _ _ _ _ T X) as <-. destruct D as [(a & e & D)|(f2 & D & K & N)]; [discriminate|].
  injection D as <-. exists f'. split; [exact T|]. auto.
Qed.
Print Assumptions C15_object_apart.

(** [P: {type: array, items: string, minItems: 1, maxItems: 5, uniqueItems: true};
    Q: {type: P, minItems: 2}; W: {type: P, maxItems: 6};
    X: {properties: {a: string, b?: string}, minProperties: 1};
    Y: {type: X, properties: {b: string, c: string}};
    Z: {type: X, properties: {a?: string}}]. *)
Definition m15 : st := model
  [Decl "P" "array" (SArray (ArrF (Some 4) (Some 1%Z) (Some 5%Z) (Some true))) [] None;
   Decl "" "string" (SStr estr) [] None;
   Decl "Q" "array" (SArray (ArrF None (Some 2%Z) None None)) [0] None;
   Decl "W" "array" (SArray (ArrF None None (Some 6%Z) None)) [0] None;
   Decl "X" "object" (SObject (ObjF None None None (Some 44) None (Some 1%Z) None)) [] None;
   Decl "a" "string" (SStr estr) [] None; Decl "b" "string" (SStr estr) [] None;
   Decl "Y" "object" (obj 45) [16] None; Decl "b" "string" (SStr estr) [] None; Decl "c" "string" (SStr estr) [] None;
   Decl "Z" "object" (obj 46) [16] None]
  [CProps [("a", Prop_ "a" 20 true); ("b", Prop_ "b" 24 false)];
   CProps [("b", Prop_ "b" 32 true); ("c", Prop_ "c" 36 true)];
   CProps [("a", Prop_ "a" 32 false)]].

(** The part of the graph that holds the members. *)
Definition r15 (a : addr) : Prop := In a [4;5;6;7; 20;21;22;23;24;25;26;27; 32;33;34;35;36;37;38;39; 44;45;46] \/ 47 <= a.

Lemma closed_list (h : list cell) (R : addr -> Prop) : (forall i c, nth_error h i = Some c -> R i -> cell_in R c) -> closed R h.
Proof. intros H a c Ra E. eauto. Qed.

Lemma r15_closed : closed r15 (heap m15).
Proof.
  intros a c [I|L] E; [|apply nth_error_lt in E; vm_compute in E; exfalso; lia].
  assert (X : forall x, existsb (Nat.eqb x) [4;5;6;7; 20;21;22;23;24;25;26;27; 32;33;34;35;36;37;38;39; 44;45;46] = true -> r15 x).
  { intros x Q. left. apply existsb_exists in Q. destruct Q as (y & Y & Z). apply Nat.eqb_eq in Z. now subst y. }
  repeat (destruct I as [<-|I]; [vm_compute in E; injection E as <-;
    repeat first [ exact Logic.I | apply Forall_nil | apply Forall_cons | split | discriminate
                 | (apply X; vm_compute; reflexivity) | (intros ? Q; injection Q as <-) | (intros ? Q; discriminate Q) ] |]).
  destruct I.
Qed.

Example C15_case :
  (forall a, List.length (heap m15) <= a -> r15 a) /\ closed r15 (heap m15) /\ ~ r15 8 /\ ~ r15 28
  /\ (exists s1 f, inherit 9 8 0 m15 = (Ok 8, s1) /\ shape_at (heap s1) 8 (SArray f)
        /\ f = ArrF (Some 4) (Some 2%Z) (Some 5%Z) (Some true))
  /\ fst (inherit 9 12 0 m15) = Err
  /\ (exists s1 f m l, inherit 9 28 16 m15 = (Ok 28, s1) /\ shape_at (heap s1) 28 (SObject f) /\ o_min f = Some 1%Z
        /\ o_props f = Some m /\ get_props (heap s1) m = Some l /\ map fst l = ["b"; "c"; "a"])
  /\ fst (inherit 9 40 16 m15) = Err.
Proof.
  split; [intros a L; right; exact L|]. split; [apply r15_closed|].
  split; [intros [I|L]; [repeat (destruct I as [I|I]; [discriminate I|]); destruct I|lia]|].
  split; [intros [I|L]; [repeat (destruct I as [I|I]; [discriminate I|]); destruct I|lia]|].
  split; [eexists; eexists; split; [vm_compute; reflexivity|]; split; [eexists; split; [vm_compute; reflexivity|reflexivity]|reflexivity]|].
  split; [vm_compute; reflexivity|].
  split; [|vm_compute; reflexivity].
  eexists; eexists; eexists; eexists. split; [vm_compute; reflexivity|].
  split; [eexists; split; [vm_compute; reflexivity|reflexivity]|]. split; [reflexivity|]. split; [reflexivity|].
  split; [vm_compute; reflexivity|reflexivity].
Qed.

(** * C48 *)

(** Whatever Inherit does to the graph, property maps only get new entries at
    the end: declared properties keep their position, name and requiredness;
    nothing else of a type changes but the facets it does not give itself. *)
Theorem C48_own_first : forall n t src s, heap_kept (heap s) (heap (snd (inherit n t src s))).
Proof. exact inherit_keeps. Qed.
Print Assumptions C48_own_first.

(** The exact result when the property types of both objects lie in a part of
    the graph without the two maps and the target: own properties in their
    order, then those of the parent that are not redeclared, in the parent's. *)
Theorem C48_exact : forall (R : addr -> Prop) n t src s r s' f g tm sm l ks,
  (forall a, List.length (heap s) <= a -> R a) -> closed R (heap s) ->
  ~ R t -> (R src \/ ~ R src) ->
  inherit n t src s = (Ok r, s') ->
  shape_at (heap s) t (SObject f) -> shape_at (heap s) src (SObject g) ->
  (forall b, get_base (heap s) src = Some b -> b_visited b = false) ->
  o_props f = Some tm -> o_props g = Some sm -> get_props (heap s) tm = Some l -> get_props (heap s) sm = Some ks ->
  props_in R l -> props_in R ks -> ~ R tm -> ~ R sm -> opt_in R (o_pprops f) -> opt_in R (o_pprops g) ->
  tm <> sm -> NoDup (map fst ks) ->
  get_props (heap s') tm = Some (l ++ missing l ks)
  /\ exists f', shape_at (heap s') t (SObject f') /\ o_props f' = Some tm.
Proof. exact inherit_object_order. Qed.
Print Assumptions C48_exact.

Definition r48 (a : addr) : Prop := In a [4;5;6;7; 20;21;22;23;24;25;26;27; 32;33;34;35;36;37;38;39] \/ 47 <= a.
Lemma r48_closed : closed r48 (heap m15).
Proof.
  intros a c [I|L] E; [|apply nth_error_lt in E; vm_compute in E; exfalso; lia].
  assert (X : forall x, existsb (Nat.eqb x) [4;5;6;7; 20;21;22;23;24;25;26;27; 32;33;34;35;36;37;38;39] = true -> r48 x).
  { intros x Q. left. apply existsb_exists in Q. destruct Q as (y & Y & Z). apply Nat.eqb_eq in Z. now subst y. }
  repeat (destruct I as [<-|I]; [vm_compute in E; injection E as <-;
    repeat first [ exact Logic.I | apply Forall_nil | apply Forall_cons | split | discriminate
                 | (apply X; vm_compute; reflexivity) | (intros ? Q; injection Q as <-) | (intros ? Q; discriminate Q) ] |]).
  destruct I.
Qed.

Example C48_case :
  closed r48 (heap m15) /\ ~ r48 28 /\ ~ r48 44 /\ ~ r48 45
  /\ props_in r48 [("a", Prop_ "a" 20 true); ("b", Prop_ "b" 24 false)]
  /\ get_props (heap (snd (inherit 9 28 16 m15))) 45
     = Some ([("b", Prop_ "b" 32 true); ("c", Prop_ "c" 36 true)] ++ [("a", Prop_ "a" 20 true)]).
Proof.
  split; [apply r48_closed|].
  split; [intros [I|L]; [repeat (destruct I as [I|I]; [discriminate I|]); destruct I|lia]|].
  split; [intros [I|L]; [repeat (destruct I as [I|I]; [discriminate I|]); destruct I|lia]|].
  split; [intros [I|L]; [repeat (destruct I as [I|I]; [discriminate I|]); destruct I|lia]|].
  split; [repeat constructor; left; vm_compute; tauto|].
  vm_compute. reflexivity.
Qed.

(** * C55 *)

(** [P: {additionalProperties: false}; C: {type: P, additionalProperties: true}]:
    the child reopens what the parent closed. *)
Definition m55 : st := model
  [Decl "P" "object" (SObject (ObjF None None (Some false) None None None None)) [] None;
   Decl "C" "object" (SObject (ObjF None None (Some true) None None None None)) [0] None] [].
Theorem C55_reopened_refuted :
  ~ (forall n m O st0 t src r st' v,
       fresh_model (heap st0) ->
       (exists f, shape_at (heap st0) t (SObject f)) -> (exists g, shape_at (heap st0) src (SObject g)) ->
       inherit n t src st0 = (Ok r, st') ->
       validate m O (heap st') t v = Ok tt -> validate m O (heap st') src v = Ok tt).
Proof.
  intros H.
  assert (E : exists s', inherit 9 4 0 m55 = (Ok 4, s')
     /\ validate 9 exO (heap s') 4 (GMap [("x", GStr "")]) = Ok tt
     /\ validate 9 exO (heap s') 0 (GMap [("x", GStr "")]) = Err).
  { eexists. repeat (split; [vm_compute; reflexivity|]). vm_compute. reflexivity. }
  destruct E as (s' & E1 & E2 & E3).
  assert (F : fresh_model (heap m55)) by (apply fresh_b_sound; vm_compute; reflexivity).
  assert (A : exists f, shape_at (heap m55) 4 (SObject f)) by (do 2 eexists; split; vm_compute; reflexivity).
  assert (B : exists f, shape_at (heap m55) 0 (SObject f)) by (do 2 eexists; split; vm_compute; reflexivity).
  specialize (H 9 9 exO m55 4 0 4 s' _ F A B E1 E2). congruence.
Qed.
Print Assumptions C55_reopened_refuted.

(** [P: {additionalProperties: false}; C: {type: P, properties: {x: string}}]:
    so does a property of the child's own. *)
Definition m55p : st := model
  [Decl "P" "object" (SObject (ObjF None None (Some false) None None None None)) [] None;
   Decl "C" "object" (obj 12) [0] None; Decl "x" "string" (SStr estr) [] None]
  [CProps [("x", Prop_ "x" 8 true)]].
Theorem C55_own_property_refuted :
  ~ (forall n m O st0 t src r st' v f g,
       fresh_model (heap st0) ->
       shape_at (heap st0) t (SObject f) -> shape_at (heap st0) src (SObject g) -> o_addl f = None ->
       inherit n t src st0 = (Ok r, st') ->
       validate m O (heap st') t v = Ok tt -> validate m O (heap st') src v = Ok tt).
Proof.
  intros H.
  assert (E : exists s', inherit 9 4 0 m55p = (Ok 4, s')
     /\ validate 9 exO (heap s') 4 (GMap [("x", GStr "")]) = Ok tt
     /\ validate 9 exO (heap s') 0 (GMap [("x", GStr "")]) = Err).
  { eexists. repeat (split; [vm_compute; reflexivity|]). vm_compute. reflexivity. }
  destruct E as (s' & E1 & E2 & E3).
  assert (F : fresh_model (heap m55p)) by (apply fresh_b_sound; vm_compute; reflexivity).
  assert (A : exists f, shape_at (heap m55p) 4 (SObject f) /\ o_addl f = None).
  { eexists. split; [eexists; split; vm_compute; reflexivity|reflexivity]. }
  assert (B : exists f, shape_at (heap m55p) 0 (SObject f)) by (do 2 eexists; split; vm_compute; reflexivity).
  destruct A as (f & A & A'), B as (g & B).
  specialize (H 9 9 exO m55p 4 0 4 s' _ f g F A B A' E1 E2). congruence.
Qed.
Print Assumptions C55_own_property_refuted.
