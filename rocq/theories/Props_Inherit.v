(** Property theorems about inheritance, unwrapping and aliases
    (C16-C19, C27, C47, C51). *)
From Coq Require Import ZArith List String Bool Lia.
From Verif Require Import Base Scalars Heap Heap_lemmas Validate Spec_Validate Spec_Model Model_check
  Inherit_proofs Props_Validate.
Import ListNotations.
Open Scope string_scope.
Open Scope list_scope.
Open Scope nat_scope.

(** Shapes for the examples. *)
Definition obj (m : addr) : shape := SObject (ObjF None None None (Some m) None None None).
Definition str_len (lo hi : option Z) : shape := SStr (StrF lo hi None None).
Definition sint : shape := SInt (IntF None None None None None).

(** * C16 *)

(** Inherit never succeeds when the kinds differ, the parent is not any, neither
    is a union, and the parent is not being visited. A recursive parent of an
    object counts as its head. *)
Theorem C16_kind_mismatch : forall n s src st0 tb sb tsh ssh,
  get_base (heap st0) s = Some tb -> get_base (heap st0) src = Some sb ->
  b_shape tb = Some tsh -> b_shape sb = Some ssh -> s <> src ->
  b_visited sb = false -> ssh <> SAny -> (forall l e, ssh <> SUnion l e) -> (forall l e, tsh <> SUnion l e) ->
  ~ same_kind tsh ssh ->
  (forall f hd, tsh = SObject f -> ssh = SRec hd ->
     exists hsh, shape_at (heap st0) hd hsh /\ ~ same_kind tsh hsh) ->
  forall r, fst (inherit n s src st0) <> Ok r.
Proof. exact inherit_kinds. Qed.
Print Assumptions C16_kind_mismatch.

(** [P: string; I: integer; O: {properties: {a: string}};
    Q: {properties: {a: integer}, type: O}]. *)
Definition m16 : st := model
  [Decl "P" "string" (SStr estr) [] None; Decl "I" "integer" sint [] None;
   Decl "O" "object" (obj 20) [] None; Decl "Q" "object" (obj 21) [8] None;
   Decl "a" "integer" sint [] None] [CProps [("a", Prop_ "a" 0 true)]; CProps [("a", Prop_ "a" 16 true)]].

Example C16_case : fresh_model (heap m16)
  /\ fst (inherit 9 4 0 m16) = Err /\ fst (inherit 9 12 8 m16) = Err /\ fst (unwrap 9 12 m16) = Err.
Proof. split; [apply fresh_b_sound; vm_compute; reflexivity|]. repeat split; vm_compute; reflexivity. Qed.

(** The flag matters: after a derivation from [P] that succeeds, a second type
    may redeclare the property with any kind at all.
    [P: {p: string | integer}; A: {type: P, p: string}; B: {type: P, p: boolean}]. *)
Definition m18 : st := model
  [Decl "P" "object" (obj 32) [] None; Decl "p" "union" (SUnion 35 None) [] None;
   Decl "" "string" (SStr estr) [] None; Decl "" "integer" sint [] None;
   Decl "A" "object" (obj 33) [0] None; Decl "p" "string" (SStr estr) [] None;
   Decl "B" "object" (obj 34) [0] None; Decl "p" "boolean" (SBool None) [] None]
  [CProps [("p", Prop_ "p" 4 true)]; CProps [("p", Prop_ "p" 20 true)];
   CProps [("p", Prop_ "p" 28 true)]; CSlice [8; 12]].

Lemma m18_fresh : fresh_model (heap m18).
Proof. apply fresh_b_sound. vm_compute. reflexivity. Qed.

(** * C18 *)
Theorem C18_history_refuted :
  ~ (forall n st0 a b ra st1,
       fresh_model (heap st0) -> unwrap n a st0 = (Ok ra, st1) ->
       is_ok (fst (unwrap n b st1)) = is_ok (fst (unwrap n b st0))).
Proof.
  intros H.
  assert (E : exists st1, unwrap 9 16 m18 = (Ok 16, st1) /\ is_ok (fst (unwrap 9 24 st1)) = true).
  { eexists. split; [vm_compute; reflexivity|vm_compute; reflexivity]. }
  destruct E as (st1 & E1 & E2). specialize (H 9 m18 16 24 16 st1 m18_fresh E1).
  assert (E3 : is_ok (fst (unwrap 9 24 m18)) = false) by (vm_compute; reflexivity). congruence.
Qed.
Print Assumptions C18_history_refuted.

(** What does hold: when neither parent nor child is a union (or both are) and
    the parent is not any, a successful Inherit leaves the parent unvisited, so
    the next one starts from the same flag. *)
Theorem C18_flag_restored_partial : forall n s src st0 tb sb tsh ssh r st',
  get_base (heap st0) s = Some tb -> get_base (heap st0) src = Some sb -> s <> src ->
  b_shape tb = Some tsh -> b_shape sb = Some ssh ->
  b_visited sb = false -> ssh <> SAny ->
  ((forall l e, ssh <> SUnion l e) /\ (forall l e, tsh <> SUnion l e)
   \/ (exists l e l' e', ssh = SUnion l e /\ tsh = SUnion l' e')) ->
  inherit n s src st0 = (Ok r, st') ->
  r = s /\ exists sb', get_base (heap st') src = Some sb' /\ b_visited sb' = false.
Proof. exact inherit_flag. Qed.
Print Assumptions C18_flag_restored_partial.

Example C18_case : exists st', inherit 9 16 0 m18 = (Ok 16, st').
Proof. eexists. vm_compute. reflexivity. Qed.

(** * C17 *)

(** [P: string; C: {type: P (redeclared as) integer | boolean}]. *)
Definition m17 : st := model
  [Decl "P" "string" (SStr estr) [] None; Decl "C" "union" (SUnion 16 None) [0] None;
   Decl "" "integer" sint [] None; Decl "" "boolean" (SBool None) [] None] [CSlice [8; 12]].

Theorem C17_union_redeclaration_refuted :
  ~ (forall n st0 c p f sl e l,
       fresh_model (heap st0) -> shape_at (heap st0) p (SStr f) -> shape_at (heap st0) c (SUnion sl e) ->
       get_slice (heap st0) sl = Some l -> l <> [] ->
       (forall m sh, In m l -> shape_at (heap st0) m sh -> scalar_shape sh /\ sh <> SAny /\ ~ same_kind sh (SStr f)) ->
       forall r, fst (inherit n c p st0) <> Ok r).
Proof.
  intros H.
  assert (F : fresh_model (heap m17)) by (apply fresh_b_sound; vm_compute; reflexivity).
  refine (H 9 m17 4 0 estr 16 None [8; 12] F _ _ eq_refl _ _ 4 _).
  - eexists. split; reflexivity.
  - eexists. split; reflexivity.
  - discriminate.
  - intros m sh [<-|[<-|[]]] (b & E & S); cbn in E; injection E as <-; cbn in S; injection S as <-;
      (split; [constructor|split; [discriminate|intros []]]).
  - vm_compute. reflexivity.
Qed.
Print Assumptions C17_union_redeclaration_refuted.

(** The members of the slice [sl], from the [i]th on, inherit from [u], one after
    another and without an error. *)
Inductive members_inherit (n : nat) (u sl : addr) : nat -> st -> st -> Prop :=
| mi_end i s l : get_slice (heap s) sl = Some l -> nth_error l i = None -> members_inherit n u sl i s s
| mi_next i s l m r s1 s2 : get_slice (heap s) sl = Some l -> nth_error l i = Some m ->
    inherit n m u s = (Ok r, s1) -> members_inherit n u sl (S i) s1 s2 -> members_inherit n u sl i s s2.

Lemma union_target_good n u sl k : forall i good s b s', union_target (inherit n) k u sl i good s = (Ok b, s') ->
  b = true -> good = true /\ members_inherit n u sl i s s'.
Proof.
  induction k as [|k IH]; intros i good s b s' H Hb; cbn [union_target] in H; [discriminate|].
  unfold bind at 1, rd at 1 in H. destruct (get_slice (heap s) sl) as [l|] eqn:L; [|discriminate].
  destruct (nth_error l i) as [m|] eqn:N.
  - unfold bind, try in H. destruct (inherit n m u s) as [[r| | |] s1] eqn:R; try discriminate.
    + destruct (IH _ _ _ _ _ H Hb) as [G M]. split; [exact G|]. exact (mi_next n u sl i s l m r s1 s' L N R M).
    + destruct (IH _ _ _ _ _ H Hb) as [G _]. discriminate G.
  - injection H as <- <-. split; [exact Hb|]. exact (mi_end n u sl i s l L N).
Qed.

(** What does hold: when a union inherits from a type that is neither a union
    nor any, and does so without an error, all its members could inherit (from
    the union, not from the parent). *)
Theorem C17_member_partial : forall n t src s tb sb ta e ssh r s',
  t <> src -> get_base (heap s) t = Some tb -> get_base (heap s) src = Some sb -> b_visited sb = false ->
  b_shape tb = Some (SUnion ta e) -> b_shape sb = Some ssh -> ssh <> SAny -> (forall l x, ssh <> SUnion l x) ->
  inherit (S n) t src s = (Ok r, s') ->
  r = t /\ exists s1, members_inherit n t ta 0 s1 s'.
Proof.
  intros n t src s tb sb ta e ssh r s' Nt Et Es V Sh Ss Na Nu. cbn [inherit]. unfold inherit_body.
  rewrite (bind_ok _ _ _ _ _ (rd_some _ _ _ _ Es)), V. intros H.
  apply bind_inv in H. destruct H as (u1 & s1 & H1 & H). unfold upd_base in H1. rewrite (bind_ok _ _ _ _ _ (rd_some _ _ _ _ Es)) in H1. injection H1 as _ <-.
  apply bind_inv in H. destruct H as (tb1 & s2 & H1 & H). unfold rd in H1. cbn [heap] in H1.
  assert (Et' : get_base (upd src (CBase (set_visited true sb)) (heap s)) t = Some tb).
  { apply get_base_nth. rewrite nth_error_upd_neq by congruence. now apply get_base_nth. }
  rewrite Et' in H1. injection H1 as <- <-.
  apply bind_inv in H. destruct H as (u2 & s2 & _ & H).
  apply bind_inv in H. destruct H as (tfm & s3 & _ & H).
  apply bind_inv in H. destruct H as (sfm & s4 & _ & H).
  apply bind_inv in H. destruct H as (u3 & s5 & _ & H).
  rewrite Sh, Ss in H.
  assert (K : (good <- union_target (inherit n) n t ta 0%nat true ;; if good then ret t else fail)%M s5 = (Ok r, s')).
  { destruct ssh; try exact H; [contradiction|]. exfalso. eapply Nu. reflexivity. }
  apply bind_inv in K. destruct K as (g & s6 & K1 & K2). destruct g; [|discriminate]. injection K2 as <- <-.
  split; [reflexivity|]. exists s5. exact (proj2 (union_target_good _ _ _ _ _ _ _ _ _ K1 eq_refl)).
Qed.
Print Assumptions C17_member_partial.

Example C17_member_case : exists r s', inherit 9 4 0 m17 = (Ok r, s').
Proof. eexists _, _. vm_compute. reflexivity. Qed.

(** [P: string; C: {type: P (redeclared as) (string | string) | string}]: every
    member at every depth is a string, and yet it is refused. *)
Definition m17b : st := model
  [Decl "P" "string" (SStr estr) [] None; Decl "C" "union" (SUnion 24 None) [0] None;
   Decl "" "union" (SUnion 25 None) [] None; Decl "" "string" (SStr estr) [] None;
   Decl "" "string" (SStr estr) [] None; Decl "" "string" (SStr estr) [] None] [CSlice [8; 20]; CSlice [12; 16]].

Theorem C17_nested_union_refuted :
  ~ (forall st0 c p sl e l,
       fresh_model (heap st0) -> shape_at (heap st0) p (SStr estr) -> shape_at (heap st0) c (SUnion sl e) ->
       get_slice (heap st0) sl = Some l ->
       (forall m, In m l -> shape_at (heap st0) m (SStr estr)
          \/ exists sl' e' l', shape_at (heap st0) m (SUnion sl' e') /\ get_slice (heap st0) sl' = Some l' /\ l' <> []
               /\ forall x, In x l' -> shape_at (heap st0) x (SStr estr)) ->
       forall n, fst (inherit n c p st0) <> Err).
Proof.
  intros H.
  assert (F : fresh_model (heap m17b)) by (apply fresh_b_sound; vm_compute; reflexivity).
  refine (H m17b 4 0 24 None [8; 20] F _ _ eq_refl _ 9 _).
  - eexists. split; reflexivity.
  - eexists. split; reflexivity.
  - intros m [<-|[<-|[]]]; [right|left; eexists; split; reflexivity].
    exists 25, None, [12; 16]. split; [eexists; split; reflexivity|]. split; [reflexivity|]. split; [discriminate|].
    intros x [<-|[<-|[]]]; eexists; split; reflexivity.
  - vm_compute. reflexivity.
Qed.
Print Assumptions C17_nested_union_refuted.

(** * C19 *)

(** [A: {a: string}; B: {b: string}; C: {type: [A, B]}]. *)
Definition m19 : st := model
  [Decl "A" "object" (obj 20) [] None; Decl "a" "string" (SStr estr) [] None;
   Decl "B" "object" (obj 21) [] None; Decl "b" "string" (SStr estr) [] None;
   Decl "C" "object" (obj 22) [0; 8] None]
  [CProps [("a", Prop_ "a" 4 true)]; CProps [("b", Prop_ "b" 12 true)]; CProps []].

Theorem C19_parents_unchanged_refuted :
  ~ (forall n m O st0 p c rp rp' rc st1 st2 st3 v,
       fresh_model (heap st0) -> unwrap n p st0 = (Ok rp, st1) ->
       unwrap n c st0 = (Ok rc, st2) -> unwrap n p st2 = (Ok rp', st3) ->
       validate m O (heap st3) rp' v = validate m O (heap st1) rp v).
Proof.
  intros H.
  assert (E : exists st1 st2 st3, unwrap 9 0 m19 = (Ok 0, st1) /\ unwrap 9 16 m19 = (Ok 16, st2)
     /\ unwrap 9 0 st2 = (Ok 0, st3)
     /\ validate 9 exO (heap st1) 0 (GMap [("a", GStr "x")]) = Ok tt
     /\ validate 9 exO (heap st3) 0 (GMap [("a", GStr "x")]) = Err).
  { do 3 eexists. repeat (split; [vm_compute; reflexivity|]). vm_compute. reflexivity. }
  destruct E as (st1 & st2 & st3 & E1 & E2 & E3 & V1 & V3).
  assert (F : fresh_model (heap m19)) by (apply fresh_b_sound; vm_compute; reflexivity).
  specialize (H 9 9 exO m19 0 16 0 0 16 st1 st2 st3 (GMap [("a", GStr "x")]) F E1 E2 E3). congruence.
Qed.
Print Assumptions C19_parents_unchanged_refuted.

(** * C27 *)

(** An unwrapped shape is returned as it is and nothing changes. *)
Theorem C27_unwrapped_is_fixed : forall n a s b sh,
  get_base (heap s) a = Some b -> b_shape b = Some sh -> b_unwrapped b = true ->
  unwrap (S n) a s = (Ok a, s).
Proof. exact unwrap_again. Qed.
Print Assumptions C27_unwrapped_is_fixed.

(** After success the shape is unwrapped, whatever the graph. *)
Theorem C27_marks_unwrapped : forall n a s r s',
  unwrap n a s = (Ok r, s') -> exists b, get_base (heap s') a = Some b /\ b_unwrapped b = true.
Proof. exact unwrap_marks. Qed.
Print Assumptions C27_marks_unwrapped.

(** Hence the second call changes nothing. *)
Theorem C27_idempotent : forall n m a s r s',
  unwrap n a s = (Ok r, s') ->
  (forall b, get_base (heap s') a = Some b -> b_shape b <> None) ->
  unwrap (S m) a s' = (Ok a, s').
Proof. exact unwrap_idempotent. Qed.
Print Assumptions C27_idempotent.

Example C27_case : exists st1 b, unwrap 9 16 m19 = (Ok 16, st1)
  /\ get_base (heap st1) 16 = Some b /\ b_shape b <> None /\ b_unwrapped b = true.
Proof. eexists. eexists. split; [vm_compute; reflexivity|]. split; [vm_compute; reflexivity|]. split; [discriminate|reflexivity]. Qed.

(** The two calls may return different shapes, though: the first one may hand
    out the parent. [X: any; A: {type: X}; B: {type: X}]. *)
Definition m27 : st := model
  [Decl "X" "any" SAny [] None; Decl "A" "any" SAny [0] None; Decl "B" "any" SAny [0] None] [].

Theorem C27_same_result_refuted :
  ~ (forall n st0 a b ra rb rb' st1 st2 st3,
       fresh_model (heap st0) -> unwrap n a st0 = (Ok ra, st1) ->
       unwrap n b st1 = (Ok rb, st2) -> unwrap n b st2 = (Ok rb', st3) -> rb = rb').
Proof.
  intros H.
  assert (E : exists st1 st2 st3, unwrap 9 4 m27 = (Ok 4, st1) /\ unwrap 9 8 st1 = (Ok 0, st2)
     /\ unwrap 9 8 st2 = (Ok 8, st3)).
  { do 3 eexists. repeat (split; [vm_compute; reflexivity|]). vm_compute. reflexivity. }
  destruct E as (st1 & st2 & st3 & E1 & E2 & E3).
  assert (F : fresh_model (heap m27)) by (apply fresh_b_sound; vm_compute; reflexivity).
  specialize (H 9 m27 4 8 4 0 8 st1 st2 st3 F E1 E2 E3). discriminate.
Qed.
Print Assumptions C27_same_result_refuted.

(** * C47 *)

(** Unwrapping an alias of a shape that is already unwrapped and not boolean
    makes both accept the same values, with the same fuel. *)
Theorem C47_alias_equivalent_partial : forall n a st0 b al ab sh r st',
  get_base (heap st0) a = Some b -> b_alias b = Some al -> b_unwrapped b = false -> al <> a ->
  get_base (heap st0) al = Some ab -> b_shape ab = Some sh -> b_unwrapped ab = true ->
  (forall e, sh <> SBool e) ->
  unwrap n a st0 = (Ok r, st') ->
  r = a /\ shape_at (heap st') al sh
  /\ forall m O v, validate m O (heap st') a v = validate m O (heap st') al v.
Proof. exact alias_of_unwrapped. Qed.
Print Assumptions C47_alias_equivalent_partial.

(** In general the alias is equivalent, right after the call, to whatever
    unwrapping its target returned. *)
Theorem C47_alias_of_result_partial : forall n a st0 b al r st',
  get_base (heap st0) a = Some b -> b_alias b = Some al -> b_unwrapped b = false ->
  unwrap (S n) a st0 = (Ok r, st') ->
  exists us st1 st2, unwrap n al st1 = (Ok us, st2)
    /\ ((forall e, ~ shape_at (heap st') us (SBool e)) ->
        r = a /\ forall m O v, validate m O (heap st') a v = validate m O (heap st') us v).
Proof. exact alias_equivalent. Qed.
Print Assumptions C47_alias_of_result_partial.

(** [A: {type: boolean, enum: [true]}; B: A]. *)
Definition m47 : st := model
  [Decl "A" "boolean" (SBool (Some [GBool true])) [] None; Decl "B" "boolean" (SBool None) [] (Some 0)] [].

(** [P: {minProperties: 1}; A: {type: P, properties: {x?: B}}; B: A]. *)
Definition oempty (mn : option Z) : shape := SObject (ObjF None None None None None mn None).
Definition m47b : st := model
  [Decl "P" "object" (oempty (Some 1%Z)) [] None; Decl "A" "object" (obj 16) [0] None;
   Decl "x" "object" (oempty None) [] (Some 12); Decl "B" "object" (oempty None) [] (Some 4)]
  [CProps [("x", Prop_ "x" 8 false)]].

Theorem C47_boolean_refuted :
  ~ (forall n m O st0 a b al r st' v,
       fresh_model (heap st0) -> get_base (heap st0) a = Some b -> b_alias b = Some al ->
       unwrap n a st0 = (Ok r, st') -> validate m O (heap st') a v = validate m O (heap st') al v).
Proof.
  intros H.
  assert (E : exists st1 b, get_base (heap m47) 4 = Some b /\ b_alias b = Some 0
     /\ unwrap 9 4 m47 = (Ok 4, st1)
     /\ validate 9 exO (heap st1) 4 (GBool false) = Ok tt
     /\ validate 9 exO (heap st1) 0 (GBool false) = Err).
  { do 2 eexists. repeat (split; [vm_compute; reflexivity|]). vm_compute. reflexivity. }
  destruct E as (st1 & b & Eb & Al & E1 & V1 & V2).
  assert (F : fresh_model (heap m47)) by (apply fresh_b_sound; vm_compute; reflexivity).
  specialize (H 9 9 exO m47 4 b 0 4 st1 (GBool false) F Eb Al E1). congruence.
Qed.
Print Assumptions C47_boolean_refuted.

(** Also without booleans: an alias reached while its target is being unwrapped
    copies facets the target has not inherited yet. *)
Theorem C47_in_progress_refuted :
  ~ (forall n m O st0 t a b al r st' v,
       fresh_model (heap st0) -> get_base (heap st0) a = Some b -> b_alias b = Some al ->
       (forall e, ~ shape_at (heap st0) al (SBool e)) ->
       unwrap n t st0 = (Ok r, st') ->
       (exists b', get_base (heap st') a = Some b' /\ b_unwrapped b' = true) ->
       validate m O (heap st') a v = validate m O (heap st') al v).
Proof.
  intros H.
  assert (E : exists st1 b, get_base (heap m47b) 12 = Some b /\ b_alias b = Some 4
     /\ unwrap 9 4 m47b = (Ok 4, st1)
     /\ (exists b', get_base (heap st1) 12 = Some b' /\ b_unwrapped b' = true)
     /\ validate 9 exO (heap st1) 12 (GMap []) = Ok tt
     /\ validate 9 exO (heap st1) 4 (GMap []) = Err).
  { do 2 eexists. repeat (split; [vm_compute; reflexivity|]).
    split; [eexists; split; vm_compute; reflexivity|]. split; vm_compute; reflexivity. }
  destruct E as (st1 & b & Eb & Al & E1 & U & V1 & V2).
  assert (F : fresh_model (heap m47b)) by (apply fresh_b_sound; vm_compute; reflexivity).
  assert (NB : forall e, ~ shape_at (heap m47b) 4 (SBool e)).
  { intros e (b' & X & Y). vm_compute in X. injection X as <-. discriminate. }
  specialize (H 9 9 exO m47b 4 12 b 4 4 st1 (GMap []) F Eb Al NB E1 U). congruence.
Qed.
Print Assumptions C47_in_progress_refuted.

Example C47_case : exists st1 b ab, unwrap 9 0 m47b = (Ok 0, st1)
  /\ get_base (heap st1) 0 = Some ab /\ b_unwrapped ab = true
  /\ get_base (heap st1) 12 = Some b /\ b_alias b = Some 4 /\ b_unwrapped b = false
  /\ is_ok (fst (unwrap 9 12 st1)) = true.
Proof. do 3 eexists. repeat (split; [vm_compute; reflexivity|]). vm_compute. reflexivity. Qed.

(** * C51 *)

(** [S: union of string(maxLength 3); T: union of string(minLength 4, maxLength
    5) and string(minLength 2, maxLength 3)], both with parent S. *)
Definition m51 : st := model
  [Decl "S" "union" (SUnion 20 None) [] None; Decl "" "string" (str_len None (Some 3%Z)) [] None;
   Decl "T" "union" (SUnion 21 None) [0] None;
   Decl "" "string" (str_len (Some 4%Z) (Some 5%Z)) [] None;
   Decl "" "string" (str_len (Some 2%Z) (Some 3%Z)) [] None]
  [CSlice [4]; CSlice [12; 16]].

(** A failed attempt leaves the source member marked as being visited; the next
    attempt then returns the source member itself, so that a member declared by
    the child is replaced by the parent's and the result accepts values the
    child excludes. *)
Theorem C51_members_refuted :
  ~ (forall n m O st0 t src r st' v,
       fresh_model (heap st0) ->
       (exists l e, shape_at (heap st0) t (SUnion l e)) ->
       (exists l e, shape_at (heap st0) src (SUnion l e)) ->
       inherit n t src st0 = (Ok r, st') ->
       validate m O (heap st') r v = Ok tt -> validate m O (heap st0) t v = Ok tt).
Proof.
  intros H.
  assert (E : exists st1, inherit 9 8 0 m51 = (Ok 8, st1)
     /\ validate 9 exO (heap st1) 8 (GStr "") = Ok tt
     /\ validate 9 exO (heap m51) 8 (GStr "") = Err).
  { eexists. repeat (split; [vm_compute; reflexivity|]). vm_compute. reflexivity. }
  destruct E as (st1 & E1 & V1 & V2).
  assert (F : fresh_model (heap m51)) by (apply fresh_b_sound; vm_compute; reflexivity).
  assert (U1 : exists l e, shape_at (heap m51) 8 (SUnion l e)).
  { do 2 eexists. eexists. split; vm_compute; reflexivity. }
  assert (U2 : exists l e, shape_at (heap m51) 0 (SUnion l e)).
  { do 2 eexists. eexists. split; vm_compute; reflexivity. }
  specialize (H 9 9 exO m51 8 0 8 st1 (GStr "") F U1 U2 E1 V1). congruence.
Qed.
Print Assumptions C51_members_refuted.
