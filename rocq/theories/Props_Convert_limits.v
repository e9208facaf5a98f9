(** Where the conversion to JSON Schema does not keep the meaning of a type
    (C33, C35, C36, C59): a witness for every clause of [same_meaning],
    [fits_types] and [names_apart]. *)
From Coq Require Import ZArith List String Ascii Bool Lia.
From Coq Require Import Floats.SpecFloat.
From Verif Require Import Base Scalars Spec_Scalars Heap Heap_lemmas Validate Spec_Validate Spec_Mark Schema Convert Spec_Schema Model_check
  Convert_proofs Convert_meaning_proofs Props_Validate Props_Inherit Props_Mark Props_Convert.
From Verif Require Validate_proofs.
Import ListNotations.
Open Scope string_scope.
Open Scope list_scope.
Open Scope nat_scope.

(** One type, and what it is converted to. *)
Definition one (sh : shape) (rest : list cell) : list cell := eempty ++ eb 1 "T" "t" sh :: rest.
Definition schema_of (n : nat) (E : cenv) (a : addr) : schema := match convert n true E a with Ok s => s | _ => Null end.

(** A JSON value the type accepts and the schema does not, or the other way
    round. *)
Definition only_type (E : cenv) (a : addr) (sh : shape) : Prop :=
  shape_at (c_heap E) a sh /\ exists S0 v, convert 9 true E a = Ok S0 /\ json_value v
    /\ valid exO (c_heap E) a v /\ ~ satisfies exO exF (definitions S0) S0 v.
Definition only_schema (E : cenv) (a : addr) (sh : shape) : Prop :=
  shape_at (c_heap E) a sh /\ exists S0 v, convert 9 true E a = Ok S0 /\ json_value v
    /\ ~ valid exO (c_heap E) a v /\ satisfies exO exF (definitions S0) S0 v.

Section Reading.
Variable D : list (string * schema).

Lemma sat_ref s n t v : s <> Null -> k_ref (keywords s) = ("#/definitions/" ++ n)%string -> oget n D = Some t ->
  (satisfies exO exF D s v <-> satisfies exO exF D t v).
Proof.
  intros N R G. destruct s as [|k d al an on nt it th el its ps pps pn x y z]; [contradiction|]. simpl in R. split; intros H.
  - apply satisfies_unfold in H. simpl in H. rewrite R in H. simpl in H. destruct H as (n' & t' & Q & G' & H).
    injection Q as Q. subst n'. rewrite G in G'. injection G' as <-. exact H.
  - apply satisfies_fold. simpl. rewrite R. simpl. exists n, t. auto.
Qed.
Lemma sat_kw s v : k_ref (keywords s) = "" -> satisfies exO exF D s v -> scalar_keywords exO exF (keywords s) v.
Proof.
  intros R H. apply satisfies_unfold in H. destruct s; [destruct H|]. simpl in R. simpl in H. rewrite R in H. simpl in H. now destruct H.
Qed.
Lemma sat_prop s kvs n x t : k_ref (keywords s) = "" -> satisfies exO exF D s (GMap kvs) -> In (n, x) kvs ->
  oget n (entries (properties s)) = Some t -> satisfies exO exF D t x.
Proof.
  intros R H I G. apply satisfies_unfold in H. destruct s; [destruct H|]. simpl in *. rewrite R in H. simpl in H.
  destruct H as (_ & _ & _ & _ & M & _). destruct (M _ eq_refl) as (_ & _ & _ & P). destruct (P _ _ I) as (P1 & _). auto.
Qed.
Lemma sat_pattern s kvs n x q t : k_ref (keywords s) = "" -> satisfies exO exF D s (GMap kvs) -> In (n, x) kvs ->
  In (q, t) (entries (pattern_properties s)) -> o_match exO q n = true -> satisfies exO exF D t x.
Proof.
  intros R H I G Q. apply satisfies_unfold in H. destruct s; [destruct H|]. simpl in *. rewrite R in H. simpl in H.
  destruct H as (_ & _ & _ & _ & M & _). destruct (M _ eq_refl) as (_ & _ & _ & P). destruct (P _ _ I) as (_ & P1 & _). eauto.
Qed.
Lemma sat_required s kvs n : k_ref (keywords s) = "" -> satisfies exO exF D s (GMap kvs) -> In n (k_required (keywords s)) ->
  exists x, In (n, x) kvs.
Proof.
  intros R H I. apply satisfies_unfold in H. destruct s; [destruct H|]. simpl in *. rewrite R in H. simpl in H.
  destruct H as (_ & _ & _ & _ & M & _). destruct (M _ eq_refl) as (_ & _ & P & _). auto.
Qed.
Lemma sat_type s v : k_ref (keywords s) = "" -> satisfies exO exF D s v -> k_type (keywords s) <> "" -> has_type (k_type (keywords s)) v.
Proof. intros R H N. apply sat_kw in H; auto. destruct H as (T & _). auto. Qed.
End Reading.

(** The definition of [T]. *)
Definition inner (E : cenv) : schema :=
  match oget "T" (definitions (schema_of 9 E 3)) with Some t => t | None => Null end.
Definition defs (E : cenv) : list (string * schema) := definitions (schema_of 9 E 3).

Lemma only_type_by E sh v : shape_at (c_heap E) 3 sh -> convert 9 true E 3 = Ok (schema_of 9 E 3) ->
  k_ref (keywords (schema_of 9 E 3)) = "#/definitions/T" -> oget "T" (defs E) = Some (inner E) ->
  json_value v -> value_wf v -> validate 9 exO (c_heap E) 3 v = Ok tt -> ~ satisfies exO exF (defs E) (inner E) v ->
  only_type E 3 sh.
Proof.
  intros Sh C R G J W V N. split; auto. exists (schema_of 9 E 3), v. split; auto. split; auto.
  split; [eapply Validate_proofs.validate_sound; eauto using exO_wf|]. intros H. apply N.
  refine (proj1 (sat_ref _ _ "T" _ _ _ _ G) H); auto. intros Q. rewrite Q in R. discriminate.
Qed.
Lemma only_schema_by E sh v : shape_at (c_heap E) 3 sh -> convert 9 true E 3 = Ok (schema_of 9 E 3) ->
  k_ref (keywords (schema_of 9 E 3)) = "#/definitions/T" -> oget "T" (defs E) = Some (inner E) ->
  json_value v -> ~ valid exO (c_heap E) 3 v -> satisfies exO exF (defs E) (inner E) v ->
  only_schema E 3 sh.
Proof.
  intros Sh C R G J V N. split; auto. exists (schema_of 9 E 3), v. split; auto. split; auto. split; auto.
  refine (proj2 (sat_ref _ _ "T" _ _ _ _ G) N); auto. intros Q. rewrite Q in R. discriminate.
Qed.

(** The fields of the definition of [T]. *)
Lemma inner_kw E k v : keywords (inner E) = k -> k_ref k = "" -> satisfies exO exF (defs E) (inner E) v -> scalar_keywords exO exF k v.
Proof. intros <- R H. now apply sat_kw in H. Qed.

Ltac now_vm := vm_compute; reflexivity.
Ltac only_type_on v := refine (only_type_by _ _ v _ _ _ _ _ _ _ _);
  [eexists; split; now_vm|now_vm|now_vm|now_vm| | |now_vm|].
Ltac leaf_wf := apply vw_leaf; [exact I|discriminate|discriminate].

Definition f1_5 : float64 := S754_finite false 6755399441055744 (-52).
Definition f3 : float64 := S754_finite false 6755399441055744 (-51).
Definition f2 : float64 := S754_finite false 4503599627370496 (-51).

(** ** Values only the type accepts *)

(** [integer] accepts 1.5 (C02), the schema does not. *)
Theorem C35_integer_refuted : exists h, only_type (env h) 3 (SInt (IntF None None None None None)).
Proof.
  exists (one (SInt (IntF None None None None None)) []). only_type_on (GFloat f1_5).
  - constructor. exact I.
  - leaf_wf.
  - intros H. eapply inner_kw in H; [|now_vm|reflexivity]. destruct H as (T & _). specialize (T ltac:(discriminate)). simpl in T.
    inversion T as [| | | |f z F| |]; subst. destruct F as [[F _]|[_ F]]; [lia|]. simpl in F. lia.
Qed.
Print Assumptions C35_integer_refuted.

(** [multipleOf] is never checked by the validator. *)
Theorem C35_multiple_refuted : exists h m, only_type (env h) 3 (SInt (IntF None None (Some m) None None)).
Proof.
  exists (one (SInt (IntF None None (Some f2) None None)) []), f2. only_type_on (GFloat f3).
  - constructor. exact I.
  - leaf_wf.
  - intros H. eapply inner_kw in H; [|now_vm|reflexivity]. destruct H as (_ & _ & _ & N & _).
    destruct (N _ eq_refl) as (_ & _ & M). specialize (M _ eq_refl). destruct M as (m & z & k & A & B & C).
    destruct A as [[? ?]|[_ A]]; [lia|]. destruct B as [[? ?]|[_ B]]; [lia|]. simpl in A, B. lia.
Qed.
Print Assumptions C35_multiple_refuted.

(** Named property and pattern: RAML applies the pattern to the remaining
    properties only, JSON Schema to all. [{ab: string, /a/: integer}] and
    [{"ab": ""}]. *)
Theorem C35_patterns_refuted : exists h m q, only_type (env h) 3 (SObject (ObjF None None None (Some m) (Some q) None None)).
Proof.
  exists (one (SObject (ObjF None None None (Some 6) (Some 7) None None))
    [eb 2 "ab" "string" (SStr estr); eb 3 "a" "integer" (SInt (IntF None None None None None));
     CProps [("ab", Prop_ "ab" 4 true)]; CProps [("/a/", Prop_ "a" 5 true)]]), 6, 7.
  only_type_on (GMap [("ab", GStr "")]).
  - apply jv_map; [repeat constructor; simpl; tauto|]. intros k x [Q|[]]; injection Q as <- <-. constructor.
  - apply vw_map; [repeat constructor; simpl; tauto|]. intros k x [Q|[]]; injection Q as <- <-. leaf_wf.
  - intros H.
    match type of H with satisfies _ _ (defs ?E) _ _ =>
      assert (exists t, In ("a", t) (entries (pattern_properties (inner E))) /\ k_ref (keywords t) = "" /\ k_type (keywords t) = "integer")
        as (t & It & Rt & Tt) end.
    { eexists. split; [vm_compute; left; reflexivity|]. split; reflexivity. }
    eapply sat_pattern in H; [|now_vm|left; reflexivity|exact It|reflexivity].
    apply sat_type in H; auto; rewrite Tt in *; [inversion H|discriminate].
Qed.
Print Assumptions C35_patterns_refuted.

(** A JSON type validates nothing by itself. *)
Theorem C35_json_refuted : exists E raw, only_type E 3 (SJSON raw).
Proof.
  exists {| c_heap := one (SJSON "{""type"": ""string""}") []; c_dom := fun _ => GNil;
            c_json := fun _ => leaf (Kw "" "" "" "" None "string" None GNil None None None None None "" None None None None None None None []
              "" "" "" "" "" GNil []) |}, "{""type"": ""string""}".
  only_type_on (GBool true).
  - constructor.
  - leaf_wf.
  - intros H. eapply inner_kw in H; [|now_vm|reflexivity]. destruct H as (T & _). specialize (T ltac:(discriminate)). simpl in T. inversion T.
Qed.
Print Assumptions C35_json_refuted.

(** ** Values only the schema accepts *)

Ltac only_schema_on v := refine (only_schema_by _ _ v _ _ _ _ _ _ _);
  [eexists; split; now_vm|now_vm|now_vm|now_vm| | |].
Ltac rejected := apply (Validate_proofs.validate_complete 9); [exact exO_wf|exact exO_hash| |now_vm].

(** Lengths are bytes in the validator and code points in JSON Schema. *)
Theorem C35_length_refuted : exists h, only_schema (env h) 3 (SStr (StrF None (Some 1%Z) None None)).
Proof.
  exists (one (SStr (StrF None (Some 1%Z) None None)) []).
  only_schema_on (GStr (String (ascii_of_nat 195) (String (ascii_of_nat 169) ""))).
  - constructor.
  - rejected. leaf_wf.
  - match goal with |- satisfies _ _ _ (inner ?E) _ => assert (Q : exists k x, inner E = node_with k [] Null None None x /\ plain_kw k
       /\ k_type k = "string" /\ k_enum k = None /\ k_const k = GNil /\ k_minlen k = None /\ k_maxlen k = Some 1%Z /\ k_pattern k = "" /\ k_format k = "") end.
    { eexists. exists (None, None, None). split; [vm_compute; reflexivity|]. split; [repeat split; reflexivity|]. repeat split; reflexivity. }
    destruct Q as (k & x & Q & P & T & En & K & Lo & Hi & Pa & Fm). rewrite Q. apply satisfies_fold. apply sstep_plain; auto.
    apply (string_keywords exO exF None None (Some 1%Z) "" "" k); auto. eexists. split; [reflexivity|].
    split; [discriminate|]. split; [discriminate|]. split; [|split; congruence].
    intros m Hm. injection Hm as <-. vm_compute. discriminate.
Qed.
Print Assumptions C35_length_refuted.

(** Integer members of the enum of a number type are never met (C04). *)
Theorem C35_number_enum_refuted : exists h, only_schema (env h) 3 (SNum (Scalars.NumF None None None None (Some [GInt 1]))).
Proof.
  exists (one (SNum (Scalars.NumF None None None None (Some [GInt 1]))) []).
  only_schema_on (GFloat f1).
  - constructor. exact I.
  - rejected. leaf_wf.
  - match goal with |- satisfies _ _ _ (inner ?E) _ => assert (Q : exists k x, inner E = node_with k [] Null None None x /\ plain_kw k
       /\ k_type k = "number" /\ k_enum k = Some [GInt 1] /\ k_const k = GNil /\ k_min k = None /\ k_max k = None /\ k_mult k = None) end.
    { eexists. exists (None, None, None). split; [vm_compute; reflexivity|]. split; [repeat split; reflexivity|]. repeat split; reflexivity. }
    destruct Q as (k & x & Q & P & T & En & K & Lo & Hi & Mu). rewrite Q. apply satisfies_fold. apply sstep_plain; auto.
    unfold scalar_keywords. rewrite T, En, K, Lo, Hi, Mu. split; [intros _; constructor|]. split.
    { intros l Hl _. injection Hl as <-. exists (GInt 1). split; [now left|]. constructor. right. split; [lia|reflexivity]. }
    split; [congruence|]. split; [intros; repeat split; discriminate|discriminate].
Qed.
Print Assumptions C35_number_enum_refuted.

(** An empty enum accepts nothing; it is left out of the schema. *)
Theorem C35_empty_enum_refuted : exists h, only_schema (env h) 3 (SStr (StrF None None None (Some []))).
Proof.
  exists (one (SStr (StrF None None None (Some []))) []).
  only_schema_on (GStr "").
  - constructor.
  - rejected. leaf_wf.
  - match goal with |- satisfies _ _ _ (inner ?E) _ => assert (Q : exists k x, inner E = node_with k [] Null None None x /\ plain_kw k
       /\ k_type k = "string" /\ k_enum k = Some [] /\ k_const k = GNil /\ k_minlen k = None /\ k_maxlen k = None /\ k_pattern k = "" /\ k_format k = "") end.
    { eexists. exists (None, None, None). split; [vm_compute; reflexivity|]. split; [repeat split; reflexivity|]. repeat split; reflexivity. }
    destruct Q as (k & x & Q & P & T & En & K & Lo & Hi & Pa & Fm). rewrite Q. apply satisfies_fold. apply sstep_plain; auto.
    apply (string_keywords exO exF (Some []) None None "" "" k); auto. eexists. split; [reflexivity|].
    split; [intros l Hl N; injection Hl as <-; congruence|]. split; [discriminate|]. split; [discriminate|split; congruence].
Qed.
Print Assumptions C35_empty_enum_refuted.

(** * References into a schema that is not the document *)

(** A JSON type [{"$ref": "#/definitions/a", "definitions": {"a": {}}}]: the
    pointer means the definition next to it, in the converted document it
    points nowhere. *)
Theorem C33_json_refuted : exists E raw S0 r, shape_at (c_heap E) 3 (SJSON raw)
  /\ convert 9 true E 3 = Ok S0 /\ resolves (c_json E raw) r /\ refers S0 r /\ ~ resolves S0 r.
Proof.
  pose (j := Sch (Kw "" "" "#/definitions/a" "" None "" None GNil None None None None None "" None None None None None None None []
              "" "" "" "" "" GNil []) [("a", leaf kw0)] [] [] [] Null Null Null Null Null None None Null None None None).
  exists {| c_heap := one (SJSON "x") []; c_dom := fun _ => GNil; c_json := fun _ => j |}, "x".
  eexists. exists "#/definitions/a". split; [eexists; split; now_vm|]. split; [now_vm|]. split.
  { exists "a", (leaf kw0). split; [reflexivity|]. split; [now left|discriminate]. }
  split.
  - split; [discriminate|]. eexists. split; [eapply in_below; [simpl; left; reflexivity|apply in_refl]|reflexivity].
  - intros (n & t & Q & H & _). injection Q as <-. simpl in H. destruct H as [H|[]]. discriminate.
Qed.
Print Assumptions C33_json_refuted.

(** * Heads of the same name *)

(** [A: {x: string, next?: A}], [B: {next?: B}], [Root: {a?: A, b?: B}], after
    unwrapping and marking as the parser does. The heads of recursion are the
    two properties [next]. *)
Definition m36s : st := model
  [Decl "A" "object" (obj 32) [] None; Decl "next" "object" (oempty None) [] (Some 0); Decl "x" "string" (SStr estr) [] None;
   Decl "B" "object" (obj 33) [] None; Decl "next" "object" (oempty None) [] (Some 12);
   Decl "Root" "object" (obj 34) [] None; Decl "a" "object" (oempty None) [] (Some 0); Decl "b" "object" (oempty None) [] (Some 12)]
  [CProps [("x", Prop_ "x" 8 true); ("next", Prop_ "next" 4 false)]; CProps [("next", Prop_ "next" 16 false)];
   CProps [("a", Prop_ "a" 24 false); ("b", Prop_ "b" 28 false)]].
Definition m36 : list cell := heap (snd ((unwrap 20 0 ;;; unwrap 20 12 ;;; unwrap 20 20 ;;; mark_all 20 [0; 12; 20])%M m36s)).

(** [{"b": {"next": {}}}] is a [Root]. *)
Definition v36 : gval := GMap [("b", GMap [("next", GMap [])])].

Lemma vi_prop h a f m l k p : shape_at h a (SObject f) -> o_props f = Some m -> get_props h m = Some l -> In (k, p) l ->
  visits h a (p_base p).
Proof.
  intros Sh Q G I. eapply vi_child; [exact Sh|discriminate|]. eapply ch_prop; [right; eauto|exact I].
Qed.

Theorem C36_collision_refuted : exists S0 x y bx b_y,
  named_type m36 20 x /\ named_type m36 20 y /\ x <> y
  /\ get_base m36 x = Some bx /\ get_base m36 y = Some b_y /\ b_name bx = b_name b_y
  /\ convert 20 true (env m36) 20 = Ok S0 /\ json_value v36 /\ valid exO m36 20 v36
  /\ ~ satisfies exO exF (definitions S0) S0 v36.
Proof.
  assert (O24 : occurs m36 20 24).
  { eapply oc_visit; [constructor|]. refine (vi_prop m36 20 _ 34 _ "a" (Prop_ "a" 24 false) _ _ _ _);
      [eexists; split; now_vm|reflexivity|now_vm|simpl; tauto]. }
  assert (O28 : occurs m36 20 28).
  { eapply oc_visit; [constructor|]. refine (vi_prop m36 20 _ 34 _ "b" (Prop_ "b" 28 false) _ _ _ _);
      [eexists; split; now_vm|reflexivity|now_vm|simpl; tauto]. }
  assert (O38 : occurs m36 20 38).
  { eapply oc_visit; [exact O24|]. refine (vi_prop m36 24 _ 32 _ "next" (Prop_ "next" 38 false) _ _ _ _);
      [eexists; split; now_vm|reflexivity|now_vm|simpl; tauto]. }
  assert (O42 : occurs m36 20 42).
  { eapply oc_visit; [exact O28|]. refine (vi_prop m36 28 _ 33 _ "next" (Prop_ "next" 42 false) _ _ _ _);
      [eexists; split; now_vm|reflexivity|now_vm|simpl; tauto]. }
  assert (C0 : convert 20 true (env m36) 20 = Ok (schema_of 20 (env m36) 20)) by now_vm.
  exists (schema_of 20 (env m36) 20), 4, 16. eexists. eexists.
  split; [eapply nt_head; [exact O38|eexists; split; now_vm]|].
  split; [eapply nt_head; [exact O42|eexists; split; now_vm]|].
  split; [discriminate|]. split; [now_vm|]. split; [now_vm|]. split; [reflexivity|]. split; [exact C0|].
  assert (Jv : forall k x, json_value x -> json_value (GMap [(k, x)])).
  { intros k x H. apply jv_map; [repeat constructor; simpl; tauto|]. intros k' x' [Q|[]]. now injection Q as <- <-. }
  assert (Wv : forall k x, value_wf x -> value_wf (GMap [(k, x)])).
  { intros k x H. apply vw_map; [repeat constructor; simpl; tauto|]. intros k' x' [Q|[]]. now injection Q as <- <-. }
  split; [apply Jv, Jv, jv_map; [constructor|intros ? ? []]|]. split.
  { apply (Validate_proofs.validate_sound 9); [exact exO_wf|apply Wv, Wv, vw_map; [constructor|intros ? ? []]|now_vm]. }
  assert (W : exists root t next,
    let S0 := schema_of 20 (env m36) 20 in
    k_ref (keywords S0) = "#/definitions/Root" /\ oget "Root" (definitions S0) = Some root
    /\ k_ref (keywords root) = ""
    /\ (exists u, oget "b" (entries (properties root)) = Some u /\ k_ref (keywords u) = "" /\ oget "next" (entries (properties u)) = Some t)
    /\ t <> Null /\ k_ref (keywords t) = "#/definitions/next" /\ oget "next" (definitions S0) = Some next
    /\ k_ref (keywords next) = "" /\ k_required (keywords next) = ["x"]).
  { eexists. eexists. eexists. cbv zeta. split; [now_vm|]. split; [now_vm|]. split; [reflexivity|].
    split; [eexists; split; [now_vm|]; split; [reflexivity|now_vm]|]. split; [discriminate|]. split; [reflexivity|].
    split; [now_vm|]. split; reflexivity. }
  destruct W as (root & t & next & W). cbv zeta in W. remember (schema_of 20 (env m36) 20) as S0 eqn:ES. clear ES.
  destruct W as (R0 & G0 & R1 & (u & Gu & Ru & Gt) & Nt & Rt & Gn & Rn & Q).
  intros H. refine (_ (proj1 (sat_ref (definitions S0) S0 "Root" root v36 _ R0 G0) H)); [|intros ->; discriminate]. clear H. intros H.
  eapply sat_prop in H; [|exact R1|left; reflexivity|exact Gu].
  eapply sat_prop in H; [|exact Ru|left; reflexivity|exact Gt].
  refine (_ (proj1 (sat_ref (definitions S0) t "next" next _ Nt Rt Gn) H)). clear H. intros H.
  eapply sat_required in H; [|exact Rn|rewrite Q; left; reflexivity]. destruct H as (x & []).
Qed.
Print Assumptions C36_collision_refuted.

(** * Conversions that do not end or panic *)

(** The recursive [Node] of C28 when it is unwrapped but recursion is not marked
    (UnwrapShape without FindAndMarkRecursion). *)
Theorem C59_unmarked_refuted : exists h b, get_base h 0 = Some b /\ b_unwrapped b = true
  /\ forall n, convert n true (env h) 0 = OutOfFuel.
Proof.
  assert (GB : exists b sh, get_base (heap m28) 0 = Some b /\ b_unwrapped b = true /\ b_shape b = Some sh).
  { eexists. eexists. split; [now_vm|]. split; reflexivity. }
  destruct GB as (b & sh & GB & U & Sh). exists (heap m28), b. split; auto. split; auto.
  assert (D : forall n d, visit n (env (heap m28)) 4 d = OutOfFuel).
  { induction n as [|n IH]; intros d; [reflexivity|]. cbn [visit]. revert IH. generalize (visit n (env (heap m28))). intros rec IH.
    vm_compute. rewrite IH. reflexivity. }
  intros n.
  assert (D0 : forall d, visit n (env (heap m28)) 0 d = OutOfFuel).
  { intros d. destruct n as [|n]; [reflexivity|]. cbn [visit]. generalize (D n). generalize (visit n (env (heap m28))). intros rec IH.
    vm_compute. rewrite IH. reflexivity. }
  unfold convert. cbn [c_heap env]. rewrite GB, Sh, U. cbn [negb].
  revert D0. generalize (visit n (env (heap m28)) 0). intros c D0. unfold cbind, define. now rewrite D0.
Qed.
Print Assumptions C59_unmarked_refuted.

(** [fileTypes: []] is accepted by Check, conversion takes its first entry. *)
Theorem C59_file_refuted : exists h, shape_at h 3 (SFile (FileF None None (Some []))) /\ check 9 exO h 3 = Ok tt
  /\ forall n, 0 < n -> convert n true (env h) 3 = Panic.
Proof.
  exists (one (SFile (FileF None None (Some []))) []). split; [eexists; split; now_vm|]. split; [now_vm|].
  intros [|n] L; [lia|]. vm_compute. reflexivity.
Qed.
Print Assumptions C59_file_refuted.

(** [type: json], a JSON type without a schema (/repo/shape.go:595-596), passes
    as well. *)
Theorem C59_null_refuted : exists h raw, shape_at h 3 (SJSON raw) /\ check 9 exO h 3 = Ok tt
  /\ forall n, 0 < n -> convert n true (env h) 3 = Panic.
Proof.
  exists (one (SJSON "") []), "". split; [eexists; split; now_vm|]. split; [now_vm|].
  intros [|n] L; [lia|]. vm_compute. reflexivity.
Qed.
Print Assumptions C59_null_refuted.
