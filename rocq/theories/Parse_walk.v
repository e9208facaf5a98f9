(** A relation between states that every single step of the decoding of a type
    keeps is kept by the whole of it. *)
From Coq Require Import ZArith List String Bool Ascii Lia.
From Verif Require Import Base Scalars Heap Rdt Resolve Names Yaml Yaml_proofs Pipeline Decode Parse Spec_Parse Parse_ends.
Import ListNotations.
Open Scope string_scope.
Open Scope list_scope.
Open Scope nat_scope.

(** Successful runs are in the relation. *)
Definition along (R : pst -> pst -> Prop) {A} (m : D A) : Prop :=
  forall p a p', m p = (Ok a, p') -> R p p'.

(** States that differ in the parts that decoding a type changes directly. *)
Definition near (p p' : pst) : Prop :=
  p_libs p' = p_libs p /\ p_frags p' = p_frags p /\ p_dts p' = p_dts p.
(** The same without declaring a type. *)
Definition close (p p' : pst) : Prop :=
  near p p' /\ p_types p' = p_types p /\ p_annots p' = p_annots p.
Lemma close_near (R : pst -> pst -> Prop) : (forall p p', near p p' -> R p p') -> forall p p', close p p' -> R p p'.
Proof. intros H p p' [N _]. exact (H p p' N). Qed.
Lemma near_type n l a : along near (put_type n l a). Proof. intros p u p' [= _ <-]. repeat split. Qed.
Lemma near_annot n l a : along near (put_annot n l a). Proof. intros p u p' [= _ <-]. repeat split. Qed.

Section Walk.
Variable R : pst -> pst -> Prop.
Hypothesis Near : forall p p', close p p' -> R p p'.
Hypothesis Trans : forall p1 p2 p3, R p1 p2 -> R p2 p3 -> R p1 p3.

Lemma al_near {A} (m : D A) : (forall p, close p (snd (m p))) -> along R m.
Proof. intros H p a p' E. apply Near. specialize (H p). now rewrite E in H. Qed.

Lemma al_lift {A} (r : res A) : along R (dlift r).
Proof. apply al_near. repeat split. Qed.
Lemma al_ret {A} (a : A) : along R (dret a).
Proof. apply al_near. repeat split. Qed.
Lemma al_get : along R dget.
Proof. apply al_near. repeat split. Qed.
Lemma al_hp {A} (m : M A) : along R (hp m).
Proof. apply al_near. intros p. unfold hp. destruct (m (p_st p)). repeat split. Qed.
Lemma al_ext e : along R (put_ext e). Proof. apply al_near. repeat split. Qed.
Lemma al_todo a : along R (put_todo a). Proof. apply al_near. repeat split. Qed.
Lemma al_facets a fs : along R (put_facets a fs). Proof. apply al_near. repeat split. Qed.
Lemma al_own a g f : along R (own_props a g f). Proof. apply al_hp. Qed.

Lemma al_bind_ok {A B} (m : D A) (f : A -> D B) : along R m ->
  (forall a p p', m p = (Ok a, p') -> along R (f a)) -> along R (dbind m f).
Proof.
  intros Hm Hf p b p' E. unfold dbind in E. destruct (m p) as [[a| | |] p1] eqn:Em; try discriminate.
  apply (Trans p p1); [exact (Hm _ _ _ Em)|]. eapply Hf; eauto.
Qed.

Lemma al_bind {A B} (m : D A) (f : A -> D B) : along R m -> (forall a, along R (f a)) -> along R (dbind m f).
Proof. intros Hm Hf. apply al_bind_ok; auto. Qed.

Section Shape.
Variable E : denv.
Variable inc_dt : string -> D addr.
Variable inc_ne : string -> D unit.

Lemma al_make_ext loc k v : along R (make_ext E loc k v).
Proof.
  unfold make_ext. destruct (String.eqb _ _); [apply al_lift|].
  apply al_bind; [apply al_lift|]. intros x. apply al_bind; [apply al_get|]. intros p.
  apply al_bind; [apply al_ext|]. intros. apply al_ret.
Qed.

Lemma al_entries loc l : along R (example_entries E loc l).
Proof.
  induction l as [| |k v l IH] using pair_induction; [apply al_ret|apply al_lift|].
  cbn [example_entries]. apply al_bind; [|intros; exact IH].
  destruct (String.eqb _ _); [apply al_lift|].
  destruct (_ || _); [apply al_lift|].
  destruct (is_annotation _); [|apply al_ret]. apply al_bind; [apply al_make_ext|intros; apply al_ret].
Qed.

Lemma al_example loc v : along R (example E loc v).
Proof.
  unfold example. destruct (y_kind v); try apply al_lift.
  apply al_bind; [apply al_lift|]. intros [x|]; [|apply al_lift].
  apply al_bind; [apply al_entries|]. intros. apply al_lift.
Qed.

Lemma al_example_map loc l : forall m, along R (example_map E loc l m).
Proof.
  induction l as [| |k v l IH] using pair_induction; intros m; [apply al_ret|apply al_lift|].
  cbn [example_map]. apply al_bind; [apply al_example|]. intros. apply IH.
Qed.

Section Rec.
Variable rec : ynode -> string -> string -> D addr.
Variable loc : string.
(** Trees on which the recursion keeps the relation. *)
Variable T : ynode -> Prop.
Hypothesis Rec : forall v name, T v -> along R (rec v name loc).
Hypothesis Ne : forall v, T v -> y_kind v = KScalar -> y_tag v = "!include" -> along R (inc_ne (e_join (d_y E) loc (y_value v))).

Lemma al_custom a k v : along R (custom_facet E a loc k v).
Proof.
  unfold custom_facet. apply al_bind; [apply al_lift|]. intros x. apply al_hp.
Qed.

Lemma al_own_facet {F} a k v (r : res (option F)) mk : along R (own_facet E a loc k v r mk).
Proof.
  unfold own_facet. apply al_bind; [apply al_lift|]. intros [f|]; [apply al_hp|apply al_custom].
Qed.

Lemma al_property k v : T v -> along R (property rec loc k v).
Proof.
  intros H. unfold property. destruct (chomp_optional k) as [name opt]. apply al_bind; [now apply Rec|]. intros x.
  apply al_bind; [apply al_hp|]. intros xb. destruct (make_property _ _ _ _); [apply al_ret|apply al_lift].
Qed.

Lemma al_one_property a k v : T v -> along R (one_property E rec a loc k v).
Proof.
  intros H. unfold one_property. destruct (chomp_optional k) as [name opt]. destruct (is_pattern_name name).
  - apply al_bind; [apply al_own|]. intros m. apply al_bind; [now apply Rec|]. intros x.
    apply al_bind; [apply al_hp|]. intros xb. apply al_bind; [apply al_lift|]. intros [|]; [apply al_lift|apply al_hp].
  - apply al_bind; [apply al_own|]. intros m. apply al_bind; [now apply al_property|]. intros pr.
    apply al_hp.
Qed.

Lemma al_properties a l : (forall x, In x l -> T x) -> along R (properties E rec a loc l).
Proof.
  induction l as [| |k v l IH] using pair_induction; intros H; [apply al_ret|apply al_ret|].
  cbn [properties]. apply al_bind; [apply al_one_property, H; cbn; tauto|]. intros. apply IH. intros; apply H; cbn; tauto.
Qed.

Lemma al_facet a k v : T v -> (forall x, In x (y_content v) -> T x) -> along R (facet E rec a loc k v).
Proof.
  intros Hv Hc. unfold facet. apply al_bind; [apply al_hp|]. intros b.
  destruct (b_shape b) as [[]|]; try apply al_custom; try apply al_ret; try apply al_own_facet.
  - destruct (String.eqb _ _); [|apply al_own_facet].
    apply al_bind; [now apply Rec|]. intros. apply al_hp.
  - destruct (String.eqb _ _); [|apply al_own_facet].
    destruct (negb _); [apply al_lift|]. now apply al_properties.
Qed.

Lemma al_facets_loop a l : (forall k v, In (k, v) l -> T v /\ forall x, In x (y_content v) -> T x) ->
  along R (facets E rec a loc l).
Proof.
  induction l as [|[k v] l IH]; intros H; [apply al_ret|]. cbn [facets].
  apply al_bind; [apply al_facet; [exact (proj1 (H k v (or_introl eq_refl)))|exact (proj2 (H k v (or_introl eq_refl)))]|].
  intros u. apply IH. intros k0 v0 I. apply (H k0 v0). now right.
Qed.

Lemma al_defs m l : (forall x, In x l -> T x) -> along R (facet_defs rec m loc l).
Proof.
  induction l as [| |k v l IH] using pair_induction; intros H; [apply al_ret|apply al_lift|].
  cbn [facet_defs]. apply al_bind; [apply al_property, H; cbn; tauto|]. intros pr.
  apply al_bind; [apply al_hp|]. intros. apply IH. intros; apply H; cbn; tauto.
Qed.

Lemma al_examples a v : T v -> along R (decode_examples E inc_ne a loc v).
Proof.
  intros Tv. unfold decode_examples. apply al_bind; [apply al_hp|]. intros b. destruct (b_example b); [apply al_lift|].
  destruct (y_kind v) eqn:Ek; try (apply al_lift).
  - apply al_bind; [apply al_example_map|]. intros. apply al_hp.
  - destruct (String.eqb (y_tag v) "!include") eqn:Ei; [|apply al_lift]. apply String.eqb_eq in Ei.
    apply al_bind; [now apply Ne|]. intros. apply al_hp.
Qed.

Lemma al_one_example a v : along R (decode_example E a loc v).
Proof.
  unfold decode_example. apply al_bind; [apply al_hp|]. intros b. destruct (b_examples b); [apply al_lift|].
  apply al_bind; [apply al_example|]. intros. apply al_hp.
Qed.

Lemma al_entry a k v : T v -> (forall x, In x (y_content v) -> T x) -> along R (entry E inc_ne rec a loc k v).
Proof.
  intros Hv Hc. unfold entry.
  repeat (match goal with |- along _ (if ?b then _ else _) => destruct b end).
  all: try (apply al_bind; [apply al_lift|intros; apply al_hp]).
  - apply al_bind; [apply al_hp|]. intros m. apply al_bind; [apply al_hp|]. intros. now apply al_defs.
  - apply al_one_example.
  - now apply al_examples.
  - apply al_ret.
  - apply al_bind; [apply al_make_ext|]. intros x. apply al_bind; [apply al_hp|]. intros. apply al_hp.
Qed.

Lemma al_decode_entries a l : (forall x, In x l -> T x) -> (forall x y, In x l -> In y (y_content x) -> T y) -> forall t fs,
  along R (decode_entries E inc_ne rec a loc l t fs).
Proof.
  induction l as [| |k v l IH] using pair_induction; intros H0 H t fs; [apply al_ret|apply al_lift|].
  cbn [decode_entries]. assert (H' : forall x y, In x l -> In y (y_content x) -> T y) by (intros; eapply H; eauto; cbn; tauto).
  assert (H0' : forall x, In x l -> T x) by (intros; apply H0; cbn; tauto).
  destruct (String.eqb _ _); [now apply IH|]. destruct (known_key _); [|now apply IH].
  apply al_bind; [|intros; now apply IH]. apply al_entry; [apply H0; cbn; tauto|]. intros x. apply H. cbn; tauto.
Qed.

Lemma al_decode a v : (forall x, In x (y_content v) -> T x) -> (forall x y, In x (y_content v) -> In y (y_content x) -> T y) ->
  along R (decode E inc_ne rec a loc v).
Proof.
  intros H0 H. unfold decode. destruct (y_kind v); try (apply al_lift); try apply al_ret.
  apply al_bind; [now apply al_decode_entries|]. intros. apply al_ret.
Qed.

Lemma al_parents name l : (forall x, In x l -> T x) -> along R (parents rec name loc l).
Proof.
  induction l as [|v l IH]; intros H; [apply al_ret|]. cbn [parents].
  destruct (y_kind v); try (apply al_lift). destruct (String.eqb _ _); [apply al_lift|].
  apply al_bind; [apply Rec, H; now left|]. intros. apply al_bind; [apply IH; intros; apply H; now right|]. intros. apply al_ret.
Qed.

Lemma al_shape_type a name t fs : (forall x, In x (y_content t) -> T x) ->
  (y_kind t = KScalar -> y_tag t = "!include" -> along R (inc_dt (e_join (d_y E) loc (y_value t)))) ->
  along R (shape_type E inc_dt rec a name loc t fs).
Proof.
  intros H I. unfold shape_type. destruct (y_kind t); try (apply al_lift).
  - apply al_bind; [now apply al_parents|]. intros. apply al_bind; [apply al_hp|]. intros.
    apply al_bind; [apply al_hp|]. intros. apply al_ret.
  - destruct (String.eqb (y_tag t) "!!str").
    { destruct (y_value t) as [|c s].
      - apply al_bind; [apply al_lift|]. intros. apply al_ret.
      - destruct (Ascii.eqb _ _); [|apply al_ret]. apply al_bind; [apply al_hp|]. intros.
        destruct (d_schema _ _); [|apply al_lift]. apply al_bind; [apply al_hp|]. intros. apply al_ret. }
    destruct (String.eqb (y_tag t) "!include") eqn:Ei.
    { apply String.eqb_eq in Ei. apply al_bind; [now apply I|]. intros.
      apply al_bind; [apply al_hp|]. intros. apply al_ret. }
    destruct (String.eqb (y_tag t) "!!null"); [apply al_ret|apply al_lift].
Qed.

Lemma al_concrete a t fs :
  (forall l k v, fs = Some l -> In (k, v) l -> T v /\ forall x, In x (y_content v) -> T x) ->
  along R (concrete E rec a loc t fs).
Proof.
  intros H. unfold concrete. apply al_bind; [apply al_hp|]. intros.
  apply al_bind; [apply al_hp|]. intros sh. apply al_bind; [apply al_hp|]. intros.
  assert (S : along R (facets E rec a loc (match fs with Some l => l | None => [] end))).
  { apply al_facets_loop. destruct fs as [l|]; [intros; eapply H; eauto|intros ? ? []]. }
  destruct sh; auto. apply al_facets.
Qed.
End Rec.

(** Trees all of whose includes keep the relation. *)
Definition calm (loc : string) (v : ynode) : Prop :=
  forall t, within t v -> y_kind t = KScalar -> y_tag t = "!include" ->
    along R (inc_dt (e_join (d_y E) loc (y_value t))) /\ along R (inc_ne (e_join (d_y E) loc (y_value t))).

Lemma calm_child loc v x : calm loc v -> In x (y_content v) -> calm loc x.
Proof. intros H I t Ht. apply H. eapply within_content; eauto. Qed.

Lemma al_shape loc n : forall v name, ysize v <= n -> calm loc v -> along R (shape_at E inc_dt inc_ne n v name loc).
Proof.
  induction n as [|n IH]; intros v name Sz C; [rewrite ysize_content in Sz; lia|]. cbn [shape_at]. unfold new_shape.
  set (rec := shape_at E inc_dt inc_ne n). set (T := fun x => ysize x <= n /\ calm loc x).
  assert (Rec : forall x nm, T x -> along R (rec x nm loc)) by (intros x nm [A B]; now apply IH).
  assert (Ne : forall x, T x -> y_kind x = KScalar -> y_tag x = "!include" -> along R (inc_ne (e_join (d_y E) loc (y_value x)))).
  { intros x [A B] I1 I2. apply (B x); auto. constructor. }
  assert (T1 : forall x, In x (y_content v) -> T x).
  { intros x I. split; [|eapply calm_child; eauto]. rewrite ysize_content in Sz. pose proof (lsize_in _ _ I). lia. }
  assert (T2 : forall x y, T x -> In y (y_content x) -> T y).
  { intros x y [A B] I. split; [|eapply calm_child; eauto]. rewrite ysize_content in A. pose proof (lsize_in _ _ I). lia. }
  apply al_bind; [apply al_hp|]. intros a.
  apply al_bind_ok. { apply (al_decode rec loc T Rec Ne); eauto. }
  intros tf p p' Ed. destruct (decode_parts _ inc_dt _ _ _ _ _ _ _ _ Ed) as [P1 P2].
  apply al_bind.
  { destruct (fst tf) as [t|] eqn:Et.
    - assert (G : calm loc t /\ forall x, In x (y_content t) -> T x).
      { destruct (P1 t eq_refl) as [->|I]; [auto|]. pose proof (T1 _ I) as Tt. split; [apply Tt|]. intros. eapply T2; eauto. }
      destruct G as [G1 G2]. apply (al_shape_type rec loc T Rec); [exact G2|]. intros A B. apply (G1 t); auto. constructor.
    - apply al_bind; [apply al_lift|]. intros. apply al_ret. }
  intros [ty|]; [|apply al_ret].
  apply al_bind. { apply (al_concrete rec loc T Rec). intros l k x Hl I. pose proof (T1 _ (P2 l k x Hl I)) as Tx. split; [exact Tx|eauto]. }
  intros. apply al_bind; [apply al_hp|]. intros b. destruct (b_shape b) as [[]|]; try apply al_ret.
  apply al_bind; [apply al_todo|]. intros. apply al_ret.
Qed.

Lemma al_shape_yaml loc v name : calm loc v -> along R (shape_yaml E inc_dt inc_ne v name loc).
Proof. intros C. now apply al_shape. Qed.
End Shape.


Section Fragment.
Variable E : denv.
Variable inc_dt : string -> D addr.
Variable inc_ne : string -> D unit.


Lemma al_declarations loc put l : (forall n a, along R (put n loc a)) -> (forall x, In x l -> calm E inc_dt inc_ne loc x) ->
  forall m, along R (declarations E inc_dt inc_ne loc put l m).
Proof.
  intros P. induction l as [| |k v l IH] using pair_induction; intros H m; [apply al_ret|apply al_lift|].
  cbn [declarations]. apply al_bind; [apply al_shape_yaml; apply H; cbn; tauto|]. intros.
  apply al_bind; [apply P|]. intros. apply IH. intros; apply H; cbn; tauto.
Qed.

Lemma al_declare loc put v old : (forall n a, along R (put n loc a)) -> calm E inc_dt inc_ne loc v ->
  along R (declare E inc_dt inc_ne loc put v old).
Proof.
  intros P C. unfold declare. destruct (String.eqb _ _); [apply al_ret|]. destruct (y_kind v); try (apply al_lift).
  apply al_declarations; [exact P|]. intros. eapply calm_child; eauto.
Qed.

Lemma al_lib_entries loc l : (forall n a, along R (put_type n loc a)) -> (forall n a, along R (put_annot n loc a)) -> (forall x, In x l -> calm E inc_dt inc_ne loc x) -> forall b, along R (lib_entries E inc_dt inc_ne loc l b).
Proof.
  intros Pt Pa. induction l as [| |k v l IH] using pair_induction; intros H b; [apply al_ret|apply al_lift|].
  assert (H' : forall x, In x l -> calm E inc_dt inc_ne loc x) by (intros; apply H; cbn; tauto).
  assert (Hv : calm E inc_dt inc_ne loc v) by (apply H; cbn; tauto).
  cbn [lib_entries].
  repeat (match goal with |- along _ (if ?b then _ else _) => destruct b end).
  - apply al_bind; [apply al_lift|]. intros. now apply IH.
  - apply al_bind; [apply al_declare; [exact Pt|exact Hv]|]. intros. now apply IH.
  - apply al_bind; [apply al_declare; [exact Pa|exact Hv]|]. intros. now apply IH.
  - apply al_bind; [apply al_lift|]. intros. now apply IH.
  - apply al_bind; [apply al_make_ext|]. intros. now apply IH.
  - now apply IH.
Qed.

Lemma al_unmarshal_lib loc v : (forall n a, along R (put_type n loc a)) -> (forall n a, along R (put_annot n loc a)) -> calm E inc_dt inc_ne loc v -> along R (unmarshal_lib E inc_dt inc_ne loc v).
Proof.
  intros Pt Pa C. unfold unmarshal_lib. destruct (y_kind v); try (apply al_lift).
  apply al_lib_entries; auto. intros. eapply calm_child; eauto.
Qed.

Lemma calm_pack loc v l : calm E inc_dt inc_ne loc v -> (forall x, In x l -> In x (y_content v)) -> calm E inc_dt inc_ne loc (Y KMap "" "" l).
Proof.
  intros C H t W Kt Tt. inversion W as [|k tag value c x I W']; subst; [discriminate Kt|]. apply C; auto. eapply within_content; eauto.
Qed.

Lemma al_unmarshal_dt loc v : calm E inc_dt inc_ne loc v -> along R (unmarshal_dt E inc_dt inc_ne loc v).
Proof.
  intros C. unfold unmarshal_dt. destruct (y_kind v); try (apply al_lift).
  apply al_bind_ok; [apply al_lift|]. intros [u r] p p' H. injection H as H _.
  apply al_bind; [|intros; apply al_ret]. apply al_shape_yaml; []. cbn [snd]. apply (calm_pack _ v); [exact C|].
  intros x I. destruct (dt_entries_in _ _ _ _ _ H x I) as [|[]]; auto.
Qed.

End Fragment.
End Walk.
