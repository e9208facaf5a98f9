(** Hooks that only look and object: decoding, resolution, parsing. *)
From Coq Require Import ZArith List String Bool.
From Verif Require Import Base Scalars Heap Validate Names Rdt Resolve Yaml Pipeline Decode Parse Hooked Hooked_proofs.
From Verif Require Resolve_proofs.
Import ListNotations.
Open Scope string_scope.
Open Scope list_scope.
Open Scope nat_scope.

Section Hooked.
Variable H : hooks.
Notation rel := (Hooked_proofs.rel H).

Lemma rel_dbindg {A B} (g1 : A -> bool) (g2 : B -> bool) (m' m : D A) (k' k : A -> D B) :
  rel g1 m' m -> (forall x, rel g2 (k' x) (k x)) ->
  (forall x s r s', g1 x = false -> k' x s = (Ok r, s') -> g2 r = false) ->
  rel g2 (dbind m' k') (dbind m k).
Proof.
  intros R K N s. destruct (R s) as [R1 R2]. unfold dbind. split.
  - intros Q. rewrite (R1 Q). destruct (m s) as [[x| | |] s1]; try reflexivity. exact (proj1 (K x s1) Q).
  - intros r s'. destruct (m' s) as [[x| | |] s1] eqn:Em; try discriminate. intros E G.
    destruct (g1 x) eqn:Gx.
    + rewrite (R2 x s1 eq_refl Gx). exact (proj2 (K x s1) r s' E G).
    + rewrite (N x s1 r s' Gx E) in G. discriminate.
Qed.

Lemma rel_dbind {A B} (g : B -> bool) (m' m : D A) (k' k : A -> D B) :
  rel all m' m -> (forall x, rel g (k' x) (k x)) -> rel g (dbind m' k') (dbind m k).
Proof. intros R K. apply (rel_dbindg all); auto. intros x s r s' X. discriminate X. Qed.

Lemma rel_dask {A} (g : A -> bool) e (k' k : D A) : rel g k' k -> rel g (dbind (dask H e) (fun _ => k')) k.
Proof.
  intros R p. unfold dbind, dask, hp, ask. destruct p as [s L F Ds X T An Td Fc]. cbn.
  destruct (R (PSt s L F Ds X T An Td Fc)) as [R1 R2]. split.
  - intros Q. rewrite (Q e s). exact (R1 Q).
  - destruct (H e s); [discriminate|]. exact R2.
Qed.

Lemma rel_dtry {A} (m' m : D A) : rel all m' m -> rel isome (dtry m') (dtry m).
Proof.
  intros R s. destruct (R s) as [R1 R2]. unfold dtry. split.
  - intros Q. rewrite (R1 Q). reflexivity.
  - intros r s'. destruct (m' s) as [[x| | |] s1] eqn:Em; try discriminate.
    + intros E _. rewrite (R2 x s1 eq_refl eq_refl). exact E.
    + intros E. injection E as <- <-. discriminate.
Qed.

Ltac same := match goal with |- Hooked_proofs.rel _ _ ?x ?y => constr_eq x y; apply rel_refl end.
Ltac go := repeat (first
  [ same
  | assumption
  | match goal with
    | K : forall x, Hooked_proofs.rel _ _ (_ x) (_ x) |- _ => apply K
    | K : forall x y, Hooked_proofs.rel _ _ (_ x y) (_ x y) |- _ => apply K
    | K : forall x y z, Hooked_proofs.rel _ _ (_ x y z) (_ x y z) |- _ => apply K
    end
  | match goal with |- Hooked_proofs.rel _ _ (dbind (dask _ _) _) _ => apply rel_dask end
  | match goal with |- Hooked_proofs.rel _ _ (dbind _ _) (dbind _ _) => apply rel_dbind; [|intros ?] end
  | match goal with |- Hooked_proofs.rel _ _ (match ?x with _ => _ end) _ => destruct x end ]).

Variable E : denv.

(** * Decoding *)

Section Shape.
Variables inc_dt' inc_dt : string -> D addr.
Variable inc_ne : string -> D unit.
Variables rec' rec : ynode -> string -> string -> D addr.
Hypothesis RI : forall x, rel all (inc_dt' x) (inc_dt x).
Hypothesis RR : forall x y z, rel all (rec' x y z) (rec x y z).

Lemma rel_property loc key v : rel all (property rec' loc key v) (property rec loc key v).
Proof. unfold property. go. Qed.

Lemma rel_one_property a loc key v : rel all (one_property E rec' a loc key v) (one_property E rec a loc key v).
Proof. unfold one_property. go. apply rel_property. Qed.

Lemma rel_properties a loc : forall n l, List.length l <= n -> rel all (properties E rec' a loc l) (properties E rec a loc l).
Proof.
  induction n as [|n IH]; intros [|k [|v l]] L; cbn [properties]; try apply rel_refl; cbn [List.length] in L.
  - inversion L.
  - apply rel_dbind; [apply rel_one_property|]. intros _. apply IH. apply le_S_n in L. apply le_S_n, le_S. exact L.
Qed.

Lemma rel_facet a loc key v : rel all (facet E rec' a loc key v) (facet E rec a loc key v).
Proof. unfold facet. go. eapply rel_properties, le_n. Qed.

Lemma rel_facets a loc l : rel all (facets E rec' a loc l) (facets E rec a loc l).
Proof. induction l as [|[k v] l IH]; cbn [facets]; go. apply rel_facet. Qed.

Lemma rel_concrete a loc t fs : rel all (concrete E rec' a loc t fs) (concrete E rec a loc t fs).
Proof. unfold concrete. go; apply rel_facets. Qed.

Lemma rel_concrete_h a loc t fs : rel all (concrete_h H E rec' a loc t fs) (concrete E rec a loc t fs).
Proof. unfold concrete_h. apply rel_dask, rel_concrete. Qed.

Lemma rel_facet_defs m loc : forall n l, List.length l <= n -> rel all (Decode.facet_defs rec' m loc l) (Decode.facet_defs rec m loc l).
Proof.
  induction n as [|n IH]; intros [|k [|v l]] L; cbn [Decode.facet_defs]; try apply rel_refl; cbn [List.length] in L.
  - inversion L.
  - apply rel_dbind; [apply rel_property|]. intros pr. apply rel_dbind; [apply rel_refl|]. intros _. apply IH. apply le_S_n in L. apply le_S_n, le_S. exact L.
Qed.

Lemma rel_entry a loc key v : rel all (entry E inc_ne rec' a loc key v) (entry E inc_ne rec a loc key v).
Proof. unfold entry. go. eapply rel_facet_defs, le_n. Qed.

Lemma rel_entries a loc : forall n l t fs, List.length l <= n ->
  rel all (decode_entries E inc_ne rec' a loc l t fs) (decode_entries E inc_ne rec a loc l t fs).
Proof.
  induction n as [|n IH]; intros [|k [|v l]] t fs L; cbn [decode_entries]; try apply rel_refl; cbn [List.length] in L.
  - inversion L.
  - assert (L' : List.length l <= n) by (apply le_S_n in L; apply le_S_n, le_S; exact L).
    destruct (String.eqb _ _); [now apply IH|]. destruct (known_key _); [|now apply IH].
    apply rel_dbind; [apply rel_entry|]. intros _. now apply IH.
Qed.

Lemma rel_decode a loc v : rel all (decode E inc_ne rec' a loc v) (decode E inc_ne rec a loc v).
Proof. unfold decode. go. eapply rel_entries, le_n. Qed.

Lemma rel_parents name loc l : rel all (parents rec' name loc l) (parents rec name loc l).
Proof. induction l as [|v l IH]; cbn [parents]; go. Qed.

Lemma rel_shape_type a name loc t fs : rel all (shape_type E inc_dt' rec' a name loc t fs) (shape_type E inc_dt rec a name loc t fs).
Proof. unfold shape_type. go. apply rel_parents. Qed.

Lemma rel_new_shape v name loc : rel all (new_shape_h H E inc_dt' inc_ne rec' v name loc) (new_shape E inc_dt inc_ne rec v name loc).
Proof.
  unfold new_shape_h, new_shape. apply rel_dask. apply rel_dbind; [apply rel_refl|]. intros a.
  apply rel_dbind; [apply rel_decode|]. intros tf. apply rel_dbind; [destruct (fst tf); [apply rel_shape_type|apply rel_refl]|].
  intros ty. destruct ty; [|apply rel_refl]. apply rel_dbind; [apply rel_concrete_h|]. intros _. apply rel_refl.
Qed.
End Shape.

Lemma rel_shape_at inc_dt' inc_dt inc_ne (RI : forall x, rel all (inc_dt' x) (inc_dt x)) n : forall v name loc,
  rel all (shape_at_h H E inc_dt' inc_ne n v name loc) (shape_at E inc_dt inc_ne n v name loc).
Proof.
  induction n as [|n IH]; intros v name loc; cbn [shape_at_h shape_at]; [apply rel_refl|]. apply rel_new_shape; assumption.
Qed.

Lemma rel_shape_yaml inc_dt' inc_dt inc_ne (RI : forall x, rel all (inc_dt' x) (inc_dt x)) v name loc :
  rel all (shape_yaml_h H E inc_dt' inc_ne v name loc) (shape_yaml E inc_dt inc_ne v name loc).
Proof. now apply rel_shape_at. Qed.

Lemma rel_concrete_yaml inc_dt' inc_dt inc_ne (RI : forall x, rel all (inc_dt' x) (inc_dt x)) a t fs :
  rel all (concrete_yaml_h H E inc_dt' inc_ne a t fs) (concrete_yaml E inc_dt inc_ne a t fs).
Proof.
  unfold concrete_yaml_h, concrete_yaml. apply rel_dbind; [apply rel_refl|]. intros b. apply rel_concrete_h.
  intros x y z. now apply rel_shape_yaml.
Qed.

(** * Files *)

Section Fragments.
Variables inc_dt' inc_dt : string -> D addr.
Variable inc_ne : string -> D unit.
Variables inc_lib' inc_lib : string -> D nat.
Hypothesis RI : forall x, rel all (inc_dt' x) (inc_dt x).
Hypothesis RL : forall x, rel all (inc_lib' x) (inc_lib x).

Lemma rel_declarations loc put : forall n l m, List.length l <= n ->
  rel all (declarations_h H E inc_dt' inc_ne loc put l m) (declarations E inc_dt inc_ne loc put l m).
Proof.
  induction n as [|n IH]; intros [|k [|v l]] m L; cbn [declarations_h declarations]; try apply rel_refl; cbn [List.length] in L.
  - inversion L.
  - apply rel_dbind; [now apply rel_shape_yaml|]. intros x. apply rel_dbind; [apply rel_refl|]. intros _. apply IH. apply le_S_n in L. apply le_S_n, le_S. exact L.
Qed.

Lemma rel_declare loc put v old : rel all (declare_h H E inc_dt' inc_ne loc put v old) (declare E inc_dt inc_ne loc put v old).
Proof. unfold declare_h, declare. go. eapply rel_declarations, le_n. Qed.

Lemma rel_lib_entries loc : forall n l b, List.length l <= n ->
  rel all (lib_entries_h H E inc_dt' inc_ne loc l b) (lib_entries E inc_dt inc_ne loc l b).
Proof.
  induction n as [|n IH]; intros [|k [|v l]] b L; cbn [lib_entries_h lib_entries]; try apply rel_refl; cbn [List.length] in L.
  - inversion L.
  - assert (L' : List.length l <= n) by (apply le_S_n in L; apply le_S_n, le_S; exact L).
    destruct (String.eqb _ _); [apply rel_dbind; [apply rel_refl|]; intros m; now apply IH|].
    destruct (String.eqb _ _); [apply rel_dbind; [apply rel_declare|]; intros m; now apply IH|].
    destruct (String.eqb _ _); [apply rel_dbind; [apply rel_declare|]; intros m; now apply IH|].
    destruct (String.eqb _ _); [apply rel_dbind; [apply rel_refl|]; intros m; now apply IH|].
    destruct (is_annotation _); [apply rel_dbind; [apply rel_refl|]; intros m; now apply IH|]. now apply IH.
Qed.

Lemma rel_link_uses loc l : forall m, rel (fun b => b) (link_uses E inc_lib' loc l m) (link_uses E inc_lib loc l m).
Proof.
  induction m as [|[name value] m IH]; cbn [link_uses]; [apply rel_refl|].
  apply (rel_dbindg isome); [apply rel_dtry, RL| |].
  - intros r. apply rel_dbind; [apply rel_refl|]. intros _. apply (rel_dbindg (fun b => b)); [exact IH| |].
    + intros ok. apply rel_refl.
    + intros ok s x s' -> K. injection K as <- <-. destruct r; reflexivity.
  - intros [r|] s x s' G K; [discriminate|]. unfold dbind in K.
    destruct (link_lib l name None s) as [[u| | |] s1]; try discriminate.
    destruct (link_uses E inc_lib' loc l m s1) as [[ok| | |] s2]; try discriminate. injection K as <- <-. reflexivity.
Qed.

Lemma rel_decode_lib text path : rel all (decode_lib_h H E inc_dt' inc_ne inc_lib' text path) (decode_lib E inc_dt inc_ne inc_lib text path).
Proof.
  unfold decode_lib_h, decode_lib. apply rel_dbind; [apply rel_refl|]. intros [v|]; [|apply rel_refl].
  apply rel_dbind; [unfold unmarshal_lib_h, unmarshal_lib; go; eapply rel_lib_entries, le_n|]. intros b.
  apply rel_dbind; [apply rel_refl|]. intros l. apply rel_dbind; [apply rel_refl|]. intros _.
  apply (rel_dbindg (fun b => b)); [apply rel_link_uses|intros ok; apply rel_refl|].
  intros ok s r s' -> K. discriminate.
Qed.

Lemma rel_link_dt_uses loc mine m : rel all (link_dt_uses E inc_lib' loc mine m) (link_dt_uses E inc_lib loc mine m).
Proof. induction m as [|[name value] m IH]; cbn [link_dt_uses]; go. Qed.

Lemma rel_decode_dt text path : rel all (decode_dt_h H E inc_dt' inc_ne inc_lib' text path) (decode_dt E inc_dt inc_ne inc_lib text path).
Proof.
  unfold decode_dt_h, decode_dt. apply rel_dbind; [apply rel_refl|]. intros [v|]; [|apply rel_refl].
  apply rel_dbind; [unfold unmarshal_dt_h, unmarshal_dt; go; now apply rel_shape_yaml|]. intros r.
  apply rel_dbind; [apply rel_refl|]. intros p. apply rel_dbind; [apply rel_refl|]. intros a. apply rel_dbind; [apply rel_refl|]. intros _.
  apply rel_dbind; [apply rel_link_dt_uses|]. intros _. apply rel_refl.
Qed.
End Fragments.

Lemma rel_files n : (forall path, rel all (parse_dt_h H E n path) (parse_dt E n path)) /\ (forall path, rel all (parse_lib_h H E n path) (parse_lib E n path)).
Proof.
  induction n as [|n [IH1 IH2]]; [split; intros path; apply rel_refl|]. split; intros path; cbn [parse_dt_h parse_dt parse_lib_h parse_lib].
  - apply rel_dask. go. now apply rel_decode_dt.
  - go. now apply rel_decode_lib.
Qed.

(** * Resolution *)

Section See.
Variables conc' conc : addr -> string -> option fnodes -> D unit.
Variables rec' rec : addr -> D unit.
Hypothesis RC : forall x y z, rel all (conc' x y z) (conc x y z).
Hypothesis RR : forall x, rel all (rec' x) (rec x).

Definition sees (f' f : addr -> option fnodes -> D unit) : Prop := forall a fs, rel all (f' a fs) (f a fs).

Lemma rel_fresh name t loc : rel all (fresh_shape conc' name t loc) (fresh_shape conc name t loc).
Proof. unfold fresh_shape. go. Qed.

Lemma rel_see : (forall e, sees (see_expr conc' rec' e) (see_expr conc rec e)) /\ (forall t, sees (see_typ conc' rec' t) (see_typ conc rec t))
  /\ (forall at_, sees (see_atom conc' rec' at_) (see_atom conc rec at_)).
Proof.
  apply (Resolve_proofs.trees_all (fun e => sees (see_expr conc' rec' e) (see_expr conc rec e)) (fun t => sees (see_typ conc' rec' t) (see_typ conc rec t))
    (fun at_ => sees (see_atom conc' rec' at_) (see_atom conc rec at_))).
  - intros t Q a fs. exact (Q a fs).
  - intros t1 t2 ts Q1 Q2 Qs a fs. cbn [see_expr]. apply rel_dbind; [apply RC|]. intros _. apply rel_dbind; [apply rel_refl|]. intros b.
    apply rel_dbind; [apply rel_fresh|]. intros x1. apply rel_dbind; [apply Q1|]. intros _.
    apply rel_dbind; [apply rel_fresh|]. intros x2. apply rel_dbind; [apply Q2|]. intros _.
    apply rel_dbind; [|intros xs; apply rel_refl].
    induction Qs as [|t ts Qt Qs IH]; [apply rel_refl|].
    apply rel_dbind; [apply rel_fresh|]. intros x. apply rel_dbind; [apply Qt|]. intros _. apply rel_dbind; [exact IH|]. intros r. apply rel_refl.
  - intros at_ Q a fs. exact (Q a fs).
  - intros at_ Q a fs. cbn [see_typ]. apply rel_dbind; [apply RC|]. intros _. apply rel_dbind; [apply rel_refl|]. intros b.
    apply rel_dbind; [apply rel_fresh|]. intros i. apply rel_dbind; [apply Q|]. intros _. apply rel_refl.
  - intros at_ Q a fs. cbn [see_typ]. apply rel_dbind; [apply RC|]. intros _. apply rel_dbind; [apply rel_refl|]. intros b.
    apply rel_dbind; [apply rel_fresh|]. intros i. apply rel_dbind; [apply Q|]. intros _. apply rel_dbind; [apply rel_fresh|]. intros nl. apply rel_refl.
  - intros t a fs. apply RC.
  - intros e Q a fs. exact (Q a fs).
  - intros s o a fs. cbn [see_atom]. unfold see_ref. go.
Qed.

Lemma rel_settle_each l : rel all (settle_each rec' l) (settle_each rec l).
Proof. induction l as [|x l IH]; cbn [settle_each]; go. Qed.
End See.

Lemma rel_settle m n : forall a, rel all (settle_h H E m n a) (settle E m n a).
Proof.
  assert (RC : forall x y z, rel all (concrete_yaml_h H E (parse_dt_h H E m) (parse_ne E) x y z) (concrete_yaml E (parse_dt E m) (parse_ne E) x y z)).
  { intros x y z. apply rel_concrete_yaml. apply rel_files. }
  induction n as [|n IH]; intros a; cbn [settle_h settle]; [apply rel_refl|].
  go; [now apply rel_settle_each|now apply rel_see].
Qed.

Lemma settle_all_false m n : forall k s r s', settle_all_h H E m n k false s = (Ok r, s') -> r = false.
Proof.
  induction k as [|k IH]; intros s r s' K; cbn [settle_all_h] in K; [discriminate|]. unfold dbind, dget in K.
  destruct (p_todo s) as [|a l]; [injection K as <- <-; reflexivity|].
  destruct (dtry (settle_h H E m n a) s) as [[x| | |] s1]; try discriminate.
  unfold drop_todo in K. destruct x; exact (IH _ _ _ K).
Qed.

Lemma rel_settle_all m n : forall k good, rel (fun b => b) (settle_all_h H E m n k good) (settle_all E m n k good).
Proof.
  induction k as [|k IH]; intros good; cbn [settle_all_h settle_all]; [apply rel_refl|].
  apply rel_dbind; [apply rel_refl|]. intros p. destruct (p_todo p) as [|a l]; [apply rel_refl|].
  apply (rel_dbindg isome); [apply rel_dtry, rel_settle| |].
  - intros r. apply rel_dbind; [apply rel_refl|]. intros _. apply IH.
  - intros [x|] s r s' G K; [discriminate|]. unfold dbind, drop_todo in K. exact (settle_all_false _ _ _ _ _ _ K).
Qed.

(** * parseFragment *)

Lemma rel_decode_fragment n text path : rel all (decode_fragment_h H E n text path) (decode_fragment E n text path).
Proof.
  unfold decode_fragment_h, decode_fragment. destruct (rel_files n). go; [apply rel_decode_lib|apply rel_decode_dt]; assumption.
Qed.

Lemma rel_resolve_fragment n : rel all (resolve_fragment_h H E n) (resolve_fragment E n).
Proof.
  unfold resolve_fragment_h, resolve_fragment. apply (rel_dbindg (fun b => b)); [apply rel_settle_all|intros ok; apply rel_refl|].
  intros ok s r s' -> K. discriminate.
Qed.

Lemma rel_parse_fragment (Q : quiet H) n O o1 o2 o3 u v text path :
  rel all (parse_fragment_h H E n O o1 o2 o3 u v text path) (parse_fragment E n O o1 o2 o3 u v text path).
Proof.
  unfold parse_fragment_h, parse_fragment. apply rel_dbind; [apply rel_decode_fragment|]. intros ep.
  apply rel_dbind; [apply rel_resolve_fragment|]. intros _. apply rel_dbind; [|intros _; apply rel_dbind; [|intros _; apply rel_refl]].
  - destruct u; [|apply rel_refl]. intros p. destruct (rel_unwrap_shapes H Q n o1 o2 (raml_of p) (p_st p)) as [R1 R2]. split.
    + intros Sl. rewrite (R1 Sl). reflexivity.
    + intros r s'. destruct (unwrap_shapes_h H n o1 o2 (raml_of p) (p_st p)) as [[R| | |] s1]; try discriminate.
      intros K _. rewrite (R2 R s1 eq_refl eq_refl). exact K.
  - destruct v; [|apply rel_refl]. intros p. destruct (rel_validate_shapes H Q n O o3 (raml_of p) (p_st p)) as [R1 R2]. split.
    + intros Sl. rewrite (R1 Sl). reflexivity.
    + intros r s'. destruct (validate_shapes_h H n O o3 (raml_of p) (p_st p)) as [[[]| | |] s1]; try discriminate.
      intros K _. rewrite (R2 tt s1 eq_refl eq_refl). exact K.
Qed.
End Hooked.
