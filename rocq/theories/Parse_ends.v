(** Loading files comes to an end (C44, C45). *)
From Coq Require Import ZArith List String Bool Ascii Lia.
From Verif Require Import Base Scalars Heap Rdt Resolve Names Yaml Yaml_proofs Pipeline Decode Parse Spec_Parse.
Import ListNotations.
Open Scope string_scope.
Open Scope list_scope.
Open Scope nat_scope.

(** * Sizes *)

Definition lsize (l : list ynode) : nat := fold_right (fun v k => ysize v + k) 0 l.

Lemma ysize_eq k t v c : ysize (Y k t v c) = S (lsize c).
Proof. reflexivity. Qed.

Lemma ysize_content v : ysize v = S (lsize (y_content v)).
Proof. destruct v. apply ysize_eq. Qed.

Lemma lsize_app l l' : lsize (l ++ l') = lsize l + lsize l'.
Proof. induction l as [|x l IH]; [reflexivity|]. cbn. fold (lsize (l ++ l')). rewrite IH. unfold lsize. lia. Qed.

Lemma lsize_in x l : In x l -> ysize x <= lsize l.
Proof.
  induction l as [|y l IH]; [intros []|]. cbn. fold (lsize l). intros [->|I]; [lia|]. specialize (IH I). lia.
Qed.

Lemma within_content t x v : In x (y_content v) -> within t x -> within t v.
Proof. destruct v. cbn. intros. econstructor; eauto. Qed.

(** * Pure parts *)

Definition fueled {A} (r : res A) : Prop := r <> OutOfFuel.

Lemma fueled_bind {A B} (r : res A) (f : A -> res B) : fueled r -> (forall a, fueled (f a)) -> fueled (rbind r f).
Proof. unfold fueled. destruct r; cbn; auto; congruence. Qed.

Lemma fueled_or {A} (o : option A) : fueled (or_err o).
Proof. destruct o; cbv; discriminate. Qed.

Lemma seq_fueled (conv : ynode -> res gval) l : (forall x, In x l -> fueled (conv x)) -> fueled (seq_items conv l).
Proof.
  induction l as [|x l IH]; [intros; cbv; discriminate|]. intros H. cbn [seq_items].
  apply fueled_bind; [apply H; now left|]. intros d. apply fueled_bind; [apply IH; intros; apply H; now right|].
  intros; cbv; discriminate.
Qed.

Lemma to_data_fueled (s : ynode -> res gval) : (forall n, fueled (s n)) -> forall n, fueled (to_data s n).
Proof.
  intros Hs. apply (ynode_ind2 (fun n => fueled (to_data s n))).
  intros k t v cs IH. rewrite Forall_forall in IH. rewrite to_data_eq. destruct k; try (cbv; discriminate).
  - destruct cs; [cbv; discriminate|]. apply IH. now left.
  - apply fueled_bind; [now apply seq_fueled|]. intros; cbv; discriminate.
  - destruct (negb _); [cbv; discriminate|]. generalize (@nil (string * gval)).
    remember (List.length cs) as n eqn:En. assert (L : List.length cs <= n) by lia. clear En. revert cs IH L.
    induction n as [|n IHn]; intros [|k [|c cs]] IH L m; try (cbv; discriminate); try (cbn in L; lia).
    cbn [map_pairs]. apply fueled_bind; [apply IH; cbn; tauto|]. intros d. apply IHn; [intros x Hx; apply IH; cbn; tauto|cbn in L; lia].
  - apply Hs.
Qed.

Lemma scalar_fueled E f n : fueled (f n) -> fueled (scalar_data E f n).
Proof.
  intros Hf. unfold scalar_data. destruct (String.eqb _ _); [cbv; discriminate|].
  destruct (String.eqb _ _); [cbv; discriminate|]. destruct (String.eqb _ _); [exact Hf|].
  destruct (e_scalar _ _ _); cbv; discriminate.
Qed.

Lemma data_node_fueled E loc n : fueled (data_node E loc n).
Proof.
  apply to_data_fueled. intros m. apply scalar_fueled. unfold include_scalar.
  destruct (e_read _ _); [|cbv; discriminate]. destruct (existsb _ _); [|cbv; discriminate].
  destruct (e_yaml _ _); [|cbv; discriminate]. apply to_data_fueled. intros m'. apply scalar_fueled. cbv; discriminate.
Qed.

Lemma root_fueled E loc n : fueled (root_node E loc n).
Proof.
  unfold root_node. destruct (String.eqb _ _).
  - unfold included_node. destruct (e_read _ _); [|cbv; discriminate].
    destruct (String.eqb _ _); [destruct (e_json _ _); cbv; discriminate|].
    destruct (existsb _ _); [|cbv; discriminate].
    destruct (e_yaml _ _); [|cbv; discriminate]. apply data_node_fueled.
  - destruct (y_value n); [apply data_node_fueled|].
    destruct (Ascii.eqb _ _); [|apply data_node_fueled]. destruct (e_json _ _); cbv; discriminate.
Qed.

Lemma enum_fueled E loc v : fueled (make_enum E loc v).
Proof.
  unfold make_enum. destruct (y_kind v); try (cbv; discriminate).
  apply fueled_bind; [|intros; cbv; discriminate]. apply seq_fueled. intros. apply root_fueled.
Qed.

Lemma file_types_fueled E loc l : fueled (file_types E loc l).
Proof.
  induction l as [|x l IH]; [cbv; discriminate|]. cbn [file_types]. destruct (String.eqb _ _); [|cbv; discriminate].
  apply fueled_bind; [apply root_fueled|]. intros. apply fueled_bind; [exact IH|]. intros; cbv; discriminate.
Qed.

Ltac fu := repeat first
  [ apply root_fueled | apply enum_fueled | apply file_types_fueled | apply fueled_or
  | apply fueled_bind; [|intros ?]
  | match goal with
    | |- fueled (if ?b then _ else _) => destruct b
    | |- fueled (match ?x with _ => _ end) => destruct x
    | |- fueled (Ok _) => unfold fueled; discriminate
    | |- fueled Err => unfold fueled; discriminate
    | |- fueled Panic => unfold fueled; discriminate
    end ].

Lemma int_fueled E loc k v f : fueled (int_facet E loc k v f). Proof. unfold int_facet. fu. Qed.
Lemma num_fueled E loc k v f : fueled (num_facet E loc k v f). Proof. unfold num_facet. fu. Qed.
Lemma str_fueled E loc k v f : fueled (str_facet E loc k v f). Proof. unfold str_facet. fu. Qed.
Lemma file_fueled E loc k v f : fueled (file_facet E loc k v f). Proof. unfold file_facet. fu. Qed.
Lemma bool_fueled E loc k v : fueled (bool_facet E loc k v). Proof. unfold bool_facet. fu. Qed.
Lemma time_fueled E k v : fueled (time_facet E k v). Proof. unfold time_facet. fu. Qed.
Lemma arr_fueled E k v f : fueled (arr_facet E k v f). Proof. unfold arr_facet. fu. Qed.
Lemma obj_fueled E k v f : fueled (obj_facet E k v f). Proof. unfold obj_facet. fu. Qed.

Lemma identify_fueled fs : fueled (identify fs).
Proof.
  unfold identify, identify_type. generalize (map fst match fs with Some l => l | None => [] end). intros l.
  assert (K : forall t so, fueled (identify_loop t so l)).
  { induction l as [|x l IH]; intros t so; [cbv; discriminate|]. cbn [identify_loop].
    destruct (facet_type x) as [[ft pat]|]; [|apply IH].
    destruct (if String.eqb t "string" then _ else _) as [t' ft']. destruct (_ && _); [cbv; discriminate|apply IH]. }
  specialize (K "" false). destruct (identify_loop _ _ _); try (cbv; discriminate). exact K.
Qed.

(** * Safe computations: from a state whose cache contains [K], they end and
    keep [K] in the cache *)

Definition has (K : list string) (p : pst) : Prop := forall q, In q K -> oget q (p_frags p) <> None.

Definition safe (K : list string) {A} (m : D A) : Prop :=
  forall p, has K p -> fst (m p) <> OutOfFuel /\ has K (snd (m p)).

Lemma safe_lift K {A} (r : res A) : fueled r -> safe K (dlift r).
Proof. intros H p Hp. split; [exact H|exact Hp]. Qed.

Lemma safe_ret K {A} (a : A) : safe K (dret a).
Proof. intros p Hp. split; [discriminate|exact Hp]. Qed.

Lemma safe_get K : safe K dget.
Proof. intros p Hp. split; [discriminate|exact Hp]. Qed.

Lemma safe_bind K {A B} (m : D A) (f : A -> D B) : safe K m -> (forall a, safe K (f a)) -> safe K (dbind m f).
Proof.
  intros Hm Hf p Hp. unfold dbind. specialize (Hm p Hp). destruct (m p) as [[a| | |] p']; cbn in *.
  - apply Hf, Hm.
  - split; [discriminate|apply Hm].
  - split; [discriminate|apply Hm].
  - destruct Hm as [N _]. now destruct N.
Qed.

Lemma safe_try K {A} (m : D A) : safe K m -> safe K (dtry m).
Proof.
  intros Hm p Hp. unfold dtry. specialize (Hm p Hp). destruct (m p) as [[a| | |] p']; cbn in *; destruct Hm as [N H]; split; auto; try discriminate.
Qed.

(** Heap computations that need no fuel. *)
Definition quick {A} (m : M A) : Prop := forall s, fst (m s) <> OutOfFuel.

Lemma safe_hp K {A} (m : M A) : quick m -> safe K (hp m).
Proof. intros H p Hp. unfold hp. specialize (H (p_st p)). destruct (m (p_st p)) as [r s]. split; [exact H|exact Hp]. Qed.

Lemma quick_bind {A B} (m : M A) (f : A -> M B) : quick m -> (forall a, quick (f a)) -> quick (bind m f).
Proof.
  intros Hm Hf s. unfold bind. specialize (Hm s). destruct (m s) as [[a| | |] s']; cbn in *; try congruence; try apply Hf.
Qed.
Lemma quick_ret {A} (a : A) : quick (ret a). Proof. intros s. discriminate. Qed.
Lemma quick_panic {A} : quick (@mpanic A). Proof. intros s. discriminate. Qed.
Lemma quick_rd {A} (g : list cell -> addr -> option A) a : quick (rd g a).
Proof. intros s. unfold rd. destruct (g _ _); discriminate. Qed.
Lemma quick_write a c : quick (Heap.write a c). Proof. intros s. discriminate. Qed.
Lemma quick_alloc c : quick (alloc c). Proof. intros s. discriminate. Qed.
Lemma quick_id : quick gen_id. Proof. intros s. discriminate. Qed.
Lemma quick_put a : quick (put_shape a). Proof. intros s. discriminate. Qed.

Ltac qk := repeat first
  [ apply quick_ret | apply quick_panic | apply quick_rd | apply quick_write | apply quick_alloc | apply quick_id | apply quick_put
  | apply quick_bind; [|intros ?]
  | match goal with
    | |- quick (if ?b then _ else _) => destruct b
    | |- quick (match ?x with _ => _ end) => destruct x
    end ].

Lemma quick_upd a f : quick (upd_base a f). Proof. unfold upd_base. qk. Qed.
Lemma quick_arr a f : quick (upd_arr a f). Proof. unfold upd_arr. qk. Qed.
Lemma quick_props m k x : quick (props_set m k x). Proof. unfold props_set. qk. Qed.
Lemma quick_base name loc : quick (make_base name loc). Proof. unfold make_base. qk. Qed.
Lemma quick_empty t : quick (empty_shape t). Proof. unfold empty_shape. qk. Qed.

Lemma safe_own K a g f : safe K (own_props a g f).
Proof. unfold own_props. apply safe_hp. qk. Qed.

Lemma safe_ext K e : safe K (put_ext e). Proof. intros p Hp. split; [discriminate|exact Hp]. Qed.
Lemma safe_todo K a : safe K (put_todo a). Proof. intros p Hp. split; [discriminate|exact Hp]. Qed.
Lemma safe_facets K a fs : safe K (put_facets a fs). Proof. intros p Hp. split; [discriminate|exact Hp]. Qed.
Lemma safe_type K n l a : safe K (put_type n l a). Proof. intros p Hp. split; [discriminate|exact Hp]. Qed.
Lemma safe_annot K n l a : safe K (put_annot n l a). Proof. intros p Hp. split; [discriminate|exact Hp]. Qed.

Section Shape.
Variable E : denv.
Variable K : list string.
Variable inc_dt : string -> D addr.
Variable inc_ne : string -> D unit.
Hypothesis Ne : forall x, safe K (inc_ne x).

Lemma safe_make_ext loc k v : safe K (make_ext E loc k v).
Proof.
  unfold make_ext. destruct (String.eqb _ _); [apply safe_lift; cbv; discriminate|].
  apply safe_bind; [apply safe_lift, root_fueled|]. intros x. apply safe_bind; [apply safe_get|]. intros p.
  apply safe_bind; [apply safe_ext|]. intros. apply safe_ret.
Qed.

Lemma pair_induction (P : list ynode -> Prop) :
  P [] -> (forall x, P [x]) -> (forall k v l, P l -> P (k :: v :: l)) -> forall l, P l.
Proof.
  intros H0 H1 H2 l. remember (List.length l) as n eqn:En. assert (L : List.length l <= n) by lia. clear En. revert l L.
  induction n as [|n IH]; intros [|k [|v l]] L; auto; cbn in L; try lia. apply H2, IH. lia.
Qed.

Lemma safe_entries loc l : safe K (example_entries E loc l).
Proof.
  induction l as [| |k v l IH] using pair_induction; [apply safe_ret|apply safe_lift; cbv; discriminate|].
  cbn [example_entries]. apply safe_bind; [|intros; exact IH].
  destruct (String.eqb _ _); [apply safe_lift; destruct (d_strict E v); cbv; discriminate|].
  destruct (_ || _); [apply safe_lift; destruct (d_string E v); cbv; discriminate|].
  destruct (is_annotation _); [|apply safe_ret]. apply safe_bind; [apply safe_make_ext|intros; apply safe_ret].
Qed.

Lemma value_fueled l : fueled (value_entry l).
Proof.
  induction l as [| |k v l IH] using pair_induction; try (cbv; discriminate). cbn [value_entry].
  destruct (String.eqb _ _); [cbv; discriminate|exact IH].
Qed.

Lemma safe_example loc v : safe K (example E loc v).
Proof.
  unfold example. destruct (y_kind v); try apply safe_lift, root_fueled.
  apply safe_bind; [apply safe_lift, value_fueled|]. intros [x|]; [|apply safe_lift, root_fueled].
  apply safe_bind; [apply safe_entries|]. intros. apply safe_lift, root_fueled.
Qed.

Lemma safe_example_map loc l : forall m, safe K (example_map E loc l m).
Proof.
  induction l as [| |k v l IH] using pair_induction; intros m; [apply safe_ret|apply safe_lift; cbv; discriminate|].
  cbn [example_map]. apply safe_bind; [apply safe_example|]. intros. apply IH.
Qed.

Section Rec.
Variable rec : ynode -> string -> string -> D addr.
Variable loc : string.
(** Trees on which the recursion is safe. *)
Variable T : ynode -> Prop.
Hypothesis Rec : forall v name, T v -> safe K (rec v name loc).

Lemma safe_custom a k v : safe K (custom_facet E a loc k v).
Proof.
  unfold custom_facet. apply safe_bind; [apply safe_lift, root_fueled|]. intros x. apply safe_hp. qk.
Qed.

Lemma safe_own_facet {F} a k v (r : res (option F)) mk : fueled r -> safe K (own_facet E a loc k v r mk).
Proof.
  intros H. unfold own_facet. apply safe_bind; [now apply safe_lift|]. intros [f|]; [apply safe_hp, quick_upd|apply safe_custom].
Qed.

Lemma safe_property k v : T v -> safe K (property rec loc k v).
Proof.
  intros H. unfold property. destruct (chomp_optional k) as [name opt]. apply safe_bind; [now apply Rec|]. intros x.
  apply safe_bind; [apply safe_hp, quick_rd|]. intros xb. destruct (make_property _ _ _ _); [apply safe_ret|apply safe_lift; cbv; discriminate].
Qed.

Lemma safe_one_property a k v : T v -> safe K (one_property E rec a loc k v).
Proof.
  intros H. unfold one_property. destruct (chomp_optional k) as [name opt]. destruct (is_pattern_name name).
  - apply safe_bind; [apply safe_own|]. intros m. apply safe_bind; [now apply Rec|]. intros x.
    apply safe_bind; [apply safe_hp, quick_rd|]. intros xb. apply safe_bind; [apply safe_lift|].
    + unfold make_pattern_property. destruct (b_required xb); [cbv; discriminate|]. destruct opt; [cbv; discriminate|].
      destruct (d_re E _); cbv; discriminate.
    + intros [|]; [apply safe_lift; cbv; discriminate|apply safe_hp, quick_props].
  - apply safe_bind; [apply safe_own|]. intros m. apply safe_bind; [now apply safe_property|]. intros pr.
    apply safe_hp, quick_props.
Qed.

Lemma safe_properties a l : (forall x, In x l -> T x) -> safe K (properties E rec a loc l).
Proof.
  induction l as [| |k v l IH] using pair_induction; intros H; [apply safe_ret|apply safe_ret|].
  cbn [properties]. apply safe_bind; [apply safe_one_property, H; cbn; tauto|]. intros. apply IH. intros; apply H; cbn; tauto.
Qed.

Lemma safe_facet a k v : T v -> (forall x, In x (y_content v) -> T x) -> safe K (facet E rec a loc k v).
Proof.
  intros Hv Hc. unfold facet. apply safe_bind; [apply safe_hp, quick_rd|]. intros b.
  destruct (b_shape b) as [[]|]; try apply safe_custom; try apply safe_ret; try apply safe_own_facet;
    try apply int_fueled; try apply num_fueled; try apply str_fueled; try apply file_fueled; try apply bool_fueled; try apply time_fueled.
  - destruct (String.eqb _ _); [|apply safe_own_facet, arr_fueled].
    apply safe_bind; [now apply Rec|]. intros. apply safe_hp, quick_arr.
  - destruct (String.eqb _ _); [|apply safe_own_facet, obj_fueled].
    destruct (negb _); [apply safe_lift; cbv; discriminate|]. now apply safe_properties.
Qed.

Lemma safe_facets_loop a l : (forall k v, In (k, v) l -> T v /\ forall x, In x (y_content v) -> T x) ->
  safe K (facets E rec a loc l).
Proof.
  induction l as [|[k v] l IH]; intros H; [apply safe_ret|]. cbn [facets].
  apply safe_bind; [apply safe_facet; [exact (proj1 (H k v (or_introl eq_refl)))|exact (proj2 (H k v (or_introl eq_refl)))]|].
  intros u. apply IH. intros k0 v0 I. apply (H k0 v0). now right.
Qed.

Lemma safe_defs m l : (forall x, In x l -> T x) -> safe K (facet_defs rec m loc l).
Proof.
  induction l as [| |k v l IH] using pair_induction; intros H; [apply safe_ret|apply safe_lift; cbv; discriminate|].
  cbn [facet_defs]. apply safe_bind; [apply safe_property, H; cbn; tauto|]. intros pr.
  apply safe_bind; [apply safe_hp, quick_props|]. intros. apply IH. intros; apply H; cbn; tauto.
Qed.

Lemma safe_examples a v : safe K (decode_examples E inc_ne a loc v).
Proof.
  unfold decode_examples. apply safe_bind; [apply safe_hp, quick_rd|]. intros b. destruct (b_example b); [apply safe_lift; cbv; discriminate|].
  destruct (y_kind v); try (apply safe_lift; cbv; discriminate).
  - apply safe_bind; [apply safe_example_map|]. intros. apply safe_hp, quick_upd.
  - destruct (String.eqb _ _); [|apply safe_lift; cbv; discriminate]. apply safe_bind; [apply Ne|]. intros. apply safe_hp, quick_upd.
Qed.

Lemma safe_one_example a v : safe K (decode_example E a loc v).
Proof.
  unfold decode_example. apply safe_bind; [apply safe_hp, quick_rd|]. intros b. destruct (b_examples b); [apply safe_lift; cbv; discriminate|].
  apply safe_bind; [apply safe_example|]. intros. apply safe_hp, quick_upd.
Qed.

Lemma safe_entry a k v : (forall x, In x (y_content v) -> T x) -> safe K (entry E inc_ne rec a loc k v).
Proof.
  intros Hc. unfold entry.
  repeat (match goal with |- safe _ (if ?b then _ else _) => destruct b end).
  all: try (apply safe_bind; [apply safe_lift, fueled_or|intros; apply safe_hp, quick_upd]).
  - apply safe_bind; [apply safe_hp, quick_alloc|]. intros m. apply safe_bind; [apply safe_hp, quick_upd|]. intros. now apply safe_defs.
  - apply safe_one_example.
  - apply safe_examples.
  - apply safe_bind; [apply safe_lift, root_fueled|intros; apply safe_hp, quick_upd].
  - apply safe_ret.
  - apply safe_bind; [apply safe_make_ext|]. intros x. apply safe_bind; [apply safe_hp, quick_rd|]. intros. apply safe_hp, quick_upd.
Qed.

(** What {!decode} hands on. *)
Lemma decode_entries_parts a l : forall t fs p r p',
  decode_entries E inc_ne rec a loc l t fs p = (Ok r, p') ->
  (forall x, fst r = Some x -> In x l \/ t = Some x)
  /\ (forall k x, In (k, x) (snd r) -> In x l \/ In (k, x) fs).
Proof.
  induction l as [| |k v l IH] using pair_induction; intros t fs p r p' H; cbn [decode_entries] in H.
  - injection H as <- <-. cbn. split; auto.
  - discriminate.
  - destruct (String.eqb (y_value k) "type").
    + destruct (IH _ _ _ _ _ H) as [A B]. split.
      * intros x Hx. destruct (A x Hx) as [I|I]; [left; cbn; tauto|]. injection I as ->. left; cbn; tauto.
      * intros k' x Hx. destruct (B k' x Hx); [left; cbn; tauto|tauto].
    + destruct (known_key (y_value k)).
      * unfold dbind in H. destruct (entry E inc_ne rec a loc (y_value k) v p) as [[[]| | |] p1]; try discriminate.
        destruct (IH _ _ _ _ _ H) as [A B]. split.
        -- intros x Hx. destruct (A x Hx); [left; cbn; tauto|tauto].
        -- intros k' x Hx. destruct (B k' x Hx); [left; cbn; tauto|tauto].
      * destruct (IH _ _ _ _ _ H) as [A B]. split.
        -- intros x Hx. destruct (A x Hx); [left; cbn; tauto|tauto].
        -- intros k' x Hx. destruct (B k' x Hx) as [I|I]; [left; cbn; tauto|]. apply in_app_or in I. destruct I as [I|[I|[]]]; [tauto|].
           injection I as _ ->. left; cbn; tauto.
Qed.

Lemma decode_parts a v p r p' : decode E inc_ne rec a loc v p = (Ok r, p') ->
  (forall x, fst r = Some x -> x = v \/ In x (y_content v))
  /\ (forall fs k x, snd r = Some fs -> In (k, x) fs -> In x (y_content v)).
Proof.
  unfold decode. destruct (y_kind v); try discriminate; intros H.
  - injection H as <- <-. cbn. split; [intros x [= ->]; now left|discriminate].
  - unfold dbind in H. destruct (decode_entries E inc_ne rec a loc (y_content v) None [] p) as [[x| | |] p1] eqn:Ed; try discriminate.
    injection H as <- <-. cbn. destruct (decode_entries_parts _ _ _ _ _ _ _ Ed) as [A B]. split.
    + intros y Hy. destruct (A y Hy); [tauto|discriminate].
    + intros fs k y [= <-] Hy. destruct (B k y Hy) as [|[]]; auto.
  - injection H as <- <-. cbn. split; [intros x [= ->]; now left|discriminate].
Qed.

Lemma safe_decode_entries a l : (forall x y, In x l -> In y (y_content x) -> T y) -> forall t fs,
  safe K (decode_entries E inc_ne rec a loc l t fs).
Proof.
  induction l as [| |k v l IH] using pair_induction; intros H t fs; [apply safe_ret|apply safe_lift; cbv; discriminate|].
  cbn [decode_entries]. assert (H' : forall x y, In x l -> In y (y_content x) -> T y) by (intros; eapply H; eauto; cbn; tauto).
  destruct (String.eqb _ _); [now apply IH|]. destruct (known_key _); [|now apply IH].
  apply safe_bind; [|intros; now apply IH]. apply safe_entry. intros x. apply H. cbn; tauto.
Qed.

Lemma safe_decode a v : (forall x y, In x (y_content v) -> In y (y_content x) -> T y) ->
  safe K (decode E inc_ne rec a loc v).
Proof.
  intros H. unfold decode. destruct (y_kind v); try (apply safe_lift; cbv; discriminate); try apply safe_ret.
  apply safe_bind; [now apply safe_decode_entries|]. intros. apply safe_ret.
Qed.

Lemma safe_parents name l : (forall x, In x l -> T x) -> safe K (parents rec name loc l).
Proof.
  induction l as [|v l IH]; intros H; [apply safe_ret|]. cbn [parents].
  destruct (y_kind v); try (apply safe_lift; cbv; discriminate). destruct (String.eqb _ _); [apply safe_lift; cbv; discriminate|].
  apply safe_bind; [apply Rec, H; now left|]. intros. apply safe_bind; [apply IH; intros; apply H; now right|]. intros. apply safe_ret.
Qed.

Lemma safe_shape_type a name t fs : (forall x, In x (y_content t) -> T x) ->
  (y_kind t = KScalar -> y_tag t = "!include" -> safe K (inc_dt (e_join (d_y E) loc (y_value t)))) ->
  safe K (shape_type E inc_dt rec a name loc t fs).
Proof.
  intros H I. unfold shape_type. destruct (y_kind t); try (apply safe_lift; cbv; discriminate).
  - apply safe_bind; [now apply safe_parents|]. intros. apply safe_bind; [apply safe_hp, quick_alloc|]. intros.
    apply safe_bind; [apply safe_hp, quick_upd|]. intros. apply safe_ret.
  - destruct (String.eqb (y_tag t) "!!str").
    { destruct (y_value t) as [|c s].
      - apply safe_bind; [apply safe_lift, identify_fueled|]. intros. apply safe_ret.
      - destruct (Ascii.eqb _ _); [|apply safe_ret]. apply safe_bind; [apply safe_hp, quick_upd|]. intros.
        destruct (d_schema _ _); [|apply safe_lift; cbv; discriminate]. apply safe_bind; [apply safe_hp, quick_upd|]. intros. apply safe_ret. }
    destruct (String.eqb (y_tag t) "!include") eqn:Ei.
    { apply String.eqb_eq in Ei. apply safe_bind; [now apply I|]. intros.
      apply safe_bind; [apply safe_hp, quick_upd|]. intros. apply safe_ret. }
    destruct (String.eqb (y_tag t) "!!null"); [apply safe_ret|apply safe_lift; cbv; discriminate].
Qed.

Lemma safe_bind_ok {A B} (m : D A) (f : A -> D B) : safe K m ->
  (forall a p p', m p = (Ok a, p') -> safe K (f a)) -> safe K (dbind m f).
Proof.
  intros Hm Hf p Hp. unfold dbind. specialize (Hm p Hp). destruct (m p) as [[a| | |] p'] eqn:Em; cbn in *.
  - eapply Hf; [exact Em|apply Hm].
  - split; [discriminate|apply Hm].
  - split; [discriminate|apply Hm].
  - destruct Hm as [N _]. now destruct N.
Qed.

Lemma safe_concrete a t fs :
  (forall l k v, fs = Some l -> In (k, v) l -> T v /\ forall x, In x (y_content v) -> T x) ->
  safe K (concrete E rec a loc t fs).
Proof.
  intros H. unfold concrete. apply safe_bind; [apply safe_hp, quick_upd|]. intros.
  apply safe_bind; [apply safe_hp, quick_empty|]. intros sh. apply safe_bind; [apply safe_hp, quick_upd|]. intros.
  assert (S : safe K (facets E rec a loc (match fs with Some l => l | None => [] end))).
  { apply safe_facets_loop. destruct fs as [l|]; [intros; eapply H; eauto|intros ? ? []]. }
  destruct sh; auto. apply safe_facets.
Qed.
End Rec.

(** Trees all of whose includes are safe. *)
Definition calm (loc : string) (v : ynode) : Prop :=
  forall t, within t v -> y_kind t = KScalar -> y_tag t = "!include" -> safe K (inc_dt (e_join (d_y E) loc (y_value t))).

Lemma calm_child loc v x : calm loc v -> In x (y_content v) -> calm loc x.
Proof. intros H I t Ht. apply H. eapply within_content; eauto. Qed.

Lemma safe_shape loc n : forall v name, ysize v <= n -> calm loc v -> safe K (shape_at E inc_dt inc_ne n v name loc).
Proof.
  induction n as [|n IH]; intros v name Sz C; [rewrite ysize_content in Sz; lia|]. cbn [shape_at]. unfold new_shape.
  set (rec := shape_at E inc_dt inc_ne n). set (T := fun x => ysize x <= n /\ calm loc x).
  assert (Rec : forall x nm, T x -> safe K (rec x nm loc)) by (intros x nm [A B]; now apply IH).
  assert (T1 : forall x, In x (y_content v) -> T x).
  { intros x I. split; [|eapply calm_child; eauto]. rewrite ysize_content in Sz. pose proof (lsize_in _ _ I). lia. }
  assert (T2 : forall x y, T x -> In y (y_content x) -> T y).
  { intros x y [A B] I. split; [|eapply calm_child; eauto]. rewrite ysize_content in A. pose proof (lsize_in _ _ I). lia. }
  apply safe_bind; [apply safe_hp, quick_base|]. intros a.
  apply safe_bind_ok. { apply (safe_decode rec loc T Rec). eauto. }
  intros tf p p' Ed. destruct (decode_parts _ _ _ _ _ _ _ Ed) as [P1 P2].
  apply safe_bind.
  { destruct (fst tf) as [t|] eqn:Et.
    - assert (G : calm loc t /\ forall x, In x (y_content t) -> T x).
      { destruct (P1 t eq_refl) as [->|I]; [auto|]. pose proof (T1 _ I) as Tt. split; [apply Tt|]. intros. eapply T2; eauto. }
      destruct G as [G1 G2]. apply (safe_shape_type rec loc T Rec); [exact G2|]. intros A B. apply G1; auto. constructor.
    - apply safe_bind; [apply safe_lift, identify_fueled|]. intros. apply safe_ret. }
  intros [ty|]; [|apply safe_ret].
  apply safe_bind. { apply (safe_concrete rec loc T Rec). intros l k x Hl I. pose proof (T1 _ (P2 l k x Hl I)) as Tx. split; [exact Tx|eauto]. }
  intros. apply safe_bind; [apply safe_hp, quick_rd|]. intros b. destruct (b_shape b) as [[]|]; try apply safe_ret.
Qed.

Lemma safe_shape_yaml loc v name : calm loc v -> safe K (shape_yaml E inc_dt inc_ne v name loc).
Proof. intros C. now apply safe_shape. Qed.
End Shape.

(** * Fragments *)

Lemma oget_oset_some {A} k (v : A) m q : oget q m <> None -> oget q (oset k v m) <> None.
Proof.
  induction m as [|[k' v'] m IH]; cbn; [congruence|]. destruct (String.eqb k k') eqn:Ek.
  - cbn. destruct (String.eqb q k'); [discriminate|auto].
  - cbn. destruct (String.eqb q k'); [discriminate|auto].
Qed.

Lemma oget_snoc {A} k (v : A) m q : oget q (m ++ [(k, v)]) = match oget q m with Some x => Some x | None => if String.eqb q k then Some v else None end.
Proof. induction m as [|[k' v'] m IH]; [reflexivity|]. cbn. destruct (String.eqb q k'); [reflexivity|exact IH]. Qed.

Lemma has_put K path f dt p : has K p -> has (path :: K) (snd (put_fragment path f dt p)).
Proof.
  intros H q I. unfold put_fragment. destruct (oget path (p_frags p)) as [x|] eqn:Ep; cbn [snd p_frags].
  - destruct I as [<-|I]; [rewrite Ep; discriminate|now apply H].
  - rewrite oget_snoc. destruct I as [<-|I]; [rewrite Ep, String.eqb_refl; discriminate|].
    specialize (H q I). destruct (oget q (p_frags p)); [discriminate|]. now destruct H.
Qed.

Lemma has_tail K q p : has (q :: K) p -> has K p.
Proof. intros H x I. apply H. now right. Qed.


(** From [K] to [path :: K]. *)
Lemma safe_put K path f dt {A} (m : D A) : safe (path :: K) m -> safe K (dbind (put_fragment path f dt) (fun _ => m)).
Proof.
  intros Hm p Hp. unfold dbind. pose proof (has_put K path f dt p Hp) as H.
  assert (R : fst (put_fragment path f dt p) = Ok tt) by (unfold put_fragment; destruct (oget path (p_frags p)); reflexivity).
  destruct (put_fragment path f dt p) as [r p']. cbn in *. subst r. destruct (Hm p' H) as [A1 A2]. split; [exact A1|]. eapply has_tail; eauto.
Qed.

Lemma uses_fueled l : forall m, fueled (uses_map l m).
Proof. induction l as [| |k v l IH] using pair_induction; intros m; try (cbv; discriminate). apply IH. Qed.

Lemma safe_new_lib K l : safe K (new_lib l).
Proof. intros p Hp. split; [discriminate|exact Hp]. Qed.

Lemma safe_link_lib K l n x : safe K (link_lib l n x).
Proof. intros p Hp. unfold link_lib. destruct (nth_error _ _); split; try discriminate; exact Hp. Qed.

Lemma safe_link_dt K path mine n x : safe K (link_dt path mine n x).
Proof.
  intros p Hp. unfold link_dt. destruct mine; [|split; [discriminate|exact Hp]].
  destruct (oget path (p_frags p)) as [[]|]; split; try discriminate; try exact Hp.
  cbn. intros q I. cbn. apply oget_oset_some. now apply Hp.
Qed.

Section Fragment.
Variable E : denv.
Variable inc_dt : string -> D addr.
Variable inc_ne : string -> D unit.
Variable inc_lib : string -> D nat.

Section Decls.
Variable K : list string.
Hypothesis Ne : forall x, safe K (inc_ne x).

Lemma safe_declarations loc put l : (forall n a, safe K (put n loc a)) -> (forall x, In x l -> calm E K inc_dt loc x) ->
  forall m, safe K (declarations E inc_dt inc_ne loc put l m).
Proof.
  intros P. induction l as [| |k v l IH] using pair_induction; intros H m; [apply safe_ret|apply safe_lift; cbv; discriminate|].
  cbn [declarations]. apply safe_bind; [apply safe_shape_yaml; [exact Ne|apply H; cbn; tauto]|]. intros.
  apply safe_bind; [apply P|]. intros. apply IH. intros; apply H; cbn; tauto.
Qed.

Lemma safe_declare loc put v old : (forall n a, safe K (put n loc a)) -> calm E K inc_dt loc v ->
  safe K (declare E inc_dt inc_ne loc put v old).
Proof.
  intros P C. unfold declare. destruct (String.eqb _ _); [apply safe_ret|]. destruct (y_kind v); try (apply safe_lift; cbv; discriminate).
  apply safe_declarations; [exact P|]. intros. eapply calm_child; eauto.
Qed.

Lemma lib_uses_fueled v m : fueled (lib_uses v m).
Proof. unfold lib_uses. destruct (String.eqb _ _); [cbv; discriminate|]. destruct (y_kind v); try (cbv; discriminate). apply uses_fueled. Qed.

Lemma safe_lib_entries loc l : (forall x, In x l -> calm E K inc_dt loc x) -> forall b, safe K (lib_entries E inc_dt inc_ne loc l b).
Proof.
  induction l as [| |k v l IH] using pair_induction; intros H b; [apply safe_ret|apply safe_lift; cbv; discriminate|].
  assert (H' : forall x, In x l -> calm E K inc_dt loc x) by (intros; apply H; cbn; tauto).
  assert (Hv : calm E K inc_dt loc v) by (apply H; cbn; tauto).
  cbn [lib_entries].
  repeat (match goal with |- safe _ (if ?b then _ else _) => destruct b end).
  - apply safe_bind; [apply safe_lift, lib_uses_fueled|]. intros. now apply IH.
  - apply safe_bind; [apply safe_declare; [intros; apply safe_type|exact Hv]|]. intros. now apply IH.
  - apply safe_bind; [apply safe_declare; [intros; apply safe_annot|exact Hv]|]. intros. now apply IH.
  - apply safe_bind; [apply safe_lift; destruct (d_string E v); cbv; discriminate|]. intros. now apply IH.
  - apply safe_bind; [apply safe_make_ext|]. intros. now apply IH.
  - now apply IH.
Qed.

Lemma safe_unmarshal_lib loc v : calm E K inc_dt loc v -> safe K (unmarshal_lib E inc_dt inc_ne loc v).
Proof.
  intros C. unfold unmarshal_lib. destruct (y_kind v); try (apply safe_lift; cbv; discriminate).
  apply safe_lib_entries. intros. eapply calm_child; eauto.
Qed.

Lemma dt_entries_fueled l : forall u r, fueled (dt_entries l u r).
Proof.
  induction l as [| |k v l IH] using pair_induction; intros u r; try (cbv; discriminate). cbn [dt_entries].
  destruct (String.eqb _ _); [apply IH|]. destruct (String.eqb _ _); [|apply IH]. destruct (String.eqb _ _); [apply IH|].
  apply fueled_bind; [apply uses_fueled|]. intros. apply IH.
Qed.

Lemma dt_entries_in l : forall u r u' r', dt_entries l u r = Ok (u', r') -> forall z, In z r' -> In z l \/ In z r.
Proof.
  induction l as [| |k v l IH] using pair_induction; intros u r u' r' H z I; cbn [dt_entries] in H.
  - injection H as <- <-. now right.
  - discriminate.
  - destruct (String.eqb _ _). { destruct (IH _ _ _ _ H z I); [left; cbn; tauto|tauto]. }
    destruct (String.eqb _ _).
    + destruct (String.eqb _ _). { destruct (IH _ _ _ _ H z I); [left; cbn; tauto|tauto]. }
      destruct (uses_map (y_content v) []); try discriminate. cbn in H. destruct (IH _ _ _ _ H z I); [left; cbn; tauto|tauto].
    + destruct (IH _ _ _ _ H z I) as [J|J]; [left; cbn; tauto|]. apply in_app_or in J. destruct J as [J|J]; [tauto|]. left. cbn in *. tauto.
Qed.

Lemma calm_pack loc v l : calm E K inc_dt loc v -> (forall x, In x l -> In x (y_content v)) -> calm E K inc_dt loc (Y KMap "" "" l).
Proof.
  intros C H t W Kt Tt. inversion W as [|k tag value c x I W']; subst; [discriminate Kt|]. apply C; auto. eapply within_content; eauto.
Qed.

Lemma safe_unmarshal_dt loc v : calm E K inc_dt loc v -> safe K (unmarshal_dt E inc_dt inc_ne loc v).
Proof.
  intros C. unfold unmarshal_dt. destruct (y_kind v); try (apply safe_lift; cbv; discriminate).
  apply safe_bind_ok; [apply safe_lift, dt_entries_fueled|]. intros [u r] p p' H. injection H as H _.
  apply safe_bind; [|intros; apply safe_ret]. apply safe_shape_yaml; [exact Ne|]. cbn [snd]. apply (calm_pack _ v); [exact C|].
  intros x I. destruct (dt_entries_in _ _ _ _ _ H x I) as [|[]]; auto.
Qed.
End Decls.

Lemma safe_link_uses K loc l m : (forall x, safe K (inc_lib x)) -> safe K (link_uses E inc_lib loc l m).
Proof.
  intros H. induction m as [|[name value] m IH]; [apply safe_ret|]. cbn [link_uses].
  apply safe_bind; [apply safe_try, H|]. intros r. apply safe_bind; [apply safe_link_lib|]. intros.
  apply safe_bind; [exact IH|]. intros. apply safe_ret.
Qed.

Lemma safe_link_dt_uses K loc mine m : (forall x, safe K (inc_lib x)) -> safe K (link_dt_uses E inc_lib loc mine m).
Proof.
  intros H. induction m as [|[name value] m IH]; [apply safe_ret|]. cbn [link_dt_uses].
  apply safe_bind; [apply H|]. intros r. apply safe_bind; [apply safe_link_dt|]. intros. exact IH.
Qed.

Lemma document_fueled text : fueled (document E text).
Proof. unfold document. fu. Qed.

Lemma document_tree text v : document E text = Ok (Some v) ->
  exists tag value more, e_yaml (d_y E) text = Some (Y KDoc tag value (v :: more)).
Proof.
  unfold document. destruct (e_yaml (d_y E) text) as [[[] tag value [|[k t v' c] more]]|]; try discriminate.
  intros H. exists tag, value, more. destruct k; try (injection H as <-; reflexivity).
  destruct (String.eqb t "!!null"); [discriminate|]. injection H as <-; reflexivity.
Qed.

Lemma safe_decode_lib K text path :
  (forall x, safe K (inc_ne x)) ->
  (forall v, document E text = Ok (Some v) -> calm E K inc_dt path v) ->
  (forall x, safe (path :: K) (inc_lib x)) ->
  safe K (decode_lib E inc_dt inc_ne inc_lib text path).
Proof.
  intros Ne C L. unfold decode_lib. apply safe_bind_ok; [apply safe_lift, document_fueled|].
  intros [v|] p p' H; [|apply safe_lift; cbv; discriminate]. injection H as H _.
  apply safe_bind; [apply safe_unmarshal_lib; auto|]. intros b. apply safe_bind; [apply safe_new_lib|]. intros l.
  apply safe_put. apply safe_bind; [now apply safe_link_uses|]. intros []; [apply safe_ret|apply safe_lift; cbv; discriminate].
Qed.

Lemma safe_decode_dt K text path :
  (forall x, safe K (inc_ne x)) ->
  (forall v, document E text = Ok (Some v) -> calm E K inc_dt path v) ->
  (forall x, safe (path :: K) (inc_lib x)) ->
  safe K (decode_dt E inc_dt inc_ne inc_lib text path).
Proof.
  intros Ne C L. unfold decode_dt. apply safe_bind_ok.
  { destruct (has_suffix _ _); [apply safe_ret|apply safe_lift, document_fueled]. }
  intros [v|] p p' H; [|apply safe_lift; cbv; discriminate].
  assert (Cv : calm E K inc_dt path v).
  { destruct (has_suffix _ _); injection H as H _; [|auto]. subst v. intros t W Kt Tt.
    exfalso. unfold json_document in W. inversion W as [|? ? ? ? x I W1]; subst; [discriminate Kt|].
    destruct I as [<-|[<-|[]]]; inversion W1 as [|? ? ? ? x I W2]; subst; try destruct I; cbn in Tt; congruence. }
  apply safe_bind; [now apply safe_unmarshal_dt|]. intros r. apply safe_bind; [apply safe_get|]. intros p1.
  apply safe_bind; [apply safe_hp, quick_alloc|]. intros a. apply safe_put.
  apply safe_bind; [now apply safe_link_dt_uses|]. intros. apply safe_ret.
Qed.

Lemma safe_parse_ne K x : safe K (parse_ne E x).
Proof.
  unfold parse_ne. apply safe_bind; [apply safe_get|]. intros p.
  assert (P : forall path, safe K (put_fragment path FNE None)).
  { intros path q Hq. pose proof (has_put K path FNE None q Hq) as H. split; [|eapply has_tail; eauto].
    unfold put_fragment. destruct (oget path (p_frags q)); discriminate. }
  destruct (oget x (p_frags p)) as [[]|]; try (apply safe_lift; cbv; discriminate).
  apply safe_bind; [apply safe_lift|].
  - unfold open_fragment. destruct (e_read _ _); [|cbv; discriminate]. destruct (check_kind _ _ _) as [[]]; cbv; discriminate.
  - intros text. unfold decode_ne. apply safe_bind; [apply safe_lift, document_fueled|]. intros [v|]; [|apply P].
    destruct (y_kind v); try (apply safe_lift; cbv; discriminate). apply safe_bind; [apply safe_example_map|]. intros. apply P.
Qed.
End Fragment.

Lemma parse_dt_eq E n path p : parse_dt E (S n) path p =
  match oget path (p_frags p) with
  | Some (FDT _ _) => match oget path (p_dts p) with Some a => (Ok a, p) | None => (Panic, p) end
  | Some _ => (Panic, p)
  | None => dbind (dlift (open_fragment E path KDataType)) (fun text =>
              decode_dt E (parse_dt E n) (parse_ne E) (parse_lib E n) text path) p
  end.
Proof. cbn [parse_dt]. unfold dbind at 1, dget. destruct (oget path (p_frags p)) as [[]|]; try reflexivity. now destruct (oget path (p_dts p)). Qed.

Lemma parse_lib_eq E n path p : parse_lib E (S n) path p =
  match oget path (p_frags p) with
  | Some (FLib l) => (Ok l, p)
  | Some _ => (Panic, p)
  | None => dbind (dlift (open_fragment E path KLibrary)) (fun text =>
              decode_lib E (parse_dt E n) (parse_ne E) (parse_lib E n) text path) p
  end.
Proof. cbn [parse_lib]. unfold dbind at 1, dget. destruct (oget path (p_frags p)) as [[]|]; reflexivity. Qed.

(** * The nesting of files is bounded *)
Section Bound.
Variable E : denv.
Variable files : list string.
Hypothesis Files : forall path, e_read (d_y E) path <> None -> In path files.
Variable rank : string -> nat.
Hypothesis Rank : forall path v x, file_tree E path v -> mentions v x ->
  e_read (d_y E) (e_join (d_y E) path x) <> None -> rank (e_join (d_y E) path x) < rank path.
Variable R : nat.
Hypothesis Small : forall path, In path files -> rank path <= R.

(** Readable files that are not in the cache yet. *)
Definition left_ (K : list string) : nat :=
  List.length (filter (fun q => negb (existsb (String.eqb q) K)) files).

Lemma left_less K path : In path files -> ~ In path K -> left_ (path :: K) < left_ K.
Proof.
  unfold left_. intros I N. clear Small Files. induction files as [|q l IH]; [destruct I|].
  cbn [filter existsb]. destruct (String.eqb q path) eqn:Eq.
  - apply String.eqb_eq in Eq. subst q. cbn.
    assert (Ek : existsb (String.eqb path) K = false).
    { destruct (existsb (String.eqb path) K) eqn:Ek; [|reflexivity]. apply existsb_exists in Ek. destruct Ek as [z [Iz Ez]].
      apply String.eqb_eq in Ez. subst z. contradiction. }
    rewrite Ek. cbn. apply Nat.lt_succ_r. clear. induction l as [|q l IH]; [auto|]. cbn [filter existsb].
    destruct (String.eqb q path); cbn; destruct (existsb (String.eqb q) K); cbn in *; lia.
  - destruct I as [->|I]; [rewrite String.eqb_refl in Eq; discriminate|]. cbn [orb].
    specialize (IH I). destruct (existsb (String.eqb q) K); cbn in *; lia.
Qed.

Definition width := R + 3.

Lemma open_readable path k text : open_fragment E path k = Ok text -> e_read (d_y E) path = Some text.
Proof. unfold open_fragment. destruct (e_read _ _); [|discriminate]. destruct (check_kind _ _ _) as [[]]; congruence. Qed.

Lemma open_fueled path k : fueled (open_fragment E path k).
Proof. unfold open_fragment. destruct (e_read _ _); [|cbv; discriminate]. destruct (check_kind _ _ _) as [[]]; cbv; discriminate. Qed.

Lemma has_in K q p : has K p -> oget q (p_frags p) = None -> ~ In q K.
Proof. intros H N I. now apply (H q I). Qed.

Lemma unreadable_safe K n x : e_read (d_y E) x = None -> safe K (parse_dt E (S n) x).
Proof.
  intros N. cbn [parse_dt]. apply safe_bind; [apply safe_get|]. intros p.
  destruct (oget x (p_frags p)) as [[]|]; try (apply safe_lift; cbv; discriminate).
  - destruct (oget x (p_dts p)); [apply safe_ret|apply safe_lift; cbv; discriminate].
  - unfold open_fragment. rewrite N. intros q Hq. split; [discriminate|exact Hq].
Qed.

Lemma safe_files n : forall K,
  (forall path, left_ K * width + rank path + 1 <= n -> In path files -> safe K (parse_dt E n path))
  /\ (forall path, left_ K * width + R + 2 <= n -> safe K (parse_lib E n path)).
Proof.
  induction n as [|n IH]; intros K; [split; intros; lia|].
  assert (Calm : forall path v, (forall x, mentions v x -> e_read (d_y E) (e_join (d_y E) path x) <> None ->
       left_ K * width + rank (e_join (d_y E) path x) + 1 <= n) -> 1 <= n -> calm E K (parse_dt E n) path v).
  { intros path v H L t W Kt Tt. destruct (e_read (d_y E) (e_join (d_y E) path (y_value t))) as [text|] eqn:Er.
    - apply (proj1 (IH K)); [|apply Files; congruence]. apply H; [|congruence]. exists t. auto.
    - destruct n as [|n']; [lia|]. now apply unreadable_safe. }
  split.
  - intros path L I. intros p Hp. rewrite parse_dt_eq.
    destruct (oget path (p_frags p)) as [[l|u sh|]|] eqn:Eo.
    1,3: split; [discriminate|exact Hp].
    + destruct (oget path (p_dts p)); split; try discriminate; exact Hp.
    + pose proof (has_in _ _ _ Hp Eo) as N. revert p Hp Eo. intros p Hp Eo.
      refine ((_ : safe K _) p Hp). apply safe_bind_ok; [apply safe_lift, open_fueled|]. intros text q q' Ho. injection Ho as Ho _.
      apply open_readable in Ho. pose proof (left_less K path I N) as Lt.
      assert (W : left_ (path :: K) * width + width <= left_ K * width) by (pose proof (Nat.mul_le_mono_r (S (left_ (path :: K))) (left_ K) width); lia).
      unfold width in W at 2.
      apply safe_decode_dt.
      * apply safe_parse_ne.
      * intros v Hv. apply Calm; [|lia]. intros x M Rd. destruct (document_tree E _ _ Hv) as (tag & value & more & Ey).
        assert (rank (e_join (d_y E) path x) < rank path).
        { apply (Rank path v); auto. exists text, tag, value, more. auto. }
        lia.
      * intros x. apply (proj2 (IH (path :: K))). lia.
  - intros path L. intros p Hp. rewrite parse_lib_eq.
    destruct (oget path (p_frags p)) as [[l|u sh|]|] eqn:Eo; try (split; [discriminate|exact Hp]).
    pose proof (has_in _ _ _ Hp Eo) as N. refine ((_ : safe K _) p Hp).
    apply safe_bind_ok; [apply safe_lift, open_fueled|]. intros text q q' Ho. injection Ho as Ho _.
    apply open_readable in Ho. assert (I : In path files) by (apply Files; congruence). pose proof (left_less K path I N) as Lt.
    assert (W : left_ (path :: K) * width + width <= left_ K * width) by (pose proof (Nat.mul_le_mono_r (S (left_ (path :: K))) (left_ K) width); lia).
    unfold width in W at 2. apply safe_decode_lib.
    + apply safe_parse_ne.
    + intros v Hv. apply Calm; [|lia]. intros x M Rd. assert (In (e_join (d_y E) path x) files) by (apply Files; auto).
      specialize (Small _ H). lia.
    + intros x. apply (proj2 (IH (path :: K))). lia.
Qed.
End Bound.

Lemma rank_bound (rank : string -> nat) l : exists R, forall path, In path l -> rank path <= R.
Proof.
  induction l as [|q l [R IH]]; [exists 0; intros ? []|]. exists (Nat.max (rank q) R).
  intros path [<-|I]; [lia|]. specialize (IH _ I). lia.
Qed.

Lemma decode_fragment_ends E : finite_files E -> no_include_cycle E ->
  exists n, forall m text path p, n <= m -> ended (decode_fragment E m text path p).
Proof.
  intros [files Files] [rank Rank]. destruct (rank_bound rank files) as [R Small].
  exists (left_ files [] * width R + R + 2 + 1). intros m text path p L.
  assert (Hp : has [] p) by (intros ? []).
  assert (Hs : forall K n, left_ files K * width R + R + 2 <= n -> 
     (forall v loc, calm E K (parse_dt E n) loc v) /\ (forall x, safe K (parse_lib E n x))).
  { intros K n Ln. destruct (safe_files E files Files rank Rank R Small n K) as [Hd Hl]. split; [|intros; apply Hl; lia].
    intros v loc t W Kt Tt. destruct (e_read (d_y E) (e_join (d_y E) loc (y_value t))) eqn:Er.
    - assert (I : In (e_join (d_y E) loc (y_value t)) files) by (apply Files; congruence).
      apply Hd; [|exact I]. specialize (Small _ I). lia.
    - destruct n; [lia|]. now apply unreadable_safe. }
  assert (Mono : forall K, left_ files K <= left_ files []).
  { intros K. unfold left_. clear. induction files as [|q l IH]; [auto|]. cbn [filter existsb negb List.length].
    destruct (negb (existsb (String.eqb q) K)); cbn [List.length]; cbn in IH |- *; lia. }
  assert (Lm : forall K, left_ files K * width R + R + 2 <= m).
  { intros K. pose proof (Nat.mul_le_mono_r _ _ (width R) (Mono K)). lia. }
  unfold ended, decode_fragment. destruct (read_head (Rd text 0)) as [[head| | |] ?]; try discriminate.
  destruct (identify_fragment head) as [[]| | |]; try discriminate.
  - refine (proj1 ((_ : safe [] _) p Hp)). apply safe_bind; [|intros; apply safe_ret].
    apply safe_decode_lib; [apply safe_parse_ne|intros; apply (Hs _ _ (Lm _))|intros; apply (Hs _ _ (Lm _))].
  - refine (proj1 ((_ : safe [] _) p Hp)). apply safe_bind; [|intros; apply safe_ret].
    apply safe_decode_dt; [apply safe_parse_ne|intros; apply (Hs _ _ (Lm _))|intros; apply (Hs _ _ (Lm _))].
  - refine (proj1 ((_ : safe [] _) p Hp)). apply safe_bind; [|intros; apply safe_ret].
    unfold decode_ne. apply safe_bind; [apply safe_lift, document_fueled|].
    assert (P : safe [] (put_fragment path FNE None)).
    { intros q Hq. split; [unfold put_fragment; destruct (oget path (p_frags q)); discriminate|intros ? []]. }
    intros [v|]; [|exact P].
    destruct (y_kind v); try (apply safe_lift; cbv; discriminate). apply safe_bind; [apply safe_example_map|]. intros. exact P.
Qed.
