(** Property theorems: which examples are accepted, and the annotations on them
    (C74). *)
From Coq Require Import ZArith List String Bool Ascii Lia.
From Verif Require Import Base Scalars Heap Heap_lemmas Names Yaml Spec_Yaml Yaml_proofs Pipeline Decode Parse Spec_Decode Spec_Example
  Decode_says Decode_read Parse_ends Props_Accept Props_Parse Props_Describe Props_Decode Props_Fresh.
From Verif Require Names_proofs.
Import ListNotations.
Open Scope string_scope.
Open Scope list_scope.
Open Scope nat_scope.

(** ** Names in parentheses *)
Lemma inner_of name : inner ("(" ++ name ++ ")")%string = name.
Proof.
  unfold inner. cbn [append String.length substring].
  assert (L : String.length (name ++ ")") = S (String.length name)).
  { clear. induction name as [|c s IH]; [reflexivity|]. cbn. now rewrite IH. }
  rewrite L. cbn [Nat.sub]. rewrite Nat.sub_0_r. clear L. induction name as [|c s IH]; [reflexivity|]. cbn. now rewrite IH.
Qed.
Lemma annotates_iff key : is_annotation key = true <-> exists name, annotates key name.
Proof.
  unfold is_annotation, annotates. split.
  - destruct key as [|c s]; [discriminate|]. intros H. apply andb_true_iff in H. destruct H as [H1 H2].
    apply Ascii.eqb_eq in H1. subst c. destruct (last_byte (String "(" s)) as [c|] eqn:L; [|discriminate]. apply Ascii.eqb_eq in H2. subst c.
    apply Names_proofs.last_byte_iff in L. destruct L as (q & Q). destruct q as [|c q]; [discriminate Q|]. injection Q as <- ->. now exists q.
  - intros (name & ->). cbn [append]. rewrite (proj2 (Names_proofs.last_byte_iff (String "(" (name ++ ")")) ")"%char)); [reflexivity|].
    now exists (String "(" name).
Qed.
Lemma annotates_inner key name : annotates key name -> inner key = name.
Proof. intros ->. apply inner_of. Qed.

Section Example_.
Variable E : denv.
Variable loc : string.

(** Only the list of annotations may differ. *)
Definition with_exts (p : pst) (es : list ext) : pst :=
  PSt (p_st p) (p_libs p) (p_frags p) (p_dts p) es (p_types p) (p_annots p) (p_todo p) (p_facets p).
Lemma with_same p : with_exts p (p_exts p) = p.
Proof. now destruct p. Qed.

(** An annotation is made exactly when it has a name and a value. *)
Lemma ext_ok key name v p : annotates key name ->
  (fst (make_ext E loc key v p) <> Err /\ fst (make_ext E loc key v p) <> Panic /\ fst (make_ext E loc key v p) <> OutOfFuel
   <-> name <> "" /\ exists d, value_of E loc v d).
Proof.
  intros A. unfold make_ext. rewrite (annotates_inner _ _ A). destruct (String.eqb_spec name "") as [->|N].
  { split; [intros [H _]; now elim H|intros [H _]; now elim H]. }
  rewrite (root_ok E loc v). unfold dbind at 1, dlift. destruct (root_node (d_y E) loc v) as [d| | |] eqn:R; cbn.
  - split; [intros _; split; eauto|intros _; repeat split; discriminate].
  - split; [intros [H _]; now elim H|intros [_ (d & H)]; discriminate H].
  - split; [intros [_ [H _]]; now elim H|intros [_ (d & H)]; discriminate H].
  - split; [intros [_ [_ H]]; now elim H|intros [_ (d & H)]; discriminate H].
Qed.
Lemma ext_made key name v p r p' : annotates key name -> make_ext E loc key v p = (Ok r, p') ->
  exists x, value_of E loc v x /\ p' = with_exts p (p_exts p ++ [Ext name loc x None]).
Proof.
  intros A. unfold make_ext. rewrite (annotates_inner _ _ A). destruct (String.eqb name ""); [discriminate|]. intros H.
  apply dbind_inv in H. destruct H as (x & p1 & H1 & H). apply dlift_inv in H1. destruct H1 as [R ->].
  apply dbind_inv in H. destruct H as (q & p1 & H1 & H). unfold dget in H1. injection H1 as <- <-.
  apply dbind_inv in H. destruct H as (u & p1 & H1 & H). unfold put_ext in H1. injection H1 as _ <-.
  apply dret_inv in H. destruct H as [_ ->]. exists x. split; [now apply root_node_sound|reflexivity].
Qed.

(** One entry. *)
Definition one (key : string) (v : ynode) : D unit :=
  if String.eqb key "strict" then dlift (if d_strict E v then Ok tt else Err)
  else if String.eqb key "displayName" || String.eqb key "description" then dlift (if d_string E v then Ok tt else Err)
  else if is_annotation key then dbind (make_ext E loc key v) (fun _ => dret tt)
  else dret tt.
Lemma not_annotates key name : annotates key name -> key <> "strict" /\ key <> "displayName" /\ key <> "description" /\ key <> "value".
Proof. intros ->. repeat split; discriminate. Qed.
Lemma one_ok key v p : fst (one key v p) = Ok tt <-> beside_ok E loc key v.
Proof.
  unfold one, beside_ok.
  destruct (String.eqb_spec key "strict") as [->|N1].
  { unfold dlift. destruct (d_strict E v); cbn; split; auto; try discriminate.
    - intros _. split; [auto|]. split; [intros [?|?]; discriminate|]. intros name A. now destruct (not_annotates _ _ A).
    - intros [H _]. discriminate (H eq_refl). }
  destruct (String.eqb_spec key "displayName") as [->|N2].
  { cbn [orb]. unfold dlift. destruct (d_string E v); cbn; split; auto; try discriminate.
    - intros _. split; [discriminate|]. split; [auto|]. intros name A. now destruct (not_annotates _ _ A) as (_ & ? & _).
    - intros [_ [H _]]. discriminate (H (or_introl eq_refl)). }
  destruct (String.eqb_spec key "description") as [->|N3].
  { cbn [orb]. unfold dlift. destruct (d_string E v); cbn; split; auto; try discriminate.
    - intros _. split; [discriminate|]. split; [auto|]. intros name A. now destruct (not_annotates _ _ A) as (_ & _ & ? & _).
    - intros [_ [H _]]. discriminate (H (or_intror eq_refl)). }
  cbn [orb]. destruct (is_annotation key) eqn:A.
  - apply annotates_iff in A. destruct A as (name & A). pose proof (ext_ok key name v p A) as X. unfold dbind.
    destruct (make_ext E loc key v p) as [[r| | |] p1]; cbn in X |- *.
    + split; [|reflexivity]. intros _. split; [congruence|]. split; [intros [?|?]; congruence|]. intros name' A'.
      assert (name' = name) as -> by (rewrite <- (annotates_inner _ _ A), <- (annotates_inner _ _ A'); reflexivity). apply X. repeat split; discriminate.
    + split; [discriminate|]. intros (_ & _ & H). destruct (proj2 X (H name A)) as [K _]. now elim K.
    + split; [discriminate|]. intros (_ & _ & H). destruct (proj2 X (H name A)) as (_ & K & _). now elim K.
    + split; [discriminate|]. intros (_ & _ & H). destruct (proj2 X (H name A)) as (_ & _ & K). now elim K.
  - split; [|reflexivity]. intros _. split; [congruence|]. split; [intros [?|?]; congruence|]. intros name A'.
    rewrite (proj2 (annotates_iff key)) in A; [discriminate|eauto].
Qed.
Lemma one_made key v p u p' : one key v p = (Ok u, p') ->
  exists es, p' = with_exts p (p_exts p ++ es)
    /\ forall l es', annotated E loc l es' -> annotated E loc ((key, v) :: l) (es ++ es').
Proof.
  unfold one. intros H.
  assert (No : is_annotation key = false -> p' = p -> exists es, p' = with_exts p (p_exts p ++ es)
    /\ forall l es', annotated E loc l es' -> annotated E loc ((key, v) :: l) (es ++ es')).
  { intros A ->. exists []. rewrite app_nil_r, with_same. split; [reflexivity|]. intros l es' Hl. cbn. apply an_other; auto.
    intros name A'. rewrite (proj2 (annotates_iff key)) in A; [discriminate|eauto]. }
  destruct (String.eqb_spec key "strict") as [->|N1]; [apply dlift_inv in H; destruct H as [_ ->]; now apply No|].
  destruct (String.eqb_spec key "displayName") as [->|N2]; [apply dlift_inv in H; destruct H as [_ ->]; now apply No|].
  destruct (String.eqb_spec key "description") as [->|N3]; [apply dlift_inv in H; destruct H as [_ ->]; now apply No|].
  cbn [orb] in H. destruct (is_annotation key) eqn:A; [|apply dret_inv in H; destruct H as [_ ->]; now apply No].
  clear No. apply annotates_iff in A. destruct A as (name & A). apply dbind_inv in H. destruct H as (r & p1 & H1 & H).
  apply dret_inv in H. destruct H as [_ ->]. destruct (ext_made _ _ _ _ _ _ A H1) as (x & V & ->). exists [Ext name loc x None]. split; [reflexivity|].
  intros l es' Hl. cbn. now apply an_one.
Qed.

(** All of them. *)
Lemma entries_cons k v l : example_entries E loc (k :: v :: l) = dbind (one (y_value k) v) (fun _ => example_entries E loc l).
Proof. reflexivity. Qed.
Definition even_list (l : list ynode) : Prop := Nat.even (List.length l) = true.
Lemma entries_ok l : even_list l -> forall p,
  fst (example_entries E loc l p) = Ok tt <-> forall k v, In (k, v) (pairs l) -> beside_ok E loc k v.
Proof.
  induction l as [| |k v l IH] using pair_induction; intros Ev p.
  - cbn. split; [intros _ k v []|reflexivity].
  - discriminate Ev.
  - rewrite entries_cons. cbn [pairs]. pose proof (one_ok (y_value k) v p) as O. unfold dbind.
    destruct (one (y_value k) v p) as [[[]| | |] p1]; cbn [fst] in O |- *.
    + rewrite IH by exact Ev. split.
      * intros H k' v' [[= <- <-]|J]; [now apply O|now apply H].
      * intros H k' v' J. apply H. now right.
    + split; [discriminate|]. intros H. discriminate (proj2 O (H _ _ (or_introl eq_refl))).
    + split; [discriminate|]. intros H. discriminate (proj2 O (H _ _ (or_introl eq_refl))).
    + split; [discriminate|]. intros H. discriminate (proj2 O (H _ _ (or_introl eq_refl))).
Qed.
Lemma entries_made l : forall p u p', example_entries E loc l p = (Ok u, p') ->
  exists es, annotated E loc (pairs l) es /\ p' = with_exts p (p_exts p ++ es).
Proof.
  induction l as [| |k v l IH] using pair_induction; intros p u p' H.
  - apply dret_inv in H. destruct H as [_ ->]. exists []. split; [constructor|]. now rewrite app_nil_r, with_same.
  - discriminate H.
  - rewrite entries_cons in H. apply dbind_inv in H. destruct H as (w & p1 & H1 & H). destruct (one_made _ _ _ _ _ H1) as (es & -> & Ad).
    destruct (IH _ _ _ H) as (es' & A & ->). exists (es ++ es'). split; [cbn [pairs]; now apply Ad|]. cbn. now rewrite app_assoc.
Qed.

(** ** The value *)
Lemma value_found l x : value_entry l = Ok (Some x) ->
  exists l1 l2, pairs l = l1 ++ ("value", x) :: l2 /\ forall k y, In (k, y) l1 -> k <> "value".
Proof.
  induction l as [| |k v l IH] using pair_induction; cbn [value_entry pairs]; try discriminate.
  destruct (String.eqb_spec (y_value k) "value") as [Q|N].
  - intros [= <-]. exists [], (pairs l). rewrite Q. split; [reflexivity|intros ? ? []].
  - intros H. destruct (IH H) as (l1 & l2 & -> & F). exists ((y_value k, v) :: l1), l2. split; [reflexivity|].
    intros k' y [[= <- <-]|J]; [exact N|now apply (F k' y)].
Qed.
Lemma value_missing l : value_entry l = Ok None -> forall k y, In (k, y) (pairs l) -> k <> "value".
Proof.
  induction l as [| |k v l IH] using pair_induction; cbn [value_entry pairs]; try discriminate; [intros _ ? ? []|].
  destruct (String.eqb_spec (y_value k) "value") as [Q|N]; [discriminate|]. intros H k' y [[= <- <-]|J]; [exact N|now apply (IH H k' y)].
Qed.
Lemma value_even l : even_list l -> exists o, value_entry l = Ok o.
Proof.
  induction l as [| |k v l IH] using pair_induction; intros Ev; cbn [value_entry]; [eauto|discriminate Ev|].
  destruct (String.eqb _ _); [eauto|now apply IH].
Qed.
Lemma split_value {B} (l1 l2 : list (string * B)) x l1' l2' x' : (forall k y, In (k, y) l1 -> k <> "value") -> (forall k y, In (k, y) l1' -> k <> "value") ->
  l1 ++ ("value", x) :: l2 = l1' ++ ("value", x') :: l2' -> x = x'.
Proof.
  revert l1'. induction l1 as [|[k y] l1 IH]; intros [|[k' y'] l1'] F F' Q; cbn in Q.
  - congruence.
  - injection Q as <- <- _. now elim (F' "value" x (or_introl eq_refl)).
  - injection Q as -> -> _. now elim (F "value" x' (or_introl eq_refl)).
  - injection Q as -> -> Q. refine (IH l1' _ _ Q); intros k y J; [apply (F k y)|apply (F' k y)]; now right.
Qed.
Lemma valued_one n x x' : valued n x -> valued n x' -> x = x'.
Proof.
  intros (_ & l1 & l2 & Q & F) (_ & l1' & l2' & Q' & F'). rewrite Q in Q'. exact (split_value _ _ _ _ _ _ F F' Q').
Qed.
Lemma valued_un n x : valued n x -> ~ unvalued n.
Proof.
  intros (K & l1 & l2 & Q & _) U. apply (U K "value" x); [|reflexivity]. rewrite Q. apply in_app_iff. right. now left.
Qed.

(** A mapping has a key for every value. *)
Definition well_formed (n : ynode) : Prop := y_kind n = KMap -> even_list (y_content n).

Lemma example_cases n : well_formed n ->
  (exists x, valued n x /\ example E loc n = fun p => dbind (example_entries E loc (y_content n)) (fun _ => dlift (root_node (d_y E) loc x)) p)
  \/ (unvalued n /\ example E loc n = fun p => dlift (root_node (d_y E) loc n) p).
Proof.
  intros W. unfold example. destruct (y_kind n) eqn:K;
    try (right; split; [intros K'; congruence|reflexivity]).
  destruct (value_even _ (W K)) as ([x|] & V); rewrite V.
  - left. exists x. split; [|reflexivity]. split; [exact K|]. now apply value_found.
  - right. split; [|reflexivity]. intros _. now apply value_missing.
Qed.

Definition returns {A} (r : res A) : Prop := exists x, r = Ok x.
Lemma example_returns n p : well_formed n -> (returns (fst (example E loc n p)) <-> example_ok E loc n).
Proof.
  intros W. unfold example_ok. destruct (example_cases n W) as [(x & V & ->)|[U ->]].
  - pose proof (entries_ok (y_content n) (W (proj1 V)) p) as EO. pose proof (root_ok E loc x) as RO. unfold dbind, dlift. split.
    + intros (d & H). split; [|intros U; now elim (valued_un _ _ V)]. intros x' V'. rewrite (valued_one _ _ _ V' V). clear x' V'.
      destruct (example_entries E loc (y_content n) p) as [[[]| | |] p1]; try discriminate H. cbn [fst] in EO, H. split; [now apply EO|]. apply RO. eauto.
    + intros [H _]. destruct (H x V) as [H1 H2]. apply EO in H1. destruct (example_entries E loc (y_content n) p) as [r p1]. cbn [fst] in H1. subst r.
      cbn [fst]. now apply RO.
  - pose proof (root_ok E loc n) as RO. unfold dlift. cbn [fst]. split.
    + intros H. split; [intros x V; now elim (valued_un _ _ V)|]. intros _. now apply RO.
    + intros [_ H]. apply RO. now apply H.
Qed.
Lemma example_made n p d p' : well_formed n -> example E loc n p = (Ok d, p') ->
  example_of E loc n d /\ exists es, annotations_of E loc n es /\ p' = with_exts p (p_exts p ++ es).
Proof.
  intros W H. split; [exact (example_read _ _ _ _ _ _ H)|]. destruct (example_cases n W) as [(x & V & Q)|[U Q]]; rewrite Q in H.
  - apply dbind_inv in H. destruct H as (u & p1 & H1 & H). apply dlift_inv in H. destruct H as [_ ->].
    destruct (entries_made _ _ _ _ H1) as (es & A & ->). exists es. split; [|reflexivity]. split; [auto|]. intros U. now elim (valued_un _ _ V).
  - apply dlift_inv in H. destruct H as [_ ->]. exists []. split; [|now rewrite app_nil_r, with_same].
    split; [|reflexivity]. intros x V. now elim (valued_un _ _ V).
Qed.

(** ** A mapping of examples *)
Lemma map_returns l : even_list l -> (forall k v, In (k, v) (pairs l) -> well_formed v) -> forall m p,
  returns (fst (example_map E loc l m p)) <-> forall k v, In (k, v) (pairs l) -> example_ok E loc v.
Proof.
  induction l as [| |k v l IH] using pair_induction; intros Ev W m p.
  - cbn. split; [intros _ k v []|]. intros _. now exists m.
  - discriminate Ev.
  - cbn [example_map pairs]. pose proof (example_returns v p (W _ _ (or_introl eq_refl))) as O. unfold dbind.
    destruct (example E loc v p) as [[d| | |] p1]; cbn [fst] in O |- *.
    + rewrite IH; [|exact Ev|intros k' v' J; apply (W k' v'); now right]. split.
      * intros H k' v' [[= <- <-]|J]; [apply O; now exists d|exact (H k' v' J)].
      * intros H k' v' J. apply (H k' v'). now right.
    + split; [intros (x & H); discriminate H|]. intros H. destruct (proj2 O (H _ _ (or_introl eq_refl))) as (x & Hx). discriminate Hx.
    + split; [intros (x & H); discriminate H|]. intros H. destruct (proj2 O (H _ _ (or_introl eq_refl))) as (x & Hx). discriminate Hx.
    + split; [intros (x & H); discriminate H|]. intros H. destruct (proj2 O (H _ _ (or_introl eq_refl))) as (x & Hx). discriminate Hx.
Qed.
Lemma map_made l : (forall k v, In (k, v) (pairs l) -> well_formed v) -> forall m p m' p', example_map E loc l m p = (Ok m', p') ->
  exists es, annotations_in E loc (pairs l) es /\ p' = with_exts p (p_exts p ++ es).
Proof.
  induction l as [| |k v l IH] using pair_induction; intros W m p m' p' H.
  - apply dret_inv in H. destruct H as [_ ->]. exists []. split; [constructor|]. now rewrite app_nil_r, with_same.
  - discriminate H.
  - cbn [example_map] in H. apply dbind_inv in H. destruct H as (d & p1 & H1 & H).
    destruct (example_made v p d p1 (W _ _ (or_introl eq_refl)) H1) as (_ & es & A & ->).
    destruct (IH (fun k' v' J => W k' v' (or_intror J)) _ _ _ _ H) as (es' & A' & ->). exists (es ++ es').
    split; [cbn [pairs]; now constructor|]. cbn. now rewrite app_assoc.
Qed.
End Example_.

(** * C74 *)

(** An example is accepted exactly when it has the required form: with a [value],
    the value is data, [strict], [displayName] and [description] have their types,
    and keys in parentheses are annotations with a name and data; without one, the
    node is data. *)
Theorem C74_accepted : forall E loc n p, well_formed n ->
  ((exists d p', example E loc n p = (Ok d, p')) <-> example_ok E loc n).
Proof.
  intros E loc n p W. rewrite <- (example_returns E loc n p W). unfold returns. destruct (example E loc n p) as [r p1]. cbn. split.
  - intros (d & p' & [= -> ->]). now exists d.
  - intros (d & ->). now exists d, p1.
Qed.
Print Assumptions C74_accepted.

(** An accepted example has the data of its [value], or of the node; its
    annotations are added to those of the model in order, and nothing else
    changes. *)
Theorem C74_made : forall E loc n p d p', well_formed n -> example E loc n p = (Ok d, p') ->
  example_of E loc n d /\ exists es, annotations_of E loc n es /\ p' = with_exts p (p_exts p ++ es).
Proof. exact example_made. Qed.
Print Assumptions C74_made.

(** A mapping of examples: all of them are accepted. *)
Definition mapping_ok (E : denv) (loc : string) (n : ynode) : Prop :=
  forall k v, In (k, v) (pairs (y_content n)) -> example_ok E loc v.
Definition well_formed_map (n : ynode) : Prop :=
  even_list (y_content n) /\ forall k v, In (k, v) (pairs (y_content n)) -> well_formed v.

(** The facet [examples]: not beside [example]; a mapping of examples, or the name
    of a file with named examples. *)
Theorem C74_examples : forall E inc a loc n p b, get_base (heap (p_st p)) a = Some b -> (y_kind n = KMap -> well_formed_map n) ->
  (forall q, p_st (snd (inc q p)) = p_st p) ->
  (fst (decode_examples E inc a loc n p) = Ok tt <->
   b_example b = None /\ ((y_kind n = KMap /\ mapping_ok E loc n)
     \/ (y_kind n = KScalar /\ y_tag n = "!include" /\ fst (inc (e_join (d_y E) loc (y_value n)) p) = Ok tt))).
Proof.
  intros E inc a loc n p b G W Fr. unfold decode_examples. unfold dbind at 1. unfold hp at 1. rewrite (rd_some _ _ _ _ G).
  replace (PSt _ _ _ _ _ _ _ _ _) with p by (destruct p; reflexivity).
  destruct (b_example b) as [e|]; [split; [discriminate|intros [H _]; discriminate H]|].
  assert (U : forall q f, p_st q = p_st p -> fst (hp (upd_base a f) q) = Ok tt).
  { intros q f Q. unfold hp, upd_base. rewrite Q, (bind_ok _ _ _ _ _ (rd_some _ _ _ _ G)). reflexivity. }
  destruct (y_kind n) eqn:K; try (split; [discriminate|intros [_ [[H _]|[H _]]]; discriminate H]).
  - destruct (W eq_refl) as [Ev Wf]. pose proof (map_returns E loc (y_content n) Ev Wf [] p) as M. unfold dbind.
    destruct (example_map E loc (y_content n) [] p) as [[m| | |] p1] eqn:X; cbn [fst] in M |- *.
    + destruct (map_made E loc _ Wf _ _ _ _ X) as (es & _ & ->). rewrite U by reflexivity. split; [|reflexivity]. intros _. split; [reflexivity|]. left.
      split; [reflexivity|]. exact (proj1 M (ex_intro _ m eq_refl)).
    + split; [discriminate|]. intros [_ [[_ H]|[H _]]]; [|discriminate H]. destruct (proj2 M H) as (m & Q). discriminate Q.
    + split; [discriminate|]. intros [_ [[_ H]|[H _]]]; [|discriminate H]. destruct (proj2 M H) as (m & Q). discriminate Q.
    + split; [discriminate|]. intros [_ [[_ H]|[H _]]]; [|discriminate H]. destruct (proj2 M H) as (m & Q). discriminate Q.
  - destruct (String.eqb_spec (y_tag n) "!include") as [T|T].
    + specialize (Fr (e_join (d_y E) loc (y_value n))). unfold dbind. destruct (inc _ p) as [[[]| | |] p1]; cbn [fst snd] in Fr |- *.
      * rewrite U by exact Fr. split; [|reflexivity]. intros _. split; [reflexivity|]. right. now repeat split.
      * split; [discriminate|]. intros [_ [[H _]|(_ & _ & H)]]; discriminate H.
      * split; [discriminate|]. intros [_ [[H _]|(_ & _ & H)]]; discriminate H.
      * split; [discriminate|]. intros [_ [[H _]|(_ & _ & H)]]; discriminate H.
    + split; [discriminate|]. intros [_ [[H _]|(_ & H & _)]]; [discriminate H|contradiction].
Qed.
Print Assumptions C74_examples.

(** A file of named examples: a mapping of examples; its annotations are added to
    those of the model. *)
Theorem C74_named : forall E text path n p, document E text = Ok (Some n) -> (y_kind n = KMap -> well_formed_map n) ->
  (fst (decode_ne E text path p) = Ok tt <-> y_kind n = KMap /\ mapping_ok E path n)
  /\ forall p', decode_ne E text path p = (Ok tt, p') -> p_st p' = p_st p
       /\ exists es, annotations_in E path (pairs (y_content n)) es /\ p_exts p' = p_exts p ++ es.
Proof.
  intros E text path n p Dc W. unfold decode_ne. rewrite Dc. unfold dbind, dlift.
  destruct (y_kind n) eqn:K; try (split; [split; [discriminate|intros [H _]; discriminate H]|intros p' H; discriminate H]).
  destruct (W eq_refl) as [Ev Wf]. pose proof (map_returns E path (y_content n) Ev Wf [] p) as M.
  destruct (example_map E path (y_content n) [] p) as [[m| | |] p1] eqn:X; cbn [fst] in M |- *.
  - destruct (map_made E path _ Wf _ _ _ _ X) as (es & A & ->).
    assert (P : exists p2, put_fragment path FNE None (with_exts p (p_exts p ++ es)) = (Ok tt, p2) /\ p_st p2 = p_st p /\ p_exts p2 = p_exts p ++ es).
    { unfold put_fragment. destruct (oget path _); eexists; repeat split. }
    destruct P as (p2 & -> & P1 & P2). split.
    + split; [|reflexivity]. intros _. split; [reflexivity|]. exact (proj1 M (ex_intro _ m eq_refl)).
    + intros p' [= <-]. split; [exact P1|]. exists es. split; [exact A|exact P2].
  - split; [|intros p' H; discriminate H]. split; [discriminate|]. intros [_ H]. destruct (proj2 M H) as (m & Q). discriminate Q.
  - split; [|intros p' H; discriminate H]. split; [discriminate|]. intros [_ H]. destruct (proj2 M H) as (m & Q). discriminate Q.
  - split; [|intros p' H; discriminate H]. split; [discriminate|]. intros [_ H]. destruct (proj2 M H) as (m & Q). discriminate Q.
Qed.
Print Assumptions C74_named.

(** Parsing: a type of a loaded library never has both [example] and [examples]. *)
Theorem C74_either : forall E n O o1 o2 o3 v text path0 ep p path l lib doc T nd,
  parse_string E n O o1 o2 o3 false v text path0 = (Ok ep, p) ->
  oget path (p_frags p) = Some (FLib l) -> nth_error (p_libs p) l = Some lib ->
  (forall text', (path = path0 /\ text' = text) \/ e_read (d_y E) path = Some text' -> document E text' = Ok (Some doc)) ->
  last_of T (declarations_in "types" doc) = Some nd ->
  last_of "example" (entries nd) = None \/ last_of "examples" (entries nd) = None.
Proof.
  intros E n O o1 o2 o3 v text path0 ep p path l lib doc T nd H Fr Lb Doc Lv.
  assert (S : exists text', ((path = path0 /\ text' = text) \/ e_read (d_y E) path = Some text') /\ fragment_says E p path text' (FLib l)).
  { destruct v; [exact (C62_validated _ _ _ _ _ _ _ _ _ _ H path _ Fr)|exact (C62_as_written _ _ _ _ _ _ _ _ _ _ H path _ Fr)]. }
  destruct S as (text' & Tx & doc' & lib' & D' & Lb' & Ty & _).
  rewrite (Doc _ Tx) in D'. injection D' as <-.
  destruct (filled_last (fun k nd s x => stated E p nd k path x) _ _ _ _ Ty Lv) as (x & _ & R & Rx & HR).
  destruct (HR _ _ _ _ Rx) as (b & _ & D & _). exact (dc_either _ _ _ _ _ _ _ D).
Qed.
Print Assumptions C74_either.

(** ** Cases *)

(** The annotations of an example go to the model with those of its type. *)
Definition d74 (ex : list (string * ynode)) : disk :=
  [("a.raml", lib_head,
    mp [("annotationTypes", mp [("note", sc "string")]);
        ("types", mp [("T", mp (("type", sc "string") :: ex))])])].
Definition ex74 : ynode := mp [("(note)", sc "n"); ("displayName", sc "d"); ("value", sc "v"); ("other", sc "o"); ("strict", sc "true")].
Example C74_case :
  fst (whole (d74 [("example", ex74)]) 40 false true "a.raml") = Ok (ELib 0)
  /\ map e_name (p_exts (snd (whole (d74 [("example", ex74)]) 40 false true "a.raml"))) = ["note"]
  /\ map e_value (p_exts (snd (whole (d74 [("example", ex74)]) 40 false true "a.raml"))) = [GStr "n"]
  /\ fst (whole (d74 [("examples", mp [("x", sc "v"); ("y", ex74)])]) 40 false true "a.raml") = Ok (ELib 0)
  /\ fst (whole (d74 [("examples", mp [("x", sc "v"); ("y", ex74)]); ("example", sc "v")]) 40 false true "a.raml") = Err
  /\ fst (whole (d74 [("example", mp [("()", sc "n"); ("value", sc "v")])]) 40 false true "a.raml") = Err.
Proof. repeat split; vm_compute; reflexivity. Qed.
Example C74_case_ok : example_ok (on_disk []) "a.raml" ex74 /\ well_formed ex74
  /\ ~ example_ok (on_disk []) "a.raml" (mp [("()", sc "n"); ("value", sc "v")]).
Proof.
  split; [|split].
  - refine (proj1 (C74_accepted (on_disk []) "a.raml" ex74 new_raml _) _); [intros _; reflexivity|]. eexists _, _. vm_compute. reflexivity.
  - intros _. reflexivity.
  - intros H. apply (C74_accepted _ _ _ new_raml) in H; [|intros _; reflexivity]. destruct H as (d & p' & H). vm_compute in H. discriminate H.
Qed.
(** Named examples in a file of their own. An annotation there is read, but a file of
    named examples has no references, so it is never resolved. *)
Definition d74n (ex : ynode) : disk :=
  d74 [("examples", inc "e.raml")] ++ [("e.raml", ne_head, mp [("x", sc "v"); ("y", ex)])].
Definition ne74 : ynode := mp [("value", sc "v"); ("(note)", sc "n")].
Example C74_named_case :
  fst (whole (d74n (mp [("value", sc "v"); ("description", sc "n")])) 40 false true "a.raml") = Ok (ELib 0)
  /\ map (fun e => (e_name e, e_loc e)) (p_exts (snd (whole (d74n ne74) 40 false true "a.raml"))) = [("note", "e.raml")]
  /\ fst (whole (d74n ne74) 40 false true "a.raml") = Err
  /\ fst (whole (d74n (mp [("value", sc "v"); ("()", sc "n")])) 40 false true "a.raml") = Err.
Proof. repeat split; vm_compute; reflexivity. Qed.
Example C74_named_ok : well_formed_map (mp [("x", sc "v"); ("y", ne74)]) /\ mapping_ok (on_disk []) "e.raml" (mp [("x", sc "v"); ("y", ne74)]).
Proof.
  split; [split; [reflexivity|]|]; intros k v [[= <- <-]|[[= <- <-]|[]]]; try (intros _; reflexivity).
  - refine (proj1 (C74_accepted (on_disk []) "e.raml" (sc "v") new_raml _) _); [intros _; reflexivity|]. eexists _, _. vm_compute. reflexivity.
  - refine (proj1 (C74_accepted (on_disk []) "e.raml" ne74 new_raml _) _); [intros _; reflexivity|]. eexists _, _. vm_compute. reflexivity.
Qed.
