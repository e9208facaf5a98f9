(** Property theorems: which facets are accepted (C66). *)
From Coq Require Import ZArith List String Bool Ascii Lia.
From Verif Require Import Base Scalars Heap Heap_lemmas Names Yaml Spec_Yaml Yaml_proofs Pipeline Decode Spec_Validate Spec_Decode
  Decode_read Decode_facets Props_Validate Props_Parse Props_Describe.
Import ListNotations.
Open Scope string_scope.
Open Scope list_scope.
Open Scope nat_scope.

Section Accept.
Variable E : denv.
Variable loc : string.

Lemma root_ok n : (exists d, value_of E loc n d) <-> exists d, root_node (d_y E) loc n = Ok d.
Proof.
  split; intros (d & H).
  - destruct (root_node_complete (d_y E) loc n d H) as (d' & H' & _). eauto.
  - exists d. now apply root_node_sound.
Qed.

Lemma seq_ok l : (exists ds, Forall2 (value_of E loc) l ds) <-> exists ds, seq_items (root_node (d_y E) loc) l = Ok ds.
Proof.
  induction l as [|x l IH]; cbn [seq_items].
  - split; intros _; exists []; [reflexivity|constructor].
  - split; intros (ds & H).
    + inversion H as [|a b c d' H1 H2]; subst. destruct (proj1 (root_ok x)) as (y & Y); [eauto|].
      destruct (proj1 IH) as (ys & Ys); [eauto|]. rewrite Y, Ys. cbn. eauto.
    + destruct (root_node (d_y E) loc x) as [y| | |] eqn:Y; try discriminate H.
      destruct (proj2 (root_ok x)) as (y' & Y'); [eauto|]. cbn in H.
      destruct (seq_items _ l) as [ys| | |] eqn:Ys; try discriminate H.
      destruct (proj2 IH) as (ys' & Ys'); [eauto|]. exists (y' :: ys'). constructor; auto.
Qed.

Lemma enum_ok n : (exists l, values_of E loc n l) <-> exists e, make_enum E loc n = Ok e.
Proof.
  unfold values_of, make_enum. split.
  - intros (l & K & F). rewrite K. destruct (proj1 (seq_ok (y_content n))) as (ds & H); [eauto|]. rewrite H. cbn. eauto.
  - intros (e & H). destruct (y_kind n); try discriminate H. destruct (seq_items _ _) as [ds| | |] eqn:Q; try discriminate H.
    destruct (proj2 (seq_ok (y_content n))) as (l & F); eauto.
Qed.

Lemma types_ok n : (exists l, strings_of E loc n l) <->
  exists ds, match y_kind n with KSeq => file_types E loc (y_content n) | _ => Err end = Ok ds.
Proof.
  unfold strings_of, values_of. split.
  - intros (l & (K & F) & T). rewrite K. clear K. revert l F T. induction (y_content n) as [|x c IH]; intros l F T; cbn [file_types]; [eauto|].
    inversion F as [|a b c' d' H1 H2]; subst. inversion T as [|a' c'' T1 T2]; subst. rewrite T1. cbn [String.eqb].
    destruct (proj1 (root_ok x)) as (y & Y); [eauto|]. destruct (IH _ H2 T2) as (ys & Ys). rewrite Y, Ys. cbn. eauto.
  - intros (ds & H). destruct (y_kind n); try discriminate H. exists ds.
    destruct (types_read _ _ _ _ H). auto.
Qed.

Lemma or_err_some {A} (o : option A) : o <> None <-> exists x, or_err o = Ok x.
Proof. destruct o; cbn; split; eauto; intros H; try discriminate; destruct H; try discriminate; congruence. Qed.

(** Whether there is a result, with the default branch for [C]. *)
Definition goes {F} (r : res (option F)) (C : Prop) : Prop := exists o, r = Ok o /\ (o = None -> C).
Lemma goes_some {A F} (r : res A) (f : A -> F) C : goes (rbind r (fun x => Ok (Some (f x)))) C <-> exists x, r = Ok x.
Proof.
  unfold goes. destruct r as [x| | |]; cbn; split.
  2:{ intros _. exists (Some (f x)). split; [reflexivity|discriminate]. }
  all: try (intros (o & H & _); discriminate H). all: try (intros (x & H); discriminate H). eauto.
Qed.
Lemma goes_val {F} (x : F) C : goes (Ok (Some x)) C <-> True.
Proof. split; [auto|]. intros _. exists (Some x). split; [reflexivity|discriminate]. Qed.
Lemma goes_if {F} (c : bool) (r : res (option F)) C : goes (if c then r else Err) C <-> c = true /\ goes r C.
Proof. destruct c; split; [auto|tauto|intros (x & H & _); discriminate H|intros [H _]; discriminate H]. Qed.
Lemma goes_none {F} C : goes (Ok (@None F)) C <-> C.
Proof. split; [intros (o & [= <-] & H); auto|]. intros H. exists None. auto. Qed.
Lemma in_names s l : existsb (String.eqb s) l = true <-> In s l.
Proof.
  rewrite existsb_exists. split; [intros (x & I & H); apply String.eqb_eq in H; now subst|].
  intros I. exists s. split; [exact I|apply String.eqb_refl].
Qed.

(** ** The heap part *)
Lemma own_ok {F} a key v (r : res (option F)) mk p b :
  get_base (heap (p_st p)) a = Some b -> (exists m, get_facets (heap (p_st p)) (b_facets b) = Some m) ->
  (fst (own_facet E a loc key v r mk p) = Ok tt <-> goes r (exists d, value_of E loc v d)).
Proof.
  intros Eb (m & Em). unfold own_facet, dbind, dlift. destruct r as [[f|]| | |]; cbn.
  - split; [intros _; exists (Some f); split; [reflexivity|discriminate]|]. intros _.
    unfold hp, upd_base. rewrite (bind_ok _ _ _ _ _ (rd_some _ _ _ _ Eb)). reflexivity.
  - pose proof (root_ok v) as RO. unfold custom_facet, dbind, dlift. destruct (root_node (d_y E) loc v) as [d| | |].
    + split; [intros _; exists None; split; [reflexivity|intros _; apply RO; eauto]|]. intros _. unfold hp.
      rewrite (bind_ok _ _ _ _ _ (rd_some _ _ _ _ Eb)), (bind_ok _ _ _ _ _ (rd_some _ _ _ _ Em)). reflexivity.
    + split; [discriminate|]. intros (o & [= <-] & H). destruct (proj1 RO (H eq_refl)) as (d & Hd). discriminate.
    + split; [discriminate|]. intros (o & [= <-] & H). destruct (proj1 RO (H eq_refl)) as (d & Hd). discriminate.
    + split; [discriminate|]. intros (o & [= <-] & H). destruct (proj1 RO (H eq_refl)) as (d & Hd). discriminate.
  - split; [discriminate|]. intros (o & H & _). discriminate H.
  - split; [discriminate|]. intros (o & H & _). discriminate H.
  - split; [discriminate|]. intros (o & H & _). discriminate H.
Qed.

Lemma custom_ok a key v p b :
  get_base (heap (p_st p)) a = Some b -> (exists m, get_facets (heap (p_st p)) (b_facets b) = Some m) ->
  (fst (custom_facet E a loc key v p) = Ok tt <-> exists d, value_of E loc v d).
Proof.
  intros Eb Em. pose proof (own_ok a key v (Ok (@None unit)) (fun _ => SAny) p b Eb Em) as H.
  unfold own_facet, dbind, dlift in H. cbn in H. rewrite H. apply goes_none.
Qed.


(** ** Kind by kind *)
Lemma whole_ok v : (String.eqb (y_tag v) "!!int" = true /\ exists z, or_err (d_int E (y_value v)) = Ok z) <-> exists z, whole_number E v z.
Proof.
  unfold whole_number. rewrite String.eqb_eq. destruct (d_int E (y_value v)) as [z|]; cbn; split.
  - intros [T _]. eauto.
  - intros (x & T & _). eauto.
  - intros [_ (z & H)]. discriminate H.
  - intros (x & _ & H). discriminate H.
Qed.
Lemma format_ok v l : (existsb (String.eqb (y_value v)) l = true /\ exists x, or_err (d_text E v) = Ok x) <-> In (y_value v) l /\ d_text E v <> None.
Proof. rewrite in_names, or_err_some. reflexivity. Qed.
Lemma pattern_ok v : (String.eqb (y_tag v) "!!str" && d_re E (y_value v))%bool = true <-> y_tag v = "!!str" /\ d_re E (y_value v) = true.
Proof. rewrite andb_true_iff, String.eqb_eq. reflexivity. Qed.

Lemma and_true (P : Prop) : P /\ True <-> P.
Proof. tauto. Qed.

Ltac eor := repeat match goal with K : _ \/ _ |- _ => destruct K end.
Ltac conj_all := repeat match goal with |- _ /\ _ => split end.
(** The key is a name of the kind. *)
Ltac here := split;
  [ intros H; split; [conj_all; intros; eor; first [discriminate|exact H]|intros N; exfalso; apply N; cbn; tauto]
  | intros [H _]; repeat match type of H with _ /\ _ => let H1 := fresh "H" in destruct H as [H1 H] end; tauto ].
(** The key is none of them. *)
Ltac there := rewrite goes_none; split;
  [ intros H; split; [conj_all; intros; eor; contradiction|intros _; exact H]
  | intros [_ H]; apply H; cbn; intros K; eor; subst; try contradiction; congruence ].

Definition C0 v : Prop := exists d, value_of E loc v d.

Lemma int_may key v f : goes (int_facet E loc key v f) (C0 v) <-> facet_may_be E loc (SInt f) key v.
Proof.
  unfold int_facet, facet_may_be.
  destruct (String.eqb_spec key "minimum") as [->|N1]; [rewrite goes_if, goes_some, whole_ok; here|].
  destruct (String.eqb_spec key "maximum") as [->|N2]; [rewrite goes_if, goes_some, whole_ok; here|].
  destruct (String.eqb_spec key "multipleOf") as [->|N3]; [rewrite goes_some, <- or_err_some; here|].
  destruct (String.eqb_spec key "format") as [->|N4]; [rewrite goes_if, goes_some, format_ok; here|].
  destruct (String.eqb_spec key "enum") as [->|N5]; [rewrite goes_some, <- enum_ok; here|]. there.
Qed.
Lemma num_may key v f : goes (num_facet E loc key v f) (C0 v) <-> facet_may_be E loc (SNum f) key v.
Proof.
  unfold num_facet, facet_may_be.
  destruct (String.eqb_spec key "minimum") as [->|N1]; [rewrite goes_some, <- or_err_some; here|].
  destruct (String.eqb_spec key "maximum") as [->|N2]; [rewrite goes_some, <- or_err_some; here|].
  destruct (String.eqb_spec key "format") as [->|N4]; [rewrite goes_if, goes_some, format_ok; here|].
  destruct (String.eqb_spec key "enum") as [->|N5]; [rewrite goes_some, <- enum_ok; here|].
  destruct (String.eqb_spec key "multipleOf") as [->|N3]; [rewrite goes_some, <- or_err_some; here|]. there.
Qed.
Lemma str_may key v f : goes (str_facet E loc key v f) (C0 v) <-> facet_may_be E loc (SStr f) key v.
Proof.
  unfold str_facet, facet_may_be.
  destruct (String.eqb_spec key "minLength") as [->|N1]; [rewrite goes_some, <- or_err_some; here|].
  destruct (String.eqb_spec key "maxLength") as [->|N2]; [rewrite goes_some, <- or_err_some; here|].
  destruct (String.eqb_spec key "pattern") as [->|N3]; [rewrite goes_if, goes_val, pattern_ok, and_true; here|].
  destruct (String.eqb_spec key "enum") as [->|N5]; [rewrite goes_some, <- enum_ok; here|]. there.
Qed.
Lemma file_may key v f : goes (file_facet E loc key v f) (C0 v) <-> facet_may_be E loc (SFile f) key v.
Proof.
  unfold file_facet, facet_may_be.
  destruct (String.eqb_spec key "minLength") as [->|N1]; [rewrite goes_some, <- or_err_some; here|].
  destruct (String.eqb_spec key "maxLength") as [->|N2]; [rewrite goes_some, <- or_err_some; here|].
  destruct (String.eqb_spec key "fileTypes") as [->|N3].
  { assert (X : forall k r, goes (match k with KSeq => rbind r (fun l => Ok (Some (FileF (ff_min f) (ff_max f) (Some l)))) | _ => Err end) (C0 v)
      <-> exists ds, match k with KSeq => r | _ => Err end = Ok ds).
    { intros k r. destruct k; try apply goes_some; (split; [intros (o & H & _); discriminate H|intros (ds & H); discriminate H]). }
    rewrite X, <- types_ok. here. }
  there.
Qed.
Lemma bool_may key v f : goes (bool_facet E loc key v) (C0 v) <-> facet_may_be E loc (SBool f) key v.
Proof.
  unfold bool_facet, facet_may_be. destruct (String.eqb_spec key "enum") as [->|N5]; [rewrite goes_some, <- enum_ok; here|]. there.
Qed.
Lemma time_may key v f : goes (time_facet E key v) (C0 v) <-> facet_may_be E loc (SDateTime f) key v.
Proof.
  unfold time_facet, facet_may_be. destruct (String.eqb_spec key "format") as [->|N5]; [rewrite goes_if, goes_some, format_ok; here|]. there.
Qed.
Lemma arr_may key v f : key <> "items" -> goes (arr_facet E key v f) (C0 v) <-> facet_may_be E loc (SArray f) key v.
Proof.
  intros Nk. unfold arr_facet, facet_may_be.
  destruct (String.eqb_spec key "minItems") as [->|N1]; [rewrite goes_some, <- or_err_some; here|].
  destruct (String.eqb_spec key "maxItems") as [->|N2]; [rewrite goes_some, <- or_err_some; here|].
  destruct (String.eqb_spec key "uniqueItems") as [->|N3]; [rewrite goes_some, <- or_err_some; here|]. there.
Qed.
Lemma obj_may key v f : key <> "properties" -> goes (obj_facet E key v f) (C0 v) <-> facet_may_be E loc (SObject f) key v.
Proof.
  intros Nk. unfold obj_facet, facet_may_be.
  destruct (String.eqb_spec key "additionalProperties") as [->|N1]; [rewrite goes_some, <- or_err_some; here|].
  destruct (String.eqb_spec key "discriminator") as [->|N2]; [rewrite goes_some, <- or_err_some; here|].
  destruct (String.eqb_spec key "discriminatorValue") as [->|N3]; [rewrite goes_some, <- or_err_some; here|].
  destruct (String.eqb_spec key "minProperties") as [->|N4]; [rewrite goes_some, <- or_err_some; here|].
  destruct (String.eqb_spec key "maxProperties") as [->|N5]; [rewrite goes_some, <- or_err_some; here|]. there.
Qed.
End Accept.

(** * C66 *)

(** Reading one facet of a type whose kind is known succeeds exactly when its
    value has the form required of it. *)
Theorem C66_facet : forall E rec a loc key v p b sh,
  get_base (heap (p_st p)) a = Some b -> (exists m, get_facets (heap (p_st p)) (b_facets b) = Some m) ->
  b_shape b = Some sh -> reads_custom sh = true -> key <> "items" -> key <> "properties" ->
  (fst (facet E rec a loc key v p) = Ok tt <-> facet_may_be E loc sh key v).
Proof.
  intros E rec a loc key v p b sh Eb Em Es Rc Ni Np. unfold facet, dbind, hp at 1. rewrite (rd_some _ _ _ _ Eb). cbn [fst snd].
  replace (PSt _ _ _ _ _ _ _ _ _) with p by (destruct p; reflexivity).
  rewrite Es. destruct sh; try discriminate Rc.
  all: try (rewrite (own_ok E loc a key v _ _ p b Eb Em)).
  all: try (rewrite (custom_ok E loc a key v p b Eb Em)).
  all: first [apply int_may|apply num_may|apply str_may|apply file_may|apply bool_may|apply time_may|idtac].
  all: try (unfold facet_may_be; split; [intros H; split; [exact I|intros _; exact H]|intros [_ H]; apply H; cbn; tauto]).
  - destruct (String.eqb_spec key "items") as [|_]; [contradiction|]. rewrite (own_ok E loc a key v _ _ p b Eb Em). now apply arr_may.
  - destruct (String.eqb_spec key "properties") as [|_]; [contradiction|]. rewrite (own_ok E loc a key v _ _ p b Eb Em). now apply obj_may.
Qed.
Print Assumptions C66_facet.

(** ** All the facets of a declaration *)

(** The type is there, of the given kind, with a table of custom facets. *)
Definition ready (p : pst) (a : addr) (sh : shape) : Prop :=
  exists b sh', get_base (heap (p_st p)) a = Some b /\ (exists m, get_facets (heap (p_st p)) (b_facets b) = Some m)
    /\ b_shape b = Some sh' /\ kind_name sh' = kind_name sh /\ reads_custom sh' = true.

Lemma may_kind E loc sh sh' key v : kind_name sh' = kind_name sh -> reads_custom sh' = true -> (facet_may_be E loc sh' key v <-> facet_may_be E loc sh key v).
Proof. intros K R. destruct sh', sh; try discriminate K; try discriminate R; reflexivity. Qed.

Lemma ready_shape p a b m sh sh' : get_base (heap (p_st p)) a = Some b -> get_facets (heap (p_st p)) (b_facets b) = Some m ->
  kind_name sh' = kind_name sh -> reads_custom sh' = true ->
  ready (snd (hp (upd_base a (set_shape (Some sh'))) p)) a sh.
Proof.
  intros Eb Em K R. unfold hp, upd_base. rewrite (bind_ok _ _ _ _ _ (rd_some _ _ _ _ Eb)). cbn.
  exists (set_shape (Some sh') b), sh'. apply get_base_nth in Eb. apply get_facets_nth in Em.
  split; [apply get_base_nth; apply nth_error_upd_lt; apply nth_error_Some; congruence|].
  split; [|auto]. exists m. apply get_facets_nth. cbn. rewrite nth_error_upd_neq; [exact Em|]. intros X. rewrite X in Eb. congruence.
Qed.
Lemma ready_custom E p a loc key v b m sh sh' u p' : get_base (heap (p_st p)) a = Some b -> get_facets (heap (p_st p)) (b_facets b) = Some m ->
  b_shape b = Some sh' -> kind_name sh' = kind_name sh -> reads_custom sh' = true ->
  custom_facet E a loc key v p = (Ok u, p') -> ready p' a sh.
Proof.
  intros Eb Em Es K R. unfold custom_facet, dbind, dlift. destruct (root_node (d_y E) loc v) as [d| | |]; try discriminate.
  unfold hp. rewrite (bind_ok _ _ _ _ _ (rd_some _ _ _ _ Eb)), (bind_ok _ _ _ _ _ (rd_some _ _ _ _ Em)). intros [= _ <-]. cbn.
  exists b, sh'. apply get_base_nth in Eb. apply get_facets_nth in Em.
  split; [apply get_base_nth; cbn; rewrite nth_error_upd_neq; [exact Eb|intros X; rewrite X in Em; congruence]|].
  split; [|auto]. exists (oset key d m). apply get_facets_nth. cbn. apply nth_error_upd_lt. apply nth_error_Some. congruence.
Qed.
Lemma ready_own E {F} p a loc key v b m sh sh' (r : res (option F)) mk u p' : get_base (heap (p_st p)) a = Some b -> get_facets (heap (p_st p)) (b_facets b) = Some m ->
  b_shape b = Some sh' -> kind_name sh' = kind_name sh -> reads_custom sh' = true -> (forall f, kind_name (mk f) = kind_name sh') -> (forall f, reads_custom (mk f) = true) ->
  own_facet E a loc key v r mk p = (Ok u, p') -> ready p' a sh.
Proof.
  intros Eb Em Es K R Km Rm. unfold own_facet, dbind, dlift. destruct r as [[f|]| | |]; try discriminate.
  - intros H. replace p' with (snd (hp (upd_base a (set_shape (Some (mk f)))) p)) by now rewrite H.
    apply (ready_shape p a b m); auto. now rewrite Km.
  - intros H. exact (ready_custom E p a loc key v b m sh sh' u p' Eb Em Es K R H).
Qed.
Lemma facet_ready E rec p a loc key v sh u p' : ready p a sh -> key <> "items" -> key <> "properties" ->
  facet E rec a loc key v p = (Ok u, p') -> ready p' a sh.
Proof.
  intros (b & sh' & Eb & (m & Em) & Es & K & R) Ni Np. unfold facet, dbind, hp at 1. rewrite (rd_some _ _ _ _ Eb).
  replace (PSt _ _ _ _ _ _ _ _ _) with p by (destruct p; reflexivity). rewrite Es.
  pose proof (fun F r mk => @ready_own E F p a loc key v b m sh sh' r mk u p' Eb Em Es K R) as O.
  pose proof (ready_custom E p a loc key v b m sh sh' u p' Eb Em Es K R) as C.
  destruct sh'; try discriminate R; try (apply O; reflexivity); try exact C.
  - destruct (String.eqb_spec key "items") as [|_]; [contradiction|]. apply O; reflexivity.
  - destruct (String.eqb_spec key "properties") as [|_]; [contradiction|]. apply O; reflexivity.
Qed.

(** Reading the facets of a declaration succeeds exactly when every one of them
    has the form required of it: no order of the facets, and no combination of
    them, makes a difference. *)
Theorem C66_facets : forall E rec a loc sh fs p, ready p a sh -> (forall k v, In (k, v) fs -> k <> "items" /\ k <> "properties") ->
  (fst (facets E rec a loc fs p) = Ok tt <-> forall k v, In (k, v) fs -> facet_may_be E loc sh k v).
Proof.
  intros E rec a loc sh fs. induction fs as [|[k v] fs IH]; intros p R N; cbn [facets].
  - split; [intros _ k v []|reflexivity].
  - destruct (N k v (or_introl eq_refl)) as [Ni Np].
    assert (Q : fst (facet E rec a loc k v p) = Ok tt <-> facet_may_be E loc sh k v).
    { destruct R as (b & sh' & Eb & Em & Es & K & R). rewrite (C66_facet E rec a loc k v p b sh' Eb Em Es R Ni Np). now apply may_kind. }
    unfold dbind. destruct (facet E rec a loc k v p) as [r p'] eqn:Ef. cbn [fst] in Q. destruct r as [[]| | |].
    + rewrite (IH p' (facet_ready _ _ _ _ _ _ _ _ _ _ R Ni Np Ef)) by (intros k' v' I; exact (N k' v' (or_intror I))). split.
      * intros H k' v' [[= <- <-]|I]; [now apply Q|now apply H].
      * intros H k' v' I. apply H. now right.
    + split; [discriminate|]. intros H. specialize (proj2 Q (H k v (or_introl eq_refl))). discriminate.
    + split; [discriminate|]. intros H. specialize (proj2 Q (H k v (or_introl eq_refl))). discriminate.
    + split; [discriminate|]. intros H. specialize (proj2 Q (H k v (or_introl eq_refl))). discriminate.
Qed.
Print Assumptions C66_facets.

(** The facets of a union, of an external type or of a reference that is not
    resolved yet are not read at all. *)
Theorem C66_ignored : forall E rec a loc key v p b sh, get_base (heap (p_st p)) a = Some b -> b_shape b = Some sh -> reads_custom sh = false ->
  facet E rec a loc key v p = (Ok tt, p).
Proof.
  intros E rec a loc key v p b sh Eb Es R. unfold facet, dbind, hp. rewrite (rd_some _ _ _ _ Eb). rewrite Es.
  replace (PSt _ _ _ _ _ _ _ _ _) with p by (destruct p; reflexivity). destruct sh; try discriminate R; reflexivity.
Qed.
Print Assumptions C66_ignored.

(** ** Instances *)

(** A number, the format of which may be double but not decimal; a note beside
    it is a custom facet. *)
Definition h66 : pst :=
  PSt (St [CBase (Base 1%Z "T" "a.raml" "number" None None None None None None [] 3 None None 1 2 false false (Some (SNum (NumF None None None None None))));
           CFacets []; CProps []; CSlice []] [0] 1%Z) [] [] [] [] [] [] [] [].
Example C66_ready : ready h66 0 (SNum (NumF None None None None None)).
Proof. eexists _, _. split; [reflexivity|]. split; [exists []; reflexivity|]. repeat split. Qed.
Example C66_case_format : forall rec,
  fst (facets (on_disk []) rec 0 "a.raml" [("format", sc "double"); ("note", sc "x")] h66) = Ok tt
  /\ fst (facets (on_disk []) rec 0 "a.raml" [("note", sc "x"); ("format", sc "decimal")] h66) <> Ok tt.
Proof.
  intros rec. assert (N : forall (k : string) (v : ynode) a b, In (k, v) [a; b] -> fst a <> "items" /\ fst b <> "items" -> fst a <> "properties" /\ fst b <> "properties" -> k <> "items" /\ k <> "properties").
  { intros k v a b [->|[->|[]]] [] []; auto. }
  split.
  - apply (C66_facets (on_disk []) rec 0 "a.raml" (SNum (NumF None None None None None)) _ h66 C66_ready).
    + intros k v I. apply (N k v _ _ I); split; discriminate.
    + intros k v [[= <- <-]|[[= <- <-]|[]]]; cbn.
      * split; [|intros H; exfalso; apply H; cbn; auto 9]. split; [intros [?|[?|?]]; discriminate|]. split; [|discriminate]. intros _. split; [unfold num_formats; cbn; auto 9|discriminate].
      * split; [split; [intros [?|[?|?]]; discriminate|split; discriminate]|]. intros _. apply root_ok. eexists. vm_compute. reflexivity.
  - intros H. assert (K : forall k v, In (k, v) [("note", sc "x"); ("format", sc "decimal")] -> k <> "items" /\ k <> "properties").
    { intros k v I. apply (N k v _ _ I); split; discriminate. }
    destruct (proj1 (C66_facets (on_disk []) rec 0 "a.raml" (SNum (NumF None None None None None)) _ h66 C66_ready K)
      H "format" (sc "decimal") (or_intror (or_introl eq_refl))) as ((_ & F & _) & _).
    destruct (F eq_refl) as [I _]. cbn in I. intuition discriminate.
Qed.
