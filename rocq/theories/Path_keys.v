(** Every location of a parsed model satisfies each property of paths that holds
    for the entry file and that a path keeps when another is resolved against it
    (C72). *)
From Coq Require Import ZArith List String Bool Ascii Lia.
From Verif Require Import Base Scalars Heap Rdt Resolve Names Yaml Yaml_proofs Pipeline Decode Parse Heap_lemmas Parse_ends.
From Verif Require Resolve_proofs Pipeline_proofs Parse_index Parse_ends Locate.
Import ListNotations.
Open Scope string_scope.
Open Scope list_scope.
Open Scope nat_scope.

Notation at_file := Locate.at_file.
Notation stays := Locate.stays.

Section Paths.
Variable E : denv.
Variable Q : string -> Prop.
Hypothesis Jn : forall q v, Q q -> Q (e_join (d_y E) q v).

Definition pathed (p : pst) : Prop :=
  (forall x b, get_base (heap (p_st p)) x = Some b -> Q (b_loc b)) /\ (forall e, In e (p_exts p) -> Q (e_loc e)) /\ (forall q, at_file q p -> Q q).
Definition okL (L : option string) : Prop := match L with Some q => Q q | None => True end.
Definition keeps (L : option string) {A} (m : D A) : Prop :=
  forall p a p', m p = (Ok a, p') -> pathed p -> okL L -> pathed p'.

Lemma keeps_weak L {A} (m : D A) : keeps None m -> keeps L m.
Proof. intros K p a p' H I _. exact (K p a p' H I Logic.I). Qed.
Lemma keeps_join loc v {A} (m : D A) : keeps (Some (e_join (d_y E) loc v)) m -> keeps (Some loc) m.
Proof. intros K p a p' H I J. exact (K p a p' H I (Jn _ _ J)). Qed.
Lemma k_bind L {A B} (m : D A) (f : A -> D B) : keeps L m -> (forall a, keeps L (f a)) -> keeps L (dbind m f).
Proof.
  intros Km Kf p b p' H I J. unfold dbind in H. destruct (m p) as [[a| | |] p1] eqn:Em; try discriminate.
  exact (Kf _ _ _ _ H (Km _ _ _ Em I J) J).
Qed.
Lemma pathed_eq p p' : heap (p_st p') = heap (p_st p) -> p_frags p' = p_frags p -> p_exts p' = p_exts p -> pathed p -> pathed p'.
Proof.
  intros H F X (B & Y & Z). split; [|split].
  - intros x b G. rewrite H in G. exact (B x b G).
  - intros e J. rewrite X in J. exact (Y e J).
  - intros q J. unfold Locate.at_file in J. rewrite F in J. exact (Z q J).
Qed.
Lemma k_aside L {A} (m : D A) : (forall p, Locate.aside p (snd (m p))) -> keeps L m.
Proof.
  intros H p a p' E0 I _. specialize (H p). rewrite E0 in H. cbn [snd] in H. destruct H as (H1 & H2 & H3).
  apply (pathed_eq p); auto. now rewrite H1.
Qed.
Lemma k_lift L {A} (r : res A) : keeps L (dlift r). Proof. apply k_aside. repeat split. Qed.
Lemma k_ret L {A} (a : A) : keeps L (dret a). Proof. apply k_aside. repeat split. Qed.
Lemma k_get L : keeps L dget. Proof. apply k_aside. repeat split. Qed.
Lemma k_todo L a : keeps L (put_todo a). Proof. apply k_aside. repeat split. Qed.
Lemma k_put_facets L a fs : keeps L (put_facets a fs). Proof. apply k_aside. repeat split. Qed.
Lemma k_type L n l a : keeps L (put_type n l a). Proof. apply k_aside. repeat split. Qed.
Lemma k_annot L n l a : keeps L (put_annot n l a). Proof. apply k_aside. repeat split. Qed.
Lemma k_drop L : keeps L drop_todo. Proof. apply k_aside. repeat split. Qed.
Lemma k_new_lib L l : keeps L (new_lib l). Proof. apply k_aside. repeat split. Qed.

Lemma k_hp L {A} (m : M A) : stays L m -> keeps L (hp m).
Proof.
  intros St p a p' H (B & X & Z) J. unfold hp in H. destruct (m (p_st p)) as [r s'] eqn:Em. injection H as -> <-. split; [|split].
  - intros x b' G. cbn [p_st] in G. destruct (St _ _ _ Em x b' G) as [->|(b & G0 & R)]; [exact J|]. rewrite <- R. exact (B x b G0).
  - intros e K. exact (X e K).
  - intros q K. exact (Z q K).
Qed.
(** Reading a type, whose location is all right then. *)
Lemma k_base L {B} a (f : base -> D B) : (forall b, keeps (Some (b_loc b)) (f b)) -> keeps L (dbind (hp (rd get_base a)) f).
Proof.
  intros K p r p' H I _. unfold dbind, hp, rd in H. destruct (get_base (heap (p_st p)) a) as [b|] eqn:G; [|discriminate].
  assert (R : {| p_st := p_st p; p_libs := p_libs p; p_frags := p_frags p; p_dts := p_dts p; p_exts := p_exts p; p_types := p_types p; p_annots := p_annots p; p_todo := p_todo p; p_facets := p_facets p |} = p) by now destruct p.
  rewrite R in H. exact (K b p r p' H I (proj1 I a b G)).
Qed.
Lemma k_read L {A B} (get : list cell -> addr -> option A) a (f : A -> D B) : (forall b, keeps L (f b)) -> keeps L (dbind (hp (rd get a)) f).
Proof. intros K. apply k_bind; [apply k_hp, Locate.s_rd|exact K]. Qed.

Section Shape.
Variable inc_dt : string -> D addr.
Variable inc_ne : string -> D unit.
Hypothesis Dt : forall q, keeps (Some q) (inc_dt q).
Hypothesis Ne : forall q, keeps (Some q) (inc_ne q).

Section At.
Variable loc : string.
Let K {A} (m : D A) := keeps (Some loc) m.

Lemma k_ext e : e_loc e = loc -> K (put_ext e).
Proof.
  intros R p u p' H (B & X & Z) J. injection H as _ <-. split; [|split]; [intros x b G; exact (B x b G)| |intros q Hq; exact (Z q Hq)].
  intros e' J'. cbn [p_exts] in J'. apply in_app_or in J'. destruct J' as [J'|[<-|[]]]; [exact (X e' J')|]. rewrite R. exact J.
Qed.
Lemma k_make_ext k v : K (make_ext E loc k v).
Proof.
  unfold make_ext. destruct (String.eqb _ _); [apply k_lift|]. apply k_bind; [apply k_lift|]. intros x. apply k_bind; [apply k_get|]. intros p.
  apply k_bind; [now apply k_ext|]. intros. apply k_ret.
Qed.
Lemma k_entries l : K (example_entries E loc l).
Proof.
  induction l as [| |k v l IH] using pair_induction; [apply k_ret|apply k_lift|]. cbn [example_entries]. apply k_bind; [|intros; exact IH].
  destruct (String.eqb _ _); [apply k_lift|]. destruct (_ || _); [apply k_lift|].
  destruct (is_annotation _); [|apply k_ret]. apply k_bind; [apply k_make_ext|intros; apply k_ret].
Qed.
Lemma k_example v : K (example E loc v).
Proof.
  unfold example. destruct (y_kind v); try apply k_lift. apply k_bind; [apply k_lift|]. intros [x|]; [|apply k_lift].
  apply k_bind; [apply k_entries|]. intros. apply k_lift.
Qed.
Lemma k_example_map l : forall m, K (example_map E loc l m).
Proof.
  induction l as [| |k v l IH] using pair_induction; intros m; [apply k_ret|apply k_lift|].
  cbn [example_map]. apply k_bind; [apply k_example|]. intros. apply IH.
Qed.

Section Rec.
Variable rec : ynode -> string -> string -> D addr.
Hypothesis Rec : forall v name, K (rec v name loc).

Lemma k_custom a k v : K (custom_facet E a loc k v).
Proof.
  unfold custom_facet. apply k_bind; [apply k_lift|]. intros x. apply k_hp. apply Locate.s_bind; [apply Locate.s_rd|]. intros b. apply Locate.s_bind; [apply Locate.s_rd|]. intros m.
  apply Locate.s_write_box. discriminate.
Qed.
Lemma k_own_facet {F} a k v (r : res (option F)) mk : K (own_facet E a loc k v r mk).
Proof. unfold own_facet. apply k_bind; [apply k_lift|]. intros [f|]; [apply k_hp; now apply Locate.s_upd|apply k_custom]. Qed.
Lemma k_own a g f : K (own_props a g f).
Proof.
  unfold own_props. apply k_hp. apply Locate.s_bind; [apply Locate.s_rd|]. intros b. destruct (b_shape b) as [[]|]; try apply Locate.s_panic.
  destruct (g f0); [apply Locate.s_ret|]. apply Locate.s_bind; [now apply Locate.s_alloc|]. intros m. apply Locate.s_bind; [now apply Locate.s_upd|]. intros. apply Locate.s_ret.
Qed.
Lemma k_property k v : K (property rec loc k v).
Proof.
  unfold property. destruct (chomp_optional k) as [name opt]. apply k_bind; [apply Rec|]. intros x.
  apply k_read. intros xb. destruct (make_property _ _ _ _); [apply k_ret|apply k_lift].
Qed.
Lemma k_one_property a k v : K (one_property E rec a loc k v).
Proof.
  unfold one_property. destruct (chomp_optional k) as [name opt]. destruct (is_pattern_name name).
  - apply k_bind; [apply k_own|]. intros m. apply k_bind; [apply Rec|]. intros x. apply k_read. intros xb.
    apply k_bind; [apply k_lift|]. intros [|]; [apply k_lift|apply k_hp, Locate.s_props].
  - apply k_bind; [apply k_own|]. intros m. apply k_bind; [apply k_property|]. intros pr. apply k_hp, Locate.s_props.
Qed.
Lemma k_properties a l : K (properties E rec a loc l).
Proof.
  induction l as [| |k v l IH] using pair_induction; [apply k_ret|apply k_ret|].
  cbn [properties]. apply k_bind; [apply k_one_property|]. intros. exact IH.
Qed.
Lemma k_facet a k v : K (facet E rec a loc k v).
Proof.
  unfold facet. apply k_read. intros b. destruct (b_shape b) as [[]|]; try apply k_custom; try apply k_ret; try apply k_own_facet.
  - destruct (String.eqb _ _); [|apply k_own_facet]. apply k_bind; [apply Rec|]. intros. apply k_hp, Locate.s_arr.
  - destruct (String.eqb _ _); [|apply k_own_facet]. destruct (negb _); [apply k_lift|apply k_properties].
Qed.
Lemma k_facets_loop a l : K (facets E rec a loc l).
Proof. induction l as [|[k v] l IH]; [apply k_ret|]. cbn [facets]. apply k_bind; [apply k_facet|]. intros. exact IH. Qed.
Lemma k_defs m l : K (facet_defs rec m loc l).
Proof.
  induction l as [| |k v l IH] using pair_induction; [apply k_ret|apply k_lift|]. cbn [facet_defs]. apply k_bind; [apply k_property|]. intros pr.
  apply k_bind; [apply k_hp, Locate.s_props|]. intros. exact IH.
Qed.
Lemma k_examples a v : K (decode_examples E inc_ne a loc v).
Proof.
  unfold decode_examples. apply k_read. intros b. destruct (b_example b); [apply k_lift|]. destruct (y_kind v); try (apply k_lift).
  - apply k_bind; [apply k_example_map|]. intros. apply k_hp; now apply Locate.s_upd.
  - destruct (String.eqb (y_tag v) "!include"); [|apply k_lift]. apply k_bind; [eapply keeps_join, Ne|]. intros. apply k_hp; now apply Locate.s_upd.
Qed.
Lemma k_one_example a v : K (decode_example E a loc v).
Proof.
  unfold decode_example. apply k_read. intros b. destruct (b_examples b); [apply k_lift|]. apply k_bind; [apply k_example|]. intros. apply k_hp; now apply Locate.s_upd.
Qed.
Lemma k_entry a k v : K (entry E inc_ne rec a loc k v).
Proof.
  unfold entry. repeat (match goal with |- K (if ?b then _ else _) => destruct b end).
  all: try (apply k_bind; [apply k_lift|intros; apply k_hp; now apply Locate.s_upd]).
  - apply k_bind; [apply k_hp; now apply Locate.s_alloc|]. intros m. apply k_bind; [apply k_hp; now apply Locate.s_upd|]. intros. apply k_defs.
  - apply k_one_example.
  - apply k_examples.
  - apply k_ret.
  - apply k_bind; [apply k_make_ext|]. intros x. apply k_read. intros. apply k_hp; now apply Locate.s_upd.
Qed.
Lemma k_decode_entries a l : forall t fs, K (decode_entries E inc_ne rec a loc l t fs).
Proof.
  induction l as [| |k v l IH] using pair_induction; intros t fs; [apply k_ret|apply k_lift|].
  cbn [decode_entries]. destruct (String.eqb _ _); [apply IH|]. destruct (known_key _); [|apply IH]. apply k_bind; [apply k_entry|intros; apply IH].
Qed.
Lemma k_decode a v : K (decode E inc_ne rec a loc v).
Proof.
  unfold decode. destruct (y_kind v); try (apply k_lift); try apply k_ret. apply k_bind; [apply k_decode_entries|]. intros. apply k_ret.
Qed.
Lemma k_parents name l : K (parents rec name loc l).
Proof.
  induction l as [|v l IH]; [apply k_ret|]. cbn [parents]. destruct (y_kind v); try (apply k_lift). destruct (String.eqb _ _); [apply k_lift|].
  apply k_bind; [apply Rec|]. intros. apply k_bind; [exact IH|]. intros. apply k_ret.
Qed.
Lemma k_shape_type a name t fs : K (shape_type E inc_dt rec a name loc t fs).
Proof.
  unfold shape_type. destruct (y_kind t); try (apply k_lift).
  - apply k_bind; [apply k_parents|]. intros. apply k_bind; [apply k_hp; now apply Locate.s_alloc|]. intros.
    apply k_bind; [apply k_hp; now apply Locate.s_upd|]. intros. apply k_ret.
  - destruct (String.eqb (y_tag t) "!!str").
    { destruct (y_value t) as [|c s0].
      - apply k_bind; [apply k_lift|]. intros. apply k_ret.
      - destruct (Ascii.eqb _ _); [|apply k_ret]. apply k_bind; [apply k_hp; now apply Locate.s_upd|]. intros.
        destruct (d_schema _ _); [|apply k_lift]. apply k_bind; [apply k_hp; now apply Locate.s_upd|]. intros. apply k_ret. }
    destruct (String.eqb (y_tag t) "!include").
    { apply k_bind; [eapply keeps_join, Dt|]. intros. apply k_bind; [apply k_hp; now apply Locate.s_upd|]. intros. apply k_ret. }
    destruct (String.eqb (y_tag t) "!!null"); [apply k_ret|apply k_lift].
Qed.
Lemma k_concrete a t fs : K (concrete E rec a loc t fs).
Proof.
  unfold concrete. apply k_bind; [apply k_hp; now apply Locate.s_upd|]. intros. apply k_bind; [apply k_hp, Locate.s_empty|]. intros sh.
  apply k_bind; [apply k_hp; now apply Locate.s_upd|]. intros. destruct sh; try apply k_facets_loop. apply k_put_facets.
Qed.
End Rec.

Lemma k_shape n : forall v name, K (Decode.shape_at E inc_dt inc_ne n v name loc).
Proof.
  induction n as [|n IH]; intros v name; [apply k_lift|]. cbn [Decode.shape_at]. unfold new_shape.
  apply k_bind; [apply k_hp, Locate.s_make_base|]. intros a. apply k_bind; [apply k_decode; exact IH|]. intros tf.
  apply k_bind. { destruct (fst tf); [apply k_shape_type; exact IH|]. apply k_bind; [apply k_lift|]. intros. apply k_ret. }
  intros [ty|]; [|apply k_ret]. apply k_bind; [apply k_concrete; exact IH|]. intros.
  apply k_read. intros b. destruct (b_shape b) as [[]|]; try apply k_ret. apply k_bind; [apply k_todo|]. intros. apply k_ret.
Qed.
Lemma k_shape_yaml v name : K (shape_yaml E inc_dt inc_ne v name loc).
Proof. apply k_shape. Qed.

Lemma k_declarations put l : (forall n a, K (put n loc a)) -> forall m, K (declarations E inc_dt inc_ne loc put l m).
Proof.
  intros P. induction l as [| |k v l IH] using pair_induction; intros m; [apply k_ret|apply k_lift|].
  cbn [declarations]. apply k_bind; [apply k_shape_yaml|]. intros. apply k_bind; [apply P|]. intros. apply IH.
Qed.
Lemma k_declare put v old : (forall n a, K (put n loc a)) -> K (declare E inc_dt inc_ne loc put v old).
Proof. intros P. unfold declare. destruct (String.eqb _ _); [apply k_ret|]. destruct (y_kind v); try (apply k_lift). now apply k_declarations. Qed.
Lemma k_lib_entries l : forall b, K (lib_entries E inc_dt inc_ne loc l b).
Proof.
  induction l as [| |k v l IH] using pair_induction; intros b; [apply k_ret|apply k_lift|]. cbn [lib_entries].
  repeat (match goal with |- K (if ?b then _ else _) => destruct b end).
  - apply k_bind; [apply k_lift|]. intros. apply IH.
  - apply k_bind; [apply k_declare; intros; apply k_type|]. intros. apply IH.
  - apply k_bind; [apply k_declare; intros; apply k_annot|]. intros. apply IH.
  - apply k_bind; [apply k_lift|]. intros. apply IH.
  - apply k_bind; [apply k_make_ext|]. intros. apply IH.
  - apply IH.
Qed.
Lemma k_unmarshal_lib v : K (unmarshal_lib E inc_dt inc_ne loc v).
Proof. unfold unmarshal_lib. destruct (y_kind v); try (apply k_lift). apply k_lib_entries. Qed.
Lemma k_unmarshal_dt v : K (unmarshal_dt E inc_dt inc_ne loc v).
Proof.
  unfold unmarshal_dt. destruct (y_kind v); try (apply k_lift). apply k_bind; [apply k_lift|]. intros [u r].
  apply k_bind; [apply k_shape_yaml|]. intros. apply k_ret.
Qed.
End At.
End Shape.



(** * Files *)

Lemma k_put x f d : keeps (Some x) (put_fragment x f d).
Proof.
  intros p u p' H (B & X & Z) J. unfold put_fragment in H. destruct (oget x (p_frags p)) as [g|] eqn:G; injection H as _ <-; [split; [|split]; assumption|].
  split; [exact B|split; [exact X|]]. intros q Hq. unfold Locate.at_file in Hq. cbn [p_frags] in Hq. rewrite Parse_ends.oget_snoc in Hq.
  destruct (oget q (p_frags p)) eqn:Hp; [apply Z; unfold Locate.at_file; congruence|]. destruct (String.eqb q x) eqn:Qx; [|contradiction].
  apply String.eqb_eq in Qx. now subst.
Qed.
Lemma k_link_lib L l name x : keeps L (link_lib l name x).
Proof. apply k_aside. intros p. unfold link_lib. destruct (nth_error (p_libs p) l); repeat split. Qed.
Lemma k_link_dt L path mine name x : keeps L (link_dt path mine name x).
Proof.
  intros p u p' H I _. unfold link_dt in H. destruct mine; [|injection H as _ <-; exact I].
  destruct (oget path (p_frags p)) as [[l|us sh|]|] eqn:G; injection H as _ <-; try exact I.
  destruct I as (B & X & Z). split; [exact B|split; [exact X|]]. intros q Hq. unfold Locate.at_file in Hq. cbn [p_frags] in Hq.
  destruct (string_dec q path) as [->|N]; [apply Z; unfold Locate.at_file; congruence|].
  rewrite Pipeline_proofs.oget_oset_other in Hq by exact N. exact (Z q Hq).
Qed.

Section Load.
Variables (inc_dt : string -> D addr) (inc_ne : string -> D unit) (inc_lib : string -> D nat).
Hypothesis Dt : forall q, keeps (Some q) (inc_dt q).
Hypothesis Ne : forall q, keeps (Some q) (inc_ne q).
Hypothesis Ld : forall q, keeps (Some q) (inc_lib q).

Lemma k_link_uses path l m : Q path -> forall p p', link_uses E inc_lib path l m p = (Ok true, p') -> pathed p -> pathed p'.
Proof.
  intros Qp. induction m as [|[name value] m IH]; intros p p' H I; [injection H as <-; exact I|].
  cbn [link_uses] in H. unfold dbind at 1, dtry in H.
  destruct (inc_lib (e_join (d_y E) path value) p) as [[k| | |] p1] eqn:Ei; try discriminate.
  2:{ unfold dbind in H. destruct (link_lib l name None p1) as [[u| | |] p2]; try discriminate.
      destruct (link_uses _ _ _ _ m p2) as [[ok| | |] p3]; discriminate. }
  unfold dbind at 1 in H. destruct (link_lib l name (Some k) p1) as [[u| | |] p2] eqn:El; try discriminate.
  unfold dbind in H. destruct (link_uses E inc_lib path l m p2) as [[ok| | |] p3] eqn:Em; try discriminate. injection H as -> <-.
  apply (IH _ _ Em). apply (k_link_lib None _ _ _ _ _ _ El); [|exact Logic.I]. apply (Ld _ _ _ _ Ei I). now apply Jn.
Qed.
Lemma k_link_dt_uses path mine m : keeps (Some path) (link_dt_uses E inc_lib path mine m).
Proof.
  induction m as [|[name value] m IH]; cbn [link_dt_uses]; [apply k_ret|]. apply k_bind; [eapply keeps_join, Ld|]. intros l.
  apply k_bind; [apply k_link_dt|]. intros _. exact IH.
Qed.
Lemma k_decode_lib text path : keeps (Some path) (decode_lib E inc_dt inc_ne inc_lib text path).
Proof.
  unfold decode_lib. apply k_bind; [apply k_lift|]. intros [v|]; [|apply k_lift]. apply k_bind; [apply k_unmarshal_lib; assumption|]. intros b.
  apply k_bind; [apply k_new_lib|]. intros l0. apply k_bind; [apply k_put|]. intros _.
  intros p r p' H I J. unfold dbind in H. destruct (link_uses E inc_lib path l0 (pl_uses b) p) as [[ok| | |] p4] eqn:Lk; try discriminate.
  destruct ok; [|discriminate]. injection H as _ <-. exact (k_link_uses _ _ _ J _ _ Lk I).
Qed.
Lemma k_decode_dt text path : keeps (Some path) (decode_dt E inc_dt inc_ne inc_lib text path).
Proof.
  unfold decode_dt. apply k_bind; [destruct (has_suffix _ _); [apply k_ret|apply k_lift]|]. intros [v|]; [|apply k_lift].
  apply k_bind; [apply k_unmarshal_dt; assumption|]. intros x. apply k_bind; [apply k_get|]. intros p0.
  apply k_bind; [apply k_hp; now apply Locate.s_alloc|]. intros ad. apply k_bind; [apply k_put|]. intros _.
  apply k_bind; [apply k_link_dt_uses|]. intros _. apply k_ret.
Qed.
End Load.

Lemma k_decode_ne text path : keeps (Some path) (decode_ne E text path).
Proof.
  unfold decode_ne. apply k_bind; [apply k_lift|]. intros [v|]; [|apply k_put]. destruct (y_kind v); try apply k_lift.
  apply k_bind; [apply k_example_map|]. intros _. apply k_put.
Qed.
Lemma k_parse_ne path : keeps (Some path) (parse_ne E path).
Proof.
  unfold parse_ne. apply k_bind; [apply k_get|]. intros p. destruct (oget path (p_frags p)) as [[]|]; try apply k_lift; try apply k_ret.
  apply k_bind; [apply k_lift|]. intros text. apply k_decode_ne.
Qed.
Lemma k_files n : (forall x, keeps (Some x) (parse_dt E n x)) /\ (forall x, keeps (Some x) (parse_lib E n x)).
Proof.
  induction n as [|n [IHd IHl]]; [split; intros; apply k_lift|]. split; intros x; cbn [parse_dt parse_lib]; (apply k_bind; [apply k_get|]; intros p).
  - destruct (oget x (p_frags p)) as [[]|]; try apply k_lift; [destruct (oget x (p_dts p)); [apply k_ret|apply k_lift]|].
    apply k_bind; [apply k_lift|]. intros text. apply k_decode_dt; [exact IHd|intros; apply k_parse_ne|exact IHl].
  - destruct (oget x (p_frags p)) as [[]|]; try apply k_lift.
    apply k_bind; [apply k_lift|]. intros text. apply k_decode_lib; [exact IHd|intros; apply k_parse_ne|exact IHl].
Qed.

(** * Resolution *)

Section See.
Variables (conc : addr -> string -> option fnodes -> D unit) (rec : addr -> D unit).
Hypothesis Conc : forall a t fs, keeps None (conc a t fs).
Hypothesis Rec : forall a, keeps None (rec a).

Lemma k_fresh name t loc : keeps (Some loc) (fresh_shape conc name t loc).
Proof. unfold fresh_shape. apply k_bind; [apply k_hp, Locate.s_make_base|]. intros a. apply k_bind; [apply keeps_weak, Conc|]. intros. apply k_ret. Qed.
Lemma k_see_ref name a fs : keeps None (see_ref conc rec name a fs).
Proof.
  unfold see_ref. apply k_read. intros b. apply k_bind; [apply k_get|]. intros p. apply k_bind; [apply k_lift|]. intros r. apply k_read. intros rb.
  destruct (Z.eqb _ _); [apply k_lift|]. apply k_bind; [apply Rec|]. intros _. apply k_read. intros rb'. apply k_bind; [apply Conc|]. intros _.
  destruct fs; apply k_hp; [|now apply Locate.s_upd]. apply Locate.s_bind; [apply Locate.s_rd|]. intros b'. apply Locate.s_bind; [apply Locate.s_rd|]. intros l. apply Locate.s_write_box. discriminate.
Qed.
Lemma k_see_members loc (see : typ -> addr -> option fnodes -> D unit) ts : (forall t, In t ts -> forall a fs, keeps None (see t a fs)) ->
  keeps (Some loc) ((fix members (l : list typ) : D (list addr) :=
               match l with
               | [] => dret []
               | t :: l' =>
                   (x <- fresh_shape conc "" "" loc ;;
                   see t x None ;;;
                   r <- members l' ;;
                   dret (x :: r))%D
               end) ts).
Proof.
  induction ts as [|t ts IH]; intros R; [apply k_ret|]. apply k_bind; [apply k_fresh|]. intros x.
  apply k_bind; [apply keeps_weak, R, or_introl, eq_refl|]. intros _. apply k_bind; [apply IH; intros; apply R; now right|]. intros. apply k_ret.
Qed.

Lemma k_see :
  (forall e a fs, keeps None (see_expr conc rec e a fs))
  /\ (forall t a fs, keeps None (see_typ conc rec t a fs))
  /\ (forall at_ a fs, keeps None (see_atom conc rec at_ a fs)).
Proof.
  apply (Resolve_proofs.trees_all (fun e => forall a fs, keeps None (see_expr conc rec e a fs))
    (fun t => forall a fs, keeps None (see_typ conc rec t a fs)) (fun at_ => forall a fs, keeps None (see_atom conc rec at_ a fs))).
  - intros t R a fs. exact (R a fs).
  - intros t1 t2 ts R1 R2 Rs a fs. rewrite Parse_index.see_union_eq. rewrite Forall_forall in Rs.
    apply k_bind; [apply Conc|]. intros _. apply k_base. intros b.
    apply k_bind; [apply k_fresh|]. intros x1. apply k_bind; [apply keeps_weak, R1|]. intros _.
    apply k_bind; [apply k_fresh|]. intros x2. apply k_bind; [apply keeps_weak, R2|]. intros _.
    apply k_bind; [exact (k_see_members (b_loc b) (see_typ conc rec) ts Rs)|]. intros xs.
    apply k_bind; [apply k_hp; now apply Locate.s_alloc|]. intros. apply k_hp, Locate.s_members.
  - intros at_ R a fs. exact (R a fs).
  - intros at_ R a fs. rewrite Parse_index.see_array_eq. apply k_bind; [apply Conc|]. intros _. apply k_base. intros b.
    apply k_bind; [apply k_fresh|]. intros x. apply k_bind; [apply keeps_weak, R|]. intros _. apply k_hp, Locate.s_arr.
  - intros at_ R a fs. rewrite Parse_index.see_optional_eq. apply k_bind; [apply Conc|]. intros _. apply k_base. intros b.
    apply k_bind; [apply k_fresh|]. intros x. apply k_bind; [apply keeps_weak, R|]. intros _.
    apply k_bind; [apply k_fresh|]. intros y. apply k_bind; [apply k_hp; now apply Locate.s_alloc|]. intros. apply k_hp, Locate.s_members.
  - intros t a fs. apply Conc.
  - intros e R a fs. exact (R a fs).
  - intros s o a fs. apply k_see_ref.
Qed.
Lemma k_settle_each l : keeps None (settle_each rec l).
Proof. induction l as [|x l IH]; cbn; [apply k_ret|]. apply k_bind; [apply Rec|]. intros. exact IH. Qed.
End See.

Lemma k_conc m a t fs : keeps None (concrete_yaml E (parse_dt E m) (parse_ne E) a t fs).
Proof.
  unfold concrete_yaml. apply k_base. intros b. apply k_concrete. intros v name.
  apply k_shape_yaml; intros; [apply k_files|apply k_parse_ne].
Qed.
Lemma k_settle m n : forall a, keeps None (settle E m n a).
Proof.
  induction n as [|n IH]; intros a; [apply k_lift|]. cbn [settle]. apply k_read. intros b. apply k_bind; [apply k_get|]. intros p.
  destruct (b_shape b) as [sh|]; [|apply k_lift]. destruct sh; try apply k_ret. destruct (b_link b).
  { apply k_read. intros [ds|]; [|apply k_lift]. apply k_bind; [apply IH|]. intros _. apply k_read. intros. apply k_conc. }
  destruct (String.eqb _ _).
  { apply k_read. intros ps. apply k_bind; [apply k_settle_each, IH|]. intros _. destruct ps; [apply k_lift|]. apply k_read. intros. apply k_conc. }
  destruct (read_type _); [|apply k_lift]. apply k_see; [intros; apply k_conc|exact IH].
Qed.
Lemma settle_all_pathed m n k : forall good p p', settle_all E m n k good p = (Ok true, p') -> good = true /\ (pathed p -> pathed p').
Proof.
  induction k as [|k IH]; intros good p p' H; [discriminate|]. cbn [settle_all] in H. unfold dbind at 1, dget in H.
  destruct (p_todo p) as [|a l]; [injection H as -> <-; auto|].
  unfold dbind at 1, dtry in H. destruct (settle E m n a p) as [[u| | |] p1] eqn:Es; try discriminate;
    unfold dbind, drop_todo in H; apply IH in H; destruct H as [Gd H]; [|discriminate].
  split; [exact Gd|]. intros I. apply H. pose proof (k_settle m n a _ _ _ Es I Logic.I) as I1. revert I1. apply pathed_eq; reflexivity.
Qed.
Lemma resolve_pathed n p u p' : resolve_fragment E n p = (Ok u, p') -> pathed p -> pathed p'.
Proof.
  intros H I. unfold resolve_fragment in H. unfold dbind at 1 in H. destruct (settle_all E n n n true p) as [[ok| | |] p1] eqn:Es; try discriminate.
  destruct ok; [|discriminate]. apply settle_all_pathed in Es. destruct Es as [_ Es]. specialize (Es I). unfold dbind, dret in H.
  destruct (resolve_exts (raml_of p1) (p_exts p1)) as [[good l]| | |] eqn:Ex; try discriminate. destruct good; [|discriminate]. injection H as _ <-.
  apply Locate.resolved_loc in Ex. destruct Es as (B & X & Z). split; [intros x b G; exact (B x b G)|split; [|intros q Hq; exact (Z q Hq)]]. cbn [p_exts]. intros e J.
  assert (J' : In (e_loc e) (map e_loc (p_exts p1))) by (rewrite <- Ex; now apply in_map). apply in_map_iff in J'. destruct J' as (e0 & R & J').
  rewrite <- R. exact (X e0 J').
Qed.
Lemma fragment_pathed n text path ep p : Q path -> decode_fragment E n text path new_raml = (Ok ep, p) -> pathed p.
Proof.
  intros Qp. assert (I0 : pathed new_raml).
  { split; [intros x b G; unfold get_base in G; cbn in G; destruct x; discriminate G|split; [intros e []|intros q Hq; now destruct Hq]]. }
  intros H. unfold decode_fragment in H. destruct (read_head _) as [[head| | |] rd]; try discriminate. destruct (identify_fragment head) as [[]| | |]; try discriminate;
    unfold dbind in H.
  all: match type of H with (match ?m with _ => _ end) = _ => destruct m as [[r| | |] p1] eqn:D; try discriminate; injection H as _ <- end.
  - refine (k_decode_lib _ _ _ _ _ _ text path _ _ _ D I0 Qp); intros; [apply k_files|apply k_parse_ne|apply k_files].
  - refine (k_decode_dt _ _ _ _ _ _ text path _ _ _ D I0 Qp); intros; [apply k_files|apply k_parse_ne|apply k_files].
  - exact (k_decode_ne text path _ _ _ D I0 Qp).
Qed.
End Paths.
