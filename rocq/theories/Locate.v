(** Every type and every annotation of a parsed model has the location of a file
    that was loaded (C71). *)
From Coq Require Import ZArith List String Bool Ascii Lia.
From Verif Require Import Base Scalars Heap Rdt Resolve Names Yaml Yaml_proofs Pipeline Decode Parse Heap_lemmas Parse_ends.
From Verif Require Resolve_proofs Pipeline_proofs Parse_index Parse_ends.
Import ListNotations.
Open Scope string_scope.
Open Scope list_scope.
Open Scope nat_scope.

Definition at_file (q : string) (p : pst) : Prop := oget q (p_frags p) <> None.
Definition more (p p' : pst) : Prop := forall q, at_file q p -> at_file q p'.

Section Files.
(** The files that are being decoded. *)
Variable S : string -> Prop.
Definition okl (q : string) (p : pst) : Prop := S q \/ at_file q p.
Definition bases_ok (h : list cell) (p : pst) : Prop := forall x b, get_base h x = Some b -> okl (b_loc b) p.
Definition located (p : pst) : Prop := bases_ok (heap (p_st p)) p /\ forall e, In e (p_exts p) -> okl (e_loc e) p.
Definition okL (L : option string) (p : pst) : Prop := match L with Some q => okl q p | None => True end.
Definition keeps (L : option string) {A} (m : D A) : Prop :=
  forall p a p', m p = (Ok a, p') -> located p -> okL L p -> located p' /\ more p p'.

Lemma more_refl p : more p p. Proof. intros q H. exact H. Qed.
Lemma okl_more q p p' : more p p' -> okl q p -> okl q p'. Proof. intros M [H|H]; [now left|right; auto]. Qed.
Lemma okL_more L p p' : more p p' -> okL L p -> okL L p'. Proof. destruct L; [apply okl_more|auto]. Qed.
Lemma keeps_weak L {A} (m : D A) : keeps None m -> keeps L m.
Proof. intros K p a p' H I _. exact (K p a p' H I Logic.I). Qed.
Lemma k_bind_ok L {A B} (m : D A) (f : A -> D B) : keeps L m -> (forall a p p', m p = (Ok a, p') -> keeps L (f a)) -> keeps L (dbind m f).
Proof.
  intros Km Kf p b p' H I J. unfold dbind in H. destruct (m p) as [[a| | |] p1] eqn:Em; try discriminate.
  destruct (Km _ _ _ Em I J) as [I1 M1]. destruct (Kf _ _ _ Em _ _ _ H I1 (okL_more _ _ _ M1 J)) as [I2 M2]. split; [exact I2|]. intros q Hq. auto.
Qed.
Lemma k_bind L {A B} (m : D A) (f : A -> D B) : keeps L m -> (forall a, keeps L (f a)) -> keeps L (dbind m f).
Proof. intros Km Kf. apply k_bind_ok; auto. Qed.

(** What only changes other parts of the state. *)
Definition aside (p p' : pst) : Prop := p_st p' = p_st p /\ p_frags p' = p_frags p /\ p_exts p' = p_exts p.
Lemma located_eq p p' : heap (p_st p') = heap (p_st p) -> p_frags p' = p_frags p -> p_exts p' = p_exts p -> located p -> located p'.
Proof.
  intros H F X [B Y]. split.
  - intros x b G. rewrite H in G. destruct (B x b G) as [K|K]; [now left|right]. unfold at_file. now rewrite F.
  - intros e J. rewrite X in J. destruct (Y e J) as [K|K]; [now left|right]. unfold at_file. now rewrite F.
Qed.
Lemma k_aside L {A} (m : D A) : (forall p, aside p (snd (m p))) -> keeps L m.
Proof.
  intros H p a p' E I _. specialize (H p). rewrite E in H. cbn [snd] in H. destruct H as (H1 & H2 & H3). split.
  - apply (located_eq p); auto. now rewrite H1.
  - intros q Q. unfold at_file in *. now rewrite H2.
Qed.
Lemma k_lift L {A} (r : res A) : keeps L (dlift r). Proof. apply k_aside. repeat split. Qed.
Lemma k_ret L {A} (a : A) : keeps L (dret a). Proof. apply k_aside. repeat split. Qed.
Lemma k_get L : keeps L dget. Proof. apply k_aside. repeat split. Qed.
Lemma k_todo L a : keeps L (put_todo a). Proof. apply k_aside. repeat split. Qed.
Lemma k_put_facets L a fs : keeps L (put_facets a fs). Proof. apply k_aside. repeat split. Qed.
Lemma k_type L n l a : keeps L (put_type n l a). Proof. apply k_aside. repeat split. Qed.
Lemma k_annot L n l a : keeps L (put_annot n l a). Proof. apply k_aside. repeat split. Qed.
Lemma k_drop L : keeps L drop_todo. Proof. apply k_aside. repeat split. Qed.
Lemma k_new_lib L l : keeps L (new_lib l). Proof. apply k_aside. repeat split. Qed.

(** Heap operations that make types at [loc] only. *)
Definition stays (L : option string) {A} (m : M A) : Prop :=
  forall s a s', m s = (Ok a, s') -> forall x b', get_base (heap s') x = Some b' ->
    L = Some (b_loc b') \/ exists b, get_base (heap s) x = Some b /\ b_loc b = b_loc b'.
Lemma k_hp L {A} (m : M A) : stays L m -> keeps L (hp m).
Proof.
  intros St p a p' H [B X] J. unfold hp in H. destruct (m (p_st p)) as [r s'] eqn:Em. injection H as -> <-. split; [|intros q Q; exact Q]. split.
  - intros x b' G. cbn [p_st] in G. destruct (St _ _ _ Em x b' G) as [->|(b & G0 & Q)]; [exact J|]. rewrite <- Q. exact (B x b G0).
  - intros e K. exact (X e K).
Qed.
Lemma s_same L {A} (m : M A) : (forall s, heap (snd (m s)) = heap s) -> stays L m.
Proof. intros H s a s' E x b' G. right. specialize (H s). rewrite E in H. cbn [snd] in H. rewrite H in G. eauto. Qed.
Lemma s_ret L {A} (a : A) : stays L (ret a). Proof. now apply s_same. Qed.
Lemma s_panic L {A} : stays L (@mpanic A). Proof. now apply s_same. Qed.
Lemma s_rd L {A} (get : list cell -> addr -> option A) a : stays L (rd get a).
Proof. apply s_same. intros s. unfold rd. now destruct (get (heap s) a). Qed.
Lemma s_bind L {A B} (m : M A) (f : A -> M B) : stays L m -> (forall a, stays L (f a)) -> stays L (bind m f).
Proof.
  intros Sm Sf s r s' H x b' G. apply bind_inv in H. destruct H as (a & s1 & E1 & H). destruct (Sf _ _ _ _ H x b' G) as [K|(b & G1 & Q)]; [now left|].
  destruct (Sm _ _ _ E1 x b G1) as [K|(b0 & G0 & Q0)]; [left; congruence|]. right. exists b0. split; [exact G0|congruence].
Qed.
Lemma s_alloc L c : match c with CBase b => L = Some (b_loc b) | _ => True end -> stays L (alloc c).
Proof.
  intros Hc s a s' H x b' G. injection H as <- <-. cbn [heap] in G. unfold get_base in G.
  destruct (Nat.lt_ge_cases x (List.length (heap s))) as [Lt|Ge].
  - rewrite nth_error_app1 in G by exact Lt. right. exists b'. split; [exact G|reflexivity].
  - rewrite nth_error_app2 in G by exact Ge. destruct (x - List.length (heap s)) as [|k]; [|destruct k; discriminate G]. cbn in G.
    destruct c; try discriminate G. injection G as ->. now left.
Qed.
Lemma s_write_box L a c : (forall b, c <> CBase b) -> stays L (Heap.write a c).
Proof.
  intros Hc s u s' H x b' G. injection H as _ <-. cbn [heap] in G. right. exists b'. split; [|reflexivity]. unfold get_base in *.
  destruct (Nat.eq_dec a x) as [->|N]; [|now rewrite nth_error_upd_neq in G by exact N].
  destruct (nth_error (heap s) x) as [c0|] eqn:E0.
  - rewrite (nth_error_upd_eq _ _ _ _ E0) in G. destruct c; try discriminate G. now destruct (Hc b).
  - assert (E1 : nth_error (upd x c (heap s)) x = None). { apply nth_error_None. rewrite upd_length. now apply nth_error_None. } rewrite E1 in G. discriminate.
Qed.
Lemma s_write_base L a b b1 s : get_base (heap s) a = Some b -> b_loc b1 = b_loc b ->
  forall u s', Heap.write a (CBase b1) s = (Ok u, s') -> forall x b', get_base (heap s') x = Some b' ->
  L = Some (b_loc b') \/ exists b0, get_base (heap s) x = Some b0 /\ b_loc b0 = b_loc b'.
Proof.
  intros G0 Q u s' H x b' G. injection H as _ <-. cbn [heap] in G. right. unfold get_base in G.
  destruct (Nat.eq_dec a x) as [->|N]; [|rewrite nth_error_upd_neq in G by exact N; exists b'; split; [exact G|reflexivity]].
  apply get_base_nth in G0. rewrite (nth_error_upd_eq _ _ _ _ G0) in G. injection G as <-. exists b. split; [now apply get_base_nth|now symmetry].
Qed.
Lemma s_upd L a f : (forall b, b_loc (f b) = b_loc b) -> stays L (upd_base a f).
Proof.
  intros Hf s u s' H. unfold upd_base in H. apply bind_inv in H. destruct H as (b & s1 & E1 & H). apply rd_ok in E1. destruct E1 as [-> G].
  exact (s_write_base L a b (f b) s G (Hf b) u s' H).
Qed.
Lemma s_arr L a f : stays L (upd_arr a f).
Proof.
  intros s u s' H. unfold upd_arr in H. apply bind_inv in H. destruct H as (b & s1 & E1 & H). apply rd_ok in E1. destruct E1 as [-> G].
  destruct (b_shape b) as [[]|]; try exact (s_ret L tt _ _ _ H).
  refine (s_write_base L a b _ s G _ u s' H). reflexivity.
Qed.
Lemma s_props L m k p : stays L (props_set m k p).
Proof. unfold props_set. apply s_bind; [apply s_rd|]. intros l. apply s_write_box. discriminate. Qed.
Lemma s_make_base name loc : stays (Some loc) (make_base name loc).
Proof.
  unfold make_base. apply s_bind; [now apply s_same|]. intros i. do 3 (apply s_bind; [now apply s_alloc|]; intros ?).
  apply s_bind; [now apply s_alloc|]. intros ?. apply s_bind; [now apply s_same|]. intros. apply s_ret.
Qed.
Lemma s_empty L t : stays L (empty_shape t).
Proof.
  unfold empty_shape. repeat (match goal with |- stays _ (if ?b then _ else _) => destruct b; [first [apply s_ret|apply s_bind; [now apply s_alloc|intros; apply s_ret]]|] end).
  apply s_ret.
Qed.

(** Reading a type, whose location is all right then. *)
Lemma k_base L {B} a (f : base -> D B) : (forall b, keeps (Some (b_loc b)) (f b)) -> keeps L (dbind (hp (rd get_base a)) f).
Proof.
  intros K p r p' H I _. unfold dbind, hp, rd in H. destruct (get_base (heap (p_st p)) a) as [b|] eqn:G; [|discriminate].
  assert (Q : {| p_st := p_st p; p_libs := p_libs p; p_frags := p_frags p; p_dts := p_dts p; p_exts := p_exts p; p_types := p_types p; p_annots := p_annots p; p_todo := p_todo p; p_facets := p_facets p |} = p) by now destruct p.
  rewrite Q in H. exact (K b p r p' H I (proj1 I a b G)).
Qed.
Lemma k_read L {A B} (get : list cell -> addr -> option A) a (f : A -> D B) : (forall b, keeps L (f b)) -> keeps L (dbind (hp (rd get a)) f).
Proof. intros K. apply k_bind; [apply k_hp, s_rd|exact K]. Qed.

Section Shape.
Variable E : denv.
Variable inc_dt : string -> D addr.
Variable inc_ne : string -> D unit.
Hypothesis Dt : forall q, keeps None (inc_dt q).
Hypothesis Ne : forall q, keeps None (inc_ne q).

Section At.
Variable loc : string.
Let K {A} (m : D A) := keeps (Some loc) m.

Lemma k_ext e : e_loc e = loc -> K (put_ext e).
Proof.
  intros Q p u p' H [B X] J. injection H as _ <-. split; [|intros q Hq; exact Hq]. split; [intros x b G; exact (B x b G)|].
  intros e' J'. cbn [p_exts] in J'. apply in_app_or in J'. destruct J' as [J'|[<-|[]]]; [exact (X e' J')|]. rewrite Q. exact J.
Qed.
Lemma k_make_ext k v : K (make_ext E loc k v).
Proof.
  unfold make_ext. destruct (String.eqb _ _); [apply k_lift|]. apply k_bind; [apply k_lift|]. intros x. apply k_bind; [apply k_get|]. intros p.
  apply k_bind; [now apply k_ext|]. intros. apply k_ret.
Qed.
Lemma k_entries l : K (example_entries E loc l).
Proof.
  induction l as [| |k v l IH] using pair_induction; [apply k_ret|apply k_lift|]. cbn [example_entries]. apply k_bind; [|intros; exact IH].
  destruct (String.eqb _ _); [apply k_lift|]. destruct (_ || _); [apply k_lift|].
  destruct (is_annotation _); [|apply k_ret]. apply k_bind; [apply k_make_ext|intros; apply k_ret].
Qed.
Lemma k_example v : K (example E loc v).
Proof.
  unfold example. destruct (y_kind v); try apply k_lift. apply k_bind; [apply k_lift|]. intros [x|]; [|apply k_lift].
  apply k_bind; [apply k_entries|]. intros. apply k_lift.
Qed.
Lemma k_example_map l : forall m, K (example_map E loc l m).
Proof.
  induction l as [| |k v l IH] using pair_induction; intros m; [apply k_ret|apply k_lift|].
  cbn [example_map]. apply k_bind; [apply k_example|]. intros. apply IH.
Qed.

Section Rec.
Variable rec : ynode -> string -> string -> D addr.
Hypothesis Rec : forall v name, K (rec v name loc).

Lemma k_custom a k v : K (custom_facet E a loc k v).
Proof.
  unfold custom_facet. apply k_bind; [apply k_lift|]. intros x. apply k_hp. apply s_bind; [apply s_rd|]. intros b. apply s_bind; [apply s_rd|]. intros m.
  apply s_write_box. discriminate.
Qed.
Lemma k_own_facet {F} a k v (r : res (option F)) mk : K (own_facet E a loc k v r mk).
Proof. unfold own_facet. apply k_bind; [apply k_lift|]. intros [f|]; [apply k_hp; now apply s_upd|apply k_custom]. Qed.
Lemma k_own a g f : K (own_props a g f).
Proof.
  unfold own_props. apply k_hp. apply s_bind; [apply s_rd|]. intros b. destruct (b_shape b) as [[]|]; try apply s_panic.
  destruct (g f0); [apply s_ret|]. apply s_bind; [now apply s_alloc|]. intros m. apply s_bind; [now apply s_upd|]. intros. apply s_ret.
Qed.
Lemma k_property k v : K (property rec loc k v).
Proof.
  unfold property. destruct (chomp_optional k) as [name opt]. apply k_bind; [apply Rec|]. intros x.
  apply k_read. intros xb. destruct (make_property _ _ _ _); [apply k_ret|apply k_lift].
Qed.
Lemma k_one_property a k v : K (one_property E rec a loc k v).
Proof.
  unfold one_property. destruct (chomp_optional k) as [name opt]. destruct (is_pattern_name name).
  - apply k_bind; [apply k_own|]. intros m. apply k_bind; [apply Rec|]. intros x. apply k_read. intros xb.
    apply k_bind; [apply k_lift|]. intros [|]; [apply k_lift|apply k_hp, s_props].
  - apply k_bind; [apply k_own|]. intros m. apply k_bind; [apply k_property|]. intros pr. apply k_hp, s_props.
Qed.
Lemma k_properties a l : K (properties E rec a loc l).
Proof.
  induction l as [| |k v l IH] using pair_induction; [apply k_ret|apply k_ret|].
  cbn [properties]. apply k_bind; [apply k_one_property|]. intros. exact IH.
Qed.
Lemma k_facet a k v : K (facet E rec a loc k v).
Proof.
  unfold facet. apply k_read. intros b. destruct (b_shape b) as [[]|]; try apply k_custom; try apply k_ret; try apply k_own_facet.
  - destruct (String.eqb _ _); [|apply k_own_facet]. apply k_bind; [apply Rec|]. intros. apply k_hp, s_arr.
  - destruct (String.eqb _ _); [|apply k_own_facet]. destruct (negb _); [apply k_lift|apply k_properties].
Qed.
Lemma k_facets_loop a l : K (facets E rec a loc l).
Proof. induction l as [|[k v] l IH]; [apply k_ret|]. cbn [facets]. apply k_bind; [apply k_facet|]. intros. exact IH. Qed.
Lemma k_defs m l : K (facet_defs rec m loc l).
Proof.
  induction l as [| |k v l IH] using pair_induction; [apply k_ret|apply k_lift|]. cbn [facet_defs]. apply k_bind; [apply k_property|]. intros pr.
  apply k_bind; [apply k_hp, s_props|]. intros. exact IH.
Qed.
Lemma k_examples a v : K (decode_examples E inc_ne a loc v).
Proof.
  unfold decode_examples. apply k_read. intros b. destruct (b_example b); [apply k_lift|]. destruct (y_kind v); try (apply k_lift).
  - apply k_bind; [apply k_example_map|]. intros. apply k_hp; now apply s_upd.
  - destruct (String.eqb (y_tag v) "!include"); [|apply k_lift]. apply k_bind; [apply keeps_weak, Ne|]. intros. apply k_hp; now apply s_upd.
Qed.
Lemma k_one_example a v : K (decode_example E a loc v).
Proof.
  unfold decode_example. apply k_read. intros b. destruct (b_examples b); [apply k_lift|]. apply k_bind; [apply k_example|]. intros. apply k_hp; now apply s_upd.
Qed.
Lemma k_entry a k v : K (entry E inc_ne rec a loc k v).
Proof.
  unfold entry. repeat (match goal with |- K (if ?b then _ else _) => destruct b end).
  all: try (apply k_bind; [apply k_lift|intros; apply k_hp; now apply s_upd]).
  - apply k_bind; [apply k_hp; now apply s_alloc|]. intros m. apply k_bind; [apply k_hp; now apply s_upd|]. intros. apply k_defs.
  - apply k_one_example.
  - apply k_examples.
  - apply k_ret.
  - apply k_bind; [apply k_make_ext|]. intros x. apply k_read. intros. apply k_hp; now apply s_upd.
Qed.
Lemma k_decode_entries a l : forall t fs, K (decode_entries E inc_ne rec a loc l t fs).
Proof.
  induction l as [| |k v l IH] using pair_induction; intros t fs; [apply k_ret|apply k_lift|].
  cbn [decode_entries]. destruct (String.eqb _ _); [apply IH|]. destruct (known_key _); [|apply IH]. apply k_bind; [apply k_entry|intros; apply IH].
Qed.
Lemma k_decode a v : K (decode E inc_ne rec a loc v).
Proof.
  unfold decode. destruct (y_kind v); try (apply k_lift); try apply k_ret. apply k_bind; [apply k_decode_entries|]. intros. apply k_ret.
Qed.
Lemma k_parents name l : K (parents rec name loc l).
Proof.
  induction l as [|v l IH]; [apply k_ret|]. cbn [parents]. destruct (y_kind v); try (apply k_lift). destruct (String.eqb _ _); [apply k_lift|].
  apply k_bind; [apply Rec|]. intros. apply k_bind; [exact IH|]. intros. apply k_ret.
Qed.
Lemma k_shape_type a name t fs : K (shape_type E inc_dt rec a name loc t fs).
Proof.
  unfold shape_type. destruct (y_kind t); try (apply k_lift).
  - apply k_bind; [apply k_parents|]. intros. apply k_bind; [apply k_hp; now apply s_alloc|]. intros.
    apply k_bind; [apply k_hp; now apply s_upd|]. intros. apply k_ret.
  - destruct (String.eqb (y_tag t) "!!str").
    { destruct (y_value t) as [|c s0].
      - apply k_bind; [apply k_lift|]. intros. apply k_ret.
      - destruct (Ascii.eqb _ _); [|apply k_ret]. apply k_bind; [apply k_hp; now apply s_upd|]. intros.
        destruct (d_schema _ _); [|apply k_lift]. apply k_bind; [apply k_hp; now apply s_upd|]. intros. apply k_ret. }
    destruct (String.eqb (y_tag t) "!include").
    { apply k_bind; [apply keeps_weak, Dt|]. intros. apply k_bind; [apply k_hp; now apply s_upd|]. intros. apply k_ret. }
    destruct (String.eqb (y_tag t) "!!null"); [apply k_ret|apply k_lift].
Qed.
Lemma k_concrete a t fs : K (concrete E rec a loc t fs).
Proof.
  unfold concrete. apply k_bind; [apply k_hp; now apply s_upd|]. intros. apply k_bind; [apply k_hp, s_empty|]. intros sh.
  apply k_bind; [apply k_hp; now apply s_upd|]. intros. destruct sh; try apply k_facets_loop. apply k_put_facets.
Qed.
End Rec.

Lemma k_shape n : forall v name, K (Decode.shape_at E inc_dt inc_ne n v name loc).
Proof.
  induction n as [|n IH]; intros v name; [apply k_lift|]. cbn [Decode.shape_at]. unfold new_shape.
  apply k_bind; [apply k_hp, s_make_base|]. intros a. apply k_bind; [apply k_decode; exact IH|]. intros tf.
  apply k_bind. { destruct (fst tf); [apply k_shape_type; exact IH|]. apply k_bind; [apply k_lift|]. intros. apply k_ret. }
  intros [ty|]; [|apply k_ret]. apply k_bind; [apply k_concrete; exact IH|]. intros.
  apply k_read. intros b. destruct (b_shape b) as [[]|]; try apply k_ret. apply k_bind; [apply k_todo|]. intros. apply k_ret.
Qed.
Lemma k_shape_yaml v name : K (shape_yaml E inc_dt inc_ne v name loc).
Proof. apply k_shape. Qed.

Lemma k_declarations put l : (forall n a, K (put n loc a)) -> forall m, K (declarations E inc_dt inc_ne loc put l m).
Proof.
  intros P. induction l as [| |k v l IH] using pair_induction; intros m; [apply k_ret|apply k_lift|].
  cbn [declarations]. apply k_bind; [apply k_shape_yaml|]. intros. apply k_bind; [apply P|]. intros. apply IH.
Qed.
Lemma k_declare put v old : (forall n a, K (put n loc a)) -> K (declare E inc_dt inc_ne loc put v old).
Proof. intros P. unfold declare. destruct (String.eqb _ _); [apply k_ret|]. destruct (y_kind v); try (apply k_lift). now apply k_declarations. Qed.
Lemma k_lib_entries l : forall b, K (lib_entries E inc_dt inc_ne loc l b).
Proof.
  induction l as [| |k v l IH] using pair_induction; intros b; [apply k_ret|apply k_lift|]. cbn [lib_entries].
  repeat (match goal with |- K (if ?b then _ else _) => destruct b end).
  - apply k_bind; [apply k_lift|]. intros. apply IH.
  - apply k_bind; [apply k_declare; intros; apply k_type|]. intros. apply IH.
  - apply k_bind; [apply k_declare; intros; apply k_annot|]. intros. apply IH.
  - apply k_bind; [apply k_lift|]. intros. apply IH.
  - apply k_bind; [apply k_make_ext|]. intros. apply IH.
  - apply IH.
Qed.
Lemma k_unmarshal_lib v : K (unmarshal_lib E inc_dt inc_ne loc v).
Proof. unfold unmarshal_lib. destruct (y_kind v); try (apply k_lift). apply k_lib_entries. Qed.
Lemma k_unmarshal_dt v : K (unmarshal_dt E inc_dt inc_ne loc v).
Proof.
  unfold unmarshal_dt. destruct (y_kind v); try (apply k_lift). apply k_bind; [apply k_lift|]. intros [u r].
  apply k_bind; [apply k_shape_yaml|]. intros. apply k_ret.
Qed.
End At.
End Shape.
End Files.

(** * Files *)

Definition plus (S : string -> Prop) (x q : string) : Prop := S q \/ q = x.
Lemma located_plus S x p : located S p -> located (plus S x) p.
Proof.
  intros [B X]. split; [intros y b G; destruct (B y b G) as [H|H]|intros e J; destruct (X e J) as [H|H]]; first [left; now left|now right].
Qed.
Lemma located_file S x p : at_file x p -> located (plus S x) p -> located S p.
Proof.
  intros F [B X]. split; [intros y b G; destruct (B y b G) as [[H|H]|H]|intros e J; destruct (X e J) as [[H|H]|H]]; first [now left|now right|right; now rewrite H].
Qed.

Lemma put_more x f d p u p' : put_fragment x f d p = (Ok u, p') -> more p p' /\ at_file x p' /\ p_st p' = p_st p /\ p_exts p' = p_exts p.
Proof.
  unfold put_fragment. intros H. destruct (oget x (p_frags p)) as [g|] eqn:Q; injection H as _ <-.
  - split; [apply more_refl|]. split; [unfold at_file; congruence|auto].
  - split; [|split; [|auto]]; unfold more, at_file; cbn [p_frags].
    + intros q Hq. rewrite Parse_ends.oget_snoc. destruct (oget q (p_frags p)); [discriminate|contradiction].
    + rewrite Parse_ends.oget_snoc, Q, String.eqb_refl. discriminate.
Qed.
Lemma located_more S p p' : p_st p' = p_st p -> p_exts p' = p_exts p -> more p p' -> located S p -> located S p'.
Proof.
  intros Q1 Q2 M [B X]. split.
  - intros x b G. rewrite Q1 in G. exact (okl_more S _ _ _ M (B x b G)).
  - intros e J. rewrite Q2 in J. exact (okl_more S _ _ _ M (X e J)).
Qed.
Lemma k_put S L x f d : keeps S L (put_fragment x f d).
Proof. intros p u p' H I _. destruct (put_more _ _ _ _ _ _ H) as (M & _ & Q1 & Q2). split; [|exact M]. exact (located_more S p p' Q1 Q2 M I). Qed.
Lemma k_link_lib S L l name x : keeps S L (link_lib l name x).
Proof.
  apply k_aside. intros p. unfold link_lib. destruct (nth_error (p_libs p) l); repeat split.
Qed.
Lemma k_link_dt S L path mine name x : keeps S L (link_dt path mine name x).
Proof.
  intros p u p' H I _. unfold link_dt in H. destruct mine; [|injection H as _ <-; split; [exact I|apply more_refl]].
  destruct (oget path (p_frags p)) as [[l|us sh|]|] eqn:Q; injection H as _ <-; try (split; [exact I|apply more_refl]).
  set (p' := PSt _ _ _ _ _ _ _ _ _).
  assert (M : more p p').
  { intros q Hq. unfold at_file in *. cbn [p_frags p']. destruct (string_dec q path) as [->|N]; [rewrite Pipeline_proofs.oget_oset_same; discriminate|].
    now rewrite Pipeline_proofs.oget_oset_other. }
  split; [|exact M]. now apply (located_more S p p').
Qed.

Section Load.
Variable E : denv.
Variables (inc_dt : string -> D addr) (inc_ne : string -> D unit) (inc_lib : string -> D nat).
Hypothesis Dt : forall S q, keeps S None (inc_dt q).
Hypothesis Ne : forall S q, keeps S None (inc_ne q).
Hypothesis Ld : forall S q, keeps S None (inc_lib q).

Lemma k_link_uses S path l m : forall p p', link_uses E inc_lib path l m p = (Ok true, p') -> located S p -> located S p' /\ more p p'.
Proof.
  induction m as [|[name value] m IH]; intros p p' H I; [injection H as <-; split; [exact I|apply more_refl]|].
  cbn [link_uses] in H. unfold dbind at 1, dtry in H.
  destruct (inc_lib (e_join (d_y E) path value) p) as [[k| | |] p1] eqn:Ei; try discriminate.
  2:{ unfold dbind in H. destruct (link_lib l name None p1) as [[u| | |] p2]; try discriminate.
      destruct (link_uses _ _ _ _ m p2) as [[ok| | |] p3]; discriminate. }
  unfold dbind at 1 in H. destruct (link_lib l name (Some k) p1) as [[u| | |] p2] eqn:El; try discriminate.
  unfold dbind in H. destruct (link_uses E inc_lib path l m p2) as [[ok| | |] p3] eqn:Em; try discriminate. injection H as -> <-.
  destruct (Ld S _ _ _ _ Ei I Logic.I) as [I1 M1]. destruct (k_link_lib S None _ _ _ _ _ _ El I1 Logic.I) as [I2 M2]. destruct (IH _ _ Em I2) as [I3 M3].
  split; [exact I3|]. intros q Hq. auto.
Qed.
Lemma k_link_dt_uses S path mine m : keeps S None (link_dt_uses E inc_lib path mine m).
Proof.
  induction m as [|[name value] m IH]; cbn [link_dt_uses]; [apply k_ret|]. apply k_bind; [apply Ld|]. intros l.
  apply k_bind; [apply k_link_dt|]. intros _. exact IH.
Qed.

(** The file itself counts while it is decoded. *)
Lemma inside S path {A} (m : D A) p a p' : keeps (plus S path) (Some path) m -> m p = (Ok a, p') -> located S p -> located (plus S path) p' /\ more p p'.
Proof. intros K H I. apply (K p a p' H (located_plus S path p I)). left. now right. Qed.

Lemma k_decode_lib S text path : keeps S None (decode_lib E inc_dt inc_ne inc_lib text path).
Proof.
  intros p l p' H I _. unfold decode_lib in H. unfold dbind at 1, dlift in H. destruct (document E text) as [[v|]| | |]; try discriminate.
  unfold dbind at 1 in H. destruct (unmarshal_lib E inc_dt inc_ne path v p) as [[b| | |] p1] eqn:U; try discriminate.
  destruct (inside S path _ _ _ _ (k_unmarshal_lib _ E inc_dt inc_ne (fun q => Dt _ q) (fun q => Ne _ q) path v) U I) as [I1 M1].
  unfold dbind at 1 in H. destruct (new_lib (Lib (pl_types b) (pl_annots b) (unlinked (pl_uses b))) p1) as [[l0| | |] p2] eqn:Nl; try discriminate.
  destruct (k_new_lib (plus S path) None _ _ _ _ Nl I1 Logic.I) as [I2 M2].
  unfold dbind at 1 in H. destruct (put_fragment path (FLib l0) None p2) as [[u| | |] p3] eqn:Pf; try discriminate.
  destruct (k_put (plus S path) None _ _ _ _ _ _ Pf I2 Logic.I) as [I3 M3]. destruct (put_more _ _ _ _ _ _ Pf) as (_ & F3 & _).
  pose proof (located_file _ _ _ F3 I3) as I4.
  unfold dbind in H. destruct (link_uses E inc_lib path l0 (pl_uses b) p3) as [[ok| | |] p4] eqn:Lk; try discriminate.
  destruct ok; [|discriminate]. injection H as _ <-. destruct (k_link_uses S _ _ _ _ _ Lk I4) as [I5 M5]. split; [exact I5|]. intros q Hq. auto.
Qed.
Lemma k_decode_dt S text path : keeps S None (decode_dt E inc_dt inc_ne inc_lib text path).
Proof.
  intros p r p' H I _. unfold decode_dt in H. unfold dbind at 1 in H.
  destruct ((if has_suffix ".json" path then dret (Some (json_document text)) else dlift (document E text)) p) as [[[v|]| | |] p0] eqn:D; try discriminate.
  assert (P0 : p0 = p). { destruct (has_suffix ".json" path); unfold dret, dlift in D; congruence. } subst p0.
  unfold dbind at 1 in H. destruct (unmarshal_dt E inc_dt inc_ne path v p) as [[x| | |] p1] eqn:U; try discriminate.
  destruct (inside S path _ _ _ _ (k_unmarshal_dt _ E inc_dt inc_ne (fun q => Dt _ q) (fun q => Ne _ q) path v) U I) as [I1 M1].
  unfold dbind at 1, dget in H. unfold dbind at 1 in H. destruct (hp (alloc (CDT (Some (snd x)))) p1) as [[ad| | |] p2] eqn:Al; try discriminate.
  destruct (k_hp (plus S path) None _ (s_alloc None (CDT (Some (snd x))) Logic.I) _ _ _ Al I1 Logic.I) as [I2 M2].
  unfold dbind at 1 in H. destruct (put_fragment path (FDT (unlinked (fst x)) (Some (snd x))) (Some ad) p2) as [[u| | |] p3] eqn:Pf; try discriminate.
  destruct (k_put (plus S path) None _ _ _ _ _ _ Pf I2 Logic.I) as [I3 M3]. destruct (put_more _ _ _ _ _ _ Pf) as (_ & F3 & _).
  pose proof (located_file _ _ _ F3 I3) as I4.
  revert H. generalize (match oget path (p_frags p1) with Some _ => false | None => true end). intros mine H.
  unfold dbind in H. destruct (link_dt_uses E inc_lib path mine (fst x) p3) as [[u'| | |] p4] eqn:Lk; try discriminate. injection H as _ <-.
  destruct (k_link_dt_uses S _ _ _ _ _ _ Lk I4 Logic.I) as [I5 M5]. split; [exact I5|]. intros q Hq. auto.
Qed.
End Load.

Lemma k_decode_ne E S text path : keeps S None (decode_ne E text path).
Proof.
  intros p r p' H I _. unfold decode_ne in H. unfold dbind at 1, dlift in H. destruct (document E text) as [[v|]| | |]; try discriminate.
  - destruct (y_kind v); try discriminate. unfold dbind in H. destruct (example_map E path (y_content v) [] p) as [[x| | |] p1] eqn:Em; try discriminate.
    destruct (inside S path _ _ _ _ (k_example_map _ E path (y_content v) []) Em I) as [I1 M1].
    destruct (k_put (plus S path) None _ _ _ _ _ _ H I1 Logic.I) as [I3 M3]. destruct (put_more _ _ _ _ _ _ H) as (_ & F3 & _).
    split; [exact (located_file _ _ _ F3 I3)|]. intros q Hq. auto.
  - exact (k_put S None _ _ _ _ _ _ H I Logic.I).
Qed.
Lemma k_parse_ne E S path : keeps S None (parse_ne E path).
Proof.
  unfold parse_ne. apply k_bind; [apply k_get|]. intros p. destruct (oget path (p_frags p)) as [[]|]; try apply k_lift; try apply k_ret.
  apply k_bind; [apply k_lift|]. intros text. apply k_decode_ne.
Qed.
Lemma k_files E n : (forall S x, keeps S None (parse_dt E n x)) /\ (forall S x, keeps S None (parse_lib E n x)).
Proof.
  induction n as [|n [IHd IHl]]; [split; intros; apply k_lift|]. split; intros S x; cbn [parse_dt parse_lib]; (apply k_bind; [apply k_get|]; intros p).
  - destruct (oget x (p_frags p)) as [[]|]; try apply k_lift; [destruct (oget x (p_dts p)); [apply k_ret|apply k_lift]|].
    apply k_bind; [apply k_lift|]. intros text. apply k_decode_dt; [exact IHd|intros; apply k_parse_ne|exact IHl].
  - destruct (oget x (p_frags p)) as [[]|]; try apply k_lift.
    apply k_bind; [apply k_lift|]. intros text. apply k_decode_lib; [exact IHd|intros; apply k_parse_ne|exact IHl].
Qed.

(** * Resolution *)

Section See.
Variable S : string -> Prop.
Variables (conc : addr -> string -> option fnodes -> D unit) (rec : addr -> D unit).
Hypothesis Conc : forall a t fs, keeps S None (conc a t fs).
Hypothesis Rec : forall a, keeps S None (rec a).

Lemma k_fresh name t loc : keeps S (Some loc) (fresh_shape conc name t loc).
Proof. unfold fresh_shape. apply k_bind; [apply k_hp, s_make_base|]. intros a. apply k_bind; [apply keeps_weak, Conc|]. intros. apply k_ret. Qed.
Lemma k_see_ref name a fs : keeps S None (see_ref conc rec name a fs).
Proof.
  unfold see_ref. apply k_read. intros b. apply k_bind; [apply k_get|]. intros p. apply k_bind; [apply k_lift|]. intros r. apply k_read. intros rb.
  destruct (Z.eqb _ _); [apply k_lift|]. apply k_bind; [apply Rec|]. intros _. apply k_read. intros rb'. apply k_bind; [apply Conc|]. intros _.
  destruct fs; apply k_hp; [|now apply s_upd]. apply s_bind; [apply s_rd|]. intros b'. apply s_bind; [apply s_rd|]. intros l. apply s_write_box. discriminate.
Qed.
Lemma k_see_members loc (see : typ -> addr -> option fnodes -> D unit) ts : (forall t, In t ts -> forall a fs, keeps S None (see t a fs)) ->
  keeps S (Some loc) ((fix members (l : list typ) : D (list addr) :=
               match l with
               | [] => dret []
               | t :: l' =>
                   (x <- fresh_shape conc "" "" loc ;;
                   see t x None ;;;
                   r <- members l' ;;
                   dret (x :: r))%D
               end) ts).
Proof.
  induction ts as [|t ts IH]; intros Q; [apply k_ret|]. apply k_bind; [apply k_fresh|]. intros x.
  apply k_bind; [apply keeps_weak, Q, or_introl, eq_refl|]. intros _. apply k_bind; [apply IH; intros; apply Q; now right|]. intros. apply k_ret.
Qed.
Lemma s_members L a sl : stays L (set_members a sl).
Proof. unfold set_members. apply s_upd. intros b. destruct (b_shape b) as [[]|]; reflexivity. Qed.

Lemma k_see :
  (forall e a fs, keeps S None (see_expr conc rec e a fs))
  /\ (forall t a fs, keeps S None (see_typ conc rec t a fs))
  /\ (forall at_ a fs, keeps S None (see_atom conc rec at_ a fs)).
Proof.
  apply (Resolve_proofs.trees_all (fun e => forall a fs, keeps S None (see_expr conc rec e a fs))
    (fun t => forall a fs, keeps S None (see_typ conc rec t a fs)) (fun at_ => forall a fs, keeps S None (see_atom conc rec at_ a fs))).
  - intros t Q a fs. exact (Q a fs).
  - intros t1 t2 ts Q1 Q2 Qs a fs. rewrite Parse_index.see_union_eq. rewrite Forall_forall in Qs.
    apply k_bind; [apply Conc|]. intros _. apply k_base. intros b.
    apply k_bind; [apply k_fresh|]. intros x1. apply k_bind; [apply keeps_weak, Q1|]. intros _.
    apply k_bind; [apply k_fresh|]. intros x2. apply k_bind; [apply keeps_weak, Q2|]. intros _.
    apply k_bind; [exact (k_see_members (b_loc b) (see_typ conc rec) ts Qs)|]. intros xs.
    apply k_bind; [apply k_hp; now apply s_alloc|]. intros. apply k_hp, s_members.
  - intros at_ Q a fs. exact (Q a fs).
  - intros at_ Q a fs. rewrite Parse_index.see_array_eq. apply k_bind; [apply Conc|]. intros _. apply k_base. intros b.
    apply k_bind; [apply k_fresh|]. intros x. apply k_bind; [apply keeps_weak, Q|]. intros _. apply k_hp, s_arr.
  - intros at_ Q a fs. rewrite Parse_index.see_optional_eq. apply k_bind; [apply Conc|]. intros _. apply k_base. intros b.
    apply k_bind; [apply k_fresh|]. intros x. apply k_bind; [apply keeps_weak, Q|]. intros _.
    apply k_bind; [apply k_fresh|]. intros y. apply k_bind; [apply k_hp; now apply s_alloc|]. intros. apply k_hp, s_members.
  - intros t a fs. apply Conc.
  - intros e Q a fs. exact (Q a fs).
  - intros s o a fs. apply k_see_ref.
Qed.
Lemma k_settle_each l : keeps S None (settle_each rec l).
Proof. induction l as [|x l IH]; cbn; [apply k_ret|]. apply k_bind; [apply Rec|]. intros. exact IH. Qed.
End See.

Lemma k_conc E S m a t fs : keeps S None (concrete_yaml E (parse_dt E m) (parse_ne E) a t fs).
Proof.
  unfold concrete_yaml. apply k_base. intros b. apply k_concrete. intros v name.
  apply k_shape_yaml; intros; [apply k_files|apply k_parse_ne].
Qed.
Lemma k_settle E S m n : forall a, keeps S None (settle E m n a).
Proof.
  induction n as [|n IH]; intros a; [apply k_lift|]. cbn [settle]. apply k_read. intros b. apply k_bind; [apply k_get|]. intros p.
  destruct (b_shape b) as [sh|]; [|apply k_lift]. destruct sh; try apply k_ret. destruct (b_link b).
  { apply k_read. intros [ds|]; [|apply k_lift]. apply k_bind; [apply IH|]. intros _. apply k_read. intros. apply k_conc. }
  destruct (String.eqb _ _).
  { apply k_read. intros ps. apply k_bind; [apply k_settle_each, IH|]. intros _. destruct ps; [apply k_lift|]. apply k_read. intros. apply k_conc. }
  destruct (read_type _); [|apply k_lift]. apply k_see; [intros; apply k_conc|exact IH].
Qed.
Lemma settle_all_located E S m n k : forall good p p', settle_all E m n k good p = (Ok true, p') -> good = true /\ (located S p -> located S p').
Proof.
  induction k as [|k IH]; intros good p p' H; [discriminate|]. cbn [settle_all] in H. unfold dbind at 1, dget in H.
  destruct (p_todo p) as [|a l]; [injection H as -> <-; auto|].
  unfold dbind at 1, dtry in H. destruct (settle E m n a p) as [[u| | |] p1] eqn:Es; try discriminate;
    unfold dbind, drop_todo in H; apply IH in H; destruct H as [Gd H]; [|discriminate].
  split; [exact Gd|]. intros I. apply H. destruct (k_settle E S m n a _ _ _ Es I Logic.I) as [I1 _]. revert I1. apply located_eq; reflexivity.
Qed.

Lemma resolved_loc R l : forall l', resolve_exts R l = Ok (true, l') -> map e_loc l' = map e_loc l.
Proof.
  intros l' H. apply Pipeline_proofs.resolve_exts_declared in H. induction H as [|e e' l0 l1 (_ & Q & _) _ IH]; [reflexivity|]. cbn. now rewrite Q, IH.
Qed.
Lemma resolve_located E n p u p' : resolve_fragment E n p = (Ok u, p') -> located (fun _ => False) p -> located (fun _ => False) p'.
Proof.
  intros H I. unfold resolve_fragment in H. unfold dbind at 1 in H. destruct (settle_all E n n n true p) as [[ok| | |] p1] eqn:Es; try discriminate.
  destruct ok; [|discriminate]. apply (settle_all_located E (fun _ => False)) in Es. destruct Es as [_ Es]. specialize (Es I). unfold dbind, dret in H.
  destruct (resolve_exts (raml_of p1) (p_exts p1)) as [[good l]| | |] eqn:Ex; try discriminate. destruct good; [|discriminate]. injection H as _ <-.
  apply resolved_loc in Ex. destruct Es as [B X]. split; [intros x b G; exact (B x b G)|]. cbn [p_exts]. intros e J.
  assert (J' : In (e_loc e) (map e_loc (p_exts p1))) by (rewrite <- Ex; now apply in_map). apply in_map_iff in J'. destruct J' as (e0 & Q & J').
  rewrite <- Q. exact (X e0 J').
Qed.

Lemma fragment_located E n text path ep p : decode_fragment E n text path new_raml = (Ok ep, p) -> located (fun _ => False) p.
Proof.
  assert (I0 : located (fun _ => False) new_raml). { split; [intros x b G; unfold get_base in G; cbn in G; destruct x; discriminate G|intros e []]. }
  intros H. unfold decode_fragment in H. destruct (read_head _) as [[head| | |] rd]; try discriminate. destruct (identify_fragment head) as [[]| | |]; try discriminate;
    unfold dbind in H.
  all: match type of H with (match ?m with _ => _ end) = _ => destruct m as [[r| | |] p1] eqn:D; try discriminate; injection H as _ <- end.
  - refine (proj1 (k_decode_lib E _ _ _ _ _ _ _ text path _ _ _ D I0 Logic.I)); intros; [apply k_files|apply k_parse_ne|apply k_files].
  - refine (proj1 (k_decode_dt E _ _ _ _ _ _ _ text path _ _ _ D I0 Logic.I)); intros; [apply k_files|apply k_parse_ne|apply k_files].
  - exact (proj1 (k_decode_ne E _ text path _ _ _ D I0 Logic.I)).
Qed.
